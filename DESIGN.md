# Formal model of ajdmom in Rocq/Coq 8.16.1

`/verif/rocq/theories` contains a shallow, executable Gallina model of
`xmlongan/ajdmom` (Python, `/repo/src/ajdmom`) and machine-checked proofs of
the properties listed in `properties.jsonl`.  The code in `/repo` was read as
text only and is never run; the tie between model and code is the citation
(`file:lines`) in the comment of every definition.

* `properties.jsonl` — the properties, in words.
* `MANIFEST.json` — for each property its status and the theorems.
* `ASSUMPTIONS.md` — for each theorem of the manifest what `Print Assumptions` lists.
* `seeded/LOG.jsonl` — wrong programs tried against the theorems and what failed.
  `theorems_failed` lists the proofs at which the compiler stopped; `theorems_not_reached`
  lists the theorems of the named claim in files that could not be compiled after that
  (their own proofs were not tried).

## Layers
| layer | content |
|---|---|
| `Base/` | exceptions as values (`res`), Python ranges, rational and real helpers |
| `Model/` | the Python modules, function by function, no proofs |
| `Spec/` | independent specifications: reals, derivatives, integrals, moment equations, expectation operators, laws given by their moment generating functions; they never mention the model |
| `Proof/` | lemmas |
| `Props/` | the property theorems, each with `Example`s showing that the hypotheses are met by a concrete case |

## What is modelled
Every function of `/repo/src/ajdmom` is modelled except those under "Not modelled".

| Python | model file |
|---|---|
| `poly.py` class `Poly`, `kv` | `Poly.v`; `write_to_csv` in `Csv.v`; `write_to_txt`, and `write_to_csv` for nested keys, in `Txt.v` |
| `utils.py` | `Utils.v` (stack machines on `Loop.v`), `FZ.v` |
| `cpp_mom.py` | `CppMom.v` |
| `ito_mom.py` | `ItoMom.v` (the memo dict: `Cache.v`) |
| `itos_mom.py` | `ItosMom.v` |
| `ito_cond_mom.py` | `ItoCond.v` |
| `mdl_1fsv/{cmom,mom,cov}.py` | `Fsv1.v` (nested loops: `Nest.v`); `dpoly`, `poly2num` in `Dpoly.v`; `m dm cm dcm cov dcov` in `Scalar.v` |
| `mdl_1fsv/cond_cmom.py` | `CondCmom1.v` |
| `mdl_1fsvj/{cmom,mom,cov}.py` | `Fsv1j.v`, `Dpoly.v`, `Scalar.v` |
| `mdl_2fsv`, `mdl_2fsvj` `{cmom,mom,cov}.py` | `Fsv2.v`, `Dpoly2.v`, `Scalar.v` |
| `mdl_srjd/{iez_mom,iez_cmom}.py` | `SrjdIez.v` |
| `mdl_srjd/{cond_ie_iez_mom,cond_ie_iez_cmom,cond_mom,cond_cmom}.py` | `SrjdCond.v`; the first two files have the same text up to three constants and share one parametrised model |
| `mdl_srjd/{cmom,mom}.py` | `SrjdStat.v` |
| `mdl_srjd/{cond2_mom,cond2_cmom}.py` | `SrjdCond2.v` |
| `mdl_svvj`, `mdl_svij` `{cond2_mom,cond2_cmom}.py` | `Svvj.v`; `write_to_subpolys` in `Txt.v` |
| `mdl_svcj/ieziziz_mom.py` | `SvcjIez.v` |
| `mdl_svcj/cond_ieii_ieziziz_mom.py` | `SvcjCond.v`; the four similar branches share `svcj_branch` |
| `mdl_svcj/{cond_mom,cond_cmom,mom,cmom}.py` | `SvcjMom.v`; the two central-moment functions share `central_loop` |
| `mdl_svcj/{cond2_mom,cond2_cmom}.py` | `SvcjCond2.v` |
| scalar functions of `mdl_srjd`, `mdl_svcj` | `Decode.v` (partial dict: a missing name is `KeyError`) |
| scalar functions of the `cond2_*` modules | `Cond2D.v` (partial dicts of numbers and of tuples) |
| scalar functions of `mdl_1fsv`, `mdl_1fsvj`, `mdl_2fsv`, `mdl_2fsvj` with a partial dict | `ScalarD.v` |
| `mdl_*/euler.py` (eight simulators) | `Euler.v` |

### Modelling decisions
* **Poly** (`collections.UserDict` subclass) is an insertion-ordered association
  list `list (K * Q)` plus the `keyfor` attribute (`list string`).  Update in
  place keeps the position, a new key is appended, `del` removes.  `Fraction`
  and `int` coefficients are `Q` kept reduced (`Qred`) after each operation.
* **Keys**: int tuples are `list Z`; nested tuples have their own product types.
  `k[i]` on a tuple is `nth i k 0`; where a short key would raise `IndexError`,
  either the model returns `Err IndexError` or a length invariant is proved.
* **Exceptions** are values (`Err e`); a function that can raise returns `res`.
  Loops over `range` are folds over explicit lists, `while` loops are fuelled
  and the theorems exclude the out-of-fuel result.
* **Mutation** (`merge`, `remove_zero`, the caches, `del`) returns the new value.
* **Numbers**: floats are real numbers; rounding, overflow and `nan` are not
  modelled.  `x ** n` with integer `n` is `powerRZ` (`0 ** 0 = 1` as in Python).
  In `Dpoly*.v` and `Scalar.v` a negative power of 0 is excluded by
  hypotheses of the theorems; in `Decode.v` and `ScalarD.v` it is
  `ZeroDivisionError`.  `(1-rho**2)**(n/2)` is `sqrt(1-rho^2)^n`; in `ScalarD.v`
  it is the integer power for even n, and for |rho| > 1 and odd n, where Python
  returns a complex number, the marker `ComplexResult` (C58: it never arises).
* **Dicts of parameters**: in `Dpoly*.v`, `Scalar.v`, `CondCmom1.v` a total
  function from names; in `Decode.v`, `ScalarD.v`, `Euler.v` a partial function,
  so a missing name is `KeyError`; C54 relates `ScalarD.v` to `Scalar.v`.
* **Random numbers** (`Euler.v`): a `world` says what the c-th call of a
  generator returns, as a function of its arguments; one counter numbers the
  calls of all generators.  A normal draw is `loc + scale * z`, `z` from the
  world.  Theorems about laws quantify over all expectation operators under
  which the draws have the stated conditional moments.
* **Probability**: no measure theory is used.  "Moment of a random quantity" is
  stated as (a) the unique solution of the moment equations that Ito's formula
  gives (integral equations, `Spec/Volterra.v`, also with a given jump path),
  (b) derivatives at 0 of the moment generating function of the law, or (c) for
  every linear expectation operator whose joint moments satisfy (a)/(b), `E[y^l]`
  is the value of the polynomial.  That Ito's formula yields (a) is a
  mathematical fact outside the model; the equations are written out in
  `Spec/` next to the model of the process.

### Not modelled
* `Poly.set_keyfor` (the field of the record; a `Poly` without `keyfor` has the
  class attribute `()`, here the empty list), the file name of `write_to_csv`, encodings and the file system: a written file is a
  name and a text.
* `print` and `show` output, `__main__` blocks, tests, scripts, plots, docs.
* The global state of numpy's generators, seeds, the distribution of numpy's
  pseudo-random numbers.
* Float rounding, recursion and memory limits of Python.

## Trusted base
* The Coq 8.16.1 kernel (`coqc`; all files are re-checked by `coqchk`).
* Axioms: `ClassicalDedekindReals.sig_forall_dec`, `sig_not_dec`,
  `functional_extensionality_dep` and `Classical_Prop.classic`, all of the
  standard library (the real numbers and what Coquelicot's integrals use).
  `ASSUMPTIONS.md` says which theorem uses which; the combinatorial theorems are
  closed under the global context.  There are no axioms of this development.
* The faithfulness of the hand-written model and the idealisation of floats as
  reals and of generators as worlds.

### Assumed about numpy
The errors of the generators (negative scale, negative rate, non-positive degrees
of freedom give `ValueError`; `normal(loc, scale, 0)` checks its scale too) are
written down from general knowledge of numpy; numpy is not in the repository and
this was not checked against its source.

## Quirks of the code kept in the model
* `dbfactorial` of a negative number returns the number itself.
* `cmnorm` of an odd order leaves the entry `{(0,): 0}`.
* `moment_y(l)`, `cmoment_y(l)` with negative `l` return an empty poly.
* `mdl_srjd/iez_cmom.py` `cm` raises `TypeError`.
* `itos_mom.int_et` tests `n1+n2 == 0` (C25), its recursion is an `elif` chain (C26).
* `ito_cond_mom.int_e_IEZ_poly` updates the key inside its loop (C33).
* Two-factor denominators can vanish (`ZeroDivisionError`): `dens_defined` in C46.
* `classify` indexes its list by the number of sums, not by position (C39).
* `rIEII` raises `ValueError` on unsorted jump times; `rSRJD` raises
  `ZeroDivisionError` when two jumps coincide or a jump is at time 0, and
  includes jumps after the horizon; `rSVCJ` adds a price jump for every variance
  jump given, even one after the horizon (C51).

## Property map
Status and theorem names are in `MANIFEST.json`; this table says how each
property is approached (P = proof for all inputs, R = refuted by a witness of
the faithful model plus the true part proved).

| id | how |
|---|---|
| C01-C06 | P: generic lemmas on association lists, evaluation homomorphisms, key uniqueness, zero-freeness |
| C07 | P: induction on the list; multinomial theorem over enumerated compositions |
| C08, C09 | P: the stack machines are modelled step by step with fuel; refinement to recursive enumeration |
| C10 | P: binomial theorem on (1-rho^2)^p; exception iff odd power |
| C11 | P: Stein recurrence from `dmgf`; double factorial closed form |
| C12 | P: derivative and initial value, then Riemann integral (Coquelicot) |
| C13 | P: product formula by induction on n |
| C14-C16 | P: loop invariant over the moment cache; Volterra system and its uniqueness |
| C17, C18 | P: symbolic MGF differentiation invariant, compound Poisson recurrence |
| C19-C21, C23, C24 | P: expectation-operator statement, multinomial theorem |
| C22, C27 | P: `is_derive` of the decoded value for arbitrary Polys |
| C25, C26 | R: `n1+n2==0` test and `elif` chain; true parts proved |
| C28 | P: bilinear loops, binomial convolution |
| C29-C31 | P: recurrences, Volterra system, stationarity |
| C32 | P: integrals over arbitrary jump histories |
| C33 | R: loop-carried keys; correct when the time power is 0 |
| C34 | P: conditional moments as expectation of the documented representation |
| C35 | R: order-zero polys; the models where it fails have witnesses |
| C36 | P: symbolic MGF differentiation in three variables, tree invariant |
| C37 | P: six-index recursion, table invariant, Volterra system |
| C38 | P: multinomial expansion; stationarity of the variance |
| C39 | R: csv lines determine the poly when `l_{1:n}` has one length; `classify` |
| C40 | P: two-factor moments compose the conditional ones |
| C41 | R: joint moments given the jump path, true without the IEZ defect of C33 |
| C42 | P: Volterra system with jumps |
| C43, C45 | R: consequences of C33 and what remains true |
| C44 | P: normal price jumps composed given the variance jumps |
| C46, C47 | P/R: scalar functions, from parameters to moments and derivatives |
| C48 | P: refinement of the simulators to the truncated Euler scheme; conditional mean and variance |
| C49 | P: the simulators given the variance jumps, martingale argument over the merged grid |
| C50 | P: noncentral chi-square moments, binomial transforms; induction over the jumps |
| C51 | R: jumps after the horizon |
| C52 | R: closed form of the four missing conditional moments, tower property; the shortfall is positive (mean value theorem) |
| C53 | R: unique readability of the printed tuples; number of commas in a row |
| C54 | P: shape of the keys (only 1/k or the denominators may be negative powers); monad reasoning |
| C55 | P: every function returns polynomials whose keys have one fixed degree (weights per position); scaling of monomials |
| C56 | P: parity of the powers of sigma (and rho) as an invariant of the memo tables, of the keys with nonzero coefficient only |
| C58 | P: all keys, also those with coefficient 0, have an even power of sqrt(1-rho^2) (C57 and remove_zero); halving it gives monomials in rho and 1-rho^2, differentiable everywhere |
| C59 | P: the recursion of fZ against the sum over all index tuples, with the error of a missing jump time; the shape of all keys (non-negative powers of jump times, even power of sqrt(1-rho^2)) decides which factors can fail; end-to-end via C34, C42-C45 |
| C60 | P: the larger model's value theorems applied to an expectation of the smaller one in which the jump variables are 0; for 2FSVJ the coefficients of the jump terms; the moment systems of SRJD and SVCJ at rate 0 solved by that of ito_mom.py, and uniqueness of the stationary moments |
| C61 | P: for each model and order, a finite expectation on which the value theorems of m and cm both hold; the binomial formula under it |
| C62 | P: as C61, with one expectation for the drifts mu and mu + d (the return is moved by d*h); pairs of returns for cov; the derivatives from C46 and uniqueness of the derivative |
| C63 | P: induction over the list for comb and list.index; the first row (first segment) of the simulators that reaches the bad argument; induction over the segments for the missing jump size |
| C64 | P: the polynomials of orders 1 and 2 are computed and compared with formulas derived by hand (`field`); the variances are written as sums of squares |
| C65 | `PropsCondVar.v`: closed antiderivatives of the two integrands; the polynomials of orders 1 and 2 computed and compared by `field`.  `PropsPathVar.v`: given the jump path, from C59 and the moment equations of order 2 |
| C66 | `PropsNames.v`: for every helper the literal list of names, by running through the computation that returned; `merge` and `*` keep the names of the left operand |
| C67 | Props/PropsLimits.v: a model of the spec is built on each boundary (h = 0, theta = 0: all integrals zero; sigma_v = 0: the Ito system is solved explicitly by Gaussian moments) and C46 carries its moments over to the scalar functions; Stein's identity links them to the derivatives of the normal MGF. Props/PropsMerton.v adds an independent compound Poisson sum; Leibniz' rule gives the product of the MGFs |
| C68 | Props/PropsOrder0.v: linearity of the expectation in a realisation of the model (C21/C23_hypotheses_hold), carried over by C46 |
| C57 | P: memo entries with odd n5 (n8) have no nonzero coefficient; carried through to the powers of sqrt(1-rho^2) |
