(** Python-level prelude: exceptions as values, ranges, Fractions. *)
From Coq Require Export String ZArith QArith Qreduction Bool Lia List.
Export ListNotations.
Local Open Scope Z_scope.

(** Python exception classes that the modelled code can raise. *)
Inductive exn :=
| NotImplementedError
| ValueError
| KeyError
| IndexError
| TypeError
| NameError
| UnboundLocalError
| ZeroDivisionError
| BareException
| ComplexResult  (** not a Python exception: a power of a negative float is a complex number *)
| OutOfFuel.  (** not a Python exception: a fuelled [while] ran out of fuel *)

Inductive res (A : Type) :=
| Ok (a : A)
| Err (e : exn).
Arguments Ok {A} a.
Arguments Err {A} e.

Definition bind {A B} (r : res A) (f : A -> res B) : res B :=
  match r with Ok a => f a | Err e => Err e end.

Declare Scope res_scope.
Delimit Scope res_scope with res.
Notation "'let!' x ':=' r 'in' b" := (bind r (fun x => b))
  (at level 200, x name, r at level 100, b at level 200, right associativity).

(** Loop [for x in l: s = f(s, x)] whose body may raise. *)
Fixpoint foldM {S A} (f : S -> A -> res S) (l : list A) (s : S) : res S :=
  match l with
  | [] => Ok s
  | x :: r => match f s x with Ok s' => foldM f r s' | Err e => Err e end
  end.

(** Python [range(a, b)] (step 1). *)
Definition range (a b : Z) : list Z :=
  map (fun i => a + Z.of_nat i) (seq 0 (Z.to_nat (b - a))).

(** Python [range(a, -1, -1)]: a, a-1, ..., 0. *)
Definition range_down (a : Z) : list Z := rev (range 0 (a + 1)).

(** Component [k[i]] of an int tuple (0 when out of range; see DESIGN.md). *)
Definition nthZ (k : list Z) (i : nat) : Z := nth i k 0.

(** [key = list(k); key[i] += d; key = tuple(key)]; IndexError cases excluded
    by the length invariants. *)
Fixpoint addat (i : nat) (d : Z) (k : list Z) : list Z :=
  match k, i with
  | [], _ => []
  | x :: r, O => (x + d) :: r
  | x :: r, S i' => x :: addat i' d r
  end.

(** Fractions: [Fraction(n, d)], d <> 0, always in lowest terms. *)
Definition Frac (n d : Z) : Q := Qred (inject_Z n / inject_Z d).
Definition qadd (x y : Q) : Q := Qred (x + y).
Definition qmul (x y : Q) : Q := Qred (x * y).
Definition qsub (x y : Q) : Q := Qred (x - y).
Definition qopp (x : Q) : Q := Qred (- x).
Definition qz (z : Z) : Q := inject_Z z.
Definition qzero (x : Q) : bool := Qeq_bool x 0.

(** [(-1) ** n] for an integer n >= 0. *)
Definition sgn1 (n : Z) : Z := if Z.even n then 1 else -1.

(** [math.factorial] and [math.comb] (non-negative arguments). *)
Fixpoint factN (n : nat) : Z :=
  match n with O => 1 | S m => Z.of_nat n * factN m end.
Definition fact (n : Z) : Z := factN (Z.to_nat n).
Fixpoint combN (n k : nat) : Z :=
  match n, k with
  | _, O => 1
  | O, S _ => 0
  | S n', S k' => combN n' k' + combN n' k
  end.
(** [math.comb(n, k)]: raises ValueError on negative arguments; this is the
    value on non-negative arguments. *)
Definition mcomb (n k : Z) : Z := combN (Z.to_nat n) (Z.to_nat k).

(** Dict keys: types with a decidable equality. *)
Class Key (K : Type) := {
  keqb : K -> K -> bool;
  keqb_spec : forall a b, keqb a b = true <-> a = b
}.

Fixpoint listb {A} (eqb : A -> A -> bool) (a b : list A) : bool :=
  match a, b with
  | [], [] => true
  | x :: r, y :: s => eqb x y && listb eqb r s
  | _, _ => false
  end.

Lemma listb_spec {A} (eqb : A -> A -> bool)
  (H : forall x y, eqb x y = true <-> x = y) :
  forall a b, listb eqb a b = true <-> a = b.
Proof.
  induction a as [|x r IH]; destruct b as [|y s]; simpl; split; intro E;
    try reflexivity; try discriminate.
  - apply andb_prop in E. destruct E as [E1 E2].
    apply H in E1. apply IH in E2. now subst.
  - inversion E; subst. apply andb_true_intro. split; [now apply H|now apply IH].
Qed.

#[global] Instance Key_Z : Key Z :=
  {| keqb := Z.eqb; keqb_spec := Z.eqb_eq |}.
#[global] Instance Key_list {A} `{Key A} : Key (list A) :=
  {| keqb := listb keqb; keqb_spec := listb_spec keqb keqb_spec |}.

Lemma prodb_spec {A B} (ea : A -> A -> bool) (eb : B -> B -> bool)
  (Ha : forall x y, ea x y = true <-> x = y)
  (Hb : forall x y, eb x y = true <-> x = y) :
  forall a b : A * B,
    (ea (fst a) (fst b) && eb (snd a) (snd b)) = true <-> a = b.
Proof.
  intros [a1 a2] [b1 b2]; simpl. rewrite andb_true_iff, Ha, Hb.
  split; [intros [-> ->]; reflexivity | intro E; inversion E; auto].
Qed.
#[global] Instance Key_prod {A B} `{Key A} `{Key B} : Key (A * B) :=
  {| keqb := fun a b => keqb (fst a) (fst b) && keqb (snd a) (snd b);
     keqb_spec := prodb_spec keqb keqb keqb_spec keqb_spec |}.
#[global] Instance Key_string : Key string :=
  {| keqb := String.eqb; keqb_spec := String.eqb_eq |}.
