(** Moments of the square-root model given the jump path of its variance:
      v_s = e^{-ks}(v_0 - theta) + theta + sigma e^{-ks} IE_s + e^{-ks} IEZ_s,
      IEZ_s = sum over the jumps up to time s of e^{k s_i} J_i,
    where the jump path z is given.  The joint moments E[IE^a I^b I*^d | v_0, z] solve
    the system that Ito's formula gives for the product IE^a I^b I*^d (documented in
    ito_cond_mom.py:1-300). *)
From Coq Require Export Reals ZArith.
From Verif.Spec Require Export Volterra FZSpec.
Local Open Scope R_scope.

(** a jump path: (time, size) of every jump *)
Notation path := (list (R * R)).

Definition upto (t : R) (z : path) : path :=
  filter (fun sj => if Rle_dec (fst sj) t then true else false) z.
Definition jumps_ok (z : path) : Prop := forall sj, In sj z -> 0 < fst sj.

Definition IEZ_path (k : R) (z : path) (s : R) : R :=
  sumR (fun sj => exp (k * fst sj) * snd sj) (upto s z).

Record zpar := mkZpar { zpk : R; zpv : R; zpth : R; zpsg : R }.

Notation zidx := (Z * Z * Z)%type.
Definition zdom (i : zidx) : Prop :=
  let '(a, b, d) := i in (0 <= a)%Z /\ (0 <= b)%Z /\ (0 <= d)%Z.

(** part of v_s that does not depend on the Brownian motions *)
Definition v_given (p : zpar) (z : path) (s : R) : R :=
  exp (- (zpk p * s)) * (zpv p - zpth p) + zpth p + exp (- (zpk p * s)) * IEZ_path (zpk p) z s.

(** c(s) E[v_s IE_s^a I_s^b I*_s^d | z] in terms of the joint moments *)
Definition vz_terms (p : zpar) (z : path) (c : R -> R) (i : zidx) : list ((R -> R) * zidx) :=
  let '(a, b, d) := i in
  [ (fun s => c s * v_given p z s, (a, b, d));
    (fun s => c s * (zpsg p * exp (- (zpk p * s))), (a + 1, b, d)%Z) ].

(** d<IE> = e^{2ku} v du, d<I> = d<I*> = v du, d<IE, I> = e^{ku} v du, the others 0 *)
Definition cond_sys (p : zpar) (z : path) (i : zidx) : list ((R -> R) * zidx) :=
  let '(a, b, d) := i in
  let e (s : R) := exp (zpk p * s) in
  (if (2 <=? a)%Z then vz_terms p z (fun s => IZR (a * (a - 1)) / 2 * (e s * e s)) (a - 2, b, d)%Z else [])
  ++ (if (2 <=? b)%Z then vz_terms p z (fun _ => IZR (b * (b - 1)) / 2) (a, b - 2, d)%Z else [])
  ++ (if ((1 <=? a) && (1 <=? b))%Z then vz_terms p z (fun s => IZR (a * b) * e s) (a - 1, b - 1, d)%Z else [])
  ++ (if (2 <=? d)%Z then vz_terms p z (fun _ => IZR (d * (d - 1)) / 2) (a, b, d - 2)%Z else []).

Definition cond_init (i : zidx) : R := match i with (0, 0, 0)%Z => 1 | _ => 0 end.

(** [M (a,b,d) t] = E[IE_t^a I_t^b I*_t^d | v_0, z] *)
Definition cond_moments (p : zpar) (z : path) (M : zidx -> R -> R) : Prop :=
  vsol zdom (cond_sys p z) cond_init M.

(** Keys of the polys of ito_cond_mom.py: six ints and the tuples l, o, p, q of
    f_{Z_t}(l, o, p, q); symbols e^{kt}, t, 1/k, v_0 - theta, theta, sigma. *)
Notation jkey := (list Z * (list Z * list Z * list Z * list Z))%type.

Definition fZ_path (k : R) (z : path) (lopq : list Z * list Z * list Z * list Z) : R :=
  let '(l, o, p, q) := lopq in fZ_sum k (map fst z) (map snd z) l o p q.
Definition zvals (p : zpar) (t : R) : list R :=
  [exp (zpk p * t); t; / zpk p; zpv p - zpth p; zpth p; zpsg p].
Definition jmon (p : zpar) (z : path) (t : R) (key : jkey) : R :=
  monx (zvals p t) (fst key) * fZ_path (zpk p) (upto t z) (snd key).

(** shape of the tuples: one entry of l and o per level of summation, one entry of p
    and q per level from the second on *)
Definition jshape (lopq : list Z * list Z * list Z * list Z) : Prop :=
  let '(l, o, p, q) := lopq in
  length o = length l /\ length p = pred (length l) /\ length q = pred (length l).
Definition jkey_ok (key : jkey) : Prop :=
  length (fst key) = 6%nat /\ (forall i, i <> O -> (0 <= nth i (fst key) 0)%Z) /\ jshape (snd key).
