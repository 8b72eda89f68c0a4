(** The conditional joint moments E[IE1^a I1^b IE2^c I2^d I*^e | v1_0, v2_0] of the two-factor
    square-root model: for i = 1, 2
      vi_{s0+s} = e^{-ki s}(vi_0 - theta_i) + theta_i + sigma_i e^{-ki(s0+s)} IEi_s,
      IEi_t = int e^{ki u} sqrt(vi_u) dwi_u,  Ii_t = int sqrt(vi_u) dwi_u,
      I*_t = int sqrt(v1_u + v2_u) dw_u   (u from s0 to s0+t; w1, w2, w independent)
    as the solution of the system that Ito's formula gives for the product (the recursive
    equation documented in itos_mom.py:117-149). *)
From Coq Require Export Reals ZArith.
From Verif.Spec Require Export Volterra.
Local Open Scope R_scope.

Record par2 := mkPar2 { qk1 : R; qk2 : R; qs0 : R; qv1 : R; qth1 : R; qsg1 : R; qv2 : R; qth2 : R; qsg2 : R }.

Notation ito2_idx := (Z * Z * Z * Z * Z)%type.
Definition ito2_dom (i : ito2_idx) : Prop :=
  let '(a, b, c, d, e) := i in
  (0 <= a)%Z /\ (0 <= b)%Z /\ (0 <= c)%Z /\ (0 <= d)%Z /\ (0 <= e)%Z.

(** c(s) E[vi_{s0+s} prod_s] in terms of the joint moments; [i] is the product, [i1] the
    product times one more IEi *)
Definition vi_terms (k s0 v th sg : R) (c : R -> R) (i i1 : ito2_idx) : list ((R -> R) * ito2_idx) :=
  [ (fun s => c s * (exp (- (k * s)) * (v - th) + th), i);
    (fun s => c s * (sg * exp (- (k * (s0 + s)))), i1) ].
Definition v1_terms (p : par2) (c : R -> R) (i : ito2_idx) : list ((R -> R) * ito2_idx) :=
  let '(a, b, c', d, e) := i in
  vi_terms (qk1 p) (qs0 p) (qv1 p) (qth1 p) (qsg1 p) c i (a + 1, b, c', d, e)%Z.
Definition v2_terms (p : par2) (c : R -> R) (i : ito2_idx) : list ((R -> R) * ito2_idx) :=
  let '(a, b, c', d, e) := i in
  vi_terms (qk2 p) (qs0 p) (qv2 p) (qth2 p) (qsg2 p) c i (a, b, c' + 1, d, e)%Z.

(** second-order terms of Ito's formula: d<IEi> = e^{2ki u} vi du, d<Ii> = vi du,
    d<IEi, Ii> = e^{ki u} vi du, d<I*> = (v1 + v2) du, all other brackets are zero *)
Definition ito2_sys (p : par2) (i : ito2_idx) : list ((R -> R) * ito2_idx) :=
  let '(a, b, c, d, e) := i in
  let e1 (s : R) := exp (qk1 p * (qs0 p + s)) in
  let e2 (s : R) := exp (qk2 p * (qs0 p + s)) in
  (if (2 <=? a)%Z then v1_terms p (fun s => IZR (a * (a - 1)) / 2 * (e1 s * e1 s)) (a - 2, b, c, d, e)%Z else [])
  ++ (if (2 <=? b)%Z then v1_terms p (fun _ => IZR (b * (b - 1)) / 2) (a, b - 2, c, d, e)%Z else [])
  ++ (if ((1 <=? a) && (1 <=? b))%Z then v1_terms p (fun s => IZR (a * b) * e1 s) (a - 1, b - 1, c, d, e)%Z else [])
  ++ (if (2 <=? c)%Z then v2_terms p (fun s => IZR (c * (c - 1)) / 2 * (e2 s * e2 s)) (a, b, c - 2, d, e)%Z else [])
  ++ (if (2 <=? d)%Z then v2_terms p (fun _ => IZR (d * (d - 1)) / 2) (a, b, c, d - 2, e)%Z else [])
  ++ (if ((1 <=? c) && (1 <=? d))%Z then v2_terms p (fun s => IZR (c * d) * e2 s) (a, b, c - 1, d - 1, e)%Z else [])
  ++ (if (2 <=? e)%Z then v1_terms p (fun _ => IZR (e * (e - 1)) / 2) (a, b, c, d, e - 2)%Z
                       ++ v2_terms p (fun _ => IZR (e * (e - 1)) / 2) (a, b, c, d, e - 2)%Z else []).

Definition ito2_init (i : ito2_idx) : R := match i with (0, 0, 0, 0, 0)%Z => 1 | _ => 0 end.

(** [M (a,b,c,d,e) t] are the conditional joint moments at time s0 + t *)
Definition ito2_moments (p : par2) (M : ito2_idx -> R -> R) : Prop :=
  vsol ito2_dom (ito2_sys p) ito2_init M.

(** product of the denominators (n1 k1 + n2 k2)^{-i} *)
Fixpoint denv (k1 k2 : R) (d : list (Z * Z * Z)) : R :=
  match d with
  | [] => 1
  | (n1, n2, i) :: r => powerRZ (/ (IZR n1 * k1 + IZR n2 * k2)) i * denv k1 k2 r
  end.

(** value of a monomial of moment_IEI_IEII at time s0 + t *)
Definition smon (p : par2) (t : R) (k : list (Z * Z * Z) * ((Z * Z) * ((Z * Z) * list Z))) : R :=
  let '(d, ((a, b), ((j1, j2), x))) := k in
  denv (qk1 p) (qk2 p) d * exp ((IZR a * qk1 p + IZR b * qk2 p) * qs0 p)
  * exp ((IZR j1 * qk1 p + IZR j2 * qk2 p) * t)
  * monx [t; qv1 p; qth1 p; qsg1 p; qv2 p; qth2 p; qsg2 p] x.
