(** Property C37: conditional joint moments of the six integrals of mdl_svcj. *)
From Coq Require Import Reals Lra.
From Coquelicot Require Import Coquelicot.
From Verif.Model Require Import SvcjCond.
From Verif.Spec Require Import Svcj.
From Verif.Proof Require Import SvcjCondTable.
Import Verif.Model.SvcjCond Verif.Proof.SvcjAna Verif.Proof.SvcjCondProofs.
Local Open Scope R_scope.

(** expand_ieziziz rewrites the moments of the jump integrals in powers of t and s instead of t-s *)
Theorem C37_expand_ieziziz : forall n1 n2 n3, (0 <= n1)%Z -> (0 <= n2)%Z -> (0 <= n3)%Z ->
  exists p q, SvcjIez.moment_ieziziz n1 n2 n3 = Ok p /\ expand_ieziziz p = Ok q /\
    keyfor q = ["e^{kt}"; "t"; "e^{ks}"; "s"; "k^{-}"; "lmbd"; "mu_v"; "mu_s"; "sigma_s"]%string /\
    forall k lam mv ms ss s t, k <> 0 ->
      eval (monx [exp (k * t); t; exp (k * s); s; / k; lam; mv; ms; ss]) (items q) = eval (monx (ieziziz_vals k lam mv ms ss s t)) (items p).
Proof.
  intros n1 n2 n3 H1 H2 H3. destruct (returns_inv _ _ (moment_ieziziz_spec n1 n2 n3 H1 H2 H3)) as (p & E & W & V).
  destruct (returns_inv _ _ (expand_spec p _ W (fun v => eq_refl (evp mon_j v p)))) as (q & Eq & (K & _) & Vq).
  exists p, q. split; [exact E|]. split; [exact Eq|]. split; [exact K|]. intros k lam mv ms ss s t Hk.
  specialize (Vq (mkCj k Hk 0 0 0 lam mv ms ss) s t). exact Vq.
Qed.

(** C37: for all non-negative orders the function returns (no lookup of its table fails, the
    exception "poly is empty" does not occur), every exponent except that of e^{kt} is non-negative,
    the exponent of v0-theta is at most half of n1+n2+n3, and the polynomial is the conditional
    moment: it is the value of every solution of the system of moment equations. *)
Theorem C37_moment_ieii_ieziziz : forall n1 n2 n3 n4 n5 n6,
  (0 <= n1)%Z -> (0 <= n2)%Z -> (0 <= n3)%Z -> (0 <= n4)%Z -> (0 <= n5)%Z -> (0 <= n6)%Z ->
  exists q, moment_ieii6 n1 n2 n3 n4 n5 n6 = Ok q /\
    keyfor q = ["e^{kt}"; "t"; "k^{-}"; "v0-theta"; "theta"; "sigma"; "lmbd"; "mu_v"; "mu_s"; "sigma_s"]%string /\
    NoDup (map fst (items q)) /\
    (forall key c, In (key, c) (items q) -> length key = 10%nat /\ (forall e, In e (tl key) -> (0 <= e)%Z) /\
       (2 * nthZ key 3 <= n1 + n2 + n3)%Z) /\
    (Z.odd n3 = true -> forall key c, In (key, c) (items q) -> Q2R c = 0) /\
    forall p M t, jk p <> 0 -> 0 <= t -> svcj_moments p M ->
      eval (monx (ieii6_vals p t)) (items q) = M (n1, n2, n3, n4, n5, n6) t.
Proof.
  intros n1 n2 n3 n4 n5 n6 h1 h2 h3 h4 h5 h6.
  assert (D : cj_dom (n1, n2, n3, n4, n5, n6)) by (unfold cj_dom; lia).
  destruct (returns_inv _ _ (moment_ieii6_spec _ _ _ _ _ _ D)) as (q & E & ((W1 & W2 & W3) & V) & Z3).
  exists q. split; [assumption|]. split; [exact W1|]. split; [exact W2|]. split; [|split].
  - intros key c Hin. destruct (allk_in _ _ _ _ W3 Hin) as [W Wd]. unfold s10 in W. wfs_destruct.
    split; [reflexivity|]. split; [|exact Wd]. cbn [tl]. intros e He. simpl in He.
    repeat (destruct He as [<-|He]; [assumption|]). destruct He.
  - intros O key c. apply (Z3 O).
  - intros p M t Hk Ht HM.
    pose (v := mkCj (jk p) Hk (jv0 p - jth p) (jth p) (jsg p) (jlam p) (jmv p) (jms p) (jss p)).
    change (evp mon10 (v, t) q = M (n1, n2, n3, n4, n5, n6) t). rewrite V. symmetry.
    apply (vsol_unique cj_dom (csys6 v) cj_init cord6 (csys6_tri v) M (JM6 v)).
    + exact HM.
    + exact (vsol_exists cj_dom (csys6 v) cj_init cord6 (csys6_tri v) (csys6_cont v)).
    + exact D.
    + exact Ht.
Qed.

(** The system of moment equations has a solution, so the last clause is not empty. *)
Theorem C37_moments_exist : forall p, jk p <> 0 -> exists M, svcj_moments p M.
Proof.
  intros p Hk. pose (v := mkCj (jk p) Hk (jv0 p - jth p) (jth p) (jsg p) (jlam p) (jmv p) (jms p) (jss p)).
  exists (JM6 v). exact (vsol_exists cj_dom (csys6 v) cj_init cord6 (csys6_tri v) (csys6_cont v)).
Qed.

Theorem C37_negative : forall n1 n2 n3 n4 n5 n6,
  (n1 < 0 \/ n2 < 0 \/ n3 < 0 \/ n4 < 0 \/ n5 < 0 \/ n6 < 0)%Z -> moment_ieii6 n1 n2 n3 n4 n5 n6 = Err ValueError.
Proof.
  intros n1 n2 n3 n4 n5 n6 H. unfold moment_ieii6.
  destruct (Z.ltb_spec n1 0), (Z.ltb_spec n2 0), (Z.ltb_spec n3 0), (Z.ltb_spec n4 0), (Z.ltb_spec n5 0), (Z.ltb_spec n6 0);
    try reflexivity. lia.
Qed.

Example C37_example : match moment_ieii6 1 1 0 1 0 0 with Ok q => length (items q) = 13%nat | Err _ => False end.
Proof. vm_compute. reflexivity. Qed.
(** E[I*^2] = (v0-theta)(1-e^{-kt})/k + theta t + lmbd mu_v (t/k - (1-e^{-kt})/k^2) *)
Example C37_value : exists q, moment_ieii6 0 0 2 0 0 0 = Ok q /\
  items q = [([-1; 0; 1; 1; 0; 0; 0; 0; 0; 0]%Z, (-1)%Q); ([0; 0; 1; 1; 0; 0; 0; 0; 0; 0]%Z, 1%Q);
    ([0; 1; 0; 0; 1; 0; 0; 0; 0; 0]%Z, 1%Q); ([0; 1; 1; 0; 0; 0; 1; 1; 0; 0]%Z, 1%Q);
    ([-1; 0; 2; 0; 0; 0; 1; 1; 0; 0]%Z, 1%Q); ([0; 0; 2; 0; 0; 0; 1; 1; 0; 0]%Z, (-1)%Q)].
Proof. eexists. split; [vm_compute; reflexivity|]. reflexivity. Qed.
Example C37_odd : exists q, moment_ieii6 0 1 1 0 0 0 = Ok q /\ items q = [].
Proof. eexists. split; [vm_compute; reflexivity|]. reflexivity. Qed.
Example C37_params : exists M, svcj_moments (mkSvcj 1 2 1 1 1 1 0 1) M.
Proof. apply C37_moments_exist. exact R1_neq_R0. Qed.
