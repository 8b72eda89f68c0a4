(** Variation of constants for the moment equations of mdl_srjd. *)
From Coq Require Import Reals Lra.
From Coquelicot Require Import Coquelicot.
From Verif.Spec Require Export Srjd.
From Verif.Proof Require Export BinConv VolterraFacts SrjdIezProofs.
Local Open Scope R_scope.

(** ** cumulants of the jump integral, raw (j0 = 1) and centred (j0 = 2) *)
Definition kap (j0 : nat) (v : iv) (j : nat) : R := if (j <? j0)%nat then 0 else iezk v j.

(** a family of moments with these cumulants *)
Definition zfam (j0 : nat) (zm : iv -> nat -> R) : Prop :=
  (forall v, zm v 0%nat = 1) /\ forall v n, zm v (S n) = bc (sh (kap j0 v)) (zm v) n.

Lemma iezm_fam : zfam 1 iezm.
Proof.
  split; [reflexivity|]. intros v n. rewrite iezm_S. unfold bc, sh, kap. apply sumR_ext. intros j _.
  reflexivity.
Qed.
Lemma ciezm_bc v n : ciezm v n = bc (epow (- iezm v 1)) (iezm v) n.
Proof. reflexivity. Qed.
Lemma ciezm_fam : zfam 2 ciezm.
Proof.
  split.
  - intro v. rewrite ciezm_bc, bc_0, iezm_0. unfold epow. rewrite pow_O. ring.
  - intros v n. rewrite ciezm_bc, bc_S.
    rewrite (bc_ext (sh (epow (- iezm v 1))) (fun k => - iezm v 1 * epow (- iezm v 1) k) (iezm v) (iezm v)) by auto.
    rewrite (bc_ext (epow (- iezm v 1)) (epow (- iezm v 1)) (sh (iezm v)) (bc (sh (kap 1 v)) (iezm v)))
      by (intros; auto; apply (proj2 iezm_fam)).
    rewrite bc_scal_l, bc_swap.
    rewrite (bc_ext (sh (kap 2 v)) (fun k => sh (kap 1 v) k + - iezm v 1 * dlt k) (ciezm v) (bc (epow (- iezm v 1)) (iezm v))).
    + rewrite bc_plus_l, bc_scal_l, bc_dlt_l. ring.
    + intros k _. unfold sh, kap. destruct k as [|k].
      * rewrite (proj2 iezm_fam v 0%nat), bc_0, iezm_0. unfold sh, kap. cbn [Nat.ltb Nat.leb dlt]. ring.
      * cbn [Nat.ltb Nat.leb dlt]. ring.
    + intros k _. apply ciezm_bc.
Qed.

(** ** the system *)
Record cv := mkCv { ck : R; ckn : ck <> 0; ca : R; cb : R; csg : R; clam : R; cmu : R }.
Definition ivt (v : cv) (s t : R) : iv := iezv (ck v) (clam v) (cmu v) s t.
Definition csys (j0 : nat) (v : cv) := jd_sys (ck v) (ca v) (cb v) (csg v) (clam v) (cmu v) (Z.of_nat j0).
Definition cord (i : jd_idx) : nat := Z.to_nat (fst i + snd i).

Section Ana.
Context (j0 : nat) (Hj0 : (1 <= j0)%nat) (zm : iv -> nat -> R) (Hz : zfam j0 zm).

(** jump rates *)
Definition gam (v : cv) (t : R) (j : nat) : R :=
  if (j <? j0)%nat then 0 else clam v * IZR (factN j) * cmu v ^ j * exp (INR j * (ck v * t)).
Lemma gam_0 v t : gam v t 0 = 0.
Proof. unfold gam. destruct (Nat.ltb_spec 0 j0); [reflexivity|lia]. Qed.

Lemma exp_pow_mul x m : exp x ^ m = exp (INR m * x).
Proof.
  induction m as [|m IH]; [simpl; rewrite Rmult_0_l, exp_0; reflexivity|].
  rewrite S_INR. simpl pow. rewrite IH, <- exp_plus. f_equal. ring.
Qed.

Lemma kap_derive_t v s (t : R) j : is_derive (fun t => kap j0 (ivt v s t) (S j)) t (gam v t (S j)).
Proof.
  unfold kap, gam. destruct (S j <? j0)%nat; [apply is_derive_Rconst|].
  unfold iezk. apply (is_derive_ext_loc_all (fun t => clam v * (IZR (factN j) * / ck v *
    ((cmu v ^ S j) * exp (INR (S j) * (ck v * t)) - (cmu v * exp (ck v * s)) ^ S j)))).
  { intro u. rewrite gj_0. unfold ivt; cbn [iezv xl xi xm xt xs]. now rewrite (Rpow_mult_distr (cmu v) (exp (ck v * u))), exp_pow_mul. }
  eapply is_derive_val.
  - apply is_derive_Rscal, is_derive_Rscal. apply is_derive_Rminus; [|apply is_derive_Rconst].
    apply is_derive_Rscal. apply is_derive_Rexp. apply is_derive_Rscal. apply is_derive_lin.
  - cbv beta. change (factN (S j)) with (Z.of_nat (S j) * factN j)%Z. rewrite mult_IZR, <- INR_IZR_INZ.
    field. apply ckn.
Qed.
Lemma kap_derive_s v (s : R) t j : is_derive (fun s => kap j0 (ivt v s t) (S j)) s (- gam v s (S j)).
Proof.
  unfold kap, gam. destruct (S j <? j0)%nat; [eapply is_derive_val; [apply is_derive_Rconst|ring]|].
  unfold iezk. apply (is_derive_ext_loc_all (fun s => clam v * (IZR (factN j) * / ck v *
    ((cmu v * exp (ck v * t)) ^ S j - (cmu v ^ S j) * exp (INR (S j) * (ck v * s)))))).
  { intro u. rewrite gj_0. unfold ivt; cbn [iezv xl xi xm xt xs]. now rewrite (Rpow_mult_distr (cmu v) (exp (ck v * u))), exp_pow_mul. }
  eapply is_derive_val.
  - apply is_derive_Rscal, is_derive_Rscal. apply is_derive_Rminus; [apply is_derive_Rconst|].
    apply is_derive_Rscal. apply is_derive_Rexp. apply is_derive_Rscal. apply is_derive_lin.
  - cbv beta. change (factN (S j)) with (Z.of_nat (S j) * factN j)%Z. rewrite mult_IZR, <- INR_IZR_INZ.
    field. apply ckn.
Qed.

Lemma zm_derive_t v s (t : R) n : is_derive (fun t => zm (ivt v s t) n) t (bc (gam v t) (zm (ivt v s t)) n).
Proof.
  destruct Hz as [z0 zS].
  apply (cumulant_derive (fun t => zm (ivt v s t)) (fun t => kap j0 (ivt v s t)) (gam v t)).
  - intro; apply z0.
  - intros; apply zS.
  - apply gam_0.
  - intro j. apply kap_derive_t.
Qed.
Lemma zm_derive_s v (s : R) t n :
  is_derive (fun s => zm (ivt v s t) n) s (bc (fun j => - gam v s j) (zm (ivt v s t)) n).
Proof.
  destruct Hz as [z0 zS].
  apply (cumulant_derive (fun s => zm (ivt v s t)) (fun s => kap j0 (ivt v s t)) (fun j => - gam v s j)).
  - intro; apply z0.
  - intros; apply zS.
  - rewrite gam_0. ring.
  - intro j. apply kap_derive_s.
Qed.
Lemma zm_diag v t n : zm (ivt v t t) n = dlt n.
Proof.
  destruct Hz as [z0 zS]. destruct n as [|n]; [apply z0|]. rewrite zS.
  rewrite (bc_ext _ (fun _ => 0) _ (zm (ivt v t t))); [apply bc_zero_l| |reflexivity].
  intros j _. unfold sh, kap. destruct (S j <? j0)%nat; [reflexivity|].
  unfold iezk. rewrite gj_0. unfold ivt; cbn [iezv xl xi xm xt xs]. ring.
Qed.

Lemma csys_tri v : forall i, jd_dom i -> forall c j, In (c, j) (csys j0 v i) -> jd_dom j /\ (cord j < cord i)%nat.
Proof.
  intros [n1 n2] [h1 h2] c j Hin. unfold csys, jd_sys in Hin. apply in_app_or in Hin.
  unfold jd_dom, cord in *; cbn [fst snd] in *. destruct Hin as [Hin|Hin].
  - destruct (Z.leb_spec 2 n1); [|destruct Hin].
    repeat (destruct Hin as [Hin|Hin]; [inversion Hin; subst; cbn [fst snd]; lia|]). destruct Hin.
  - apply in_map_iff in Hin. destruct Hin as (x & E & Hx). apply in_range in Hx. inversion E; subst. cbn [fst snd]. lia.
Qed.
Lemma csys_cont v : forall i c j, In (c, j) (csys j0 v i) -> forall t, continuous c t.
Proof.
  intros [n1 n2] c j Hin t. unfold csys, jd_sys in Hin. apply in_app_or in Hin. destruct Hin as [Hin|Hin].
  - destruct (Z.leb_spec 2 n1); [|destruct Hin].
    repeat (destruct Hin as [Hin|Hin]; [inversion Hin; subst; apply (ex_derive_continuous (V := R_NormedModule)); auto_derive; trivial|]).
    destruct Hin.
  - apply in_map_iff in Hin. destruct Hin as (x & E & Hx). inversion E; subst.
    apply (ex_derive_continuous (V := R_NormedModule)); auto_derive; trivial.
Qed.

Definition JM (v : cv) : jd_idx -> R -> R := vmin (csys j0 v) jd_init cord.
Definition Ms (v : cv) (n1 : Z) (t : R) (n : nat) : R := JM v (n1, Z.of_nat n) t.

(** the diffusion part of the right hand side *)
Definition hsM (M : jd_idx -> R -> R) (v : cv) (n1 : Z) (s : R) (n : nat) : R :=
  if (2 <=? n1)%Z then
    IZR (n1 * (n1 - 1)) / 2 * (exp (ck v * s) * (ca v * M (n1 - 2, Z.of_nat n)%Z s) + exp (ck v * s) ^ 2 * (cb v * M (n1 - 2, Z.of_nat n)%Z s)
     + exp (ck v * s) * (csg v * M (n1 - 1, Z.of_nat n)%Z s) + exp (ck v * s) * M (n1 - 2, Z.of_nat (S n))%Z s)
  else 0.
Definition hs (v : cv) (n1 : Z) (s : R) (n : nat) : R :=
  if (2 <=? n1)%Z then
    IZR (n1 * (n1 - 1)) / 2 * (exp (ck v * s) * (ca v * Ms v (n1 - 2) s n) + exp (ck v * s) ^ 2 * (cb v * Ms v (n1 - 2) s n)
     + exp (ck v * s) * (csg v * Ms v (n1 - 1) s n) + exp (ck v * s) * Ms v (n1 - 2) s (S n))
  else 0.

Lemma JM_derive v i : jd_dom i -> forall t : R, is_derive (JM v i) t (lin_rhs (csys j0 v) (JM v) i t).
Proof. intros Hi t. exact (vmin_derive jd_dom (csys j0 v) jd_init cord (csys_tri v) (csys_cont v) i Hi t). Qed.

Lemma sum_from1 (f : nat -> R) n : f 0%nat = 0 ->
  sumR f (seq 0 (S n)) = sumR f (seq 1 n).
Proof. intro h. cbn [seq sumR]. rewrite h. ring. Qed.

Lemma lin_rhs_split v M n1 n t : lin_rhs (csys j0 v) M (n1, Z.of_nat n) t
  = hsM M v n1 t n + bc (gam v t) (fun m => M (n1, Z.of_nat m) t) n.
Proof.
  unfold lin_rhs, csys, jd_sys. rewrite sumR_app. f_equal.
  - unfold hsM. destruct (2 <=? n1)%Z; [|reflexivity]. cbn [sumR fst snd].
    replace (exp (- (ck v * t))) with (/ exp (ck v * t)) by (rewrite <- exp_Ropp; reflexivity).
    replace (Z.of_nat (S n)) with (Z.of_nat n + 1)%Z by lia. field. apply exp_neq0.
  - rewrite sumR_map. cbn [fst snd].
    assert (E : bc (gam v t) (fun m => M (n1, Z.of_nat m) t) n = sumR (fun j => IZR (combN n j) * (gam v t j * M (n1, Z.of_nat (n - j)) t)) (seq j0 (S n - j0))).
    { unfold bc. destruct (Nat.le_gt_cases j0 (S n)) as [h|h].
      - replace (S n) with (j0 + (S n - j0))%nat at 1 by lia. rewrite seq_app, sumR_app.
        rewrite (sumR_0 _ (seq 0 j0)).
        + rewrite Rplus_0_l. reflexivity.
        + intros j Hj. apply in_seq in Hj. unfold gam. destruct (Nat.ltb_spec j j0); [ring|lia].
      - replace (S n - j0)%nat with 0%nat by lia. change (seq j0 0) with (@nil nat). cbn [sumR].
        apply sumR_0.
        intros j Hj. apply in_seq in Hj. unfold gam. destruct (Nat.ltb_spec j j0); [ring|lia]. }
    rewrite E. unfold range. rewrite sumR_map.
    replace (Z.to_nat (Z.of_nat n + 1 - Z.of_nat j0)) with (S n - j0)%nat by lia.
    assert (Q : seq j0 (S n - j0) = map (fun i => (j0 + i)%nat) (seq 0 (S n - j0))).
    { generalize (S n - j0)%nat. intro m. clear. revert j0. induction m as [|m IH]; intro a; [reflexivity|].
      cbn [seq map]. f_equal; [lia|]. rewrite IH, <- seq_shift, map_map. apply map_ext. intro; lia. }
    rewrite Q, sumR_map. apply sumR_ext. intros j Hj. apply in_seq in Hj.
    replace (Z.of_nat j0 + Z.of_nat j)%Z with (Z.of_nat (j0 + j)) by lia.
    unfold mcomb, fact, gam. rewrite !Nat2Z.id. destruct (Nat.ltb_spec (j0 + j) j0); [lia|].
    rewrite INR_IZR_INZ. replace (Z.of_nat n - Z.of_nat (j0 + j))%Z with (Z.of_nat (n - (j0 + j))) by lia. ring.
Qed.

Lemma Ms_derive v n1 n (t : R) : (0 <= n1)%Z ->
  is_derive (fun t => Ms v n1 t n) t (hs v n1 t n + bc (gam v t) (Ms v n1 t) n).
Proof.
  intro Hn. eapply is_derive_val; [apply (JM_derive v (n1, Z.of_nat n)); split; cbn; lia|].
  apply lin_rhs_split.
Qed.

Lemma Ms_cont v n1 n (t : R) : (0 <= n1)%Z -> continuous (fun t => Ms v n1 t n) t.
Proof. intro h. eapply continuous_of_derive, Ms_derive, h. Qed.
Lemma hs_cont v n1 n (t : R) : continuous (fun t => hs v n1 t n) t.
Proof.
  unfold hs. destruct (Z.leb_spec 2 n1); [|apply continuous_Rconst].
  assert (Ce : continuous (fun s => exp (ck v * s)) t) by (apply (ex_derive_continuous (V := R_NormedModule)); auto_derive; trivial).
  assert (Ce2 : continuous (fun s => exp (ck v * s) ^ 2) t) by (apply (ex_derive_continuous (V := R_NormedModule)); auto_derive; trivial).
  apply continuous_Rmult; [apply continuous_Rconst|].
  assert (M : forall m n, (0 <= m)%Z -> continuous (fun t => Ms v m t n) t) by (intros; now apply Ms_cont).
  assert (A : forall f (c : R) m n, (0 <= m)%Z -> continuous f t -> continuous (fun t => f t * (c * Ms v m t n)) t).
  { intros f c m m' hm hf. apply continuous_Rmult; [assumption|]. apply continuous_Rmult; [apply continuous_Rconst|now apply M]. }
  apply continuous_Rplus; [apply continuous_Rplus; [apply continuous_Rplus|]|].
  - apply (A (fun s => exp (ck v * s))); [lia|assumption].
  - apply (A (fun s => exp (ck v * s) ^ 2)); [lia|assumption].
  - apply (A (fun s => exp (ck v * s))); [lia|assumption].
  - apply continuous_Rmult; [assumption|]. apply M. lia.
Qed.
Lemma zm_cont_s v t n (s : R) : continuous (fun s => zm (ivt v s t) n) s.
Proof. eapply continuous_of_derive, zm_derive_s. Qed.

Lemma bc_cont (f g : R -> nat -> R) (t : R) n :
  (forall k, (k <= n)%nat -> continuous (fun t => f t k) t) -> (forall k, (k <= n)%nat -> continuous (fun t => g t k) t) ->
  continuous (fun t => bc (f t) (g t) n) t.
Proof.
  intros h1 h2. unfold bc. apply (continuous_sumR (fun k t => IZR (combN n k) * (f t k * g t (n - k)%nat))).
  intros k Hk. apply in_seq in Hk. apply continuous_Rmult; [apply continuous_Rconst|].
  apply continuous_Rmult; [apply h1; lia|apply h2; lia].
Qed.

(** variation of constants *)
Lemma var_const v n1 n t : (0 <= n1)%Z ->
  is_RInt (fun s => bc (zm (ivt v s t)) (hs v n1 s) n) 0 t
    (Ms v n1 t n - bc (zm (ivt v 0 t)) (Ms v n1 0) n).
Proof.
  intro Hn.
  replace (Ms v n1 t n) with (bc (zm (ivt v t t)) (Ms v n1 t) n)
    by (rewrite (bc_ext _ dlt _ (Ms v n1 t)) by (auto; intros; apply zm_diag); apply bc_dlt_l).
  apply (RInt_of_derive (fun s => bc (zm (ivt v s t)) (Ms v n1 s) n)).
  - intro s. eapply is_derive_val.
    + apply (bc_derive (fun s => zm (ivt v s t)) (fun s => Ms v n1 s)
        (bc (fun j => - gam v s j) (zm (ivt v s t))) (fun n => hs v n1 s n + bc (gam v s) (Ms v n1 s) n)).
      * intros k _. apply zm_derive_s.
      * intros k _. now apply Ms_derive.
    + rewrite bc_plus_r, bc_assoc.
      rewrite (bc_ext (fun j => - gam v s j) (fun j => -1 * gam v s j) (bc (zm (ivt v s t)) (Ms v n1 s)) (bc (zm (ivt v s t)) (Ms v n1 s)))
        by (intros; ring).
      rewrite bc_scal_l, (bc_swap (gam v s)). ring.
  - intro s. apply bc_cont; intros; [apply zm_cont_s|apply hs_cont].
Qed.

Lemma Ms_0 v n1 n : (0 <= n1)%Z -> Ms v n1 0 n = if (n1 =? 0)%Z then dlt n else 0.
Proof.
  intro h. unfold Ms, JM. rewrite vmin_0. unfold jd_init. destruct (Z.eqb_spec n1 0) as [->|h1].
  - destruct n; reflexivity.
  - destruct n1; [lia| |lia]. reflexivity.
Qed.

Lemma Ms_pos v n1 n t : (1 <= n1)%Z -> is_RInt (fun s => bc (zm (ivt v s t)) (hs v n1 s) n) 0 t (Ms v n1 t n).
Proof.
  intro h. pose proof (var_const v n1 n t ltac:(lia)) as V.
  rewrite (bc_ext (zm (ivt v 0 t)) (zm (ivt v 0 t)) (Ms v n1 0) (fun _ => 0)) in V.
  - rewrite bc_zero_r, Rminus_0_r in V. exact V.
  - reflexivity.
  - intros k _. rewrite Ms_0 by lia. destruct (Z.eqb_spec n1 0); [lia|reflexivity].
Qed.
Lemma is_RInt_zero (f : R -> R) (a b l : R) : (forall x, f x = 0) -> is_RInt f a b l -> l = 0.
Proof.
  intros h H. apply (is_RInt_uniq (fun _ => 0) a b).
  - apply (is_RInt_ext f); [|exact H]. intros x _. apply h.
  - pose proof (is_RInt_const a b 0) as C. unfold scal in C; simpl in C; unfold mult in C; simpl in C.
    now rewrite Rmult_0_r in C.
Qed.
Lemma Ms_1 v n t : Ms v 1 t n = 0.
Proof.
  pose proof (Ms_pos v 1 n t ltac:(lia)) as V. apply is_RInt_zero in V; [assumption|].
  intro s. rewrite (bc_ext _ (zm (ivt v s t)) (hs v 1 s) (fun _ => 0)) by auto. apply bc_zero_r.
Qed.
Lemma Ms_z v n t : Ms v 0 t n = zm (ivt v 0 t) n.
Proof.
  pose proof (var_const v 0 n t ltac:(lia)) as V. apply is_RInt_zero in V.
  - rewrite (bc_ext (zm (ivt v 0 t)) (zm (ivt v 0 t)) (Ms v 0 0) dlt), bc_dlt_r in V; [lra|reflexivity|].
    intros k _. now rewrite Ms_0 by lia.
  - intro s. rewrite (bc_ext _ (zm (ivt v s t)) (hs v 0 s) (fun _ => 0)) by auto. apply bc_zero_r.
Qed.
End Ana.

(** ** raw and central moments *)
Definition vc (v : cv) : cv :=
  mkCv (ck v) (ckn v) (ca v - clam v * cmu v * / ck v) (cb v + clam v * cmu v * / ck v) (csg v) (clam v) (cmu v).
Definition mz1 (v : cv) (t : R) : R := clam v * cmu v * / ck v * (exp (ck v * t) - 1).

Lemma mz1_derive v (t : R) : is_derive (fun t => - mz1 v t) t (- gam 1 v t 1).
Proof.
  unfold mz1, gam. cbn [Nat.ltb Nat.leb].
  apply (is_derive_ext_loc_all (fun t => - (clam v * cmu v * / ck v) * (exp (ck v * t) - 1))); [intro; ring|].
  eapply is_derive_val.
  - apply is_derive_Rscal, is_derive_Rminus; [apply is_derive_Rexp, is_derive_lin|apply is_derive_Rconst].
  - cbv beta. change (factN 1) with 1%Z. simpl INR. rewrite Rmult_1_l. field. apply ckn.
Qed.

Lemma combN_1 n : combN n 1 = Z.of_nat n.
Proof. induction n as [|n IH]; [reflexivity|]. rewrite combN_S, combN_0. lia. Qed.
Lemma epow_derive (f : R -> R) (f' t : R) n : is_derive f t f' ->
  is_derive (fun t => epow (f t) n) t (bc (fun j => if (j =? 1)%nat then f' else 0) (epow (f t)) n).
Proof.
  intro h. unfold epow. eapply is_derive_val; [apply is_derive_Rpow, h|].
  unfold bc. destruct n as [|n].
  - cbn [seq sumR combN Nat.eqb INR pred]. ring.
  - cbn [seq sumR]. rewrite (sumR_0 _ (seq 2 n)).
    + cbn [Nat.eqb pred]. rewrite combN_1, <- INR_IZR_INZ. replace (S n - 1)%nat with n by lia. ring.
    + intros j Hj. apply in_seq in Hj. destruct (Nat.eqb_spec j 1); [lia|]. ring.
Qed.

Definition cphi (v : cv) (i : jd_idx) (t : R) : R :=
  bc (epow (- mz1 v t)) (Ms 1 v (fst i) t) (Z.to_nat (snd i)).

Lemma cphi_derive v n1 n (t : R) : (0 <= n1)%Z ->
  is_derive (fun t => bc (epow (- mz1 v t)) (Ms 1 v n1 t) n) t (lin_rhs (csys 2 (vc v)) (cphi v) (n1, Z.of_nat n) t).
Proof.
  intro Hn. eapply is_derive_val.
  - apply (bc_derive (fun t => epow (- mz1 v t)) (fun t => Ms 1 v n1 t)
      (bc (fun j => if (j =? 1)%nat then - gam 1 v t 1 else 0) (epow (- mz1 v t)))
      (fun n => hs 1 v n1 t n + bc (gam 1 v t) (Ms 1 v n1 t) n)).
    + intros k _. apply (epow_derive (fun t => - mz1 v t)), mz1_derive.
    + intros k _. apply Ms_derive; [lia|assumption].
  - rewrite lin_rhs_split by lia. rewrite bc_plus_r, bc_assoc, bc_swap.
    set (e := epow (- mz1 v t)).
    assert (C : forall m k, cphi v (m, Z.of_nat k) t = bc e (Ms 1 v m t) k)
      by (intros; unfold cphi; cbn [fst snd]; now rewrite Nat2Z.id).
    assert (A1 : bc e (hs 1 v n1 t) n = hsM (cphi v) (vc v) n1 t n).
    { unfold hsM. destruct (Z.leb_spec 2 n1) as [h|h].
      - rewrite !C.
        rewrite (bc_ext e e (hs 1 v n1 t) (fun n => IZR (n1 * (n1 - 1)) / 2 *
          ((exp (ck v * t) * ca v + exp (ck v * t) ^ 2 * cb v) * Ms 1 v (n1 - 2) t n
           + (exp (ck v * t) * csg v) * Ms 1 v (n1 - 1) t n + exp (ck v * t) * sh (Ms 1 v (n1 - 2) t) n))).
        + rewrite bc_scal_r, !bc_plus_r, !bc_scal_r. rewrite bc_S.
          rewrite (bc_ext (sh e) (fun n => - mz1 v t * e n) (Ms 1 v (n1 - 2) t) (Ms 1 v (n1 - 2) t))
            by (auto; intros; apply sh_epow).
          rewrite bc_scal_l. unfold vc, mz1; cbn [ck ca cb csg clam cmu]. field. apply ckn.
        + reflexivity.
        + intros k _. unfold hs. destruct (Z.leb_spec 2 n1); [|lia]. unfold sh. ring.
      - rewrite (bc_ext e e (hs 1 v n1 t) (fun _ => 0)); [apply bc_zero_r|reflexivity|].
        intros k _. unfold hs. destruct (Z.leb_spec 2 n1); [lia|reflexivity]. }
    rewrite A1.
    rewrite (bc_ext (gam 2 (vc v) t) (fun j => gam 1 v t j + (if (j =? 1)%nat then - gam 1 v t 1 else 0))
      (fun m => cphi v (n1, Z.of_nat m) t) (bc e (Ms 1 v n1 t))).
    + rewrite bc_plus_l. rewrite bc_swap. rewrite <- (bc_swap e (gam 1 v t)). ring.
    + intros j _. unfold gam, vc; cbn [ck clam cmu]. destruct j as [|[|j]]; cbn [Nat.ltb Nat.leb Nat.eqb]; ring.
    + intros; apply C.
Qed.

Lemma central_link v n1 n t : (0 <= n1)%Z -> 0 <= t ->
  JM 2 (vc v) (n1, Z.of_nat n) t = bc (epow (- mz1 v t)) (Ms 1 v n1 t) n.
Proof.
  intros Hn Ht.
  assert (V : vsol jd_dom (csys 2 (vc v)) jd_init (cphi v)).
  { apply (vsol_deriv_solves jd_dom (csys 2 (vc v)) jd_init cord).
    - apply csys_tri. lia.
    - apply csys_cont.
    - intros [a b] [h1 h2]; cbn [fst snd] in *. unfold cphi; cbn [fst snd].
      rewrite (bc_ext _ (epow (- mz1 v 0)) (Ms 1 v a 0) (fun n => if (a =? 0)%Z then dlt n else 0))
        by (auto; intros; now apply Ms_0).
      destruct (Z.eqb_spec a 0) as [->|ha].
      + rewrite bc_dlt_r. unfold epow, mz1. rewrite Rmult_0_r, exp_0.
        replace (- (clam v * cmu v * / ck v * (1 - 1))) with 0 by ring.
        destruct b as [|b|b]; [reflexivity| |lia]. unfold jd_init. rewrite pow_i; [reflexivity|lia].
      + rewrite bc_zero_r. unfold jd_init. destruct a; [lia| |lia]. reflexivity.
    - intros [a b] [h1 h2] u; cbn [fst snd] in *.
      pose proof (cphi_derive v a (Z.to_nat b) u h1) as D. rewrite Z2Nat.id in D by assumption. exact D. }
  rewrite (vsol_unique jd_dom (csys 2 (vc v)) jd_init cord (csys_tri 2 ltac:(lia) (vc v)) (JM 2 (vc v)) (cphi v)
    (vsol_exists jd_dom (csys 2 (vc v)) jd_init cord (csys_tri 2 ltac:(lia) (vc v)) (csys_cont 2 (vc v))) V (n1, Z.of_nat n)).
  - unfold cphi; cbn [fst snd]. now rewrite Nat2Z.id.
  - split; cbn; lia.
  - assumption.
Qed.
