(** Proofs about mdl_srjd/cond_mom.py and cond_cmom.py (C30). *)
From Coq Require Import Reals Lra.
From Coquelicot Require Import Coquelicot.
From Verif.Proof Require Export SrjdCondProofs.
Local Open Scope R_scope.

(** ** the two instances *)
Lemma JM_2_0 (j0 : nat) (zm : iv -> nat -> R) v (F : R -> R) : (1 <= j0)%nat -> zfam j0 zm -> F 0 = 0 ->
  (forall t : R, is_derive F t (exp (ck v * t) * ca v + exp (ck v * t) ^ 2 * cb v + exp (ck v * t) * zm (ivt v 0 t) 1%nat)) ->
  forall t, F t = JM j0 v (2, 0)%Z t.
Proof.
  intros Hj Hz F0 HF t. symmetry. pose proof (Ms_pos j0 Hj zm Hz v 2 0 t ltac:(lia)) as I. cbn [Z.of_nat] in I.
  apply (is_RInt_uniq (fun t => exp (ck v * t) * ca v + exp (ck v * t) ^ 2 * cb v + exp (ck v * t) * zm (ivt v 0 t) 1%nat) 0 t).
  - apply (is_RInt_ext (V := R_NormedModule) (fun s => bc (zm (ivt v s t)) (hs j0 v 2 s) 0)); [|exact I].
    assert (Q : forall s, bc (zm (ivt v s t)) (hs j0 v 2 s) 0 = exp (ck v * s) * ca v + exp (ck v * s) ^ 2 * cb v + exp (ck v * s) * zm (ivt v 0 s) 1%nat).
    { intro s. rewrite bc_0, (proj1 Hz). unfold hs. cbn [Z.leb Z.compare Pos.compare Pos.compare_cont].
      change (2 - 2)%Z with 0%Z. change (2 - 1)%Z with 1%Z. rewrite !(Ms_z j0 Hj zm Hz), (Ms_1 j0 Hj zm Hz), (proj1 Hz).
      change (2 * 1)%Z with 2%Z. field. }
    intros s _. apply Q.
  - replace (F t) with (F t - F 0) by (rewrite F0; ring). apply (RInt_of_derive F); [exact HF|].
    intro s. assert (Ce : forall m, continuous (fun s => exp (ck v * s) ^ m) s)
      by (intro m; apply (ex_derive_continuous (V := R_NormedModule)); auto_derive; trivial).
    assert (Ce1 : continuous (fun s => exp (ck v * s)) s)
      by (apply (ex_derive_continuous (V := R_NormedModule)); auto_derive; trivial).
    apply continuous_Rplus; [apply continuous_Rplus|]; (apply continuous_Rmult; [auto|]); try apply continuous_Rconst.
    eapply continuous_of_derive. apply (zm_derive_t j0 Hj zm Hz v 0 s 1).
Qed.

Lemma is_derive_exp v (t : R) : is_derive (fun t => exp (ck v * t)) t (ck v * exp (ck v * t)).
Proof. eapply is_derive_val; [apply is_derive_Rexp, is_derive_lin|cbv beta; ring]. Qed.

Lemma raw_p2 : Good kf_ie 1 (2, 0)%Z (mkPoly ie_p2 []).
Proof.
  split; [|split; [|split]].
  - unfold ie_p2; cbn [items]. repeat constructor; cbn; intuition discriminate.
  - intros k Hk. cbn in Hk. repeat (destruct Hk as [<-|Hk]; [split; [cbn; repeat split; trivial; lia|unfold nthZ; simpl; lia]|]). destruct Hk.
  - intros v t. pose proof (ckn v) as Hc.
    apply (JM_2_0 1 iezm v (fun t => evp mon7 (v, t) (mkPoly ie_p2 []))); [lia|apply iezm_fam| |].
    + unfold evp, ie_p2; cbn [items eval]. unfold mon7, ievals; cbn [fst snd monx].
      rewrite Rmult_0_r, exp_0, !pw_one, !pw_0, !pw_1. unfold Q2R; simpl. field; assumption.
    + clear t. intro t.
      apply (is_derive_ext_loc_all (fun t => / ck v * (ca v * (exp (ck v * t) - 1) + cb v * / 2 * (exp (ck v * t) ^ 2 - 1)
        + / ck v * clam v * cmu v * / 2 * (exp (ck v * t) - 1) ^ 2))).
      { intro u. unfold evp, ie_p2; cbn [items eval]. unfold mon7, ievals; cbn [fst snd monx].
        rewrite !pw_0, !pw_1, !(pw_Zpos _ 2) by lia. change (Z.to_nat 2) with 2%nat. unfold Q2R; simpl. field. assumption. }
      eapply is_derive_val.
      * apply is_derive_Rscal. apply is_derive_Rplus; [apply is_derive_Rplus|].
        -- apply is_derive_Rscal, is_derive_Rminus; [apply is_derive_exp|apply is_derive_Rconst].
        -- apply is_derive_Rscal, is_derive_Rminus; [apply is_derive_Rpow, is_derive_exp|apply is_derive_Rconst].
        -- apply is_derive_Rscal, is_derive_Rpow, is_derive_Rminus; [apply is_derive_exp|apply is_derive_Rconst].
      * cbv beta. rewrite (proj2 iezm_fam _ 0%nat), bc_0, iezm_0. unfold sh, kap. cbn [Nat.ltb Nat.leb].
        unfold iezk. rewrite gj_0. unfold ivt, iezv; cbn [xl xi xm xt xs pred INR factN]. rewrite Rmult_0_r, exp_0.
        field. assumption.
  - congruence.
Qed.
Lemma cen_p2 : Good kf_cie 2 (2, 0)%Z (mkPoly cie_p2 []).
Proof.
  split; [|split; [|split]].
  - unfold cie_p2; cbn [items]. repeat constructor; cbn; intuition discriminate.
  - intros k Hk. cbn in Hk. repeat (destruct Hk as [<-|Hk]; [split; [cbn; repeat split; trivial; lia|unfold nthZ; simpl; lia]|]). destruct Hk.
  - intros v t. pose proof (ckn v) as Hc.
    apply (JM_2_0 2 ciezm v (fun t => evp mon7 (v, t) (mkPoly cie_p2 []))); [lia|apply ciezm_fam| |].
    + unfold evp, cie_p2; cbn [items eval]. unfold mon7, ievals; cbn [fst snd monx].
      rewrite Rmult_0_r, exp_0, !pw_one, !pw_0, !pw_1. unfold Q2R; simpl. field; assumption.
    + clear t. intro t.
      apply (is_derive_ext_loc_all (fun t => / ck v * (ca v * (exp (ck v * t) - 1) + cb v * / 2 * (exp (ck v * t) ^ 2 - 1)))).
      { intro u. unfold evp, cie_p2; cbn [items eval]. unfold mon7, ievals; cbn [fst snd monx].
        rewrite !pw_0, !pw_1, !(pw_Zpos _ 2) by lia. change (Z.to_nat 2) with 2%nat. unfold Q2R; simpl. field. assumption. }
      eapply is_derive_val.
      * apply is_derive_Rscal. apply is_derive_Rplus.
        -- apply is_derive_Rscal, is_derive_Rminus; [apply is_derive_exp|apply is_derive_Rconst].
        -- apply is_derive_Rscal, is_derive_Rminus; [apply is_derive_Rpow, is_derive_exp|apply is_derive_Rconst].
      * cbv beta. rewrite (proj2 ciezm_fam _ 0%nat), bc_0. unfold sh, kap. cbn [Nat.ltb Nat.leb pred INR].
        field. assumption.
  - congruence.
Qed.

Lemma moment_ie_iez_spec n1 n2 : (0 <= n1)%Z -> (0 <= n2)%Z ->
  returns (moment_ie_iez n1 n2) (Good kf_ie 1 (n1, n2)).
Proof. apply (miz_f_spec kf_ie moment_IEZ ie_p2 1 ltac:(lia) iezm iezm_fam moment_IEZ_spec raw_p2). Qed.
Lemma moment_ie_spec n : (0 <= n)%Z -> returns (moment_ie n) (Good kf_ie 1 (n, 0)%Z).
Proof. apply (mie_f_spec kf_ie moment_IEZ ie_p2 1 ltac:(lia) iezm iezm_fam moment_IEZ_spec raw_p2). Qed.
Lemma cmoment_ie_iez_spec n1 n2 : (0 <= n1)%Z -> (0 <= n2)%Z ->
  returns (cmoment_ie_iez n1 n2) (Good kf_cie 2 (n1, n2)).
Proof. apply (miz_f_spec kf_cie cmoment_IEZ cie_p2 2 ltac:(lia) ciezm ciezm_fam cmoment_IEZ_spec cen_p2). Qed.
Lemma cmoment_ie_spec n : (0 <= n)%Z -> returns (cmoment_ie n) (Good kf_cie 2 (n, 0)%Z).
Proof. apply (mie_f_spec kf_cie cmoment_IEZ cie_p2 2 ltac:(lia) ciezm ciezm_fam cmoment_IEZ_spec cen_p2). Qed.

(** ** moment_x *)
Definition Xm (v : cv) (t : R) (n : Z) : R :=
  sumR (fun i => IZR (mcomb n i) * (pw (csg v) i * JM 1 v (i, n - i)%Z t)) (range 0 (n + 1)).

Lemma moment_x_spec n : (0 <= n)%Z ->
  returns (srjd_moment_x n) (fun p => wfp P7 kf_ie p /\ forall v t, evp mon7 (v, t) p = Xm v t n).
Proof.
  intro Hn. unfold srjd_moment_x. eapply returns_bind.
  { apply (adds_foldM (wfl P7) (ev mon7) _ (fun i w => IZR (mcomb n i) * (pw (csg (fst w)) i * JM 1 (fst w) (i, n - i)%Z (snd w)))); [|apply wfl_nil].
    intros i Hi. apply in_range in Hi. rewrite math_comb_ok by lia. cbn [bind].
    apply (adds_bind _ _ _ _ (fun poln a => Ok (fold_left _ (items poln) a)) _ (moment_ie_iez_spec i (n - i)%Z ltac:(lia) ltac:(lia))).
    intros q (U & A & E & _). eapply adds_ext.
    { apply (adds_fold P7 mon7 (fun kv : list Z * Q => addat 4 i (fst kv)) (fun kv => qmul (qz (mcomb n i)) (snd kv))).
      intros [k x] Hin. pose proof (proj1 (allk_in (P7d _) _ k x A Hin)) as Hk. unfold P7 in Hk. cbn [fst]. wfs_destruct. cbn. repeat split; trivial; lia. }
    intros [v t]. cbn [fst snd]. rewrite <- E. unfold evp. rewrite sumR_eval, <- !sumR_scal. apply sumR_ext.
    intros [k x] Hin. pose proof (proj1 (allk_in (P7d _) _ k x A Hin)) as Hk. unfold P7 in Hk. wfs_destruct. cbn [fst snd].
    rewrite Q2R_mul, Q2R_qz. unfold mon7, ievals; cbn [fst snd addat monx]. pws. ring. }
  intros l [[U A] E]. cbn [returns]. split.
  - split; [reflexivity|]. cbn [items]. split; [now apply uniq_rm_zero|now apply allk_rm_zero].
  - intros v t. unfold evp; cbn [items]. rewrite eval_rm_zero. specialize (E (v, t)). unfold ev in E. rewrite E.
    cbn [eval fst snd]. apply Rplus_0_l.
Qed.

(** ** moments of v *)
Definition P7v : list Z -> Prop := wfs [false; true; true; true; true; true; true].

Lemma finish_sp P (f : list (list Z * Q) -> res (list (list Z * Q))) g kf :
  adds (wfl P) (ev mon7) f g ->
  returns (let! l := f [] in Ok (mkPoly (rm_zero l) kf)) (fun p => wfp P kf p /\ forall w, evp mon7 w p = g w).
Proof.
  intro h. eapply returns_bind; [apply h, wfl_nil|]. intros l [[U A] E]. cbn [returns]. split.
  - split; [reflexivity|]. cbn [items]. split; [now apply uniq_rm_zero|now apply allk_rm_zero].
  - intro w. unfold evp; cbn [items]. rewrite eval_rm_zero. specialize (E w). unfold ev in E. rewrite E.
    cbn [eval]. apply Rplus_0_l.
Qed.

Lemma cond_moment_v_spec n : (0 <= n)%Z ->
  returns (srjd_cond_moment_v n) (fun p => wfp P7v kf_ie p /\ forall w, evp mon7 w p =
    let v := fst w in let t := snd w in
    sumR (fun i => sumR (fun j => IZR (mcomb n i) * IZR (mcomb (n - i) j) *
      (pw (exp (- (ck v * t))) (n - j) * pw (ca v) i * pw (cb v) j * Xm v t (n - i - j))) (range 0 (n - i + 1))) (range 0 (n + 1))).
Proof.
  intro Hn. unfold srjd_cond_moment_v. eapply finish_sp.
  apply (adds_foldM _ _ _ (fun i w => sumR (fun j => _) (range 0 (n - i + 1)))).
  intros i Hi. apply in_range in Hi. rewrite math_comb_ok by lia. cbn [bind].
  apply (adds_foldM _ _ _ (fun j w => IZR (mcomb n i) * IZR (mcomb (n - i) j) *
      (pw (exp (- (ck (fst w) * snd w))) (n - j) * pw (ca (fst w)) i * pw (cb (fst w)) j * Xm (fst w) (snd w) (n - i - j)))).
  intros j Hj. apply in_range in Hj. rewrite math_comb_ok by lia. cbn [bind].
  apply (adds_bind _ _ _ _ (fun poln a => Ok (fold_left _ (items poln) a)) _ (moment_x_spec (n - i - j)%Z ltac:(lia))).
  intros q ((_ & U & A) & E). eapply adds_ext.
  { apply (adds_fold P7v mon7 (fun kv : list Z * Q => addat 3 j (addat 2 i (addat 0 (- (n - j)) (fst kv)))) (fun kv => qmul (qz (mcomb n i * mcomb (n - i) j)) (snd kv))).
    intros [k x] Hin. pose proof (allk_in P7 _ k x A Hin) as Hk. unfold P7 in Hk. cbn [fst]. wfs_destruct. cbn. repeat split; trivial; lia. }
  intros [v t]. cbn [fst snd]. rewrite <- E. unfold evp. rewrite sumR_eval, <- !sumR_scal. apply sumR_ext.
  intros [k x] Hin. pose proof (allk_in P7 _ k x A Hin) as Hk. unfold P7 in Hk. wfs_destruct. cbn [fst snd].
  rewrite Q2R_mul, Q2R_qz, mult_IZR. unfold mon7, ievals; cbn [fst snd addat monx].
  replace (x0 + - (n - j))%Z with (x0 - (n - j))%Z by ring.
  rewrite (pw_sub _ x0 (n - j)) by nz. rewrite exp_Ropp, (pw_inv (exp (ck v * t))) by nz. pws. ring.
Qed.

Lemma cmoment_x_spec n : (0 <= n)%Z ->
  returns (srjd_cmoment_x n) (fun p => wfp P7 kf_ie p /\ forall w, evp mon7 w p =
    let v := fst w in let t := snd w in
    sumR (fun i => IZR (mcomb n i) * (Xm v t i * pw (- (clam v * cmu v * / ck v * (exp (ck v * t) - 1))) (n - i))) (range 0 (n + 1))).
Proof.
  intro Hn. unfold srjd_cmoment_x. eapply finish_sp.
  apply (adds_foldM _ _ _ (fun i w => IZR (mcomb n i) * (Xm (fst w) (snd w) i * pw (- (clam (fst w) * cmu (fst w) * / ck (fst w) * (exp (ck (fst w) * snd w) - 1))) (n - i)))).
  intros i Hi. apply in_range in Hi. rewrite math_comb_ok by lia. cbn [bind].
  apply (adds_bind _ _ _ _ (fun poln a => foldM _ _ a) _ (moment_x_spec i ltac:(lia))).
  intros q ((_ & U & A) & E). eapply adds_ext.
  { apply (adds_foldM _ _ _ (fun j w => IZR (mcomb n i) * Xm (fst w) (snd w) i * pw (clam (fst w) * cmu (fst w) * / ck (fst w)) (n - i) *
      (IZR (mcomb (n - i) j) * (pw (- exp (ck (fst w) * snd w)) j * pw 1 (n - i - j))))).
    intros j Hj. apply in_range in Hj. rewrite math_comb_ok by lia. cbn [bind]. eapply adds_ext.
    { apply (adds_fold P7 mon7 (fun kv : list Z * Q => addat 6 (n - i) (addat 5 (n - i) (addat 1 (n - i) (addat 0 j (fst kv))))) (fun kv => qmul (qmul (qz (mcomb n i * mcomb (n - i) j)) (snd kv)) (qz (sgn1 j)))).
      intros [k x] Hin. pose proof (allk_in P7 _ k x A Hin) as Hk. unfold P7 in Hk. cbn [fst]. wfs_destruct. cbn. repeat split; trivial; lia. }
    intros [v t]. cbn [fst snd]. rewrite <- E. unfold evp. rewrite sumR_eval.
    rewrite (Rmult_comm (IZR (mcomb n i))), !Rmult_assoc, (Rmult_comm (sumR _ _)), <- sumR_scal. apply sumR_ext.
    intros [k x] Hin. pose proof (allk_in P7 _ k x A Hin) as Hk. unfold P7 in Hk. wfs_destruct. cbn [fst snd].
    pose proof (ckn v) as Hc.
    rewrite !Q2R_mul, !Q2R_qz, mult_IZR, sgn1_pw by lia. unfold mon7, ievals; cbn [fst snd addat monx]. pwx. pws. ring. }
  intros [v t]. cbv beta. cbn [fst snd]. rewrite sumR_scal, binomial_pw by lia.
  replace (- exp (ck v * t) + 1) with (- (exp (ck v * t) - 1)) by ring.
  pose proof (ckn v) as Hc. rewrite Rmult_assoc, <- pw_mult by lia. rewrite Rmult_assoc. do 3 f_equal. ring.
Qed.

Lemma cond_cmoment_v_spec n : (0 <= n)%Z ->
  returns (srjd_cond_cmoment_v n) (fun p => wfp P7v kf_ie p /\ forall w, evp mon7 w p =
    let v := fst w in let t := snd w in
    sumR (fun i => IZR (mcomb n i) * (pw (exp (- (ck v * t))) i * Xm v t i * pw (clam v * cmu v * / ck v * (exp (- (ck v * t)) - 1)) (n - i))) (range 0 (n + 1))).
Proof.
  intro Hn. unfold srjd_cond_cmoment_v. eapply finish_sp.
  apply (adds_foldM _ _ _ (fun i w => IZR (mcomb n i) * (pw (exp (- (ck (fst w) * snd w))) i * Xm (fst w) (snd w) i * pw (clam (fst w) * cmu (fst w) * / ck (fst w) * (exp (- (ck (fst w) * snd w)) - 1)) (n - i)))).
  intros i Hi. apply in_range in Hi. rewrite math_comb_ok by lia. cbn [bind].
  eapply adds_ext.
  { apply (adds_foldM _ _ _ (fun j w => IZR (mcomb n i) * (pw (exp (- (ck (fst w) * snd w))) i * Xm (fst w) (snd w) i) * pw (clam (fst w) * cmu (fst w) * / ck (fst w)) (n - i) *
      (IZR (mcomb (n - i) j) * (pw (exp (- (ck (fst w) * snd w))) j * pw (-1) (n - i - j))))).
    intros j Hj. apply in_range in Hj. rewrite math_comb_ok by lia. cbn [bind].
    apply (adds_bind _ _ _ _ (fun poln a => Ok (fold_left _ (items poln) a)) _ (moment_x_spec i ltac:(lia))).
    intros q ((_ & U & A) & E). eapply adds_ext.
    { apply (adds_fold P7v mon7 (fun kv : list Z * Q => addat 6 (n - i) (addat 5 (n - i) (addat 1 (n - i) (addat 0 (- (i + j)) (fst kv))))) (fun kv => qmul (qz (mcomb n i * mcomb (n - i) j * sgn1 (n - i - j))) (snd kv))).
      intros [k x] Hin. pose proof (allk_in P7 _ k x A Hin) as Hk. unfold P7 in Hk. cbn [fst]. wfs_destruct. cbn. repeat split; trivial; lia. }
    intros [v t]. cbn [fst snd]. rewrite <- E. unfold evp. rewrite sumR_eval.
    set (S1 := sumR (fun kv => Q2R (snd kv) * mon7 (v, t) (fst kv)) (items q)).
    match goal with |- _ = ?r => replace r with ((IZR (mcomb n i) * pw (exp (- (ck v * t))) i * pw (clam v * cmu v * / ck v) (n - i) *
      (IZR (mcomb (n - i) j) * (pw (exp (- (ck v * t))) j * pw (-1) (n - i - j)))) * S1) by ring end.
    unfold S1. rewrite <- sumR_scal. apply sumR_ext.
    intros [k x] Hin. pose proof (allk_in P7 _ k x A Hin) as Hk. unfold P7 in Hk. wfs_destruct. cbn [fst snd].
    pose proof (ckn v) as Hc.
    rewrite !Q2R_mul, !Q2R_qz, !mult_IZR, sgn1_pw by lia. unfold mon7, ievals; cbn [fst snd addat monx].
    replace (x0 + - (i + j))%Z with (x0 - (i + j))%Z by ring.
    rewrite (pw_sub _ x0 (i + j)) by nz. rewrite exp_Ropp, !(pw_inv (exp (ck v * t))) by nz.
    rewrite (pow_lemma_pw (exp (ck v * t)) i j) by (left; nz). rewrite Rinv_mult. set (e1 := / pw _ i). set (e2 := / pw _ j).
    set (p1 := pw (-1) _). pwx. rewrite (pow_lemma_pw (/ ck v)) by (left; nz).
    rewrite (pow_lemma_pw (clam v)) by (right; split; lia). rewrite (pow_lemma_pw (cmu v)) by (right; split; lia). ring. }
  intros [v t]. cbv beta. cbn [fst snd]. rewrite sumR_scal, binomial_pw by lia.
  pose proof (ckn v) as Hc. rewrite Rmult_assoc, <- pw_mult by lia. rewrite Rmult_assoc. do 3 f_equal. 
Qed.

(** ** expectations *)
Section E.
Context {Om : Type} (E : (Om -> R) -> R) (HE : expectation E) (IE IEZ : Om -> R) (v : cv) (t : R) (N : Z).
Hypothesis HM : forall a b, (0 <= a)%Z -> (0 <= b)%Z -> (a + b <= N)%Z ->
  E (fun w => IE w ^ Z.to_nat a * IEZ w ^ Z.to_nat b) = JM 1 v (a, b) t.

Lemma E_x n : (0 <= n <= N)%Z -> E (fun w => (csg v * IE w + IEZ w) ^ Z.to_nat n) = Xm v t n.
Proof.
  intro Hn. unfold Xm.
  rewrite (E_ext E HE _ (fun w => sumR (fun i => (IZR (mcomb n i) * pw (csg v) i) * (IE w ^ Z.to_nat i * IEZ w ^ Z.to_nat (n - i))) (range 0 (n + 1)))).
  - rewrite (E_sumR E HE). apply sumR_ext. intros i Hi. apply in_range in Hi. rewrite (E_scal E HE), HM by lia. ring.
  - intro w. rewrite <- pw_Zpos by lia. rewrite <- binomial_pw by lia. apply sumR_ext. intros i Hi. apply in_range in Hi.
    rewrite pw_mult by lia. rewrite <- !pw_Zpos by lia. ring.
Qed.
Lemma E_one : (0 <= N)%Z -> E (fun _ => 1) = 1.
Proof.
  intro h. pose proof (HM 0 0 ltac:(lia) ltac:(lia) ltac:(lia)) as Q. 
  rewrite (E_ext E HE _ (fun _ => 1)) in Q by (intro; simpl; ring). rewrite Q.
  etransitivity; [exact (Ms_z 1 ltac:(lia) iezm iezm_fam v 0%nat t)|]. reflexivity.
Qed.
Lemma E_affine_pow (c d : R) n : (0 <= n <= N)%Z ->
  E (fun w => (c * (csg v * IE w + IEZ w) + d) ^ Z.to_nat n)
  = sumR (fun i => IZR (mcomb n i) * (pw c i * Xm v t i * pw d (n - i))) (range 0 (n + 1)).
Proof.
  intro Hn.
  rewrite (E_ext E HE _ (fun w => sumR (fun i => (IZR (mcomb n i) * pw c i * pw d (n - i)) * (csg v * IE w + IEZ w) ^ Z.to_nat i) (range 0 (n + 1)))).
  - rewrite (E_sumR E HE). apply sumR_ext. intros i Hi. apply in_range in Hi. rewrite (E_scal E HE), E_x by lia. ring.
  - intro w. rewrite <- pw_Zpos by lia. rewrite <- binomial_pw by lia. apply sumR_ext. intros i Hi. apply in_range in Hi.
    rewrite pw_mult by lia. rewrite <- !pw_Zpos by lia. ring.
Qed.
Lemma E_mean_x : (1 <= N)%Z -> E (fun w => csg v * IE w + IEZ w) = clam v * cmu v * / ck v * (exp (ck v * t) - 1).
Proof.
  intro h. rewrite (E_ext E HE _ (fun w => (csg v * IE w + IEZ w) ^ Z.to_nat 1)) by (intro; simpl; ring).
  rewrite E_x by lia. unfold Xm. change (1 + 1)%Z with 2%Z.
  change (range 0 2) with [0; 1]%Z. cbn [sumR]. rewrite pw_0, pw_1. change (mcomb 1 0) with 1%Z. change (mcomb 1 1) with 1%Z.
  change (1 - 0)%Z with 1%Z. change (1 - 1)%Z with 0%Z.
  pose proof (Ms_z 1 ltac:(lia) iezm iezm_fam v 1%nat t) as Q1. pose proof (Ms_1 1 ltac:(lia) iezm iezm_fam v 0%nat t) as Q0.
  unfold Ms in Q1, Q0. cbn [Z.of_nat Pos.of_succ_nat] in Q1, Q0. rewrite Q1, Q0.
  rewrite (proj2 iezm_fam _ 0%nat), bc_0, iezm_0. unfold sh, kap. cbn [Nat.ltb Nat.leb]. unfold iezk. rewrite gj_0.
  unfold ivt, iezv; cbn [xl xi xm xt xs factN]. rewrite Rmult_0_r, exp_0. simpl. ring.
Qed.
End E.
