(** Proofs about mdl_1fsv: moments, central moments, covariances. *)
From Coq Require Import Reals Lra.
From Verif.Spec Require Export Fsv1.
From Verif.Model Require Export Fsv1.
From Verif.Proof Require Export MonTac ItoProofs.
Local Open Scope R_scope.

Section Fsv1.
Variables (k h mu th sg rho rs : R).
Hypothesis Hk : k <> 0.
Let e := exp (- (k * h)).

(** ** ve_IEII *)
Definition mon_ve (v : R) : list Z -> R := monx [e; h; v; / k; th; sg].
Definition P_ve (L : Z) (key : list Z) : Prop :=
  wfs [false; true; true; true; true; true] key /\ (nthZ key 2 <= L)%Z.

Lemma ve_IEII_sp n2 a b d : (0 <= n2)%Z -> (0 <= a)%Z -> (0 <= b)%Z -> (0 <= d)%Z ->
  returns (ve_IEII n2 a b d) (fun r => wfp (P_ve (n2 + a + b + d)) kf_ve r /\
    forall s0 v M, 0 <= h -> ito_moments (mkPar k s0 v th sg) M ->
      eval (mon_ve v) (items r) = pw v n2 * pw (exp (- (k * (s0 + h)))) a * M (a, b, d) h).
Proof.
  intros Hn Ha Hb Hd. unfold ve_IEII.
  eapply returns_bind; [apply (moment_IEII_spec a b d Ha Hb Hd)|].
  intros q [(q1 & q2 & q3 & q4 & q5) q6]. cbn [returns]. split.
  - split; [reflexivity|]. cbn [items]. split.
    + apply (uniq_fold_add (fun kv => [a - nthZ (fst kv) 1; nthZ (fst kv) 2; n2 + nthZ (fst kv) 3; nthZ (fst kv) 4;
        nthZ (fst kv) 5; nthZ (fst kv) 6]%Z) snd), uniq_nil.
    + apply (allk_fold_add _ (fun kv => [a - nthZ (fst kv) 1; nthZ (fst kv) 2; n2 + nthZ (fst kv) 3; nthZ (fst kv) 4;
        nthZ (fst kv) 5; nthZ (fst kv) 6]%Z) snd); [apply allk_nil|].
      intros [key v] Hin. cbn [fst]. destruct (allk_in wf7 _ key v q3 Hin) as (w0 & w2 & w3 & w4 & w5 & w6).
      assert (wb := allk_in (vb (a, b, d)) _ key v q5 Hin). unfold vb, ord3 in wb; cbn [fst snd] in wb.
      split; [cbn [wfs]; repeat split; try assumption; lia|]. unfold nthZ in *; cbn [nth]. lia.
  - intros s0 v M Hh HM. cbn [items].
    rewrite (eval_fold_add (mon_ve v) (fun kv => [a - nthZ (fst kv) 1; nthZ (fst kv) 2; n2 + nthZ (fst kv) 3; nthZ (fst kv) 4;
        nthZ (fst kv) 5; nthZ (fst kv) 6]%Z) snd).
    cbn [eval]. rewrite Rplus_0_l, (q6 (mkPar k s0 v th sg) M Hk HM h Hh), sumR_eval, <- sumR_scal.
    apply sumR_ext. intros [key c] Hin. cbn [fst snd].
    destruct (Qeq_dec c 0) as [E0|N0].
    { apply Q2R_eq0 in E0. rewrite E0. ring. }
    destruct (allk_in wf7 _ key c q3 Hin) as (w0 & w2 & w3 & w4 & w5 & w6).
    destruct (q4 key c Hin N0) as [s1 _].
    unfold imon, ivals; cbn [pk ps0 pv pth psg]. rewrite monx_7 by assumption. rewrite s1.
    unfold mon_ve. cbn [monx]. 
    assert (E : pw e (a - nthZ key 1) = pw (exp (- (k * (s0 + h)))) a * pw (exp (k * s0)) a * pw (exp (k * h)) (nthZ key 1)).
    { unfold e. rewrite !pw_exp, <- !exp_plus. f_equal. rewrite minus_IZR. ring. }
    rewrite E. pws. ring.
Qed.

(** ** cmom.b_n *)
Definition mon_cb (_ : unit) : list Z -> R := monx [e; / k; th; sg; rho; rs].
Definition P_cb : list Z -> Prop := wfs [true; true; true; true; true; true].

Definition A2 : R := - ((1 - e) * (/ 2 * / k)).
Definition A3 : R := sg * (/ 2 * / k).
Definition A4 : R := - (sg * (/ 2 * / k)) + rho.

Lemma cb_n_sp n1 n2 n3 n4 n5 : (0 <= n1)%Z -> (0 <= n2)%Z -> (0 <= n3)%Z -> (0 <= n4)%Z -> (0 <= n5)%Z ->
  returns (cb_n n1 n2 n3 n4 n5) (fun r => wfp P_cb kf_cb r /\
    forall t, evp mon_cb t r = pw (th * (1 - e) * (/ 2 * / k)) n1 * pw A2 n2 * pw A3 n3 * pw A4 n4 * pw rs n5).
Proof.
  intros h1 h2 h3 h4 h5. unfold cb_n. eapply returns_weaken.
  - eapply (adds_run P_cb mon_cb).
    apply (adds_foldM (wfl P_cb) (ev mon_cb) _ (fun i t => sumR (fun j => 
      pw (th * (/ 2 * / k)) n1 * pw (- (/ 2 * / k)) n2 * pw A3 n3 * pw rs n5
       * (IZR (mcomb (n1 + n2) i) * (pw (- e) i * pw 1 (n1 + n2 - i)))
       * (IZR (mcomb n4 j) * (pw (- (sg * (/ 2 * / k))) j * pw rho (n4 - j)))) (range 0 (n4 + 1)))).
    intros i Hi. apply in_range in Hi.
    apply (adds_foldM (wfl P_cb) (ev mon_cb) _ (fun j t => 
      pw (th * (/ 2 * / k)) n1 * pw (- (/ 2 * / k)) n2 * pw A3 n3 * pw rs n5
       * (IZR (mcomb (n1 + n2) i) * (pw (- e) i * pw 1 (n1 + n2 - i)))
       * (IZR (mcomb n4 j) * (pw (- (sg * (/ 2 * / k))) j * pw rho (n4 - j))))).
    intros j Hj. apply in_range in Hj. cbv zeta.
    rewrite !math_comb_ok by lia. cbn [bind].
    eapply adds_ext; [apply adds_kv; unfold P_cb; cbn [wfs]; repeat split; lia|].
    intro t. unfold mon_cb, A3. cbn [monx]. rewrite Q2R_Frac2 by lia.
    rewrite !mult_IZR, sgn1_pw by lia. pwx. pws. ring.
  - intros r (g1 & g2 & g3 & g4). split; [split; auto|]. intro t. unfold evp. rewrite g4.
    rewrite (sumR_ext _ (fun i => pw (th * (/ 2 * / k)) n1 * pw (- (/ 2 * / k)) n2 * pw A3 n3 * pw rs n5 * pw A4 n4
       * (IZR (mcomb (n1 + n2) i) * (pw (- e) i * pw 1 (n1 + n2 - i))))).
    + rewrite sumR_scal, binomial_pw by lia. unfold A2, A3.
      replace (- e + 1) with (1 - e) by ring. pwx. pws. ring.
    + intros i Hi. rewrite sumR_scal, binomial_pw by lia. unfold A4. ring.
Qed.

(** ** mom.b_n *)
Definition mon_b (_ : unit) : list Z -> R := monx [e; h; / k; mu; th; sg; rho; rs].
Definition P_b : list Z -> Prop := wfs [true; true; true; true; true; true; true; true].
Definition A1 : R := mu * h + (- (th * / 2 * h) + (th * (/ 2 * / k) + (- (e * th * (/ 2 * / k)) + 0))).

Lemma b_n_sp n1 n2 n3 n4 n5 : (0 <= n1)%Z -> (0 <= n2)%Z -> (0 <= n3)%Z -> (0 <= n4)%Z -> (0 <= n5)%Z ->
  returns (b_n n1 n2 n3 n4 n5) (fun r => wfp P_b kf_8 r /\
    forall t, evp mon_b t r = pw A1 n1 * pw A2 n2 * pw A3 n3 * pw A4 n4 * pw rs n5).
Proof.
  intros h1 h2 h3 h4 h5. unfold b_n. eapply returns_weaken.
  - eapply (adds_run P_b mon_b).
    apply (adds_nest (wfl P_b) (ev mon_b) 3 n1 _ (fun ns _ => 
       IZR (cmb n1 ns) * monx [mu * h; - (th * / 2 * h); th * (/ 2 * / k); - (e * th * (/ 2 * / k))] ns
       * (pw A2 n2 * pw A3 n3 * pw A4 n4 * pw rs n5))); [assumption|].
    intros ns l1 l2 l3. destruct (comp4 ns n1 l1 l2 l3) as (i1 & i2 & i3 & i4 & -> & q1 & q2 & q3 & q4 & qs).
    cbn [on4]. eapply adds_ext.
    + apply (adds_foldM (wfl P_b) (ev mon_b) _ (fun i t => sumR (fun j => 
       IZR (cmb n1 [i1; i2; i3; i4]) * monx [mu * h; - (th * / 2 * h); th * (/ 2 * / k); - (e * th * (/ 2 * / k))] [i1; i2; i3; i4]
       * (pw (- (/ 2 * / k)) n2 * pw A3 n3 * pw rs n5)
       * (IZR (mcomb n2 i) * (pw (- e) i * pw 1 (n2 - i)))
       * (IZR (mcomb n4 j) * (pw (- (sg * (/ 2 * / k))) j * pw rho (n4 - j)))) (range 0 (n4 + 1)))).
      intros i Hi. apply in_range in Hi.
      apply (adds_foldM (wfl P_b) (ev mon_b) _ (fun j t => 
       IZR (cmb n1 [i1; i2; i3; i4]) * monx [mu * h; - (th * / 2 * h); th * (/ 2 * / k); - (e * th * (/ 2 * / k))] [i1; i2; i3; i4]
       * (pw (- (/ 2 * / k)) n2 * pw A3 n3 * pw rs n5)
       * (IZR (mcomb n2 i) * (pw (- e) i * pw 1 (n2 - i)))
       * (IZR (mcomb n4 j) * (pw (- (sg * (/ 2 * / k))) j * pw rho (n4 - j))))).
      intros j Hj. apply in_range in Hj. cbv zeta.
      rewrite (comp_comb [i1; i2; i3; i4] n1 l2 l3), !math_comb_ok by lia. cbn [bind].
      eapply adds_ext; [apply adds_kv; unfold P_b; cbn [wfs]; repeat split; lia|].
      intro t. unfold mon_b, A3. cbn [monx]. rewrite Q2R_Frac2 by lia.
      replace (n1 - i1)%Z with (i2 + i3 + i4)%Z by lia.
      rewrite !mult_IZR, sgn1_pw by lia. pwx. pws. ring.
    + intro t. cbv beta.
      rewrite (sumR_ext _ (fun i => IZR (cmb n1 [i1; i2; i3; i4]) * monx [mu * h; - (th * / 2 * h); th * (/ 2 * / k); - (e * th * (/ 2 * / k))] [i1; i2; i3; i4]
         * (pw (- (/ 2 * / k)) n2 * pw A3 n3 * pw rs n5) * pw A4 n4
         * (IZR (mcomb n2 i) * (pw (- e) i * pw 1 (n2 - i))))).
      * rewrite sumR_scal, binomial_pw by lia. unfold A2.
        replace (- e + 1) with (1 - e) by ring. pwx. ring.
      * intros i Hi. rewrite sumR_scal, binomial_pw by lia. unfold A4. ring.
  - intros r (g1 & g2 & g3 & g4). split; [split; auto|]. intro t. unfold evp. rewrite g4.
    rewrite sumR_scal_r, multinomial_pw by (try reflexivity; lia). cbn [sumR]. unfold A1. ring.
Qed.

(** ** moment_comb, sub_v and the two moment functions *)
Definition mon_9 (v : R) : list Z -> R := monx [e; h; v; / k; mu; th; sg; rho; rs].
Definition P_9 (L : Z) (key : list Z) : Prop :=
  wfs [false; true; true; true; true; true; true; true; true] key /\ (nthZ key 2 <= L)%Z.
Definition mon_c8 (v : R) : list Z -> R := monx [e; h; v; / k; th; sg; rho; rs].
Definition P_c8 (L : Z) (key : list Z) : Prop :=
  wfs [false; true; true; true; true; true; true; true] key /\ (nthZ key 2 <= L)%Z.

Definition mon_c7 (_ : unit) : list Z -> R := monx [e; h; / k; th; sg; rho; rs].
Definition P_8 : list Z -> Prop := wfs [false; true; true; true; true; true; true; true].
Definition P_c7 : list Z -> Prop := wfs [false; true; true; true; true; true; true].

Variables (s0 : R) (M : R -> ito_idx -> R -> R).
Hypothesis Hh : 0 <= h.
Hypothesis HM : forall v, ito_moments (mkPar k s0 v th sg) (M v).
Let e0 := exp (- (k * (s0 + h))).

(** value of one combination, given v *)
Definition gterm (a1 : R) (l : Z) (ns : list Z) (v : R) : R :=
  match ns with
  | [n1; n2; n3; n4; n5] => IZR (cmb l ns) * (pw a1 n1 * pw A2 n2 * pw A3 n3 * pw A4 n4 * pw rs n5)
      * (pw v n2 * pw e0 n3 * M v (n3, n4, n5) h)
  | _ => 0
  end.

Lemma moment_comb_sp ns l : length ns = 5%nat -> Forall (fun x => 0 <= x)%Z ns -> sumZ ns = l ->
  returns (on5 (moment_comb l) ns) (fun r => wfp (P_9 l) kf_9 r /\
    forall v, evp mon_9 v r = gterm A1 l ns v).
Proof.
  intros l1 l2 l3. destruct (comp5 ns l l1 l2 l3) as (n1 & n2 & n3 & n4 & n5 & -> & q1 & q2 & q3 & q4 & q5 & qs).
  cbn [on5]. unfold moment_comb.
  eapply returns_bind; [apply (ve_IEII_sp n2 n3 n4 n5); assumption|]. intros p [Wp Ep].
  eapply returns_bind; [apply (b_n_sp n1 n2 n3 n4 n5); assumption|]. intros b [Wb Eb].
  eapply returns_bind.
  { apply (mul_poly_sp (P_ve (n2 + n3 + n4 + n5)) P_b (P_9 l) mon_ve (fun _ => mon_b tt) mon_9); [reflexivity|apply Wp|apply Wb|].
    intros k1 k2 [H1 B1] H2. unfold P_b in H2. wfs_destruct. keyred. split.
    - split; [cbn [wfs]; repeat split; lia|]. unfold nthZ in *. cbn [nth] in *. lia.
    - intro v. unfold mon_ve, mon_b, mon_9. cbn [monx]. pws. ring. }
  intros r [Wr Er]. rewrite (comp_comb _ l l2 l3). cbn [bind returns].
  destruct (rmul_sp (P_9 l) mon_9 kf_9 (qz (cmb l [n1; n2; n3; n4; n5])) r Wr) as [W' E'].
  split; [exact W'|]. intro v. unfold rmulZ. rewrite E', Er. unfold evp at 1. rewrite (Ep s0 v (M v) Hh (HM v)).
  change (evp (fun _ : R => mon_b tt) v b) with (evp mon_b tt b). rewrite Eb, Q2R_qz. unfold gterm. fold e0. ring.
Qed.

Lemma cmoment_comb_sp ns l : length ns = 5%nat -> Forall (fun x => 0 <= x)%Z ns -> sumZ ns = l ->
  returns (on5 (cmoment_comb l) ns) (fun r => wfp (P_c8 l) kf_c8 r /\
    forall v, evp mon_c8 v r = gterm (th * (1 - e) * (/ 2 * / k)) l ns v).
Proof.
  intros l1 l2 l3. destruct (comp5 ns l l1 l2 l3) as (n1 & n2 & n3 & n4 & n5 & -> & q1 & q2 & q3 & q4 & q5 & qs).
  cbn [on5]. unfold cmoment_comb.
  eapply returns_bind; [apply (ve_IEII_sp n2 n3 n4 n5); assumption|]. intros p [Wp Ep].
  eapply returns_bind; [apply (cb_n_sp n1 n2 n3 n4 n5); assumption|]. intros b [Wb Eb].
  eapply returns_bind.
  { apply (mul_poly_sp (P_ve (n2 + n3 + n4 + n5)) P_cb (P_c8 l) mon_ve (fun _ => mon_cb tt) mon_c8); [reflexivity|apply Wp|apply Wb|].
    intros k1 k2 [H1 B1] H2. unfold P_cb in H2. wfs_destruct. keyred. split.
    - split; [cbn [wfs]; repeat split; lia|]. unfold nthZ in *. cbn [nth] in *. lia.
    - intro v. unfold mon_ve, mon_cb, mon_c8. cbn [monx]. pws. ring. }
  intros r [Wr Er]. rewrite (comp_comb _ l l2 l3). cbn [bind returns].
  destruct (rmul_sp (P_c8 l) mon_c8 kf_c8 (qz (cmb l [n1; n2; n3; n4; n5])) r Wr) as [W' E'].
  split; [exact W'|]. intro v. unfold rmulZ. rewrite E', Er. unfold evp at 1. rewrite (Ep s0 v (M v) Hh (HM v)).
  change (evp (fun _ : R => mon_cb tt) v b) with (evp mon_cb tt b). rewrite Eb, Q2R_qz. unfold gterm. fold e0. ring.
Qed.

Lemma sub_v_sp L p : allk (P_9 L) (items p) ->
  returns (sub_v p) (fun r => wfp P_8 kf_8 r /\ evp mon_b tt r =
    eval (fun key => mon_9 1 key * gmom th (sg ^ 2 / k) (Z.to_nat (nthZ key 2))) (items p)).
Proof.
  intro A. eapply returns_weaken.
  - unfold sub_v. apply (subst_v_sp (P_9 L) P_8 mon_b (fun _ => th) (fun _ => sg ^ 2 / k) (fun _ => mon_9 1)); [exact A|].
    intros key [W B]. wfs_destruct. unfold nthZ in *; cbn [nth] in *. split; [assumption|].
    intros i j Hi Hj. split; [unfold P_8; cbn [wfs]; repeat split; lia|]. intros [].
    unfold mon_b, mon_9. cbn [monx]. rewrite pw_one. pws.
    replace (sg ^ 2 / k) with (sg * sg * / k) by (simpl; unfold Rdiv; ring). pwx. ring.
  - intros r [W E]. split; [exact W|]. apply (E tt).
Qed.
Lemma csub_v_sp L p : allk (P_c8 L) (items p) ->
  returns (csub_v p) (fun r => wfp P_c7 kf_c7 r /\ evp mon_c7 tt r =
    eval (fun key => mon_c8 1 key * gmom th (sg ^ 2 / k) (Z.to_nat (nthZ key 2))) (items p)).
Proof.
  intro A. eapply returns_weaken.
  - unfold csub_v. apply (subst_v_sp (P_c8 L) P_c7 mon_c7 (fun _ => th) (fun _ => sg ^ 2 / k) (fun _ => mon_c8 1)); [exact A|].
    intros key [W B]. wfs_destruct. unfold nthZ in *; cbn [nth] in *. split; [assumption|].
    intros i j Hi Hj. split; [unfold P_c7; cbn [wfs]; repeat split; lia|]. intros [].
    unfold mon_c7, mon_c8. cbn [monx]. rewrite pw_one. pws.
    replace (sg ^ 2 / k) with (sg * sg * / k) by (simpl; unfold Rdiv; ring). pwx. ring.
  - intros r [W E]. split; [exact W|]. apply (E tt).
Qed.

(** ** expectations *)
Section Exp.
Context {Om : Type} (E : (Om -> R) -> R) (HE : expectation E) (V : Om -> R) (L : Z).
Hypothesis HV : forall n, (0 <= n <= L)%Z -> E (fun w => V w ^ Z.to_nat n) = gmom th (sg ^ 2 / k) (Z.to_nat n).

Lemma E_mon_9 p : allk (P_9 L) (items p) ->
  E (fun w => evp mon_9 (V w) p) = eval (fun key => mon_9 1 key * gmom th (sg ^ 2 / k) (Z.to_nat (nthZ key 2))) (items p).
Proof.
  intro A. unfold evp. rewrite (E_eval E HE (fun w => mon_9 (V w))). apply eval_ext_in. intros key c Hin.
  destruct (allk_in _ _ key c A Hin) as [W B]. wfs_destruct. unfold nthZ in *; cbn [nth] in *.
  rewrite <- HV, <- (E_scal E HE) by lia. apply (E_ext E HE). intro w. unfold mon_9. cbn [monx].
  rewrite pw_one, (pw_Zpos (V w)) by assumption. ring.
Qed.
Lemma E_mon_c8 p : allk (P_c8 L) (items p) ->
  E (fun w => evp mon_c8 (V w) p) = eval (fun key => mon_c8 1 key * gmom th (sg ^ 2 / k) (Z.to_nat (nthZ key 2))) (items p).
Proof.
  intro A. unfold evp. rewrite (E_eval E HE (fun w => mon_c8 (V w))). apply eval_ext_in. intros key c Hin.
  destruct (allk_in _ _ key c A Hin) as [W B]. wfs_destruct. unfold nthZ in *; cbn [nth] in *.
  rewrite <- HV, <- (E_scal E HE) by lia. apply (E_ext E HE). intro w. unfold mon_c8. cbn [monx].
  rewrite pw_one, (pw_Zpos (V w)) by assumption. ring.
Qed.

Lemma moment_y_E l : (0 <= l <= L)%Z ->
  returns (moment_y l) (fun r => wfp P_8 kf_8 r /\ nonzero (items r) /\ evp mon_b tt r =
    sumR (fun ns => E (fun w => gterm A1 l ns (V w))) (rcomp 4 l)).
Proof.
  intro Hl. unfold moment_y. eapply returns_bind.
  - apply (adds_nest (wfp (P_9 L) kf_9) (evp mon_9) 4 l _ (gterm A1 l)); [lia| |apply wfp_nil].
    intros ns l1 l2 l3. eapply adds_bind; [apply (moment_comb_sp ns l l1 l2 l3)|].
    intros q [(g1 & g2 & g3) Eq]. eapply adds_ext.
    + apply (adds_merge (P_9 L) mon_9 kf_9 q g1). eapply allk_weaken; [exact g3|].
      intros key [u1 u2]. split; [assumption|lia].
    + intro v. apply Eq.
  - intros p ((g1 & g2 & g3) & Ep). eapply returns_bind; [apply (sub_v_sp L p g3)|]. intros r [Wr Er].
    cbn [returns]. destruct (remove_zero_sp P_8 mon_b kf_8 r Wr) as (W' & N' & E').
    split; [exact W'|]. split; [exact N'|]. rewrite E', Er, <- (E_mon_9 p g3), <- (E_sumR E HE).
    apply (E_ext E HE). intro w. rewrite Ep. unfold evp at 1. cbn [items eval]. ring.
Qed.
Lemma cmoment_y_E l : (0 <= l <= L)%Z ->
  returns (cmoment_y l) (fun r => wfp P_c7 kf_c7 r /\ nonzero (items r) /\ evp mon_c7 tt r =
    sumR (fun ns => E (fun w => gterm (th * (1 - e) * (/ 2 * / k)) l ns (V w))) (rcomp 4 l)).
Proof.
  intro Hl. unfold cmoment_y. eapply returns_bind.
  - apply (adds_nest (wfp (P_c8 L) kf_c8) (evp mon_c8) 4 l _ (gterm (th * (1 - e) * (/ 2 * / k)) l)); [lia| |apply wfp_nil].
    intros ns l1 l2 l3. eapply adds_bind; [apply (cmoment_comb_sp ns l l1 l2 l3)|].
    intros q [(g1 & g2 & g3) Eq]. eapply adds_ext.
    + apply (adds_merge (P_c8 L) mon_c8 kf_c8 q g1). eapply allk_weaken; [exact g3|].
      intros key [u1 u2]. split; [assumption|lia].
    + intro v. apply Eq.
  - intros p ((g1 & g2 & g3) & Ep). eapply returns_bind; [apply (csub_v_sp L p g3)|]. intros r [Wr Er].
    cbn [returns]. destruct (remove_zero_sp P_c7 mon_c7 kf_c7 r Wr) as (W' & N' & E').
    split; [exact W'|]. split; [exact N'|]. rewrite E', Er, <- (E_mon_c8 p g3), <- (E_sumR E HE).
    apply (E_ext E HE). intro w. rewrite Ep. unfold evp at 1. cbn [items eval]. ring.
Qed.

Variables (IE I Is : Om -> R).
Hypothesis HT : forall n a b d, (0 <= n)%Z -> (0 <= a)%Z -> (0 <= b)%Z -> (0 <= d)%Z -> (n + a + b + d <= L)%Z ->
  E (fun w => V w ^ Z.to_nat n * IE w ^ Z.to_nat a * I w ^ Z.to_nat b * Is w ^ Z.to_nat d)
  = E (fun w => V w ^ Z.to_nat n * M (V w) (a, b, d) h).

Lemma gterm_E a1 l ns : (0 <= l <= L)%Z -> length ns = 5%nat -> Forall (fun x => 0 <= x)%Z ns -> sumZ ns = l ->
  E (fun w => gterm a1 l ns (V w))
  = IZR (cmb l ns) * E (fun w => powprod [a1; A2 * V w; A3 * (e0 * IE w); A4 * I w; rs * Is w] ns).
Proof.
  intros Hl l1 l2 l3. rewrite <- (E_scal E HE).
  destruct (comp5 ns l l1 l2 l3) as (n1 & n2 & n3 & n4 & n5 & -> & q1 & q2 & q3 & q4 & q5 & qs).
  set (C := IZR (cmb l [n1; n2; n3; n4; n5]) * (pw a1 n1 * pw A2 n2 * pw A3 n3 * pw A4 n4 * pw rs n5) * pw e0 n3).
  rewrite (E_ext E HE _ (fun w => C * (V w ^ Z.to_nat n2 * M (V w) (n3, n4, n5) h))).
  2: { intro w. unfold gterm, C. rewrite <- !pw_Zpos by lia. ring. }
  rewrite (E_scal E HE), <- HT, <- (E_scal E HE) by lia. apply (E_ext E HE). intro w.
  rewrite powprod_monx by assumption. cbn [monx]. rewrite <- !pw_Zpos by lia. unfold C. pwx. ring.
Qed.

Lemma gsum_E a1 l : (0 <= l <= L)%Z ->
  sumR (fun ns => E (fun w => gterm a1 l ns (V w))) (rcomp 4 l)
  = E (fun w => (a1 + A2 * V w + A3 * (e0 * IE w) + A4 * I w + rs * Is w) ^ Z.to_nat l).
Proof.
  intro Hl. symmetry.
  rewrite (E_ext E HE _ (fun w => sumR (fun x => x) [a1; A2 * V w; A3 * (e0 * IE w); A4 * I w; rs * Is w] ^ Z.to_nat l)).
  2: { intro w. cbn [sumR]. f_equal. ring. }
  rewrite (E_multinomial E HE _ 4 l) by (try reflexivity; lia).
  apply sumR_ext. intros ns Hns. apply in_rcomp in Hns; [|lia]. destruct Hns as (l1 & l2 & l3).
  symmetry. now apply gterm_E.
Qed.
End Exp.

(** ** cov.py *)
Definition mon_vn (xv : R * R) : list Z -> R := monx [fst xv; e; snd xv; th; sg].
Definition P_vn (l : Z) (key : list Z) : Prop :=
  wfs [true; true; true; true; true] key /\ (nthZ key 0 + nthZ key 2 <= l)%Z.
Definition vnext (xv : R * R) : R := e * snd xv + (th + (- (e * th) + (sg * fst xv + 0))).

Lemma exp_vn_sp l : (0 <= l)%Z ->
  returns (exp_vn l) (fun r => wfp (P_vn l) kf_vn r /\ forall xv, evp mon_vn xv r = pw (vnext xv) l).
Proof.
  intro Hl. unfold exp_vn. eapply returns_weaken.
  - eapply (adds_run (P_vn l) mon_vn).
    apply (adds_nest (wfl (P_vn l)) (ev mon_vn) 3 l _ (fun ns xv =>
      IZR (cmb l ns) * monx [e * snd xv; th; - (e * th); sg * fst xv] ns)); [assumption|].
    intros ns l1 l2 l3. destruct (comp4 ns l l1 l2 l3) as (i & j & p & q & -> & q1 & q2 & q3 & q4 & qs).
    cbn [on4]. rewrite (comp_comb _ l l2 l3). cbn [bind].
    eapply adds_ext.
    + apply adds_kv. split; [cbn [wfs]; repeat split; lia|]. unfold nthZ; cbn [nth]; lia.
    + intros [x v]. unfold mon_vn. cbn [monx fst snd]. rewrite Q2R_qz, mult_IZR, sgn1_pw by lia. pwx. pws. ring.
  - intros r (g1 & g2 & g3 & g4). split; [split; auto|]. intros xv. unfold evp. rewrite g4.
    rewrite multinomial_pw by (try reflexivity; assumption). reflexivity.
Qed.

Definition mon_eIv (xv : R * R) : list Z -> R := monx [fst xv; e; h; snd xv; / k; th; sg].
Definition P_eIv (L : Z) (key : list Z) : Prop :=
  wfs [true; false; true; true; true; true; true] key /\ (nthZ key 0 + nthZ key 3 <= L)%Z.

Variable M1 : R -> ito_idx -> R -> R.
Hypothesis HM1 : forall v, ito_moments (mkPar k (s0 + h) v th sg) (M1 v).
Let e1 := exp (- (k * (s0 + h + h))).

Lemma ve_IEII_vn_sp n2 n3 n4 n5 : (0 <= n2)%Z -> (0 <= n3)%Z -> (0 <= n4)%Z -> (0 <= n5)%Z ->
  returns (ve_IEII_vn n2 n3 n4 n5) (fun r => wfp (P_eIv (n2 + n3 + n4 + n5)) kf_eIv r /\
    forall xv, evp mon_eIv xv r = pw (vnext xv) n2 * pw e1 n3 * M1 (vnext xv) (n3, n4, n5) h).
Proof.
  intros h2 h3 h4 h5. unfold ve_IEII_vn.
  eapply returns_bind; [apply (ve_IEII_sp n2 n3 n4 n5); assumption|]. intros p [(p1 & p2 & p3) Ep].
  set (L := (n2 + n3 + n4 + n5)%Z) in *.
  eapply returns_weaken.
  - eapply (adds_run (P_eIv L) mon_eIv).
    apply (adds_foldM (wfl (P_eIv L)) (ev mon_eIv) _ (fun kv1 xv => Q2R (snd kv1) * mon_ve (vnext xv) (fst kv1))).
    intros [k1 v1] Hin. cbn [fst snd]. destruct (allk_in _ _ k1 v1 p3 Hin) as [W1 B1].
    assert (H2 : (0 <= nthZ k1 2)%Z) by (wfs_destruct; unfold nthZ; cbn [nth]; assumption).
    eapply adds_bind; [apply (exp_vn_sp (nthZ k1 2) H2)|]. intros polv [(g1 & g2 & g3) Eg].
    eapply adds_ext.
    + apply (adds_fold (P_eIv L) mon_eIv (fun kv2 => [nthZ (fst kv2) 0; nthZ k1 0 + nthZ (fst kv2) 1; nthZ k1 1;
        nthZ (fst kv2) 2; nthZ k1 3; nthZ k1 4 + nthZ (fst kv2) 3; nthZ k1 5 + nthZ (fst kv2) 4]%Z)
        (fun kv2 => qmul v1 (snd kv2))).
      intros [k2 v2] Hin2. cbn [fst snd]. destruct (allk_in _ _ k2 v2 g3 Hin2) as [W2 B2].
      wfs_destruct. unfold nthZ in *; cbn [nth] in *. split; [cbn [wfs]; repeat split; lia|]. unfold nthZ; cbn [nth]; lia.
    + intros xv. specialize (Eg xv). unfold evp in Eg. rewrite sumR_eval in Eg. cbv beta. symmetry.
      rewrite (sumR_ext _ (fun kv2 => Q2R v1 * mon_ve 1 k1 * (Q2R (snd kv2) * mon_vn xv (fst kv2)))).
      * rewrite sumR_scal, Eg. unfold mon_ve. wfs_destruct. unfold nthZ in *; cbn [nth monx] in *. rewrite pw_one. ring.
      * intros [k2 v2] Hin2. cbn [fst snd]. destruct (allk_in _ _ k2 v2 g3 Hin2) as [W2 B2].
        rewrite Q2R_mul. unfold mon_eIv, mon_ve, mon_vn.
        wfs_destruct. unfold nthZ in *; cbn [nth monx] in *. rewrite pw_one. pws. ring.
  - intros r (g1 & g2 & g3 & g4). split; [split; auto|]. intros xv. unfold evp. rewrite g4.
    specialize (Ep (s0 + h) (vnext xv) (M1 (vnext xv)) Hh (HM1 _)). rewrite sumR_eval in Ep. exact Ep.
Qed.

(** value given v of one inner combination *)
Definition inner (q : Poly (list Z)) (l1 : Z) (ms : list Z) (v : R) : R :=
  match ms with
  | [m1; m2; m3; m4; m5] => IZR (cmb l1 ms) * (pw A1 m1 * pw A2 m2 * pw A3 m3 * pw A4 m4 * pw rs m5)
     * sumR (fun kv => Q2R (snd kv) * (mon_eIv (1, 1) (fst kv) *
         (pw v (m2 + nthZ (fst kv) 3) * pw e0 (m3 + nthZ (fst kv) 0) * M v (m3 + nthZ (fst kv) 0, m4, m5)%Z h))) (items q)
  | _ => 0
  end.

Lemma moment_inner_comb_sp N q ms l1 : allk (P_eIv N) (items q) ->
  length ms = 5%nat -> Forall (fun x => 0 <= x)%Z ms -> sumZ ms = l1 ->
  returns (on5 (moment_inner_comb q l1) ms) (fun r => wfp (P_9 (l1 + N)) kf_9 r /\
    forall v, evp mon_9 v r = inner q l1 ms v).
Proof.
  intros Aq g1 g2 g3. destruct (comp5 ms l1 g1 g2 g3) as (m1 & m2 & m3 & m4 & m5 & -> & q1 & q2 & q3 & q4 & q5 & qs).
  cbn [on5]. unfold moment_inner_comb.
  eapply returns_bind.
  { apply (adds_foldM (wfl (P_ve (l1 + N))) (ev mon_ve) _ (fun kv v => Q2R (snd kv) * (mon_eIv (1, 1) (fst kv) *
         (pw v (m2 + nthZ (fst kv) 3) * pw e0 (m3 + nthZ (fst kv) 0) * M v (m3 + nthZ (fst kv) 0, m4, m5)%Z h)))); [|apply wfl_nil].
    intros [k1 v1] Hin. cbn [fst snd]. destruct (allk_in _ _ k1 v1 Aq Hin) as [W1 B1].
    assert (H0 : (0 <= nthZ k1 0)%Z) by (wfs_destruct; unfold nthZ; cbn [nth]; assumption).
    assert (H3 : (0 <= nthZ k1 3)%Z) by (wfs_destruct; unfold nthZ; cbn [nth]; assumption).
    eapply adds_bind; [apply (ve_IEII_sp (m2 + nthZ k1 3) (m3 + nthZ k1 0) m4 m5); lia|].
    intros poln [(g4 & g5 & g6) Eg]. eapply adds_ext.
    + apply (adds_fold (P_ve (l1 + N)) mon_ve (fun kv2 => [nthZ k1 1 + nthZ (fst kv2) 0; nthZ k1 2 + nthZ (fst kv2) 1;
         nthZ (fst kv2) 2; nthZ k1 4 + nthZ (fst kv2) 3; nthZ k1 5 + nthZ (fst kv2) 4; nthZ k1 6 + nthZ (fst kv2) 5]%Z)
        (fun kv2 => qmul v1 (snd kv2))).
      intros [k2 v2] Hin2. cbn [fst snd]. destruct (allk_in _ _ k2 v2 g6 Hin2) as [W2 B2].
      wfs_destruct. unfold nthZ in *; cbn [nth] in *. split; [cbn [wfs]; repeat split; lia|]. unfold nthZ; cbn [nth]; lia.
    + intro v. specialize (Eg s0 v (M v) Hh (HM v)). rewrite sumR_eval in Eg. fold e0 in Eg. cbv beta. symmetry.
      rewrite (sumR_ext _ (fun kv2 => Q2R v1 * mon_eIv (1, 1) k1 * (Q2R (snd kv2) * mon_ve v (fst kv2)))).
      * rewrite sumR_scal, Eg. ring.
      * intros [k2 v2] Hin2. cbn [fst snd]. destruct (allk_in _ _ k2 v2 g6 Hin2) as [W2 B2].
        rewrite Q2R_mul. unfold mon_eIv, mon_ve.
        wfs_destruct. unfold nthZ in *; cbn [nth monx fst snd] in *. rewrite !pw_one. pws. ring. }
  intros a [[Ua Aa] Ea].
  eapply returns_bind; [apply (b_n_sp m1 m2 m3 m4 m5); assumption|]. intros b [Wb Eb].
  eapply returns_bind.
  { apply (mul_poly_sp (P_ve (l1 + N)) P_b (P_9 (l1 + N)) mon_ve (fun _ => mon_b tt) mon_9); [reflexivity|exact Aa|apply Wb|].
    intros k1 k2 [H1 B1] H2. unfold P_b in H2. wfs_destruct. keyred. split.
    - split; [cbn [wfs]; repeat split; lia|]. unfold nthZ in *. cbn [nth] in *. lia.
    - intro v. unfold mon_ve, mon_b, mon_9. cbn [monx]. pws. ring. }
  intros r [Wr Er]. rewrite (comp_comb _ l1 g2 g3). cbn [bind returns].
  destruct (rmul_sp _ mon_9 kf_9 (qz (cmb l1 [m1; m2; m3; m4; m5])) r Wr) as [W' E'].
  split; [exact W'|]. intro v. unfold rmulZ. rewrite E', Er. unfold evp at 1. cbn [items].
  specialize (Ea v). unfold ev in Ea. cbn [eval] in Ea. rewrite Ea.
  change (evp (fun _ : R => mon_b tt) v b) with (evp mon_b tt b). rewrite Eb, Q2R_qz. unfold inner. ring.
Qed.

Definition outer (q : Poly (list Z)) (l1 l2 : Z) (ns : list Z) (v : R) : R :=
  match ns with
  | [n1; n2; n3; n4; n5] => IZR (cmb l2 ns) * (pw A1 n1 * pw A2 n2 * pw A3 n3 * pw A4 n4 * pw rs n5)
     * sumR (fun ms => inner q l1 ms v) (rcomp 4 l1)
  | _ => 0
  end.

Definition qof (ns : list Z) (q : Poly (list Z)) : Prop :=
  match ns with
  | [n1; n2; n3; n4; n5] => wfp (P_eIv (n2 + n3 + n4 + n5)) kf_eIv q /\
      forall xv, evp mon_eIv xv q = pw (vnext xv) n2 * pw e1 n3 * M1 (vnext xv) (n3, n4, n5) h
  | _ => False
  end.

Lemma moment_outer_comb_sp ns l1 l2 : (0 <= l1)%Z ->
  length ns = 5%nat -> Forall (fun x => 0 <= x)%Z ns -> sumZ ns = l2 ->
  returns (on5 (moment_outer_comb l1 l2) ns) (fun r => wfp (P_9 (l1 + l2)) kf_9 r /\
    exists q, qof ns q /\ forall v, evp mon_9 v r = outer q l1 l2 ns v).
Proof.
  intros Hl1 g1 g2 g3. destruct (comp5 ns l2 g1 g2 g3) as (n1 & n2 & n3 & n4 & n5 & -> & q1 & q2 & q3 & q4 & q5 & qs).
  cbn [on5]. unfold moment_outer_comb. rewrite (comp_comb _ l2 g2 g3). cbn [bind].
  eapply returns_bind; [apply (b_n_sp n1 n2 n3 n4 n5); assumption|]. intros b [Wb Eb].
  eapply returns_bind; [apply (ve_IEII_vn_sp n2 n3 n4 n5); assumption|]. intros q [Wq Eq].
  set (N := (n2 + n3 + n4 + n5)%Z) in *.
  eapply returns_bind.
  { apply (adds_nest (wfp (P_9 (l1 + l2)) kf_9) (evp mon_9) 4 l1 _ (inner q l1)); [assumption| |apply wfp_nil].
    intros ms u1 u2 u3. eapply adds_bind; [apply (moment_inner_comb_sp N q ms l1 ltac:(apply Wq) u1 u2 u3)|].
    intros r [(w1 & w2 & w3) Er]. eapply adds_ext.
    + apply (adds_merge (P_9 (l1 + l2)) mon_9 kf_9 r w1). eapply allk_weaken; [exact w3|].
      intros key [a1 a2]. split; [assumption|lia].
    + intro v. apply Er. }
  intros p [Wp Ep]. eapply returns_bind.
  { apply (mul_poly_sp (P_9 (l1 + l2)) P_b (P_9 (l1 + l2)) mon_9 (fun _ => mon_b tt) mon_9); [reflexivity|apply Wp|apply Wb|].
    intros k1 k2 [H1 B1] H2. unfold P_b in H2. wfs_destruct. keyred. split.
    - split; [cbn [wfs]; repeat split; lia|]. unfold nthZ in *. cbn [nth] in *. lia.
    - intro v. unfold mon_b, mon_9. cbn [monx]. pws. ring. }
  intros r [Wr Er]. cbn [returns].
  destruct (rmul_sp _ mon_9 kf_9 (qz (cmb l2 [n1; n2; n3; n4; n5])) r Wr) as [W' E'].
  split; [exact W'|]. exists q. split; [split; assumption|]. intro v. unfold rmulZ. rewrite E', Er, Ep.
  unfold evp at 1. cbn [items eval].
  change (evp (fun _ : R => mon_b tt) v b) with (evp mon_b tt b). rewrite Eb, Q2R_qz. unfold outer. ring.
Qed.

Section ExpCov.
Context {Om : Type} (E : (Om -> R) -> R) (HE : expectation E) (V IE I Is V1 IE1 I1 Is1 : Om -> R) (L : Z).
Hypothesis HV : forall n, (0 <= n <= L)%Z -> E (fun w => V w ^ Z.to_nat n) = gmom th (sg ^ 2 / k) (Z.to_nat n).
Hypothesis HT : forall n a b d, (0 <= n)%Z -> (0 <= a)%Z -> (0 <= b)%Z -> (0 <= d)%Z -> (n + a + b + d <= L)%Z ->
  E (fun w => V w ^ Z.to_nat n * IE w ^ Z.to_nat a * I w ^ Z.to_nat b * Is w ^ Z.to_nat d)
  = E (fun w => V w ^ Z.to_nat n * M (V w) (a, b, d) h).
Hypothesis HV1 : forall w, V1 w = vnext (e0 * IE w, V w).
Hypothesis HT1 : forall hs n a b d, length hs = 4%nat -> Forall (fun x => 0 <= x)%Z hs ->
  (0 <= n)%Z -> (0 <= a)%Z -> (0 <= b)%Z -> (0 <= d)%Z -> (fold_right Z.add 0 hs + n + a + b + d <= L)%Z ->
  E (fun w => powprod [V w; IE w; I w; Is w] hs *
                (V1 w ^ Z.to_nat n * IE1 w ^ Z.to_nat a * I1 w ^ Z.to_nat b * Is1 w ^ Z.to_nat d))
  = E (fun w => powprod [V w; IE w; I w; Is w] hs * (V1 w ^ Z.to_nat n * M1 (V1 w) (a, b, d) h)).

Definition xs0 (w : Om) : list R := [A1; A2 * V w; A3 * (e0 * IE w); A4 * I w; rs * Is w].
Definition xs1 (w : Om) : list R := [A1; A2 * V1 w; A3 * (e1 * IE1 w); A4 * I1 w; rs * Is1 w].

Lemma inner_E q ns l1 l2 ms : (0 <= l1)%Z -> (0 <= l2)%Z -> (l1 + l2 <= L)%Z ->
  qof ns q -> length ns = 5%nat -> Forall (fun x => 0 <= x)%Z ns -> sumZ ns = l2 ->
  length ms = 5%nat -> Forall (fun x => 0 <= x)%Z ms -> sumZ ms = l1 ->
  match ns with
  | [n1; n2; n3; n4; n5] => pw A1 n1 * pw A2 n2 * pw A3 n3 * pw A4 n4 * pw rs n5
  | _ => 0
  end * E (fun w => inner q l1 ms (V w))
  = IZR (cmb l1 ms) * E (fun w => powprod (xs0 w) ms * powprod (xs1 w) ns).
Proof.
  intros Hl1 Hl2 HL Hq u1 u2 u3 w1 w2 w3.
  destruct (comp5 ns l2 u1 u2 u3) as (n1 & n2 & n3 & n4 & n5 & -> & q1 & q2 & q3 & q4 & q5 & qs).
  destruct (comp5 ms l1 w1 w2 w3) as (m1 & m2 & m3 & m4 & m5 & -> & r1 & r2 & r3 & r4 & r5 & rs').
  destruct Hq as [(p1 & p2 & p3) Eq].
  set (C := IZR (cmb l1 [m1; m2; m3; m4; m5]) * (pw A1 m1 * pw A2 m2 * pw A3 m3 * pw A4 m4 * pw rs m5)).
  set (D := pw A1 n1 * pw A2 n2 * pw A3 n3 * pw A4 n4 * pw rs n5).
  assert (H1 : E (fun w => inner q l1 [m1; m2; m3; m4; m5] (V w))
    = C * E (fun w => pw (V w) m2 * pw (e0 * IE w) m3 * pw (I w) m4 * pw (Is w) m5 * evp mon_eIv (e0 * IE w, V w) q)).
  { unfold inner. fold C. rewrite (E_scal E HE). f_equal. unfold evp.
    rewrite (E_ext E HE (fun w => pw (V w) m2 * pw (e0 * IE w) m3 * pw (I w) m4 * pw (Is w) m5 * _)
      (fun w => sumR (fun kv => pw (V w) m2 * pw (e0 * IE w) m3 * pw (I w) m4 * pw (Is w) m5 *
          (Q2R (snd kv) * mon_eIv (e0 * IE w, V w) (fst kv))) (items q)))
      by (intro w; rewrite sumR_eval, sumR_scal; reflexivity).
    rewrite !(E_sumR E HE). apply sumR_ext. intros [k1 v1] Hin. cbn [fst snd].
    destruct (allk_in _ _ k1 v1 p3 Hin) as [W1 B1]. wfs_destruct. unfold nthZ in *; cbn [nth] in *.
    match goal with |- E (fun w => _ * (?F * (pw _ (m2 + ?a) * pw e0 ?b * _))) = _ =>
      rewrite (E_ext E HE _ (fun w => (Q2R v1 * F * pw e0 b) * (V w ^ Z.to_nat (m2 + a) * M (V w) (b, m4, m5) h)))
        by (intro w; rewrite <- pw_Zpos by lia; ring) end.
    rewrite (E_scal E HE), <- HT, <- (E_scal E HE) by lia. apply (E_ext E HE). intro w.
    rewrite <- !pw_Zpos by lia. unfold mon_eIv. cbn [monx fst snd]. rewrite !pw_one. pwx. pws. ring. }
  rewrite H1.
  rewrite (E_ext E HE _ (fun w => pw e0 m3 * pw e1 n3 * (powprod [V w; IE w; I w; Is w] [m2; m3; m4; m5] *
     (V1 w ^ Z.to_nat n2 * M1 (V1 w) (n3, n4, n5) h)))).
  2: { intro w. rewrite Eq, <- HV1. rewrite powprod_monx by (repeat constructor; assumption). cbn [monx].
       rewrite <- !pw_Zpos by lia. pwx. ring. }
  rewrite (E_scal E HE), <- HT1 by (try reflexivity; try (repeat constructor; assumption); cbn [fold_right]; lia).
  rewrite <- !(E_scal E HE). apply (E_ext E HE). intro w.
  unfold xs0, xs1. rewrite !powprod_monx by (try assumption; repeat constructor; assumption). cbn [monx].
  rewrite <- !pw_Zpos by lia. unfold C, D. pwx. ring.
Qed.

Lemma outer_E q ns l1 l2 : (0 <= l1)%Z -> (0 <= l2)%Z -> (l1 + l2 <= L)%Z ->
  qof ns q -> length ns = 5%nat -> Forall (fun x => 0 <= x)%Z ns -> sumZ ns = l2 ->
  E (fun w => outer q l1 l2 ns (V w)) = IZR (cmb l2 ns) *
    sumR (fun ms => IZR (cmb l1 ms) * E (fun w => powprod (xs0 w) ms * powprod (xs1 w) ns)) (rcomp 4 l1).
Proof.
  intros Hl1 Hl2 HL Hq u1 u2 u3.
  rewrite (sumR_ext _ (fun ms => match ns with
    | [n1; n2; n3; n4; n5] => pw A1 n1 * pw A2 n2 * pw A3 n3 * pw A4 n4 * pw rs n5
    | _ => 0 end * E (fun w => inner q l1 ms (V w)))).
  2: { intros ms Hms. apply in_rcomp in Hms; [|lia]. destruct Hms as (w1 & w2 & w3). symmetry.
       now apply (inner_E q ns l1 l2 ms). }
  rewrite sumR_scal, <- (E_sumR E HE), <- !(E_scal E HE).
  apply (E_ext E HE). intro w. destruct (comp5 ns l2 u1 u2 u3) as (n1 & n2 & n3 & n4 & n5 & -> & _).
  unfold outer. ring.
Qed.

Lemma moment_yy_E l1 l2 : (0 <= l1)%Z -> (0 <= l2)%Z -> (l1 + l2 <= L)%Z ->
  returns (moment_yy l1 l2) (fun r => wfp P_8 kf_8 r /\ nonzero (items r) /\ evp mon_b tt r =
    E (fun w => sumR (fun x => x) (xs0 w) ^ Z.to_nat l1 * sumR (fun x => x) (xs1 w) ^ Z.to_nat l2)).
Proof.
  intros Hl1 Hl2 HL. unfold moment_yy. eapply returns_bind.
  - apply (adds_nest (wfp (P_9 L) kf_9) (fun (_ : unit) s => E (fun w => evp mon_9 (V w) s)) 4 l2 _
      (fun ns _ => IZR (cmb l2 ns) *
        sumR (fun ms => IZR (cmb l1 ms) * E (fun w => powprod (xs0 w) ms * powprod (xs1 w) ns)) (rcomp 4 l1)));
      [assumption| |apply wfp_nil].
    intros ns u1 u2 u3. eapply adds_bind; [apply (moment_outer_comb_sp ns l1 l2 Hl1 u1 u2 u3)|].
    intros r [(w1 & w2 & w3) (q & Hq & Er)]. eapply adds_ext.
    + apply (adds_E E HE V), (adds_merge (P_9 L) mon_9 kf_9 r w1). eapply allk_weaken; [exact w3|].
      intros key [a1 a2]. split; [assumption|lia].
    + intros []. rewrite <- (outer_E q ns l1 l2 Hl1 Hl2 HL Hq u1 u2 u3). apply (E_ext E HE). intro w. apply Er.
  - intros p ((g1 & g2 & g3) & Ep). specialize (Ep tt).
    eapply returns_bind; [apply (sub_v_sp L p g3)|]. intros r [Wr Er].
    cbn [returns]. destruct (remove_zero_sp P_8 mon_b kf_8 r Wr) as (W' & N' & E').
    split; [exact W'|]. split; [exact N'|]. rewrite E', Er, <- (E_mon_9 E HE V L HV p g3), Ep.
    unfold evp at 1. cbn [items eval]. rewrite (E_0 E HE), Rplus_0_l.
    rewrite (E_ext E HE _ (fun w => sumR (fun ns => IZR (cmb l2 ns) * sumR (fun ms => IZR (cmb l1 ms) *
       (powprod (xs0 w) ms * powprod (xs1 w) ns)) (rcomp 4 l1)) (rcomp 4 l2))).
    2: { intro w. rewrite <- (multinomial_rcomp (xs0 w) 4 l1), <- (multinomial_rcomp (xs1 w) 4 l2) by (try reflexivity; assumption).
         rewrite Rmult_comm, <- sumR_scal_r. apply sumR_ext. intros ns _.
         rewrite Rmult_assoc, <- sumR_scal. f_equal. apply sumR_ext. intros ms _. ring. }
    rewrite (E_sumR E HE). apply sumR_ext. intros ns _. rewrite (E_scal E HE), (E_sumR E HE). f_equal.
    apply sumR_ext. intros ms _. now rewrite (E_scal E HE).
Qed.

Lemma cov_yy_E l1 l2 : (0 <= l1)%Z -> (0 <= l2)%Z -> (l1 + l2 <= L)%Z ->
  returns (cov_yy l1 l2) (fun r => wfp P_8 kf_8 r /\ nonzero (items r) /\ evp mon_b tt r =
    E (fun w => sumR (fun x => x) (xs0 w) ^ Z.to_nat l1 * sumR (fun x => x) (xs1 w) ^ Z.to_nat l2)
    - E (fun w => sumR (fun x => x) (xs0 w) ^ Z.to_nat l1) * E (fun w => sumR (fun x => x) (xs0 w) ^ Z.to_nat l2)).
Proof.
  intros Hl1 Hl2 HL. unfold cov_yy.
  assert (Ey : forall l, (0 <= l <= L)%Z -> returns (moment_y l) (fun r => wfp P_8 kf_8 r /\ evp mon_b tt r =
     E (fun w => sumR (fun x => x) (xs0 w) ^ Z.to_nat l))).
  { intros l Hl. eapply returns_weaken; [apply (moment_y_E E HE V L HV l Hl)|]. intros r (W & _ & Er). split; [exact W|].
    rewrite Er, (gsum_E E HE V L IE I Is HT A1 l Hl). apply (E_ext E HE). intro w. unfold xs0. cbn [sumR]. f_equal. ring. }
  eapply returns_bind; [apply (moment_yy_E l1 l2); assumption|]. intros a (Wa & _ & Ea).
  eapply returns_bind; [apply (Ey l1); lia|]. intros b (Wb & Eb).
  eapply returns_bind; [apply (Ey l2); lia|]. intros c (Wc & Ec).
  eapply returns_bind; [apply (pmul_sp P_8 P_8 P_8 mon_b mon_b mon_b kf_8 b c); [apply Wb|apply Wc|apply Wb|apply Wc|]|].
  { intros k1 k2 H1 H2. unfold P_8 in *. wfs_destruct. keyred. split; [cbn [length]; lia|]. split.
    - cbn [wfs]; repeat split; lia.
    - intros []. unfold mon_b. cbn [monx]. pws. ring. }
  intros bc (Wbc & Ebc).
  eapply returns_bind; [apply (psub_sp P_8 mon_b kf_8 a bc Wa Wbc)|]. intros r (Wr & Er).
  cbn [returns]. destruct (remove_zero_sp P_8 mon_b kf_8 r Wr) as (W' & N' & E').
  split; [exact W'|]. split; [exact N'|]. now rewrite E', Er, Ebc, Ea, Eb, Ec.
Qed.
End ExpCov.
End Fsv1.
