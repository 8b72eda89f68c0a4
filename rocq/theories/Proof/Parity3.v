(** The joint moments with an odd power of the integral of the independent Brownian motion vanish,
    and so the power of sqrt(1-rho^2) is even. *)
From Coq Require Import Lra.
From Verif.Proof Require Export Parity Parity2.
Local Open Scope Z_scope.

(** ** one factor *)
Definition ev {K} (n : Z) (_ : K) : Prop := n mod 2 = 0.
Lemma int_e_poly_ev c tp m p n : sup (ev n) p -> oks (int_e_poly c tp m p) (sup (ev n)).
Proof.
  intro hp. unfold int_e_poly. eapply oks_bind; [|intros a Ha; exact Ha].
  apply (oks_foldM _ (supp _)); [|apply supp_nil]. intros s [k1 v1] H1 Hs. cbv zeta. cbn [fst snd].
  apply oks_bind0. intro sub. cbn [oks]. unfold iep_val.
  apply supp_fold_add; [exact Hs|]. intros [k2 v2] H2 Hnz. cbn [fst snd] in *.
  assert (D : ev n k1).
  { apply (hp k1 v1 H1). intro E. apply Hnz. rewrite Q2R_eq0 in E. rewrite Q2R_eq0. destruct (tp =? 2); rewrite ?Q2R_neg, !Q2R_mul, E; ring. }
  exact D.
Qed.
Definition ev3 (i : idx3) : list Z -> Prop := ev (snd i).
Definition evc (C : IEII_cache) : Prop := forall i p, In (i, p) C -> sup (ev3 i) p.
Lemma cget_evc i C : evc C -> oks (cget i C) (sup (ev3 i)).
Proof.
  intro h. induction C as [|[j a] r IH]; cbn [cget]; [exact Logic.I|]. destruct (keqb j i) eqn:E.
  - apply keqb_spec in E. subst j. apply (h i). now left.
  - apply IH. intros x p Hx. apply (h x). now right.
Qed.
Lemma cset_evc i p C : evc C -> sup (ev3 i) p -> evc (cset i p C).
Proof.
  intros h hp. induction C as [|[j a] r IH]; cbn [cset].
  - intros x q [E|[]]. now inversion E; subst.
  - destruct (keqb j i) eqn:Ek; intros x q [E|Hin].
    + apply keqb_spec in Ek. inversion E; subst. exact hp.
    + apply (h x). now right.
    + inversion E; subst. apply (h x). now left.
    + revert x q Hin. apply IH. intros x q Hx. apply (h x). now right.
Qed.
Lemma merge_int_ev C c p tp m i n : evc C -> sup (ev n) p -> (snd i mod 2 = 0 -> n mod 2 = 0) -> oks (merge_int C c p tp m i) (sup (ev n)).
Proof.
  intros hC hp E. unfold merge_int. eapply oks_bind; [now apply cget_evc|]. intros q Hq.
  eapply oks_bind; [exact (int_e_poly_ev c tp m q _ Hq)|]. intros r Hr. apply merge_sup; [exact hp|].
  eapply supp_weaken; [exact Hr|]. intros k Hk. exact (E Hk).
Qed.
Lemma branch_ev C c p m1 m3 i i2 n : evc C -> sup (ev n) p -> (snd i mod 2 = 0 -> n mod 2 = 0) -> (snd i2 mod 2 = 0 -> n mod 2 = 0) ->
  oks (branch C c p m1 m3 i i2) (sup (ev n)).
Proof.
  intros hC hp E1 E2. unfold branch. do 3 (eapply oks_bind; [apply (merge_int_ev _ _ _ _ _ _ n); eassumption|clear p hp; intros p hp]).
  now apply merge_int_ev.
Qed.
Lemma recursive_IEII_ev n3 n4 n5 C : evc C -> oks (recursive_IEII n3 n4 n5 C) (sup (ev n5)).
Proof.
  intro hC. unfold recursive_IEII. cbv zeta.
  assert (h0 : sup (ev n5) (mkPoly (K:=list Z) [] kf_IEII)) by apply supp_nil. revert h0. generalize (mkPoly (K:=list Z) [] kf_IEII).
  do 3 (intros p hp; eapply oks_bind with (P := sup (ev n5)); [match goal with |- oks (if ?b then _ else _) _ =>
    destruct b; [apply branch_ev; cbn [fst snd]; [assumption|assumption|intro; mod2|intro; mod2]|exact hp] end|clear p hp]).
  intros p hp. match goal with |- oks (if ?b then _ else _) _ => destruct b; [apply branch_ev; cbn [fst snd]; [assumption|assumption|intro; mod2|intro; mod2]|exact hp] end.
Qed.
Lemma IEII_init_ev : evc IEII_init.
Proof.
  intros i p h. repeat (destruct h as [E|h]; [inversion E; subst; clear E; intros k v Hk Hnz;
    repeat (destruct Hk as [Hk|Hk]; [inversion Hk; subst; first [reflexivity|exfalso; apply Hnz; reflexivity]|]); destruct Hk|]). destruct h.
Qed.
Lemma IEII_round_ev C n : evc C -> oks (IEII_round C n) evc.
Proof.
  intro hC. unfold IEII_round. eapply oks_bind.
  - apply (oks_foldM _ evc); [|exact hC]. intros s i _ Hs. apply oks_foldM; [|exact Hs].
    intros s' j _ Hs'. eapply oks_bind; [now apply recursive_IEII_ev|]. intros p hp.
    apply cset_evc; [exact Hs'|]. now apply remove_zero_sup.
  - intros D hD i p Hin. unfold cdel in Hin. apply filter_In in Hin. now apply (hD i).
Qed.
Theorem moment_IEII_ev n3 n4 n5 : oks (moment_IEII n3 n4 n5) (sup (ev n5)).
Proof.
  unfold moment_IEII. destruct (_ <? 0); [exact Logic.I|]. destruct (_ <=? 2); [apply (cget_evc (n3, n4, n5)), IEII_init_ev|].
  eapply oks_bind with (P := evc).
  - destruct (3 <? _); [|exact IEII_init_ev]. apply oks_foldM; [|exact IEII_init_ev]. intros. now apply IEII_round_ev.
  - intros C hC. eapply oks_bind; [now apply recursive_IEII_ev|]. intros p hp. now apply remove_zero_sup.
Qed.
(** the power of sqrt(1-rho^2) *)
Notation s_cb := [0; 0; 0; 0; 0; 1].
Notation s_8 := [0; 0; 0; 0; 0; 0; 0; 1].
Notation s_c7 := [0; 0; 0; 0; 0; 0; 1].
Notation s_9 := [0; 0; 0; 0; 0; 0; 0; 0; 1].
Definition evl (n : Z) (l : nat) (k : list Z) : Prop := length k = l /\ n mod 2 = 0.
Lemma cb_n_ev n1 n2 n3 n4 n5 : oks (cb_n n1 n2 n3 n4 n5) (sup (hom2 s_cb n5)).
Proof.
  unfold cb_n. eapply oks_bind; [|intros a Ha; exact Ha].
  apply (oks_foldM _ (supp (hom2 s_cb n5))); [|apply supp_nil]. intros s i _ Hs. apply oks_foldM; [|exact Hs].
  intros s' j _ Hs'. cbv zeta. do 2 (apply oks_bind0; intro). apply supp_add_kv; [exact Hs'|intros _; hom2k].
Qed.
Lemma ve_IEII_ev n2 n3 n4 n5 : oks (ve_IEII n2 n3 n4 n5) (sup (evl n5 6)).
Proof.
  unfold ve_IEII. eapply oks_bind; [apply moment_IEII_ev|]. intros p hp. cbn [oks]. apply supp_fold_add; [apply supp_nil|].
  intros [k v] Hin Hnz. cbn [fst snd] in *. pose proof (hp _ _ Hin Hnz) as D. red in D. split; [reflexivity|exact D].
Qed.
Ltac evls := repeat match goal with
  | h : evl _ _ ?k |- _ => let L := fresh "L" in let E := fresh "E" in destruct h as [L E]; cbn [length] in L;
      repeat (destruct k as [|? k]; [discriminate L|]; injection L as L); destruct k; [|discriminate L]; clear L
  end.
Ltac mule := intros k1 k2 ? ?; hom2s; evls; mul2c.
Lemma cmoment_comb_ev n n1 n2 n3 n4 n5 : oks (cmoment_comb n n1 n2 n3 n4 n5) (sup (hom2 s_8 0)).
Proof.
  unfold cmoment_comb. eapply oks_bind; [apply ve_IEII_ev|]. intros p hp. eapply oks_bind; [apply cb_n_ev|]. intros b hb.
  eapply oks_bind; [apply (mul_poly_sup _ _ (hom2 s_8 0) _ _ _ _ _ hp hb); mule|]. intros q hq.
  apply oks_bind0. intro c. now apply rmulZ_sup.
Qed.
Theorem cmoment_y_ev l : oks (cmoment_y l) (sup (hom2 s_c7 0)).
Proof.
  unfold cmoment_y. eapply oks_bind; [apply (sup_nest5 (hom2 s_8 0)); intros; apply cmoment_comb_ev|]. intros p hp.
  eapply oks_bind; [apply (subst_v_sup _ (hom2 s_c7 0) _ _ _ _ hp)|intros q hq; now apply remove_zero_sup].
  intros k i j h. hom2k.
Qed.
Lemma b_n_ev n1 n2 n3 n4 n5 : oks (b_n n1 n2 n3 n4 n5) (sup (hom2 s_8 n5)).
Proof.
  unfold b_n. eapply oks_bind; [|intros a Ha; exact Ha].
  apply (oks_nest (supp (hom2 s_8 n5))); [|apply supp_nil]. intros s ns E Hs.
  unfold on4. repeat (destruct ns as [|? ns]; try exact Logic.I).
  apply oks_foldM; [|exact Hs]. intros s' i _ Hs'. apply oks_foldM; [|exact Hs'].
  intros s'' j _ Hs''. do 3 (apply oks_bind0; intro). cbv zeta. apply supp_add_kv; [exact Hs''|intros _; hom2k].
Qed.
Lemma moment_comb_ev n n1 n2 n3 n4 n5 : oks (moment_comb n n1 n2 n3 n4 n5) (sup (hom2 s_9 0)).
Proof.
  unfold moment_comb. eapply oks_bind; [apply ve_IEII_ev|]. intros p hp. eapply oks_bind; [apply b_n_ev|]. intros b hb.
  eapply oks_bind; [apply (mul_poly_sup _ _ (hom2 s_9 0) _ _ _ _ _ hp hb); mule|]. intros q hq.
  apply oks_bind0. intro c. now apply rmulZ_sup.
Qed.
Lemma sub_v_ev p : sup (hom2 s_9 0) p -> oks (sub_v p) (sup (hom2 s_8 0)).
Proof. intro hp. apply (subst_v_sup _ (hom2 s_8 0) _ _ _ _ hp). intros k i j h. hom2k. Qed.
Theorem moment_y_ev l : oks (moment_y l) (sup (hom2 s_8 0)).
Proof.
  unfold moment_y. eapply oks_bind; [apply (sup_nest5 (hom2 s_9 0)); intros; apply moment_comb_ev|]. intros p hp.
  eapply oks_bind; [now apply sub_v_ev|intros q hq; now apply remove_zero_sup].
Qed.
Lemma ve_IEII_vn_ev n2 n3 n4 n5 : oks (ve_IEII_vn n2 n3 n4 n5) (sup (evl n5 7)).
Proof.
  unfold ve_IEII_vn. eapply oks_bind; [apply ve_IEII_ev|]. intros p hp. eapply oks_bind; [|intros a Ha; exact Ha].
  apply (oks_foldM _ (supp _)); [|apply supp_nil]. intros s [k1 v1] H1 Hs. cbv zeta. cbn [fst snd].
  apply oks_bind0. intro q. apply supp_fold_add; [exact Hs|].
  intros [k2 v2] H2 Hnz. cbn [fst snd] in *. apply qmul_nz in Hnz. destruct (hp _ _ H1 (proj1 Hnz)) as [_ D]. split; [reflexivity|exact D].
Qed.
Lemma moment_inner_comb_ev d pe l1 m1 m2 m3 m4 m5 : sup (evl d 7) pe ->
  oks (moment_inner_comb pe l1 m1 m2 m3 m4 m5) (sup (fun k => hom2 s_9 0 k /\ d mod 2 = 0)).
Proof.
  intro hpe. unfold moment_inner_comb. eapply oks_bind with (P := supp (fun k => evl m5 6 k /\ d mod 2 = 0)).
  - apply oks_foldM; [|apply supp_nil]. intros s [k1 v1] H1 Hs. cbv zeta. cbn [fst snd].
    eapply oks_bind; [apply ve_IEII_ev|]. intros q Hq. apply supp_fold_add; [exact Hs|].
    intros [k2 v2] H2 Hnz. cbn [fst snd] in *. apply qmul_nz in Hnz. destruct (hpe _ _ H1 (proj1 Hnz)) as [_ D1].
    destruct (Hq _ _ H2 (proj2 Hnz)) as [_ D2]. split; [split; [reflexivity|exact D2]|exact D1].
  - intros a Ha. eapply oks_bind; [apply b_n_ev|]. intros b hb.
    eapply oks_bind; [apply (mul_poly_sup (fun k => evl m5 6 k /\ d mod 2 = 0) _ (fun k => hom2 s_9 0 k /\ d mod 2 = 0) (mkPoly a kf_ve) _ _ _ _ Ha hb)|].
    { intros k1 k2 [h1 h2] h3. hom2s. evls. cbv -[Z.add Z.mul Z.opp Z.modulo Z.sub]. split; [split; [reflexivity|mod2]|exact h2]. }
    intros q hq. apply oks_bind0. intro c. now apply rmulZ_sup.
Qed.
Lemma moment_outer_comb_ev l1 l2 n1 n2 n3 n4 n5 : oks (moment_outer_comb l1 l2 n1 n2 n3 n4 n5) (sup (hom2 s_9 0)).
Proof.
  unfold moment_outer_comb. apply oks_bind0. intro c. eapply oks_bind; [apply b_n_ev|]. intros b hb.
  eapply oks_bind; [apply ve_IEII_vn_ev|]. intros pe hpe.
  eapply oks_bind; [apply (sup_nest5 (fun k => hom2 s_9 0 k /\ n5 mod 2 = 0)); intros; now apply moment_inner_comb_ev|]. intros p hp.
  eapply oks_bind; [apply (mul_poly_sup _ _ (hom2 s_9 0) _ _ _ _ _ hp hb)|].
  { intros k1 k2 [h1 h2] h3. hom2s. mul2c. }
  intros q hq. now apply rmulZ_sup.
Qed.
Theorem moment_yy_ev l1 l2 : oks (moment_yy l1 l2) (sup (hom2 s_8 0)).
Proof.
  unfold moment_yy. eapply oks_bind; [apply (sup_nest5 (hom2 s_9 0)); intros; apply moment_outer_comb_ev|]. intros p hp.
  eapply oks_bind; [now apply sub_v_ev|intros q hq; now apply remove_zero_sup].
Qed.
Theorem cov_yy_ev l1 l2 : oks (cov_yy l1 l2) (sup (hom2 s_8 0)).
Proof.
  unfold cov_yy. eapply oks_bind; [apply moment_yy_ev|]. intros a ha. eapply oks_bind; [apply moment_y_ev|]. intros b hb.
  eapply oks_bind; [apply moment_y_ev|]. intros c hc. now apply cov_par.
Qed.
(** ** mdl_1fsvj *)
Notation s_j11 := [0; 0; 0; 0; 0; 0; 0; 1; 0; 0; 0].
Notation s_j10 := [0; 0; 0; 0; 0; 0; 1; 0; 0; 0].
Theorem jmoment_y_ev l : oks (jmoment_y l) (sup (hom2 s_j11 0)).
Proof.
  apply oks_foldM; [|apply supp_nil]. intros s i _ Hs. apply oks_bind0. intro c.
  eapply oks_bind; [apply moment_y_ev|]. intros p hp. eapply oks_bind; [apply mcpp_par|]. intros q hq.
  eapply oks_bind; [apply (mul_poly_sup _ _ (hom2 s_j11 0) _ _ _ _ _ hp (sup_allp _ _ hq)); mul2k|]. intros r hr.
  apply merge_sup; [exact Hs|]. now apply rmulZ_sup.
Qed.
Theorem jcmoment_y_ev l : oks (jcmoment_y l) (sup (hom2 s_j10 0)).
Proof.
  apply oks_foldM; [|apply supp_nil]. intros s i _ Hs. apply oks_bind0. intro c.
  eapply oks_bind; [apply cmoment_y_ev|]. intros p hp. eapply oks_bind; [apply cmcpp_par|]. intros q hq.
  eapply oks_bind; [apply (mul_poly_sup _ _ (hom2 s_j10 0) _ _ _ _ _ hp (sup_allp _ _ hq)); mul2k|]. intros r hr.
  apply merge_sup; [exact Hs|]. now apply rmulZ_sup.
Qed.
Theorem jmoment_yy_ev l1 l2 : oks (jmoment_yy l1 l2) (sup (hom2 s_j11 0)).
Proof.
  apply oks_foldM; [|apply supp_nil]. intros s i _ Hs. apply oks_foldM; [|exact Hs]. intros s' j _ Hs'.
  do 2 (apply oks_bind0; intro). cbv zeta. eapply oks_bind; [apply moment_yy_ev|]. intros p hp.
  eapply oks_bind; [apply mcpp_par|]. intros q2 hq2. eapply oks_bind; [apply mcpp_par|]. intros q3 hq3.
  eapply oks_bind; [apply (hom2_pmul q_cpp 0 0); now apply sup_allp|]. intros q hq. change (0 + 0) with 0 in hq.
  eapply oks_bind; [apply (mul_poly_sup _ _ (hom2 s_j11 0) _ _ _ _ _ hp hq); mul2k|]. intros r hr.
  apply merge_sup; [exact Hs'|]. now apply rmulZ_sup.
Qed.
Theorem jcov_yy_ev l1 l2 : oks (jcov_yy l1 l2) (sup (hom2 s_j11 0)).
Proof.
  unfold jcov_yy. eapply oks_bind; [apply jmoment_yy_ev|]. intros a ha. eapply oks_bind; [apply jmoment_y_ev|]. intros b hb.
  eapply oks_bind; [apply jmoment_y_ev|]. intros c hc. now apply cov_par.
Qed.

(** ** two factors *)
Lemma int_ms_ev n i m b : allp (ev n) b -> oks (int_ms i m b) (allp (ev n)).
Proof.
  intro hb. unfold int_ms. eapply oks_bind; [|intros a Ha; exact Ha].
  apply (oks_foldM _ (allk _)); [|apply allk_nil]. intros s [[d0 [[e1 e2] [[m4 m6] x]]] v1] H1 Hs. cbv zeta. cbn [fst snd].
  pose proof (allk_in _ _ _ _ hb H1) as D1.
  apply oks_bind0. intro c. apply oks_foldM; [|exact Hs].
  intros s' [[t [t2 t3]] v2] H2 Hs'. cbn [fst snd]. apply oks_bind0. intro t0. cbn [oks].
  apply allk_add_kv; [exact Hs'|exact D1].
Qed.
Lemma coef_poly_ev n c p tp : allp (ev n) p -> allp (ev n) (coef_poly c p tp).
Proof.
  intro hp. unfold coef_poly. destruct (_ && _) eqn:B; [|apply allk_nil]. apply allk_fold_kv; [apply allk_nil|].
  intros [k v] Hin. exact (allk_in _ _ _ _ hp Hin).
Qed.
Definition evcs (C : S_cache) : Prop := forall i p, In (i, p) C -> allp (ev (snd i)) p.
Lemma cget_evcs i C : evcs C -> oks (cget i C) (allp (ev (snd i))).
Proof.
  intro h. induction C as [|[j a] r IH]; cbn [cget]; [exact Logic.I|]. destruct (keqb j i) eqn:E.
  - apply keqb_spec in E. subst j. apply (h i). now left.
  - apply IH. intros x p Hx. apply (h x). now right.
Qed.
Lemma cset_evcs i p C : evcs C -> allp (ev (snd i)) p -> evcs (cset i p C).
Proof.
  intros h hp. induction C as [|[j a] r IH]; cbn [cset].
  - intros x q [E|[]]. now inversion E; subst.
  - destruct (keqb j i) eqn:Ek; intros x q [E|Hin].
    + apply keqb_spec in Ek. inversion E; subst. exact hp.
    + apply (h x). now right.
    + inversion E; subst. apply (h x). now left.
    + revert x q Hin. apply IH. intros x q Hx. apply (h x). now right.
Qed.
Lemma merge_s_ev C c p i m n tp d : evcs C -> allp (ev d) p -> (snd n mod 2 = 0 -> d mod 2 = 0) ->
  oks (merge_s C c p i m n tp) (allp (ev d)).
Proof.
  intros hC hp E. unfold merge_s, int_mIEI_IEII. eapply oks_bind; [eapply oks_bind; [now apply cget_evcs|]; intros b hb; apply (int_ms_ev _ _ _ _ hb)|].
  intros q hq. apply merge_allp; [exact hp|]. pose proof (coef_poly_ev _ c _ tp hq) as h. intros k Hk. exact (E (h k Hk)).
Qed.
Lemma branch_s_ev C c p i m1 m3 n n' d : evcs C -> allp (ev d) p -> (snd n mod 2 = 0 -> d mod 2 = 0) ->
  (snd n' mod 2 = 0 -> d mod 2 = 0) -> oks (branch_s C c p i m1 m3 n n') (allp (ev d)).
Proof.
  intros hC hp E1 E2. unfold branch_s. cbv zeta.
  do 3 (eapply oks_bind; [apply (merge_s_ev _ _ _ _ _ _ _ d); [exact hC|exact hp|assumption]|clear p hp; intros p hp]).
  now apply merge_s_ev.
Qed.
Lemma recursive_s_ev n4 n5 n6 n7 n8 C : evcs C -> oks (recursive_s n4 n5 n6 n7 n8 C) (allp (ev n8)).
Proof.
  intro hC. unfold recursive_s. cbv zeta. assert (h0 : allp (ev n8) (mkPoly (K:=skey) [] kf_s)) by apply allk_nil.
  do 6 (match goal with |- oks (if ?b then _ else _) _ => destruct b; [apply branch_s_ev; [exact hC|exact h0| |]; cbn [snd]; intro; mod2|] end).
  match goal with |- oks (if ?b then _ else _) _ => destruct b; [|exact h0] end.
  eapply oks_bind; [apply (branch_s_ev _ _ _ _ _ _ _ _ n8); [exact hC|exact h0| |]; cbn [snd]; intro; mod2|].
  intros p hp. apply branch_s_ev; [exact hC|exact hp| |]; cbn [snd]; intro; mod2.
Qed.
Lemma S_init_ev : oks S_init evcs.
Proof.
  unfold S_init. eapply oks_bind; [apply (merge_allp (ev 0)); intros ? ?; reflexivity|]. intros p hp.
  intros i q h. repeat (destruct h as [E|h]; [inversion E; subst; clear E; first [solve [intros ? ?; reflexivity]|intros ? []]|]). destruct h.
Qed.
Lemma S_round_ev C n : evcs C -> oks (S_round C n) evcs.
Proof.
  intro hC. unfold S_round. do 4 (apply (oks_foldM _ evcs); [|assumption]; clear C hC; intros C ? _ hC).
  cbv zeta. eapply oks_bind; [now apply recursive_s_ev|]. intros p hp.
  apply cset_evcs; [exact hC|]. now apply remove_zero_allp.
Qed.
Theorem moment_IEI_IEII_ev n4 n5 n6 n7 n8 : oks (moment_IEI_IEII n4 n5 n6 n7 n8) (allp (ev n8)).
Proof.
  unfold moment_IEI_IEII. cbv zeta. destruct (_ <? 0); [exact Logic.I|]. eapply oks_bind; [apply S_init_ev|]. intros C hC.
  destruct (_ <=? 2); [now apply (cget_evcs (n4, n5, n6, n7, n8))|].
  eapply oks_bind with (P := evcs).
  - destruct (3 <? _); [|exact hC]. apply oks_foldM; [|exact hC]. intros. now apply S_round_ev.
  - intros D hD. eapply oks_bind; [now apply recursive_s_ev|]. intros p hp. now apply remove_zero_allp.
Qed.
