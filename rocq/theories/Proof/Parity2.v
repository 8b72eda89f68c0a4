(** Parity of the powers of sigma_v1 and of sigma_v2 in the two-factor polynomials. *)
From Coq Require Import Lra.
From Verif.Proof Require Export Parity TimeUnit2.
Local Open Scope Z_scope.

Section Par.
(** weights of sigma_v1, sigma_v2 and sigma_j: one of them is 1 *)
Variables (u1 u2 uj : Z).
Hypothesis Hu : (u1 = 1 /\ u2 = 0 /\ uj = 0) \/ (u1 = 0 /\ u2 = 1 /\ uj = 0) \/ (u1 = 0 /\ u2 = 0 /\ uj = 1).
Ltac du := destruct Hu as [[-> [-> ->]]|[[-> [-> ->]]|[-> [-> ->]]]].
Notation p_s := [0; 0; 0; u1; 0; 0; u2].
Definition d2 (n4 n5 n6 n7 : Z) : Z := u1 * (n4 + n5) + u2 * (n6 + n7).
Definition par5 (i : idx5) : Z := let '(n4, n5, n6, n7, n8) := i in d2 n4 n5 n6 n7.
Definition spar (d : Z) (k : skey) : Prop := hom2 p_s d (snd (snd (snd k))).
Definition fpar (w : list Z) (d : Z) (k : fkey) : Prop := hom2 w d (snd (snd k)).

Lemma int_ms_par d i m b : allp (spar d) b -> oks (int_ms i m b) (allp (spar d)).
Proof.
  intro hb. unfold int_ms. eapply oks_bind; [|intros a Ha; exact Ha].
  apply (oks_foldM _ (allk _)); [|apply allk_nil]. intros s [[d0 [[e1 e2] [[m4 m6] x]]] v1] H1 Hs. cbv zeta. cbn [fst snd].
  pose proof (allk_in _ _ _ _ hb H1) as D1. unfold spar in D1. cbn [fst snd] in D1.
  apply oks_bind0. intro c. apply oks_foldM; [|exact Hs].
  intros s' [[t [t2 t3]] v2] H2 Hs'. cbn [fst snd]. apply oks_bind0. intro t0. cbn [oks].
  apply allk_add_kv; [exact Hs'|]. unfold spar. cbn [fst snd]. hom2s. cbn [tl]. split; [reflexivity|]. cbn [deg]. mod2.
Qed.
Lemma coef_poly_par d c p tp : allp (spar d) p -> allp (spar (if tp =? 4 then d + u1 else if tp =? 8 then d + u2 else d)) (coef_poly c p tp).
Proof.
  intro hp. unfold coef_poly. destruct (_ && _) eqn:B; [|apply allk_nil]. apply allk_fold_kv; [apply allk_nil|].
  intros [[d0 [[e1 e2] [t2 x]]] v] Hin. pose proof (allk_in _ _ _ _ hp Hin) as D. unfold spar in D. cbn [fst snd] in *. hom2s.
  apply Bool.andb_true_iff in B. destruct B as [B1 B2]. apply Z.leb_le in B1, B2.
  unfold cp_key, spar. assert (T : tp = 1 \/ tp = 2 \/ tp = 3 \/ tp = 4 \/ tp = 5 \/ tp = 6 \/ tp = 7 \/ tp = 8) by lia.
  repeat (destruct T as [->|T]; [cbn [Z.eqb Pos.eqb fst snd addat]; (split; [reflexivity|du; cbn [deg]; mod2])|]).
  subst tp. cbn [Z.eqb Pos.eqb fst snd addat]; (split; [reflexivity|du; cbn [deg]; mod2]).
Qed.
Definition parcs (C : S_cache) : Prop := forall i p, In (i, p) C -> allp (spar (par5 i)) p.
Lemma cget_parcs i C : parcs C -> oks (cget i C) (allp (spar (par5 i))).
Proof.
  intro h. induction C as [|[j a] r IH]; cbn [cget]; [exact Logic.I|]. destruct (keqb j i) eqn:E.
  - apply keqb_spec in E. subst j. apply (h i). now left.
  - apply IH. intros x p Hx. apply (h x). now right.
Qed.
Lemma cset_parcs i p C : parcs C -> allp (spar (par5 i)) p -> parcs (cset i p C).
Proof.
  intros h hp. induction C as [|[j a] r IH]; cbn [cset].
  - intros x q [E|[]]. now inversion E; subst.
  - destruct (keqb j i) eqn:Ek; intros x q [E|Hin].
    + apply keqb_spec in Ek. inversion E; subst. exact hp.
    + apply (h x). now right.
    + inversion E; subst. apply (h x). now left.
    + revert x q Hin. apply IH. intros x q Hx. apply (h x). now right.
Qed.
Lemma spar_mod d d' p : (d - d') mod 2 = 0 -> allp (spar d) p -> allp (spar d') p.
Proof. intros E h k Hk. destruct (h k Hk) as [L D]. split; [exact L|]. mod2. Qed.
Lemma merge_s_par C c p i m n tp d : parcs C -> allp (spar d) p ->
  ((if tp =? 4 then par5 n + u1 else if tp =? 8 then par5 n + u2 else par5 n) - d) mod 2 = 0 ->
  oks (merge_s C c p i m n tp) (allp (spar d)).
Proof.
  intros hC hp E. unfold merge_s, int_mIEI_IEII. eapply oks_bind; [eapply oks_bind; [now apply cget_parcs|]; intros b hb; apply (int_ms_par _ _ _ _ hb)|].
  intros q hq. apply merge_allp; [exact hp|]. apply (spar_mod _ _ _ E). now apply coef_poly_par.
Qed.
Lemma branch_s_par C c p i m1 m3 n n' d : parcs C -> allp (spar d) p -> (par5 n - d) mod 2 = 0 ->
  (par5 n' + (if i =? 1 then u1 else u2) - d) mod 2 = 0 -> oks (branch_s C c p i m1 m3 n n') (allp (spar d)).
Proof.
  intros hC hp E1 E2. unfold branch_s. cbv zeta.
  do 3 (eapply oks_bind; [apply (merge_s_par _ _ _ _ _ _ _ d); [exact hC|exact hp|destruct (i =? 1); cbn [Z.add Z.eqb Pos.add Pos.eqb Pos.succ]; assumption]|clear p hp; intros p hp]).
  apply merge_s_par; [exact hC|exact hp|destruct (i =? 1); cbn [Z.add Z.eqb Pos.add Pos.eqb Pos.succ]; assumption].
Qed.
Lemma recursive_s_par n4 n5 n6 n7 n8 C : parcs C -> oks (recursive_s n4 n5 n6 n7 n8 C) (allp (spar (d2 n4 n5 n6 n7))).
Proof.
  intro hC. unfold recursive_s. cbv zeta. assert (h0 : allp (spar (d2 n4 n5 n6 n7)) (mkPoly [] kf_s)) by apply allk_nil.
  do 6 (match goal with |- oks (if ?b then _ else _) _ => destruct b; [apply branch_s_par; [exact hC|exact h0| |]; cbn [Z.eqb Pos.eqb]; unfold par5, d2; du; mod2|] end).
  match goal with |- oks (if ?b then _ else _) _ => destruct b; [|exact h0] end.
  eapply oks_bind; [apply (branch_s_par _ _ _ _ _ _ _ _ (d2 n4 n5 n6 n7)); [exact hC|exact h0| |]; cbn [Z.eqb Pos.eqb]; unfold par5, d2; du; mod2|].
  intros p hp. apply branch_s_par; [exact hC|exact hp| |]; cbn [Z.eqb Pos.eqb]; unfold par5, d2; du; mod2.
Qed.
Ltac tabp := let k := fresh in let Hk := fresh in intros k Hk; repeat (destruct Hk as [<-|Hk]; [split; [reflexivity|cbn [fst snd deg par5]; unfold d2; du; reflexivity]|]); destruct Hk.
Lemma S_init_par : oks S_init parcs.
Proof.
  unfold S_init. eapply oks_bind; [apply (merge_allp (spar 0)); tabp|]. intros p hp.
  intros i q h. repeat (destruct h as [E|h]; [inversion E; subst; clear E; first [solve [tabp]|apply (spar_mod 0); [unfold par5, d2; du; reflexivity|exact hp]]|]). destruct h.
Qed.
Lemma S_round_par C n : parcs C -> oks (S_round C n) parcs.
Proof.
  intro hC. unfold S_round. do 4 (apply (oks_foldM _ parcs); [|assumption]; clear C hC; intros C ? _ hC).
  cbv zeta. eapply oks_bind; [now apply recursive_s_par|]. intros p hp.
  apply cset_parcs; [exact hC|]. now apply remove_zero_allp.
Qed.
Theorem moment_IEI_IEII_par n4 n5 n6 n7 n8 : oks (moment_IEI_IEII n4 n5 n6 n7 n8) (allp (spar (d2 n4 n5 n6 n7))).
Proof.
  unfold moment_IEI_IEII. cbv zeta. destruct (_ <? 0); [exact Logic.I|]. eapply oks_bind; [apply S_init_par|]. intros C hC.
  destruct (_ <=? 2); [now apply (cget_parcs (n4, n5, n6, n7, n8))|].
  eapply oks_bind with (P := parcs).
  - destruct (3 <? _); [|exact hC]. apply oks_foldM; [|exact hC]. intros. now apply S_round_par.
  - intros D hD. eapply oks_bind; [now apply recursive_s_par|]. intros p hp. now apply remove_zero_allp.
Qed.

Ltac fpk := unfold d2, fpar in *; cbn [fst snd] in *; hom2s; unfold nthZ in *; cbn [nth fst snd] in *; du; (split; [reflexivity|cbn [deg] in *; mod2]).
Notation p_cb := [0; 0; 0; u1; 0; 0; 0; u2].
Notation p_ve := [0; 0; 0; u1; 0; 0; u2].
Notation p_7 := [0; 0; u1; 0; u2].
Notation p_b := [0; 0; 0; u1; 0; 0; 0; u2; 0; 0].
Notation p_10 := [0; 0; 0; 0; u1; 0; 0; u2].
Notation p_8 := [0; 0; 0; u1; 0; u2].
Notation p_eIv := [u1; u2; 0; 0; 0; u1; 0; 0; u2].
Notation p_11 := [0; 0; 0; u1; 0; u2; 0; 0; uj].
Notation p_c10 := [0; 0; u1; 0; u2; 0; 0; uj].
Lemma cb2_n_par n1 n2 n3 n4 n5 n6 n7 : oks (cb2_n n1 n2 n3 n4 n5 n6 n7) (allp (hom2 p_cb (d2 n4 n5 n6 n7))).
Proof.
  unfold cb2_n. eapply oks_bind; [|intros a Ha; exact Ha].
  apply (oks_nest (allk (hom2 p_cb (d2 n4 n5 n6 n7)))); [|apply allk_nil]. intros s ns E Hs.
  unfold on4. repeat (destruct ns as [|? ns]; try exact Logic.I).
  apply oks_foldM; [|exact Hs]. intros s' i _ Hs'. apply oks_foldM; [|exact Hs'].
  intros s'' j _ Hs''. do 5 (apply oks_bind0; intro). cbv zeta. apply allk_add_kv; [exact Hs''|fpk].
Qed.
Lemma vvee_par n2 n3 n4 n5 n6 n7 n8 : oks (vvee n2 n3 n4 n5 n6 n7 n8) (allp (fpar p_ve (d2 n4 n5 n6 n7))).
Proof.
  unfold vvee. eapply oks_bind; [apply moment_IEI_IEII_par|]. intros p hp. unfold oks, allp. cbn [items].
  apply fold_left_inv; [|apply allk_nil]. intros s [[d [t1 [[j1 j2] x]]] v] Hin Hs.
  pose proof (allk_in _ _ _ _ hp Hin) as D. unfold spar in D. cbn [fst snd] in *.
  apply allk_add_kv; [exact Hs|]. fpk.
Qed.
Lemma b_key_par w1 w2 w3 d1 e d3 mk (k : fkey) k2 : fpar w1 d1 k -> hom2 w2 e k2 ->
  (forall x, hom2 w1 d1 x -> hom2 w3 d3 (mk x k2)) -> oks (b_key mk k k2) (fpar w3 d3).
Proof.
  destruct k as [d [[a b] x]]. unfold fpar. cbn [fst snd b_key]. intros h1 h2 hmk. do 2 (apply oks_bind0; intro). cbn [oks fst snd]. now apply hmk.
Qed.
Lemma cmoment_comb2_par n n1 n2 n3 n4 n5 n6 n7 n8 : oks (cmoment_comb2 n n1 n2 n3 n4 n5 n6 n7 n8) (allp (fpar p_ve 0)).
Proof.
  unfold cmoment_comb2. eapply oks_bind; [apply vvee_par|]. intros p hp. eapply oks_bind; [apply cb2_n_par|]. intros b hb.
  eapply oks_bind with (P := allp (fpar p_ve 0)); [|intros q hq; apply oks_bind0; intro c; now apply rmul_allp].
  apply (gpoly_allp _ (fun _ => hom2 p_cb (d2 n4 n5 n6 n7)) _ _ _ _ _ hp); [intros; exact hb|].
  intros k k2 h h2. eapply b_key_par; [exact h|exact h2|]. clear k h. intros x hx. fpk.
Qed.
Lemma v_key_par w1 w3 d f1 f2 mk (k : fkey) ij : fpar w1 d k ->
  (forall x, hom2 w1 d x -> hom2 w3 d (mk x (nthZ ij 0) (nthZ ij 1))) -> oks (v_key f1 f2 mk k ij) (fpar w3 d).
Proof.
  destruct k as [d0 [t1 x]]. unfold fpar. cbn [fst snd v_key]. intros h1 hmk. apply oks_bind0. intro. cbn [oks fst snd]. now apply hmk.
Qed.
Ltac subv := intros; apply allp_any.
Lemma csub_v2_par p : allp (fpar p_ve 0) p -> oks (csub_v2 p) (allp (fpar p_7 0)).
Proof.
  intro hp. unfold csub_v2. eapply oks_bind.
  - apply (gpoly_allp _ (fun _ _ => True) (fpar [0; 0; u1; 0; 0; u2] 0) _ _ _ _ hp); [intros k _; destruct (moment_v _); [intros ? ?; exact Logic.I|exact Logic.I]|].
    intros k k2 h _. eapply v_key_par; [exact h|]. clear k h. intros x hx. fpk.
  - intros q hq. apply (gpoly_allp _ (fun _ _ => True) (fpar p_7 0) _ _ _ _ hq); [intros k _; destruct (moment_v _); [intros ? ?; exact Logic.I|exact Logic.I]|].
    intros k k2 h _. eapply v_key_par; [exact h|]. clear k h. intros x hx. fpk.
Qed.
Theorem cmoment_y2_par l : oks (cmoment_y2 l) (allp (fpar p_7 0)).
Proof.
  unfold cmoment_y2. eapply oks_bind; [apply (oks_nest8 (fpar p_ve 0)); intros; apply cmoment_comb2_par|]. intros p hp.
  eapply oks_bind; [now apply csub_v2_par|intros q hq; now apply remove_zero_allp].
Qed.
Lemma b2_n_par n1 n2 n3 n4 n5 n6 n7 : oks (b2_n n1 n2 n3 n4 n5 n6 n7) (allp (hom2 p_b (d2 n4 n5 n6 n7))).
Proof.
  unfold b2_n. eapply oks_bind; [|intros a Ha; exact Ha].
  apply (oks_nest (allk (hom2 p_b (d2 n4 n5 n6 n7)))); [|apply allk_nil]. intros s ns E Hs.
  unfold on7. repeat (destruct ns as [|? ns]; try exact Logic.I).
  apply oks_foldM; [|exact Hs]. intros s' i _ Hs'. apply oks_foldM; [|exact Hs'].
  intros s'' j _ Hs''. do 3 (apply oks_bind0; intro). cbv zeta. apply allk_add_kv; [exact Hs''|fpk].
Qed.
Lemma moment_comb2_par n n1 n2 n3 n4 n5 n6 n7 n8 : oks (moment_comb2 n n1 n2 n3 n4 n5 n6 n7 n8) (allp (fpar p_10 0)).
Proof.
  unfold moment_comb2. eapply oks_bind; [apply vvee_par|]. intros p hp. eapply oks_bind; [apply b2_n_par|]. intros b hb.
  eapply oks_bind with (P := allp (fpar p_10 0)); [|intros q hq; apply oks_bind0; intro c; now apply rmul_allp].
  apply (gpoly_allp _ (fun _ => hom2 p_b (d2 n4 n5 n6 n7)) _ _ _ _ _ hp); [intros; exact hb|].
  intros k k2 h h2. eapply b_key_par; [exact h|exact h2|]. clear k h. intros x hx. fpk.
Qed.
Lemma sub_v2_par p : allp (fpar p_10 0) p -> oks (sub_v2 p) (allp (fpar p_8 0)).
Proof.
  intro hp. unfold sub_v2. eapply oks_bind.
  - apply (gpoly_allp _ (fun _ _ => True) (fpar [0; 0; 0; u1; 0; 0; u2] 0) _ _ _ _ hp); [intros k _; destruct (moment_v _); [intros ? ?; exact Logic.I|exact Logic.I]|].
    intros k k2 h _. eapply v_key_par; [exact h|]. clear k h. intros x hx. fpk.
  - intros q hq. apply (gpoly_allp _ (fun _ _ => True) (fpar p_8 0) _ _ _ _ hq); [intros k _; destruct (moment_v _); [intros ? ?; exact Logic.I|exact Logic.I]|].
    intros k k2 h _. eapply v_key_par; [exact h|]. clear k h. intros x hx. fpk.
Qed.
Theorem moment_y2_par l : oks (moment_y2 l) (allp (fpar p_8 0)).
Proof.
  unfold moment_y2. eapply oks_bind; [apply (oks_nest8 (fpar p_10 0)); intros; apply moment_comb2_par|]. intros p hp.
  eapply oks_bind; [now apply sub_v2_par|intros q hq; now apply remove_zero_allp].
Qed.
Lemma vvee_vn_par n2 n3 n4 n5 n6 n7 n8 : oks (vvee_vn n2 n3 n4 n5 n6 n7 n8) (allp (fpar p_eIv (d2 n4 n5 n6 n7))).
Proof.
  unfold vvee_vn. eapply oks_bind; [apply vvee_par|]. intros p hp. eapply oks_bind.
  - apply (gpoly_allp _ (fun k => hom2 q_vn 0) (fpar [u1; 0; 0; 0; 0; u1; 0; 0; u2] (d2 n4 n5 n6 n7)) _ _ _ _ hp); [intros; apply exp_vn_par|].
    intros [d [[a b] x]] k2 h h2. cbn [oks]. fpk.
  - intros q hq. apply (gpoly_allp _ (fun k => hom2 q_vn 0) (fpar p_eIv (d2 n4 n5 n6 n7)) _ _ _ _ hq); [intros; apply exp_vn_par|].
    intros [d [[a b] x]] k2 h h2. cbn [oks]. fpk.
Qed.
Lemma p_key_par w1 w2 w3 d1 e d3 mk (k k2 : fkey) : fpar w1 d1 k -> fpar w2 e k2 ->
  (forall x1 x2, x1 = snd (snd k) -> hom2 w1 d1 x1 -> hom2 w2 e x2 -> hom2 w3 d3 (mk x1 x2)) ->
  oks (p_key mk k k2) (fpar w3 d3).
Proof.
  destruct k as [d [[a b] x]], k2 as [d' [[a' b'] x']]. unfold fpar. cbn [fst snd p_key]. intros h1 h2 hmk.
  apply oks_bind0. intro. cbn [oks fst snd]. now apply hmk.
Qed.
Lemma b10_par d e p b : allp (fpar p_10 d) p -> allp (hom2 p_b e) b -> oks (gpoly (fun _ => Ok b) b10_key kf2_10 p) (allp (fpar p_10 (d + e))).
Proof.
  intros hp hb. apply (gpoly_allp _ (fun _ => hom2 p_b e) _ _ _ _ _ hp); [intros; exact hb|].
  intros k k2 h h2. eapply b_key_par; [exact h|exact h2|]. clear k h. intros x hx. fpk.
Qed.
Lemma fpar_mod w d d' p : (d - d') mod 2 = 0 -> allp (fpar w d) p -> allp (fpar w d') p.
Proof. intros E h k Hk. destruct (h k Hk) as [L D]. split; [exact L|]. mod2. Qed.
Lemma moment_inner_comb2_par d pe l1 m1 m2 m3 m4 m5 m6 m7 m8 : allp (fpar p_eIv d) pe ->
  oks (moment_inner_comb2 pe l1 m1 m2 m3 m4 m5 m6 m7 m8) (allp (fpar p_10 d)).
Proof.
  intro hpe. unfold moment_inner_comb2. eapply oks_bind.
  - apply (gpoly_allp _ (fun k => fpar p_ve (d2 (m4 + nthZ (snd (snd k)) 0) m5 (m6 + nthZ (snd (snd k)) 1) m7)) (fpar p_10 (d + d2 m4 m5 m6 m7)) _ _ _ _ hpe);
      [intros; apply vvee_par|].
    intros k k2 h h2. eapply p_key_par; [exact h|exact h2|]. intros x1 x2 Ex h1' h2'. rewrite <- Ex in h2'. clear h h2 Ex. fpk.
  - intros p hp. eapply oks_bind; [apply b2_n_par|]. intros b hb. eapply oks_bind; [apply (b10_par _ _ _ _ hp hb)|]. intros q hq.
    apply oks_bind0. intro c. apply (fpar_mod _ (d + d2 m4 m5 m6 m7 + d2 m4 m5 m6 m7)); [mod2|]. now apply rmul_allp.
Qed.
Lemma moment_outer_comb2_par l1 l2 n1 n2 n3 n4 n5 n6 n7 n8 : oks (moment_outer_comb2 l1 l2 n1 n2 n3 n4 n5 n6 n7 n8) (allp (fpar p_10 0)).
Proof.
  unfold moment_outer_comb2. eapply oks_bind; [apply vvee_vn_par|]. intros pe hpe.
  eapply oks_bind; [apply (oks_nest8 (fpar p_10 (d2 n4 n5 n6 n7))); intros; now apply moment_inner_comb2_par|]. intros p hp.
  eapply oks_bind; [apply b2_n_par|]. intros b hb. eapply oks_bind; [apply (b10_par _ _ _ _ hp hb)|]. intros q hq.
  apply oks_bind0. intro c. apply (fpar_mod _ (d2 n4 n5 n6 n7 + d2 n4 n5 n6 n7)); [mod2|]. now apply rmul_allp.
Qed.
Theorem moment_yy2_par l1 l2 : oks (moment_yy2 l1 l2) (allp (fpar p_8 0)).
Proof.
  unfold moment_yy2. eapply oks_bind; [apply (oks_nest8 (fpar p_10 0)); intros; apply moment_outer_comb2_par|]. intros p hp.
  eapply oks_bind; [now apply sub_v2_par|intros q hq; now apply remove_zero_allp].
Qed.
Theorem cov_yy2_par l1 l2 : oks (cov_yy2 l1 l2) (allp (fpar p_8 0)).
Proof.
  unfold cov_yy2. eapply oks_bind; [apply moment_y2_par|]. intros a ha. eapply oks_bind; [apply moment_y2_par|]. intros b hb.
  eapply oks_bind with (P := allp (fpar p_8 0)).
  - apply (gpoly_allp _ (fun _ => fpar p_8 0) _ _ _ _ _ ha); [intros; exact hb|]. intros k k2 h h2.
    eapply p_key_par; [exact h|exact h2|]. intros x1 x2 Ex h1' h2'. clear h h2 Ex. unfold add_n. cbn [seq map]. fpk.
  - intros bc hbc. eapply oks_bind; [apply moment_yy2_par|]. intros m hm.
    eapply oks_bind; [now apply (psub_allp (fpar p_8 0))|]. intros r hr. now apply remove_zero_allp.
Qed.
Lemma j_key5_par k k2 : fpar p_8 0 k -> hom2 q_cpp 0 k2 -> oks (j_key 5 k k2) (fpar p_11 0).
Proof. destruct k as [d [t1 x]]. intros h h2. cbn [j_key oks seq map app]. fpk. Qed.
Lemma j_key4_par k k2 : fpar p_7 0 k -> hom2 q_cpp 0 k2 -> oks (j_key 4 k k2) (fpar p_c10 0).
Proof. destruct k as [d [t1 x]]. intros h h2. cbn [j_key oks seq map app]. fpk. Qed.
Lemma jgl5_par p q c a : allp (fpar p_8 0) p -> allp (hom2 q_cpp 0) q -> allk (fpar p_11 0) a ->
  oks (gloop (fun _ => Ok q) (j_key 5) (j_val c) (items p) a) (allk (fpar p_11 0)).
Proof.
  intros hp hq ha. apply (gloop_allk (fpar p_8 0) (fun _ => hom2 q_cpp 0)); [exact hp|exact ha|intros; exact hq|].
  intros. now apply j_key5_par.
Qed.
Theorem jmoment_y2_par l : oks (jmoment_y2 l) (allp (fpar p_11 0)).
Proof.
  unfold jmoment_y2. eapply oks_bind with (P := allk (fpar p_11 0)); [|intros a Ha; apply allk_rm_zero, Ha].
  apply oks_foldM; [|apply allk_nil]. intros s i _ Hs. eapply oks_bind; [apply moment_y2_par|]. intros p hp.
  eapply oks_bind; [apply mcpp_par|]. intros q hq. apply oks_bind0; intro. now apply jgl5_par.
Qed.
Theorem jcmoment_y2_par l : oks (jcmoment_y2 l) (allp (fpar p_c10 0)).
Proof.
  unfold jcmoment_y2. eapply oks_bind with (P := allk (fpar p_c10 0)); [|intros a Ha; apply allk_rm_zero, Ha].
  apply oks_foldM; [|apply allk_nil]. intros s i _ Hs. eapply oks_bind; [apply cmoment_y2_par|]. intros p hp.
  eapply oks_bind; [apply cmcpp_par|]. intros q hq. apply oks_bind0; intro. apply (gloop_allk (fpar p_7 0) (fun _ => hom2 q_cpp 0)); [exact hp|exact Hs|intros; exact hq|].
  intros. now apply j_key4_par.
Qed.
Lemma hom2_pmul_all w d1 e p q : allp (hom2 w d1) p -> allp (hom2 w e) q -> oks (pmul p q) (allp (hom2 w (d1 + e))).
Proof. intros h1 h2. apply (pmul_gen_allp _ _ _ _ _ _ h1 h2). intros. now apply hom2_kadd. Qed.
Theorem jmoment_yy2_par l1 l2 : oks (jmoment_yy2 l1 l2) (allp (fpar p_11 0)).
Proof.
  unfold jmoment_yy2. eapply oks_bind with (P := allk (fpar p_11 0)); [|intros a Ha; apply allk_rm_zero, Ha].
  apply oks_foldM; [|apply allk_nil]. intros s i _ Hs. apply oks_foldM; [|exact Hs]. intros s' j _ Hs'.
  eapply oks_bind; [apply moment_yy2_par|]. intros p hp.
  eapply oks_bind; [apply mcpp_par|]. intros q2 hq2. eapply oks_bind; [apply mcpp_par|]. intros q3 hq3.
  eapply oks_bind; [apply (hom2_pmul_all q_cpp 0 0); eassumption|]. intros q hq. change (0 + 0) with 0 in hq.
  do 2 (apply oks_bind0; intro). now apply jgl5_par.
Qed.
Theorem jcov_yy2_par l1 l2 : oks (jcov_yy2 l1 l2) (allp (fpar p_11 0)).
Proof.
  unfold jcov_yy2. eapply oks_bind; [apply jmoment_y2_par|]. intros a ha. eapply oks_bind; [apply jmoment_y2_par|]. intros b hb.
  eapply oks_bind with (P := allp (fpar p_11 0)).
  - apply (gpoly_allp _ (fun _ => fpar p_11 0) _ _ _ _ _ ha); [intros; exact hb|]. intros k k2 h h2.
    eapply p_key_par; [exact h|exact h2|]. intros x1 x2 Ex h1' h2'. clear h h2 Ex. unfold add_n. cbn [seq map]. fpk.
  - intros bc hbc. eapply oks_bind; [apply jmoment_yy2_par|]. intros m hm.
    eapply oks_bind; [now apply (psub_allp (fpar p_11 0))|]. intros r hr. now apply remove_zero_allp.
Qed.
End Par.
