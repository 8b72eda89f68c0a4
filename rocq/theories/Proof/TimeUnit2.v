(** The degree of the keys of the two-factor polynomials. *)
From Coq Require Import Lra.
From Verif.Proof Require Export TimeUnit.
From Verif.Model Require Export Fsv2.
Local Open Scope Z_scope.

(** sum of the exponents i of the factors (n1*k1+n2*k2)^{-i} *)
Fixpoint dden (d : den) : Z := match d with [] => 0 | (_, _, i) :: r => i + dden r end.
Lemma t0_match_deg n1 n2 i t0 r : t0_match n1 n2 i t0 = Some r -> dden r = i + dden t0.
Proof.
  revert r. induction t0 as [|[[m1 m2] j] t IH]; intros r E; cbn [t0_match] in E; [discriminate|].
  destruct ((n1 =? m1) && (n2 =? m2)).
  - inversion E; subst. cbn [dden]. lia.
  - destruct (t0_match n1 n2 i t) eqn:Et; [|discriminate]. inversion E; subst. cbn [dden]. rewrite (IH _ eq_refl). lia.
Qed.
Lemma t_mul_t0_deg t t0 : oks (t_mul_t0 t t0) (fun r => dden r = snd t + dden t0).
Proof.
  destruct t as [[n1 n2] i]. cbn [t_mul_t0 snd]. unfold t_mul_t0. destruct (i =? 0) eqn:E0; [apply Z.eqb_eq in E0; simpl; lia|].
  destruct (t0_match n1 n2 i t0) eqn:Et; [exact (t0_match_deg _ _ _ _ _ Et)|].
  destruct t0 as [|[[m1 m2] j] r]; [exact Logic.I|]. destruct (j =? 0) eqn:Ej; cbn [negb oks dden]; [|lia].
  apply Z.eqb_eq in Ej. lia.
Qed.
Lemma tt_mul_deg a b : oks (tt_mul a b) (fun r => dden r = dden a + dden b).
Proof.
  unfold tt_mul. revert a. induction b as [|t b IH]; intro a; cbn [foldM]; [simpl; lia|].
  pose proof (t_mul_t0_deg t a) as h. destruct (t_mul_t0 t a) as [a'|]; [|exact Logic.I]. cbn [oks] in h.
  eapply oks_weaken; [apply IH|]. intros r Er. cbn beta in Er. rewrite Er, h. destruct t as [[? ?] ?]. cbn [dden snd]. lia.
Qed.

Definition fhom (w : list Z) (d : Z) (k : fkey) : Prop := hom w (d - dden (fst k)) (snd (snd k)).
Definition shom (k : skey) : Prop := hom [1; -1; -1; -1; -1; -1; -1] (- dden (fst k)) (snd (snd (snd k))).
Definition ehom (m : Z) (k : ekey) : Prop := snd (fst k) + snd (snd k) = m.

Lemma int_et2_hom n1 n2 m : oks (int_et2 n1 n2 m) (allp (ehom (m + 1))).
Proof.
  unfold int_et2. destruct (m <? 0); [exact Logic.I|].
  destruct (n1 + n2 =? 0); cbn [andb negb].
  - destruct (m =? 0) eqn:E; cbn [andb negb]; [apply Z.eqb_eq in E; subst|]; (apply allk_add_kv; [apply allk_nil|unfold ehom; cbn [fst snd]; lia]).
  - destruct (m =? 0) eqn:E; cbn [andb negb].
    + apply Z.eqb_eq in E; subst. repeat (apply allk_add_kv; [|unfold ehom; cbn [fst snd]; lia]). apply allk_nil.
    + apply fold_left_inv; [|apply allk_add_kv; [apply allk_nil|unfold ehom; cbn [fst snd]; lia]].
      intros s i _ Hs. unfold c2. cbv zeta.
      destruct (i =? m) eqn:E'; repeat (apply allk_add_kv; [|try apply Z.eqb_eq in E'; unfold ehom; cbn [fst snd]; lia]); exact Hs.
Qed.

Lemma int_ms_hom i m b : allp shom b -> oks (int_ms i m b) (allp (fun k => hom [1; -1; -1; -1; -1; -1; -1] (1 - dden (fst k)) (snd (snd (snd k))))).
Proof.
  intro hb. unfold int_ms. eapply oks_bind; [|intros a Ha; exact Ha].
  apply (oks_foldM _ (allk _)); [|apply allk_nil]. intros s [[d [[e1 e2] [[m4 m6] x]]] v1] H1 Hs. cbv zeta. cbn [fst snd].
  pose proof (allk_in _ _ _ _ hb H1) as D1. unfold shom in D1. cbn [fst snd] in D1.
  eapply oks_bind; [apply int_et2_hom|]. intros c Hc. apply oks_foldM; [|exact Hs].
  intros s' [[t [t2 t3]] v2] H2 Hs'. pose proof (allk_in _ _ _ _ Hc H2) as D2. unfold ehom in D2. cbn [fst snd] in D2. cbn [fst snd].
  eapply oks_bind; [apply t_mul_t0_deg|]. intros t0 Et0. cbn beta in Et0. cbn [oks].
  apply allk_add_kv; [exact Hs'|]. cbn [fst snd]. homs. unfold nthZ in *; cbn [nth tl] in *. split; [reflexivity|]. cbn [deg]. lia.
Qed.
Lemma coef_poly_hom c p tp : allp (fun k => hom [1; -1; -1; -1; -1; -1; -1] (1 - dden (fst k)) (snd (snd (snd k)))) p ->
  allp shom (coef_poly c p tp).
Proof.
  intro hp. unfold coef_poly. destruct (_ && _); [|apply allk_nil]. apply allk_fold_kv; [apply allk_nil|].
  intros [[d [[e1 e2] [t2 x]]] v] Hin. pose proof (allk_in _ _ _ _ hp Hin) as D. cbn [fst snd] in *. homs.
  unfold cp_key, shom. repeat match goal with |- context [if ?b then _ else _] => destruct b end; cbn [fst snd addat]; (split; [reflexivity|cbn [deg]; lia]).
Qed.
Definition allcs (C : S_cache) : Prop := forall i p, In (i, p) C -> allp shom p.
Lemma cget_allcs i C : allcs C -> oks (cget i C) (allp shom).
Proof.
  intro h. induction C as [|[j a] r IH]; cbn [cget]; [exact Logic.I|]. destruct (keqb j i).
  - apply (h j). now left.
  - apply IH. intros x p Hx. apply (h x). now right.
Qed.
Lemma cset_allcs i p C : allcs C -> allp shom p -> allcs (cset i p C).
Proof.
  intros h hp. induction C as [|[j a] r IH]; cbn [cset].
  - intros x q [E|[]]. now inversion E; subst.
  - destruct (keqb j i); intros x q [E|Hin].
    + now inversion E; subst.
    + apply (h x). now right.
    + inversion E; subst. apply (h x). now left.
    + revert x q Hin. apply IH. intros x q Hx. apply (h x). now right.
Qed.
Lemma merge_s_hom C c p i m n tp : allcs C -> allp shom p -> oks (merge_s C c p i m n tp) (allp shom).
Proof.
  intros hC hp. unfold merge_s, int_mIEI_IEII. eapply oks_bind; [eapply oks_bind; [now apply cget_allcs|]; intros b hb; now apply int_ms_hom|].
  intros q hq. apply merge_allp; [exact hp|]. now apply coef_poly_hom.
Qed.
Lemma branch_s_hom C c p i m1 m3 n n' : allcs C -> allp shom p -> oks (branch_s C c p i m1 m3 n n') (allp shom).
Proof.
  intros hC hp. unfold branch_s. cbv zeta. do 3 (eapply oks_bind; [apply merge_s_hom; eassumption|clear p hp; intros p hp]).
  now apply merge_s_hom.
Qed.
Lemma recursive_s_hom n4 n5 n6 n7 n8 C : allcs C -> oks (recursive_s n4 n5 n6 n7 n8 C) (allp shom).
Proof.
  intro hC. unfold recursive_s. cbv zeta. assert (h0 : allp shom (mkPoly [] kf_s)) by apply allk_nil.
  do 6 (match goal with |- oks (if ?b then _ else _) _ => destruct b; [now apply branch_s_hom|] end).
  match goal with |- oks (if ?b then _ else _) _ => destruct b; [|exact h0] end.
  eapply oks_bind; [now apply branch_s_hom|]. intros p hp. now apply branch_s_hom.
Qed.
Ltac tabk := let k := fresh in let Hk := fresh in intros k Hk; repeat (destruct Hk as [<-|Hk]; [split; reflexivity|]); destruct Hk.
Lemma S_init_hom : oks S_init allcs.
Proof.
  unfold S_init. eapply oks_bind; [apply (merge_allp shom); tabk|]. intros p hp.
  intros i q h. repeat (destruct h as [E|h]; [inversion E; subst; clear E; first [exact hp|tabk]|]). destruct h.
Qed.
Lemma S_round_hom C n : allcs C -> oks (S_round C n) allcs.
Proof.
  intro hC. unfold S_round. do 4 (apply (oks_foldM _ allcs); [|assumption]; clear C hC; intros C ? _ hC).
  cbv zeta. eapply oks_bind; [now apply recursive_s_hom|]. intros p hp.
  apply cset_allcs; [exact hC|]. now apply remove_zero_allp.
Qed.
Theorem moment_IEI_IEII_hom n4 n5 n6 n7 n8 : oks (moment_IEI_IEII n4 n5 n6 n7 n8) (allp shom).
Proof.
  unfold moment_IEI_IEII. cbv zeta. destruct (_ <? 0); [exact Logic.I|]. eapply oks_bind; [apply S_init_hom|]. intros C hC.
  destruct (_ <=? 2); [now apply cget_allcs|].
  eapply oks_bind with (P := allcs).
  - destruct (3 <? _); [|exact hC]. apply oks_foldM; [|exact hC]. intros. now apply S_round_hom.
  - intros D hD. eapply oks_bind; [now apply recursive_s_hom|]. intros p hp. now apply remove_zero_allp.
Qed.

Section Gloop.
Context {K1 K2 K3 : Type} `{Key K1} `{Key K2} `{Key K3}.
Lemma gloop_allk (P1 : K1 -> Prop) (P2 : K1 -> K2 -> Prop) (P3 : K3 -> Prop) sub mk cf l a :
  allk P1 l -> allk P3 a -> (forall k, P1 k -> oks (sub k) (allp (P2 k))) ->
  (forall k k2, P1 k -> P2 k k2 -> oks (mk k k2) P3) -> oks (gloop sub mk cf l a) (allk P3).
Proof.
  intros hl ha hs hk. unfold gloop. apply oks_foldM; [|exact ha]. intros s [k v] Hin Hs. cbn [fst snd].
  pose proof (allk_in _ _ _ _ hl Hin) as D.
  eapply oks_bind; [now apply hs|]. intros q hq. apply oks_foldM; [|exact Hs]. intros s' [k2 v2] H2' Hs'. cbn [fst snd].
  eapply oks_bind; [apply hk; [exact D|exact (allk_in _ _ _ _ hq H2')]|]. intros k3 Hk3. now apply allk_add_kv.
Qed.
Lemma gpoly_allp (P1 : K1 -> Prop) (P2 : K1 -> K2 -> Prop) (P3 : K3 -> Prop) sub mk kf p :
  allp P1 p -> (forall k, P1 k -> oks (sub k) (allp (P2 k))) ->
  (forall k k2, P1 k -> P2 k k2 -> oks (mk k k2) P3) -> oks (gpoly sub mk kf p) (allp P3).
Proof.
  intros hp hs hk. unfold gpoly. eapply oks_bind; [apply (gloop_allk P1 P2 P3); try eassumption; apply allk_nil|].
  intros a Ha. exact Ha.
Qed.
End Gloop.

Ltac fhoms := unfold fhom in *; cbn [fst snd] in *; homs.
Ltac fk := fhoms; unfold nthZ in *; cbn [nth fst snd] in *; split; [reflexivity|cbn [deg]; lia].

(** ** mdl_2fsv/cmom.py *)
Notation w2_cb := [0; 1; -1; -1; 0; 1; -1; -1].
Notation w2_ve := [1; -1; -1; -1; -1; -1; -1].
Notation w2_7 := [1; -1; -1; -1; -1].
Notation w2_b := [0; 1; -1; -1; 0; 1; -1; -1; 1; -1].
Notation w2_10 := [1; -1; -1; -1; -1; -1; -1; -1].
Notation w2_8 := [1; -1; -1; -1; -1; -1].
Lemma cb2_n_hom n1 n2 n3 n4 n5 n6 n7 : oks (cb2_n n1 n2 n3 n4 n5 n6 n7) (allp (hom w2_cb (n2 + n3))).
Proof.
  unfold cb2_n. eapply oks_bind; [|intros a Ha; exact Ha].
  apply (oks_nest (allk (hom w2_cb (n2 + n3)))); [|apply allk_nil]. intros s ns E Hs.
  unfold on4. repeat (destruct ns as [|? ns]; try exact Logic.I). simpl in E.
  apply oks_foldM; [|exact Hs]. intros s' i _ Hs'. apply oks_foldM; [|exact Hs'].
  intros s'' j _ Hs''. do 5 (apply oks_bind0; intro). cbv zeta. apply allk_add_kv; [exact Hs''|homk].
Qed.
Lemma vvee_hom n2 n3 n4 n5 n6 n7 n8 : oks (vvee n2 n3 n4 n5 n6 n7 n8) (allp (fhom w2_ve (- (n2 + n3)))).
Proof.
  unfold vvee. eapply oks_bind; [apply moment_IEI_IEII_hom|]. intros p hp. unfold oks, allp. cbn [items].
  apply fold_left_inv; [|apply allk_nil]. intros s [[d [t1 [[j1 j2] x]]] v] Hin Hs.
  pose proof (allk_in _ _ _ _ hp Hin) as D. unfold shom in D. cbn [fst snd] in *.
  apply allk_add_kv; [exact Hs|]. fk.
Qed.
(** b_key adds the degrees *)
Lemma b_key_hom w1 w2 w3 d1 d2 d3 mk (k : fkey) k2 : fhom w1 d1 k -> hom w2 d2 k2 ->
  (forall d1' x, hom w1 d1' x -> hom w3 (d1' + d3 - d1 - nthZ k2 1 - nthZ k2 5) (mk x k2)) ->
  oks (b_key mk k k2) (fhom w3 d3).
Proof.
  destruct k as [d [[a b] x]]. unfold fhom. cbn [fst snd b_key]. intros h1 h2 hmk.
  eapply oks_bind; [apply t_mul_t0_deg|]. intros t Et. eapply oks_bind; [apply t_mul_t0_deg|]. intros t' Et'.
  cbn beta in Et, Et'. cbn [oks fst snd] in *. replace (d3 - dden t') with ((d1 - dden d) + d3 - d1 - nthZ k2 1 - nthZ k2 5) by lia. now apply hmk.
Qed.
Lemma cmoment_comb2_hom n n1 n2 n3 n4 n5 n6 n7 n8 : oks (cmoment_comb2 n n1 n2 n3 n4 n5 n6 n7 n8) (allp (fhom w2_ve 0)).
Proof.
  unfold cmoment_comb2. eapply oks_bind; [apply vvee_hom|]. intros p hp. eapply oks_bind; [apply cb2_n_hom|]. intros b hb.
  eapply oks_bind with (P := allp (fhom w2_ve 0)); [|intros q hq; apply oks_bind0; intro c; now apply rmul_allp].
  apply (gpoly_allp _ (fun _ => hom w2_cb (n2 + n3)) _ _ _ _ _ hp); [intros; exact hb|].
  intros k k2 h h2. eapply b_key_hom; [exact h|exact h2|]. intros d1' x hx. homk.
Qed.
Lemma v_key_hom w1 w3 d f1 f2 mk (k : fkey) ij n : fhom w1 d k -> hom w_v n ij ->
  (forall d1' x, x = snd (snd k) -> hom w1 d1' x -> hom w3 (d1' - nthZ ij 1) (mk x (nthZ ij 0) (nthZ ij 1))) ->
  oks (v_key f1 f2 mk k ij) (fhom w3 d).
Proof.
  destruct k as [d0 [t1 x]]. unfold fhom. cbn [fst snd v_key]. intros h1 h2 hmk.
  eapply oks_bind; [apply t_mul_t0_deg|]. intros t Et. cbn beta in Et. cbn [oks fst snd] in *.
  replace (d - dden t) with ((d - dden d0) - nthZ ij 1) by lia. now apply hmk.
Qed.
Lemma csub_v2_hom p : allp (fhom w2_ve 0) p -> oks (csub_v2 p) (allp (fhom w2_7 0)).
Proof.
  intro hp. unfold csub_v2. eapply oks_bind.
  - apply (gpoly_allp _ (fun k => hom w_v (nthZ (snd (snd k)) 1)) (fhom [1; -1; -1; -1; -1; -1] 0) _ _ _ _ hp); [intros; apply moment_v_hom|].
    intros k k2 h h2. eapply v_key_hom; [exact h|exact h2|]. intros d1' x Ex hx. rewrite <- Ex in h2. homk.
  - intros q hq. apply (gpoly_allp _ (fun k => hom w_v (nthZ (snd (snd k)) 3)) (fhom w2_7 0) _ _ _ _ hq); [intros; apply moment_v_hom|].
    intros k k2 h h2. eapply v_key_hom; [exact h|exact h2|]. intros d1' x Ex hx. rewrite <- Ex in h2. homk.
Qed.
Lemma oks_nest8 (P : fkey -> Prop) m l (f : Z -> Z -> Z -> Z -> Z -> Z -> Z -> Z -> res (Poly fkey)) kf :
  (forall a b c d e g i j, oks (f a b c d e g i j) (allp P)) ->
  oks (nest m l [] (fun poly ns => let! q := on8 f ns in merge poly q) (mkPoly [] kf)) (allp P).
Proof.
  intro hf. apply oks_nest; [|apply allk_nil]. intros s ns _ Hs.
  eapply oks_bind with (P := allp P); [|intros q Hq; now apply merge_allp].
  unfold on8. repeat (destruct ns as [|? ns]; try exact Logic.I). apply hf.
Qed.
Theorem cmoment_y2_hom l : oks (cmoment_y2 l) (allp (fhom w2_7 0)).
Proof.
  unfold cmoment_y2. eapply oks_bind; [apply (oks_nest8 (fhom w2_ve 0)); intros; apply cmoment_comb2_hom|]. intros p hp.
  eapply oks_bind; [now apply csub_v2_hom|intros q hq; now apply remove_zero_allp].
Qed.
(** ** mdl_2fsv/mom.py *)
Lemma b2_n_hom n1 n2 n3 n4 n5 n6 n7 : oks (b2_n n1 n2 n3 n4 n5 n6 n7) (allp (hom w2_b (n2 + n3))).
Proof.
  unfold b2_n. eapply oks_bind; [|intros a Ha; exact Ha].
  apply (oks_nest (allk (hom w2_b (n2 + n3)))); [|apply allk_nil]. intros s ns E Hs.
  unfold on7. repeat (destruct ns as [|? ns]; try exact Logic.I). simpl in E.
  apply oks_foldM; [|exact Hs]. intros s' i _ Hs'. apply oks_foldM; [|exact Hs'].
  intros s'' j _ Hs''. do 3 (apply oks_bind0; intro). cbv zeta. apply allk_add_kv; [exact Hs''|homk].
Qed.
Lemma moment_comb2_hom n n1 n2 n3 n4 n5 n6 n7 n8 : oks (moment_comb2 n n1 n2 n3 n4 n5 n6 n7 n8) (allp (fhom w2_10 0)).
Proof.
  unfold moment_comb2. eapply oks_bind; [apply vvee_hom|]. intros p hp. eapply oks_bind; [apply b2_n_hom|]. intros b hb.
  eapply oks_bind with (P := allp (fhom w2_10 0)); [|intros q hq; apply oks_bind0; intro c; now apply rmul_allp].
  apply (gpoly_allp _ (fun _ => hom w2_b (n2 + n3)) _ _ _ _ _ hp); [intros; exact hb|].
  intros k k2 h h2. eapply b_key_hom; [exact h|exact h2|]. intros d1' x hx. homk.
Qed.
Lemma sub_v2_hom p : allp (fhom w2_10 0) p -> oks (sub_v2 p) (allp (fhom w2_8 0)).
Proof.
  intro hp. unfold sub_v2. eapply oks_bind.
  - apply (gpoly_allp _ (fun k => hom w_v (nthZ (snd (snd k)) 2)) (fhom [1; -1; -1; -1; -1; -1; -1] 0) _ _ _ _ hp); [intros; apply moment_v_hom|].
    intros k k2 h h2. eapply v_key_hom; [exact h|exact h2|]. intros d1' x Ex hx. rewrite <- Ex in h2. homk.
  - intros q hq. apply (gpoly_allp _ (fun k => hom w_v (nthZ (snd (snd k)) 4)) (fhom w2_8 0) _ _ _ _ hq); [intros; apply moment_v_hom|].
    intros k k2 h h2. eapply v_key_hom; [exact h|exact h2|]. intros d1' x Ex hx. rewrite <- Ex in h2. homk.
Qed.
Theorem moment_y2_hom l : oks (moment_y2 l) (allp (fhom w2_8 0)).
Proof.
  unfold moment_y2. eapply oks_bind; [apply (oks_nest8 (fhom w2_10 0)); intros; apply moment_comb2_hom|]. intros p hp.
  eapply oks_bind; [now apply sub_v2_hom|intros q hq; now apply remove_zero_allp].
Qed.
(** ** mdl_2fsv/cov.py *)
Notation w2_eIv := [0; 0; 1; -1; -1; -1; -1; -1; -1].
Lemma vvee_vn_hom n2 n3 n4 n5 n6 n7 n8 : oks (vvee_vn n2 n3 n4 n5 n6 n7 n8) (allp (fhom w2_eIv (- (n2 + n3)))).
Proof.
  unfold vvee_vn. eapply oks_bind; [apply vvee_hom|]. intros p hp. eapply oks_bind.
  - apply (gpoly_allp _ (fun k => hom w_vn (nthZ (snd (snd k)) 1)) (fhom w2_eIv (- (n2 + n3))) _ _ _ _ hp); [intros; apply exp_vn_hom|].
    intros [d [[a b] x]] k2 h h2. cbn [oks]. fk.
  - intros q hq. apply (gpoly_allp _ (fun k => hom w_vn (nthZ (snd (snd k)) 6)) (fhom w2_eIv (- (n2 + n3))) _ _ _ _ hq); [intros; apply exp_vn_hom|].
    intros [d [[a b] x]] k2 h h2. cbn [oks]. fk.
Qed.
Lemma p_key_hom w1 w2 w3 d1 d2 d3 mk (k k2 : fkey) : fhom w1 d1 k -> fhom w2 d2 k2 ->
  (forall e1 e2 x1 x2, x1 = snd (snd k) -> hom w1 e1 x1 -> hom w2 e2 x2 -> hom w3 (e1 + e2 + d3 - d1 - d2) (mk x1 x2)) ->
  oks (p_key mk k k2) (fhom w3 d3).
Proof.
  destruct k as [d [[a b] x]], k2 as [d' [[a' b'] x']]. unfold fhom. cbn [fst snd p_key]. intros h1 h2 hmk.
  eapply oks_bind; [apply tt_mul_deg|]. intros t Et. cbn beta in Et. cbn [oks fst snd].
  replace (d3 - dden t) with ((d1 - dden d) + (d2 - dden d') + d3 - d1 - d2) by lia. now apply hmk.
Qed.
Lemma b10_hom d n p b : allp (fhom w2_10 d) p -> allp (hom w2_b n) b -> oks (gpoly (fun _ => Ok b) b10_key kf2_10 p) (allp (fhom w2_10 (d + n))).
Proof.
  intros hp hb. apply (gpoly_allp _ (fun _ => hom w2_b n) _ _ _ _ _ hp); [intros; exact hb|].
  intros k k2 h h2. eapply b_key_hom; [exact h|exact h2|]. intros d1' x hx. homk.
Qed.
Lemma moment_inner_comb2_hom d pe l1 m1 m2 m3 m4 m5 m6 m7 m8 : allp (fhom w2_eIv d) pe ->
  oks (moment_inner_comb2 pe l1 m1 m2 m3 m4 m5 m6 m7 m8) (allp (fhom w2_10 d)).
Proof.
  intro hpe. unfold moment_inner_comb2. eapply oks_bind.
  - apply (gpoly_allp _ (fun k => fhom w2_ve (- (m2 + nthZ (snd (snd k)) 3 + (m3 + nthZ (snd (snd k)) 6)))) (fhom w2_10 (d - (m2 + m3))) _ _ _ _ hpe);
      [intros; apply vvee_hom|].
    intros k k2 h h2. eapply p_key_hom; [exact h|exact h2|]. intros e1 e2 x1 x2 Ex h1' h2'. rewrite <- Ex. homk.
  - intros p hp. eapply oks_bind; [apply b2_n_hom|]. intros b hb. eapply oks_bind; [apply (b10_hom _ _ _ _ hp hb)|]. intros q hq.
    apply oks_bind0. intro c. replace d with (d - (m2 + m3) + (m2 + m3)) by lia. now apply rmul_allp.
Qed.
Lemma moment_outer_comb2_hom l1 l2 n1 n2 n3 n4 n5 n6 n7 n8 : oks (moment_outer_comb2 l1 l2 n1 n2 n3 n4 n5 n6 n7 n8) (allp (fhom w2_10 0)).
Proof.
  unfold moment_outer_comb2. eapply oks_bind; [apply vvee_vn_hom|]. intros pe hpe.
  eapply oks_bind; [apply (oks_nest8 (fhom w2_10 (- (n2 + n3)))); intros; now apply moment_inner_comb2_hom|]. intros p hp.
  eapply oks_bind; [apply b2_n_hom|]. intros b hb. eapply oks_bind; [apply (b10_hom _ _ _ _ hp hb)|]. intros q hq.
  apply oks_bind0. intro c. replace 0 with (- (n2 + n3) + (n2 + n3)) by lia. now apply rmul_allp.
Qed.
Theorem moment_yy2_hom l1 l2 : oks (moment_yy2 l1 l2) (allp (fhom w2_8 0)).
Proof.
  unfold moment_yy2. eapply oks_bind; [apply (oks_nest8 (fhom w2_10 0)); intros; apply moment_outer_comb2_hom|]. intros p hp.
  eapply oks_bind; [now apply sub_v2_hom|intros q hq; now apply remove_zero_allp].
Qed.
Theorem cov_yy2_hom l1 l2 : oks (cov_yy2 l1 l2) (allp (fhom w2_8 0)).
Proof.
  unfold cov_yy2. eapply oks_bind; [apply moment_y2_hom|]. intros a ha. eapply oks_bind; [apply moment_y2_hom|]. intros b hb.
  eapply oks_bind with (P := allp (fhom w2_8 0)).
  - apply (gpoly_allp _ (fun _ => fhom w2_8 0) _ _ _ _ _ ha); [intros; exact hb|]. intros k k2 h h2.
    eapply p_key_hom; [exact h|exact h2|]. intros e1 e2 x1 x2 Ex h1' h2'. unfold add_n. cbn [seq map]. homk.
  - intros bc hbc. eapply oks_bind; [apply moment_yy2_hom|]. intros m hm.
    eapply oks_bind; [now apply (psub_allp (fhom w2_8 0))|]. intros r hr. now apply remove_zero_allp.
Qed.
(** ** mdl_2fsvj *)
Notation w2_11 := [1; -1; -1; -1; -1; -1; -1; 0; 0].
Notation w2_c10 := [1; -1; -1; -1; -1; -1; 0; 0].
Lemma j_key5_hom k k2 : fhom w2_8 0 k -> oks (j_key 5 k k2) (fhom w2_11 0).
Proof. destruct k as [d [t1 x]]. intro h. cbn [j_key oks seq map app]. fk. Qed.
Lemma j_key4_hom k k2 : fhom w2_7 0 k -> oks (j_key 4 k k2) (fhom w2_c10 0).
Proof. destruct k as [d [t1 x]]. intro h. cbn [j_key oks seq map app]. fk. Qed.
Lemma jgl5 p q c a : allp (fhom w2_8 0) p -> allk (fhom w2_11 0) a ->
  oks (gloop (fun _ => Ok q) (j_key 5) (j_val c) (items p) a) (allk (fhom w2_11 0)).
Proof.
  intros hp ha. apply (gloop_allk (fhom w2_8 0) (fun _ _ => True)); [exact hp|exact ha|intros; apply allp_any|].
  intros. now apply j_key5_hom.
Qed.
Theorem jmoment_y2_hom l : oks (jmoment_y2 l) (allp (fhom w2_11 0)).
Proof.
  unfold jmoment_y2. eapply oks_bind with (P := allk (fhom w2_11 0)); [|intros a Ha; apply allk_rm_zero, Ha].
  apply oks_foldM; [|apply allk_nil]. intros s i _ Hs. eapply oks_bind; [apply moment_y2_hom|]. intros p hp.
  do 2 (apply oks_bind0; intro). now apply jgl5.
Qed.
Theorem jcmoment_y2_hom l : oks (jcmoment_y2 l) (allp (fhom w2_c10 0)).
Proof.
  unfold jcmoment_y2. eapply oks_bind with (P := allk (fhom w2_c10 0)); [|intros a Ha; apply allk_rm_zero, Ha].
  apply oks_foldM; [|apply allk_nil]. intros s i _ Hs. eapply oks_bind; [apply cmoment_y2_hom|]. intros p hp.
  do 2 (apply oks_bind0; intro). apply (gloop_allk (fhom w2_7 0) (fun _ _ => True)); [exact hp|exact Hs|intros; apply allp_any|].
  intros. now apply j_key4_hom.
Qed.
Theorem jmoment_yy2_hom l1 l2 : oks (jmoment_yy2 l1 l2) (allp (fhom w2_11 0)).
Proof.
  unfold jmoment_yy2. eapply oks_bind with (P := allk (fhom w2_11 0)); [|intros a Ha; apply allk_rm_zero, Ha].
  apply oks_foldM; [|apply allk_nil]. intros s i _ Hs. apply oks_foldM; [|exact Hs]. intros s' j _ Hs'.
  eapply oks_bind; [apply moment_yy2_hom|]. intros p hp.
  do 5 (apply oks_bind0; intro). now apply jgl5.
Qed.
Theorem jcov_yy2_hom l1 l2 : oks (jcov_yy2 l1 l2) (allp (fhom w2_11 0)).
Proof.
  unfold jcov_yy2. eapply oks_bind; [apply jmoment_y2_hom|]. intros a ha. eapply oks_bind; [apply jmoment_y2_hom|]. intros b hb.
  eapply oks_bind with (P := allp (fhom w2_11 0)).
  - apply (gpoly_allp _ (fun _ => fhom w2_11 0) _ _ _ _ _ ha); [intros; exact hb|]. intros k k2 h h2.
    eapply p_key_hom; [exact h|exact h2|]. intros e1 e2 x1 x2 Ex h1' h2'. unfold add_n. cbn [seq map]. homk.
  - intros bc hbc. eapply oks_bind; [apply jmoment_yy2_hom|]. intros m hm.
    eapply oks_bind; [now apply (psub_allp (fhom w2_11 0))|]. intros r hr. now apply remove_zero_allp.
Qed.
