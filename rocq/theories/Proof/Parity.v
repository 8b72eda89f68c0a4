(** Parity of the powers of sigma_v (and rho) in the keys with a nonzero coefficient. *)
From Coq Require Import Lra.
From Verif.Proof Require Export TimeUnit.
Local Open Scope Z_scope.

Section Gen.
Context {K : Type} `{Key K}.
Implicit Types (P : K -> Prop) (p : Poly K).
Definition sup P p : Prop := supp P (items p).
Lemma set_kv_in_val (k : K) v l k' v' : In (k', v') (set_kv k v l) -> In (k', v') l \/ (k' = k /\ v' = v).
Proof.
  induction l as [|[a b] r IH]; simpl.
  - intros [E|[]]. inversion E. auto.
  - destruct (keqb a k) eqn:E; simpl.
    + apply keqb_spec in E. subst a. intros [E|Hin]; [inversion E; auto|auto].
    + intros [E1|Hin]; [auto|]. destruct (IH Hin) as [h|h]; auto.
Qed.
Lemma supp_set_kv P k v l : supp P l -> (~ (v == 0)%Q -> P k) -> supp P (set_kv k v l).
Proof.
  intros Hl Hk k' v' Hin Hnz. apply set_kv_in_val in Hin. destruct Hin as [h|[-> ->]]; [eauto|auto].
Qed.
Lemma lookup_in (k : K) l v : lookup k l = Some v -> In (k, v) l.
Proof.
  induction l as [|[a b] r IH]; simpl; [discriminate|]. destruct (keqb a k) eqn:E.
  - apply keqb_spec in E. subst. intro E. inversion E. now left.
  - intro h. right. now apply IH.
Qed.
Lemma supp_sub_all P l0 l : supp P l0 -> supp P l -> supp P (sub_all l0 l).
Proof.
  intros h0 h. unfold sub_all. apply fold_left_inv; [|exact h0].
  intros s [k v] Hin Hs. cbn [fst snd].
  destruct (lookup k l0) eqn:E0; [destruct (lookup k s) as [v'|] eqn:E|].
  - apply supp_set_kv; [exact Hs|]. intro Hnz. destruct (Qeq_dec v 0) as [Ev|Nv]; [|exact (h _ _ Hin Nv)].
    apply (Hs k v'); [now apply lookup_in|]. intro Ev'. apply Hnz. unfold qsub. rewrite Qred_correct, Ev, Ev'. reflexivity.
  - exact Hs.
  - apply supp_set_kv; [exact Hs|]. intro Hnz. apply (h _ _ Hin). now apply qopp_nz.
Qed.
Lemma merge_sup P p q : sup P p -> sup P q -> oks (merge p q) (sup P).
Proof.
  intros hp hq. unfold merge. destruct (is_exact_type p q); [|exact Logic.I].
  apply supp_rm_zero. now apply supp_add_all.
Qed.
Lemma psub_sup P p q : sup P p -> sup P q -> oks (psub p q) (sup P).
Proof.
  intros hp hq. unfold psub. destruct (is_exact_type p q); [|exact Logic.I].
  apply supp_rm_zero. now apply supp_sub_all.
Qed.
Lemma rmul_sup P c p : sup P p -> sup P (rmul c p).
Proof.
  intro hp. unfold rmul, sup. cbn [items]. apply supp_rm_zero. apply supp_add_all; [apply supp_nil|].
  intros k v Hin Hnz. apply in_map_iff in Hin. destruct Hin as [[k' v'] [E Hin]]. inversion E; subst. apply qmul_nz in Hnz. now apply (hp k v').
Qed.
Lemma remove_zero_sup P p : sup P p -> sup P (remove_zero p).
Proof. intro hp. apply supp_rm_zero, hp. Qed.
Lemma mul_items_supp (P1 P2 P3 : K -> Prop) ka l1 l2 : supp P1 l1 -> supp P2 l2 ->
  (forall k1 k2, P1 k1 -> P2 k2 -> oks (ka k1 k2) P3) -> oks (mul_items ka l1 l2) (supp P3).
Proof.
  intros h1 h2 hk. unfold mul_items. apply oks_foldM; [|apply supp_nil].
  intros s [k1 v1] H1 Hs. apply oks_foldM; [|exact Hs].
  intros s' [k2 v2] H2 Hs'. cbn [fst snd]. destruct (ka k1 k2) as [k|] eqn:E; [|exact Logic.I]. cbn [bind oks].
  apply supp_add_kv; [exact Hs'|]. intro Hnz. apply qmul_nz in Hnz. destruct Hnz as [N1 N2].
  pose proof (hk k1 k2 (h1 _ _ H1 N1) (h2 _ _ H2 N2)) as h. rewrite E in h. exact h.
Qed.
Lemma pmul_gen_sup (P1 P2 P3 : K -> Prop) ka p q : sup P1 p -> sup P2 q ->
  (forall k1 k2, P1 k1 -> P2 k2 -> oks (ka k1 k2) P3) -> oks (pmul_gen ka p q) (sup P3).
Proof.
  intros h1 h2 hk. unfold pmul_gen. destruct (is_exact_type p q); [|exact Logic.I].
  eapply oks_bind; [apply (mul_items_supp P1 P2 P3); eassumption|].
  intros l Hl. now apply supp_rm_zero.
Qed.
Lemma sup_allp P p : allp P p -> sup P p.
Proof. apply supp_allk. Qed.
Lemma sup_nil P kf : sup P (mkPoly [] kf).
Proof. apply supp_nil. Qed.
End Gen.
(** [for k2 in q: a.add_keyval(f(k2), c * q[k2])] inside a loop with k1 *)
Lemma supp_fold2 {K K2} `{Key K} (P : K -> Prop) (f : K2 * Q -> K) (g : Q -> Q) (l : list (K2 * Q)) a :
  supp P a -> (forall k v, In (k, v) l -> ~ (g v == 0)%Q -> P (f (k, v))) ->
  supp P (fold_left (fun a kv => add_kv (f kv) (g (snd kv)) a) l a).
Proof. intros ha hf. apply supp_fold_add; [exact ha|]. intros [k v] Hin. cbn [snd]. now apply hf. Qed.

Lemma mul_poly_sup (P1 P2 P3 : list Z -> Prop) p q i1 i2 kf : sup P1 p -> sup P2 q ->
  (forall k1 k2, P1 k1 -> P2 k2 -> oks (kcomb i1 i2 k1 k2) P3) -> oks (mul_poly p q i1 i2 kf) (sup P3).
Proof.
  intros h1 h2 hk. unfold mul_poly. eapply oks_bind; [apply (mul_items_supp P1 P2 P3); eassumption|].
  intros l Hl. now apply supp_rm_zero.
Qed.

(** ** degree modulo 2 *)
Definition hom2 (w : list Z) (d : Z) (k : list Z) : Prop := length k = length w /\ (deg w k - d) mod 2 = 0.
Lemma hom2_kadd w d1 d2 k1 k2 : hom2 w d1 k1 -> hom2 w d2 k2 -> oks (kadd k1 k2) (hom2 w (d1 + d2)).
Proof.
  intros [L1 E1] [L2 E2]. eapply oks_weaken; [apply (hom_kadd w (deg w k1) (deg w k2)); split; auto|].
  intros k [L E]. split; [exact L|]. rewrite E. Z.div_mod_to_equations. lia.
Qed.
Lemma hom2_pmul w d1 d2 p q : sup (hom2 w d1) p -> sup (hom2 w d2) q -> oks (pmul p q) (sup (hom2 w (d1 + d2))).
Proof. intros h1 h2. apply (pmul_gen_sup _ _ _ _ _ _ h1 h2). intros. now apply hom2_kadd. Qed.
Ltac hom2s := repeat match goal with
  | h : hom2 _ _ ?k |- _ => let L := fresh "L" in let E := fresh "E" in destruct h as [L E]; cbn [length] in L;
      repeat (destruct k as [|? k]; [discriminate L|]; injection L as L); destruct k; [|discriminate L]; clear L; cbn [deg] in E
  end.
Ltac mod2 := Z.div_mod_to_equations; lia.
Ltac hom2k := hom2s; homs; unfold nthZ in *; cbn [nth fst] in *; split; [reflexivity|cbn [deg]; mod2].
Ltac mul2c := cbv -[Z.add Z.mul Z.opp Z.modulo Z.sub]; split; [reflexivity|mod2].
Ltac mul2k := intros k1 k2 ? ?; hom2s; homs; mul2c.

(** ** ito_mom.py: the power of sigma_v has the parity of n3 + n4 *)
Definition pI (n : Z) (k : list Z) : Prop := (nthZ k 6 - n) mod 2 = 0.
Lemma int_e_poly_par c tp m p n : sup (pI n) p -> oks (int_e_poly c tp m p) (sup (pI (if (tp =? 1) || (tp =? 2) || (tp =? 3) then n else n + 1))).
Proof.
  intro hp. unfold int_e_poly. eapply oks_bind; [|intros a Ha; exact Ha].
  apply (oks_foldM _ (supp _)); [|apply supp_nil]. intros s [k1 v1] H1 Hs. cbv zeta. cbn [fst snd].
  apply oks_bind0. intro sub. cbn [oks]. unfold iep_val.
  apply supp_fold_add; [exact Hs|]. intros [k2 v2] H2 Hnz. cbn [fst snd] in *.
  assert (D : pI n k1).
  { apply (hp k1 v1 H1). intro E. apply Hnz. rewrite Q2R_eq0 in E. rewrite Q2R_eq0. destruct (tp =? 2); rewrite ?Q2R_neg, !Q2R_mul, E; ring. }
  unfold iep_key, pI in *. destruct (tp =? 1); [|destruct (tp =? 2); [|destruct (tp =? 3)]]; cbn [orb]; unfold nthZ in *; cbn [addat nth] in *; mod2.
Qed.
Definition par3 (i : idx3) : Z := fst (fst i) + snd (fst i).
Definition parc (C : IEII_cache) : Prop := forall i p, In (i, p) C -> sup (pI (par3 i)) p.
Lemma cget_parc i C : parc C -> oks (cget i C) (sup (pI (par3 i))).
Proof.
  intro h. induction C as [|[j a] r IH]; cbn [cget]; [exact Logic.I|]. destruct (keqb j i) eqn:E.
  - apply keqb_spec in E. subst j. apply (h i). now left.
  - apply IH. intros x p Hx. apply (h x). now right.
Qed.
Lemma cset_parc i p C : parc C -> sup (pI (par3 i)) p -> parc (cset i p C).
Proof.
  intros h hp. induction C as [|[j a] r IH]; cbn [cset].
  - intros x q [E|[]]. now inversion E; subst.
  - destruct (keqb j i) eqn:Ek; intros x q [E|Hin].
    + apply keqb_spec in Ek. inversion E; subst. exact hp.
    + apply (h x). now right.
    + inversion E; subst. apply (h x). now left.
    + revert x q Hin. apply IH. intros x q Hx. apply (h x). now right.
Qed.
Lemma pI_mod n n' p : (n - n') mod 2 = 0 -> sup (pI n) p -> sup (pI n') p.
Proof. intros E h. eapply supp_weaken; [exact h|]. unfold pI. intros k Hk. mod2. Qed.
Lemma merge_int_par C c p tp m i n : parc C -> sup (pI n) p ->
  ((if (tp =? 1) || (tp =? 2) || (tp =? 3) then par3 i else par3 i + 1) - n) mod 2 = 0 -> oks (merge_int C c p tp m i) (sup (pI n)).
Proof.
  intros hC hp E. unfold merge_int. eapply oks_bind; [now apply cget_parc|]. intros q Hq.
  eapply oks_bind; [exact (int_e_poly_par c tp m q _ Hq)|]. intros r Hr. apply merge_sup; [exact hp|]. exact (pI_mod _ _ _ E Hr).
Qed.
Lemma branch_par C c p m1 m3 i i2 n : parc C -> sup (pI n) p -> (par3 i - n) mod 2 = 0 -> (par3 i2 + 1 - n) mod 2 = 0 ->
  oks (branch C c p m1 m3 i i2) (sup (pI n)).
Proof.
  intros hC hp E1 E2. unfold branch. do 3 (eapply oks_bind; [apply (merge_int_par _ _ _ _ _ _ n); eassumption|clear p hp; intros p hp]).
  now apply merge_int_par.
Qed.
Lemma recursive_IEII_par n3 n4 n5 C : parc C -> oks (recursive_IEII n3 n4 n5 C) (sup (pI (n3 + n4))).
Proof.
  intro hC. unfold recursive_IEII. cbv zeta.
  assert (h0 : sup (pI (n3 + n4)) (mkPoly [] kf_IEII)) by apply supp_nil. revert h0. generalize (mkPoly (K:=list Z) [] kf_IEII).
  do 3 (intros p hp; eapply oks_bind with (P := sup (pI (n3 + n4))); [match goal with |- oks (if ?b then _ else _) _ =>
    destruct b; [apply branch_par; unfold par3; cbn [fst snd]; [assumption|assumption|mod2|mod2]|exact hp] end|clear p hp]).
  intros p hp. match goal with |- oks (if ?b then _ else _) _ => destruct b; [apply branch_par; unfold par3; cbn [fst snd]; [assumption|assumption|mod2|mod2]|exact hp] end.
Qed.
Lemma IEII_init_par : parc IEII_init.
Proof.
  intros i p h. repeat (destruct h as [E|h]; [inversion E; subst; clear E; intros k v Hk Hnz;
    repeat (destruct Hk as [Hk|Hk]; [inversion Hk; subst; first [reflexivity|exfalso; apply Hnz; reflexivity]|]); destruct Hk|]). destruct h.
Qed.
Lemma IEII_round_par C n : parc C -> oks (IEII_round C n) parc.
Proof.
  intro hC. unfold IEII_round. eapply oks_bind.
  - apply (oks_foldM _ parc); [|exact hC]. intros s i _ Hs. apply oks_foldM; [|exact Hs].
    intros s' j _ Hs'. eapply oks_bind; [now apply recursive_IEII_par|]. intros p hp.
    apply cset_parc; [exact Hs'|]. now apply remove_zero_sup.
  - intros D hD i p Hin. unfold cdel in Hin. apply filter_In in Hin. now apply (hD i).
Qed.
Theorem moment_IEII_par n3 n4 n5 : oks (moment_IEII n3 n4 n5) (sup (pI (n3 + n4))).
Proof.
  unfold moment_IEII. destruct (_ <? 0); [exact Logic.I|]. destruct (_ <=? 2); [apply (cget_parc (n3, n4, n5)), IEII_init_par|].
  eapply oks_bind with (P := parc).
  - destruct (3 <? _); [|exact IEII_init_par]. apply oks_foldM; [|exact IEII_init_par]. intros. now apply IEII_round_par.
  - intros C hC. eapply oks_bind; [now apply recursive_IEII_par|]. intros p hp. now apply remove_zero_sup.
Qed.

(** ** Nest.v *)
Lemma subst_v_sup (P P' : list Z -> Prop) get mk kf p : sup P p ->
  (forall k i j, P k -> P' (mk k i j)) -> oks (subst_v get mk kf p) (sup P').
Proof.
  intros hp hk. unfold subst_v. eapply oks_bind; [|intros a Ha; exact Ha].
  apply (oks_foldM _ (supp P')); [|apply supp_nil]. intros s [k v] Hin Hs. cbn [fst snd].
  apply oks_bind0. intro q. cbn [oks]. apply supp_fold_add; [exact Hs|].
  intros [k2 v2] H2 Hnz. cbn [fst snd] in *. apply qmul_nz in Hnz. apply hk. apply (hp k v Hin), Hnz.
Qed.
Lemma sup_nest5 (P : list Z -> Prop) m l (f : Z -> Z -> Z -> Z -> Z -> res (Poly (list Z))) kf :
  (forall a b c d e, oks (f a b c d e) (sup P)) ->
  oks (nest m l [] (fun poly ns => let! q := on5 f ns in merge poly q) (mkPoly [] kf)) (sup P).
Proof.
  intro hf. apply oks_nest; [|apply supp_nil]. intros s ns _ Hs.
  eapply oks_bind with (P := sup P); [|intros q Hq; now apply merge_sup].
  unfold on5. repeat (destruct ns as [|? ns]; try exact Logic.I). apply hf.
Qed.
Lemma rmulZ_sup P c p : sup P p -> sup P (rmulZ c p).
Proof. apply rmul_sup. Qed.

(** ** mdl_1fsv/cmom.py: the power of sigma_v plus the power of rho *)
Notation q_cb := [0; 0; 0; 1; 1; 0].
Notation q_ve := [0; 0; 0; 0; 0; 1].
Notation q_c8 := [0; 0; 0; 0; 0; 1; 1; 0].
Notation q_c7 := [0; 0; 0; 0; 1; 1; 0].
Notation q_8 := [0; 0; 0; 0; 0; 1; 1; 0].
Notation q_9 := [0; 0; 0; 0; 0; 0; 1; 1; 0].
Lemma cb_n_par n1 n2 n3 n4 n5 : oks (cb_n n1 n2 n3 n4 n5) (sup (hom2 q_cb (n3 + n4))).
Proof.
  unfold cb_n. eapply oks_bind; [|intros a Ha; exact Ha].
  apply (oks_foldM _ (supp (hom2 q_cb (n3 + n4)))); [|apply supp_nil]. intros s i _ Hs. apply oks_foldM; [|exact Hs].
  intros s' j _ Hs'. cbv zeta. do 2 (apply oks_bind0; intro). apply supp_add_kv; [exact Hs'|intros _; hom2k].
Qed.
Lemma ve_IEII_par n2 n3 n4 n5 : oks (ve_IEII n2 n3 n4 n5) (sup (hom2 q_ve (n3 + n4))).
Proof.
  unfold ve_IEII. eapply oks_bind; [apply moment_IEII_par|]. intros p hp. cbn [oks]. apply supp_fold_add; [apply supp_nil|].
  intros [k v] Hin Hnz. cbn [fst snd] in *. pose proof (hp _ _ Hin Hnz) as D. red in D. split; [reflexivity|].
  cbn [deg]. mod2.
Qed.
Lemma cmoment_comb_par n n1 n2 n3 n4 n5 : oks (cmoment_comb n n1 n2 n3 n4 n5) (sup (hom2 q_c8 0)).
Proof.
  unfold cmoment_comb. eapply oks_bind; [apply ve_IEII_par|]. intros p hp. eapply oks_bind; [apply cb_n_par|]. intros b hb.
  eapply oks_bind; [apply (mul_poly_sup _ _ (hom2 q_c8 0) _ _ _ _ _ hp hb); mul2k|]. intros q hq.
  apply oks_bind0. intro c. now apply rmulZ_sup.
Qed.
Theorem cmoment_y_par l : oks (cmoment_y l) (sup (hom2 q_c7 0)).
Proof.
  unfold cmoment_y. eapply oks_bind; [apply (sup_nest5 (hom2 q_c8 0)); intros; apply cmoment_comb_par|]. intros p hp.
  eapply oks_bind; [apply (subst_v_sup _ (hom2 q_c7 0) _ _ _ _ hp)|intros q hq; now apply remove_zero_sup].
  intros k i j h. hom2k.
Qed.
(** ** mdl_1fsv/mom.py *)
Lemma b_n_par n1 n2 n3 n4 n5 : oks (b_n n1 n2 n3 n4 n5) (sup (hom2 q_8 (n3 + n4))).
Proof.
  unfold b_n. eapply oks_bind; [|intros a Ha; exact Ha].
  apply (oks_nest (supp (hom2 q_8 (n3 + n4)))); [|apply supp_nil]. intros s ns E Hs.
  unfold on4. repeat (destruct ns as [|? ns]; try exact Logic.I).
  apply oks_foldM; [|exact Hs]. intros s' i _ Hs'. apply oks_foldM; [|exact Hs'].
  intros s'' j _ Hs''. do 3 (apply oks_bind0; intro). cbv zeta. apply supp_add_kv; [exact Hs''|intros _; hom2k].
Qed.
Lemma moment_comb_par n n1 n2 n3 n4 n5 : oks (moment_comb n n1 n2 n3 n4 n5) (sup (hom2 q_9 0)).
Proof.
  unfold moment_comb. eapply oks_bind; [apply ve_IEII_par|]. intros p hp. eapply oks_bind; [apply b_n_par|]. intros b hb.
  eapply oks_bind; [apply (mul_poly_sup _ _ (hom2 q_9 0) _ _ _ _ _ hp hb); mul2k|]. intros q hq.
  apply oks_bind0. intro c. now apply rmulZ_sup.
Qed.
Lemma sub_v_par p : sup (hom2 q_9 0) p -> oks (sub_v p) (sup (hom2 q_8 0)).
Proof. intro hp. apply (subst_v_sup _ (hom2 q_8 0) _ _ _ _ hp). intros k i j h. hom2k. Qed.
Theorem moment_y_par l : oks (moment_y l) (sup (hom2 q_8 0)).
Proof.
  unfold moment_y. eapply oks_bind; [apply (sup_nest5 (hom2 q_9 0)); intros; apply moment_comb_par|]. intros p hp.
  eapply oks_bind; [now apply sub_v_par|intros q hq; now apply remove_zero_sup].
Qed.
(** ** mdl_1fsv/cov.py *)
Notation q_vn := [1; 0; 0; 0; 1].
Notation q_eIv := [1; 0; 0; 0; 0; 0; 1].
Lemma exp_vn_par l : oks (exp_vn l) (allp (hom2 q_vn 0)).
Proof.
  unfold exp_vn. eapply oks_bind; [|intros a Ha; exact Ha].
  apply (oks_nest (allk (hom2 q_vn 0))); [|apply allk_nil]. intros s ns E Hs.
  unfold on4. repeat (destruct ns as [|? ns]; try exact Logic.I).
  apply oks_bind0. intro. apply allk_add_kv; [exact Hs|hom2k].
Qed.
Lemma ve_IEII_vn_par n2 n3 n4 n5 : oks (ve_IEII_vn n2 n3 n4 n5) (sup (hom2 q_eIv (n3 + n4))).
Proof.
  unfold ve_IEII_vn. eapply oks_bind; [apply ve_IEII_par|]. intros p hp. eapply oks_bind; [|intros a Ha; exact Ha].
  apply (oks_foldM _ (supp _)); [|apply supp_nil]. intros s [k1 v1] H1 Hs. cbv zeta. cbn [fst snd].
  eapply oks_bind; [apply exp_vn_par|]. intros q Hq. apply supp_fold_add; [exact Hs|].
  intros [k2 v2] H2 Hnz. cbn [fst snd] in *. pose proof (allk_in _ _ _ _ Hq H2) as D2. apply qmul_nz in Hnz. pose proof (hp _ _ H1 (proj1 Hnz)) as D1.
  hom2k.
Qed.
Lemma moment_inner_comb_par d pe l1 m1 m2 m3 m4 m5 : sup (hom2 q_eIv d) pe ->
  oks (moment_inner_comb pe l1 m1 m2 m3 m4 m5) (sup (hom2 q_9 d)).
Proof.
  intro hpe. unfold moment_inner_comb. eapply oks_bind with (P := supp (hom2 q_ve (d + m3 + m4))).
  - apply oks_foldM; [|apply supp_nil]. intros s [k1 v1] H1 Hs. cbv zeta. cbn [fst snd].
    eapply oks_bind; [apply ve_IEII_par|]. intros q Hq. apply supp_fold_add; [exact Hs|].
    intros [k2 v2] H2 Hnz. cbn [fst snd] in *. apply qmul_nz in Hnz. pose proof (hpe _ _ H1 (proj1 Hnz)) as D1. pose proof (Hq _ _ H2 (proj2 Hnz)) as D2. hom2k.
  - intros a Ha. eapply oks_bind; [apply b_n_par|]. intros b hb.
    eapply oks_bind; [apply (mul_poly_sup (hom2 q_ve (d + m3 + m4)) _ (hom2 q_9 d) (mkPoly a kf_ve) _ _ _ _ Ha hb); mul2k|]. intros q hq.
    apply oks_bind0. intro c. now apply rmulZ_sup.
Qed.
Lemma moment_outer_comb_par l1 l2 n1 n2 n3 n4 n5 : oks (moment_outer_comb l1 l2 n1 n2 n3 n4 n5) (sup (hom2 q_9 0)).
Proof.
  unfold moment_outer_comb. apply oks_bind0. intro c. eapply oks_bind; [apply b_n_par|]. intros b hb.
  eapply oks_bind; [apply ve_IEII_vn_par|]. intros pe hpe.
  eapply oks_bind; [apply (sup_nest5 (hom2 q_9 (n3 + n4))); intros; now apply moment_inner_comb_par|]. intros p hp.
  eapply oks_bind; [apply (mul_poly_sup _ _ (hom2 q_9 0) _ _ _ _ _ hp hb); mul2k|]. intros q hq. now apply rmulZ_sup.
Qed.
Theorem moment_yy_par l1 l2 : oks (moment_yy l1 l2) (sup (hom2 q_8 0)).
Proof.
  unfold moment_yy. eapply oks_bind; [apply (sup_nest5 (hom2 q_9 0)); intros; apply moment_outer_comb_par|]. intros p hp.
  eapply oks_bind; [now apply sub_v_par|intros q hq; now apply remove_zero_sup].
Qed.
Lemma cov_par w a b c : sup (hom2 w 0) a -> sup (hom2 w 0) b -> sup (hom2 w 0) c ->
  oks (let! bc := pmul b c in let! r := psub a bc in Ok (remove_zero r)) (sup (hom2 w 0)).
Proof.
  intros ha hb hc. eapply oks_bind; [now apply (hom2_pmul w 0 0)|]. intros bc hbc.
  eapply oks_bind; [now apply (psub_sup (hom2 w 0))|]. intros r hr. now apply remove_zero_sup.
Qed.
Theorem cov_yy_par l1 l2 : oks (cov_yy l1 l2) (sup (hom2 q_8 0)).
Proof.
  unfold cov_yy. eapply oks_bind; [apply moment_yy_par|]. intros a ha. eapply oks_bind; [apply moment_y_par|]. intros b hb.
  eapply oks_bind; [apply moment_y_par|]. intros c hc. now apply cov_par.
Qed.
(** ** cpp_mom.py: the power of sigma is even *)
Notation q_cpp := [0; 0; 1].
Lemma mcpp_par n : oks (mcpp n) (allp (hom2 q_cpp 0)).
Proof.
  unfold mcpp. apply oks_bind0. intro p. cbn [oks]. apply allk_add_all; [apply allk_nil|].
  intros k Hk. unfold keys in Hk. rewrite map_map in Hk. apply in_map_iff in Hk. destruct Hk as [x [<- _]]. cbn [fst]. hom2k.
Qed.
Lemma cmcpp_par n : oks (cmcpp n) (allp (hom2 q_cpp 0)).
Proof.
  unfold cmcpp. destruct (n <? 0); [exact Logic.I|]. eapply oks_bind with (P := allk (hom2 q_cpp 0)); [|intros a Ha; now apply allk_rm_zero].
  apply oks_foldM; [|apply allk_nil]. intros s i _ Hs. cbv zeta. eapply oks_bind; [apply mcpp_par|]. intros p hp.
  cbn [oks]. apply allk_add_all; [exact Hs|]. intros k Hk. unfold keys in Hk. rewrite map_map in Hk. apply in_map_iff in Hk.
  destruct Hk as [[k0 v0] [<- Hin]]. cbn [fst]. pose proof (allk_in _ _ _ _ hp Hin) as D. hom2k.
Qed.
(** ** mdl_1fsvj *)
Section J.
(** weights of sigma_v and rho, and of sigma_j *)
Variables (u uj : Z).
Hypothesis Hu : (u = 1 /\ uj = 0) \/ (u = 0 /\ uj = 1).
Notation r_8 := [0; 0; 0; 0; 0; u; u; 0].
Notation r_c7 := [0; 0; 0; 0; u; u; 0].
Notation r_j11 := [0; 0; 0; 0; 0; u; u; 0; 0; 0; uj].
Notation r_j10 := [0; 0; 0; 0; u; u; 0; 0; 0; uj].
Lemma u_8 p : sup (hom2 q_8 0) p -> sup (hom2 r_8 0) p.
Proof. intro h. eapply supp_weaken; [exact h|]. intros k Hk. destruct Hu as [[-> ->]|[-> ->]]; hom2k. Qed.
Lemma u_7 p : sup (hom2 q_c7 0) p -> sup (hom2 r_c7 0) p.
Proof. intro h. eapply supp_weaken; [exact h|]. intros k Hk. destruct Hu as [[-> ->]|[-> ->]]; hom2k. Qed.
Lemma uj_cpp p : sup (hom2 q_cpp 0) p -> sup (hom2 [0; 0; uj] 0) p.
Proof. intro h. eapply supp_weaken; [exact h|]. intros k Hk. destruct Hu as [[-> ->]|[-> ->]]; hom2k. Qed.
Ltac mul2j := intros k1 k2 ? ?; hom2s; destruct Hu as [[-> ->]|[-> ->]]; mul2c.
Theorem jmoment_y_par l : oks (jmoment_y l) (sup (hom2 r_j11 0)).
Proof.
  apply oks_foldM; [|apply supp_nil]. intros s i _ Hs. apply oks_bind0. intro c.
  eapply oks_bind; [apply moment_y_par|]. intros p hp. eapply oks_bind; [apply mcpp_par|]. intros q hq.
  eapply oks_bind; [apply (mul_poly_sup _ _ (hom2 r_j11 0) _ _ _ _ _ (u_8 _ hp) (uj_cpp _ (sup_allp _ _ hq))); mul2j|]. intros r hr.
  apply merge_sup; [exact Hs|]. now apply rmulZ_sup.
Qed.
Theorem jcmoment_y_par l : oks (jcmoment_y l) (sup (hom2 r_j10 0)).
Proof.
  apply oks_foldM; [|apply supp_nil]. intros s i _ Hs. apply oks_bind0. intro c.
  eapply oks_bind; [apply cmoment_y_par|]. intros p hp. eapply oks_bind; [apply cmcpp_par|]. intros q hq.
  eapply oks_bind; [apply (mul_poly_sup _ _ (hom2 r_j10 0) _ _ _ _ _ (u_7 _ hp) (uj_cpp _ (sup_allp _ _ hq))); mul2j|]. intros r hr.
  apply merge_sup; [exact Hs|]. now apply rmulZ_sup.
Qed.
Theorem jmoment_yy_par l1 l2 : oks (jmoment_yy l1 l2) (sup (hom2 r_j11 0)).
Proof.
  apply oks_foldM; [|apply supp_nil]. intros s i _ Hs. apply oks_foldM; [|exact Hs]. intros s' j _ Hs'.
  do 2 (apply oks_bind0; intro). cbv zeta. eapply oks_bind; [apply moment_yy_par|]. intros p hp.
  eapply oks_bind; [apply mcpp_par|]. intros q2 hq2. eapply oks_bind; [apply mcpp_par|]. intros q3 hq3.
  eapply oks_bind; [apply (hom2_pmul q_cpp 0 0); now apply sup_allp|]. intros q hq. change (0 + 0) with 0 in hq.
  eapply oks_bind; [apply (mul_poly_sup _ _ (hom2 r_j11 0) _ _ _ _ _ (u_8 _ hp) (uj_cpp _ hq)); mul2j|]. intros r hr.
  apply merge_sup; [exact Hs'|]. now apply rmulZ_sup.
Qed.
Theorem jcov_yy_par l1 l2 : oks (jcov_yy l1 l2) (sup (hom2 r_j11 0)).
Proof.
  unfold jcov_yy. eapply oks_bind; [apply jmoment_yy_par|]. intros a ha. eapply oks_bind; [apply jmoment_y_par|]. intros b hb.
  eapply oks_bind; [apply jmoment_y_par|]. intros c hc. now apply cov_par.
Qed.
End J.
