(** Invariants of keys that hold of whatever a function returns (it may also raise). *)
From Coq Require Import Lra.
From Verif.Proof Require Export KeyInv.
From Verif.Model Require Export Fsv1j.
Local Open Scope Z_scope.

Definition oks {A} (r : res A) (P : A -> Prop) : Prop := match r with Ok a => P a | Err _ => True end.
Lemma oks_bind {A B} (r : res A) (f : A -> res B) (P : A -> Prop) (Q : B -> Prop) :
  oks r P -> (forall a, P a -> oks (f a) Q) -> oks (bind r f) Q.
Proof. destruct r; simpl; auto. Qed.
Lemma oks_any {A} (r : res A) : oks r (fun _ => True).
Proof. destruct r; simpl; auto. Qed.
Lemma oks_weaken {A} (r : res A) (P Q : A -> Prop) : oks r P -> (forall a, P a -> Q a) -> oks r Q.
Proof. destruct r; simpl; auto. Qed.
Lemma oks_foldM {S A} (f : S -> A -> res S) (P : S -> Prop) (l : list A) :
  (forall s x, In x l -> P s -> oks (f s x) P) -> forall s, P s -> oks (foldM f l s) P.
Proof.
  induction l as [|x r IH]; intros Hf s Hs; simpl; [exact Hs|].
  pose proof (Hf s x (or_introl eq_refl) Hs) as h. destruct (f s x); [|exact Logic.I].
  apply IH; [intros; apply Hf; [now right|assumption]|exact h].
Qed.
Lemma fold_left_inv {S A} (f : S -> A -> S) (P : S -> Prop) (l : list A) :
  (forall s x, In x l -> P s -> P (f s x)) -> forall s, P s -> P (fold_left f l s).
Proof.
  induction l as [|x r IH]; intros Hf s Hs; simpl; [exact Hs|].
  apply IH; [intros; apply Hf; [now right|assumption]|]. apply Hf; [now left|exact Hs].
Qed.
(** bind whose first part needs no invariant *)
Lemma oks_bind0 {A B} (r : res A) (f : A -> res B) (Q : B -> Prop) :
  (forall a, oks (f a) Q) -> oks (bind r f) Q.
Proof. intro h. apply (oks_bind _ _ (fun _ => True)); [apply oks_any|auto]. Qed.

Section Gen.
Context {K : Type} `{Key K}.
Implicit Types (P : K -> Prop) (p : Poly K).
Definition allp P p : Prop := allk P (items p).
Lemma allk_set_kv P k v l : allk P l -> P k -> allk P (set_kv k v l).
Proof.
  intros Hl Hk. induction l as [|[a b] r IH]; simpl.
  - intros k' [<-|[]]. exact Hk.
  - destruct (keqb a k) eqn:E; intros k' [E'|Hin]; simpl in *.
    + apply Hl. left. exact E'.
    + apply Hl. right. exact Hin.
    + apply Hl. left. exact E'.
    + revert k' Hin. apply IH. intros k' Hk'. apply Hl. now right.
Qed.
Lemma allk_sub_all P l0 l : allk P l0 -> allk P l -> allk P (sub_all l0 l).
Proof.
  intros h0 h. unfold sub_all. apply fold_left_inv; [|exact h0].
  intros s [k v] Hin Hs. cbn [fst snd]. pose proof (allk_in _ _ _ _ h Hin) as Hk.
  destruct (lookup k l0); [destruct (lookup k s)|]; try exact Hs; now apply allk_set_kv.
Qed.
Lemma merge_allp P p q : allp P p -> allp P q -> oks (merge p q) (allp P).
Proof.
  intros hp hq. unfold merge. destruct (is_exact_type p q); simpl; [|exact Logic.I].
  apply allk_rm_zero. now apply allk_add_all.
Qed.
Lemma psub_allp P p q : allp P p -> allp P q -> oks (psub p q) (allp P).
Proof.
  intros hp hq. unfold psub. destruct (is_exact_type p q); simpl; [|exact Logic.I].
  apply allk_rm_zero. now apply allk_sub_all.
Qed.
Lemma rmul_allp P c p : allp P p -> allp P (rmul c p).
Proof.
  intro hp. unfold rmul, allp. cbn [items]. apply allk_rm_zero. apply allk_add_all; [apply allk_nil|].
  intros k Hk. unfold keys in Hk. rewrite map_map in Hk. cbn [fst] in Hk. now apply hp.
Qed.
Lemma remove_zero_allp P p : allp P p -> allp P (remove_zero p).
Proof. intro hp. apply allk_rm_zero, hp. Qed.
Lemma mul_items_allk (P1 P2 P3 : K -> Prop) ka l1 l2 : allk P1 l1 -> allk P2 l2 ->
  (forall k1 k2, P1 k1 -> P2 k2 -> oks (ka k1 k2) P3) -> oks (mul_items ka l1 l2) (allk P3).
Proof.
  intros h1 h2 hk. unfold mul_items. apply oks_foldM; [|apply allk_nil].
  intros s [k1 v1] H1 Hs. apply oks_foldM; [|exact Hs].
  intros s' [k2 v2] H2 Hs'. cbn [fst snd].
  eapply oks_bind; [apply hk; [exact (allk_in _ _ _ _ h1 H1)|exact (allk_in _ _ _ _ h2 H2)]|].
  intros k Hk. simpl. now apply allk_add_kv.
Qed.
Lemma pmul_gen_allp (P1 P2 P3 : K -> Prop) ka p q : allp P1 p -> allp P2 q ->
  (forall k1 k2, P1 k1 -> P2 k2 -> oks (ka k1 k2) P3) -> oks (pmul_gen ka p q) (allp P3).
Proof.
  intros h1 h2 hk. unfold pmul_gen. destruct (is_exact_type p q); [|exact Logic.I].
  eapply oks_bind; [apply (mul_items_allk P1 P2 P3); eassumption|].
  intros l Hl. now apply allk_rm_zero.
Qed.
Lemma allp_weaken P P' p : allp P p -> (forall k, P k -> P' k) -> allp P' p.
Proof. apply allk_weaken. Qed.
(** the inner loop [for (k,v) in l: a.add_keyval(f(k,v), g(k,v))] *)
Lemma allk_fold_kv {A} P (f : A -> K) (g : A -> Q) (l : list A) a :
  allk P a -> (forall x, In x l -> P (f x)) -> allk P (fold_left (fun a x => add_kv (f x) (g x) a) l a).
Proof. apply allk_fold_add. Qed.
End Gen.

(** mul_poly: P3 of the combined key *)
Lemma mul_poly_allp (P1 P2 P3 : list Z -> Prop) p q i1 i2 kf : allp P1 p -> allp P2 q ->
  (forall k1 k2, P1 k1 -> P2 k2 -> oks (kcomb i1 i2 k1 k2) P3) -> oks (mul_poly p q i1 i2 kf) (allp P3).
Proof.
  intros h1 h2 hk. unfold mul_poly. eapply oks_bind; [apply (mul_items_allk P1 P2 P3); eassumption|].
  intros l Hl. now apply allk_rm_zero.
Qed.

(** ** the degree of a key: the sum of the exponents at the given places, with weights *)
Fixpoint deg (w k : list Z) : Z :=
  match w, k with a :: w', e :: k' => a * e + deg w' k' | _, _ => 0 end.
(** keys of length [length w] and degree d *)
Definition hom (w : list Z) (d : Z) (k : list Z) : Prop := length k = length w /\ deg w k = d.

Lemma hom_kadd w d1 d2 k1 k2 : hom w d1 k1 -> hom w d2 k2 -> oks (kadd k1 k2) (hom w (d1 + d2)).
Proof.
  intros [L1 <-] [L2 <-]. revert k1 k2 L1 L2. induction w as [|a w IH]; intros [|x k1] [|y k2] L1 L2; try discriminate.
  - split; reflexivity.
  - cbn [kadd]. eapply oks_bind; [apply IH; [now injection L1|now injection L2]|].
    intros t [Lt Et]. split; [cbn; now rewrite Lt|]. cbn [deg]. rewrite Et. lia.
Qed.
Lemma hom_pmul w d1 d2 p q : allp (hom w d1) p -> allp (hom w d2) q -> oks (pmul p q) (allp (hom w (d1 + d2))).
Proof. intros h1 h2. apply (pmul_gen_allp _ _ _ _ _ _ h1 h2). intros. now apply hom_kadd. Qed.

Ltac homs := repeat match goal with
  | h : hom _ _ ?k |- _ => let L := fresh "L" in let E := fresh "E" in destruct h as [L E]; cbn [length] in L;
      repeat (destruct k as [|? k]; [discriminate L|]; injection L as L); destruct k; [|discriminate L]; clear L; cbn [deg] in E
  end.
Ltac homk := homs; unfold nthZ in *; cbn [nth fst] in *; split; [reflexivity|cbn [deg]; lia].
Ltac mulc := cbv -[Z.add Z.mul Z.opp]; split; [reflexivity|lia].
Ltac mulk := intros k1 k2 ? ?; homs; mulc.

(** ** ito_mom.py *)
(** [e^{kt}; t; k^-]: dimension of time *)
Notation w_et := [0; 1; 1].
Lemma int_et_hom n m : oks (int_et n m) (allp (hom w_et (m + 1))).
Proof.
  unfold int_et. destruct (m <? 0); [exact Logic.I|].
  destruct (n =? 0); [apply allk_set_kv; [apply allk_nil|homk]|].
  destruct (m =? 0) eqn:Em; [apply Z.eqb_eq in Em; subst m; repeat (apply allk_set_kv; [|homk]); apply allk_nil|].
  apply fold_left_inv; [|apply allk_set_kv; [apply allk_nil|homk]].
  intros s i _ Hs. cbv zeta. destruct (i =? m) eqn:E; repeat (apply allk_set_kv; [|try apply Z.eqb_eq in E; homk]); exact Hs.
Qed.

(** IEII keys [e^{k(n-1)h}; e^{k[t-(n-1)h]}; t; v; k^-; theta; sigma_v], possibly longer (P0, P1) *)
Definition dI (k : list Z) : Prop := nthZ k 2 + nthZ k 4 - nthZ k 3 - nthZ k 5 - nthZ k 6 = 0.
Lemma int_e_poly_hom c tp m p : allp dI p -> oks (int_e_poly c tp m p) (allp dI).
Proof.
  intro hp. unfold int_e_poly. eapply oks_bind; [|intros a Ha; exact Ha].
  apply oks_foldM; [|apply allk_nil]. intros s [k1 v1] H1 Hs. cbv zeta. cbn [fst snd].
  pose proof (allk_in _ _ _ _ hp H1) as D1. red in D1.
  eapply oks_bind; [apply int_et_hom|]. intros sub Hsub. cbn [oks].
  apply allk_fold_kv; [exact Hs|]. intros [k2 v2] H2. cbn [fst snd].
  pose proof (allk_in _ _ _ _ Hsub H2) as D2. homs. unfold iep_key, dI in *.
  destruct (tp =? 1); [|destruct (tp =? 2); [|destruct (tp =? 3)]]; unfold nthZ in *; cbn [addat nth] in *; lia.
Qed.
Definition allc (C : IEII_cache) : Prop := forall i p, In (i, p) C -> allp dI p.
Lemma cget_allc i C : allc C -> oks (cget i C) (allp dI).
Proof.
  intro h. induction C as [|[j a] r IH]; cbn [cget]; [exact Logic.I|]. destruct (keqb j i).
  - apply (h j). now left.
  - apply IH. intros x p Hx. apply (h x). now right.
Qed.
Lemma cset_allc i p C : allc C -> allp dI p -> allc (cset i p C).
Proof.
  intros h hp. induction C as [|[j a] r IH]; cbn [cset].
  - intros x q [E|[]]. now inversion E; subst.
  - destruct (keqb j i); intros x q [E|Hin].
    + now inversion E; subst.
    + apply (h x). now right.
    + inversion E; subst. apply (h x). now left.
    + revert x q Hin. apply IH. intros x q Hx. apply (h x). now right.
Qed.
Lemma merge_int_hom C c p tp m i : allc C -> allp dI p -> oks (merge_int C c p tp m i) (allp dI).
Proof.
  intros hC hp. unfold merge_int. eapply oks_bind; [now apply cget_allc|]. intros q Hq.
  eapply oks_bind; [now apply int_e_poly_hom|]. intros r Hr. now apply merge_allp.
Qed.
Lemma branch_hom C c p m1 m3 i i2 : allc C -> allp dI p -> oks (branch C c p m1 m3 i i2) (allp dI).
Proof.
  intros hC hp. unfold branch. do 3 (eapply oks_bind; [apply merge_int_hom; eassumption|clear p hp; intros p hp]).
  now apply merge_int_hom.
Qed.
Lemma recursive_IEII_hom n3 n4 n5 C : allc C -> oks (recursive_IEII n3 n4 n5 C) (allp dI).
Proof.
  intro hC. unfold recursive_IEII. cbv zeta.
  assert (h0 : allp dI (mkPoly [] kf_IEII)) by apply allk_nil. revert h0. generalize (mkPoly (K:=list Z) [] kf_IEII).
  do 3 (intros p hp; eapply oks_bind; [match goal with |- oks (if ?b then _ else _) _ =>
    destruct b; [now apply branch_hom|exact hp] end|clear p hp]).
  intros p hp. match goal with |- oks (if ?b then _ else _) _ => destruct b; [now apply branch_hom|exact hp] end.
Qed.
Lemma IEII_init_hom : allc IEII_init.
Proof.
  intros i p h. repeat (destruct h as [E|h]; [inversion E; subst; clear E; intros k Hk;
    repeat (destruct Hk as [<-|Hk]; [reflexivity|]); destruct Hk|]). destruct h.
Qed.
Lemma IEII_round_hom C n : allc C -> oks (IEII_round C n) allc.
Proof.
  intro hC. unfold IEII_round. eapply oks_bind.
  - apply (oks_foldM _ allc); [|exact hC]. intros s i _ Hs. apply oks_foldM; [|exact Hs].
    intros s' j _ Hs'. eapply oks_bind; [now apply recursive_IEII_hom|]. intros p hp.
    apply cset_allc; [exact Hs'|]. now apply remove_zero_allp.
  - intros D hD i p Hin. unfold cdel in Hin. apply filter_In in Hin. now apply (hD i).
Qed.
(** E[IE^n3 I^n4 I*^n5] is dimensionless *)
Theorem moment_IEII_hom n3 n4 n5 : oks (moment_IEII n3 n4 n5) (allp dI).
Proof.
  unfold moment_IEII. destruct (_ <? 0); [exact Logic.I|]. destruct (_ <=? 2); [apply cget_allc, IEII_init_hom|].
  eapply oks_bind with (P := allc).
  - destruct (3 <? _); [|exact IEII_init_hom]. apply oks_foldM; [|exact IEII_init_hom]. intros. now apply IEII_round_hom.
  - intros C hC. eapply oks_bind; [now apply recursive_IEII_hom|]. intros p hp. now apply remove_zero_allp.
Qed.

(** E[v^n] has n factors of the dimension 1/time *)
Notation w_v := [1; 1].
Lemma moment_v_step_hom d p i : allp (hom w_v d) p -> allp (hom w_v (d + 1)) (moment_v_step p i).
Proof.
  intro hp. unfold moment_v_step, allp. cbn [items]. apply fold_left_inv; [|apply allk_nil].
  intros s [k v] Hin Hs. pose proof (allk_in _ _ _ _ hp Hin) as D. cbv zeta. cbn [fst snd].
  apply allk_add_kv; [apply allk_add_kv; [exact Hs|]|]; homk.
Qed.
Lemma moment_v_hom n : oks (moment_v n) (allp (hom w_v n)).
Proof.
  unfold moment_v. destruct (n =? 0) eqn:E0; [apply Z.eqb_eq in E0; subst; intros k [<-|[]]; homk|].
  destruct (n =? 1) eqn:E1; [apply Z.eqb_eq in E1; subst; intros k [<-|[]]; homk|].
  destruct (n <? 2) eqn:E2; [exact Logic.I|]. apply Z.ltb_ge in E2. cbn [oks].
  assert (G : forall m p d, allp (hom w_v d) p -> forall a,
    allp (hom w_v (d + Z.of_nat m)) (fold_left moment_v_step (map (fun i => a + Z.of_nat i) (seq 0 m)) p)).
  { induction m as [|m IH]; intros p d hp a.
    - simpl. now replace (d + 0) with d by lia.
    - rewrite seq_S, map_app, fold_left_app. cbn [map fold_left].
      replace (d + Z.of_nat (S m)) with (d + Z.of_nat m + 1) by lia. apply moment_v_step_hom. now apply IH. }
  unfold range. replace n with (1 + Z.of_nat (Z.to_nat (n + 1 - 2))) at 1 by lia. apply G.
  intros k [<-|[]]. homk.
Qed.

(** ** Nest.v *)
Definition sumZ (l : list Z) : Z := fold_right Z.add 0 l.
Lemma sumZ_app a b : sumZ (a ++ b) = sumZ a + sumZ b.
Proof. induction a; simpl; [reflexivity|]. rewrite IHa. lia. Qed.
Lemma oks_nest {S} (P : S -> Prop) body m : forall l acc (s : S),
  (forall s ns, sumZ ns = sumZ acc + l -> P s -> oks (body s ns) P) -> P s -> oks (nest m l acc body s) P.
Proof.
  induction m as [|m IH]; intros l acc s hb Hs; cbn [nest].
  - apply hb; [|exact Hs]. rewrite sumZ_app. simpl. lia.
  - apply oks_foldM; [|exact Hs]. intros s' n _ Hs'. apply IH; [|exact Hs'].
    intros s'' ns E. apply hb. rewrite E, sumZ_app. simpl. lia.
Qed.
Lemma subst_v_allp (P P' : list Z -> Prop) get mk kf p : allp P p ->
  (forall k k2, P k -> hom w_v (get k) k2 -> P' (mk k (nthZ k2 0) (nthZ k2 1))) -> oks (subst_v get mk kf p) (allp P').
Proof.
  intros hp hk. unfold subst_v. eapply oks_bind; [|intros a Ha; exact Ha].
  apply oks_foldM; [|apply allk_nil]. intros s [k v] Hin Hs. cbn [fst snd].
  eapply oks_bind; [apply moment_v_hom|]. intros q Hq. apply allk_fold_kv; [exact Hs|].
  intros [k2 v2] H2. cbn [fst snd]. apply hk; [exact (allk_in _ _ _ _ hp Hin)|exact (allk_in _ _ _ _ Hq H2)].
Qed.
(** the main loop over (n1,..,n5) *)
Lemma oks_nest5 (P : list Z -> Prop) m l (f : Z -> Z -> Z -> Z -> Z -> res (Poly (list Z))) kf :
  (forall a b c d e, oks (f a b c d e) (allp P)) ->
  oks (nest m l [] (fun poly ns => let! q := on5 f ns in merge poly q) (mkPoly [] kf)) (allp P).
Proof.
  intro hf. apply oks_nest; [|apply allk_nil]. intros s ns _ Hs.
  eapply oks_bind with (P := allp P); [|intros q Hq; now apply merge_allp].
  unfold on5. repeat (destruct ns as [|? ns]; try exact Logic.I). apply hf.
Qed.
Lemma rmulZ_allp P c p : allp P p -> allp P (rmulZ c p).
Proof. apply rmul_allp. Qed.

(** ** mdl_1fsv/cmom.py *)
Notation w_cb := [0; 1; -1; -1; 0; 0].
Notation w_ve := [0; 1; -1; 1; -1; -1].
Notation w_c8 := [0; 1; -1; 1; -1; -1; 0; 0].
Notation w_c7 := [0; 1; 1; -1; -1; 0; 0].
Notation w_8 := [0; 1; 1; -1; -1; -1; 0; 0].
Notation w_9 := [0; 1; -1; 1; -1; -1; -1; 0; 0].
Lemma cb_n_hom n1 n2 n3 n4 n5 : oks (cb_n n1 n2 n3 n4 n5) (allp (hom w_cb n2)).
Proof.
  unfold cb_n. eapply oks_bind; [|intros a Ha; exact Ha].
  apply (oks_foldM _ (allk (hom w_cb n2))); [|apply allk_nil]. intros s i _ Hs. apply oks_foldM; [|exact Hs].
  intros s' j _ Hs'. cbv zeta. do 2 (apply oks_bind0; intro). apply allk_add_kv; [exact Hs'|homk].
Qed.
Lemma ve_IEII_hom n2 n3 n4 n5 : oks (ve_IEII n2 n3 n4 n5) (allp (hom w_ve (- n2))).
Proof.
  unfold ve_IEII. eapply oks_bind; [apply moment_IEII_hom|]. intros p hp. apply allk_fold_kv; [apply allk_nil|].
  intros [k v] Hin. pose proof (allk_in _ _ _ _ hp Hin) as D. red in D. cbn [fst snd]. split; [reflexivity|].
  cbn [deg]. lia.
Qed.
Lemma cmoment_comb_hom n n1 n2 n3 n4 n5 : oks (cmoment_comb n n1 n2 n3 n4 n5) (allp (hom w_c8 0)).
Proof.
  unfold cmoment_comb. eapply oks_bind; [apply ve_IEII_hom|]. intros p hp. eapply oks_bind; [apply cb_n_hom|]. intros b hb.
  eapply oks_bind; [apply (mul_poly_allp _ _ (hom w_c8 0) _ _ _ _ _ hp hb); mulk|]. intros q hq.
  apply oks_bind0. intro c. now apply rmulZ_allp.
Qed.
Theorem cmoment_y_hom l : oks (cmoment_y l) (allp (hom w_c7 0)).
Proof.
  unfold cmoment_y. eapply oks_bind; [apply oks_nest5; intros; apply cmoment_comb_hom|]. intros p hp.
  eapply oks_bind; [apply (subst_v_allp _ (hom w_c7 0) _ _ _ _ hp)|intros q hq; now apply remove_zero_allp].
  intros k k2 h h2. unfold nthZ in h2. homk.
Qed.
(** ** mdl_1fsv/mom.py *)
Lemma b_n_hom n1 n2 n3 n4 n5 : oks (b_n n1 n2 n3 n4 n5) (allp (hom w_8 n2)).
Proof.
  unfold b_n. eapply oks_bind; [|intros a Ha; exact Ha].
  apply (oks_nest (allk (hom w_8 n2))); [|apply allk_nil]. intros s ns E Hs.
  unfold on4. repeat (destruct ns as [|? ns]; try exact Logic.I). simpl in E.
  apply oks_foldM; [|exact Hs]. intros s' i _ Hs'. apply oks_foldM; [|exact Hs'].
  intros s'' j _ Hs''. do 3 (apply oks_bind0; intro). cbv zeta. apply allk_add_kv; [exact Hs''|homk].
Qed.
Lemma moment_comb_hom n n1 n2 n3 n4 n5 : oks (moment_comb n n1 n2 n3 n4 n5) (allp (hom w_9 0)).
Proof.
  unfold moment_comb. eapply oks_bind; [apply ve_IEII_hom|]. intros p hp. eapply oks_bind; [apply b_n_hom|]. intros b hb.
  eapply oks_bind; [apply (mul_poly_allp _ _ (hom w_9 0) _ _ _ _ _ hp hb); mulk|]. intros q hq.
  apply oks_bind0. intro c. now apply rmulZ_allp.
Qed.
Lemma sub_v_hom p : allp (hom w_9 0) p -> oks (sub_v p) (allp (hom w_8 0)).
Proof.
  intro hp. apply (subst_v_allp _ (hom w_8 0) _ _ _ _ hp). intros k k2 h h2. unfold nthZ in h2. homk.
Qed.
Theorem moment_y_hom l : oks (moment_y l) (allp (hom w_8 0)).
Proof.
  unfold moment_y. eapply oks_bind; [apply oks_nest5; intros; apply moment_comb_hom|]. intros p hp.
  eapply oks_bind; [now apply sub_v_hom|intros q hq; now apply remove_zero_allp].
Qed.
(** ** mdl_1fsv/cov.py *)
Notation w_vn := [0; 0; 1; 1; 1].
Notation w_eIv := [0; 0; 1; -1; 1; -1; -1].
Lemma exp_vn_hom l : oks (exp_vn l) (allp (hom w_vn l)).
Proof.
  unfold exp_vn. eapply oks_bind; [|intros a Ha; exact Ha].
  apply (oks_nest (allk (hom w_vn l))); [|apply allk_nil]. intros s ns E Hs.
  unfold on4. repeat (destruct ns as [|? ns]; try exact Logic.I). simpl in E.
  apply oks_bind0. intro. apply allk_add_kv; [exact Hs|homk].
Qed.
Lemma ve_IEII_vn_hom n2 n3 n4 n5 : oks (ve_IEII_vn n2 n3 n4 n5) (allp (hom w_eIv (- n2))).
Proof.
  unfold ve_IEII_vn. eapply oks_bind; [apply ve_IEII_hom|]. intros p hp. eapply oks_bind; [|intros a Ha; exact Ha].
  apply oks_foldM; [|apply allk_nil]. intros s [k1 v1] H1 Hs. cbv zeta. cbn [fst snd].
  pose proof (allk_in _ _ _ _ hp H1) as D1.
  eapply oks_bind; [apply exp_vn_hom|]. intros q Hq. apply allk_fold_kv; [exact Hs|].
  intros [k2 v2] H2. cbn [fst snd]. pose proof (allk_in _ _ _ _ Hq H2) as D2. unfold nthZ in D2. homk.
Qed.
Lemma moment_inner_comb_hom d pe l1 m1 m2 m3 m4 m5 : allp (hom w_eIv d) pe ->
  oks (moment_inner_comb pe l1 m1 m2 m3 m4 m5) (allp (hom w_9 d)).
Proof.
  intro hpe. unfold moment_inner_comb. eapply oks_bind with (P := allk (hom w_ve (d - m2))).
  - apply oks_foldM; [|apply allk_nil]. intros s [k1 v1] H1 Hs. cbv zeta. cbn [fst snd].
    pose proof (allk_in _ _ _ _ hpe H1) as D1.
    eapply oks_bind; [apply ve_IEII_hom|]. intros q Hq. apply allk_fold_kv; [exact Hs|].
    intros [k2 v2] H2. cbn [fst snd]. pose proof (allk_in _ _ _ _ Hq H2) as D2. unfold nthZ in D2. homk.
  - intros a Ha. eapply oks_bind; [apply b_n_hom|]. intros b hb.
    eapply oks_bind; [apply (mul_poly_allp (hom w_ve (d - m2)) _ (hom w_9 d) (mkPoly a kf_ve) _ _ _ _ Ha hb); mulk|]. intros q hq.
    apply oks_bind0. intro c. now apply rmulZ_allp.
Qed.
Lemma moment_outer_comb_hom l1 l2 n1 n2 n3 n4 n5 : oks (moment_outer_comb l1 l2 n1 n2 n3 n4 n5) (allp (hom w_9 0)).
Proof.
  unfold moment_outer_comb. apply oks_bind0. intro c. eapply oks_bind; [apply b_n_hom|]. intros b hb.
  eapply oks_bind; [apply ve_IEII_vn_hom|]. intros pe hpe.
  eapply oks_bind; [apply (oks_nest5 (hom w_9 (- n2))); intros; now apply moment_inner_comb_hom|]. intros p hp.
  eapply oks_bind; [apply (mul_poly_allp _ _ (hom w_9 0) _ _ _ _ _ hp hb); mulk|]. intros q hq. now apply rmulZ_allp.
Qed.
Theorem moment_yy_hom l1 l2 : oks (moment_yy l1 l2) (allp (hom w_8 0)).
Proof.
  unfold moment_yy. eapply oks_bind; [apply oks_nest5; intros; apply moment_outer_comb_hom|]. intros p hp.
  eapply oks_bind; [now apply sub_v_hom|intros q hq; now apply remove_zero_allp].
Qed.
Lemma cov_hom w a b c : allp (hom w 0) a -> allp (hom w 0) b -> allp (hom w 0) c ->
  oks (let! bc := pmul b c in let! r := psub a bc in Ok (remove_zero r)) (allp (hom w 0)).
Proof.
  intros ha hb hc. eapply oks_bind; [now apply (hom_pmul w 0 0)|]. intros bc hbc.
  eapply oks_bind; [now apply (psub_allp (hom w 0))|]. intros r hr. now apply remove_zero_allp.
Qed.
Theorem cov_yy_hom l1 l2 : oks (cov_yy l1 l2) (allp (hom w_8 0)).
Proof.
  unfold cov_yy. eapply oks_bind; [apply moment_yy_hom|]. intros a ha. eapply oks_bind; [apply moment_y_hom|]. intros b hb.
  eapply oks_bind; [apply moment_y_hom|]. intros c hc. now apply cov_hom.
Qed.
(** ** mdl_1fsvj *)
Notation w_j11 := [0; 1; 1; -1; -1; -1; 0; 0; -1; 0; 0].
Notation w_j10 := [0; 1; 1; -1; -1; 0; 0; -1; 0; 0].
Lemma allp_any p : allp (fun _ : list Z => True) p.
Proof. intros k _. exact Logic.I. Qed.
Ltac mulj := intros k1 k2 h _; homs; unfold kcomb; cbn [bind];
  change (kv_at (-1) k2) with 0; generalize (kv_at 0 k2) (kv_at 1 k2) (kv_at 2 k2); intros; mulc.
Theorem jmoment_y_hom l : oks (jmoment_y l) (allp (hom w_j11 0)).
Proof.
  apply oks_foldM; [|apply allk_nil]. intros s i _ Hs. apply oks_bind0. intro c.
  eapply oks_bind; [apply moment_y_hom|]. intros p hp. apply oks_bind0. intro q.
  eapply oks_bind; [apply (mul_poly_allp _ _ (hom w_j11 0) _ _ _ _ _ hp (allp_any q)); mulj|]. intros r hr.
  apply merge_allp; [exact Hs|]. now apply rmulZ_allp.
Qed.
Theorem jcmoment_y_hom l : oks (jcmoment_y l) (allp (hom w_j10 0)).
Proof.
  apply oks_foldM; [|apply allk_nil]. intros s i _ Hs. apply oks_bind0. intro c.
  eapply oks_bind; [apply cmoment_y_hom|]. intros p hp. apply oks_bind0. intro q.
  eapply oks_bind; [apply (mul_poly_allp _ _ (hom w_j10 0) _ _ _ _ _ hp (allp_any q)); mulj|]. intros r hr.
  apply merge_allp; [exact Hs|]. now apply rmulZ_allp.
Qed.
Theorem jmoment_yy_hom l1 l2 : oks (jmoment_yy l1 l2) (allp (hom w_j11 0)).
Proof.
  apply oks_foldM; [|apply allk_nil]. intros s i _ Hs. apply oks_foldM; [|exact Hs]. intros s' j _ Hs'.
  do 2 (apply oks_bind0; intro). cbv zeta. eapply oks_bind; [apply moment_yy_hom|]. intros p hp.
  do 3 (apply oks_bind0; intro).
  eapply oks_bind; [apply (mul_poly_allp _ _ (hom w_j11 0) _ _ _ _ _ hp (allp_any _)); mulj|]. intros r hr.
  apply merge_allp; [exact Hs'|]. now apply rmulZ_allp.
Qed.
Theorem jcov_yy_hom l1 l2 : oks (jcov_yy l1 l2) (allp (hom w_j11 0)).
Proof.
  unfold jcov_yy. eapply oks_bind; [apply jmoment_yy_hom|]. intros a ha. eapply oks_bind; [apply jmoment_y_hom|]. intros b hb.
  eapply oks_bind; [apply jmoment_y_hom|]. intros c hc. now apply cov_hom.
Qed.
