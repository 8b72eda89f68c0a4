(** The powers of the jump times in the keys of the polynomials given the jumps are not negative. *)
From Coq Require Import Lra.
From Verif.Proof Require Import TimeUnit.
From Verif.Model Require Import SvcjCond2.
Local Open Scope Z_scope.

Definition nnl (l : list Z) : Prop := Forall (fun x => 0 <= x) l.
(** the tuples o and q *)
Definition nnj (lopq : list Z * list Z * list Z * list Z) : Prop := let '(l, o, p, q) := lopq in nnl o /\ nnl q.
Notation nj := (fun key : jkey => nnj (snd key)).
Notation nsv := (fun key : svkey => nnj (snd (fst key))).

Lemma nnl_addat i d : forall l, 0 <= d -> nnl l -> nnl (addat i d l).
Proof.
  induction i as [|i IH]; intros [|x r] Hd Hl; cbn [addat]; try exact Hl; inversion Hl; subst; constructor; trivial; [lia|]. now apply IH.
Qed.
Lemma nnl_rep x n : 0 <= x -> nnl (rep x n).
Proof. intro Hx. unfold rep. apply Forall_forall. intros y Hy. apply in_map_iff in Hy. destruct Hy as (_ & <- & _). exact Hx. Qed.
Lemma nnl_app a b : nnl a -> nnl b -> nnl (a ++ b).
Proof. intros. apply Forall_app. now split. Qed.
Lemma addlast_nn d l : 0 <= d -> nnl l -> oks (addlast d l) nnl.
Proof. intros Hd Hl. unfold addlast. destruct l; [exact Logic.I|]. now apply nnl_addat. Qed.
Lemma addfst_nn d l : 0 <= d -> nnl l -> oks (addfst d l) nnl.
Proof. intros Hd Hl. unfold addfst. destruct l; [exact Logic.I|]. inversion Hl; subst. constructor; [lia|constructor]. Qed.

Definition k4 (kk : list Z) : Prop := 0 <= nthZ kk 4.
Ltac sets := repeat (apply allk_set_kv; [|cbn; unfold k4, nthZ; cbn [nth]; lia]); try (intros ? []).
Lemma int_et_fZ_nn n m N : oks (int_et_fZ n m N) (allp k4).
Proof.
  unfold int_et_fZ. destruct (Z.ltb_spec m 0) as [|Hm]; [exact Logic.I|].
  destruct (N =? 0); destruct (n =? 0); try (cbn [oks]; unfold allp; cbn [items]; sets; fail);
    destruct (m =? 0); try (cbn [oks]; unfold allp; cbn [items]; sets; fail);
    (cbn [oks]; unfold allp; cbn [items]; apply fold_left_inv; [|sets]).
  - intros s i Hi Hs. apply in_range in Hi. destruct (i =? m); sets; exact Hs.
  - intros s i Hi Hs. apply in_range in Hi. sets. exact Hs.
Qed.
Lemma jkey2_nn lopq kk : nnj lopq -> k4 kk -> oks (jkey2 lopq kk) nnj.
Proof.
  destruct lopq as [[[l o] p] q]. intros [Ho Hq] H4. unfold jkey2. destruct (_ =? 0)%nat; [repeat constructor|]. destruct (_ =? 1)%nat.
  - apply oks_bind0. intro k6. eapply oks_bind; [apply addfst_nn; eassumption|]. intros k7 h7. split; [exact h7|constructor].
  - apply oks_bind0. intro k8. eapply oks_bind; [apply addlast_nn; eassumption|]. intros k9 h9. split; [exact Ho|exact h9].
Qed.
Lemma jint_nn c tp m p : allp nj p -> oks (jint_e_poly c tp m p) (allp nj).
Proof.
  intro hp. unfold jint_e_poly. eapply oks_bind; [|intros a Ha; exact Ha].
  apply (oks_foldM _ (allk _)); [|intros ? []]. intros s [[k lopq] v] Hin Hs. cbv zeta. cbn [fst snd].
  pose proof (allk_in _ _ _ _ hp Hin) as hk. cbn [snd] in hk.
  eapply oks_bind; [apply int_et_fZ_nn|]. intros sub hsub.
  apply oks_foldM; [|exact Hs]. intros s' [kk v2] H2 Hs'. cbn [fst snd].
  pose proof (allk_in _ _ _ _ hsub H2) as hkk.
  eapply oks_bind; [apply jkey2_nn; eassumption|]. intros key2 h2. cbn [oks]. now apply allk_add_kv.
Qed.
Definition nst (st : iez_state) : Prop := let '(k6, k7, k8, k9) := st in nnl k7 /\ nnl k9.
Lemma iez_step_nn st kk : nst st -> k4 kk -> oks (iez_step st kk) (fun x => nst (fst x) /\ nnj (snd x)).
Proof.
  destruct st as [[[k6 k7] k8] k9]. intros [H7 H9] H4. unfold iez_step. destruct (_ =? 1)%nat.
  - apply oks_bind0. intro k6'. eapply oks_bind; [apply addfst_nn; eassumption|]. intros k7' h7. cbn. repeat split; trivial. constructor.
  - apply oks_bind0. intro k8'. eapply oks_bind; [apply addlast_nn; eassumption|]. intros k9' h9. cbn. repeat split; trivial.
Qed.
Lemma iez_nn c m p : allp nj p -> oks (int_e_IEZ_poly c m p) (allp nj).
Proof.
  intro hp. unfold int_e_IEZ_poly. eapply oks_bind; [|intros a Ha; exact Ha].
  apply (oks_foldM _ (allk _)); [|intros ? []]. intros s [[k [[[l o] p'] q]] v] Hin Hs. cbv zeta. cbn [fst snd].
  pose proof (allk_in _ _ _ _ hp Hin) as hk. cbn [snd nnj] in hk. destruct hk as [Ho Hq].
  eapply oks_bind; [apply int_et_fZ_nn|]. intros sub hsub.
  eapply oks_bind with (P := fun r => allk nj (fst r) /\ nst (snd r)).
  - apply oks_foldM.
    + intros [s' st] [kk v2] H2 [Hs' Hst]. cbn [fst snd] in *. pose proof (allk_in _ _ _ _ hsub H2) as hkk.
      eapply oks_bind; [apply iez_step_nn; eassumption|]. intros [st' key2] [h1 h2]. cbn [oks fst snd] in *. split; [now apply allk_add_kv|exact h1].
    + cbn [fst snd nst]. split; [exact Hs|]. split.
      * apply nnl_app; [exact Ho|repeat constructor; lia].
      * destruct (_ <=? _)%nat; [apply nnl_app; [exact Hq|repeat constructor; lia]|constructor].
  - intros [r st] [h _]. exact h.
Qed.

Definition nnc (C : jcache) : Prop := forall i p, In (i, p) C -> allp nj p.
Lemma cget_nn i C : nnc C -> oks (cget i C) (allp nj).
Proof.
  intro h. induction C as [|[j a] r IH]; cbn [cget]; [exact Logic.I|]. destruct (keqb j i) eqn:E.
  - apply (h j). now left.
  - apply IH. intros x p Hx. apply (h x). now right.
Qed.
Lemma cset_nn i p C : nnc C -> allp nj p -> nnc (cset i p C).
Proof.
  intros h hp. induction C as [|[j a] r IH]; cbn [cset].
  - intros x q [E|[]]. now inversion E; subst.
  - destruct (keqb j i) eqn:Ek; intros x q [E|Hin].
    + inversion E; subst. exact hp.
    + apply (h x). now right.
    + inversion E; subst. apply (h x). now left.
    + revert x q Hin. apply IH. intros x q Hx. apply (h x). now right.
Qed.
Lemma jinit_nn : nnc jinit.
Proof.
  intros i p h. repeat (destruct h as [E|h]; [inversion E; subst; clear E; intros k Hk; cbn in Hk;
    repeat (destruct Hk as [<-|Hk]; [cbn; split; repeat constructor; lia|]); destruct Hk|]). destruct h.
Qed.
Lemma jbranch_nn C c p m1 m2 i i2 : nnc C -> allp nj p -> oks (jbranch int_e_IEZ_poly C c p m1 m2 i i2) (allp nj).
Proof.
  intros hC hp. unfold jbranch.
  do 3 (eapply oks_bind; [apply (cget_nn _ _ hC)|intros ? h1]; eapply oks_bind; [apply (jint_nn _ _ _ _ h1)|intros ? h2];
    eapply oks_bind; [apply (merge_allp nj _ _ hp h2)|clear p hp h1 h2; intros p hp]).
  eapply oks_bind; [apply (cget_nn _ _ hC)|intros ? h1]. eapply oks_bind; [apply (iez_nn _ _ _ h1)|intros ? h2]. now apply merge_allp.
Qed.
Lemma jrec_nn n1 n2 n3 C : nnc C -> oks (jrecursive_IEII_with int_e_IEZ_poly n1 n2 n3 C) (allp nj).
Proof.
  intro hC. unfold jrecursive_IEII_with. cbv zeta.
  assert (h0 : allp nj (mkPoly (K:=jkey) [] kf_jIEII)) by (intros ? []). revert h0. generalize (mkPoly (K:=jkey) [] kf_jIEII).
  do 3 (intros p hp; eapply oks_bind with (P := allp nj); [match goal with |- oks (if ?b then _ else _) _ =>
    destruct b; [now apply jbranch_nn|exact hp] end|clear p hp]).
  intros p hp. match goal with |- oks (if ?b then _ else _) _ => destruct b; [now apply jbranch_nn|exact hp] end.
Qed.

(** ** svvj *)
Definition nnst (st : jcache * list (svkey * Q)) : Prop := nnc (fst st) /\ allk nsv (snd st).
Lemma sv_cell_nn l n i j st : nnst st -> oks (sv_cell int_e_IEZ_poly l n i j st) nnst.
Proof.
  destruct st as [C a]. intros [hC ha]. cbn [fst snd] in *. unfold sv_cell. apply oks_bind0. intro c.
  eapply oks_bind with (P := allp nj).
  { destruct (n <? 3); [now apply cget_nn|now apply jrec_nn]. }
  intros p hp. cbn [oks]. split; cbn [fst snd].
  - destruct (_ && _); [now apply cset_nn|exact hC].
  - apply allk_fold_kv; [exact ha|]. intros [[k lopq] v] Hin. cbn [fst snd]. exact (allk_in _ _ _ _ hp Hin).
Qed.
Definition nnt (ps : list (Poly svkey)) : Prop := Forall (allp nsv) ps.
Lemma sv_round_nn l st n : nnc (fst st) -> nnt (snd st) -> oks (sv_round int_e_IEZ_poly l st n) (fun st => nnc (fst st) /\ nnt (snd st)).
Proof.
  destruct st as [C cm]. cbn [fst snd]. intros hC hcm. unfold sv_round. eapply oks_bind with (P := nnst).
  - apply oks_foldM; [|split; [exact hC|intros ? []]]. intros s i _ Hs. apply oks_foldM; [|exact Hs]. intros s' j _ Hs'. now apply sv_cell_nn.
  - intros [C' a] [h1 h2]. cbn [fst snd] in *. cbn [oks fst snd]. split.
    + destruct (n =? l); [intros ? ? []|]. intros i p Hin. unfold cdel in Hin. apply filter_In in Hin. now apply (h1 i).
    + apply Forall_app. split; [exact hcm|]. constructor; [now apply remove_zero_allp|constructor].
Qed.
Lemma sv_cmoments_nn l : oks (sv_cmoments_y_to l) nnt.
Proof.
  unfold sv_cmoments_y_to, sv_cmoments_with. eapply oks_bind with (P := fun st => nnc (fst st) /\ nnt (snd st)).
  - apply oks_foldM.
    + intros s n _ [h1 h2]. now apply sv_round_nn.
    + split; [exact jinit_nn|]. cbn [snd]. repeat constructor; intros k [<-|[]]; cbn; repeat constructor.
  - intros st [_ h]. exact h.
Qed.
Lemma getp_nn (ps : list (Poly svkey)) n : nnt ps -> oks (getp ps n) (allp nsv).
Proof. intro h. unfold getp. destruct (nth_error ps (Z.to_nat n)) as [q|] eqn:E; [|exact Logic.I]. apply nth_error_In in E. exact (proj1 (Forall_forall _ _) h q E). Qed.
Lemma last_In {A} (l : list A) q : last (map Some l) None = Some q -> In q l.
Proof.
  induction l as [|x l IH]; [discriminate|]. destruct l as [|y l].
  - cbn. intro E. injection E as ->. now left.
  - intro E. right. apply IH. exact E.
Qed.
Lemma lastp_nn (ps : list (Poly svkey)) : nnt ps -> oks (lastp ps) (allp nsv).
Proof. intro h. unfold lastp. destruct (last (map Some ps) None) as [q|] eqn:E; [|exact Logic.I]. apply last_In in E. exact (proj1 (Forall_forall _ _) h q E). Qed.
Lemma sv_cmoment_nn l : oks (sv_cmoment_y l) (allp nsv).
Proof. unfold sv_cmoment_y, sv_cmoment_with. eapply oks_bind; [apply sv_cmoments_nn|]. exact lastp_nn. Qed.

Lemma sv_mkey_nn n1 n2 n3 n4 key : nsv key -> nsv (sv_mkey n1 n2 n3 n4 key).
Proof.
  destruct key as [[k [[[l o] p] q]] x]. cbn. intros [Ho Hq]. split; apply nnl_app; trivial; apply nnl_rep; lia.
Qed.
Lemma moment_comb_nn n n1 n2 n3 n4 p : allp nsv p -> oks (moment_comb n n1 n2 n3 n4 p) (allp nsv).
Proof.
  intro hp. unfold moment_comb. apply oks_bind0. intro c. cbn [oks]. unfold allp. cbn [items].
  apply allk_fold_kv; [intros ? []|]. intros [k v] Hin. cbn [fst]. apply sv_mkey_nn. exact (allk_in _ _ _ _ hp Hin).
Qed.
Lemma sv_mom_n_nn kf cs n : nnt cs -> oks (sv_mom_n kf cs n) (allp nsv).
Proof.
  intro h. unfold sv_mom_n. eapply oks_bind with (P := allp nsv); [|intros p hp; now apply remove_zero_allp].
  apply oks_foldM; [|intros ? []]. intros p n1 _ hp. revert p hp. apply oks_foldM. intros p n2 _ hp. revert p hp. apply oks_foldM.
  intros p n3 _ hp. revert p hp. apply oks_foldM. intros p n4 _ hp.
  eapply oks_bind; [now apply getp_nn|]. intros c hc. eapply oks_bind; [now apply moment_comb_nn|]. intros r hr. now apply merge_allp.
Qed.
Lemma sv_moments_nn l : oks (sv_moments_y_to l) nnt.
Proof.
  unfold sv_moments_y_to, sv_moments_with. eapply oks_bind; [apply sv_cmoments_nn|]. intros cs hcs.
  apply oks_bind0. intro c0. apply oks_foldM.
  - intros s n _ hs. eapply oks_bind; [now apply sv_mom_n_nn|]. intros p hp. cbn [oks]. apply Forall_app. split; [exact hs|now constructor].
  - constructor; [|constructor]. intros k [<-|[]]. cbn. split; constructor.
Qed.
Lemma sv_moment_nn l : oks (sv_moment_y l) (allp nsv).
Proof. unfold sv_moment_y, sv_moment_with. eapply oks_bind; [apply sv_moments_nn|]. exact lastp_nn. Qed.

(** ** svij *)
Lemma svij_n_nn cpp kf cs n : nnt cs -> oks (svij_n cpp kf cs n) (allp nsv).
Proof.
  intro h. unfold svij_n. eapply oks_bind with (P := allk nsv); [|intros a ha; now apply remove_zero_allp].
  apply oks_foldM; [|intros ? []]. intros a n1 _ ha. apply oks_bind0. intro c. eapply oks_bind; [now apply getp_nn|]. intros p hp.
  apply oks_bind0. intro p2. cbn [oks]. apply fold_left_inv; [|exact ha]. intros s [k v] Hin Hs.
  apply allk_fold_kv; [exact Hs|]. intros [k2 v2] _. cbn [fst snd]. destruct k as [[k lopq] x]. exact (allk_in _ _ _ _ hp Hin).
Qed.
Lemma svij_cmoment_nn l : oks (svij_cmoment_y l) (allp nsv).
Proof.
  unfold svij_cmoment_y, svij_cmoment_with. eapply oks_bind with (P := nnt); [|exact lastp_nn].
  unfold svij_cmoments_with. eapply oks_bind; [apply sv_cmoments_nn|]. intros cs hcs. apply oks_bind0. intro c0. apply oks_foldM.
  - intros s n _ hs. eapply oks_bind; [now apply svij_n_nn|]. intros p hp. cbn [oks]. apply Forall_app. split; [exact hs|now constructor].
  - repeat constructor; intros k [<-|[]]; cbn; repeat constructor.
Qed.
Lemma svij_moment_nn l : oks (svij_moment_y l) (allp nsv).
Proof.
  unfold svij_moment_y, svij_moment_with. eapply oks_bind with (P := nnt); [|exact lastp_nn].
  unfold svij_moments_with. eapply oks_bind; [apply sv_moments_nn|]. intros cs hcs. apply oks_bind0. intro c0. apply oks_foldM.
  - intros s n _ hs. eapply oks_bind; [now apply svij_n_nn|]. intros p hp. cbn [oks]. apply Forall_app. split; [exact hs|now constructor].
  - repeat constructor; intros k [<-|[]]; cbn; repeat constructor.
Qed.

(** ** svcj *)
Notation ncj := (fun key : cjkey => nnj (snd (fst (fst key)))).
Lemma cj_n_nn {K2 K} `{Key K} (pr : K -> list Z * list Z * list Z * list Z) (jm : Z -> res (Poly K2)) (key : svkey -> K2 -> K) kf cs n :
  (forall k1 k2, pr (key k1 k2) = snd (fst k1)) -> nnt cs -> oks (cj_n jm key kf cs n) (allp (fun k => nnj (pr k))).
Proof.
  intros hpr h. unfold cj_n. eapply oks_bind with (P := allk (fun k => nnj (pr k))); [|intros a ha; now apply remove_zero_allp].
  apply oks_foldM; [|intros ? []]. intros a n1 _ ha. apply oks_bind0. intro c. eapply oks_bind; [now apply getp_nn|]. intros p hp.
  apply oks_bind0. intro p2. cbn [oks]. apply fold_left_inv; [|exact ha]. intros s [k v] Hin Hs.
  apply allk_fold_kv; [exact Hs|]. intros [k2 v2] _. cbn [fst snd]. rewrite hpr. exact (allk_in _ _ _ _ hp Hin).
Qed.
Lemma cj_cmoment_nn l nJ : oks (cj_cmoment_y l nJ) (allp nsv).
Proof.
  unfold cj_cmoment_y, cj_cmoment_with. eapply oks_bind with (P := nnt); [|exact lastp_nn].
  unfold cj_cmoments_with. eapply oks_bind; [apply sv_cmoments_nn|]. intros cs hcs. apply oks_bind0. intro c0. apply oks_foldM.
  - intros s n _ hs. eapply oks_bind; [apply (cj_n_nn (fun k : svkey => snd (fst k))); [reflexivity|exact hcs]|]. intros p hp. cbn [oks]. apply Forall_app. split; [exact hs|now constructor].
  - repeat constructor; intros k [<-|[]]; cbn; repeat constructor.
Qed.
Lemma cj_moment_nn l nJ : oks (cj_moment_y l nJ) (allp ncj).
Proof.
  unfold cj_moment_y, cj_moment_with. eapply oks_bind with (P := Forall (allp ncj)).
  - unfold cj_moments_with. eapply oks_bind; [apply sv_moments_nn|]. intros cs hcs. apply oks_bind0. intro c0. apply oks_foldM.
    + intros s n _ hs. eapply oks_bind; [apply (cj_n_nn (fun k : cjkey => snd (fst (fst k)))); [reflexivity|exact hcs]|]. intros p hp. cbn [oks]. apply Forall_app. split; [exact hs|now constructor].
    + repeat constructor; intros k [<-|[]]; cbn; repeat constructor.
  - intros ps h. unfold lastp. destruct (last (map Some ps) None) as [q|] eqn:E; [|exact Logic.I]. apply last_In in E. exact (proj1 (Forall_forall _ _) h q E).
Qed.
