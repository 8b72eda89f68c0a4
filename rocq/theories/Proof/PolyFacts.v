(** Generic facts about the Poly model. *)
From Coq Require Import Lra Setoid Morphisms.
From Verif.Spec Require Export Eval.
From Verif.Model Require Export Poly.
Local Open Scope R_scope.

(** ** Q and R *)
Lemma Q2R_red x : Q2R (Qred x) = Q2R x.
Proof. apply Qeq_eqR, Qred_correct. Qed.
Lemma Q2R_add x y : Q2R (qadd x y) = Q2R x + Q2R y.
Proof. unfold qadd. now rewrite Q2R_red, Q2R_plus. Qed.
Lemma Q2R_mul x y : Q2R (qmul x y) = Q2R x * Q2R y.
Proof. unfold qmul. now rewrite Q2R_red, Q2R_mult. Qed.
Lemma Q2R_sub x y : Q2R (qsub x y) = Q2R x - Q2R y.
Proof. unfold qsub. now rewrite Q2R_red, Q2R_minus. Qed.
Lemma Q2R_neg x : Q2R (qopp x) = - Q2R x.
Proof. unfold qopp. now rewrite Q2R_red, Q2R_opp. Qed.
Lemma Q2R_inj z : Q2R (inject_Z z) = IZR z.
Proof. unfold Q2R, inject_Z; simpl. lra. Qed.
Lemma Q2R_qz z : Q2R (qz z) = IZR z.
Proof. apply Q2R_inj. Qed.
Lemma Q2R_0 : Q2R 0 = 0.
Proof. unfold Q2R; simpl; lra. Qed.
Lemma Q2R_1 : Q2R 1 = 1.
Proof. unfold Q2R; simpl; lra. Qed.
Lemma Q2R_Frac n d : d <> 0%Z -> Q2R (Frac n d) = IZR n / IZR d.
Proof.
  intro Hd. unfold Frac. rewrite Q2R_red, Q2R_div, !Q2R_inj; [reflexivity|].
  intro E. apply Hd. unfold Qeq, inject_Z in E; simpl in E. lia.
Qed.
Lemma Q2R_eq0 x : (x == 0)%Q <-> Q2R x = 0.
Proof.
  split; intro E.
  - rewrite (Qeq_eqR _ _ E). apply Q2R_0.
  - apply eqR_Qeq. now rewrite E, Q2R_0.
Qed.

(** ** monad *)
Lemma returns_ok {A} (a : A) (P : A -> Prop) : P a -> returns (Ok a) P.
Proof. exact (fun h => h). Qed.
Lemma returns_bind {A B} (r : res A) (f : A -> res B) (P : A -> Prop) (Q : B -> Prop) :
  returns r P -> (forall a, P a -> returns (f a) Q) -> returns (bind r f) Q.
Proof. destruct r; simpl; [intros h1 h2; now apply h2|tauto]. Qed.
Lemma returns_weaken {A} (r : res A) (P Q : A -> Prop) :
  returns r P -> (forall a, P a -> Q a) -> returns r Q.
Proof. destruct r; simpl; auto. Qed.
Lemma returns_inv {A} (r : res A) (P : A -> Prop) :
  returns r P -> exists a, r = Ok a /\ P a.
Proof. destruct r; simpl; [eauto|tauto]. Qed.
Lemma returns_and {A} (r : res A) (P Q : A -> Prop) :
  returns r P -> returns r Q -> returns r (fun a => P a /\ Q a).
Proof. destruct r; simpl; auto. Qed.

(** loop invariant rule: [Inv done s] *)
Lemma foldM_inv {S A} (f : S -> A -> res S) (Inv : list A -> S -> Prop) :
  forall l done s,
    Inv done s ->
    (forall pre x post s', l = pre ++ x :: post -> Inv (done ++ pre) s' ->
        returns (f s' x) (Inv (done ++ pre ++ [x]))) ->
    returns (foldM f l s) (Inv (done ++ l)).
Proof.
  induction l as [|x r IH]; intros done s H0 Hs; simpl.
  - now rewrite app_nil_r.
  - pose proof (Hs [] x r s eq_refl) as H1. rewrite app_nil_r in H1. specialize (H1 H0).
    destruct (f s x) as [s'|]; [|exact H1]. simpl in H1.
    specialize (IH (done ++ [x]) s' H1).
    replace (done ++ x :: r) with ((done ++ [x]) ++ r) by now rewrite <- app_assoc.
    apply IH. intros pre y post s'' E Hi. rewrite <- app_assoc in *. simpl in *.
    specialize (Hs (x :: pre) y post s''). simpl in Hs. rewrite E in Hs.
    now apply Hs.
Qed.

Lemma foldM_pure {S A} (f : S -> A -> res S) (g : S -> A -> S) :
  forall l s, (forall x s', In x l -> f s' x = Ok (g s' x)) ->
    foldM f l s = Ok (fold_left g l s).
Proof.
  induction l as [|x r IH]; intros s Hx; simpl; [reflexivity|].
  rewrite Hx by now left. apply IH. intros; apply Hx; now right.
Qed.

(** ** eval *)
Section Facts.
Context {K : Type} `{HK : Key K}.
Implicit Types (mon : K -> R) (l : list (K * Q)).

Lemma keqb_refl k : keqb k k = true.
Proof. now apply keqb_spec. Qed.

Lemma eval_app mon l1 l2 : eval mon (l1 ++ l2) = eval mon l1 + eval mon l2.
Proof.
  induction l1 as [|[k v] r IH]; simpl; [lra|]. rewrite IH. lra.
Qed.

Lemma eval_add_kv mon k v l : eval mon (add_kv k v l) = eval mon l + Q2R v * mon k.
Proof.
  induction l as [|[k' v'] r IH]; simpl; [lra|].
  destruct (keqb k' k) eqn:E; simpl.
  - apply keqb_spec in E. subst. rewrite Q2R_add. lra.
  - rewrite IH. lra.
Qed.

Lemma eval_add_all mon l : forall l0, eval mon (add_all l0 l) = eval mon l0 + eval mon l.
Proof.
  induction l as [|[k v] r IH]; intro l0; unfold add_all; simpl; [lra|].
  fold (add_all (add_kv k v l0) r). rewrite IH, eval_add_kv. lra.
Qed.

Lemma eval_rm_zero mon l : eval mon (rm_zero l) = eval mon l.
Proof.
  induction l as [|[k v] r IH]; simpl; [reflexivity|].
  unfold qzero. destruct (Qeq_bool v 0) eqn:E; simpl.
  - apply Qeq_bool_iff, Q2R_eq0 in E. rewrite E, IH. lra.
  - now rewrite IH.
Qed.

Lemma eval_ext_in mon mon' l :
  (forall k v, In (k, v) l -> mon k = mon' k) -> eval mon l = eval mon' l.
Proof.
  induction l as [|[k v] r IH]; simpl; intro Hx; [reflexivity|].
  rewrite (Hx k v) by now left. rewrite IH; [reflexivity|]. intros; eapply Hx; eauto.
Qed.

Lemma eval_scal mon l c : eval (fun k => c * mon k) l = c * eval mon l.
Proof. induction l as [|[k v] r IH]; simpl; [lra|]. rewrite IH. lra. Qed.

Lemma eval_0 mon l : (forall k v, In (k, v) l -> Q2R v * mon k = 0) -> eval mon l = 0.
Proof.
  induction l as [|[k v] r IH]; simpl; intro Hx; [reflexivity|].
  rewrite (Hx k v) by now left. rewrite IH; [lra|]. intros; eapply Hx; eauto.
Qed.

(** membership *)
Lemma in_add_kv k v l k' v' :
  In (k', v') (add_kv k v l) -> (k' = k \/ In k' (keys l)).
Proof.
  induction l as [|[a b] r IH]; simpl; intro Hin.
  - destruct Hin as [E|[]]. inversion E; auto.
  - destruct (keqb a k) eqn:E; simpl in Hin.
    + destruct Hin as [E'|Hin]; [inversion E'; subst; auto|].
      right; right. apply (in_map fst) in Hin. exact Hin.
    + destruct Hin as [E'|Hin]; [inversion E'; subst; auto|].
      destruct (IH Hin); auto.
Qed.

Lemma keys_add_kv k v l :
  keys (add_kv k v l) =
  if existsb (fun k' => keqb k' k) (keys l) then keys l else keys l ++ [k].
Proof.
  induction l as [|[a b] r IH]; simpl; [reflexivity|].
  destruct (keqb a k) eqn:E; simpl; [reflexivity|].
  rewrite IH. destruct (existsb _ _); reflexivity.
Qed.

Lemma existsb_keq k ks : existsb (fun k' => keqb k' k) ks = true <-> In k ks.
Proof.
  rewrite existsb_exists. split.
  - intros [x [h1 h2]]. apply keqb_spec in h2. now subst.
  - intro h. exists k. split; [exact h|apply keqb_refl].
Qed.

Lemma keys_add_kv_in k v l k' : In k' (keys (add_kv k v l)) <-> k' = k \/ In k' (keys l).
Proof.
  rewrite keys_add_kv. destruct (existsb _ _) eqn:E.
  - apply existsb_keq in E. split; [auto|intros [->|h]; auto].
  - rewrite in_app_iff. simpl. intuition.
Qed.

Lemma keys_add_all_in l : forall l0 k,
  In k (keys (add_all l0 l)) <-> In k (keys l0) \/ In k (keys l).
Proof.
  induction l as [|[a b] r IH]; intros l0 k; unfold add_all; simpl; [intuition|].
  fold (add_all (add_kv a b l0) r). rewrite IH, keys_add_kv_in. intuition.
Qed.

Lemma NoDup_snoc {A} (l : list A) (a : A) : NoDup l -> ~ In a l -> NoDup (l ++ [a]).
Proof.
  intros Hn Ha. induction l as [|x r IH]; simpl.
  - constructor; [intros []|constructor].
  - inversion Hn; subst. constructor.
    + rewrite in_app_iff; simpl. intros [h|[h|[]]]; [auto|subst]. apply Ha; now left.
    + apply IH; [assumption|]. intro h; apply Ha; now right.
Qed.

Lemma uniq_add_kv k v l : uniq l -> uniq (add_kv k v l).
Proof.
  unfold uniq. intro Hn. change (map fst (add_kv k v l)) with (keys (add_kv k v l)).
  rewrite keys_add_kv. destruct (existsb _ _) eqn:E; [exact Hn|].
  apply NoDup_snoc; [exact Hn|]. intro h. apply existsb_keq in h. congruence.
Qed.

Lemma uniq_add_all l : forall l0, uniq l0 -> uniq (add_all l0 l).
Proof.
  induction l as [|[a b] r IH]; intros l0 Hu; unfold add_all; simpl; [exact Hu|].
  apply IH, uniq_add_kv, Hu.
Qed.

Lemma uniq_nil : uniq (@nil (K * Q)).
Proof. constructor. Qed.

Lemma rm_zero_in l k v : In (k, v) (rm_zero l) <-> In (k, v) l /\ ~ (v == 0)%Q.
Proof.
  unfold rm_zero. rewrite filter_In. unfold qzero. simpl.
  rewrite negb_true_iff, <- not_true_iff_false, Qeq_bool_iff. reflexivity.
Qed.

Lemma keys_rm_zero_in l k : In k (keys (rm_zero l)) -> In k (keys l).
Proof.
  unfold keys. rewrite !in_map_iff. intros [[a b] [E Hin]].
  exists (a, b). apply rm_zero_in in Hin. tauto.
Qed.

Lemma uniq_rm_zero l : uniq l -> uniq (rm_zero l).
Proof.
  unfold uniq. induction l as [|[a b] r IH]; simpl; intro Hn; [constructor|].
  inversion Hn; subst. destruct (negb (qzero b)); simpl; [|auto].
  constructor; [|auto]. intro h. apply keys_rm_zero_in in h. auto.
Qed.

Lemma nonzero_rm_zero l : nonzero (rm_zero l).
Proof.
  apply Forall_forall. intros [k v] Hin. apply rm_zero_in in Hin. simpl. tauto.
Qed.

Lemma rm_zero_id l : nonzero l -> rm_zero l = l.
Proof.
  unfold nonzero. induction 1 as [|[k v] r Hv Hr IH]; simpl; [reflexivity|].
  simpl in Hv. unfold qzero. destruct (Qeq_bool v 0) eqn:E.
  - apply Qeq_bool_iff in E. contradiction.
  - simpl. now rewrite IH.
Qed.

Lemma rm_zero_idem l : rm_zero (rm_zero l) = rm_zero l.
Proof. apply rm_zero_id, nonzero_rm_zero. Qed.

(** coefficients *)
Lemma coeff_add_kv k v l x :
  (coeff x (add_kv k v l) == coeff x l + (if keqb k x then v else 0))%Q.
Proof.
  induction l as [|[a b] r IH]; simpl.
  - destruct (keqb k x); ring.
  - destruct (keqb a k) eqn:E; simpl.
    + apply keqb_spec in E. subst.
      destruct (keqb k x); [unfold qadd; rewrite Qred_correct|]; ring.
    + destruct (keqb a x) eqn:E2; rewrite IH; ring.
Qed.

Lemma coeff_add_all l : forall l0 x,
  (coeff x (add_all l0 l) == coeff x l0 + coeff x l)%Q.
Proof.
  induction l as [|[a b] r IH]; intros l0 x; unfold add_all; simpl; [ring|].
  fold (add_all (add_kv a b l0) r). rewrite IH, coeff_add_kv.
  destruct (keqb a x); ring.
Qed.

Lemma coeff_rm_zero l x : (coeff x (rm_zero l) == coeff x l)%Q.
Proof.
  induction l as [|[a b] r IH]; simpl; [reflexivity|].
  unfold qzero. destruct (Qeq_bool b 0) eqn:E; simpl.
  - apply Qeq_bool_iff in E. rewrite IH. destruct (keqb a x); [rewrite E; ring|reflexivity].
  - destruct (keqb a x); rewrite IH; reflexivity.
Qed.

Lemma coeff_notin l x : ~ In x (keys l) -> coeff x l = 0%Q.
Proof.
  induction l as [|[a b] r IH]; simpl; intro Hn; [reflexivity|].
  destruct (keqb a x) eqn:E.
  - apply keqb_spec in E. tauto.
  - apply IH. tauto.
Qed.

Lemma coeff_lookup l x : uniq l ->
  (coeff x l == match lookup x l with Some v => v | None => 0 end)%Q.
Proof.
  unfold uniq. induction l as [|[a b] r IH]; simpl; intro Hn; [reflexivity|].
  inversion Hn; subst. destruct (keqb a x) eqn:E.
  - apply keqb_spec in E. subst. rewrite coeff_notin by assumption. ring.
  - now apply IH.
Qed.

(** set_kv *)
Lemma set_kv_fresh k v l : ~ In k (keys l) -> set_kv k v l = l ++ [(k, v)].
Proof.
  induction l as [|[a b] r IH]; simpl; intro Hn; [reflexivity|].
  destruct (keqb a k) eqn:E.
  - apply keqb_spec in E. tauto.
  - rewrite IH; tauto.
Qed.

Lemma eval_set_kv_fresh mon k v l : ~ In k (keys l) ->
  eval mon (set_kv k v l) = eval mon l + Q2R v * mon k.
Proof. intro Hn. rewrite set_kv_fresh by assumption. rewrite eval_app. simpl. lra. Qed.

Lemma eval_set_kv_some mon k v v0 l : uniq l -> lookup k l = Some v0 ->
  eval mon (set_kv k v l) = eval mon l + (Q2R v - Q2R v0) * mon k.
Proof.
  unfold uniq. induction l as [|[a b] r IH]; simpl; intros Hn Hl; [discriminate|].
  inversion Hn; subst. destruct (keqb a k) eqn:E; simpl.
  - apply keqb_spec in E. inversion Hl; subst. lra.
  - rewrite IH by assumption. lra.
Qed.

Lemma lookup_none k l : lookup k l = None <-> ~ In k (keys l).
Proof.
  induction l as [|[a b] r IH]; simpl; [tauto|].
  destruct (keqb a k) eqn:E.
  - apply keqb_spec in E. split; [discriminate|]. tauto.
  - rewrite IH. split; [|tauto]. intros h [h2|h2]; [|tauto].
    subst. rewrite keqb_refl in E. discriminate.
Qed.

Lemma lookup_some_in k v l : lookup k l = Some v -> In (k, v) l.
Proof.
  induction l as [|[a b] r IH]; simpl; [discriminate|].
  destruct (keqb a k) eqn:E.
  - apply keqb_spec in E. intro h; inversion h; subst. now left.
  - intro h. right; auto.
Qed.

Lemma keys_set_kv k v l :
  keys (set_kv k v l) =
  if existsb (fun k' => keqb k' k) (keys l) then keys l else keys l ++ [k].
Proof.
  induction l as [|[a b] r IH]; simpl; [reflexivity|].
  destruct (keqb a k) eqn:E; simpl; [reflexivity|].
  rewrite IH. destruct (existsb _ _); reflexivity.
Qed.

Lemma uniq_set_kv k v l : uniq l -> uniq (set_kv k v l).
Proof.
  unfold uniq. intro Hn. change (map fst (set_kv k v l)) with (keys (set_kv k v l)).
  rewrite keys_set_kv. destruct (existsb _ _) eqn:E; [exact Hn|].
  apply NoDup_snoc; [exact Hn|]. intro h. apply existsb_keq in h. congruence.
Qed.

Lemma coeff_set_kv k v l x : uniq l ->
  (coeff x (set_kv k v l) == if keqb k x then v else coeff x l)%Q.
Proof.
  unfold uniq. induction l as [|[a b] r IH]; simpl; intro Hn.
  - destruct (keqb k x); ring.
  - inversion Hn; subst. destruct (keqb a k) eqn:E; simpl.
    + apply keqb_spec in E. subst. destruct (keqb k x) eqn:E2.
      * apply keqb_spec in E2; subst. rewrite coeff_notin by assumption. ring.
      * reflexivity.
    + destruct (keqb a x) eqn:E2; rewrite IH by assumption.
      * destruct (keqb k x) eqn:E3; [|reflexivity].
        apply keqb_spec in E2, E3. subst. rewrite keqb_refl in E. discriminate.
      * reflexivity.
Qed.

Lemma keys_set_kv_incl k v l x : In x (keys l) -> In x (keys (set_kv k v l)).
Proof.
  rewrite keys_set_kv. destruct (existsb _ _); [auto|]. rewrite in_app_iff. auto.
Qed.

(** subtraction loop *)
Lemma sub_all_facts l0 : uniq l0 -> forall l a,
  uniq l -> uniq a ->
  (forall k, In k (keys l0) -> In k (keys a)) ->
  (forall k, In k (keys l) -> ~ In k (keys l0) -> ~ In k (keys a)) ->
  let r := fold_left (fun a kv =>
    match lookup (fst kv) l0 with
    | Some _ => match lookup (fst kv) a with
                | Some v => set_kv (fst kv) (qsub v (snd kv)) a
                | None => a
                end
    | None => set_kv (fst kv) (qopp (snd kv)) a
    end) l a in
  uniq r /\ (forall mon, eval mon r = eval mon a - eval mon l).
Proof.
  intros Hu0. induction l as [|[k v] r IH]; intros a Hul Hua Hin Hout; simpl.
  - split; [exact Hua|]. intros; lra.
  - inversion Hul as [|k' l' Hk Hr]; subst.
    destruct (lookup k l0) as [w|] eqn:E0.
    + assert (Ink : In k (keys l0)).
      { apply lookup_some_in in E0. apply (in_map fst) in E0. exact E0. }
      destruct (lookup k a) as [u|] eqn:Ea.
      2:{ apply lookup_none in Ea. exfalso. apply Ea, Hin, Ink. }
      destruct (IH (set_kv k (qsub u v) a)) as [h1 h2].
      * exact Hr.
      * now apply uniq_set_kv.
      * intros x Hx. now apply keys_set_kv_incl, Hin.
      * intros x Hx Hx0. rewrite keys_set_kv.
        replace (existsb (fun k' => keqb k' k) (keys a)) with true
          by (symmetry; apply existsb_keq; auto).
        apply Hout; [now right|exact Hx0].
      * split; [exact h1|]. intro mon. rewrite h2.
        rewrite (eval_set_kv_some mon _ _ u) by assumption. rewrite Q2R_sub. lra.
    + apply lookup_none in E0.
      assert (Hka : ~ In k (keys a)) by (apply Hout; [now left|exact E0]).
      destruct (IH (set_kv k (qopp v) a)) as [h1 h2].
      * exact Hr.
      * now apply uniq_set_kv.
      * intros x Hx. now apply keys_set_kv_incl, Hin.
      * intros x Hx Hx0. rewrite keys_set_kv.
        replace (existsb (fun k' => keqb k' k) (keys a)) with false.
        2:{ symmetry. apply not_true_iff_false. rewrite existsb_keq. exact Hka. }
        rewrite in_app_iff. intros [h|[h|[]]].
        -- revert h. apply Hout; [now right|exact Hx0].
        -- subst x. contradiction.
      * split; [exact h1|]. intro mon. rewrite h2.
        rewrite eval_set_kv_fresh by assumption. rewrite Q2R_neg. lra.
Qed.

Lemma sub_all_spec l0 l : uniq l0 -> uniq l ->
  uniq (sub_all l0 l) /\ (forall mon, eval mon (sub_all l0 l) = eval mon l0 - eval mon l).
Proof.
  intros h0 h1. apply sub_all_facts; auto.
Qed.

(** products *)
Lemma mul_items_pure (ka : K -> K -> res K) (f : K -> K -> K) l1 l2 :
  (forall k1 v1 k2 v2, In (k1, v1) l1 -> In (k2, v2) l2 -> ka k1 k2 = Ok (f k1 k2)) ->
  mul_items ka l1 l2 =
  Ok (add_all [] (flat_map (fun kv1 => map (fun kv2 =>
        (f (fst kv1) (fst kv2), qmul (snd kv1) (snd kv2))) l2) l1)).
Proof.
  intro Hf. unfold mul_items.
  rewrite (foldM_pure _ (fun a kv1 => add_all a (map (fun kv2 =>
        (f (fst kv1) (fst kv2), qmul (snd kv1) (snd kv2))) l2))).
  - f_equal. generalize (@nil (K * Q)). clear Hf. induction l1 as [|x r IH]; intro a; simpl.
    + reflexivity.
    + rewrite IH. unfold add_all at 3. rewrite fold_left_app. reflexivity.
  - intros [k1 v1] a Hin1. simpl.
    rewrite (foldM_pure _ (fun a kv2 => add_kv (f k1 (fst kv2)) (qmul v1 (snd kv2)) a)).
    + f_equal. unfold add_all. generalize a. clear -l2. induction l2 as [|y r IH]; intro a; simpl; auto.
    + intros [k2 v2] a' Hin2. simpl. erewrite Hf by eassumption. reflexivity.
Qed.

Lemma eval_map mon {A} (f : A -> K * Q) (l : list A) :
  eval mon (map f l) =
  fold_right (fun x s => Q2R (snd (f x)) * mon (fst (f x)) + s) 0 l.
Proof.
  induction l as [|x r IH]; simpl; [reflexivity|]. destruct (f x). simpl. now rewrite IH.
Qed.

End Facts.

Lemma eval_prod {K1 K2 K3} `{Key K1} `{Key K2} (mon1 : K1 -> R) (mon2 : K2 -> R) (mon3 : K3 -> R)
  (f : K1 -> K2 -> K3) (g : Q -> Q -> Q) (l1 : list (K1 * Q)) (l2 : list (K2 * Q)) (c : R) :
  (forall k1 v1 k2 v2, In (k1, v1) l1 -> In (k2, v2) l2 ->
      Q2R (g v1 v2) * mon3 (f k1 k2) = c * (Q2R v1 * mon1 k1) * (Q2R v2 * mon2 k2)) ->
  eval mon3 (flat_map (fun kv1 => map (fun kv2 =>
        (f (fst kv1) (fst kv2), g (snd kv1) (snd kv2))) l2) l1)
  = c * eval mon1 l1 * eval mon2 l2.
Proof.
  induction l1 as [|[k1 v1] r IH]; intro Hm; simpl; [lra|].
  rewrite eval_app, IH by (intros; apply Hm; [right|]; assumption).
  assert (E : eval mon3 (map (fun kv2 => (f k1 (fst kv2), g v1 (snd kv2))) l2)
            = c * (Q2R v1 * mon1 k1) * eval mon2 l2).
  { clear IH. assert (Hm' : forall k2 v2, In (k2, v2) l2 ->
      Q2R (g v1 v2) * mon3 (f k1 k2) = c * (Q2R v1 * mon1 k1) * (Q2R v2 * mon2 k2)).
    { intros; apply Hm; [now left|assumption]. }
    clear Hm. induction l2 as [|[k2 v2] s IHs]; simpl; [lra|].
    rewrite IHs by (intros; apply Hm'; now right).
    rewrite Hm' by now left. lra. }
  rewrite E. lra.
Qed.

Lemma eval_flat_map {A K} (mon : K -> R) (f : A -> list (K * Q)) (l : list A) :
  eval mon (flat_map f l) = fold_right (fun x s => eval mon (f x) + s) 0 l.
Proof.
  induction l as [|x r IH]; simpl; [reflexivity|]. now rewrite eval_app, IH.
Qed.

(** ** keyfor comparison *)
Lemma is_exact_type_iff {K} (p q : Poly K) :
  is_exact_type p q = true <-> keyfor p = keyfor q.
Proof. apply listb_spec. exact String.eqb_eq. Qed.

(** ** int-tuple keys *)
Fixpoint kadd_pure (k1 k2 : list Z) : list Z :=
  match k1, k2 with
  | a :: r, b :: s => (a + b)%Z :: kadd_pure r s
  | _, _ => []
  end.

Lemma kadd_ok k1 : forall k2, (length k1 <= length k2)%nat ->
  kadd k1 k2 = Ok (kadd_pure k1 k2).
Proof.
  induction k1 as [|a r IH]; intros [|b s] Hl; simpl in *; try reflexivity; [lia|].
  rewrite IH by lia. reflexivity.
Qed.

Lemma kadd_err k1 : forall k2, (length k2 < length k1)%nat -> kadd k1 k2 = Err IndexError.
Proof.
  induction k1 as [|a r IH]; intros [|b s] Hl; simpl in *; try reflexivity; try lia.
  rewrite IH by lia. reflexivity.
Qed.

Lemma kadd_pure_length k1 : forall k2, (length k1 <= length k2)%nat ->
  length (kadd_pure k1 k2) = length k1.
Proof.
  induction k1 as [|a r IH]; intros [|b s] Hl; simpl in *; try reflexivity; [lia|].
  rewrite IH; lia.
Qed.

Lemma kadd_pure_nth k1 : forall k2 i, length k1 = length k2 ->
  nthZ (kadd_pure k1 k2) i = (nthZ k1 i + nthZ k2 i)%Z.
Proof.
  unfold nthZ. induction k1 as [|a r IH]; intros [|b s] i Hl; simpl in *; try lia.
  - destruct i; reflexivity.
  - destruct i as [|i]; [reflexivity|]. apply IH. lia.
Qed.

Lemma pow_lemma_pw x n m : x <> 0 \/ (0 <= n /\ 0 <= m)%Z ->
  pw x (n + m) = pw x n * pw x m.
Proof.
  intros [Hx|[Hn Hm]]; unfold pw.
  - now apply powerRZ_add.
  - rewrite <- (Z2Nat.id n), <- (Z2Nat.id m) by assumption.
    rewrite <- Nat2Z.inj_add, <- !pow_powerRZ. now rewrite pow_add.
Qed.

Lemma pw_nat x n : pw x (Z.of_nat n) = x ^ n.
Proof. unfold pw. now rewrite <- pow_powerRZ. Qed.
Lemma pw_0 x : pw x 0 = 1.
Proof. reflexivity. Qed.
Lemma pw_1 x : pw x 1 = x.
Proof. unfold pw; simpl; lra. Qed.
Lemma pw_succ x n : x <> 0 \/ (0 <= n)%Z -> pw x (n + 1) = x * pw x n.
Proof.
  intro Hx. rewrite pow_lemma_pw by (destruct Hx; [left; assumption|right; lia]).
  rewrite pw_1. lra.
Qed.
Lemma pw_Zpos x n : (0 <= n)%Z -> pw x n = x ^ Z.to_nat n.
Proof. intro Hn. rewrite <- pw_nat, Z2Nat.id; auto. Qed.
