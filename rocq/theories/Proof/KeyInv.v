(** Invariants of the keys (and of the support) of dicts. *)
From Coq Require Import Lra.
From Verif.Proof Require Export PolyProofs ExpectFacts.
Local Open Scope R_scope.

Lemma in_keys {K} (k : K) (v : Q) (l : list (K * Q)) : In (k, v) l -> In k (keys l).
Proof. intro h. apply (in_map fst) in h. exact h. Qed.

(** loop rule for accumulating sums *)
Lemma foldM_sum {S A T} (f : S -> A -> res S) (wf : S -> Prop) (val : T -> S -> R)
  (g : T -> A -> R) (l : list A) :
  (forall x, In x l -> forall s, wf s ->
     returns (f s x) (fun s' => wf s' /\ forall t, val t s' = val t s + g t x)) ->
  forall s, wf s ->
  returns (foldM f l s) (fun s' => wf s' /\ forall t, val t s' = val t s + sumR (g t) l).
Proof.
  induction l as [|x r IH]; intros Hx s Hs; simpl.
  - split; [assumption|]. intros; lra.
  - pose proof (Hx x (or_introl eq_refl) s Hs) as h.
    destruct (f s x) as [s'|]; [|exact h]. simpl in h. destruct h as [h1 h2].
    eapply returns_weaken; [apply IH; [intros; apply Hx; [now right|assumption]|exact h1]|].
    intros s'' [g1 g2]. split; [assumption|]. intro t. rewrite g2, h2. lra.
Qed.

Section Inv.
Context {K : Type} `{Key K}.
Implicit Types (l : list (K * Q)) (P : K -> Prop).

Definition allk P l : Prop := forall k, In k (keys l) -> P k.
(** P holds of every key whose stored value is not zero *)
Definition supp P l : Prop := forall k v, In (k, v) l -> ~ (v == 0)%Q -> P k.

Lemma allk_nil P : allk P [].
Proof. intros k []. Qed.
Lemma allk_add_kv P k v l : allk P l -> P k -> allk P (add_kv k v l).
Proof. intros Hl Hk k' Hk'. apply keys_add_kv_in in Hk'. destruct Hk' as [->|h]; auto. Qed.
Lemma allk_add_all P l0 l : allk P l0 -> allk P l -> allk P (add_all l0 l).
Proof. intros h0 h k Hk. apply keys_add_all_in in Hk. destruct Hk; auto. Qed.
Lemma allk_rm_zero P l : allk P l -> allk P (rm_zero l).
Proof. intros h k Hk. apply keys_rm_zero_in in Hk. auto. Qed.
Lemma allk_in P l k v : allk P l -> In (k, v) l -> P k.
Proof. intros h Hin. apply h. now apply in_keys in Hin. Qed.
Lemma allk_weaken P P' l : allk P l -> (forall k, P k -> P' k) -> allk P' l.
Proof. intros h1 h2 k Hk. auto. Qed.

Lemma in_add_kv_val k v l k' v' : In (k', v') (add_kv k v l) ->
  In (k', v') l \/ (k' = k /\ v' = v) \/ (k' = k /\ exists v0, In (k, v0) l /\ v' = qadd v0 v).
Proof.
  induction l as [|[a b] r IH]; simpl.
  - intros [E|[]]. inversion E; subst. auto.
  - destruct (keqb a k) eqn:E; simpl.
    + apply keqb_spec in E. subst a. intros [E|Hin]; [|auto].
      inversion E; subst. right; right. split; [reflexivity|]. eauto.
    + intros [E1|Hin]; [auto|]. destruct (IH Hin) as [h|[h|[h1 [v0 [h2 h3]]]]]; auto.
      right; right. split; [assumption|]. eauto.
Qed.

Lemma supp_nil P : supp P [].
Proof. intros k v []. Qed.
Lemma supp_add_kv P k v l : supp P l -> (~ (v == 0)%Q -> P k) -> supp P (add_kv k v l).
Proof.
  intros Hl Hk k' v' Hin Hnz. apply in_add_kv_val in Hin.
  destruct Hin as [h|[[-> ->]|[-> [v0 [h ->]]]]]; [eauto|auto|].
  destruct (Qeq_dec v 0) as [E|N]; [|auto].
  apply (Hl _ _ h). intro E0. apply Hnz. unfold qadd. rewrite Qred_correct, E, E0. reflexivity.
Qed.
Lemma supp_add_all P l : forall l0, supp P l0 -> supp P l -> supp P (add_all l0 l).
Proof.
  induction l as [|[k v] r IH]; intros l0 h0 h; unfold add_all; simpl; [assumption|].
  apply (IH (add_kv k v l0)).
  - apply supp_add_kv; [assumption|]. intro Hv. apply (h k v); [now left|assumption].
  - intros k' v' Hin. apply h. now right.
Qed.
Lemma supp_rm_zero P l : supp P l -> supp P (rm_zero l).
Proof. intros h k v Hin. apply rm_zero_in in Hin. apply h, Hin. Qed.
Lemma supp_weaken P P' l : supp P l -> (forall k, P k -> P' k) -> supp P' l.
Proof. intros h1 h2 k v h3 h4. eauto. Qed.
Lemma supp_allk P l : allk P l -> supp P l.
Proof. intros h k v Hin _. now apply in_keys, h in Hin. Qed.
Lemma supp_and P P' l : supp P l -> supp P' l -> supp (fun k => P k /\ P' k) l.
Proof. intros h1 h2 k v h3 h4. split; eauto. Qed.
Lemma supp_False_eval P (mon : K -> R) l : supp P l -> (forall k, ~ P k) -> eval mon l = 0.
Proof.
  intros h Hn. apply eval_0. intros k v Hin.
  destruct (Qeq_dec v 0) as [E|N]; [|exfalso; apply (Hn k); eauto].
  apply Q2R_eq0 in E. rewrite E. lra.
Qed.
(** values only depend on the support *)
Lemma eval_ext_supp P (mon mon' : K -> R) l : supp P l -> (forall k, P k -> mon k = mon' k) ->
  eval mon l = eval mon' l.
Proof.
  intros h Hm. induction l as [|[k v] r IH]; simpl; [reflexivity|].
  rewrite IH by (intros k' v' Hin; apply h; now right). f_equal.
  destruct (Qeq_dec v 0) as [E|N].
  - apply Q2R_eq0 in E. rewrite E. lra.
  - rewrite (Hm k); [reflexivity|]. apply (h k v); [now left|assumption].
Qed.
End Inv.

Lemma monx_7 a b c d e f g k : (7 <= length k)%nat ->
  monx [a;b;c;d;e;f;g] k = pw a (nthZ k 0) * pw b (nthZ k 1) * pw c (nthZ k 2) * pw d (nthZ k 3)
    * pw e (nthZ k 4) * pw f (nthZ k 5) * pw g (nthZ k 6).
Proof.
  intro Hk. do 7 (destruct k as [|? k]; [simpl in Hk; lia|]). unfold nthZ. simpl. ring.
Qed.
Lemma monx_3 a b c k : (3 <= length k)%nat ->
  monx [a;b;c] k = pw a (nthZ k 0) * pw b (nthZ k 1) * pw c (nthZ k 2).
Proof.
  intro Hk. do 3 (destruct k as [|? k]; [simpl in Hk; lia|]). unfold nthZ. simpl. ring.
Qed.
Lemma monx_2 a b k : (2 <= length k)%nat -> monx [a;b] k = pw a (nthZ k 0) * pw b (nthZ k 1).
Proof.
  intro Hk. do 2 (destruct k as [|? k]; [simpl in Hk; lia|]). unfold nthZ. simpl. ring.
Qed.

Lemma pw_exp x n : pw (exp x) n = exp (IZR n * x).
Proof.
  assert (P : forall m, exp x ^ m = exp (INR m * x)).
  { induction m as [|m IH]; simpl pow; [simpl; rewrite Rmult_0_l, exp_0; reflexivity|].
    rewrite IH, <- exp_plus, S_INR. f_equal. ring. }
  unfold pw. destruct n as [|p|p]; simpl powerRZ.
  - rewrite Rmult_0_l, exp_0. reflexivity.
  - rewrite P, INR_IZR_INZ, positive_nat_Z. reflexivity.
  - rewrite P, <- exp_Ropp, INR_IZR_INZ, positive_nat_Z. f_equal.
    change (Z.neg p) with (- Z.pos p)%Z. rewrite opp_IZR. ring.
Qed.
Lemma pw_inv x n : x <> 0 -> pw (/ x) n = / pw x n.
Proof. intro Hx. unfold pw. destruct n; simpl; [now rewrite Rinv_1| |]; rewrite pow_inv; reflexivity. Qed.

Lemma returns_forall {A X} (r : res A) (H : X -> Prop) (P : X -> A -> Prop) (x0 : X) : H x0 ->
  (forall x, H x -> returns r (P x)) -> returns r (fun a => forall x, H x -> P x a).
Proof. intros h0 h. destruct r as [a|e]; simpl in *; [exact h|exact (h x0 h0)]. Qed.

Lemma eval_fold_add {K A} `{Key K} (mon : K -> R) (f : A -> K) (g : A -> Q) (l : list A) : forall a,
  eval mon (fold_left (fun a x => add_kv (f x) (g x) a) l a)
  = eval mon a + sumR (fun x => Q2R (g x) * mon (f x)) l.
Proof.
  induction l as [|x r IH]; intro a; simpl; [ring|]. rewrite IH, eval_add_kv. ring.
Qed.
Lemma allk_fold_add {K A} `{Key K} (P : K -> Prop) (f : A -> K) (g : A -> Q) (l : list A) : forall a,
  allk P a -> (forall x, In x l -> P (f x)) ->
  allk P (fold_left (fun a x => add_kv (f x) (g x) a) l a).
Proof.
  induction l as [|x r IH]; intros a Ha Hx; simpl; [assumption|].
  apply IH; [|intros; apply Hx; now right]. apply allk_add_kv; [assumption|]. apply Hx. now left.
Qed.
Lemma supp_fold_add {K A} `{Key K} (P : K -> Prop) (f : A -> K) (g : A -> Q) (l : list A) : forall a,
  supp P a -> (forall x, In x l -> ~ (g x == 0)%Q -> P (f x)) ->
  supp P (fold_left (fun a x => add_kv (f x) (g x) a) l a).
Proof.
  induction l as [|x r IH]; intros a Ha Hx; simpl; [assumption|].
  apply IH; [|intros; apply Hx; [now right|assumption]].
  apply supp_add_kv; [assumption|]. intro. apply Hx; [now left|assumption].
Qed.
Lemma uniq_fold_add {K A} `{Key K} (f : A -> K) (g : A -> Q) (l : list A) : forall a,
  uniq a -> uniq (fold_left (fun a x => add_kv (f x) (g x) a) l a).
Proof.
  induction l as [|x r IH]; intros a Ha; simpl; [assumption|]. apply IH. now apply uniq_add_kv.
Qed.
Lemma qmul_nz x y : ~ (qmul x y == 0)%Q -> ~ (x == 0)%Q /\ ~ (y == 0)%Q.
Proof.
  intro h. split; intro E; apply h; apply Q2R_eq0; rewrite Q2R_mul; apply Q2R_eq0 in E; rewrite E; ring.
Qed.
Lemma qopp_nz x : ~ (qopp x == 0)%Q -> ~ (x == 0)%Q.
Proof. intros h E; apply h; apply Q2R_eq0; rewrite Q2R_neg; apply Q2R_eq0 in E; rewrite E; ring. Qed.
