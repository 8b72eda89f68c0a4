(** The stack machines of utils.py enumerate in lexicographic order. *)
From Verif.Model Require Export Utils.
From Verif.Proof Require Export LoopFacts.
Local Open Scope Z_scope.

(** ** ranges *)
Lemma range_nil a b : b <= a -> range a b = [].
Proof. intro Hb. unfold range. replace (Z.to_nat (b - a)) with O by lia. reflexivity. Qed.

Lemma range_cons a b : a < b -> range a b = a :: range (a + 1) b.
Proof.
  intro Hb. unfold range. replace (Z.to_nat (b - a)) with (S (Z.to_nat (b - (a + 1)))) by lia.
  simpl. f_equal; [lia|]. rewrite <- seq_shift, map_map. apply map_ext. intro. lia.
Qed.

Lemma in_range a b x : In x (range a b) <-> a <= x < b.
Proof.
  unfold range. rewrite in_map_iff. split.
  - intros [i [E Hi]]. apply in_seq in Hi. lia.
  - intro Hx. exists (Z.to_nat (x - a)). split; [lia|]. apply in_seq. lia.
Qed.

Lemma NoDup_map_inj {A B} (f : A -> B) (l : list A) :
  (forall x y, In x l -> In y l -> f x = f y -> x = y) -> NoDup l -> NoDup (map f l).
Proof.
  induction l as [|x r IH]; intros Hf Hn; simpl; [constructor|].
  inversion Hn; subst. constructor.
  - intro Hin. apply in_map_iff in Hin. destruct Hin as [y [E Hy]].
    apply Hf in E; [subst; contradiction|now right|now left].
  - apply IH; [|assumption]. intros; apply Hf; auto; now right.
Qed.

Lemma NoDup_app_intro {A} (l1 l2 : list A) :
  NoDup l1 -> NoDup l2 -> (forall x, In x l1 -> ~ In x l2) -> NoDup (l1 ++ l2).
Proof.
  induction l1 as [|x r IH]; intros h1 h2 Hd; simpl; [assumption|].
  inversion h1; subst. constructor.
  - rewrite in_app_iff. intros [h|h]; [contradiction|]. apply (Hd x); [now left|assumption].
  - apply IH; auto. intros y Hy. apply Hd. now right.
Qed.

Lemma NoDup_flat_map {A B} (f : A -> list B) (l : list A) :
  NoDup l -> (forall x, In x l -> NoDup (f x)) ->
  (forall x y b, In x l -> In y l -> In b (f x) -> In b (f y) -> x = y) ->
  NoDup (flat_map f l).
Proof.
  induction l as [|x r IH]; intros Hn Hf Hd; simpl; [constructor|].
  inversion Hn; subst. apply NoDup_app_intro.
  - apply Hf; now left.
  - apply IH; auto.
    + intros; apply Hf; now right.
    + intros a b c Ha Hb; apply Hd; now right.
  - intros b Hb Hb'. apply in_flat_map in Hb'. destruct Hb' as [y [Hy Hby]].
    assert (x = y) by (eapply Hd; eauto; [now left|now right]). subst. contradiction.
Qed.

Lemma NoDup_range a b : NoDup (range a b).
Proof.
  apply NoDup_map_inj; [|apply seq_NoDup]. intros; lia.
Qed.

(** ** All index tuples of range(m)^r, lexicographically. *)
Fixpoint tuples (m : Z) (r : nat) : list (list Z) :=
  match r with
  | O => [[]]
  | S r' => flat_map (fun i => map (cons i) (tuples m r')) (range 0 m)
  end.

Lemma in_tuples m r : forall t,
  In t (tuples m r) <-> length t = r /\ Forall (fun x => 0 <= x < m) t.
Proof.
  induction r as [|r IH]; intro t; simpl.
  - split.
    + intros [<-|[]]. auto.
    + intros [Hl _]. destruct t; [auto|discriminate].
  - rewrite in_flat_map. split.
    + intros [i [Hi Ht]]. apply in_map_iff in Ht. destruct Ht as [u [<- Hu]].
      apply IH in Hu. apply in_range in Hi. simpl. destruct Hu. split; [lia|]. constructor; auto.
    + intros [Hl Hf]. destruct t as [|x u]; [discriminate|]. inversion Hf; subst.
      exists x. split; [now apply in_range|]. apply in_map. apply IH. simpl in Hl. auto.
Qed.

Lemma NoDup_tuples m r : NoDup (tuples m r).
Proof.
  induction r as [|r IH]; simpl.
  - constructor; [intros []|constructor].
  - apply NoDup_flat_map.
    + apply NoDup_range.
    + intros x _. apply NoDup_map_inj; [|exact IH]. intros; congruence.
    + intros x y b _ _ Hx Hy. apply in_map_iff in Hx, Hy.
      destruct Hx as [u [<- _]], Hy as [w [E _]]. congruence.
Qed.

(** ** multilevel_index / fZ machine *)
Section Index.
Context {A : Type} (n m : Z) (leaf : list Z -> A -> A) (Hm : 1 <= m).
Let step := index_step n m leaf.

Fixpoint idx_cost (r : nat) : nat :=
  match r with
  | O => 1
  | S r' => (1 + Z.to_nat m * (idx_cost r' + 1))%nat
  end.

Definition visit (s : list Z) (ts : list (list Z)) (a : A) : A :=
  fold_left (fun a t => leaf (rev s ++ t) a) ts a.

Lemma visit_app s t1 t2 a : visit s (t1 ++ t2) a = visit s t2 (visit s t1 a).
Proof. unfold visit. now rewrite fold_left_app. Qed.

Lemma visit_cons_map i s ts a : visit s (map (cons i) ts) a = visit (i :: s) ts a.
Proof.
  unfold visit. revert a. induction ts as [|t r IH]; intro a; simpl; [reflexivity|].
  rewrite IH. now rewrite <- app_assoc.
Qed.

Lemma leaf_visit s a :
  fold_left (fun a i => leaf (rev (i :: s)) a) (range 0 m) a = visit s (tuples m 1) a.
Proof.
  unfold visit, tuples. revert a. induction (range 0 m) as [|i r IH]; intro a; simpl; [reflexivity|].
  apply IH.
Qed.

Lemma index_visit r : forall s a,
  Z.of_nat (length s) + Z.of_nat r + 1 = n ->
  (forallb (fun x => x =? m - 1) s = false ->
     reaches step (idx_cost r) (mkSt true s a) (mkSt false s (visit s (tuples m (S r)) a))) /\
  (forallb (fun x => x =? m - 1) s = true ->
     finishes step (idx_cost r) (mkSt true s a) (visit s (tuples m (S r)) a)).
Proof.
  induction r as [|r IH]; intros s a Hn.
  - assert (E : step (mkSt true s a) =
      if forallb (fun x => x =? m - 1) s then Done (visit s (tuples m 1) a)
      else Running (mkSt false s (visit s (tuples m 1) a))).
    { unfold step, index_step. cbn [fwd stk acc].
      destruct (Z.ltb_spec (Z.of_nat (length s)) n); [|lia].
      destruct (Z.ltb_spec (Z.of_nat (length s)) (n - 1)); [lia|].
      now rewrite leaf_visit. }
    split; intro Hs; rewrite Hs in E; [now apply reaches_step|now apply finishes_step].
  - assert (E : step (mkSt true s a) = Running (mkSt true (0 :: s) a)).
    { unfold step, index_step. cbn [fwd stk acc].
      destruct (Z.ltb_spec (Z.of_nat (length s)) n); [|lia].
      destruct (Z.ltb_spec (Z.of_nat (length s)) (n - 1)); [reflexivity|lia]. }
    assert (L : forall c i a, i = m - Z.of_nat (S c) -> 0 <= i ->
      let a' := visit s (flat_map (fun i => map (cons i) (tuples m (S r))) (range i m)) a in
      (forallb (fun x => x =? m - 1) s = false ->
        reaches step (S c * (idx_cost r + 1)) (mkSt true (i :: s) a) (mkSt false s a')) /\
      (forallb (fun x => x =? m - 1) s = true ->
        finishes step (S c * (idx_cost r + 1)) (mkSt true (i :: s) a) a')).
    { induction c as [|c IHc]; intros i b Hi Hi0.
      - assert (i = m - 1) by lia. rewrite range_cons, range_nil by lia.
        cbn [flat_map]. rewrite app_nil_r, visit_cons_map.
        destruct (IH (i :: s) b) as [h1 h2]; [simpl length; lia|].
        cbn [forallb] in h1, h2. replace (i =? m - 1) with true in * by (symmetry; now apply Z.eqb_eq).
        simpl andb in *. split; intro Hs.
        + eapply reaches_le; [|eapply reaches_trans; [apply h1, Hs|apply reaches_step]].
          * lia.
          * unfold step, index_step. cbn [fwd stk acc]. simpl length.
            destruct (Z.ltb_spec (Z.of_nat (S (length s))) n); [|lia].
            replace (i =? m - 1) with true by (symmetry; now apply Z.eqb_eq). reflexivity.
        + eapply finishes_le; [|apply h2, Hs]. lia.
      - rewrite range_cons by lia.
        cbn [flat_map]. rewrite visit_app, visit_cons_map.
        destruct (IH (i :: s) b) as [h1 _]; [simpl length; lia|].
        cbn [forallb] in h1. assert (Ei : (i =? m - 1) = false) by (apply Z.eqb_neq; lia).
        rewrite Ei in h1. specialize (h1 eq_refl).
        assert (E2 : step (mkSt false (i :: s) (visit (i :: s) (tuples m (S r)) b)) =
           Running (mkSt true (i + 1 :: s) (visit (i :: s) (tuples m (S r)) b))).
        { unfold step, index_step. cbn [fwd stk acc]. simpl length.
          destruct (Z.ltb_spec (Z.of_nat (S (length s))) n); [|lia]. now rewrite Ei. }
        destruct (IHc (i + 1) (visit (i :: s) (tuples m (S r)) b)) as [g1 g2]; [lia|lia|].
        pose proof (reaches_trans _ _ _ _ _ _ h1 (reaches_step _ _ _ E2)) as R1.
        split; intro Hs.
        + eapply reaches_le; [|eapply reaches_trans; [exact R1|apply g1, Hs]]. lia.
        + eapply finishes_le; [|eapply reaches_finishes; [exact R1|apply g2, Hs]]. lia. }
    destruct (L (Z.to_nat m - 1)%nat 0 a) as [g1 g2]; [lia|lia|].
    replace (S (Z.to_nat m - 1)) with (Z.to_nat m) in * by lia.
    split; intro Hs; cbn [idx_cost].
    + eapply reaches_trans; [apply reaches_step, E|]. apply g1, Hs.
    + eapply reaches_finishes; [apply reaches_step, E|]. apply g2, Hs.
Qed.

Lemma pow2_gt k : (k < 2 ^ k)%nat.
Proof. apply Nat.pow_gt_lin_r. lia. Qed.

Lemma idx_cost_bound r : (idx_cost r <= 2 ^ (r * (Z.to_nat m + 1) + 1) - 1)%nat.
Proof.
  induction r as [|r IH]; [simpl; lia|].
  cbn [idx_cost]. set (M := Z.to_nat m) in *. set (b := (r * (M + 1) + 1)%nat) in *.
  replace (S r * (M + 1) + 1)%nat with (b + (M + 1))%nat by (unfold b; lia).
  rewrite Nat.pow_add_r, Nat.pow_add_r. pose proof (pow2_gt M). simpl (2 ^ 1)%nat.
  pose proof (pow2_gt b).
  assert (idx_cost r + 1 <= 2 ^ b)%nat by lia.
  assert (M * (idx_cost r + 1) <= (2 ^ M - 1) * 2 ^ b)%nat by (apply Nat.mul_le_mono; lia).
  nia.
Qed.

Lemma index_run a : 1 <= n ->
  run (index_fuel n m) step (mkSt true [] a) =
  Done (fold_left (fun a t => leaf t a) (tuples m (Z.to_nat n)) a).
Proof.
  intro Hn. destruct (index_visit (Z.to_nat n - 1) [] a) as [_ h]; [simpl; lia|].
  specialize (h eq_refl).
  replace (S (Z.to_nat n - 1)) with (Z.to_nat n) in h by lia.
  eapply finishes_run; [exact h|]. etransitivity; [apply idx_cost_bound|].
  unfold index_fuel. etransitivity; [apply Nat.le_sub_l|].
  apply Nat.pow_le_mono_r; [lia|]. nia.
Qed.
End Index.

Lemma snoc_fold {B} (l : list B) : forall a, fold_left (fun a t => a ++ [t]) l a = a ++ l.
Proof.
  induction l as [|x r IH]; intro a; simpl; [now rewrite app_nil_r|].
  rewrite IH, <- app_assoc. reflexivity.
Qed.

Lemma multilevel_index_correct n m : 1 <= n -> 1 <= m ->
  multilevel_index n m = Ok (tuples m (Z.to_nat n)).
Proof.
  intros Hn Hm. unfold multilevel_index. rewrite index_run by assumption.
  simpl. now rewrite snoc_fold.
Qed.

(** m = 0, n >= 2: the loop never ends *)
Lemma index_m0_step {A} n (leaf : list Z -> A -> A) st : 2 <= n ->
  Forall (fun x => 0 <= x) (stk st) ->
  (fwd st = true /\ Z.of_nat (length (stk st)) <= n - 1 \/
   fwd st = false /\ Z.of_nat (length (stk st)) = n - 1) ->
  exists st', index_step n 0 leaf st = Running st' /\
    Forall (fun x => 0 <= x) (stk st') /\
    (fwd st' = true /\ Z.of_nat (length (stk st')) <= n - 1 \/
     fwd st' = false /\ Z.of_nat (length (stk st')) = n - 1).
Proof.
  intros Hn Hf Hc. destruct st as [f s a]. cbn [fwd stk acc] in *.
  unfold index_step. cbn [fwd stk acc].
  destruct (Z.ltb_spec (Z.of_nat (length s)) n); [|destruct Hc as [[_ h]|[_ h]]; lia].
  destruct f.
  - destruct Hc as [[_ Hc]|[h _]]; [|discriminate].
    destruct (Z.ltb_spec (Z.of_nat (length s)) (n - 1)).
    + eexists. split; [reflexivity|]. cbn. split; [constructor; [lia|assumption]|]. left. split; [auto|]. lia.
    + destruct s as [|x s]; [simpl in *; lia|].
      inversion Hf; subst.
      replace (forallb (fun x => x =? 0 - 1) (x :: s)) with false.
      * eexists. split; [reflexivity|]. cbn. split; [assumption|]. right. split; [auto|]. cbn in *; lia.
      * symmetry. simpl. destruct (Z.eqb_spec x (-1)); [lia|reflexivity].
  - destruct Hc as [[h _]|[_ Hc]]; [discriminate|].
    destruct s as [|x s]; [simpl in *; lia|]. inversion Hf; subst.
    destruct (Z.eqb_spec x (0 - 1)); [lia|].
    eexists. split; [reflexivity|]. cbn. split; [constructor; [lia|assumption]|]. left. split; [auto|]. simpl in *; lia.
Qed.

Lemma index_m0_diverges {A} n (leaf : list Z -> A -> A) a k : 2 <= n ->
  exists st, iterk (index_step n 0 leaf) k (mkSt true [] a) = Running st.
Proof.
  intro Hn.
  assert (G : forall k st, Forall (fun x => 0 <= x) (stk st) ->
    (fwd st = true /\ Z.of_nat (length (stk st)) <= n - 1 \/
     fwd st = false /\ Z.of_nat (length (stk st)) = n - 1) ->
    exists st', iterk (index_step n 0 leaf) k st = Running st').
  { induction k0 as [|k0 IH]; intros st h1 h2; simpl; [eauto|].
    destruct (index_m0_step n leaf st Hn h1 h2) as (st' & E & g1 & g2).
    rewrite E. apply IH; auto. }
  apply G; cbn; [constructor|]. left. split; [auto|lia].
Qed.

(** ** Weak compositions of m into r parts, lexicographically. *)
Fixpoint wcomp (r : nat) (m : Z) : list (list Z) :=
  match r with
  | O => if m =? 0 then [[]] else []
  | S r' => flat_map (fun i => map (cons i) (wcomp r' (m - i))) (range 0 (m + 1))
  end.

Lemma sumZ_nonneg l : Forall (fun x => 0 <= x) l -> 0 <= sumZ l.
Proof. induction 1; simpl; lia. Qed.

Lemma in_wcomp r : forall m t,
  In t (wcomp r m) <-> length t = r /\ Forall (fun x => 0 <= x) t /\ sumZ t = m.
Proof.
  induction r as [|r IH]; intros m t; simpl.
  - destruct (Z.eqb_spec m 0).
    + split; [intros [<-|[]]; auto|]. intros [Hl _]. destruct t; [now left|discriminate].
    + split; [intros []|]. intros [Hl [_ Hs]]. destruct t; [simpl in Hs; lia|discriminate].
  - rewrite in_flat_map. split.
    + intros [i [Hi Ht]]. apply in_map_iff in Ht. destruct Ht as [u [<- Hu]].
      apply IH in Hu. apply in_range in Hi. destruct Hu as (h1 & h2 & h3).
      split; [simpl; lia|]. split; [constructor; [lia|auto]|]. simpl. lia.
    + intros (Hl & Hf & Hs). destruct t as [|x u]; [discriminate|]. inversion Hf; subst.
      exists x. pose proof (sumZ_nonneg u H2). split; [apply in_range; simpl; lia|].
      apply in_map. apply IH. simpl in Hl. split; [lia|]. split; [auto|]. simpl; lia.
Qed.

Lemma NoDup_wcomp r : forall m, NoDup (wcomp r m).
Proof.
  induction r as [|r IH]; intro m; simpl.
  - destruct (m =? 0); [constructor; [intros []|constructor]|constructor].
  - apply NoDup_flat_map.
    + apply NoDup_range.
    + intros x _. apply NoDup_map_inj; [|apply IH]. intros; congruence.
    + intros x y b _ _ Hx Hy. apply in_map_iff in Hx, Hy.
      destruct Hx as [u [<- _]], Hy as [w [E _]]. congruence.
Qed.

Lemma wcomp_1 m : 0 <= m -> wcomp 1 m = [[m]].
Proof.
  intro Hm. cbn [wcomp].
  assert (G : forall c i, i = m - Z.of_nat c -> 
     flat_map (fun i => map (cons i) (if m - i =? 0 then [[]] else [])) (range i (m + 1)) = [[m]]).
  { induction c as [|c IH]; intros i Hi.
    - assert (i = m) by lia. clear Hi. subst i. rewrite range_cons, range_nil by lia. simpl.
      replace (m - m =? 0) with true by (symmetry; apply Z.eqb_eq; lia). reflexivity.
    - rewrite range_cons by lia. cbn [flat_map]. destruct (Z.eqb_spec (m - i) 0); [lia|].
      simpl. apply IH. lia. }
  apply (G (Z.to_nat m)). lia.
Qed.

Lemma flat_map_ext_in {A B} (f g : A -> list B) l :
  (forall x, In x l -> f x = g x) -> flat_map f l = flat_map g l.
Proof.
  induction l as [|x r IH]; intro Hx; simpl; [reflexivity|].
  rewrite Hx by now left. rewrite IH; [reflexivity|]. intros; apply Hx; now right.
Qed.

Lemma wcomp_2 m : wcomp 2 m = map (fun i => [i; m - i]) (range 0 (m + 1)).
Proof.
  change (wcomp 2 m) with
    (flat_map (fun i => map (cons i) (wcomp 1 (m - i))) (range 0 (m + 1))).
  rewrite (flat_map_ext_in _ (fun i => [[i; m - i]])).
  - induction (range 0 (m + 1)); simpl; congruence.
  - intros i Hi. apply in_range in Hi. rewrite wcomp_1 by lia. reflexivity.
Qed.

(** ** multilevel_comb machine *)
Section Comb.
Context {A : Type} (n m : Z) (leaf : list Z -> A -> A) (Hm : 0 <= m).
Let step := comb_step n m leaf.

Fixpoint cmb_cost (r : nat) : nat :=
  match r with
  | O => 1
  | S r' => (1 + Z.to_nat (m + 1) * (cmb_cost r' + 1))%nat
  end.

Lemma comb_leaf_visit s a : 
  fold_left (fun a i => leaf (rev (m - sumZ s - i :: i :: s)) a)
            (range 0 (m - sumZ s + 1)) a
  = visit leaf s (wcomp 2 (m - sumZ s)) a.
Proof.
  rewrite wcomp_2. unfold visit. revert a.
  induction (range 0 (m - sumZ s + 1)) as [|i r IH]; intro a; cbn [map fold_left]; [reflexivity|].
  rewrite IH. f_equal. f_equal. simpl. now rewrite <- app_assoc.
Qed.

Definition last0 (s : list Z) : bool :=
  match rev s with [] => false | x0 :: _ => x0 =? m end.

Lemma last0_cons i s : s <> [] -> last0 (i :: s) = last0 s.
Proof.
  intro Hs. unfold last0. simpl. destruct (rev s) eqn:E; [|reflexivity].
  apply (f_equal (@rev Z)) in E. rewrite rev_involutive in E. simpl in E. contradiction.
Qed.

(** non-empty stack *)
Lemma comb_visit r : forall s a, s <> [] ->
  Forall (fun x => 0 <= x) s -> sumZ s <= m ->
  Z.of_nat (length s) + Z.of_nat r + 2 = n ->
  (last0 s = false ->
     reaches step (cmb_cost r) (mkSt true s a)
       (mkSt false s (visit leaf s (wcomp (S (S r)) (m - sumZ s)) a))) /\
  (last0 s = true -> sumZ s = m ->
     finishes step (cmb_cost r) (mkSt true s a) (visit leaf s (wcomp (S (S r)) (m - sumZ s)) a)).
Proof.
  induction r as [|r IH]; intros s a Hne Hf Hsum Hn.
  - assert (E : step (mkSt true s a) =
      if last0 s then Done (visit leaf s (wcomp 2 (m - sumZ s)) a)
      else Running (mkSt false s (visit leaf s (wcomp 2 (m - sumZ s)) a))).
    { unfold step, comb_step. cbn [fwd stk acc].
      destruct (Z.ltb_spec (Z.of_nat (length s)) n); [|lia].
      destruct (Z.ltb_spec (Z.of_nat (length s)) (n - 2)); [lia|].
      rewrite comb_leaf_visit. unfold last0.
      destruct (rev s) eqn:Er; [|reflexivity].
      apply (f_equal (@rev Z)) in Er. rewrite rev_involutive in Er. contradiction. }
    split; [intro Hs|intros Hs _]; rewrite Hs in E; [now apply reaches_step|now apply finishes_step].
  - assert (E : step (mkSt true s a) = Running (mkSt true (0 :: s) a)).
    { unfold step, comb_step. cbn [fwd stk acc].
      destruct (Z.ltb_spec (Z.of_nat (length s)) n); [|lia].
      destruct (Z.ltb_spec (Z.of_nat (length s)) (n - 2)); [reflexivity|lia]. }
    set (L := m - sumZ s). change (m - sumZ s) with L.
    split.
    + intro Hl.
      assert (G : forall c i a, i = L - Z.of_nat c -> 0 <= i ->
        reaches step (S c * (cmb_cost r + 1)) (mkSt true (i :: s) a)
          (mkSt false s (visit leaf s
             (flat_map (fun i => map (cons i) (wcomp (S (S r)) (L - i))) (range i (L + 1))) a))).
      { induction c as [|c IHc]; intros i b Hi Hi0.
        - assert (i = L) by lia. rewrite range_cons, range_nil by lia.
          cbn [flat_map]. rewrite app_nil_r, visit_cons_map.
          destruct (IH (i :: s) b) as [h1 _];
            [discriminate|constructor; assumption|simpl; lia|simpl length; lia|].
          rewrite last0_cons in h1 by assumption. specialize (h1 Hl).
          replace (m - sumZ (i :: s)) with (L - i) in h1 by (simpl; lia).
          eapply reaches_le; [|eapply reaches_trans; [exact h1|apply reaches_step]].
          + lia.
          + unfold step, comb_step. cbn [fwd stk acc]. simpl length.
            destruct (Z.ltb_spec (Z.of_nat (S (length s))) n); [|lia].
            replace (m - sumZ (i :: s) =? 0) with true; [reflexivity|].
            symmetry; apply Z.eqb_eq. simpl. lia.
        - rewrite range_cons by lia. cbn [flat_map]. rewrite visit_app, visit_cons_map.
          destruct (IH (i :: s) b) as [h1 _];
            [discriminate|constructor; assumption|simpl; lia|simpl length; lia|].
          rewrite last0_cons in h1 by assumption. specialize (h1 Hl).
          replace (m - sumZ (i :: s)) with (L - i) in h1 by (simpl; lia).
          set (b' := visit leaf (i :: s) (wcomp (S (S r)) (L - i)) b) in *.
          assert (E2 : step (mkSt false (i :: s) b') = Running (mkSt true (i + 1 :: s) b')).
          { unfold step, comb_step. cbn [fwd stk acc]. simpl length.
            destruct (Z.ltb_spec (Z.of_nat (S (length s))) n); [|lia].
            destruct (Z.eqb_spec (m - sumZ (i :: s)) 0) as [h|_]; [simpl in h; lia|reflexivity]. }
          eapply reaches_le; [|eapply reaches_trans;
             [eapply reaches_trans; [exact h1|apply reaches_step, E2]|apply IHc; lia]].
          lia. }
      pose proof (sumZ_nonneg s Hf).
      eapply reaches_le; [|eapply reaches_trans; [apply reaches_step, E|]].
      2:{ apply (G (Z.to_nat L)); lia. }
      cbn [cmb_cost]. assert (S (Z.to_nat L) <= Z.to_nat (m + 1))%nat by lia. nia.
    + intros Hl Hs. assert (L = 0) by lia.
      destruct (IH (0 :: s) a) as [_ h2];
        [discriminate|constructor; [lia|assumption]|simpl; lia|simpl length; lia|].
      rewrite last0_cons in h2 by assumption. specialize (h2 Hl).
      replace (m - sumZ (0 :: s)) with L in h2 by (simpl; lia).
      change (wcomp (S (S (S r))) L) with
          (flat_map (fun i => map (cons i) (wcomp (S (S r)) (L - i))) (range 0 (L + 1))).
      rewrite range_cons, range_nil by lia. cbn [flat_map].
      rewrite app_nil_r, visit_cons_map, Z.sub_0_r.
      eapply finishes_le; [|eapply reaches_finishes; [apply reaches_step, E|apply h2; simpl; lia]].
      cbn [cmb_cost]. assert (1 <= Z.to_nat (m + 1))%nat by lia. nia.
Qed.

Lemma cmb_cost_bound r : (cmb_cost r <= 2 ^ (r * (Z.to_nat (m + 1) + 1) + 1) - 1)%nat.
Proof.
  induction r as [|r IH]; [simpl; lia|].
  cbn [cmb_cost]. set (M := Z.to_nat (m + 1)) in *. set (b := (r * (M + 1) + 1)%nat) in *.
  replace (S r * (M + 1) + 1)%nat with (b + (M + 1))%nat by (unfold b; lia).
  rewrite Nat.pow_add_r, Nat.pow_add_r. pose proof (pow2_gt M). simpl (2 ^ 1)%nat.
  pose proof (pow2_gt b).
  assert (cmb_cost r + 1 <= 2 ^ b)%nat by lia.
  assert (M * (cmb_cost r + 1) <= (2 ^ M - 1) * 2 ^ b)%nat by (apply Nat.mul_le_mono; lia).
  nia.
Qed.

Lemma comb_run a : 3 <= n ->
  run (index_fuel n m) step (mkSt true [] a) =
  Done (fold_left (fun a t => leaf t a) (wcomp (Z.to_nat n) m) a).
Proof.
  intro Hn. set (r := (Z.to_nat n - 3)%nat).
  assert (E : step (mkSt true [] a) = Running (mkSt true [0] a)).
  { unfold step, comb_step. cbn [fwd stk acc]. simpl length.
    destruct (Z.ltb_spec (Z.of_nat 0) n); [|lia].
    destruct (Z.ltb_spec (Z.of_nat 0) (n - 2)); [reflexivity|lia]. }
  assert (G : forall c i a, i = m - Z.of_nat c -> 0 <= i ->
     finishes step (S c * (cmb_cost r + 1)) (mkSt true [i] a)
       (visit leaf [] (flat_map (fun i => map (cons i) (wcomp (S (S r)) (m - i))) (range i (m + 1))) a)).
  { induction c as [|c IHc]; intros i b Hi Hi0.
    - assert (i = m) by lia. clear Hi. subst i. rewrite range_cons, range_nil by lia.
      cbn [flat_map]. rewrite app_nil_r, visit_cons_map.
      destruct (comb_visit r [m] b) as [_ h2];
        [discriminate|constructor; [lia|constructor]|simpl; lia|simpl length; lia|].
      eapply finishes_le; [|]. 2:{
        replace (m - m) with (m - sumZ [m]) by (simpl; lia). apply h2.
        - unfold last0. simpl. apply Z.eqb_refl.
        - simpl; lia. }
      lia.
    - rewrite range_cons by lia. cbn [flat_map]. rewrite visit_app, visit_cons_map.
      destruct (comb_visit r [i] b) as [h1 _];
        [discriminate|constructor; [lia|constructor]|simpl; lia|simpl length; lia|].
      unfold last0 in h1. simpl in h1. 
      assert (Ei : (i =? m) = false) by (apply Z.eqb_neq; lia). specialize (h1 Ei).
      rewrite Z.add_0_r in h1.
      change (flat_map _ (range 0 (m - i + 1))) with (wcomp (S (S r)) (m - i)) in h1.
      set (b' := visit leaf [i] (wcomp (S (S r)) (m - i)) b) in *.
      assert (E2 : step (mkSt false [i] b') = Running (mkSt true [i + 1] b')).
      { unfold step, comb_step. cbn [fwd stk acc]. simpl length.
        destruct (Z.ltb_spec (Z.of_nat 1) n); [|lia].
        destruct (Z.eqb_spec (m - sumZ [i]) 0) as [h|_]; [simpl in h; lia|reflexivity]. }
      eapply finishes_le; [|eapply reaches_finishes;
         [eapply reaches_trans; [exact h1|apply reaches_step, E2]|apply IHc; lia]].
      lia. }
  specialize (G (Z.to_nat m) 0 a).
  replace (Z.to_nat n) with (S (S (S r))) by (unfold r; lia).
  eapply finishes_run; [eapply reaches_finishes; [apply reaches_step, E|apply G; lia]|].
  replace (1 + S (Z.to_nat m) * (cmb_cost r + 1))%nat with (cmb_cost (S r))
    by (cbn [cmb_cost]; f_equal; f_equal; lia).
  etransitivity; [apply cmb_cost_bound|].
  unfold index_fuel. etransitivity; [apply Nat.le_sub_l|].
  apply Nat.pow_le_mono_r; [lia|].
  assert (Hr : S r = (Z.to_nat n - 2)%nat) by (unfold r; lia). rewrite Hr. nia.
Qed.
End Comb.

Lemma multilevel_comb_correct n m : 2 <= n -> 0 <= m ->
  multilevel_comb n m = Ok (inr (wcomp (Z.to_nat n) m)).
Proof.
  intros Hn Hm. unfold multilevel_comb.
  destruct (Z.eqb_spec n 1); [lia|]. destruct (Z.eqb_spec n 2).
  - subst n. change (Z.to_nat 2) with 2%nat. now rewrite wcomp_2.
  - rewrite comb_run by lia. simpl. now rewrite snoc_fold.
Qed.
