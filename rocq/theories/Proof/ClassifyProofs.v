(** C39: classify sorts the terms of a polynomial by the number of nested jump sums. *)
From Coq Require Import Reals Lra Permutation.
From Verif.Spec Require Import Svvj.
From Verif.Model Require Import Svvj.
From Verif.Proof Require Export SvvjThm.
Import Verif.Model.Svvj.

Lemma levels_gen (l : list (svkey * Q)) : forall acc, NoDup acc ->
  let r := fold_left (fun acc kv => if existsb (Nat.eqb (level (fst kv))) acc then acc else acc ++ [level (fst kv)]) l acc in
  NoDup r /\ forall n, In n r <-> In n acc \/ In n (map (fun kv => level (fst kv)) l).
Proof.
  induction l as [|kv l IH]; intros acc Ha; cbn [fold_left map].
  - split; [assumption|]. intro n. cbn. tauto.
  - destruct (existsb (Nat.eqb (level (fst kv))) acc) eqn:E.
    + destruct (IH acc Ha) as [N M]. split; [exact N|]. intro n. rewrite M. cbn [In].
      apply existsb_exists in E. destruct E as (x & Hx & Ex). apply Nat.eqb_eq in Ex. subst x. intuition (subst; auto).
    + assert (Hn : ~ In (level (fst kv)) acc).
      { intro Hin. rewrite (proj2 (existsb_exists _ _)) in E; [discriminate|]. exists (level (fst kv)). split; [assumption|apply Nat.eqb_refl]. }
      destruct (IH (acc ++ [level (fst kv)])) as [N M].
      * apply (Permutation_NoDup (l := level (fst kv) :: acc)); [apply Permutation_cons_append|now constructor].
      * split; [exact N|]. intro n. rewrite M, in_app_iff. cbn [In]. tauto.
Qed.
Lemma levels_nodup q : NoDup (levels q).
Proof. apply (levels_gen (items q) []). constructor. Qed.
Lemma levels_in q n : In n (levels q) <-> exists k v, In (k, v) (items q) /\ level k = n.
Proof.
  unfold levels. destruct (levels_gen (items q) [] (NoDup_nil _)) as [_ M]. rewrite M. cbn [In]. rewrite in_map_iff. split.
  - intros [[]|([k v] & E & Hin)]. eauto.
  - intros (k & v & Hin & E). right. now exists (k, v).
Qed.

Definition gapless (q : Poly svkey) : Prop :=
  forall k v, In (k, v) (items q) -> forall j, (j <= level k)%nat -> exists k' v', In (k', v') (items q) /\ level k' = j.

Lemma gapless_iff q : gapless q <-> forall k v, In (k, v) (items q) -> (level k < length (levels q))%nat.
Proof.
  split.
  - intros G k v Hin. assert (I : incl (seq 0 (S (level k))) (levels q)).
    { intros j Hj. apply in_seq in Hj. apply levels_in. apply (G k v Hin). lia. }
    pose proof (NoDup_incl_length (seq_NoDup _ _) I) as h. rewrite seq_length in h. lia.
  - intros H k v Hin j Hj. apply levels_in.
    assert (I : incl (levels q) (seq 0 (length (levels q)))).
    { intros n Hn. apply levels_in in Hn. destruct Hn as (k' & v' & Hin' & <-). apply in_seq. pose proof (H k' v' Hin'). lia. }
    assert (I' : incl (seq 0 (length (levels q))) (levels q)).
    { apply NoDup_length_incl; [apply levels_nodup|now rewrite seq_length|exact I]. }
    apply I', in_seq. pose proof (H k v Hin). lia.
Qed.

Lemma least_0 l : In O l -> least l = O.
Proof.
  assert (G : forall r x, (x = O \/ In O r) -> fold_left Nat.min r x = O).
  { induction r as [|y r IH]; intros x H; cbn [fold_left].
    - destruct H as [->|[]]. reflexivity.
    - apply IH. destruct H as [->|[->|H]]; [left; lia|left; lia|now right]. }
  destruct l as [|x r]; [intros []|]. intros [->|H]; cbn [least]; apply G; auto.
Qed.

Lemma upd_length {A} (f : A -> A) i l : length (upd i f l) = length l.
Proof. revert i; induction l as [|x l IH]; intros [|i]; cbn; auto. Qed.
Lemma upd_map {A} (f : A -> A) (g : nat -> A) i n m : (i < n)%nat ->
  upd i f (map g (seq m n)) = map (fun j => if (j =? m + i)%nat then f (g j) else g j) (seq m n).
Proof.
  revert i m. induction n as [|n IH]; intros i m Hi; [lia|]. cbn [seq map]. destruct i as [|i]; cbn [upd].
  - rewrite Nat.add_0_r, Nat.eqb_refl. f_equal. apply map_ext_in. intros j Hj. apply in_seq in Hj.
    destruct (Nat.eqb_spec j m); [lia|reflexivity].
  - destruct (Nat.eqb_spec m (m + S i)); [lia|]. f_equal. rewrite IH by lia. apply map_ext. intro j. now rewrite <- plus_n_Sm.
Qed.

Definition subconv (k : svkey) : subkey := if (level k =? 0)%nat then inl (fst (fst k) ++ snd k) else inr k.
Definition part (i : nat) (l : list (svkey * Q)) : list (subkey * Q) :=
  map (fun kv => (subconv (fst kv), snd kv)) (filter (fun kv => (level (fst kv) =? i)%nat) l).

Lemma app_inj1 {A} (a1 a2 b1 b2 : list A) : length a1 = length a2 -> a1 ++ b1 = a2 ++ b2 -> a1 = a2 /\ b1 = b2.
Proof.
  revert a2. induction a1 as [|x a1 IH]; intros [|y a2] L E; try discriminate; [now split|].
  injection L as L. injection E as -> E. destruct (IH a2 L E) as [-> ->]. now split.
Qed.
Lemma subconv_inj k1 k2 : length (fst (fst k1)) = 6%nat -> length (fst (fst k2)) = 6%nat ->
  jshape (snd (fst k1)) -> jshape (snd (fst k2)) -> subconv k1 = subconv k2 -> k1 = k2.
Proof.
  destruct k1 as [[a1 [[[l1 o1] p1] q1]] b1], k2 as [[a2 [[[l2 o2] p2] q2]] b2]. unfold subconv, level, jshape. cbn [fst snd].
  intros H1 H2 J1 J2. destruct l1 as [|x1 l1], l2 as [|x2 l2]; cbn [length Nat.eqb]; intro E; try discriminate E.
  - injection E as E. cbn [length pred] in *. destruct J1 as (J1 & J1' & J1''), J2 as (J2 & J2' & J2'').
    apply app_inj1 in E; [|congruence]. destruct E as [-> ->].
    destruct o1, p1, q1, o2, p2, q2; try discriminate. reflexivity.
  - congruence.
Qed.

Definition kfor (poly : Poly svkey) (i : nat) : list string :=
  if (i =? 0)%nat then firstn 6 (keyfor poly) ++ skipn 10 (keyfor poly) else keyfor poly.
Definition subs_of (poly : Poly svkey) (l : list (svkey * Q)) : list (Poly subkey) :=
  map (fun i => mkPoly (part i l) (kfor poly i)) (seq 0 (length (levels poly))).

Definition shaped (poly : Poly svkey) : Prop :=
  uniq (items poly) /\ forall k v, In (k, v) (items poly) -> length (fst (fst k)) = 6%nat /\ jshape (snd (fst k)).

Definition cstep (subs : list (Poly subkey)) (kv : svkey * Q) : res (list (Poly subkey)) :=
  let k := fst kv in
  if (level k <? length subs)%nat then
    let key := if (level k =? 0)%nat then inl (fst (fst k) ++ snd k) else inr k in
    Ok (upd (level k) (fun s => mkPoly (set_kv key (snd kv) (items s)) (keyfor s)) subs)
  else Err IndexError.

Lemma part_snoc i l kv : part i (l ++ [kv]) = if (level (fst kv) =? i)%nat then part i l ++ [(subconv (fst kv), snd kv)] else part i l.
Proof. unfold part. rewrite filter_app, map_app. cbn [filter]. destruct (level (fst kv) =? i)%nat; [reflexivity|apply app_nil_r]. Qed.

Lemma cstep_fold poly : shaped poly -> (forall k v, In (k, v) (items poly) -> (level k < length (levels poly))%nat) ->
  forall l pre, pre ++ l = items poly -> foldM cstep l (subs_of poly pre) = Ok (subs_of poly (items poly)).
Proof.
  intros [U S] B. induction l as [|[k v] l IH]; intros pre E.
  - rewrite app_nil_r in E. subst pre. reflexivity.
  - cbn [foldM]. unfold cstep at 1. cbn [fst snd].
    assert (Hin : In (k, v) (items poly)) by (rewrite <- E; apply in_or_app; right; now left).
    unfold subs_of at 1. rewrite map_length, seq_length. rewrite (proj2 (Nat.ltb_lt _ _) (B k v Hin)). cbn [bind].
    fold (subconv k). unfold subs_of at 1. rewrite upd_map by (now apply (B k v)). cbn [Nat.add].
    rewrite <- (IH (pre ++ [(k, v)])) by (now rewrite <- app_assoc). f_equal. unfold subs_of. apply map_ext. intro j.
    rewrite part_snoc. cbn [fst snd items keyfor]. rewrite (Nat.eqb_sym (level k) j). destruct (Nat.eqb_spec j (level k)) as [->|n]; [|reflexivity].
    change (if (level k =? 0)%nat then _ else _) with (subconv k). rewrite set_kv_fresh; [reflexivity|]. unfold keys, part. rewrite map_map. rewrite in_map_iff. intros ([k' v'] & e & Hf). cbn [fst] in e.
    apply filter_In in Hf. destruct Hf as [Hf _].
    assert (Hin' : In (k', v') (items poly)) by (rewrite <- E; apply in_or_app; now left).
    destruct (S k v Hin) as [L1 J1], (S k' v' Hin') as [L2 J2]. apply subconv_inj in e; try assumption. subst k'.
    unfold uniq, keys in U. rewrite <- E, map_app in U. cbn [map fst] in U. apply NoDup_remove_2 in U. apply U, in_or_app. left.
    apply in_map_iff. now exists (k, v').
Qed.
Lemma cstep_err l : forall subs, (exists k v, In (k, v) l /\ (length subs <= level k)%nat) -> foldM cstep l subs = Err IndexError.
Proof.
  induction l as [|[k v] l IH]; intros subs (k' & v' & Hin & Hl); [destruct Hin|]. cbn [foldM]. unfold cstep at 1. cbn [fst snd].
  destruct (Nat.ltb_spec (level k) (length subs)) as [Hk|Hk]; [|reflexivity]. cbn [bind]. apply IH. rewrite upd_length.
  exists k', v'. split; [|assumption]. destruct Hin as [e|Hin]; [injection e as -> ->; lia|assumption].
Qed.

Lemma classify_cstep poly : classify poly = match levels poly with [] => Err IndexError | _ :: r =>
    foldM cstep (items poly) (mkPoly [] (if (least (levels poly) =? 0)%nat then firstn 6 (keyfor poly) ++ skipn 10 (keyfor poly) else keyfor poly)
      :: map (fun _ => mkPoly [] (keyfor poly)) r) end.
Proof. unfold classify. destruct (levels poly); reflexivity. Qed.

Lemma levels_nil poly : levels poly = [] <-> items poly = [].
Proof.
  split; intro H.
  - destruct (items poly) as [|[k v] l] eqn:E; [reflexivity|]. exfalso.
    assert (In (level k) (levels poly)) by (apply levels_in; exists k, v; split; [rewrite E; now left|reflexivity]). rewrite H in *. auto.
  - unfold levels. now rewrite H.
Qed.

Lemma classify_ok poly : shaped poly -> items poly <> [] -> gapless poly ->
  classify poly = Ok (subs_of poly (items poly)).
Proof.
  intros S N G. pose proof (proj1 (gapless_iff poly) G) as B. rewrite classify_cstep.
  destruct (levels poly) as [|n r] eqn:E; [apply levels_nil in E; contradiction|].
  assert (Z0 : least (n :: r) = O).
  { apply least_0. rewrite <- E. apply levels_in. destruct (items poly) as [|[k v] l] eqn:Ei; [contradiction|].
    rewrite <- Ei. apply (G k v); [rewrite Ei; now left|lia]. }
  rewrite Z0. cbn [Nat.eqb]. rewrite <- E in B. rewrite <- (cstep_fold poly S B (items poly) [] eq_refl). f_equal.
  unfold subs_of. rewrite E. cbn [length seq map]. f_equal. rewrite <- seq_shift, map_map. unfold part, kfor. cbn [filter map Nat.eqb].
  clear. generalize 0%nat. induction r as [|x r IH]; intro m; [reflexivity|]. cbn [map length seq]. f_equal. apply IH.
Qed.
Lemma classify_err poly : items poly = [] \/ ~ gapless poly -> classify poly = Err IndexError.
Proof.
  rewrite classify_cstep. intros [H|H].
  - apply levels_nil in H. now rewrite H.
  - destruct (levels poly) as [|n r] eqn:E; [reflexivity|]. apply cstep_err. cbn [length]. rewrite map_length.
    replace (S (length r)) with (length (levels poly)) by now rewrite E.
    destruct (existsb (fun kv => (length (levels poly) <=? level (fst kv))%nat) (items poly)) eqn:Ex.
    + apply existsb_exists in Ex. destruct Ex as ([k v] & Hin & Hl). apply Nat.leb_le in Hl. now exists k, v.
    + exfalso. apply H, gapless_iff. intros k v Hin. destruct (Nat.ltb_spec (level k) (length (levels poly))) as [h|h]; [exact h|].
      exfalso. enough (existsb (fun kv => (length (levels poly) <=? level (fst kv))%nat) (items poly) = true) by congruence.
      apply existsb_exists. exists (k, v). split; [exact Hin|]. now apply Nat.leb_le.
Qed.

Lemma part_perm (mon : subkey * Q -> R) n l : (forall kv, In kv l -> (level (fst kv) < n)%nat) ->
  sumR (fun i => sumR mon (part i l)) (seq 0 n) = sumR (fun kv => mon (subconv (fst kv), snd kv)) l.
Proof.
  induction l as [|kv l IH]; intro H.
  - cbn. transitivity (sumR (fun _ : nat => 0%R) (seq 0 n)); [reflexivity|]. induction (seq 0 n); cbn; [reflexivity|lra].
  - cbn [sumR]. rewrite <- IH by (intros; apply H; now right). pose proof (H kv ltac:(now left)) as Hk. clear H IH.
    assert (G : forall m k, (m <= level (fst kv) < m + k)%nat ->
      sumR (fun i => sumR mon (part i (kv :: l))) (seq m k) = (mon (subconv (fst kv), snd kv) + sumR (fun i => sumR mon (part i l)) (seq m k))%R).
    { intros m k; revert m. induction k as [|k IHk]; intros m Hm; [lia|]. cbn [seq sumR].
      unfold part at 1. cbn [filter]. destruct (Nat.eqb_spec (level (fst kv)) m) as [e|e].
      - cbn [map sumR]. fold (part m l). rewrite Rplus_assoc. do 2 f_equal. apply sumR_ext. intros i Hi. apply in_seq in Hi.
        unfold part. cbn [filter]. destruct (Nat.eqb_spec (level (fst kv)) i); [lia|reflexivity].
      - fold (part m l). rewrite IHk by lia. ring. }
    apply G. lia.
Qed.
