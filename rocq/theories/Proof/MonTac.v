(** Tactics and combinators for loops that build polynomials over int-tuple keys. *)
From Coq Require Import Reals Lra.
From Verif.Model Require Export Nest.
From Verif.Proof Require Export KeyInv PolyProofs ExpectFacts CacheFacts MomentV.
Local Open Scope R_scope.

(** ** shape of keys: exact length, and which components are non-negative *)
Fixpoint wfs (s : list bool) (k : list Z) : Prop :=
  match s, k with
  | [], [] => True
  | b :: s', x :: k' => (if b then (0 <= x)%Z else True) /\ wfs s' k'
  | _, _ => False
  end.

Lemma wfs_cons b s k : wfs (b :: s) k ->
  exists x k', k = x :: k' /\ (if b then (0 <= x)%Z else True) /\ wfs s k'.
Proof. destruct k as [|x k']; [intros []|]. intros [h1 h2]. exists x, k'. auto. Qed.
Lemma wfs_nil k : wfs [] k -> k = [].
Proof. destruct k; [reflexivity|intros []]. Qed.
Lemma wfs_length s : forall k, wfs s k -> length k = length s.
Proof.
  induction s as [|b s IH]; intros [|x k] h; try destruct h; [reflexivity|].
  simpl. f_equal. auto.
Qed.
Lemma pw_sub x n m : x <> 0 -> pw x (n - m) = pw x n * / pw x m.
Proof.
  intro Hx. unfold Z.sub. rewrite pow_lemma_pw by now left. f_equal.
  unfold pw. apply powerRZ_neg'.
Qed.
Lemma pw_mul2 x n : (0 <= n)%Z -> pw x (2 * n) = pw (x * x) n.
Proof.
  intro Hn. rewrite !pw_Zpos by lia. replace (Z.to_nat (2 * n)) with (2 * Z.to_nat n)%nat by lia.
  rewrite pow_mult. f_equal. ring.
Qed.
Lemma pw_mult x y n : (0 <= n)%Z -> pw (x * y) n = pw x n * pw y n.
Proof. intro Hn. rewrite !pw_Zpos by lia. apply Rpow_mult_distr. Qed.
Lemma pw_mult_nz x y n : x <> 0 -> y <> 0 -> pw (x * y) n = pw x n * pw y n.
Proof. intros. unfold pw. apply powerRZ_mult. Qed.
Lemma pw_neq0 x n : x <> 0 -> pw x n <> 0.
Proof. intro. now apply powerRZ_NOR. Qed.
Lemma exp_neq0 x : exp x <> 0.
Proof. apply Rgt_not_eq, exp_pos. Qed.
Lemma inv_neq0 x : x <> 0 -> / x <> 0.
Proof. apply Rinv_neq_0_compat. Qed.
Lemma IZR_pow2 n : (0 <= n)%Z -> IZR (2 ^ n) = 2 ^ Z.to_nat n.
Proof. intro Hn. rewrite <- (Z2Nat.id n) at 1 by lia. now rewrite <- pow_IZR. Qed.
Lemma IZR_pow2_nz n : (0 <= n)%Z -> (2 ^ n <> 0)%Z.
Proof. intro. apply Z.pow_nonzero; lia. Qed.
Lemma Q2R_Frac2 z n : (0 <= n)%Z -> Q2R (Frac z (2 ^ n)) = IZR z * pw (/ 2) n.
Proof.
  intro Hn. rewrite Q2R_Frac by now apply IZR_pow2_nz.
  rewrite IZR_pow2, pw_Zpos by lia. unfold Rdiv. f_equal. symmetry. rewrite pow_inv; auto.
Qed.
Lemma sgn1_pw n : (0 <= n)%Z -> IZR (sgn1 n) = pw (-1) n.
Proof.
  intro Hn. rewrite pw_Zpos by lia. unfold sgn1.
  rewrite <- (Z2Nat.id n Hn) at 1. induction (Z.to_nat n) as [|m IH]; [reflexivity|].
  rewrite Nat2Z.inj_succ, Z.even_succ, <- Z.negb_even. simpl pow. rewrite <- IH.
  destruct (Z.even (Z.of_nat m)); simpl; ring.
Qed.
Lemma sgn1_add a b : sgn1 (a + b) = (sgn1 a * sgn1 b)%Z.
Proof. unfold sgn1. rewrite Z.even_add. now destruct (Z.even a), (Z.even b). Qed.

Ltac wfs_destruct :=
  repeat match goal with
  | H : wfs (_ :: _) ?k |- _ =>
      let x := fresh "x" in let k' := fresh "k'" in let e := fresh in let h := fresh "hx" in
      apply wfs_cons in H; destruct H as (x & k' & e & h & H); subst k; cbv iota in h
  | H : wfs [] ?k |- _ => apply wfs_nil in H; subst k
  end.

Ltac nz := first [ assumption | apply exp_neq0 | apply inv_neq0; assumption
                 | apply inv_neq0, exp_neq0 | apply pw_neq0; nz | lra ].

(** split the exponents of all powers down to atoms *)
Ltac pws :=
  repeat match goal with
  | |- context [pw ?x (?n + ?m)%Z] =>
      rewrite (pow_lemma_pw x n m) by (first [ left; nz | right; split; lia ])
  | |- context [pw ?x (?n - ?m)%Z] => rewrite (pw_sub x n m) by nz
  | |- context [pw ?x (2 * ?m)%Z] => rewrite (pw_mul2 x m) by lia
  | |- context [pw ?x 0%Z] => rewrite (pw_0 x)
  | |- context [pw ?x 1%Z] => rewrite (pw_1 x)
  end.

(** compute the combined key of two explicit keys *)
Ltac keyred := cbv [kcomb_pure kadd_pure kv_at nthZ nth addat Z.leb Z.ltb andb Z.of_nat length
  Pos.of_succ_nat Pos.succ Z.compare Pos.compare Pos.compare_cont Z.to_nat Pos.to_nat Pos.iter_op Init.Nat.add
  CompOpp fst snd].

(** ** accumulating actions *)
Definition adds {S T} (wf : S -> Prop) (val : T -> S -> R) (f : S -> res S) (g : T -> R) : Prop :=
  forall s, wf s -> returns (f s) (fun s' => wf s' /\ forall t, val t s' = val t s + g t).

Lemma adds_ext {S T} (wf : S -> Prop) (val : T -> S -> R) f g g' :
  adds wf val f g -> (forall t, g t = g' t) -> adds wf val f g'.
Proof.
  intros h E s Hs. eapply returns_weaken; [apply h, Hs|]. intros s' [h1 h2]. split; [assumption|].
  intro t. now rewrite <- E.
Qed.
Lemma adds_foldM {S T A} (wf : S -> Prop) (val : T -> S -> R) (f : S -> A -> res S) (g : A -> T -> R) l :
  (forall x, In x l -> adds wf val (fun s => f s x) (g x)) ->
  adds wf val (foldM f l) (fun t => sumR (fun x => g x t) l).
Proof.
  intros h s Hs. apply (foldM_sum f wf val (fun t x => g x t)); [|assumption].
  intros x Hx s' Hs'. now apply (h x Hx).
Qed.
Lemma adds_bind {S T A} (wf : S -> Prop) (val : T -> S -> R) (r : res A) (P : A -> Prop)
  (f : A -> S -> res S) g :
  returns r P -> (forall a, P a -> adds wf val (f a) g) -> adds wf val (fun s => let! x := r in f x s) g.
Proof.
  intros h1 h2 s Hs. eapply returns_bind; [exact h1|]. intros a Pa. now apply (h2 a Pa).
Qed.

Lemma adds_E {S T Om} (E : (Om -> R) -> R) (HE : expectation E) (V : Om -> T) (wf : S -> Prop)
  (val : T -> S -> R) f g : adds wf val f g ->
  adds wf (fun (_ : unit) s => E (fun w => val (V w) s)) f (fun _ => E (fun w => g (V w))).
Proof.
  intros h s Hs. eapply returns_weaken; [apply h, Hs|]. intros s' [h1 h2]. split; [assumption|].
  intros []. rewrite <- (E_plus E HE). apply (E_ext E HE). intro w. apply h2.
Qed.

(** ** nested loops over compositions *)
Fixpoint rcomp (m : nat) (l : Z) : list (list Z) :=
  match m with
  | O => [[l]]
  | S m' => flat_map (fun n => map (cons n) (rcomp m' (l - n))) (range_down l)
  end.

Lemma foldM_flat_map {S A B} (f : S -> B -> res S) (g : A -> list B) (l : list A) : forall s,
  foldM f (flat_map g l) s = foldM (fun s a => foldM f (g a) s) l s.
Proof.
  induction l as [|a r IH]; intro s; [reflexivity|]. cbn [flat_map foldM].
  rewrite foldM_app. destruct (foldM f (g a) s); [apply IH|reflexivity].
Qed.

Lemma nest_rcomp {S} m : forall l acc (body : S -> list Z -> res S) s,
  nest m l acc body s = foldM (fun s ns => body s (acc ++ ns)) (rcomp m l) s.
Proof.
  induction m as [|m IH]; intros l acc body s; cbn [nest rcomp].
  - cbn [foldM]. now destruct (body s (acc ++ [l])).
  - rewrite foldM_flat_map. apply foldM_ext. intros n _ s'. rewrite IH, foldM_map.
    apply foldM_ext. intros ns _ s2. now rewrite <- app_assoc.
Qed.

Lemma NoDup_range_down a : NoDup (range_down a).
Proof. apply NoDup_rev, NoDup_range. Qed.

Lemma in_rcomp m : forall l, (0 <= l)%Z -> forall t,
  In t (rcomp m l) <-> length t = S m /\ Forall (fun x => 0 <= x)%Z t /\ sumZ t = l.
Proof.
  induction m as [|m IH]; intros l Hl t; cbn [rcomp].
  - split.
    + intros [<-|[]]. split; [reflexivity|]. split; [repeat constructor; assumption|]. simpl; lia.
    + intros (h1 & h2 & h3). destruct t as [|x [|y t]]; try discriminate. simpl in h3. left. f_equal. lia.
  - rewrite in_flat_map. split.
    + intros (n & Hn & Ht). apply in_range_down in Hn. apply in_map_iff in Ht. destruct Ht as (t' & <- & Ht).
      apply IH in Ht; [|lia]. destruct Ht as (h1 & h2 & h3). split; [simpl; lia|]. split; [constructor; [lia|assumption]|].
      simpl. lia.
    + intros (h1 & h2 & h3). destruct t as [|x t]; [discriminate|]. apply Forall_cons_iff in h2. destruct h2 as [g1 g2].
      assert (0 <= sumZ t)%Z by (clear -g2; induction g2; simpl; lia). subst l.
      simpl in Hl. exists x. split; [apply in_range_down; simpl; lia|]. apply in_map. apply IH; [simpl; lia|].
      split; [simpl in h1; lia|]. split; [assumption|]. simpl. lia.
Qed.
Lemma NoDup_rcomp m : forall l, NoDup (rcomp m l).
Proof.
  induction m as [|m IH]; intro l; cbn [rcomp]; [repeat constructor; simpl; tauto|].
  apply NoDup_flat_map.
  - apply NoDup_range_down.
  - intros x _. apply NoDup_map_inj; [|apply IH]. intros; congruence.
  - intros x y b _ _ Hx Hy. apply in_map_iff in Hx, Hy. destruct Hx as (u & <- & _), Hy as (w & E & _). congruence.
Qed.

Lemma multinomial_rcomp xs m l : (0 <= l)%Z -> length xs = S m ->
  sumR (fun t => IZR (cmb l t) * powprod xs t) (rcomp m l) = sumR (fun x => x) xs ^ Z.to_nat l.
Proof.
  intros Hl Hx. apply multinomial_any; [assumption|apply NoDup_rcomp|]. rewrite Hx. now apply in_rcomp.
Qed.

Lemma adds_nest {S T} (wf : S -> Prop) (val : T -> S -> R) m l (body : S -> list Z -> res S) g :
  (0 <= l)%Z ->
  (forall ns, length ns = Datatypes.S m -> Forall (fun x => 0 <= x)%Z ns -> sumZ ns = l ->
     adds wf val (fun s => body s ns) (g ns)) ->
  adds wf val (nest m l [] body) (fun t => sumR (fun ns => g ns t) (rcomp m l)).
Proof.
  intros Hl h s Hs. rewrite nest_rcomp. simpl app.
  apply (adds_foldM wf val (fun s ns => body s ns)); [|assumption].
  intros ns Hns. apply in_rcomp in Hns; [|assumption]. destruct Hns as (h1 & h2 & h3). now apply h.
Qed.

Lemma comp4 ns l : length ns = 4%nat -> Forall (fun x => 0 <= x)%Z ns -> sumZ ns = l ->
  exists a b c d, ns = [a; b; c; d] /\ (0 <= a)%Z /\ (0 <= b)%Z /\ (0 <= c)%Z /\ (0 <= d)%Z /\ l = (a + b + c + d)%Z.
Proof.
  intros h1 h2 h3. destruct ns as [|a [|b [|c [|d [|? ?]]]]]; try discriminate.
  repeat match goal with H : Forall _ (_ :: _) |- _ => inversion H; clear H; subst end.
  exists a, b, c, d. simpl in *. repeat split; try assumption; lia.
Qed.
Lemma comp5 ns l : length ns = 5%nat -> Forall (fun x => 0 <= x)%Z ns -> sumZ ns = l ->
  exists a b c d e, ns = [a; b; c; d; e] /\ (0 <= a)%Z /\ (0 <= b)%Z /\ (0 <= c)%Z /\ (0 <= d)%Z /\ (0 <= e)%Z /\
    l = (a + b + c + d + e)%Z.
Proof.
  intros h1 h2 h3. destruct ns as [|a [|b [|c [|d [|e [|? ?]]]]]]; try discriminate.
  repeat match goal with H : Forall _ (_ :: _) |- _ => inversion H; clear H; subst end.
  exists a, b, c, d, e. simpl in *. repeat split; try assumption; lia.
Qed.
Lemma comp_comb ns l : Forall (fun x => 0 <= x)%Z ns -> sumZ ns = l -> comb l ns = Ok (cmb l ns).
Proof. intros. apply comb_ok; [assumption|lia]. Qed.
Lemma math_comb_ok n i : (0 <= n)%Z -> (0 <= i)%Z -> math_comb n i = Ok (mcomb n i).
Proof.
  intros. unfold math_comb. destruct (Z.ltb_spec n 0); [lia|]. destruct (Z.ltb_spec i 0); [lia|]. reflexivity.
Qed.

(** ** polynomials under construction *)
Section Keyed.
Context {K : Type} `{Key K} {T : Type}.
Variables (P : K -> Prop) (mon : T -> K -> R).

Definition wfl (a : list (K * Q)) : Prop := uniq a /\ allk P a.
Definition ev (t : T) (a : list (K * Q)) : R := eval (mon t) a.

Lemma wfl_nil : wfl [].
Proof. split; [apply uniq_nil|apply allk_nil]. Qed.

Lemma adds_kv k v : P k -> adds wfl ev (fun a => Ok (add_kv k v a)) (fun t => Q2R v * mon t k).
Proof.
  intros Pk a [U A]. cbn [returns]. split.
  - split; [now apply uniq_add_kv|now apply allk_add_kv].
  - intro t. apply eval_add_kv.
Qed.

Lemma adds_fold {A} (f : A -> K) (g : A -> Q) (l : list A) : (forall x, In x l -> P (f x)) ->
  adds wfl ev (fun a => Ok (fold_left (fun a x => add_kv (f x) (g x) a) l a))
    (fun t => sumR (fun x => Q2R (g x) * mon t (f x)) l).
Proof.
  intros Pf a [U A0]. cbn [returns]. split.
  - split; [now apply (uniq_fold_add f g)|now apply (allk_fold_add P f g)].
  - intro t. apply (eval_fold_add (mon t) f g).
Qed.

Lemma adds_run (f : list (K * Q) -> res (list (K * Q))) g kf : adds wfl ev f g ->
  returns (let! a := f [] in Ok (mkPoly a kf)) (fun r => keyfor r = kf /\ uniq (items r) /\ allk P (items r) /\
    forall t, eval (mon t) (items r) = g t).
Proof.
  intro h. eapply returns_bind; [apply h, wfl_nil|]. intros a ((U & A) & E).
  cbn [returns items keyfor]. split; [reflexivity|]. split; [assumption|]. split; [assumption|].
  intro t. specialize (E t). unfold ev in E. rewrite E. simpl. ring.
Qed.

(** states that are Polys *)
Definition wfp (kf : list string) (p : Poly K) : Prop := keyfor p = kf /\ uniq (items p) /\ allk P (items p).
Definition evp (t : T) (p : Poly K) : R := eval (mon t) (items p).

Lemma wfp_nil kf : wfp kf (mkPoly [] kf).
Proof. split; [reflexivity|]. split; [apply uniq_nil|apply allk_nil]. Qed.

Lemma adds_merge kf (q : Poly K) : keyfor q = kf -> allk P (items q) ->
  adds (wfp kf) evp (fun p => merge p q) (fun t => eval (mon t) (items q)).
Proof.
  intros Kq Aq p (h1 & h2 & h3). unfold merge.
  replace (is_exact_type p q) with true by (symmetry; apply is_exact_type_iff; congruence).
  cbn [returns]. split.
  - split; [exact h1|]. cbn [items]. split; [now apply uniq_rm_zero, uniq_add_all|now apply allk_rm_zero, allk_add_all].
  - intro t. unfold evp. cbn [items]. now rewrite eval_rm_zero, eval_add_all.
Qed.

Lemma rmul_sp kf c (p : Poly K) : wfp kf p ->
  wfp kf (rmul c p) /\ forall t, evp t (rmul c p) = Q2R c * evp t p.
Proof.
  intros (h1 & h2 & h3). destruct (rmul_spec c p) as (e1 & e2 & e3 & e4). split.
  - split; [now rewrite e1|]. split; [assumption|]. unfold rmul; cbn [items].
    apply allk_rm_zero, allk_add_all; [apply allk_nil|]. intros k Hk. unfold keys in Hk. rewrite map_map in Hk. cbn [fst] in Hk.
    now apply h3.
  - intro t. apply e4.
Qed.
Lemma remove_zero_sp kf (p : Poly K) : wfp kf p ->
  wfp kf (remove_zero p) /\ nonzero (items (remove_zero p)) /\ forall t, evp t (remove_zero p) = evp t p.
Proof.
  intros (h1 & h2 & h3). split; [split; [assumption|]|split].
  - unfold remove_zero; cbn [items]. split; [now apply uniq_rm_zero|now apply allk_rm_zero].
  - apply nonzero_rm_zero.
  - intro t. apply eval_rm_zero.
Qed.
End Keyed.

Lemma padd_sp {K} `{Key K} {T} (P : K -> Prop) (mon : T -> K -> R) kf (p q : Poly K) :
  wfp P kf p -> wfp P kf q ->
  returns (padd p q) (fun r => wfp P kf r /\ forall t, evp mon t r = evp mon t p + evp mon t q).
Proof.
  intros hp (h1 & _ & h3). exact (adds_merge P mon kf q h1 h3 p hp).
Qed.

Lemma in_sub_all_keys {K} `{Key K} (l0 l : list (K * Q)) k :
  In k (keys (sub_all l0 l)) -> In k (keys l0) \/ In k (keys l).
Proof.
  unfold sub_all. set (f := fun a kv => _).
  assert (L : forall l' a, In k (keys (fold_left f l' a)) -> In k (keys a) \/ In k (keys l')).
  { induction l' as [|[k1 v1] r IH]; intros a Hk; [left; exact Hk|]. cbn [fold_left] in Hk.
    apply IH in Hk. destruct Hk as [Hk|Hk]; [|right; simpl; auto].
    assert (G : forall v, In k (keys (set_kv k1 v a)) -> In k (keys a) \/ k = k1).
    { intros v Hs. rewrite keys_set_kv in Hs. destruct (existsb _ _); [now left|].
      apply in_app_or in Hs. destruct Hs as [Hs|[Hs|[]]]; [now left|now right]. }
    unfold f in Hk. cbn [fst snd] in Hk.
    destruct (lookup k1 l0); [destruct (lookup k1 a)|].
    - apply G in Hk. destruct Hk as [Hk| ->]; [now left|right; simpl; auto].
    - now left.
    - apply G in Hk. destruct Hk as [Hk| ->]; [now left|right; simpl; auto]. }
  apply L.
Qed.

Lemma psub_sp {K} `{Key K} {T} (P : K -> Prop) (mon : T -> K -> R) kf (p q : Poly K) :
  wfp P kf p -> wfp P kf q ->
  returns (psub p q) (fun r => wfp P kf r /\ forall t, evp mon t r = evp mon t p - evp mon t q).
Proof.
  intros (h1 & h2 & h3) (g1 & g2 & g3). unfold psub.
  replace (is_exact_type p q) with true by (symmetry; apply is_exact_type_iff; congruence).
  cbn [returns]. destruct (sub_all_spec (items p) (items q) h2 g2) as [e1 e2]. split.
  - split; [assumption|]. cbn [items]. split; [now apply uniq_rm_zero|]. apply allk_rm_zero.
    intros k Hk. apply in_sub_all_keys in Hk. destruct Hk; [now apply h3|now apply g3].
  - intro t. unfold evp; cbn [items]. now rewrite eval_rm_zero, e2.
Qed.

(** products *)
Section Prod.
Context {T : Type}.
Variables (P1 P2 P3 : list Z -> Prop) (mon1 mon2 mon3 : T -> list Z -> R).

Lemma mul_items_sp (ka : list Z -> list Z -> res (list Z)) (f : list Z -> list Z -> list Z) l1 l2 :
  allk P1 l1 -> allk P2 l2 ->
  (forall k1 k2, P1 k1 -> P2 k2 -> ka k1 k2 = Ok (f k1 k2) /\ P3 (f k1 k2) /\
     forall t, mon3 t (f k1 k2) = mon1 t k1 * mon2 t k2) ->
  returns (mul_items ka l1 l2) (fun l => uniq l /\ allk P3 l /\
    forall t, eval (mon3 t) l = eval (mon1 t) l1 * eval (mon2 t) l2).
Proof.
  intros A1 A2 h. rewrite (mul_items_pure ka f).
  2: { intros k1 v1 k2 v2 H1 H2. apply h; [exact (allk_in P1 l1 k1 v1 A1 H1)|exact (allk_in P2 l2 k2 v2 A2 H2)]. }
  cbn [returns]. split; [apply uniq_add_all, uniq_nil|]. split.
  - apply allk_add_all; [apply allk_nil|]. intros k Hk. unfold keys in Hk. apply in_map_iff in Hk.
    destruct Hk as (kv & <- & Hkv). apply in_flat_map in Hkv. destruct Hkv as ([k1 v1] & H1 & Hm).
    apply in_map_iff in Hm. destruct Hm as ([k2 v2] & <- & H2). cbn [fst snd].
    apply h; [exact (allk_in P1 l1 k1 v1 A1 H1)|exact (allk_in P2 l2 k2 v2 A2 H2)].
  - intro t. rewrite eval_add_all. simpl eval at 1. rewrite Rplus_0_l.
    rewrite (eval_prod (mon1 t) (mon2 t) (mon3 t) f qmul l1 l2 1); [ring|].
    intros k1 v1 k2 v2 H1 H2. rewrite Q2R_mul.
    destruct (h k1 k2 (allk_in P1 l1 k1 v1 A1 H1) (allk_in P2 l2 k2 v2 A2 H2)) as (_ & _ & e).
    rewrite e. ring.
Qed.

Lemma mul_poly_sp (p q : Poly (list Z)) idx1 idx2 kf : length idx1 = length idx2 ->
  allk P1 (items p) -> allk P2 (items q) ->
  (forall k1 k2, P1 k1 -> P2 k2 -> P3 (kcomb_pure idx1 idx2 k1 k2) /\
     forall t, mon3 t (kcomb_pure idx1 idx2 k1 k2) = mon1 t k1 * mon2 t k2) ->
  returns (mul_poly p q idx1 idx2 kf) (fun r => wfp P3 kf r /\
    forall t, evp mon3 t r = evp mon1 t p * evp mon2 t q).
Proof.
  intros Hl A1 A2 h. unfold mul_poly. eapply returns_bind.
  - apply (mul_items_sp _ (kcomb_pure idx1 idx2)); [exact A1|exact A2|]. intros k1 k2 H1 H2.
    split; [apply kcomb_ok; lia|]. now apply h.
  - intros l (U & A & E). cbn [returns]. split; [split; [reflexivity|]|].
    + cbn [items]. split; [now apply uniq_rm_zero|now apply allk_rm_zero].
    + intro t. unfold evp; cbn [items]. now rewrite eval_rm_zero.
Qed.

Lemma pmul_sp kf (p q : Poly (list Z)) : keyfor p = kf -> keyfor q = kf ->
  allk P1 (items p) -> allk P2 (items q) ->
  (forall k1 k2, P1 k1 -> P2 k2 -> (length k1 <= length k2)%nat /\ P3 (kadd_pure k1 k2) /\
     forall t, mon3 t (kadd_pure k1 k2) = mon1 t k1 * mon2 t k2) ->
  returns (pmul p q) (fun r => wfp P3 kf r /\
    forall t, evp mon3 t r = evp mon1 t p * evp mon2 t q).
Proof.
  intros Kp Kq A1 A2 h. unfold pmul, pmul_gen.
  replace (is_exact_type p q) with true by (symmetry; apply is_exact_type_iff; congruence).
  eapply returns_bind.
  - apply (mul_items_sp _ kadd_pure); [exact A1|exact A2|]. intros k1 k2 H1 H2.
    destruct (h k1 k2 H1 H2) as (e1 & e2 & e3). split; [now apply kadd_ok|auto].
  - intros l (U & A & E). cbn [returns]. split; [split; [assumption|]|].
    + cbn [items]. split; [now apply uniq_rm_zero|now apply allk_rm_zero].
    + intro t. unfold evp; cbn [items]. now rewrite eval_rm_zero.
Qed.
End Prod.

(** ** expectation of a power of a sum *)
Lemma E_multinomial {Om} (E : (Om -> R) -> R) (HE : expectation E) (xs : Om -> list R) m l :
  (0 <= l)%Z -> (forall w, length (xs w) = S m) ->
  E (fun w => sumR (fun x => x) (xs w) ^ Z.to_nat l)
  = sumR (fun ns => IZR (cmb l ns) * E (fun w => powprod (xs w) ns)) (rcomp m l).
Proof.
  intros Hl Hx.
  rewrite (E_ext E HE _ (fun w => sumR (fun ns => IZR (cmb l ns) * powprod (xs w) ns) (rcomp m l)))
    by (intro w; symmetry; now apply multinomial_rcomp).
  rewrite (E_sumR E HE). apply sumR_ext. intros ns _. apply (E_scal E HE).
Qed.

(** ** powers of products, binomial and multinomial sums with [pw] *)
Lemma pw_one n : pw 1 n = 1.
Proof. unfold pw. apply powerRZ_R1. Qed.
Lemma pw_opp x n : (0 <= n)%Z -> pw (- x) n = pw (-1) n * pw x n.
Proof. intro Hn. rewrite <- pw_mult by assumption. f_equal. ring. Qed.
Ltac pwx :=
  repeat match goal with
  | |- context [pw (?x * ?y) ?n] => first [ rewrite (pw_mult x y n) by lia | rewrite (pw_mult_nz x y n) by nz ]
  | |- context [pw (- ?x) ?n] => rewrite (pw_opp x n) by lia
  | |- context [pw 1 ?n] => rewrite (pw_one n)
  end.

Lemma binomial_pw x y n : (0 <= n)%Z ->
  sumR (fun i => IZR (mcomb n i) * (pw x i * pw y (n - i))) (range 0 (n + 1)) = pw (x + y) n.
Proof.
  intro Hn. rewrite pw_Zpos, binomial_range by assumption. apply sumR_ext. intros i Hi.
  apply in_range in Hi. now rewrite !pw_Zpos by lia.
Qed.
Lemma powprod_monx xs : forall ns, Forall (fun x => 0 <= x)%Z ns -> powprod xs ns = monx xs ns.
Proof.
  induction xs as [|x xs IH]; intros [|n ns] h; try reflexivity.
  apply Forall_cons_iff in h. destruct h as [h1 h2]. simpl. rewrite pw_Zpos by assumption. f_equal. auto.
Qed.
Lemma multinomial_pw xs m l : (0 <= l)%Z -> length xs = S m ->
  sumR (fun ns => IZR (cmb l ns) * monx xs ns) (rcomp m l) = pw (sumR (fun x => x) xs) l.
Proof.
  intros Hl Hx. rewrite pw_Zpos, <- (multinomial_rcomp xs m l Hl Hx) by assumption. apply sumR_ext. intros ns Hns.
  apply in_rcomp in Hns; [|assumption]. f_equal. symmetry. now apply powprod_monx.
Qed.

(** ** substitution of the moments of v *)
Lemma subst_v_sp {T} (P P' : list Z -> Prop) (mon' : T -> list Z -> R) (th x : T -> R)
  (rest : T -> list Z -> R) get mk kf (p : Poly (list Z)) : allk P (items p) ->
  (forall k, P k -> (0 <= get k)%Z /\ forall i j, (0 <= i)%Z -> (0 <= j)%Z -> P' (mk k i j) /\
     forall t, mon' t (mk k i j) = pw (th t) i * pw (x t) j * rest t k) ->
  returns (subst_v get mk kf p) (fun r => wfp P' kf r /\
    forall t, evp mon' t r = eval (fun k => rest t k * gmom (th t) (x t) (Z.to_nat (get k))) (items p)).
Proof.
  intros A h. unfold subst_v. eapply returns_weaken.
  - apply (adds_run P' mon' _ (fun t => sumR (fun kv => Q2R (snd kv) * (rest t (fst kv) *
      gmom (th t) (x t) (Z.to_nat (get (fst kv))))) (items p))).
    apply (adds_foldM (wfl P') (ev mon') _ (fun kv t => Q2R (snd kv) * (rest t (fst kv) *
      gmom (th t) (x t) (Z.to_nat (get (fst kv)))))).
    intros [k v] Hin. cbn [fst snd]. assert (Pk := allk_in P _ k v A Hin).
    destruct (h k Pk) as [Hg Hm].
    eapply adds_bind; [apply moment_v_spec, Hg|]. intros poln (_ & Wv & _ & Ev).
    eapply adds_ext.
    + apply (adds_fold P' mon' (fun kv2 => mk k (nthZ (fst kv2) 0) (nthZ (fst kv2) 1)) (fun kv2 => qmul (snd kv2) v)).
      intros [k2 v2] H2. destruct (allk_in vk _ k2 v2 Wv H2) as (_ & w1 & w2). now apply Hm.
    + intro t. rewrite <- Ev, sumR_eval, <- !sumR_scal. apply sumR_ext. intros [k2 v2] H2. cbn [fst snd].
      destruct (allk_in vk _ k2 v2 Wv H2) as (w0 & w1 & w2). destruct (Hm _ _ w1 w2) as [_ e].
      rewrite e, Q2R_mul, monx_2 by lia. ring.
  - intros r (h1 & h2 & h3 & h4). split; [split; auto|]. intro t. unfold evp. rewrite h4, sumR_eval. reflexivity.
Qed.
