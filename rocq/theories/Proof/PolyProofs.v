(** Proofs of the Poly properties (C01-C06). *)
From Coq Require Import Lra.
From Verif.Proof Require Export PolyFacts.
Local Open Scope R_scope.

(** Keys all of length n. *)
Definition klen (n : nat) (l : list (list Z * Q)) : Prop :=
  forall k v, In (k, v) l -> length k = n.

(** A multiplicative valuation on keys of length n. *)
Definition mult_val (n : nat) (mon : list Z -> R) : Prop :=
  forall k1 k2 k3, length k1 = n -> length k2 = n -> length k3 = n ->
    (forall i, nthZ k3 i = nthZ k1 i + nthZ k2 i)%Z -> mon k3 = mon k1 * mon k2.

Section S.
Context {K : Type} `{HK : Key K}.

Lemma padd_spec (p q : Poly K) : keyfor p = keyfor q -> uniq (items p) ->
  returns (padd p q) (fun r =>
    keyfor r = keyfor p /\ uniq (items r) /\ nonzero (items r) /\
    (forall k, (coeff k (items r) == coeff k (items p) + coeff k (items q))%Q) /\
    (forall mon, eval mon (items r) = eval mon (items p) + eval mon (items q))).
Proof.
  intros Hk Hu. unfold padd. apply is_exact_type_iff in Hk. rewrite Hk. simpl.
  split; [reflexivity|]. split; [now apply uniq_rm_zero, uniq_add_all|].
  split; [apply nonzero_rm_zero|]. split; intro.
  - now rewrite coeff_rm_zero, coeff_add_all.
  - now rewrite eval_rm_zero, eval_add_all.
Qed.

Lemma psub_spec (p q : Poly K) : keyfor p = keyfor q -> uniq (items p) -> uniq (items q) ->
  returns (psub p q) (fun r =>
    keyfor r = keyfor p /\ uniq (items r) /\ nonzero (items r) /\
    (forall mon, eval mon (items r) = eval mon (items p) - eval mon (items q))).
Proof.
  intros Hk Hu Hv. unfold psub. apply is_exact_type_iff in Hk. rewrite Hk. simpl.
  destruct (sub_all_spec _ _ Hu Hv) as [h1 h2].
  split; [reflexivity|]. split; [now apply uniq_rm_zero|].
  split; [apply nonzero_rm_zero|]. intro. now rewrite eval_rm_zero.
Qed.

Lemma rmul_spec (c : Q) (p : Poly K) :
  let r := rmul c p in
  keyfor r = keyfor p /\ uniq (items r) /\ nonzero (items r) /\
  (forall mon, eval mon (items r) = Q2R c * eval mon (items p)).
Proof.
  simpl. split; [reflexivity|]. split; [apply uniq_rm_zero, uniq_add_all, uniq_nil|].
  split; [apply nonzero_rm_zero|]. intro mon. rewrite eval_rm_zero, eval_add_all. simpl.
  induction (items p) as [|[k v] r IH]; simpl in *; [lra|].
  rewrite Q2R_mul. lra.
Qed.

Lemma merge_eq_add (p q : Poly K) : merge p q = padd p q.
Proof. reflexivity. Qed.

(** order of the surviving keys of p *)
Lemma keys_add_all_prefix (l : list (K * Q)) : forall l0,
  exists ks, keys (add_all l0 l) = keys l0 ++ ks.
Proof.
  induction l as [|[k v] r IH]; intro l0; unfold add_all; simpl.
  - exists []. now rewrite app_nil_r.
  - fold (add_all (add_kv k v l0) r). destruct (IH (add_kv k v l0)) as [ks E].
    rewrite E, keys_add_kv. destruct (existsb _ _); [eauto|].
    exists (k :: ks). now rewrite <- app_assoc.
Qed.

End S.

Lemma eval_klen_in n (l : list (list Z * Q)) k : klen n l -> In k (keys l) -> length k = n.
Proof.
  intros Hl Hin. apply in_map_iff in Hin. destruct Hin as [[a b] [E Hin]]. simpl in E. subst.
  eapply Hl; eauto.
Qed.

Lemma klen_rm_zero n l : klen n l -> klen n (rm_zero l).
Proof. intros Hl k v Hin. apply rm_zero_in in Hin. eapply Hl; apply Hin. Qed.

Lemma klen_keys n l : klen n l <-> (forall k, In k (keys l) -> length k = n).
Proof.
  split; intros Hl.
  - intros k Hin. eapply eval_klen_in; eauto.
  - intros k v Hin. apply Hl. apply (in_map fst) in Hin. exact Hin.
Qed.

Lemma klen_add_all n l0 l : klen n l0 -> klen n l -> klen n (add_all l0 l).
Proof.
  rewrite !klen_keys. intros h0 h1 k Hin. apply keys_add_all_in in Hin. destruct Hin; auto.
Qed.

Lemma pmul_spec n (p q : Poly (list Z)) :
  keyfor p = keyfor q -> klen n (items p) -> klen n (items q) ->
  returns (pmul p q) (fun r =>
    keyfor r = keyfor p /\ uniq (items r) /\ nonzero (items r) /\ klen n (items r) /\
    (forall mon, mult_val n mon ->
       eval mon (items r) = eval mon (items p) * eval mon (items q))).
Proof.
  intros Hk Hp Hq. unfold pmul, pmul_gen.
  apply is_exact_type_iff in Hk. rewrite Hk.
  rewrite (mul_items_pure kadd kadd_pure).
  2:{ intros. apply kadd_ok. rewrite (Hp _ _ H), (Hq _ _ H0). auto. }
  simpl. split; [reflexivity|]. split; [apply uniq_rm_zero, uniq_add_all, uniq_nil|].
  split; [apply nonzero_rm_zero|]. split.
  - apply klen_rm_zero, klen_add_all; [intros ? ? []|].
    intros k v Hin. apply in_flat_map in Hin. destruct Hin as [[k1 v1] [h1 h2]].
    apply in_map_iff in h2. destruct h2 as [[k2 v2] [E h2]]. simpl in E. inversion E; subst.
    rewrite kadd_pure_length; rewrite (Hp _ _ h1), ?(Hq _ _ h2); auto.
  - intros mon Hm. rewrite eval_rm_zero, eval_add_all.
    rewrite (eval_prod mon mon mon kadd_pure qmul _ _ 1).
    + simpl; lra.
    + intros k1 v1 k2 v2 h1 h2. rewrite Q2R_mul.
      rewrite (Hm k1 k2 (kadd_pure k1 k2)).
      * lra.
      * eapply Hp; eauto.
      * eapply Hq; eauto.
      * rewrite kadd_pure_length; rewrite (Hp _ _ h1), ?(Hq _ _ h2); auto.
      * intro i. apply kadd_pure_nth. rewrite (Hp _ _ h1), (Hq _ _ h2); auto.
Qed.

Lemma pow_loop_spec n (p : Poly (list Z)) : klen n (items p) -> uniq (items p) ->
  forall m acc, keyfor acc = keyfor p -> klen n (items acc) -> uniq (items acc) ->
  returns (pow_loop kadd m acc p) (fun r =>
    keyfor r = keyfor p /\ uniq (items r) /\ klen n (items r) /\
    (forall mon, mult_val n mon ->
       eval mon (items r) = eval mon (items acc) * eval mon (items p) ^ m)).
Proof.
  intros Hp Hu. induction m as [|m IH]; intros acc Hk Ha Hua; simpl.
  - repeat split; auto. intros; lra.
  - eapply returns_bind; [apply (pmul_spec n acc p Hk Ha Hp)|].
    intros a (h1 & h2 & h3 & h4 & h5). simpl.
    eapply returns_weaken; [apply IH; auto; congruence|].
    intros r (g1 & g2 & g3 & g4). repeat split; auto.
    intros mon Hm. rewrite g4, h5 by assumption. ring.
Qed.

Lemma ppow_spec n (p : Poly (list Z)) (m : Z) : (1 <= m)%Z ->
  klen n (items p) -> uniq (items p) ->
  returns (ppow p m) (fun r =>
    keyfor r = keyfor p /\ uniq (items r) /\ klen n (items r) /\
    (forall mon, mult_val n mon -> eval mon (items r) = eval mon (items p) ^ Z.to_nat m)).
Proof.
  intros Hm Hp Hu. unfold ppow, ppow_gen.
  destruct (Z.leb_spec m 0) as [h|_]; [lia|].
  eapply returns_weaken; [apply (pow_loop_spec n p Hp Hu); auto|].
  intros r (g1 & g2 & g3 & g4). repeat split; auto.
  intros mon Hv. rewrite g4 by assumption.
  replace (Z.to_nat m) with (S (Z.to_nat (m - 1))) by lia. reflexivity.
Qed.

(** kcomb *)
Fixpoint kcomb_pure (idx1 idx2 : list Z) (k1 k2 : list Z) : list Z :=
  match idx1, idx2 with
  | i :: r, j :: s => (kv_at i k1 + kv_at j k2)%Z :: kcomb_pure r s k1 k2
  | _, _ => []
  end.

Lemma kcomb_ok idx1 : forall idx2 k1 k2, (length idx1 <= length idx2)%nat ->
  kcomb idx1 idx2 k1 k2 = Ok (kcomb_pure idx1 idx2 k1 k2).
Proof.
  induction idx1 as [|i r IH]; intros [|j s] k1 k2 Hl; simpl in *; try reflexivity; [lia|].
  rewrite IH by lia. reflexivity.
Qed.

Lemma kcomb_pure_nth idx1 : forall idx2 k1 k2 i, length idx1 = length idx2 ->
  (i < length idx1)%nat ->
  nthZ (kcomb_pure idx1 idx2 k1 k2) i =
  (kv_at (nthZ idx1 i) k1 + kv_at (nthZ idx2 i) k2)%Z.
Proof.
  unfold nthZ. induction idx1 as [|a r IH]; intros [|b s] k1 k2 i Hl Hi; simpl in *; try lia.
  destruct i as [|i]; [reflexivity|]. apply IH; lia.
Qed.

Lemma kcomb_pure_length idx1 : forall idx2 k1 k2, length idx1 = length idx2 ->
  length (kcomb_pure idx1 idx2 k1 k2) = length idx1.
Proof.
  induction idx1 as [|a r IH]; intros [|b s] k1 k2 Hl; simpl in *; try lia.
  rewrite IH; lia.
Qed.

Lemma mul_poly_eval_gen (p q : Poly (list Z)) idx1 idx2 kf (mon1 mon2 mon3 : list Z -> R) l :
  length idx1 = length idx2 ->
  mul_items (kcomb idx1 idx2) (items p) (items q) = Ok l ->
  (forall k1 v1 k2 v2, In (k1, v1) (items p) -> In (k2, v2) (items q) ->
     mon3 (kcomb_pure idx1 idx2 k1 k2) = mon1 k1 * mon2 k2) ->
  mul_poly p q idx1 idx2 kf = Ok (mkPoly (rm_zero l) kf) /\
  eval mon3 (rm_zero l) = eval mon1 (items p) * eval mon2 (items q).
Proof.
  intros Hl E Hm. unfold mul_poly. rewrite E. split; [reflexivity|].
  rewrite (mul_items_pure _ (kcomb_pure idx1 idx2)) in E
    by (intros; apply kcomb_ok; lia).
  inversion E; subst. rewrite eval_rm_zero, eval_add_all.
  rewrite (eval_prod mon1 mon2 mon3 (kcomb_pure idx1 idx2) qmul _ _ 1).
  - simpl; lra.
  - intros. rewrite Q2R_mul, (Hm k1 v1 k2 v2) by assumption. lra.
Qed.

Lemma mul_poly_spec (p q : Poly (list Z)) idx1 idx2 kf :
  length idx1 = length idx2 ->
  returns (mul_poly p q idx1 idx2 kf) (fun r =>
    keyfor r = kf /\ uniq (items r) /\ nonzero (items r) /\ klen (length idx1) (items r) /\
    forall mon1 mon2 mon3 : list Z -> R,
      (forall k1 v1 k2 v2 k3, In (k1, v1) (items p) -> In (k2, v2) (items q) ->
         length k3 = length idx1 ->
         (forall i, (i < length idx1)%nat ->
            nthZ k3 i = kv_at (nthZ idx1 i) k1 + kv_at (nthZ idx2 i) k2)%Z ->
         mon3 k3 = mon1 k1 * mon2 k2) ->
      eval mon3 (items r) = eval mon1 (items p) * eval mon2 (items q)).
Proof.
  intro Hl.
  assert (E := mul_items_pure (kcomb idx1 idx2) (kcomb_pure idx1 idx2) (items p) (items q)).
  match type of E with ?A -> _ => assert (Ha : A) by (intros; apply kcomb_ok; lia) end.
  specialize (E Ha). clear Ha.
  unfold mul_poly. rewrite E. simpl.
  split; [reflexivity|]. split; [apply uniq_rm_zero, uniq_add_all, uniq_nil|].
  split; [apply nonzero_rm_zero|]. split.
  - apply klen_rm_zero, klen_add_all; [intros ? ? []|].
    intros k v Hin. apply in_flat_map in Hin. destruct Hin as [[k1 v1] [h1 h2]].
    apply in_map_iff in h2. destruct h2 as [[k2 v2] [E' h2]]. simpl in E'. inversion E'; subst.
    now apply kcomb_pure_length.
  - intros mon1 mon2 mon3 Hm.
    refine (proj2 (mul_poly_eval_gen p q idx1 idx2 kf mon1 mon2 mon3 _ Hl E _)).
    intros k1 v1 k2 v2 h1 h2. eapply Hm; eauto.
    + now apply kcomb_pure_length.
    + intros. now apply kcomb_pure_nth.
Qed.
