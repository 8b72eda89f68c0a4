(** Properties C01-C06: arithmetic of Poly. *)
From Coq Require Import Lra.
From Verif.Proof Require Import PolyProofs.
Local Open Scope R_scope.

(** A Python dict never holds a key twice: [uniq] is the representation invariant. *)

(** C01: + and - *)
Theorem C01_add : forall (K : Type) (HK : Key K) (p q : Poly K),
  keyfor p = keyfor q -> uniq (items p) ->
  exists r, padd p q = Ok r /\ keyfor r = keyfor p /\ uniq (items r) /\ nonzero (items r) /\
    (forall k, (coeff k (items r) == coeff k (items p) + coeff k (items q))%Q) /\
    (forall mon : K -> R, eval mon (items r) = eval mon (items p) + eval mon (items q)).
Proof. intros. apply returns_inv. now apply padd_spec. Qed.

Theorem C01_sub : forall (K : Type) (HK : Key K) (p q : Poly K),
  keyfor p = keyfor q -> uniq (items p) -> uniq (items q) ->
  exists r, psub p q = Ok r /\ keyfor r = keyfor p /\ uniq (items r) /\ nonzero (items r) /\
    (forall mon : K -> R, eval mon (items r) = eval mon (items p) - eval mon (items q)).
Proof. intros. apply returns_inv. now apply psub_spec. Qed.

(** C02: *, scalar *, ** *)
Theorem C02_mul : forall n (p q : Poly (list Z)),
  keyfor p = keyfor q -> klen n (items p) -> klen n (items q) ->
  exists r, pmul p q = Ok r /\ keyfor r = keyfor p /\ uniq (items r) /\ nonzero (items r) /\
    klen n (items r) /\
    (forall mon, mult_val n mon ->
       eval mon (items r) = eval mon (items p) * eval mon (items q)).
Proof. intros. apply returns_inv. now apply pmul_spec. Qed.

Theorem C02_rmul : forall (K : Type) (HK : Key K) (c : Q) (p : Poly K),
  keyfor (rmul c p) = keyfor p /\ uniq (items (rmul c p)) /\ nonzero (items (rmul c p)) /\
  (forall mon : K -> R, eval mon (items (rmul c p)) = Q2R c * eval mon (items p)).
Proof. intros. apply rmul_spec. Qed.

Theorem C02_pow : forall n (p : Poly (list Z)) (m : Z), (1 <= m)%Z ->
  klen n (items p) -> uniq (items p) ->
  exists r, ppow p m = Ok r /\ keyfor r = keyfor p /\ uniq (items r) /\ klen n (items r) /\
    (forall mon, mult_val n mon -> eval mon (items r) = eval mon (items p) ^ Z.to_nat m).
Proof. intros. apply returns_inv. now apply ppow_spec. Qed.

(** The usual monomials x^a y^b (x, y <> 0) form a multiplicative valuation. *)
Example mult_val_xy : forall x y, x <> 0 -> y <> 0 ->
  mult_val 2 (fun k => pw x (nthZ k 0) * pw y (nthZ k 1)).
Proof.
  intros x y hx hy k1 k2 k3 _ _ _ E. rewrite !E, !pow_lemma_pw by auto. ring.
Qed.

(** C03: merge *)
Theorem C03_merge : forall (K : Type) (HK : Key K) (p q : Poly K),
  keyfor p = keyfor q -> uniq (items p) ->
  exists r ks, merge p q = Ok r /\ keyfor r = keyfor p /\ uniq (items r) /\ nonzero (items r) /\
    (forall mon : K -> R, eval mon (items r) = eval mon (items p) + eval mon (items q)) /\
    (* order: the keys of p first, in the order of p, then keys only in q *)
    keys (items r) =
      filter (fun k => negb (qzero (coeff k (items p) + coeff k (items q))%Q))
             (keys (items p) ++ ks).
Proof.
  intros K HK p q Hk Hu. rewrite merge_eq_add.
  destruct (returns_inv _ _ (padd_spec p q Hk Hu)) as (r & Er & h1 & h2 & h3 & h4 & h5).
  destruct (keys_add_all_prefix (items q) (items p)) as [ks Eks].
  exists r, ks. repeat (split; [assumption|]).
  rewrite <- Eks. unfold padd in Er. apply is_exact_type_iff in Hk. rewrite Hk in Er.
  inversion Er; subst. simpl.
  assert (Hu' := uniq_add_all (items q) (items p) Hu).
  assert (Hc : forall k v, In (k, v) (add_all (items p) (items q)) ->
     qzero (coeff k (items p) + coeff k (items q))%Q = qzero v).
  { intros k v Hin. unfold qzero. apply eq_true_iff_eq. rewrite !Qeq_bool_iff.
    rewrite <- coeff_add_all, coeff_lookup by assumption.
    revert Hin Hu'. unfold uniq. clear. induction (add_all _ _) as [|[a b] l IH]; simpl; [tauto|].
    intros [E|Hin] Hn; inversion Hn; subst.
    - inversion E; subst. now rewrite keqb_refl.
    - destruct (keqb a k) eqn:E.
      + apply keqb_spec in E. subst. apply (in_map fst) in Hin. contradiction.
      + auto. }
  clear - Hc. induction (add_all _ _) as [|[a b] l IH]; [reflexivity|].
  simpl. rewrite (Hc a b) by now left. destruct (qzero b); simpl.
  - apply IH. intros; apply Hc; now right.
  - f_equal. apply IH. intros; apply Hc; now right.
Qed.

(** C04: mismatch refused, match never refused *)
Theorem C04_mismatch : forall (K : Type) (HK : Key K) (ka : K -> K -> res K) (p q : Poly K),
  keyfor p <> keyfor q ->
  padd p q = Err NotImplementedError /\ psub p q = Err NotImplementedError /\
  merge p q = Err NotImplementedError /\ pmul_gen ka p q = Err NotImplementedError.
Proof.
  intros K HK ka p q Hne. unfold padd, psub, merge, pmul_gen.
  destruct (is_exact_type p q) eqn:E; [|auto].
  apply is_exact_type_iff in E. contradiction.
Qed.

Theorem C04_pow_guard : forall (p : Poly (list Z)) (n : Z), (n <= 0)%Z ->
  ppow p n = Err NotImplementedError.
Proof.
  intros p n Hn. unfold ppow, ppow_gen. destruct (Z.leb_spec n 0); [reflexivity|lia].
Qed.

Theorem C04_match_ok : forall (p q : Poly (list Z)),
  keyfor p = keyfor q ->
  (exists r, padd p q = Ok r) /\ (exists r, psub p q = Ok r) /\ (exists r, merge p q = Ok r) /\
  pmul p q <> Err NotImplementedError.
Proof.
  intros p q Hk. unfold padd, psub, merge, pmul, pmul_gen.
  apply is_exact_type_iff in Hk. rewrite Hk. repeat split; eauto.
  unfold mul_items.
  assert (Hka : forall a b, kadd a b <> Err NotImplementedError).
  { induction a as [|x r IH]; intros [|y s]; simpl; try discriminate.
    specialize (IH s). destruct (kadd r s); simpl; congruence. }
  assert (Hin : forall kv1 l2 a, foldM (fun a kv2 =>
      let! key := kadd (fst kv1) (fst kv2) in
      Ok (add_kv key (qmul (snd kv1) (snd kv2)) a)) l2 a <> Err (A:=list (list Z*Q)) NotImplementedError).
  { intros kv1. induction l2 as [|y s IH]; intro a; simpl; [discriminate|].
    specialize (Hka (fst kv1) (fst y)). destruct (kadd _ _); simpl; [apply IH|congruence]. }
  assert (Hout : forall l1 l2 a, foldM (fun a kv1 => foldM (fun a kv2 =>
      let! key := kadd (fst kv1) (fst kv2) in
      Ok (add_kv key (qmul (snd kv1) (snd kv2)) a)) l2 a) l1 a
      <> Err (A:=list (list Z*Q)) NotImplementedError).
  { induction l1 as [|x r IH]; intros l2 a; simpl; [discriminate|].
    specialize (Hin x l2 a). destruct (foldM _ l2 a); [apply IH|congruence]. }
  specialize (Hout (items p) (items q) []). destruct (foldM _ _ _); simpl; congruence.
Qed.

(** C05: remove_zero *)
Theorem C05_remove_zero : forall (K : Type) (HK : Key K) (p : Poly K),
  keyfor (remove_zero p) = keyfor p /\
  items (remove_zero p) = filter (fun kv => negb (Qeq_bool (snd kv) 0)) (items p) /\
  (forall k v, In (k, v) (items (remove_zero p)) <-> In (k, v) (items p) /\ ~ (v == 0)%Q) /\
  (forall mon : K -> R, eval mon (items (remove_zero p)) = eval mon (items p)) /\
  remove_zero (remove_zero p) = remove_zero p.
Proof.
  intros. split; [reflexivity|]. split; [reflexivity|]. split; [intros; apply rm_zero_in|].
  split; [intros; apply eval_rm_zero|]. unfold remove_zero; simpl. now rewrite rm_zero_idem.
Qed.

(** C06: mul_poly.  [mon1], [mon2] value the operands, [mon3] the result; they are
    compatible when mon3 of the combined key is the product. *)
Theorem C06_mul_poly : forall (p q : Poly (list Z)) idx1 idx2 kf,
  length idx1 = length idx2 ->
  exists r, mul_poly p q idx1 idx2 kf = Ok r /\
    keyfor r = kf /\ uniq (items r) /\ nonzero (items r) /\ klen (length idx1) (items r) /\
    forall mon1 mon2 mon3 : list Z -> R,
      (forall k1 v1 k2 v2 k3, In (k1, v1) (items p) -> In (k2, v2) (items q) ->
         length k3 = length idx1 ->
         (forall i, (i < length idx1)%nat ->
            nthZ k3 i = kv_at (nthZ idx1 i) k1 + kv_at (nthZ idx2 i) k2)%Z ->
         mon3 k3 = mon1 k1 * mon2 k2) ->
      eval mon3 (items r) = eval mon1 (items p) * eval mon2 (items q).
Proof. intros. apply returns_inv. now apply mul_poly_spec. Qed.

(** *** Concrete cases *)
Local Open Scope string_scope.
Definition exp_p : Poly (list Z) := mkPoly [([1;0], 1#2); ([0;1], -1#1)]%Z ["x";"y"].
Definition exp_q : Poly (list Z) := mkPoly [([0;1], 1#1); ([1;0], 3#2)]%Z ["x";"y"].

Example C01_ex : keyfor exp_p = keyfor exp_q /\ uniq (items exp_p) /\ uniq (items exp_q) /\
  padd exp_p exp_q = Ok (mkPoly [([1;0]%Z, 2#1)] ["x";"y"]) /\
  psub exp_p exp_q = Ok (mkPoly [([1;0]%Z, -1#1); ([0;1]%Z, -2#1)] ["x";"y"]).
Proof.
  repeat split; try reflexivity;
    repeat (constructor; simpl; [intuition discriminate|]); constructor.
Qed.

Example C02_ex : klen 2 (items exp_p) /\ klen 2 (items exp_q) /\
  pmul exp_p exp_q =
    Ok (mkPoly [([1;1]%Z, -1#1); ([2;0]%Z, 3#4); ([0;2]%Z, -1#1)] ["x";"y"]) /\
  ppow exp_p 2 =
    Ok (mkPoly [([2;0]%Z, 1#4); ([1;1]%Z, -1#1); ([0;2]%Z, 1#1)] ["x";"y"]).
Proof.
  split; [|split; [|split; reflexivity]];
    intros k v [E|[E|[]]]; inversion E; reflexivity.
Qed.

Example C04_ex : keyfor exp_p <> keyfor (mkPoly (items exp_p) ["x";"z"]).
Proof. simpl. discriminate. Qed.

Example C05_ex : remove_zero (mkPoly [([1]%Z, 0#1); ([2]%Z, 1#1)] ["x"])
  = mkPoly [([2]%Z, 1#1)] ["x"].
Proof. reflexivity. Qed.

Example C06_ex :
  mul_poly exp_p (mkPoly [([5]%Z, 2#1)] ["z"]) [0;1;-1]%Z [-1;-1;0]%Z ["x";"y";"z"]
  = Ok (mkPoly [([1;0;5]%Z, 1#1); ([0;1;5]%Z, -2#1)] ["x";"y";"z"]).
Proof. reflexivity. Qed.

Print Assumptions C01_add.
Print Assumptions C01_sub.
Print Assumptions C02_mul.
Print Assumptions C02_rmul.
Print Assumptions C02_pow.
Print Assumptions C03_merge.
Print Assumptions C04_mismatch.
Print Assumptions C04_pow_guard.
Print Assumptions C04_match_ok.
Print Assumptions C05_remove_zero.
Print Assumptions C06_mul_poly.
