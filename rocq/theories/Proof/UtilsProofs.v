(** Proofs about utils.py (C07-C11). *)
From Coq Require Import Lra.
From Verif.Model Require Export FZ.
From Verif.Spec Require Export FZSpec.
From Verif.Proof Require Export SumFacts.
Local Open Scope R_scope.

(** ** dbfactorial, cmnorm *)
Fixpoint dfac (n : nat) : Z :=
  match n with
  | O => 1
  | S O => 1
  | S (S m) => Z.of_nat n * dfac m
  end.

Lemma dfac_SS n : dfac (S (S n)) = (Z.of_nat (S (S n)) * dfac n)%Z.
Proof. reflexivity. Qed.

Lemma dbf_loop_spec u : forall n f, (Z.to_nat n <= u)%nat -> (1 <= n)%Z ->
  dbf_loop u n f = (f * dfac (Z.to_nat (n - 2)))%Z.
Proof.
  induction u as [|u IH]; intros n f Hu Hn; simpl; [lia|].
  destruct (Z.ltb_spec 2 n).
  - rewrite IH by lia. assert (n = 3 \/ 4 <= n)%Z as [->|h] by lia.
    + change (dfac (Z.to_nat (3 - 2 - 2))) with 1%Z.
      change (dfac (Z.to_nat (3 - 2))) with 1%Z. ring.
    + replace (Z.to_nat (n - 2)) with (S (S (Z.to_nat (n - 2 - 2)))) by lia.
      rewrite dfac_SS. replace (Z.of_nat _) with (n - 2)%Z by lia. ring.
  - assert (n = 1 \/ n = 2)%Z as [->| ->] by lia; [change (dfac (Z.to_nat (1 - 2))) with 1%Z|change (dfac (Z.to_nat (2 - 2))) with 1%Z]; ring.
Qed.

Lemma dbfactorial_dfac n : (0 <= n)%Z -> dbfactorial n = dfac (Z.to_nat n).
Proof.
  intro Hn. unfold dbfactorial.
  destruct (Z.eqb_spec n 0) as [->|h0]; [reflexivity|].
  destruct (Z.eqb_spec n 1) as [->|h1]; [reflexivity|]. simpl.
  destruct (Z.eqb_spec n 2) as [->|h2]; [reflexivity|].
  rewrite dbf_loop_spec by lia.
  replace (Z.to_nat n) with (S (S (Z.to_nat (n - 2)))) by lia.
  rewrite dfac_SS. f_equal. lia.
Qed.

Lemma dbfactorial_rec n : (0 <= n)%Z -> dbfactorial (n + 2) = ((n + 2) * dbfactorial n)%Z.
Proof.
  intro Hn. rewrite !dbfactorial_dfac by lia.
  replace (Z.to_nat (n + 2)) with (S (S (Z.to_nat n))) by lia. rewrite dfac_SS. f_equal. lia.
Qed.

Definition cm_val (sigma : R) (n : Z) : R :=
  eval (fun k => pw sigma (nthZ k 0)) (items (cmnorm n)).

Lemma cm_val_0 sigma : cm_val sigma 0 = 1.
Proof. unfold cm_val. cbn. rewrite Q2R_1. lra. Qed.

Lemma cm_val_odd sigma n : (0 <= n)%Z -> (n mod 2 <> 0)%Z -> cm_val sigma n = 0.
Proof.
  intros Hn Ho. unfold cm_val, cmnorm.
  destruct (Z.eqb_spec n 0); [subst; cbn in Ho; lia|].
  destruct (Z.eqb_spec (n mod 2) 0); [contradiction|]. cbn. rewrite Q2R_0. lra.
Qed.

Lemma cm_val_even sigma n : (0 < n)%Z -> (n mod 2 = 0)%Z ->
  cm_val sigma n = IZR (dbfactorial (n - 1)) * pw sigma n.
Proof.
  intros Hn Ho. unfold cm_val, cmnorm.
  destruct (Z.eqb_spec n 0); [lia|].
  destruct (Z.eqb_spec (n mod 2) 0); [|contradiction]. cbn [negb add_kv eval items].
  rewrite Q2R_Frac by lia. unfold nthZ. simpl nth. lra.
Qed.

Lemma mod2_shift n : ((n + 2) mod 2 = n mod 2)%Z.
Proof. replace (n + 2)%Z with (n + 1 * 2)%Z by lia. apply Z_mod_plus_full. Qed.

Lemma cm_val_rec sigma n : (0 <= n)%Z ->
  cm_val sigma (n + 2) = IZR (n + 1) * sigma ^ 2 * cm_val sigma n.
Proof.
  intro Hn. destruct (Z.eq_dec (n mod 2) 0) as [He|Ho].
  - rewrite cm_val_even by (rewrite ?mod2_shift; lia).
    rewrite pow_lemma_pw by (right; lia). change (pw sigma 2) with (sigma * (sigma * 1)).
    destruct (Z.eq_dec n 0) as [->|Hn0].
    + rewrite cm_val_0. cbn. lra.
    + rewrite cm_val_even by lia.
      replace (n + 2 - 1)%Z with (n - 1 + 2)%Z by lia. rewrite dbfactorial_rec by lia.
      replace (n - 1 + 2)%Z with (n + 1)%Z by lia. rewrite mult_IZR. simpl. ring.
  - rewrite !cm_val_odd by (rewrite ?mod2_shift; lia). lra.
Qed.

(** ** simplify_rho *)
Section Rho.
Context {K K' : Type} `{HK' : Key K'} (get : K -> Z) (drop : K -> K') (bump : Z -> K' -> K').
Context (mon : K -> R) (mon' : K' -> R) (rho sq : R).

Lemma simplify_inner k v a (p : Z) : (0 <= p)%Z ->
  (forall i, (0 <= i)%Z -> mon' (bump (2 * i) (drop k)) = rho ^ Z.to_nat (2 * i) * mon' (drop k)) ->
  eval mon' (fold_left (fun a i =>
      add_kv (bump (2 * i) (drop k)) (qmul (qmul v (qz (mcomb p i))) (qz (sgn1 i))) a)
      (range 0 (p + 1)) a)
  = eval mon' a + Q2R v * (1 - rho ^ 2) ^ Z.to_nat p * mon' (drop k).
Proof.
  intros Hp Hb.
  assert (G : forall l a, (forall i, In i l -> 0 <= i)%Z ->
    eval mon' (fold_left (fun a i =>
      add_kv (bump (2 * i) (drop k)) (qmul (qmul v (qz (mcomb p i))) (qz (sgn1 i))) a) l a)
    = eval mon' a + Q2R v * sumR (fun i => IZR (mcomb p i) * ((- rho ^ 2) ^ Z.to_nat i * 1 ^ Z.to_nat (p - i))) l
        * mon' (drop k)).
  { induction l as [|i l IH]; intros b Hl; cbn [fold_left]; [simpl; lra|].
    rewrite IH by (intros; apply Hl; now right). rewrite eval_add_kv, !Q2R_mul, !Q2R_qz.
    assert (Hi : (0 <= i)%Z) by (apply Hl; now left).
    rewrite Hb by assumption. cbn [sumR]. rewrite pow1.
    replace (Z.to_nat (2 * i)) with (2 * Z.to_nat i)%nat by lia. rewrite pow_mult.
    assert (E : (- rho ^ 2) ^ Z.to_nat i = IZR (sgn1 i) * (rho ^ 2) ^ Z.to_nat i).
    { replace (- rho ^ 2) with ((-1) * rho ^ 2) by lra. rewrite Rpow_mult_distr. f_equal.
      unfold sgn1. destruct (Z.even i) eqn:Ev.
      - apply Z.even_spec in Ev. destruct Ev as [j ->].
        replace (Z.to_nat (2 * j)) with (2 * Z.to_nat j)%nat by lia. apply pow_1_even.
      - rewrite <- Z.negb_odd in Ev. apply negb_false_iff, Z.odd_spec in Ev. destruct Ev as [j ->].
        replace (Z.to_nat (2 * j + 1)) with (S (2 * Z.to_nat j))%nat by lia. apply pow_1_odd. }
    rewrite E. ring. }
  rewrite G by (intros i Hi; apply in_range in Hi; lia).
  rewrite <- binomial_range by assumption.
  replace (- rho ^ 2 + 1) with (1 - rho ^ 2) by lra. lra.
Qed.

Lemma simplify_rho_gen_spec kf (l : list (K * Q)) :
  sq ^ 2 = 1 - rho ^ 2 ->
  (forall k v, In (k, v) l ->
     (0 <= get k)%Z /\ (get k mod 2 = 0)%Z /\
     mon k = sq ^ Z.to_nat (get k) * mon' (drop k) /\
     (forall i, (0 <= i)%Z ->
        mon' (bump (2 * i) (drop k)) = rho ^ Z.to_nat (2 * i) * mon' (drop k))) ->
  returns (simplify_rho_gen get drop bump kf l) (fun r =>
    keyfor r = kf /\ uniq (items r) /\ nonzero (items r) /\ eval mon' (items r) = eval mon l).
Proof.
  intros Hsq Hl. unfold simplify_rho_gen.
  assert (G : forall l a, (forall k v, In (k, v) l ->
     (0 <= get k)%Z /\ (get k mod 2 = 0)%Z /\
     mon k = sq ^ Z.to_nat (get k) * mon' (drop k) /\
     (forall i, (0 <= i)%Z ->
        mon' (bump (2 * i) (drop k)) = rho ^ Z.to_nat (2 * i) * mon' (drop k))) -> uniq a ->
     returns (foldM (simplify_rho_step get drop bump) l a)
       (fun r => uniq r /\ eval mon' r = eval mon' a + eval mon l)).
  { clear Hl l. induction l as [|[k v] l IH]; intros a Hl Hu; simpl.
    - split; [assumption|lra].
    - destruct (Hl k v (or_introl eq_refl)) as (h1 & h2 & h3 & h4).
      assert (IH' := fun a => IH a (fun k v H => Hl k v (or_intror H))). clear IH.
      unfold simplify_rho_step. cbn [fst snd].
      destruct (Z.eqb_spec (get k) 0) as [E0|N0].
      + eapply returns_weaken; [apply IH', uniq_add_kv, Hu|]. intros r [g1 g2]. split; [assumption|].
        rewrite g2, eval_add_kv, h3, E0. simpl. lra.
      + destruct (Z.eqb_spec (get k mod 2) 0); [|contradiction].
        eapply returns_weaken; [apply IH'|].
        * clear - Hu. generalize (range 0 (get k / 2 + 1)) as li. intro li. revert a Hu.
          induction li as [|i li IHi]; intros a Hu; simpl; [assumption|]. apply IHi, uniq_add_kv, Hu.
        * intros r [g1 g2]. split; [assumption|].
          assert (Hd : (get k = 2 * (get k / 2))%Z) by (apply Z_div_exact_full_2; lia).
          rewrite g2, simplify_inner by (auto; lia). rewrite h3, <- Hsq, <- pow_mult.
          replace (2 * Z.to_nat (get k / 2))%nat with (Z.to_nat (get k)) by lia. lra. }
  eapply returns_bind; [apply G; [exact Hl|constructor]|].
  intros a [g1 g2]. simpl. split; [reflexivity|]. split; [now apply uniq_rm_zero|].
  split; [apply nonzero_rm_zero|]. rewrite eval_rm_zero, g2. simpl. lra.
Qed.

(** raises exactly when some power is odd *)
Lemma simplify_rho_gen_raises kf (l : list (K * Q)) :
  simplify_rho_gen get drop bump kf l = Err BareException <->
  exists k v, In (k, v) l /\ (get k mod 2 <> 0)%Z.
Proof.
  unfold simplify_rho_gen.
  assert (G : forall l a, (exists k v, In (k, v) l /\ (get k mod 2 <> 0)%Z) /\
       foldM (simplify_rho_step get drop bump) l a = Err BareException \/
       ~ (exists k v, In (k, v) l /\ (get k mod 2 <> 0)%Z) /\
       exists r, foldM (simplify_rho_step get drop bump) l a = Ok r).
  { clear. induction l as [|[k v] l IH]; intro a; simpl.
    - right. split; [intros (k & v & [] & _)|eauto].
    - unfold simplify_rho_step at 1 3. cbn [fst snd].
      destruct (Z.eq_dec (get k mod 2) 0) as [He|Ho].
      + assert (Hs : forall P : Prop, (exists k0 v0, ((k, v) = (k0, v0) \/ In (k0, v0) l) /\ (get k0 mod 2 <> 0)%Z)
                   <-> (exists k0 v0, In (k0, v0) l /\ (get k0 mod 2 <> 0)%Z)).
        { intros _. split.
          - intros (k0 & v0 & [E|h] & h2); [inversion E; subst; contradiction|eauto].
          - intros (k0 & v0 & h & h2); eauto 6. }
        specialize (Hs True).
        destruct (Z.eqb_spec (get k) 0) as [E0|N0].
        * destruct (IH (add_kv (drop k) v a)) as [[h1 h2]|[h1 h2]]; [left|right]; rewrite Hs; auto.
        * destruct (Z.eqb_spec (get k mod 2) 0); [|contradiction].
          match goal with |- context [foldM _ l ?b] => destruct (IH b) as [[h1 h2]|[h1 h2]] end;
            [left|right]; rewrite Hs; auto.
      + left. split; [eauto 6|].
        destruct (Z.eqb_spec (get k) 0) as [E0|N0]; [rewrite E0 in Ho; cbn in Ho; lia|].
        destruct (Z.eqb_spec (get k mod 2) 0); [contradiction|reflexivity]. }
  destruct (G l []) as [[h1 h2]|[h1 [r h2]]]; rewrite h2; simpl; split; intro E; auto;
    [discriminate|contradiction].
Qed.
End Rho.

(** int-tuple instance with monomials x_1^k_1 ... x_n^k_n *)
Lemma monx_dropat n : forall xs k, (n < length xs)%nat -> length k = length xs ->
  monx xs k = pw (nth n xs 0) (nthZ k n) * monx (dropat n xs) (dropat n k).
Proof.
  unfold nthZ, dropat. induction n as [|n IH]; intros [|x xs] [|a k] Hn Hl; simpl in *; try lia.
  - reflexivity.
  - rewrite (IH xs k) by lia. simpl skipn. lra.
Qed.

Lemma monx_addat n d : forall xs k, (n < length xs)%nat -> length k = length xs ->
  nth n xs 0 <> 0 \/ (0 <= nthZ k n /\ 0 <= d)%Z ->
  monx xs (addat n d k) = pw (nth n xs 0) d * monx xs k.
Proof.
  unfold nthZ. induction n as [|n IH]; intros [|x xs] [|a k] Hn Hl Hx; simpl in *; try lia.
  - rewrite pow_lemma_pw by tauto. lra.
  - rewrite IH by (auto; lia). lra.
Qed.

Lemma nth_dropat {A} (d : A) n i (l : list A) : (i < n)%nat -> (n < length l)%nat ->
  nth i (dropat n l) d = nth i l d.
Proof.
  intros Hi Hn. unfold dropat. rewrite app_nth1 by (rewrite firstn_length; lia).
  revert n Hi Hn. revert l. induction i as [|i IH]; intros [|x l] [|n] Hi Hn; simpl in *; try lia; auto.
  apply IH; lia.
Qed.

Lemma length_dropat {A} n (l : list A) : (n < length l)%nat -> length (dropat n l) = (length l - 1)%nat.
Proof. intro Hn. unfold dropat. rewrite app_length, firstn_length, skipn_length. lia. Qed.

Lemma simplify_rho_spec (p : Poly (list Z)) (n : nat) (xs : list R) :
  (1 <= n < length xs)%nat ->
  Rabs (nth (n - 1) xs 0) <= 1 ->
  nth n xs 0 = sqrt (1 - nth (n - 1) xs 0 ^ 2) ->
  (forall k v, In (k, v) (items p) -> length k = length xs /\
     (0 <= nthZ k n)%Z /\ (nthZ k n mod 2 = 0)%Z /\
     (nth (n - 1) xs 0 <> 0 \/ (0 <= nthZ k (n - 1))%Z)) ->
  returns (simplify_rho p n) (fun r =>
    keyfor r = dropat n (keyfor p) /\ uniq (items r) /\ nonzero (items r) /\
    eval (monx (dropat n xs)) (items r) = eval (monx xs) (items p)).
Proof.
  intros Hn Hr Hs Hk. unfold simplify_rho.
  apply simplify_rho_gen_spec with (rho := nth (n - 1) xs 0) (sq := nth n xs 0).
  - rewrite Hs, <- Rsqr_pow2, Rsqr_sqrt; [reflexivity|].
    rewrite <- Rsqr_pow2. rewrite (Rsqr_abs (nth _ _ _)).
    assert (Rsqr (Rabs (nth (n - 1) xs 0)) <= Rsqr 1).
    { apply Rsqr_incr_1; [assumption|apply Rabs_pos|lra]. }
    unfold Rsqr in *; lra.
  - intros k v Hin. destruct (Hk k v Hin) as (h1 & h2 & h3 & h4).
    split; [assumption|]. split; [assumption|]. split.
    + rewrite (monx_dropat n) by lia. now rewrite pw_Zpos.
    + intros i Hi. rewrite monx_addat.
      * rewrite nth_dropat by lia. rewrite pw_Zpos by lia. reflexivity.
      * rewrite length_dropat by lia. lia.
      * rewrite !length_dropat by lia. lia.
      * unfold nthZ in *. rewrite !nth_dropat by lia. destruct h4; [now left|right; lia].
Qed.

(** ** fZ *)
Lemma fold_left_sumR {B} (f : B -> R) l : forall a, fold_left (fun v t => v + f t) l a = a + sumR f l.
Proof. induction l as [|x r IH]; intro a; simpl; [lra|]. rewrite IH. lra. Qed.

Lemma fz_loop_tail k s J : forall r l o p q i l1 o1 p1 q1 f M,
  length o = length l -> length p = length l -> length q = length l ->
  length l = r -> length l1 = i -> length o1 = i -> length p1 = i -> length q1 = i ->
  forall a b,
  sumR (fun t => fz_loop (a :: l1 ++ l) (b :: o1 ++ o) (p1 ++ p) (q1 ++ q) k s J t (S i) f M)
       (tuples (Z.of_nat (length J)) r)
  = f * fZ_tail k s J l o p q M.
Proof.
  induction r as [|r IH]; intros l o p q i l1 o1 p1 q1 f M Ho Hp Hq Hl H1 H2 H3 H4 a b.
  - destruct l; [|discriminate]. simpl. lra.
  - destruct l as [|lx l]; [discriminate|]. destruct o as [|ox o]; [discriminate|].
    destruct p as [|px p]; [discriminate|]. destruct q as [|qx q]; [discriminate|].
    cbn [tuples fZ_tail]. rewrite sumR_flat_map, <- sumR_scal. apply sumR_ext. intros j _.
    rewrite sumR_map. cbn [fz_loop].
    assert (N : forall (u1 u2 : list Z) x, length u1 = i -> nthZ (u1 ++ x :: u2) i = x).
    { intros u1 u2 x Hu. unfold nthZ. rewrite app_nth2 by lia. rewrite Hu, Nat.sub_diag. reflexivity. }
    change (nthZ (a :: l1 ++ lx :: l) (S i)) with (nthZ (l1 ++ lx :: l) i).
    change (nthZ (b :: o1 ++ ox :: o) (S i)) with (nthZ (o1 ++ ox :: o) i).
    rewrite !N by assumption.
    replace (if Rgt_dec M (nthR s j) then M else nthR s j) with (Rmax M (nthR s j)).
    2:{ unfold Rmax. destruct (Rgt_dec M (nthR s j)), (Rle_dec M (nthR s j)); lra. }
    replace (l1 ++ lx :: l) with ((l1 ++ [lx]) ++ l) by now rewrite <- app_assoc.
    replace (o1 ++ ox :: o) with ((o1 ++ [ox]) ++ o) by now rewrite <- app_assoc.
    replace (p1 ++ px :: p) with ((p1 ++ [px]) ++ p) by now rewrite <- app_assoc.
    replace (q1 ++ qx :: q) with ((q1 ++ [qx]) ++ q) by now rewrite <- app_assoc.
    rewrite IH; try (rewrite app_length; simpl; lia); try (simpl in *; lia).
    unfold fz_factor, fz_maxfactor. ring.
Qed.

Lemma fZ_correct (l o p q : list Z) (k : R) (s J : list R) :
  l <> [] -> J <> [] ->
  length o = length l -> S (length p) = length l -> S (length q) = length l ->
  fZ l o p q k s J = Ok (fZ_sum k s J l o p q).
Proof.
  intros Hl HJ Ho Hp Hq. unfold fZ.
  destruct l as [|l0 l]; [contradiction|]. destruct J as [|J0 J]; [contradiction|].
  cbn [length Nat.eqb].
  rewrite index_run by lia. cbn [to_res]. f_equal.
  rewrite fold_left_sumR, Rplus_0_l.
  destruct o as [|o0 o]; [discriminate|].
  replace (Z.to_nat (Z.of_nat (S (length l)))) with (S (length l)) by lia.
  cbn [tuples fZ_sum]. change (Z.of_nat (S (length J))) with (Z.of_nat (length (J0 :: J))).
  rewrite sumR_flat_map. apply sumR_ext. intros j Hj.
  rewrite sumR_map. unfold fZ_each_index. cbn [fz_loop nthZ nth].
  change (nthZ (l0 :: l) 0) with l0. change (nthZ (o0 :: o) 0) with o0.
  change (l0 :: l) with (l0 :: [] ++ l). change (o0 :: o) with (o0 :: [] ++ o).
  change p with ([] ++ p) at 1. change q with ([] ++ q) at 1.
  rewrite (fz_loop_tail k s (J0 :: J) (length l) l o p q 0 [] [] [] []);
    simpl in *; try lia; try reflexivity.
  unfold fz_factor. change (nthZ (j :: nil) 0) with j. unfold nthZ; simpl. ring.
Qed.
