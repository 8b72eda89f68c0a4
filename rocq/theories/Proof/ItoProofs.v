(** Proofs about int_e_poly, recursive_IEII and moment_IEII of ito_mom.py. *)
From Coq Require Import Reals Lra.
From Coquelicot Require Import Coquelicot.
From Verif.Spec Require Export Ito.
From Verif.Proof Require Export IntEt VolterraFacts CacheFacts.
Local Open Scope R_scope.

Definition wf7 (k : list Z) : Prop :=
  (7 <= length k)%nat /\ (0 <= nthZ k 2)%Z /\ (0 <= nthZ k 3)%Z /\ (0 <= nthZ k 4)%Z /\
  (0 <= nthZ k 5)%Z /\ (0 <= nthZ k 6)%Z.

Definition imon (p : par) (t : R) : list Z -> R := monx (ivals p t).

(** the part of a monomial that does not depend on t *)
Definition iB (p : par) (k : list Z) : R :=
  exp (IZR (nthZ k 0) * (pk p * ps0 p)) * pw (pv p) (nthZ k 3) * pw (/ pk p) (nthZ k 4)
  * pw (pth p) (nthZ k 5) * pw (psg p) (nthZ k 6).

Lemma imon_split p t k : wf7 k ->
  imon p t k = iB p k * (exp (IZR (nthZ k 1) * (pk p * t)) * pw t (nthZ k 2)).
Proof.
  intros [Hl _]. unfold imon, ivals. rewrite monx_7 by assumption. rewrite !pw_exp. unfold iB. ring.
Qed.

(** the factor selected by [tp] *)
Definition ifac (tp : Z) (p : par) : R :=
  if (tp =? 1)%Z then exp (pk p * ps0 p) * pv p
  else if (tp =? 2)%Z then - (exp (pk p * ps0 p) * pth p)
  else if (tp =? 3)%Z then pth p
  else psg p.

Lemma wf7_iep tp m k1 k2 : wf7 k1 -> etk k2 -> wf7 (iep_key tp m k1 k2).
Proof.
  intros (h0 & h2 & h3 & h4 & h5 & h6) (g0 & g1 & g2).
  unfold wf7, iep_key. destruct (tp =? 1)%Z, (tp =? 2)%Z, (tp =? 3)%Z; unfold nthZ in *; simpl; repeat split; lia.
Qed.

Lemma exp_IZR_plus a b x : exp (IZR (a + b) * x) = exp (IZR a * x) * exp (IZR b * x).
Proof. rewrite <- exp_plus. f_equal. rewrite plus_IZR. ring. Qed.

Lemma iep_term p t c tp m k1 v1 k2 v2 : pk p <> 0 -> wf7 k1 -> etk k2 ->
  Q2R (iep_val tp c v1 v2) * imon p t (iep_key tp m k1 k2)
  = Q2R c * Q2R v1 * ifac tp p * exp (IZR m * (pk p * ps0 p)) * iB p k1 * (Q2R v2 * etmon (pk p) t k2).
Proof.
  intros Hk W1 W2. rewrite imon_split by now apply wf7_iep.
  destruct W1 as (h0 & h2 & h3 & h4 & h5 & h6). destruct W2 as (g0 & g1 & g2).
  unfold etmon. rewrite monx_3 by lia. rewrite pw_exp.
  assert (Hi : / pk p <> 0) by now apply Rinv_neq_0_compat.
  unfold iB, iep_val, iep_key, ifac.
  destruct (Z.eqb_spec tp 1) as [->|N1]; [|destruct (Z.eqb_spec tp 2) as [->|N2];
    [|destruct (Z.eqb_spec tp 3) as [->|N3]]]; cbn [Z.eqb Pos.eqb addat];
    unfold nthZ; cbn [nth]; fold (nthZ k1 0) (nthZ k1 3) (nthZ k1 4) (nthZ k1 5) (nthZ k1 6)
      (nthZ k2 0) (nthZ k2 1) (nthZ k2 2);
    rewrite ?Q2R_neg, !Q2R_mul, !exp_IZR_plus, ?pw_succ by (right; lia);
    rewrite (pow_lemma_pw (/ pk p)) by (left; assumption); rewrite ?Rmult_1_l; ring.
Qed.

Definition etv (n m : Z) (k t : R) : R :=
  match int_et n m with Ok r => eval (etmon k t) (items r) | Err _ => 0 end.

Lemma etv_spec n m k : (0 <= m)%Z -> k <> 0 -> etv n m k 0 = 0 /\
  forall t, is_derive (etv n m k) t (exp (IZR n * (k * t)) * pw t m).
Proof.
  intros Hm Hk. pose proof (int_et_spec n m Hm) as h. unfold etv.
  destruct (int_et n m) as [r|]; [|destruct h]. destruct h as (_ & _ & h). now apply h.
Qed.

Lemma int_e_poly_spec c tp m q (P P' B B' : list Z -> Prop) :
  allk wf7 (items q) -> supp P (items q) -> allk B (items q) ->
  (forall k1 k2, P k1 -> P' (iep_key tp m k1 k2)) ->
  (forall k1 k2, B k1 -> B' (iep_key tp m k1 k2)) ->
  returns (int_e_poly c tp m q) (fun r => keyfor r = keyfor q /\ uniq (items r) /\ allk wf7 (items r) /\
    supp P' (items r) /\ allk B' (items r) /\
    forall p, pk p <> 0 ->
      eval (imon p 0) (items r) = 0 /\
      forall t : R, is_derive (fun t => eval (imon p t) (items r)) t
        (Q2R c * ifac tp p * exp (IZR m * (pk p * (ps0 p + t))) * eval (imon p t) (items q))).
Proof.
  intros W S Bq PP BB. unfold int_e_poly.
  set (f := fun a kv1 => _).
  assert (L : forall p, pk p <> 0 -> returns (foldM f (items q) [])
    (fun a => (uniq a /\ allk wf7 a /\ supp P' a /\ allk B' a) /\ forall t, eval (imon p t) a = eval (imon p t) [] +
      sumR (fun kv1 => Q2R c * Q2R (snd kv1) * ifac tp p * exp (IZR m * (pk p * ps0 p)) * iB p (fst kv1)
              * etv (m + nthZ (fst kv1) 1) (nthZ (fst kv1) 2) (pk p) t) (items q))).
  { intros p Hp.
    apply (foldM_sum f (fun a => uniq a /\ allk wf7 a /\ supp P' a /\ allk B' a) (fun t a => eval (imon p t) a)
      (fun t kv1 => Q2R c * Q2R (snd kv1) * ifac tp p * exp (IZR m * (pk p * ps0 p)) * iB p (fst kv1)
              * etv (m + nthZ (fst kv1) 1) (nthZ (fst kv1) 2) (pk p) t)).
    - intros [k1 v1] Hin a (U & Wa & Sa & Ba). unfold f. cbn [fst snd].
      assert (W1 : wf7 k1) by now apply (allk_in wf7 _ k1 v1 W).
      assert (Hk2 : (0 <= nthZ k1 2)%Z) by (destruct W1; tauto).
      unfold etv. pose proof (int_et_spec (m + nthZ k1 1) (nthZ k1 2) Hk2) as he.
      destruct (int_et (m + nthZ k1 1) (nthZ k1 2)) as [sub|]; [|destruct he].
      destruct he as (_ & Ws & _). cbn [bind returns]. split; [split; [|split; [|split]]|].
      + apply (uniq_fold_add (fun kv2 => iep_key tp m k1 (fst kv2)) (fun kv2 => iep_val tp c v1 (snd kv2))). assumption.
      + apply (allk_fold_add wf7 (fun kv2 => iep_key tp m k1 (fst kv2)) (fun kv2 => iep_val tp c v1 (snd kv2))); [assumption|].
        intros [k2 v2] H2. apply wf7_iep; [assumption|]. apply (allk_in etk _ k2 v2 Ws H2).
      + apply (supp_fold_add P' (fun kv2 => iep_key tp m k1 (fst kv2)) (fun kv2 => iep_val tp c v1 (snd kv2))); [assumption|].
        intros [k2 v2] H2 Hnz. apply PP. apply (S k1 v1 Hin). cbn [snd] in Hnz.
        unfold iep_val in Hnz. destruct (tp =? 2)%Z.
        * apply qopp_nz, qmul_nz in Hnz. destruct Hnz as [Hnz _]. now apply qmul_nz in Hnz.
        * apply qmul_nz in Hnz. destruct Hnz as [Hnz _]. now apply qmul_nz in Hnz.
      + apply (allk_fold_add B' (fun kv2 => iep_key tp m k1 (fst kv2)) (fun kv2 => iep_val tp c v1 (snd kv2))); [assumption|].
        intros [k2 v2] H2. apply BB. now apply (allk_in B _ k1 v1 Bq).
      + intro t. rewrite (eval_fold_add (imon p t) (fun kv2 => iep_key tp m k1 (fst kv2)) (fun kv2 => iep_val tp c v1 (snd kv2))).
        f_equal. rewrite sumR_eval, <- sumR_scal. apply sumR_ext. intros [k2 v2] H2. cbn [fst snd].
        apply iep_term; [assumption|assumption|]. apply (allk_in etk _ k2 v2 Ws H2).
    - split; [apply uniq_nil|]. split; [apply allk_nil|split; [apply supp_nil|apply allk_nil]]. }
  assert (H1 : pk (mkPar 1 0 0 0 0) <> 0) by (simpl; lra).
  assert (L' := returns_forall _ (fun p => pk p <> 0) _ (mkPar 1 0 0 0 0) H1 L). clear L.
  eapply returns_bind; [exact L'|]. intros a h. cbn [returns items keyfor]. clear L'.
  destruct (h (mkPar 1 0 0 0 0) H1) as [(U & Wa & Sa & Ba) _].
  split; [reflexivity|]. split; [assumption|]. split; [assumption|]. split; [assumption|]. split; [assumption|].
  intros p Hp. destruct (h p Hp) as [_ E]. split.
  - rewrite E. simpl eval. rewrite sumR_0; [ring|].
    intros [k1 v1] Hin. cbn [fst snd]. assert (W1 : wf7 k1) by now apply (allk_in wf7 _ k1 v1 W).
    destruct (etv_spec (m + nthZ k1 1) (nthZ k1 2) (pk p)) as [e0 _]; [destruct W1; tauto|assumption|].
    rewrite e0. ring.
  - intro t. eapply is_derive_ext_loc_all; [intro u; symmetry; rewrite E; simpl eval; rewrite Rplus_0_l; reflexivity|].
    eapply is_derive_val.
    + apply (is_derive_sumR (fun kv1 t => Q2R c * Q2R (snd kv1) * ifac tp p * exp (IZR m * (pk p * ps0 p)) * iB p (fst kv1)
              * etv (m + nthZ (fst kv1) 1) (nthZ (fst kv1) 2) (pk p) t)
        (fun kv1 => Q2R c * Q2R (snd kv1) * ifac tp p * exp (IZR m * (pk p * ps0 p)) * iB p (fst kv1)
              * (exp (IZR (m + nthZ (fst kv1) 1) * (pk p * t)) * pw t (nthZ (fst kv1) 2)))).
      intros [k1 v1] Hin. cbn [fst snd]. apply is_derive_Rscal.
      assert (W1 : wf7 k1) by now apply (allk_in wf7 _ k1 v1 W).
      apply etv_spec; [destruct W1; tauto|assumption].
    + rewrite sumR_eval, <- sumR_scal. apply sumR_ext. intros [k1 v1] Hin. cbn [fst snd].
      assert (W1 : wf7 k1) by now apply (allk_in wf7 _ k1 v1 W).
      rewrite imon_split by assumption. rewrite exp_IZR_plus, Rmult_plus_distr_l, Rmult_plus_distr_l, exp_plus. ring.
Qed.

(** ** the recursion *)
Definition sP (i : ito_idx) (k : list Z) : Prop :=
  let '(a, b, d) := i in nthZ k 0 = a /\ Z.even d = true.

(** the power of v_{n-1} is at most the order *)
Definition vb (i : ito_idx) (k : list Z) : Prop := (nthZ k 3 <= ord3 i)%Z.

Definition wfI (i : ito_idx) (q : Poly (list Z)) : Prop :=
  keyfor q = kf_IEII /\ uniq (items q) /\ allk wf7 (items q) /\ supp (sP i) (items q) /\
  allk (vb i) (items q).

Definition Good (i : ito_idx) (q : Poly (list Z)) : Prop :=
  wfI i q /\
  forall p M, pk p <> 0 -> ito_moments p M ->
    forall t, 0 <= t -> M i t = eval (imon p t) (items q).

Definition termsum (l : list ((R -> R) * ito_idx)) (M : ito_idx -> R -> R) (t : R) : R :=
  sumR (fun cj => fst cj t * M (snd cj) t) l.

(** a partial sum of the recursion, whose derivative is given by [terms] *)
Definition Acc (i : ito_idx) (terms : par -> list ((R -> R) * ito_idx)) (q : Poly (list Z)) : Prop :=
  wfI i q /\
  exists D : par -> R -> R, forall p, pk p <> 0 ->
    eval (imon p 0) (items q) = 0 /\
    (forall t : R, is_derive (fun t => eval (imon p t) (items q)) t (D p t)) /\
    (forall t : R, continuous (D p) t) /\
    forall M, ito_moments p M -> forall t, 0 <= t -> D p t = termsum (terms p) M t.

Lemma imon_continuous p l : allk wf7 l -> forall t, continuous (fun t => eval (imon p t) l) t.
Proof.
  intros W t.
  eapply continuous_of_derive, (is_derive_eval (imon p) (fun k => iB p k *
     (IZR (nthZ k 1) * pk p * exp (IZR (nthZ k 1) * (pk p * t)) * pw t (nthZ k 2)
      + exp (IZR (nthZ k 1) * (pk p * t)) * (IZR (nthZ k 2) * 1 * pw t (nthZ k 2 - 1))))).
  intros k v Hin. assert (W1 : wf7 k) by now apply (allk_in wf7 _ k v W).
  eapply is_derive_ext_loc_all; [intro u; symmetry; apply imon_split, W1|].
  apply is_derive_Rscal.
  apply (is_derive_Rmult (fun t => exp (IZR (nthZ k 1) * (pk p * t))) (fun t => pw t (nthZ k 2))).
  - apply (is_derive_ext_loc_all (fun t => exp (IZR (nthZ k 1) * pk p * t))).
    { intro u. f_equal. ring. }
    eapply is_derive_val; [apply (is_derive_Rexp (fun t => IZR (nthZ k 1) * pk p * t)), is_derive_lin|].
    f_equal. f_equal. ring.
  - apply (is_derive_pw (fun t => t)); [apply is_derive_Rid|]. right. destruct W1; tauto.
Qed.

Lemma wfI_merge i (p q : Poly (list Z)) : wfI i p -> wfI i q ->
  returns (merge p q) (fun r => wfI i r /\ forall mon, eval mon (items r) = eval mon (items p) + eval mon (items q)).
Proof.
  intros (h1 & h2 & h3 & h4 & h5) (g1 & g2 & g3 & g4 & g5).
  unfold merge, is_exact_type. rewrite h1, g1.
  replace (listb String.eqb kf_IEII kf_IEII) with true by reflexivity.
  cbn [returns]. unfold wfI; cbn [items keyfor]. split; [split; [|split; [|split; [|split]]]|].
  - reflexivity.
  - now apply uniq_rm_zero, uniq_add_all.
  - now apply allk_rm_zero, allk_add_all.
  - now apply supp_rm_zero, supp_add_all.
  - now apply allk_rm_zero, allk_add_all.
  - intro mon. now rewrite eval_rm_zero, eval_add_all.
Qed.

(** [Part i D q]: like Acc with an explicit derivative *)
Definition Part (i : ito_idx) (D : par -> R -> R) (q : Poly (list Z)) : Prop :=
  wfI i q /\ forall p, pk p <> 0 ->
    eval (imon p 0) (items q) = 0 /\
    (forall t : R, is_derive (fun t => eval (imon p t) (items q)) t (D p t)) /\
    (forall t : R, continuous (D p) t).

Lemma merge_int_spec C c poly tp m i j q D :
  Part i D poly -> cget j C = Ok q -> wfI j q ->
  (forall k1 k2, sP j k1 -> sP i (iep_key tp m k1 k2)) ->
  (forall k1 k2, vb j k1 -> vb i (iep_key tp m k1 k2)) ->
  returns (merge_int C c poly tp m j)
    (Part i (fun p t => D p t + Q2R c * ifac tp p * exp (IZR m * (pk p * (ps0 p + t))) * eval (imon p t) (items q))).
Proof.
  intros [W1 h1] Ec W2 HP HB. unfold merge_int. rewrite Ec. cbn [bind].
  destruct W2 as (g1 & g2 & g3 & g4 & g5).
  eapply returns_bind; [apply (int_e_poly_spec c tp m q (sP j) (sP i) (vb j) (vb i)); assumption|].
  intros r (e1 & e2 & e3 & e4 & eb & e5).
  assert (Wr : wfI i r) by (split; [congruence|auto]).
  eapply returns_weaken; [apply (wfI_merge i poly r W1 Wr)|].
  intros r' [W' Ev]. split; [assumption|]. intros p Hp.
  destruct (h1 p Hp) as (a1 & a2 & a3). destruct (e5 p Hp) as (b1 & b2). split; [|split].
  - rewrite Ev, a1, b1. ring.
  - intro t. eapply is_derive_ext_loc_all; [intro u; symmetry; apply Ev|].
    apply is_derive_Rplus; [apply a2|apply b2].
  - intro t. apply continuous_Rplus; [apply a3|]. apply continuous_Rmult; [|now apply imon_continuous].
    apply continuous_Rmult; [apply continuous_Rconst|]. apply continuous_Rexp.
    apply continuous_Rmult; [apply continuous_Rconst|]. apply continuous_Rmult; [apply continuous_Rconst|].
    apply continuous_Rplus; [apply continuous_Rconst|apply continuous_Rid].
Qed.

Lemma branch_spec C c poly e a b d a' b' d' terms q q' :
  Acc (a, b, d) terms poly ->
  a = (a' + e)%Z -> (a + b + d = a' + b' + d' + 2)%Z -> Z.even d = Z.even d' ->
  cget (a', b', d') C = Ok q -> Good (a', b', d') q ->
  cget (a' + 1, b', d')%Z C = Ok q' -> Good (a' + 1, b', d')%Z q' ->
  returns (branch C c poly (e - 1) e (a', b', d') (a' + 1, b', d')%Z)
    (Acc (a, b, d) (fun p => terms p ++ v_terms p (fun s => Q2R c * exp (IZR e * (pk p * (ps0 p + s)))) (a', b', d'))).
Proof.
  intros [W [D h]] Ea Eo Ed Eq Gq Eq' Gq'.
  assert (S1 : forall tp, (tp = 1 \/ tp = 2)%Z -> forall k1 k2, sP (a', b', d') k1 -> sP (a, b, d) (iep_key tp (e - 1) k1 k2)).
  { intros tp Htp k1 k2 [s1 s2]. unfold sP, iep_key. destruct Htp as [-> | ->]; cbn; split; try congruence; unfold nthZ in *; lia. }
  assert (S3 : forall k1 k2, sP (a', b', d') k1 -> sP (a, b, d) (iep_key 3 e k1 k2)).
  { intros k1 k2 [s1 s2]. unfold sP, iep_key. cbn; split; try congruence; unfold nthZ in *; lia. }
  assert (S4 : forall k1 k2, sP (a' + 1, b', d')%Z k1 -> sP (a, b, d) (iep_key 4 (e - 1) k1 k2)).
  { intros k1 k2 [s1 s2]. unfold sP, iep_key. cbn; split; try congruence; unfold nthZ in *; lia. }
  assert (B1 : forall tp, (tp = 1 \/ tp = 2 \/ tp = 3)%Z -> forall m k1 k2, vb (a', b', d') k1 -> vb (a, b, d) (iep_key tp m k1 k2)).
  { intros tp Htp m k1 k2. unfold vb, iep_key, ord3. destruct Htp as [-> | [-> | ->]]; cbn; unfold nthZ; lia. }
  assert (B4 : forall m k1 k2, vb (a' + 1, b', d')%Z k1 -> vb (a, b, d) (iep_key 4 m k1 k2)).
  { intros m k1 k2. unfold vb, iep_key, ord3. cbn; unfold nthZ; lia. }
  destruct Gq as [Wq Vq]. destruct Gq' as [Wq' Vq'].
  unfold branch.
  assert (P0 : Part (a, b, d) D poly) by (split; [assumption|]; intros p Hp; destruct (h p Hp) as (?&?&?&?); auto).
  eapply returns_bind; [apply (merge_int_spec C c poly 1 _ (a, b, d) (a', b', d') q D); auto|]. intros p1 H1.
  eapply returns_bind; [apply (merge_int_spec C c p1 2 _ (a, b, d) (a', b', d') q _ H1); auto|]. intros p2 H2.
  eapply returns_bind; [apply (merge_int_spec C c p2 3 _ (a, b, d) (a', b', d') q _ H2); auto|]. intros p3 H3.
  eapply returns_weaken; [apply (merge_int_spec C c p3 4 _ (a, b, d) (a' + 1, b', d')%Z q' _ H3); auto|].
  intros p4 [W4 h4]. split; [assumption|]. eexists. intros p Hp.
  destruct (h4 p Hp) as (z1 & z2 & z3). split; [exact z1|]. split; [exact z2|]. split; [exact z3|].
  intros M HM t Ht. destruct (h p Hp) as (_ & _ & _ & hD). rewrite (hD M HM t Ht).
  unfold termsum. rewrite sumR_app. cbn [sumR v_terms fst snd].
  rewrite (Vq p M Hp HM t Ht), (Vq' p M Hp HM t Ht).
  unfold ifac, v_mean; cbn [Z.eqb Pos.eqb].
  set (X := eval (imon p t) (items q)). set (Y := eval (imon p t) (items q')).
  replace (IZR (e - 1) * (pk p * (ps0 p + t))) with (IZR e * (pk p * (ps0 p + t)) + - (pk p * (ps0 p + t)))
    by (rewrite minus_IZR; ring).
  rewrite exp_plus.
  replace (exp (- (pk p * t))) with (exp (pk p * ps0 p) * exp (- (pk p * (ps0 p + t))))
    by (rewrite <- exp_plus; f_equal; ring).
  ring.
Qed.

Lemma Acc_ext i T T' q : (forall p M t, termsum (T p) M t = termsum (T' p) M t) -> Acc i T q -> Acc i T' q.
Proof.
  intros E [W [D h]]. split; [assumption|]. exists D. intros p Hp.
  destruct (h p Hp) as (a1 & a2 & a3 & a4). do 3 (split; [assumption|]).
  intros M HM t Ht. rewrite <- E. auto.
Qed.

Lemma Acc_start i : Acc i (fun _ => []) (mkPoly [] kf_IEII).
Proof.
  split.
  - split; [reflexivity|]. split; [apply uniq_nil|]. split; [apply allk_nil|]. split; [apply supp_nil|apply allk_nil].
  - exists (fun _ _ => 0). intros p _. cbn [items eval]. split; [reflexivity|]. split; [|split].
    + intro t. apply is_derive_Rconst.
    + intro t. apply continuous_Rconst.
    + reflexivity.
Qed.

Lemma exp_0_mul x : exp (0 * x) = 1.
Proof. rewrite Rmult_0_l. apply exp_0. Qed.
Lemma exp_1_mul x : exp (1 * x) = exp x.
Proof. f_equal. ring. Qed.
Lemma exp_2_mul x : exp (2 * x) = exp x * exp x.
Proof. rewrite <- exp_plus. f_equal. ring. Qed.

Lemma ito_tri p i : ito_dom i -> forall c j, In (c, j) (ito_sys p i) ->
  ito_dom j /\ (Z.to_nat (ord3 j) < Z.to_nat (ord3 i))%nat.
Proof.
  destruct i as [[a b] d]. intros (h1 & h2 & h3) c j Hin.
  unfold ito_sys in Hin. rewrite !in_app_iff in Hin.
  destruct Hin as [Hin|[Hin|[Hin|Hin]]].
  - destruct (Z.leb_spec 2 a); [|destruct Hin].
    destruct Hin as [E|[E|[]]]; inversion E; unfold ito_dom, ord3; simpl; lia.
  - destruct (Z.leb_spec 2 b); [|destruct Hin].
    destruct Hin as [E|[E|[]]]; inversion E; unfold ito_dom, ord3; simpl; lia.
  - destruct (Z.leb_spec 1 a); [|destruct Hin]. destruct (Z.leb_spec 1 b); [|destruct Hin].
    destruct Hin as [E|[E|[]]]; inversion E; unfold ito_dom, ord3; simpl; lia.
  - destruct (Z.leb_spec 2 d); [|destruct Hin].
    destruct Hin as [E|[E|[]]]; inversion E; unfold ito_dom, ord3; simpl; lia.
Qed.

Lemma ito_init_0 i : ord3 i <> 0%Z -> ito_init i = 0.
Proof. destruct i as [[[| |] [| |]] [| |]]; try reflexivity. intro h. now contradiction h. Qed.

(** all indices of orders lo..hi are in the table, with correct polynomials *)
Definition CInv (lo hi : Z) (C : IEII_cache) : Prop :=
  forall i, ito_dom i -> (lo <= ord3 i <= hi)%Z -> exists q, cget i C = Ok q /\ Good i q.

Lemma recursive_IEII_spec a b d C : ito_dom (a, b, d) -> (1 <= a + b + d)%Z ->
  CInv (a + b + d - 2) (a + b + d - 1) C ->
  returns (recursive_IEII a b d C) (Good (a, b, d)).
Proof.
  intros (h1 & h2 & h3) Hord HC. unfold recursive_IEII.
  replace (0 <=? a)%Z with true by (symmetry; apply Z.leb_le; lia).
  replace (0 <=? b)%Z with true by (symmetry; apply Z.leb_le; lia).
  replace (0 <=? d)%Z with true by (symmetry; apply Z.leb_le; lia).
  rewrite !andb_true_r, !andb_true_l.
  assert (HQ : forall i, ito_dom i -> (a + b + d - 2 <= ord3 i <= a + b + d - 1)%Z -> exists q, cget i C = Ok q /\ Good i q)
    by exact HC.
  eapply returns_bind.
  { instantiate (1 := Acc (a, b, d) (fun p => if (2 <=? a)%Z then v_terms p (fun s => IZR (a * (a - 1)) / 2 *
        (exp (pk p * (ps0 p + s)) * exp (pk p * (ps0 p + s)))) (a - 2, b, d)%Z else [])).
    destruct (Z.leb_spec 2 a) as [Ha|Ha]; [|apply Acc_start].
    destruct (HQ (a - 2, b, d)%Z) as (q & E1 & G1); [unfold ito_dom; lia|unfold ord3; simpl; lia|].
    destruct (HQ (a - 2 + 1, b, d)%Z) as (q' & E2 & G2); [unfold ito_dom; lia|unfold ord3; simpl; lia|].
    replace (a - 1)%Z with (a - 2 + 1)%Z at 2 by lia.
    eapply returns_weaken; [apply (branch_spec C _ _ 2 a b d (a - 2) b d (fun _ => []) q q'); try assumption;
      [apply Acc_start|lia|lia|reflexivity]|].
    intros r. apply Acc_ext. intros p M t. unfold termsum, v_terms. cbn [sumR app fst snd].
    rewrite exp_2_mul, Q2R_Frac by lia. reflexivity. }
  intros q1 A1. eapply returns_bind.
  { instantiate (1 := Acc (a, b, d) (fun p => (if (2 <=? a)%Z then v_terms p (fun s => IZR (a * (a - 1)) / 2 *
        (exp (pk p * (ps0 p + s)) * exp (pk p * (ps0 p + s)))) (a - 2, b, d)%Z else [])
      ++ (if (2 <=? b)%Z then v_terms p (fun _ => IZR (b * (b - 1)) / 2) (a, b - 2, d)%Z else []))).
    destruct (Z.leb_spec 2 b) as [Hb|Hb].
    2: { cbn [returns]. revert A1. apply Acc_ext. intros. now rewrite app_nil_r. }
    destruct (HQ (a, b - 2, d)%Z) as (q & E1 & G1); [unfold ito_dom; lia|unfold ord3; simpl; lia|].
    destruct (HQ (a + 1, b - 2, d)%Z) as (q' & E2 & G2); [unfold ito_dom; lia|unfold ord3; simpl; lia|].
    eapply returns_weaken; [apply (branch_spec C _ _ 0 a b d a (b - 2) d _ q q' A1); try assumption;
      [lia|lia|reflexivity]|].
    intros r. apply Acc_ext. intros p M t. unfold termsum. rewrite !sumR_app. f_equal.
    unfold v_terms. cbn [sumR app fst snd].
    rewrite exp_0_mul, Q2R_Frac by lia. ring. }
  intros q2 A2. eapply returns_bind.
  { instantiate (1 := Acc (a, b, d) (fun p => ((if (2 <=? a)%Z then v_terms p (fun s => IZR (a * (a - 1)) / 2 *
        (exp (pk p * (ps0 p + s)) * exp (pk p * (ps0 p + s)))) (a - 2, b, d)%Z else [])
      ++ (if (2 <=? b)%Z then v_terms p (fun _ => IZR (b * (b - 1)) / 2) (a, b - 2, d)%Z else []))
      ++ (if ((1 <=? a) && (1 <=? b))%Z then v_terms p (fun s => IZR (a * b) * exp (pk p * (ps0 p + s))) (a - 1, b - 1, d)%Z else []))).
    destruct ((1 <=? a) && (1 <=? b))%Z eqn:Eab.
    2: { cbn [returns]. revert A2. apply Acc_ext. intros. now rewrite app_nil_r. }
    apply andb_prop in Eab. destruct Eab as [Ha Hb]. apply Z.leb_le in Ha, Hb.
    destruct (HQ (a - 1, b - 1, d)%Z) as (q & E1 & G1); [unfold ito_dom; lia|unfold ord3; simpl; lia|].
    destruct (HQ (a - 1 + 1, b - 1, d)%Z) as (q' & E2 & G2); [unfold ito_dom; lia|unfold ord3; simpl; lia|].
    replace (a, b - 1, d)%Z with (a - 1 + 1, b - 1, d)%Z by (repeat f_equal; lia).
    eapply returns_weaken; [apply (branch_spec C _ _ 1 a b d (a - 1) (b - 1) d _ q q' A2); try assumption;
      [lia|lia|reflexivity]|].
    intros r. apply Acc_ext. intros p M t. unfold termsum. rewrite !sumR_app. f_equal.
    unfold v_terms. cbn [sumR app fst snd].
    rewrite exp_1_mul, Q2R_Frac by lia. field. }
  intros q3 A3.
  assert (A4 : returns (if (2 <=? d)%Z then branch C (Frac (d * (d - 1)) 2) q3 (-1) 0 (a, b, d - 2)%Z (a + 1, b, d - 2)%Z else Ok q3)
    (Acc (a, b, d) (fun p => ito_sys p (a, b, d)))).
  { destruct (Z.leb_spec 2 d) as [Hd|Hd].
    2: { cbn [returns]. revert A3. apply Acc_ext. intros. unfold ito_sys.
         destruct (Z.leb_spec 2 d); [lia|]. now rewrite app_nil_r, !app_assoc. }
    destruct (HQ (a, b, d - 2)%Z) as (q & E1 & G1); [unfold ito_dom; lia|unfold ord3; simpl; lia|].
    destruct (HQ (a + 1, b, d - 2)%Z) as (q' & E2 & G2); [unfold ito_dom; lia|unfold ord3; simpl; lia|].
    eapply returns_weaken; [apply (branch_spec C _ _ 0 a b d a b (d - 2) _ q q' A3); try assumption;
      [lia|lia|]|].
    { rewrite Z.even_sub. now destruct (Z.even d). }
    intros r. apply Acc_ext. intros p M t. unfold termsum, ito_sys.
    destruct (Z.leb_spec 2 d); [|lia]. rewrite !sumR_app. rewrite !Rplus_assoc. do 3 f_equal.
    unfold v_terms. cbn [sumR app fst snd].
    rewrite exp_0_mul, Q2R_Frac by lia. ring. }
  eapply returns_weaken; [exact A4|]. intros r [W [D h]]. split; [assumption|].
  intros p M Hp HM t Ht. destruct (h p Hp) as (z1 & z2 & z3 & z4).
  apply (vsol_step ito_dom (ito_sys p) ito_init M (a, b, d) (fun t => eval (imon p t) (items r)) (D p));
    try assumption.
  - unfold ito_dom; auto.
  - rewrite ito_init_0; [exact z1|]. unfold ord3; simpl; lia.
  - intros u Hu. apply (z4 M HM u Hu).
Qed.

(** ** the initial table *)
Lemma wfI_P0 i : (0 <= ord3 i)%Z -> wfI i P0.
Proof.
  intro Ho. split; [reflexivity|]. split; [repeat constructor; simpl; tauto|]. split; [|split].
  - intros k [<-|[]]. unfold wf7, nthZ; simpl; lia.
  - intros k v [E|[]] Hv. inversion E; subst. exfalso. now apply Hv.
  - intros k [<-|[]]. exact Ho.
Qed.
Lemma good_000 : Good (0, 0, 0)%Z P1.
Proof.
  split.
  - split; [reflexivity|]. split; [repeat constructor; simpl; tauto|]. split; [|split].
    + intros k [<-|[]]. unfold wf7, nthZ; simpl; lia.
    + intros k v [E|[]] Hv. inversion E; subst. split; reflexivity.
    + intros k [<-|[]]. unfold vb, ord3, nthZ; simpl; lia.
  - intros p M Hp HM t Ht.
    apply (vsol_step ito_dom (ito_sys p) ito_init M _ (fun t => eval (imon p t) (items P1)) (fun _ => 0));
      try assumption.
    + unfold ito_dom; lia.
    + unfold imon, ivals. simpl. unfold Q2R; simpl. field.
    + intro u. eapply is_derive_ext_loc_all; [|apply (is_derive_Rconst 1)].
      intro w. unfold imon, ivals. simpl. unfold Q2R; simpl. field.
    + intro u. apply continuous_Rconst.
    + intros u Hu. reflexivity.
Qed.
Lemma good_order1 i : In i [(1,0,0); (0,1,0); (0,0,1)]%Z -> Good i P0.
Proof.
  intro Hi. split; [apply wfI_P0; destruct Hi as [<-|[<-|[<-|[]]]]; unfold ord3; simpl; lia|]. intros p M Hp HM t Ht.
  assert (E0 : forall u, eval (imon p u) (items P0) = 0) by (intro u; simpl; unfold Q2R; simpl; ring).
  apply (vsol_step ito_dom (ito_sys p) ito_init M _ (fun t => eval (imon p t) (items P0)) (fun _ => 0));
    try assumption.
  - destruct Hi as [<-|[<-|[<-|[]]]]; unfold ito_dom; lia.
  - rewrite E0. destruct Hi as [<-|[<-|[<-|[]]]]; reflexivity.
  - intro u. eapply is_derive_ext_loc_all; [intro w; symmetry; apply E0|apply is_derive_Rconst].
  - intro u. apply continuous_Rconst.
  - intros u Hu. destruct Hi as [<-|[<-|[<-|[]]]]; reflexivity.
Qed.

Lemma CInv_01 : CInv 0 1 IEII_init.
Proof.
  intros [[a b] d] (h1 & h2 & h3) Ho. unfold ord3 in Ho; cbn [fst snd] in Ho.
  assert (Hc : In (a, b, d) [(0,0,0); (1,0,0); (0,1,0); (0,0,1)]%Z).
  { assert ((a = 0 \/ a = 1) /\ (b = 0 \/ b = 1) /\ (d = 0 \/ d = 1))%Z as ([-> | ->] & [-> | ->] & [-> | ->]) by lia;
      simpl; try lia; tauto. }
  destruct Hc as [E|[E|[E|[E|[]]]]]; inversion E; subst.
  - exists P1. split; [reflexivity|apply good_000].
  - exists P0. split; [reflexivity|apply good_order1; simpl; tauto].
  - exists P0. split; [reflexivity|apply good_order1; simpl; tauto].
  - exists P0. split; [reflexivity|apply good_order1; simpl; tauto].
Qed.

Definition kset (q : Poly (list Z)) (f : list Z -> bool) : bool := forallb f (map fst (items q)).
Definition wf7b (k : list Z) : bool :=
  (7 <=? length k)%nat && (0 <=? nthZ k 2)%Z && (0 <=? nthZ k 3)%Z && (0 <=? nthZ k 4)%Z &&
  (0 <=? nthZ k 5)%Z && (0 <=? nthZ k 6)%Z.
Lemma wf7b_spec k : wf7b k = true -> wf7 k.
Proof.
  unfold wf7b, wf7. rewrite !andb_true_iff, Nat.leb_le, !Z.leb_le. tauto.
Qed.
Fixpoint nodupb (l : list (list Z)) : bool :=
  match l with [] => true | x :: r => negb (existsb (keqb x) r) && nodupb r end.
Lemma nodupb_spec l : nodupb l = true -> NoDup l.
Proof.
  induction l as [|x r IH]; cbn [nodupb]; [constructor|]. rewrite andb_true_iff, negb_true_iff.
  intros [h1 h2]. constructor; [|auto]. intro Hin.
  assert (existsb (keqb x) r = true); [|congruence].
  apply existsb_exists. exists x. split; [assumption|]. now apply keqb_spec.
Qed.

Lemma good_order2 i q r : ito_dom i -> ord3 i = 2%Z -> keyfor q = kf_IEII ->
  nodupb (map fst (items q)) = true -> kset q wf7b = true ->
  kset q (fun k => (nthZ k 0 =? fst (fst i))%Z && Z.even (snd i) && (nthZ k 3 <=? ord3 i)%Z) = true ->
  recursive_IEII (fst (fst i)) (snd (fst i)) (snd i) IEII_init = Ok r ->
  (forall mon, eval mon (items q) = eval mon (items r)) -> Good i q.
Proof.
  destruct i as [[a b] d]; cbn [fst snd]. intros Hd Ho hk hu hw hs Er Ev.
  unfold ord3 in Ho; cbn [fst snd] in Ho.
  pose proof (recursive_IEII_spec a b d IEII_init Hd ltac:(lia)) as h.
  replace (a + b + d - 2)%Z with 0%Z in h by lia. replace (a + b + d - 1)%Z with 1%Z in h by lia.
  specialize (h CInv_01). rewrite Er in h. destruct h as [_ h]. split.
  - split; [assumption|]. split; [now apply nodupb_spec|]. split; [|split].
    + intros k Hk. apply wf7b_spec. unfold kset in hw. rewrite forallb_forall in hw. now apply hw.
    + intros k v Hin _. apply in_keys in Hin. unfold kset in hs. rewrite forallb_forall in hs.
      specialize (hs k Hin). apply andb_prop in hs. destruct hs as [hs _].
      apply andb_prop in hs. destruct hs as [s1 s2]. apply Z.eqb_eq in s1. now split.
    + intros k Hk. unfold kset in hs. rewrite forallb_forall in hs.
      specialize (hs k Hk). apply andb_prop in hs. destruct hs as [_ s3]. now apply Z.leb_le in s3.
  - intros p M Hp HM t Ht. rewrite Ev. now apply h.
Qed.
Lemma good_order2_0 i r : ito_dom i -> ord3 i = 2%Z ->
  recursive_IEII (fst (fst i)) (snd (fst i)) (snd i) IEII_init = Ok r ->
  (forall mon, 0 = eval mon (items r)) -> Good i P0.
Proof.
  destruct i as [[a b] d]; cbn [fst snd]. intros Hd Ho Er Ev.
  unfold ord3 in Ho; cbn [fst snd] in Ho.
  pose proof (recursive_IEII_spec a b d IEII_init Hd ltac:(lia)) as h.
  replace (a + b + d - 2)%Z with 0%Z in h by lia. replace (a + b + d - 1)%Z with 1%Z in h by lia.
  specialize (h CInv_01). rewrite Er in h. destruct h as [_ h]. split; [apply wfI_P0; unfold ord3; simpl; lia|].
  intros p M Hp HM t Ht. rewrite (h p M Hp HM t Ht), <- Ev. simpl. unfold Q2R; simpl. ring.
Qed.

Lemma CInv_init : CInv 0 2 IEII_init.
Proof.
  intros i Hi Ho. destruct (Z_le_dec (ord3 i) 1) as [Hl|Hg]; [apply CInv_01; [assumption|lia]|].
  assert (Ho2 : ord3 i = 2%Z) by lia. clear Ho Hg.
  assert (Hc : In i [(2,0,0); (1,1,0); (1,0,1); (0,2,0); (0,1,1); (0,0,2)]%Z).
  { destruct i as [[a b] d]. destruct Hi as (h1 & h2 & h3). unfold ord3 in Ho2; cbn [fst snd] in Ho2.
    assert ((a = 0 \/ a = 1 \/ a = 2) /\ (b = 0 \/ b = 1 \/ b = 2) /\ (d = 0 \/ d = 1 \/ d = 2))%Z
      as ([-> | [-> | ->]] & [-> | [-> | ->]] & [-> | [-> | ->]]) by lia; simpl; try lia; tauto. }
  destruct Hc as [<-|[<-|[<-|[<-|[<-|[<-|[]]]]]]].
  - exists P200. split; [reflexivity|].
    eapply (good_order2 (2,0,0)%Z P200); try reflexivity; [assumption|].
    intro mon. cbn. unfold Q2R; cbn; field.
  - exists P110. split; [reflexivity|].
    eapply (good_order2 (1,1,0)%Z P110); try reflexivity; [assumption|].
    intro mon. cbn. unfold Q2R; cbn; field.
  - exists P0. split; [reflexivity|].
    eapply (good_order2_0 (1,0,1)%Z); try reflexivity. assumption.
  - exists P020. split; [reflexivity|].
    eapply (good_order2 (0,2,0)%Z P020); try reflexivity; [assumption|].
    intro mon. cbn. unfold Q2R; cbn; field.
  - exists P0. split; [reflexivity|].
    eapply (good_order2_0 (0,1,1)%Z); try reflexivity. assumption.
  - exists P020. split; [reflexivity|].
    eapply (good_order2 (0,0,2)%Z P020); try reflexivity; [assumption|].
    intro mon. cbn. unfold Q2R; cbn; field.
Qed.

(** ** the loop over the orders *)
Lemma Good_remove_zero i q : Good i q -> Good i (remove_zero q).
Proof.
  intros [(w1 & w2 & w3 & w4 & w5) h]. split.
  - unfold remove_zero. split; [assumption|]. cbn [items]. split; [now apply uniq_rm_zero|].
    split; [now apply allk_rm_zero|]. split; [now apply supp_rm_zero|now apply allk_rm_zero].
  - intros p M Hp HM t Ht. unfold remove_zero; cbn [items]. rewrite eval_rm_zero. auto.
Qed.

Lemma IEII_round_spec C n : (3 <= n)%Z -> CInv (n - 2) (n - 1) C ->
  returns (IEII_round C n) (CInv (n - 1) n).
Proof.
  intros Hn HC. unfold IEII_round.
  set (P := fun (ij : Z * Z) (C : IEII_cache) => exists q,
    cget (fst ij, snd ij, n - fst ij - snd ij)%Z C = Ok q /\ Good (fst ij, snd ij, n - fst ij - snd ij)%Z q).
  eapply returns_bind.
  { rewrite (foldM_nested (fun C i j => let! poly := recursive_IEII i j (n - i - j) C in
      Ok (cset (i, j, n - i - j)%Z (remove_zero poly) C)) (fun i => range_down (n - i))).
    apply (foldM_visit _ (CInv (n - 2) (n - 1)) P); [|exact HC].
    intros [i j] Hin C' HC'. apply in_flat_map in Hin. destruct Hin as (i' & Hi & Hj).
    apply in_map_iff in Hj. destruct Hj as (j' & E & Hj). inversion E; subst i' j'; clear E.
    apply in_range_down in Hi, Hj. cbn [fst snd].
    eapply returns_bind.
    - apply (recursive_IEII_spec i j (n - i - j) C'); [unfold ito_dom; lia|lia|].
      replace (i + j + (n - i - j))%Z with n by lia. exact HC'.
    - intros q Gq. cbn [returns]. apply Good_remove_zero in Gq. split; [|split].
      + intros k Hk Ho. destruct (HC' k Hk Ho) as (q' & e1 & e2). exists q'. split; [|assumption].
        rewrite cget_cset_other; [assumption|]. intros <-. unfold ord3 in Ho; cbn [fst snd] in Ho. lia.
      + unfold P; cbn [fst snd]. eexists. split; [apply cget_cset_same|assumption].
      + intros [i1 j1] (q' & e1 & e2); cbn [fst snd] in *. unfold P; cbn [fst snd].
        destruct (keqb (i, j, n - i - j)%Z (i1, j1, n - i1 - j1)%Z) eqn:Ek.
        * apply keqb_spec in Ek. rewrite <- Ek. eexists. split; [apply cget_cset_same|assumption].
        * exists q'. split; [|assumption]. rewrite cget_cset_other; [assumption|].
          intro E. apply keqb_spec in E. congruence. }
  intros C' [HC' HP]. cbn [returns]. intros i Hi Ho.
  rewrite cget_cdel by (apply Z.eqb_neq; lia).
  destruct (Z.eq_dec (ord3 i) n) as [E|N]; [|apply HC'; [assumption|lia]].
  destruct i as [[a b] d]. unfold ord3 in E; cbn [fst snd] in E. destruct Hi as (h1 & h2 & h3).
  destruct (HP (a, b)) as (q & e1 & e2).
  - apply in_flat_map. exists a. split; [apply in_range_down; lia|]. apply in_map.
    apply in_range_down. lia.
  - cbn [fst snd] in *. replace (n - a - b)%Z with d in * by lia. eauto.
Qed.

Lemma IEII_rounds m : forall n C, (3 <= n)%Z -> CInv (n - 2) (n - 1) C ->
  returns (foldM IEII_round (range n (n + Z.of_nat m)) C)
    (CInv (n + Z.of_nat m - 2) (n + Z.of_nat m - 1)).
Proof.
  induction m as [|m IH]; intros n C Hn HC.
  - rewrite range_nil by lia. cbn [foldM returns]. now rewrite Z.add_0_r.
  - rewrite range_cons by lia. cbn [foldM].
    pose proof (IEII_round_spec C n Hn HC) as h.
    destruct (IEII_round C n) as [C'|]; [|exact h]. cbn [returns] in h.
    replace (n + Z.of_nat (S m))%Z with (n + 1 + Z.of_nat m)%Z by lia. apply IH; [lia|].
    replace (n + 1 - 2)%Z with (n - 1)%Z by lia. replace (n + 1 - 1)%Z with n by lia. exact h.
Qed.

Theorem moment_IEII_spec a b d : (0 <= a)%Z -> (0 <= b)%Z -> (0 <= d)%Z ->
  returns (moment_IEII a b d) (Good (a, b, d)).
Proof.
  intros Ha Hb Hd. unfold moment_IEII.
  destruct (Z.ltb_spec (a + b + d) 0); [lia|].
  destruct (Z.leb_spec (a + b + d) 2) as [Hl|Hg].
  - destruct (CInv_init (a, b, d)) as (q & e1 & e2); [unfold ito_dom; lia|unfold ord3; simpl; lia|].
    rewrite e1. exact e2.
  - assert (HC : returns (if (3 <? a + b + d)%Z then foldM IEII_round (range 3 (a + b + d)) IEII_init else Ok IEII_init)
      (CInv (a + b + d - 2) (a + b + d - 1))).
    { assert (H3 : CInv (3 - 2) (3 - 1) IEII_init).
      { intros i Hi Ho. apply CInv_init; [assumption|lia]. }
      destruct (Z.ltb_spec 3 (a + b + d)).
      - pose proof (IEII_rounds (Z.to_nat (a + b + d - 3)) 3 IEII_init ltac:(lia) H3) as h.
        rewrite Z2Nat.id in h by lia. replace (3 + (a + b + d - 3))%Z with (a + b + d)%Z in h by lia. exact h.
      - cbn [returns]. replace (a + b + d)%Z with 3%Z by lia. exact H3. }
    eapply returns_bind; [exact HC|]. intros C' HC'.
    eapply returns_bind.
    + apply (recursive_IEII_spec a b d C'); [unfold ito_dom; lia|lia|exact HC'].
    + intros q Gq. cbn [returns]. now apply Good_remove_zero.
Qed.

(** the value of the returned polynomial at elapsed time t *)
Definition ito_val (p : par) (i : ito_idx) (t : R) : R :=
  let '(a, b, d) := i in
  match moment_IEII a b d with Ok q => eval (monx (ivals p t)) (items q) | Err _ => 0 end.

Lemma ito_cont p i c j : In (c, j) (ito_sys p i) -> forall t, continuous c t.
Proof.
  assert (Ce : forall u, continuous (fun s => exp (pk p * (ps0 p + s))) u).
  { intro u. apply continuous_Rexp, continuous_Rmult; [apply continuous_Rconst|].
    apply continuous_Rplus; [apply continuous_Rconst|apply continuous_Rid]. }
  assert (Ce' : forall u, continuous (fun s => exp (- (pk p * (ps0 p + s)))) u).
  { intro u. apply continuous_Rexp, (continuous_opp (fun s => pk p * (ps0 p + s))).
    apply continuous_Rmult; [apply continuous_Rconst|].
    apply continuous_Rplus; [apply continuous_Rconst|apply continuous_Rid]. }
  assert (Cm : forall u, continuous (v_mean p) u).
  { intro u. apply continuous_Rplus; [|apply continuous_Rconst].
    apply continuous_Rmult; [|apply continuous_Rconst].
    apply continuous_Rexp, (continuous_opp (fun s => pk p * s)).
    apply continuous_Rmult; [apply continuous_Rconst|apply continuous_Rid]. }
  assert (Cv : forall f k, (forall u, continuous f u) -> In (c, j) (v_terms p f k) -> forall t, continuous c t).
  { intros f [[k1 k2] k3] Hf [E|[E|[]]] t; inversion E; subst.
    - apply continuous_Rmult; [apply Hf|apply Cm].
    - apply continuous_Rmult; [apply Hf|]. apply continuous_Rmult; [apply continuous_Rconst|apply Ce']. }
  destruct i as [[a b] d]. unfold ito_sys. rewrite !in_app_iff.
  intros [Hin|[Hin|[Hin|Hin]]].
  - destruct (2 <=? a)%Z; [|destruct Hin]. eapply Cv; [|exact Hin].
    intro u. apply continuous_Rmult; [apply continuous_Rconst|]. now apply continuous_Rmult.
  - destruct (2 <=? b)%Z; [|destruct Hin]. eapply Cv; [|exact Hin]. intro; apply continuous_Rconst.
  - destruct ((1 <=? a)%Z && (1 <=? b)%Z); [|destruct Hin]. eapply Cv; [|exact Hin].
    intro u. apply continuous_Rmult; [apply continuous_Rconst|apply Ce].
  - destruct (2 <=? d)%Z; [|destruct Hin]. eapply Cv; [|exact Hin]. intro; apply continuous_Rconst.
Qed.

(** C14: for every solution of the moment equations, moment_IEII is its value *)
Theorem C14_moments : forall (p : par) M, pk p <> 0 -> ito_moments p M ->
  forall a b d : Z, (0 <= a)%Z -> (0 <= b)%Z -> (0 <= d)%Z ->
  exists q, moment_IEII a b d = Ok q /\
    forall t, 0 <= t -> M (a, b, d) t = eval (monx (ivals p t)) (items q).
Proof.
  intros p M Hp HM a b d Ha Hb Hd. pose proof (moment_IEII_spec a b d Ha Hb Hd) as h.
  apply returns_inv in h. destruct h as (q & E & _ & h). exists q. split; [assumption|].
  intros t Ht. now apply (h p M).
Qed.

(** C14: the moment equations have a solution, and moment_IEII is one *)
Theorem ito_solution : forall p : par, pk p <> 0 -> ito_moments p (ito_val p).
Proof.
  intros p Hp.
  pose proof (vsol_exists ito_dom (ito_sys p) ito_init (fun i => Z.to_nat (ord3 i)) (ito_tri p) (ito_cont p)) as HM.
  set (M := vmin _ _ _) in HM.
  assert (E : forall i, ito_dom i -> forall t, 0 <= t -> M i t = ito_val p i t).
  { intros [[a b] d] (h1 & h2 & h3) t Ht.
    pose proof (moment_IEII_spec a b d h1 h2 h3) as h. unfold ito_val.
    destruct (moment_IEII a b d) as [q|]; [|destruct h]. destruct h as [_ h]. now apply h. }
  intros i Hi t Ht. rewrite <- (E i Hi t Ht).
  apply (is_RInt_ext (lin_rhs (ito_sys p) M i)); [|now apply HM].
  intros s Hs. rewrite Rmin_left in Hs by assumption. apply sumR_ext. intros [c j] Hin. simpl. f_equal.
  apply E; [|lra]. now apply (ito_tri p i Hi c j Hin).
Qed.
