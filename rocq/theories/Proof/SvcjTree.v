(** The tree of partial derivatives built by mdl_svcj/ieziziz_mom.py (C36): each tree key is a
    product of derivatives of the cumulant sequence K, and one dmgf_ieziziz step is the
    operator N_w f = (D_w K) f + D_w f of Seq3. *)
From Coq Require Import Reals Lra Ring FunctionalExtensionality.
From Coquelicot Require Import Coquelicot.
From Verif.Model Require Export SvcjIez.
From Verif.Proof Require Export MonTac Seq3 SrjdIezProofs.
Import Verif.Model.SvcjIez.
Local Open Scope R_scope.

Definition DW (w : Z) : S3 -> S3 := if (w =? 1)%Z then D1 else if (w =? 2)%Z then D2 else D3.
Definition NW (w : Z) (K : S3) : S3 -> S3 := fun f => s3add (s3mul (DW w K) f) (DW w f).
Lemma DW_mul w f g : DW w (s3mul f g) = s3add (s3mul (DW w f) g) (s3mul f (DW w g)).
Proof. unfold DW. destruct (w =? 1)%Z; [apply D1_mul|]. destruct (w =? 2)%Z; [apply D2_mul|apply D3_mul]. Qed.
Lemma DW_add w f g : DW w (s3add f g) = s3add (DW w f) (DW w g).
Proof. unfold DW. destruct (w =? 1)%Z; [reflexivity|]. destruct (w =? 2)%Z; reflexivity. Qed.
Lemma DW_one w : DW w s3_1 = s3_0.
Proof. unfold DW. destruct (w =? 1)%Z; [|destruct (w =? 2)%Z]; apply s3_ext; intros [|i] [|j] [|l]; reflexivity. Qed.
Lemma DW_zero w : DW w s3_0 = s3_0.
Proof. unfold DW. destruct (w =? 1)%Z; [|destruct (w =? 2)%Z]; reflexivity. Qed.

Definition sc (c : R) (f : S3) : S3 := fun i j l => c * f i j l.
Lemma sc_mul_r c f g : s3mul f (sc c g) = sc c (s3mul f g).
Proof.
  apply s3_ext. intros i j l. unfold sc at 2. rewrite !s3mul_sum. unfold sc.
  rewrite <- sumR_scal; apply sumR_ext; intros a _. rewrite (Rmult_comm c), Rmult_assoc. f_equal. rewrite (Rmult_comm _ c).
  rewrite <- sumR_scal; apply sumR_ext; intros b _. rewrite (Rmult_comm c), Rmult_assoc. f_equal. rewrite (Rmult_comm _ c).
  rewrite <- sumR_scal; apply sumR_ext; intros d _. ring.
Qed.
Lemma DW_sc w c f : DW w (sc c f) = sc c (DW w f).
Proof. unfold DW. destruct (w =? 1)%Z; [reflexivity|]. destruct (w =? 2)%Z; reflexivity. Qed.
Lemma sc_add c f g : sc c (s3add f g) = s3add (sc c f) (sc c g).
Proof. apply s3_ext. intros. unfold sc, s3add, add2, add1, sqadd. ring. Qed.
Lemma sc_sc c d f : sc c (sc d f) = sc (c * d) f.
Proof. apply s3_ext. intros. unfold sc. ring. Qed.
Lemma sc_plus c d f : sc (c + d) f = s3add (sc c f) (sc d f).
Proof. apply s3_ext. intros. unfold sc, s3add, add2, add1, sqadd. ring. Qed.
Lemma sc_1 f : sc 1 f = f.
Proof. apply s3_ext. intros. unfold sc. ring. Qed.
Lemma sc_zero c : sc c s3_0 = s3_0.
Proof. apply s3_ext. intros. unfold sc, s3_0. ring. Qed.
Lemma NW_sc w K c f : NW w K (sc c f) = sc c (NW w K f).
Proof. unfold NW. now rewrite sc_mul_r, DW_sc, sc_add. Qed.
Lemma NW_add w K f g : NW w K (s3add f g) = s3add (NW w K f) (NW w K g).
Proof. unfold NW. rewrite DW_add. ring. Qed.
Lemma NW_zero w K : NW w K s3_0 = s3_0.
Proof. unfold NW. rewrite DW_zero. ring. Qed.

Fixpoint spow (f : S3) (n : nat) : S3 := match n with O => s3_1 | S m => s3mul f (spow f m) end.
Lemma DW_spow w f n : DW w (spow f (S n)) = sc (INR (S n)) (s3mul (spow f n) (DW w f)).
Proof.
  induction n as [|n IH].
  - cbn [spow]. rewrite DW_mul, DW_one. simpl INR. rewrite sc_1. ring.
  - change (spow f (S (S n))) with (s3mul f (spow f (S n))). rewrite DW_mul, IH, sc_mul_r.
    rewrite (S_INR (S n)), sc_plus, sc_1. change (spow f (S n)) with (s3mul f (spow f n)).
    replace (s3mul f (s3mul (spow f n) (DW w f))) with (s3mul (s3mul f (spow f n)) (DW w f)) by ring. ring.
Qed.

(** derivative of order n of the sequence *)
Definition shft (t : tri) (K : S3) : S3 := fun i j l =>
  K (i + Z.to_nat (fst (fst t)))%nat (j + Z.to_nat (snd (fst t)))%nat (l + Z.to_nat (snd t))%nat.
Definition nnt (t : tri) : Prop := (0 <= fst (fst t))%Z /\ (0 <= snd (fst t))%Z /\ (0 <= snd t)%Z.
Definition wft (t : tri) : Prop := nnt t /\ (1 <= fst (fst t) + snd (fst t) + snd t)%Z.
Lemma DW_shift w t K : nnt t -> DW w (shft t K) = shft (inc w t) K.
Proof.
  destruct t as [[a b] c]. unfold nnt; cbn [fst snd]. intros (h1 & h2 & h3).
  unfold DW, inc. destruct (w =? 1)%Z; [|destruct (w =? 2)%Z]; apply s3_ext; intros i j l; unfold D1, D2, D3, shft; cbn [fst snd];
    f_equal; lia.
Qed.
Lemma unit_shift w K : shft (unit_of w) K = DW w K.
Proof.
  unfold DW, unit_of. destruct (w =? 1)%Z; [|destruct (w =? 2)%Z]; apply s3_ext; intros i j l; unfold D1, D2, D3, shft; cbn [fst snd];
    f_equal; lia.
Qed.
Lemma wft_inc w t : nnt t -> wft (inc w t).
Proof.
  destruct t as [[a b] c]. unfold wft, nnt, inc; cbn [fst snd]. intros (h1 & h2 & h3).
  destruct (w =? 1)%Z; [|destruct (w =? 2)%Z]; cbn [fst snd]; lia.
Qed.
Lemma wft_unit w : wft (unit_of w).
Proof. unfold wft, nnt, unit_of. destruct (w =? 1)%Z; [|destruct (w =? 2)%Z]; cbn [fst snd]; lia. Qed.
Lemma inc_neq w t : t <> inc w t.
Proof.
  destruct t as [[a b] c]. unfold inc. destruct (w =? 1)%Z; [|destruct (w =? 2)%Z]; intro E; injection E; lia.
Qed.

Section K.
Variable K : S3.
Fixpoint prodS (ps : list (tri * Z)) : S3 :=
  match ps with [] => s3_1 | (t, m) :: r => s3mul (spow (shft t K) (Z.to_nat m)) (prodS r) end.
Fixpoint dprodS (w : Z) (ps : list (tri * Z)) : S3 :=
  match ps with
  | [] => s3_0
  | (t, m) :: r => s3add (sc (IZR m) (s3mul (s3mul (spow (shft t K) (Z.to_nat (m - 1))) (shft (inc w t) K)) (prodS r)))
                         (s3mul (spow (shft t K) (Z.to_nat m)) (dprodS w r))
  end.
Fixpoint msum3 (ps : list (tri * Z)) : Z := match ps with [] => 0%Z | nm :: r => (snd nm + msum3 r)%Z end.
Definition wfe (nm : tri * Z) : Prop := wft (fst nm) /\ (1 <= snd nm)%Z.
Definition wfps3 (ps : list (tri * Z)) : Prop := Forall wfe ps.

Lemma prodS_app p q : prodS (p ++ q) = s3mul (prodS p) (prodS q).
Proof. induction p as [|[t m] p IH]; cbn [prodS app]; [ring|]. rewrite IH. ring. Qed.
Lemma msum3_app p q : msum3 (p ++ q) = (msum3 p + msum3 q)%Z.
Proof. induction p as [|a p IH]; cbn [msum3 app]; [reflexivity|]. rewrite IH. lia. Qed.
Lemma DW_prodS w ps : wfps3 ps -> DW w (prodS ps) = dprodS w ps.
Proof.
  induction ps as [|[t m] r IH]; intro Hw; cbn [prodS dprodS]; [apply DW_one|].
  inversion Hw as [|? ? [[h1 _] h2] Hr]; subst. cbn [fst snd] in *.
  rewrite DW_mul, IH by assumption. f_equal.
  replace (Z.to_nat m) with (S (Z.to_nat (m - 1))) by lia. rewrite DW_spow, DW_shift by assumption.
  replace (INR (S (Z.to_nat (m - 1)))) with (IZR m) by (rewrite INR_IZR_INZ; f_equal; lia).
  apply s3_ext. intros i j l. unfold sc at 2.
  replace (s3mul (sc (IZR m) (s3mul (spow (shft t K) (Z.to_nat (m - 1))) (shft (inc w t) K))) (prodS r))
    with (s3mul (prodS r) (sc (IZR m) (s3mul (spow (shft t K) (Z.to_nat (m - 1))) (shft (inc w t) K)))) by ring.
  rewrite sc_mul_r. unfold sc. f_equal.
  replace (s3mul (s3mul (spow (shft t K) (Z.to_nat (m - 1))) (shft (inc w t) K)) (prodS r))
    with (s3mul (prodS r) (s3mul (spow (shft t K) (Z.to_nat (m - 1))) (shft (inc w t) K))) by ring. reflexivity.
Qed.

(** keys of the tree: total power equals the power of lambda (t-s) *)
Definition wfk (k : tkey) : Prop := wfps3 (snd k) /\ fst k = msum3 (snd k).

Lemma bump_spec t ps : wft t -> wfps3 ps -> match bump t ps with
  | Some ps' => wfps3 ps' /\ msum3 ps' = (1 + msum3 ps)%Z /\ prodS ps' = s3mul (shft t K) (prodS ps)
  | None => True
  end.
Proof.
  intro Ht. induction ps as [|[t' m] r IH]; intro Hw; [exact Logic.I|].
  inversion Hw as [|? ? [h1 h2] Hr]; subst. cbn [fst snd] in *. cbn [bump].
  destruct (keqb t' t) eqn:E.
  - apply keqb_spec in E. subst t'. split; [|split].
    + constructor; [|assumption]. split; cbn [fst snd]; [assumption|lia].
    + cbn [msum3 snd]. lia.
    + cbn [prodS]. replace (Z.to_nat (m + 1)) with (S (Z.to_nat m)) by lia. cbn [spow]. ring.
  - specialize (IH Hr). destruct (bump t r) as [r'|]; [|exact Logic.I]. destruct IH as (g1 & g2 & g3). split; [|split].
    + constructor; [|assumption]. split; assumption.
    + cbn [msum3 snd]. lia.
    + cbn [prodS]. rewrite g3. ring.
Qed.

Lemma d1_spec w k : wfk k -> wfk (d1_times_key3 k w) /\
  prodS (snd (d1_times_key3 k w)) = s3mul (DW w K) (prodS (snd k)).
Proof.
  destruct k as [i ps]. intros [h1 h2]. cbn [fst snd] in *. unfold d1_times_key3. cbn [fst snd].
  pose proof (bump_spec (unit_of w) ps (wft_unit w) h1) as B. rewrite unit_shift in B.
  destruct (bump (unit_of w) ps) as [ps'|].
  - destruct B as (b1 & b2 & b3). split; [|exact b3]. split; cbn [fst snd]; [assumption|lia].
  - split.
    + split; cbn [fst snd msum3]; [|lia]. constructor; [|assumption]. split; cbn [fst snd]; [apply wft_unit|lia].
    + cbn [prodS]. change (Z.to_nat 1) with 1%nat. cbn [spow]. rewrite unit_shift. ring.
Qed.

(** bumping elsewhere leaves position |pre| alone *)
Lemma bump_at t t0 m0 : wft t -> t0 <> t -> forall pre post, wfps3 pre -> wfps3 post ->
  match bump t (pre ++ (t0, m0) :: post) with
  | Some l => exists pre' post', l = pre' ++ (t0, m0) :: post' /\ length pre' = length pre /\ wfps3 pre' /\ wfps3 post' /\
      (msum3 pre' + msum3 post' = 1 + msum3 pre + msum3 post)%Z /\
      s3mul (prodS pre') (prodS post') = s3mul (shft t K) (s3mul (prodS pre) (prodS post))
  | None => True
  end.
Proof.
  intros Ht Hne. induction pre as [|[t' m] pre IH]; intros post Hpre Hpost; cbn [app bump].
  - destruct (keqb t0 t) eqn:E; [apply keqb_spec in E; contradiction|].
    pose proof (bump_spec t post Ht Hpost) as B. destruct (bump t post) as [post'|]; [|exact Logic.I].
    destruct B as (b1 & b2 & b3). exists [], post'. split; [reflexivity|]. split; [reflexivity|]. split; [constructor|].
    split; [assumption|]. split; [cbn [msum3]; lia|]. cbn [prodS]. rewrite b3. ring.
  - inversion Hpre as [|? ? [h1 h2] Hr]; subst. cbn [fst snd] in *.
    destruct (keqb t' t) eqn:E.
    + apply keqb_spec in E. subst t'. exists ((t, (m + 1)%Z) :: pre), post. split; [reflexivity|]. split; [reflexivity|].
      split; [constructor; [split; cbn [fst snd]; [assumption|lia]|assumption]|]. split; [assumption|].
      split; [cbn [msum3 snd]; lia|]. cbn [prodS]. replace (Z.to_nat (m + 1)) with (S (Z.to_nat m)) by lia. cbn [spow]. ring.
    + specialize (IH post Hr Hpost). destruct (bump t (pre ++ (t0, m0) :: post)) as [l|]; [|exact Logic.I].
      destruct IH as (pre' & post' & -> & g1 & g2 & g3 & g4 & g5). exists ((t', m) :: pre'), post'.
      split; [reflexivity|]. split; [cbn [length]; lia|]. split; [constructor; [split; assumption|assumption]|].
      split; [assumption|]. split; [cbn [msum3 snd]; lia|]. cbn [prodS].
      replace (s3mul (s3mul (spow (shft t' K) (Z.to_nat m)) (prodS pre')) (prodS post'))
        with (s3mul (spow (shft t' K) (Z.to_nat m)) (s3mul (prodS pre') (prodS post'))) by ring.
      rewrite g5. ring.
Qed.

Lemma dterm_ps_spec w pre t m post : wfps3 pre -> wft t -> (1 <= m)%Z -> wfps3 post ->
  wfps3 (dterm3_ps w pre t m post) /\ msum3 (dterm3_ps w pre t m post) = (msum3 pre + m + msum3 post)%Z /\
  prodS (dterm3_ps w pre t m post)
    = s3mul (prodS pre) (s3mul (s3mul (spow (shft t K) (Z.to_nat (m - 1))) (shft (inc w t) K)) (prodS post)).
Proof.
  intros Hpre Ht Hm Hpost. unfold dterm3_ps.
  set (knw := match bump (inc w t) (pre ++ (t, (m - 1)%Z) :: post) with
              | Some l => l | None => (pre ++ (t, (m - 1)%Z) :: post) ++ [(inc w t, 1%Z)] end).
  assert (A : exists pre' post', knw = pre' ++ (t, (m - 1)%Z) :: post' /\ length pre' = length pre /\ wfps3 pre' /\ wfps3 post' /\
      (msum3 pre' + msum3 post' = 1 + msum3 pre + msum3 post)%Z /\
      s3mul (prodS pre') (prodS post') = s3mul (shft (inc w t) K) (s3mul (prodS pre) (prodS post))).
  { unfold knw. pose proof (bump_at (inc w t) t (m - 1)%Z (wft_inc w t (proj1 Ht)) (inc_neq w t) pre post Hpre Hpost) as B.
    destruct (bump (inc w t) (pre ++ (t, (m - 1)%Z) :: post)) as [l|]; [exact B|].
    exists pre, (post ++ [(inc w t, 1%Z)]). rewrite <- app_assoc. cbn [app]. split; [reflexivity|]. split; [reflexivity|].
    split; [assumption|]. split.
    - apply Forall_app. split; [assumption|]. constructor; [|constructor]. split; cbn [fst snd]; [apply wft_inc, Ht|lia].
    - split; [rewrite msum3_app; cbn [msum3 snd]; lia|]. rewrite prodS_app. cbn [prodS]. change (Z.to_nat 1) with 1%nat. cbn [spow]. ring. }
  destruct A as (pre' & post' & -> & a1 & a2 & a3 & a4 & a5). rewrite <- a1.
  rewrite nth_error_app2, Nat.sub_diag by lia. cbn [nth_error].
  assert (P : forall x, s3mul (prodS pre') (s3mul x (prodS post'))
    = s3mul (prodS pre) (s3mul (s3mul x (shft (inc w t) K)) (prodS post))).
  { intro x. replace (s3mul (prodS pre') (s3mul x (prodS post'))) with (s3mul x (s3mul (prodS pre') (prodS post'))) by ring.
    rewrite a5. ring. }
  destruct (Z.eq_dec (m - 1) 0) as [E|N].
  - rewrite E. rewrite firstn_app, Nat.sub_diag, firstn_all, firstn_O, app_nil_r.
    rewrite skipn_app. rewrite (skipn_all2 pre') by lia. replace (S (length pre') - length pre')%nat with 1%nat by lia.
    cbn [skipn app]. split; [apply Forall_app; split; assumption|]. split; [rewrite msum3_app; lia|].
    rewrite prodS_app. change (Z.to_nat 0) with 0%nat. cbn [spow]. rewrite <- P. ring.
  - assert (G : wfps3 (pre' ++ (t, (m - 1)%Z) :: post') /\
      msum3 (pre' ++ (t, (m - 1)%Z) :: post') = (msum3 pre + m + msum3 post)%Z /\
      prodS (pre' ++ (t, (m - 1)%Z) :: post') =
      s3mul (prodS pre) (s3mul (s3mul (spow (shft t K) (Z.to_nat (m - 1))) (shft (inc w t) K)) (prodS post))).
    { split; [apply Forall_app; split; [assumption|]; constructor; [split; cbn [fst snd]; [assumption|lia]|assumption]|].
      split; [rewrite msum3_app; cbn [msum3 snd]; lia|]. rewrite prodS_app. cbn [prodS]. apply P. }
    destruct (m - 1)%Z; [lia|exact G|exact G].
Qed.

(** values of tree polynomials, at one index *)
Definition ix : Type := nat * nat * nat.
Definition at3 (f : S3) (x : ix) : R := f (fst (fst x)) (snd (fst x)) (snd x).
Definition monT (x : ix) (k : tkey) : R := at3 (prodS (snd k)) x.
Definition wfT (l : list (tkey * Q)) : Prop := forall k, In k (keys l) -> wfk k.
Fixpoint evS (l : list (tkey * Q)) : S3 :=
  match l with [] => s3_0 | (k, v) :: r => s3add (sc (Q2R v) (prodS (snd k))) (evS r) end.
Lemma evS_at l x : at3 (evS l) x = eval (monT x) l.
Proof. induction l as [|[k v] r IH]; [reflexivity|]. cbn [evS eval]. rewrite <- IH. reflexivity. Qed.
Lemma NW_evS w l x : at3 (NW w K (evS l)) x = eval (fun k => at3 (NW w K (prodS (snd k))) x) l.
Proof.
  induction l as [|[k v] r IH]; cbn [evS eval]; [rewrite NW_zero; reflexivity|].
  rewrite <- IH, NW_add, NW_sc. reflexivity.
Qed.
Lemma at3_ext f g : (forall x, at3 f x = at3 g x) -> f = g.
Proof. intro h. apply s3_ext. intros i j l. exact (h (i, j, l)). Qed.

Lemma wfT_add_kv k v l : wfT l -> wfk k -> wfT (add_kv k v l).
Proof. intros Hl Hk k' Hk'. apply keys_add_kv_in in Hk'. destruct Hk' as [->|h]; auto. Qed.

Lemma dterm_loop_spec w i c : forall post pre a, wfps3 pre -> wfps3 post -> wfT a ->
  i = (msum3 pre + msum3 post)%Z ->
  wfT (dterm3_loop w i c pre post a) /\
  forall x, eval (monT x) (dterm3_loop w i c pre post a)
    = eval (monT x) a + at3 (sc (Q2R c) (s3mul (prodS pre) (dprodS w post))) x.
Proof.
  induction post as [|[t m] r IH]; intros pre a Hpre Hpost Ha His; cbn [dterm3_loop].
  - split; [assumption|]. intro x. cbn [dprodS]. replace (s3mul (prodS pre) s3_0) with s3_0 by ring. rewrite sc_zero.
    unfold at3, s3_0. ring.
  - destruct (Forall_inv Hpost) as [h1 h2]. pose proof (Forall_inv_tail Hpost) as Hr. cbn [fst snd] in h1, h2.
    destruct (dterm_ps_spec w pre t m r Hpre h1 h2 Hr) as (k1 & k2 & k3). cbn [msum3 snd] in His.
    destruct (IH (pre ++ [(t, m)]) (add_kv (i, dterm3_ps w pre t m r) (qmul c (qz m)) a)) as [g1 g2].
    + apply Forall_app. split; [assumption|]. constructor; [split; assumption|constructor].
    + assumption.
    + apply wfT_add_kv; [assumption|]. split; cbn [fst snd]; [assumption|lia].
    + rewrite msum3_app. cbn [msum3 snd]. lia.
    + split; [assumption|]. intro x. rewrite g2, eval_add_kv, Q2R_mul, Q2R_qz.
      unfold monT at 2. cbn [snd]. rewrite k3, prodS_app. cbn [prodS dprodS].
      replace (s3mul (prodS pre) (s3add
          (sc (IZR m) (s3mul (s3mul (spow (shft t K) (Z.to_nat (m - 1))) (shft (inc w t) K)) (prodS r)))
          (s3mul (spow (shft t K) (Z.to_nat m)) (dprodS w r))))
        with (s3add (s3mul (prodS pre) (sc (IZR m) (s3mul (s3mul (spow (shft t K) (Z.to_nat (m - 1))) (shft (inc w t) K)) (prodS r))))
          (s3mul (s3mul (prodS pre) (s3mul (spow (shft t K) (Z.to_nat m)) s3_1)) (dprodS w r))) by ring.
      rewrite sc_mul_r, sc_add, sc_sc. unfold at3, s3add, add2, add1, sqadd, sc. ring.
Qed.

Lemma dmgf_spec3 w (p : Poly tkey) : wfT (items p) ->
  returns (dmgf_ieziziz p w) (fun q => wfT (items q) /\ evS (items q) = NW w K (evS (items p))).
Proof.
  intro Hp. unfold dmgf_ieziziz.
  set (a := fold_left _ _ _).
  assert (A : wfT a /\ forall x, eval (monT x) a = sumR (fun kv => Q2R (snd kv) * at3 (s3mul (DW w K) (prodS (snd (fst kv)))) x) (items p)).
  { unfold a.
    assert (G : forall l b, (forall k, In k (keys l) -> wfk k) -> wfT b ->
      wfT (fold_left (fun a kv => add_kv (d1_times_key3 (fst kv) w) (snd kv) a) l b) /\
      forall x, eval (monT x) (fold_left (fun a kv => add_kv (d1_times_key3 (fst kv) w) (snd kv) a) l b) =
        eval (monT x) b + sumR (fun kv => Q2R (snd kv) * at3 (s3mul (DW w K) (prodS (snd (fst kv)))) x) l).
    { clear. induction l as [|[k v] r IH]; intros b Hl Hb; cbn [fold_left sumR].
      - split; [assumption|]. intro; ring.
      - destruct (d1_spec w k (Hl k (or_introl eq_refl))) as [g1 g2].
        destruct (IH (add_kv (d1_times_key3 k w) v b)) as [i1 i2].
        + intros k' Hk'. apply Hl. now right.
        + now apply wfT_add_kv.
        + split; [exact i1|]. intro x. cbn [fst snd] in *. rewrite i2, eval_add_kv. unfold monT at 2. rewrite g2. ring. }
    destruct (G (items p) [] Hp (fun k (h : In k []) => match h with end)) as [g1 g2]. split; [exact g1|].
    intro x. rewrite g2. cbn [eval]. ring. }
  destruct A as [A1 A2].
  eapply returns_weaken.
  - apply (foldM_sum _ (fun s => wfT (items s) /\ keyfor s = []) (fun x a => eval (monT x) (items a))
             (fun x kv => Q2R (snd kv) * at3 (DW w (prodS (snd (fst kv)))) x)).
    + intros [k v] Hin q [Hq Hkf]. apply in_keys, Hp in Hin. cbn [fst snd]. destruct Hin as [h3 h4].
      destruct (dterm_loop_spec w (fst k) v (snd k) [] []) as [g1 g2];
        [constructor|assumption|intros ? []|cbn [msum3]; lia|].
      unfold merge, is_exact_type. rewrite Hkf. cbn [dterm3 items keyfor]. simpl keqb. cbn [bind returns].
      split; [split; [|reflexivity]|].
      * intros k' Hk'. apply keys_rm_zero_in, keys_add_all_in in Hk'. destruct Hk'; auto.
      * intro x. cbn [items]. rewrite eval_rm_zero, eval_add_all, g2, DW_prodS by assumption. cbn [eval prodS].
        replace (s3mul s3_1 (dprodS w (snd k))) with (dprodS w (snd k)) by ring. unfold at3, sc. ring.
    + cbn [items keyfor]. auto.
  - intros q [[h3 h4] h5]. split; [assumption|]. apply at3_ext. intro x.
    rewrite evS_at, h5, NW_evS. cbn [items]. rewrite A2, <- sumR_plus, (sumR_eval (fun k => at3 (NW w K (prodS (snd k))) x)).
    apply sumR_ext. intros [k v] _. cbn [fst snd]. unfold NW, at3, s3add, add2, add1, sqadd. ring.
Qed.
End K.
