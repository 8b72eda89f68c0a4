(** dpoly of the two-factor models computes partial derivatives (C27). *)
From Coq Require Import Reals Lra.
From Coquelicot Require Import Coquelicot.
From Verif.Spec Require Export Params.
From Verif.Model Require Export Dpoly2.
From Verif.Proof Require Export DpolyProofs.
Local Open Scope R_scope.

(** value of a monomial *)
Fixpoint den2 (k1 k2 : R) (t0 : den) : R :=
  match t0 with
  | [] => 1
  | (a, b, e) :: r => pw (IZR a * k1 + IZR b * k2) (- e) * den2 k1 k2 r
  end.
Definition mon2 (k1 k2 : R) (vals : list R) (k : fkey) : R :=
  let '(t0, ((n1, n2), x)) := k in
  den2 k1 k2 t0 * exp (- (IZR n1 * k1 + IZR n2 * k2) * nth 0 vals 0) * monx vals x.

Lemma den2_app k1 k2 a b : den2 k1 k2 (a ++ b) = den2 k1 k2 a * den2 k1 k2 b.
Proof. induction a as [|[[x y] e] r IH]; cbn [app den2]; [ring|]. rewrite IH. ring. Qed.

(** ** poly2num is evaluation *)
Lemma p2n_head_eq k1 k2 h t0 n1 n2 x c :
  p2n_head k1 k2 h ((t0, ((n1, n2), x)), c)
  = Q2R c * den2 k1 k2 t0 * exp (- (IZR n1 * k1 + IZR n2 * k2) * h) * pw h (nthZ x 0).
Proof.
  unfold p2n_head.
  assert (F : forall t0 v, fold_left (fun val t => let '(a, b, e) := t in
      val * powerRZ (IZR a * k1 + IZR b * k2) (- e)) t0 v = v * den2 k1 k2 t0).
  { induction t1 as [|[[a b] e] r IH]; intro v; cbn [fold_left den2]; [ring|]. rewrite IH.
    change (powerRZ ?x ?n) with (pw x n). ring. }
  rewrite F. reflexivity.
Qed.
Definition len2 (n : nat) (k : fkey) : Prop := length (snd (snd k)) = n.
Ltac p2n2 := match goal with |- _ -> _ = _ =>
  let A := fresh in intro A; etransitivity; [apply fold_sum|]; rewrite Rplus_0_l, sumR_eval; apply sumR_ext;
  intros [[t0 [[n1 n2] K]] c] Hin; pose proof (allk_in _ _ _ c A Hin) as HK; unfold len2 in HK; cbn [snd] in HK;
  rewrite p2n_head_eq; unfold kint; cbn [fst snd];
  keyn HK; unfold nthZ, v2_m, v2_cm, v_jump, mon2; cbn [nth monx app];
  repeat match goal with |- context [powerRZ ?x ?n] => change (powerRZ x n) with (pw x n) end; ring end.
Lemma poly2num2_m_eval p par : allk (len2 6) (items p) ->
  poly2num2_m p par = eval (mon2 (par "k1"%string) (par "k2"%string) (v2_m par)) (items p).
Proof. unfold poly2num2_m. p2n2. Qed.
Lemma poly2num2_cm_eval p par : allk (len2 5) (items p) ->
  poly2num2_cm p par = eval (mon2 (par "k1"%string) (par "k2"%string) (v2_cm par)) (items p).
Proof. unfold poly2num2_cm. p2n2. Qed.
Lemma poly2num2_mj_eval p par : allk (len2 9) (items p) ->
  poly2num2_mj p par = eval (mon2 (par "k1"%string) (par "k2"%string) (v2_m par ++ v_jump par)) (items p).
Proof. unfold poly2num2_mj. p2n2. Qed.
Lemma poly2num2_cmj_eval p par : allk (len2 8) (items p) ->
  poly2num2_cmj p par = eval (mon2 (par "k1"%string) (par "k2"%string) (v2_cm par ++ v_jump par)) (items p).
Proof. unfold poly2num2_cmj. p2n2. Qed.

Lemma fits2_len par vals l n : length vals = n -> fits2 par vals l -> allk (len2 n) l.
Proof.
  intros Hl Hf k Hk. apply in_map_iff in Hk. destruct Hk as ([[t0 [t1 x]] c] & <- & Hin).
  destruct (Hf t0 t1 x c Hin) as [_ Hx]. unfold len2. cbn [fst snd]. rewrite <- Hl. clear - Hx. induction Hx; cbn [length]; congruence.
Qed.

(** ** the loops: every item contributes a list of (key, factor) *)
Definition ed_items (f : fkey -> list (fkey * Z)) (l : list (fkey * Q)) (a : list (fkey * Q)) : list (fkey * Q) :=
  fold_left (fun a kv => fold_left (fun a e => add_kv (fst e) (qmul (qz (snd e)) (snd kv)) a) (f (fst kv)) a) l a.
Definition ed_val (mon : fkey -> R) (f : fkey -> list (fkey * Z)) (k : fkey) : R :=
  sumR (fun e => IZR (snd e) * mon (fst e)) (f k).

Lemma ed_items_eval mon f l : forall a, eval mon (ed_items f l a) = eval mon a + eval (ed_val mon f) l.
Proof.
  unfold ed_items. induction l as [|[k v] l IH]; intro a; cbn [fold_left eval fst snd]; [ring|]. rewrite IH.
  assert (In1 : forall es a, eval mon (fold_left (fun a e => add_kv (fst e) (qmul (qz (snd e)) v) a) es a)
    = eval mon a + Q2R v * sumR (fun e => IZR (snd e) * mon (fst e)) es).
  { induction es as [|e es IHe]; intro a'; cbn [fold_left sumR]; [ring|]. rewrite IHe, eval_add_kv, Q2R_mul, Q2R_qz. ring. }
  rewrite In1. unfold ed_val. ring.
Qed.
Lemma ed_items_allk (P : fkey -> Prop) f l : (forall k e, P k -> In e (f k) -> P (fst e)) ->
  allk P l -> forall a, allk P a -> allk P (ed_items f l a).
Proof.
  intros Hf Hl. unfold ed_items. induction l as [|[k v] l IH]; intros a Ha; cbn [fold_left fst snd]; [assumption|].
  pose proof (allk_in _ _ k v Hl (or_introl eq_refl)) as Hk.
  apply IH; [intros k' Hk'; apply Hl; now right|]. specialize (Hf k). clear IH Hl. revert a Ha.
  induction (f k) as [|e es IHe]; intros a Ha; cbn [fold_left]; [assumption|]. apply IHe.
  - intros e' p' Hin. apply Hf; [assumption|now right].
  - apply allk_add_kv; [assumption|]. apply Hf; [assumption|now left].
Qed.

Definition e_plain (i : nat) (k : fkey) : list (fkey * Z) :=
  let '(t0, (t1, x)) := k in if (nthZ x i =? 0)%Z then [] else [((t0, (t1, addat i (-1) x)), nthZ x i)].
Definition e_dt (n : Z * Z * Z -> Z) (k : fkey) : list (fkey * Z) :=
  map (fun t => ((fst t, snd k), snd t)) (dt0_go n [] (fst k)).
Definition e_exp (n : Z * Z -> Z) (k : fkey) : list (fkey * Z) :=
  let '(t0, (t1, x)) := k in if (n t1 =? 0)%Z then [] else [((t0, (t1, addat 0 1 x)), (- n t1)%Z)].

Lemma fold_left_ext {A B} (f g : A -> B -> A) l : (forall a x, f a x = g a x) -> forall a, fold_left f l a = fold_left g l a.
Proof. intro H. induction l as [|x r IH]; intro a; cbn [fold_left]; [reflexivity|]. now rewrite H, IH. Qed.
Lemma fold_left_map {A B C} (f : A -> C -> A) (g : B -> C) l : forall a, fold_left f (map g l) a = fold_left (fun a x => f a (g x)) l a.
Proof. induction l as [|x r IH]; intro a; cbn [fold_left map]; [reflexivity|]. apply IH. Qed.
Lemma d2_plain_eq i kf p : d2_plain i kf p = Ok (mkPoly (ed_items (e_plain i) (items p) []) kf).
Proof.
  unfold d2_plain, ed_items. f_equal. f_equal. apply fold_left_ext. intros a [[t0 [t1 x]] c]. cbn [fst snd e_plain].
  destruct (nthZ x i =? 0)%Z; reflexivity.
Qed.
Lemma d2_k_eq (n3 : Z * Z * Z -> Z) (n2 : Z * Z -> Z) wrt kf p :
  (forall t0, dt0 t0 wrt = Ok (dt0_go n3 [] t0)) ->
  (forall a b, (if (wrt =? "k1")%string then a else b) = n2 (a, b)) ->
  d2_k wrt kf p = Ok (mkPoly (ed_items (e_exp n2) (items p) (ed_items (e_dt n3) (items p) [])) kf).
Proof.
  intros H1 H2. unfold d2_k.
  assert (F : forall l a, foldM (fun a kv => let '(t0, t1x) := fst kv in let! deriv := dt0 t0 wrt in
      Ok (fold_left (fun a t => add_kv (fst t, t1x) (qmul (qz (snd t)) (snd kv)) a) deriv a)) l a
    = Ok (ed_items (e_dt n3) l a)).
  { induction l as [|[[t0 t1x] c] l IH]; intro a; cbn [foldM]; [reflexivity|]. cbn [fst snd]. rewrite H1. cbn [bind].
    rewrite IH. f_equal. unfold ed_items. cbn [fold_left fst snd]. f_equal. unfold e_dt. cbn [fst snd]. rewrite fold_left_map. reflexivity. }
  rewrite F. cbn [bind]. f_equal. f_equal. unfold ed_items at 2. apply fold_left_ext. intros a [[t0 [[x1 x2] x]] c]. cbn [fst snd e_exp].
  rewrite H2. destruct (n2 (x1, x2) =? 0)%Z; reflexivity.
Qed.

(** ** derivatives *)
Section D2.
Variables (k1 k2 : R).

(** one of k1, k2 varies: [w t = (k1, k2)] along the line, [n] picks the coefficient *)
Lemma dt0_go_derive (w1 w2 : R -> R) (x : R) (n : Z * Z * Z -> Z) :
  w1 x = k1 -> w2 x = k2 ->
  (forall a b e, is_derive (fun t => IZR a * w1 t + IZR b * w2 t) x (IZR (n (a, b, e)))) ->
  forall t0, (forall a b e, In (a, b, e) t0 -> IZR a * k1 + IZR b * k2 <> 0 \/ (e <= 0)%Z) ->
  is_derive (fun t => den2 (w1 t) (w2 t) t0) x
    (sumR (fun d => IZR (snd d) * den2 k1 k2 (fst d)) (dt0_go n [] t0)).
Proof.
  intros e1 e2 Hn t0 Ht.
  assert (G : forall t0 pre, sumR (fun d => IZR (snd d) * den2 k1 k2 (fst d)) (dt0_go n pre t0)
    = den2 k1 k2 pre * sumR (fun d => IZR (snd d) * den2 k1 k2 (fst d)) (dt0_go n [] t0)).
  { induction t1 as [|[[a b] e] r IH]; intro pre; cbn [dt0_go sumR]; [ring|].
    destruct (negb (e =? 0) && negb (n (a, b, e) =? 0))%Z; cbn [app sumR fst snd].
    - rewrite (IH (pre ++ [(a, b, e)])), (IH [(a, b, e)]), !den2_app. cbn [den2]. ring.
    - rewrite (IH (pre ++ [(a, b, e)])), (IH [(a, b, e)]), !den2_app. cbn [den2]. ring. }
  induction t0 as [|[[a b] e] r IH].
  - cbn [den2 dt0_go sumR]. apply is_derive_Rconst.
  - assert (Hr : forall a b e, In (a, b, e) r -> IZR a * k1 + IZR b * k2 <> 0 \/ (e <= 0)%Z) by (intros; apply Ht; now right).
    specialize (IH Hr). assert (H0 : IZR a * k1 + IZR b * k2 <> 0 \/ (0 <= - e)%Z).
    { destruct (Ht a b e (or_introl eq_refl)); [now left|right; lia]. }
    cbn [den2]. eapply is_derive_val.
    + apply (is_derive_Rmult (fun t => pw (IZR a * w1 t + IZR b * w2 t) (- e)) (fun t => den2 (w1 t) (w2 t) r)); [|exact IH].
      apply (is_derive_pw (fun t => IZR a * w1 t + IZR b * w2 t)); [apply (Hn a b e)|]. rewrite e1, e2. exact H0.
    + cbv beta. rewrite e1, e2. cbn [dt0_go].
      assert (S0 : sumR (fun d => IZR (snd d) * den2 k1 k2 (fst d))
          (if (negb (e =? 0) && negb (n (a, b, e) =? 0))%Z then [([] ++ (a, b, (e + 1)%Z) :: r, (- e * n (a, b, e))%Z)] else [])
        = IZR (- e) * IZR (n (a, b, e)) * pw (IZR a * k1 + IZR b * k2) (- e - 1) * den2 k1 k2 r).
      { destruct (Z.eqb_spec e 0) as [->|]; cbn [negb andb sumR]; [change (IZR (- 0)) with 0; ring|].
        destruct (Z.eqb_spec (n (a, b, e)) 0) as [->|]; cbn [negb andb sumR]; [ring|].
        cbn [app fst snd den2]. replace (- (e + 1))%Z with (- e - 1)%Z by lia. rewrite mult_IZR. ring. }
      rewrite sumR_app, S0, (G r ([] ++ [(a, b, e)])). cbn [app den2]. ring.
Qed.

Lemma mon2_k_derive (w1 w2 : R -> R) (x : R) (n3 : Z * Z * Z -> Z) (n2 : Z * Z -> Z) h vals t0 t1 ks :
  w1 x = k1 -> w2 x = k2 ->
  (forall a b e, is_derive (fun t => IZR a * w1 t + IZR b * w2 t) x (IZR (n3 (a, b, e)))) ->
  (forall a b, is_derive (fun t => IZR a * w1 t + IZR b * w2 t) x (IZR (n2 (a, b)))) ->
  (forall a b e, In (a, b, e) t0 -> IZR a * k1 + IZR b * k2 <> 0 \/ (e <= 0)%Z) ->
  Forall2 (fun v n => v <> 0 \/ (0 <= n)%Z) (h :: vals) ks ->
  is_derive (fun t => mon2 (w1 t) (w2 t) (h :: vals) (t0, (t1, ks))) x
    (ed_val (mon2 k1 k2 (h :: vals)) (e_dt n3) (t0, (t1, ks)) + ed_val (mon2 k1 k2 (h :: vals)) (e_exp n2) (t0, (t1, ks))).
Proof.
  intros e1 e2 H3 H2 Ht Hf. destruct t1 as [a b]. inversion Hf as [|? m ? ms h1 h2]; subst ks.
  unfold mon2 at 1. cbn [nth]. eapply is_derive_val.
  - apply is_derive_Rscal_r. apply (is_derive_Rmult (fun t => den2 (w1 t) (w2 t) t0)).
    + apply (dt0_go_derive w1 w2 x n3 e1 e2 H3 t0 Ht).
    + apply is_derive_Rexp. apply (is_derive_Rscal_r (fun t => - (IZR a * w1 t + IZR b * w2 t))).
      apply (is_derive_ext_loc_all (fun t => (-1) * (IZR a * w1 t + IZR b * w2 t))); [intro; ring|].
      apply is_derive_Rscal. apply (H2 a b).
  - cbv beta. rewrite e1, e2. unfold ed_val, e_dt. cbn [fst snd].
    assert (S1 : forall ls : list (den * Z), sumR (fun e : fkey * Z => IZR (snd e) * mon2 k1 k2 (h :: vals) (fst e))
        (map (fun t => ((fst t, ((a, b), m :: ms)), snd t)) ls)
      = sumR (fun d => IZR (snd d) * den2 k1 k2 (fst d)) ls
        * (exp (- (IZR a * k1 + IZR b * k2) * h) * monx (h :: vals) (m :: ms))).
    { intro ls. induction ls as [|[d z] ls IH]; cbn [map sumR]; [ring|]. rewrite IH. unfold mon2. cbn [fst snd nth]. ring. }
    rewrite S1. cbn [e_exp].
    assert (S2 : sumR (fun e : fkey * Z => IZR (snd e) * mon2 k1 k2 (h :: vals) (fst e))
        (if (n2 (a, b) =? 0)%Z then [] else [((t0, ((a, b), addat 0 1 (m :: ms))), (- n2 (a, b))%Z)])
      = - IZR (n2 (a, b)) * den2 k1 k2 t0 * exp (- (IZR a * k1 + IZR b * k2) * h) * (h * monx (h :: vals) (m :: ms))).
    { destruct (Z.eqb_spec (n2 (a, b)) 0) as [->|]; cbn [sumR]; [ring|]. unfold mon2. cbn [fst snd addat nth monx].
      rewrite (pow_lemma_pw h m 1) by (destruct h1; [now left|right; split; lia]). rewrite pw_p1, opp_IZR. ring. }
    rewrite S2. ring.
Qed.
End D2.

Lemma k2_derive (w1 w2 : R -> R) (x : R) (n3 : Z * Z * Z -> Z) (n2 : Z * Z -> Z) par h vals l :
  w1 x = par "k1"%string -> w2 x = par "k2"%string ->
  (forall a b e, is_derive (fun t => IZR a * w1 t + IZR b * w2 t) x (IZR (n3 (a, b, e)))) ->
  (forall a b, is_derive (fun t => IZR a * w1 t + IZR b * w2 t) x (IZR (n2 (a, b)))) ->
  fits2 par (h :: vals) l ->
  is_derive (fun t => eval (mon2 (w1 t) (w2 t) (h :: vals)) l) x
    (eval (mon2 (par "k1"%string) (par "k2"%string) (h :: vals)) (ed_items (e_exp n2) l (ed_items (e_dt n3) l []))).
Proof.
  intros e1 e2 H3 H2 Hf. rewrite !ed_items_eval. cbn [eval]. rewrite Rplus_0_l.
  eapply is_derive_val; [apply (is_derive_eval (fun t => mon2 (w1 t) (w2 t) (h :: vals)) (fun k =>
    ed_val (mon2 (par "k1"%string) (par "k2"%string) (h :: vals)) (e_dt n3) k
    + ed_val (mon2 (par "k1"%string) (par "k2"%string) (h :: vals)) (e_exp n2) k))|symmetry].
  - intros [t0 [t1 ks]] v Hin. destruct (Hf _ _ _ _ Hin) as [Hd Hx].
    exact (mon2_k_derive _ _ w1 w2 x n3 n2 h vals t0 t1 ks e1 e2 H3 H2 Hd Hx).
  - rewrite !(sumR_eval _ l). rewrite <- sumR_plus. apply sumR_ext. intros e _. ring.
Qed.

Lemma plain2_derive par vals i l : (S i < length vals)%nat -> fits2 par vals l ->
  is_derive (fun t => eval (mon2 (par "k1"%string) (par "k2"%string) (at_ (S i) t vals)) l) (nth (S i) vals 0)
    (eval (mon2 (par "k1"%string) (par "k2"%string) vals) (ed_items (e_plain (S i)) l [])).
Proof.
  intros Hi Hf. rewrite ed_items_eval. cbn [eval]. rewrite Rplus_0_l.
  apply (is_derive_eval (fun t => mon2 (par "k1"%string) (par "k2"%string) (at_ (S i) t vals))).
  intros [t0 [[a b] ks]] v Hin. destruct (Hf _ _ _ _ Hin) as [_ Hx].
  pose proof (plain_derive vals (S i) [] (mkPoly [(ks, 1%Q)] []) Hi) as P. cbn [items] in P.
  assert (F1 : fits vals [(ks, 1%Q)]) by (intros k c [e|[]]; injection e as <- <-; exact Hx).
  specialize (P F1). rewrite d_loop_eval in P. cbn [items eval sumR r_plain fst snd] in P.
  destruct vals as [|h vals]; [cbn in Hi; lia|].
  assert (Q1 : Q2R 1 = 1) by (unfold Q2R; simpl; field).
  unfold mon2 at 1. cbn [at_ nth] in *.
  eapply is_derive_val.
  - apply is_derive_Rscal. eapply is_derive_ext_loc_all; [|exact P]. intro t. cbv beta. rewrite Q1. ring_simplify. reflexivity.
  - unfold ed_val. cbn [e_plain]. rewrite Q1. destruct (Z.eqb_spec (nthZ ks (S i)) 0) as [e0|].
    + cbn [sumR]. rewrite e0. ring.
    + cbn [sumR fst snd]. unfold mon2. cbn [nth]. ring.
Qed.
