(** dpoly computes partial derivatives (C22, C27). *)
From Coq Require Import Reals Lra.
From Coquelicot Require Import Coquelicot.
From Verif.Spec Require Export Params.
From Verif.Model Require Export Dpoly.
From Verif.Proof Require Export MonTac.
Local Open Scope R_scope.

(** ** evaluation of the loop *)
Lemma d_loop_eval mon rules kf p :
  eval mon (items (d_loop rules kf p))
  = eval (fun k => sumR (fun r : rule => IZR (fst r k) * mon (snd r k)) rules) (items p).
Proof.
  unfold d_loop. cbn [items].
  assert (In1 : forall rs k v a, eval mon (fold_left (fun a (r : rule) => if (fst r k =? 0)%Z then a
      else add_kv (snd r k) (qmul (qz (fst r k)) v) a) rs a)
    = eval mon a + Q2R v * sumR (fun r : rule => IZR (fst r k) * mon (snd r k)) rs).
  { induction rs as [|r rs IH]; intros k v a; cbn [fold_left sumR]; [ring|]. rewrite IH.
    destruct (Z.eqb_spec (fst r k) 0) as [e|ne]; [rewrite e; ring|].
    rewrite eval_add_kv, Q2R_mul, Q2R_qz. ring. }
  assert (Out : forall l a, eval mon (fold_left (fun a kv => fold_left (fun a (r : rule) =>
      if (fst r (fst kv) =? 0)%Z then a else add_kv (snd r (fst kv)) (qmul (qz (fst r (fst kv))) (snd kv)) a) rules a) l a)
    = eval mon a + eval (fun k => sumR (fun r : rule => IZR (fst r k) * mon (snd r k)) rules) l).
  { induction l as [|[k v] l IH]; intro a; cbn [fold_left eval fst snd]; [ring|]. rewrite IH, In1. ring. }
  rewrite Out. cbn [eval]. ring.
Qed.
Lemma d_loop_len rules kf p n : (forall r, In r rules -> forall k, length (snd r k) = length k) ->
  allk (fun k => length k = n) (items p) -> allk (fun k => length k = n) (items (d_loop rules kf p)).
Proof.
  intros Hr Hp. unfold d_loop. cbn [items].
  assert (W : forall l a, allk (fun k => length k = n) l -> allk (fun k => length k = n) a ->
    allk (fun k => length k = n) (fold_left (fun a kv => fold_left (fun a (r : rule) =>
      if (fst r (fst kv) =? 0)%Z then a else add_kv (snd r (fst kv)) (qmul (qz (fst r (fst kv))) (snd kv)) a) rules a) l a)).
  { induction l as [|[k v] l IH]; intros a Hl Ha; cbn [fold_left fst snd]; [assumption|].
    pose proof (allk_in _ _ k v Hl (or_introl eq_refl)) as Hk. cbv beta in Hk.
    assert (Hl' : allk (fun k => length k = n) l) by (intros k' Hk'; apply Hl; now right). clear Hl. rename Hl' into Hl. apply IH; [assumption|]. clear IH.
    revert a Ha. induction rules as [|r rs IHr]; intros a Ha; cbn [fold_left]; [assumption|].
    apply IHr; [intros; apply Hr; now right|]. destruct (fst r k =? 0)%Z; [assumption|].
    apply allk_add_kv; [assumption|]. rewrite (Hr r (or_introl eq_refl)). assumption. }
  apply W; [assumption|apply allk_nil].
Qed.
Lemma addat_length i d k : length (addat i d k) = length k.
Proof. revert i. induction k as [|x r IH]; intros [|i]; cbn [addat length]; congruence. Qed.

(** ** derivative of a monomial whose variables are functions *)
Fixpoint dmonx (xs ds : list R) (ks : list Z) : R :=
  match xs, ds, ks with
  | x :: xr, d :: dr, k :: kr => IZR k * d * pw x (k - 1) * monx xr kr + pw x k * dmonx xr dr kr
  | _, _, _ => 0
  end.
(** one variable with its derivative and exponent is fine if the power is differentiable *)
Inductive ders : list (R -> R) -> R -> list R -> list Z -> Prop :=
| ders_nil x : ders [] x [] []
| ders_cons f fs x d ds k ks : is_derive f x d -> f x <> 0 \/ (0 <= k)%Z -> ders fs x ds ks ->
    ders (f :: fs) x (d :: ds) (k :: ks).

Lemma is_derive_monx fs (x : R) ds ks : ders fs x ds ks ->
  is_derive (fun t => monx (map (fun f => f t) fs) ks) x (dmonx (map (fun f => f x) fs) ds ks).
Proof.
  induction 1 as [x|f fs x d ds k ks h1 h2 h3 IH]; cbn [map monx dmonx].
  - apply is_derive_Rconst.
  - eapply is_derive_val; [apply (is_derive_Rmult (fun t => pw (f t) k) (fun t => monx (map (fun f => f t) fs) ks));
      [apply is_derive_pw; eassumption|exact IH]|]. cbv beta. ring.
Qed.

Lemma d_loop_derive fs (x : R) ds rules kf p :
  (forall k v, In (k, v) (items p) -> ders fs x ds k) ->
  (forall k v, In (k, v) (items p) ->
     sumR (fun r : rule => IZR (fst r k) * monx (map (fun f => f x) fs) (snd r k)) rules
     = dmonx (map (fun f => f x) fs) ds k) ->
  is_derive (fun t => eval (monx (map (fun f => f t) fs)) (items p)) x
    (eval (monx (map (fun f => f x) fs)) (items (d_loop rules kf p))).
Proof.
  intros H1 H2. rewrite d_loop_eval.
  rewrite (eval_ext_in _ (dmonx (map (fun f => f x) fs) ds)) by exact H2.
  apply (is_derive_eval (fun t => monx (map (fun f => f t) fs))). intros k v Hin. apply is_derive_monx. eauto.
Qed.

(** ** poly2num is evaluation *)
Lemma fold_sum {A} (f : A -> R) l : forall a, fold_left (fun v x => v + f x) l a = a + sumR f l.
Proof. induction l as [|x r IH]; intro a; cbn [fold_left sumR]; [ring|]. rewrite IH. ring. Qed.
Lemma exp_pw n x : exp (- IZR n * x) = pw (exp (- x)) n.
Proof.
  assert (P : forall m : nat, exp (INR m * x) = exp x ^ m).
  { induction m as [|m IH]; [rewrite Rmult_0_l, exp_0; reflexivity|].
    rewrite S_INR, Rmult_plus_distr_r, Rmult_1_l, exp_plus, IH. simpl. ring. }
  unfold pw. rewrite exp_Ropp. destruct n as [|q|q].
  - simpl. rewrite Ropp_0, Rmult_0_l. apply exp_0.
  - change (IZR (Z.pos q)) with (IZR (Zpos q)). rewrite <- (positive_nat_Z q), <- INR_IZR_INZ.
    rewrite Ropp_mult_distr_l_reverse, exp_Ropp, P, positive_nat_Z. cbn [powerRZ]. symmetry. apply pow_inv.
  - change (Z.neg q) with (- Z.pos q)%Z. rewrite opp_IZR, Ropp_involutive, <- (positive_nat_Z q), <- INR_IZR_INZ, P.
    rewrite positive_nat_Z. cbn [Z.opp powerRZ]. rewrite pow_inv, Rinv_inv. reflexivity.
Qed.
Lemma pw_inv_neg x n : pw x (- n) = pw (/ x) n.
Proof.
  unfold pw. destruct n as [|q|q]; cbn [Z.opp powerRZ]; [reflexivity| |].
  - now rewrite pow_inv.
  - now rewrite pow_inv, Rinv_inv.
Qed.


Ltac keyn HK := repeat match type of HK with length ?K = S _ => destruct K as [|? K]; [discriminate HK|]; injection HK as HK end;
  match type of HK with length ?K = O => destruct K; [|discriminate HK] end.
Ltac p2n := match goal with |- _ -> _ = _ =>
  let A := fresh in intro A; etransitivity; [apply fold_sum|]; rewrite Rplus_0_l, sumR_eval; apply sumR_ext;
  intros [K c] Hin; pose proof (allk_in _ _ K c A Hin) as HK; cbv beta in HK; cbn [fst snd];
  keyn HK; unfold pint, nthZ, v_m1, v_cm1, v_jump; cbn [nth monx app];
  repeat match goal with |- context [powerRZ ?x ?n] => change (powerRZ x n) with (pw x n) end;
  rewrite (Rmult_assoc (- _)), exp_pw, pw_inv_neg; ring end.

Lemma poly2num_m1_eval p par : allk (fun k => length k = 8%nat) (items p) ->
  poly2num_m1 p par = eval (monx (v_m1 par)) (items p).
Proof. unfold poly2num_m1. p2n. Qed.
Lemma poly2num_cm1_eval p par : allk (fun k => length k = 7%nat) (items p) ->
  poly2num_cm1 p par = eval (monx (v_cm1 par)) (items p).
Proof. unfold poly2num_cm1. p2n. Qed.
Lemma poly2num_mj_eval p par : allk (fun k => length k = 11%nat) (items p) ->
  poly2num_mj p par = eval (monx (v_m1 par ++ v_jump par)) (items p).
Proof. unfold poly2num_mj. p2n. Qed.
Lemma poly2num_cmj_eval p par : allk (fun k => length k = 10%nat) (items p) ->
  poly2num_cmj p par = eval (monx (v_cm1 par ++ v_jump par)) (items p).
Proof. unfold poly2num_cmj. p2n. Qed.

(** ** the individual derivatives *)
Lemma fits_len vals l n : length vals = n -> fits vals l -> allk (fun k => length k = n) l.
Proof.
  intros Hl Hf k Hk. apply in_map_iff in Hk. destruct Hk as ([k' c] & <- & Hin).
  specialize (Hf k' c Hin). cbn [fst]. rewrite <- Hl. clear - Hf. induction Hf; cbn [length]; congruence.
Qed.
Lemma der_ekh h k : is_derive (fun k => exp (- (k * h))) k (- h * exp (- (k * h))).
Proof.
  eapply is_derive_val; [apply is_derive_Rexp; apply (is_derive_ext_loc_all (fun k => (- h) * k));
    [intro; ring|apply is_derive_lin]|]. cbv beta. ring.
Qed.
Lemma der_inv (k : R) : k <> 0 -> is_derive (fun k => / k) k (- (/ k * / k)).
Proof.
  intro Hk. eapply is_derive_val; [apply (is_derive_inv (fun k => k)); [apply is_derive_Rid|assumption]|].
  field. assumption.
Qed.
Lemma der_sqrt (r : R) : -1 < r < 1 -> is_derive (fun r => sqrt (1 - r ^ 2)) r (- r * / sqrt (1 - r ^ 2)).
Proof.
  intro Hr. assert (Hp : 0 < 1 - r ^ 2) by nra.
  eapply is_derive_val.
  - apply (is_derive_sqrt (fun r => 1 - r ^ 2)); [|assumption]. apply is_derive_Rminus; [apply is_derive_Rconst|].
    apply is_derive_Rpow, is_derive_Rid.
  - cbn [pred pow INR]. pose proof (sqrt_lt_R0 _ Hp). cbn [pow] in *. field. lra.
Qed.
Lemma sqrt_nz r : -1 < r < 1 -> sqrt (1 - r ^ 2) <> 0.
Proof. intro Hr. assert (Hp : 0 < 1 - r ^ 2) by nra. pose proof (sqrt_lt_R0 _ Hp). lra. Qed.

Lemma pw_p1 x : pw x 1 = x.
Proof. unfold pw. cbn [powerRZ]. change (Pos.to_nat 1) with 1%nat. cbn [pow]. ring. Qed.
Lemma pw_m1 x : pw x (-1) = / x.
Proof. unfold pw. cbn [powerRZ]. change (Pos.to_nat 1) with 1%nat. cbn [pow]. now rewrite Rmult_1_r. Qed.
Lemma pw_m2 x : pw x (-2) = / (x * x).
Proof. unfold pw. cbn [powerRZ]. change (Pos.to_nat 2) with 2%nat. cbn [pow]. now rewrite Rmult_1_r. Qed.

Section Ders.
Variables (par : string -> R) (Hk : par "k"%string <> 0) (Hr : -1 < par "rho"%string < 1).
Local Notation K := (par "k"%string).
Local Notation H := (par "h"%string).
Local Notation RHO := (par "rho"%string).
Local Notation S1 := (sqrt (1 - RHO ^ 2)).

Definition c_ (x : R) : R -> R := fun _ => x.

(** a list of constants except the variable at position [i] *)
Lemma ders_consts x vals ks : Forall2 (fun y n => y <> 0 \/ (0 <= n)%Z) vals ks ->
  ders (map c_ vals) x (map (fun _ => 0) vals) ks.
Proof.
  induction 1 as [|y n vals ks h1 h2 IH]; cbn [map]; constructor; try assumption. apply is_derive_Rconst.
Qed.
Lemma dmonx_0 xs ys ks : dmonx xs (map (fun _ : R => 0) ys) ks = 0.
Proof.
  revert xs ks. induction ys as [|y ys IH]; intros [|x xs] [|k ks]; cbn [map dmonx]; try reflexivity.
  rewrite IH. ring.
Qed.
Fixpoint at_ {A} (i : nat) (y : A) (l : list A) : list A :=
  match l, i with
  | [], _ => []
  | x :: r, O => y :: r
  | x :: r, S i' => x :: at_ i' y r
  end.
Lemma at_nth {A} (l : list A) : forall i x, nth_error l i = Some x -> at_ i x l = l.
Proof.
  induction l as [|y r IH]; intros [|i] x e; try discriminate; cbn [at_ nth_error] in *; [congruence|].
  f_equal. auto.
Qed.
Lemma map_c vals x : map (fun f => f x) (map c_ vals) = vals.
Proof. induction vals as [|y r IH]; cbn [map]; [reflexivity|]. now rewrite IH. Qed.
Lemma map_at vals i x f : map (fun f => f x) (at_ i f (map c_ vals)) = at_ i (f x) vals.
Proof.
  revert i. induction vals as [|y r IH]; intros [|i]; cbn [map at_]; try reflexivity.
  - now rewrite map_c.
  - now rewrite IH.
Qed.

(** d/dx_i *)
Lemma plain_derive vals i kf p : (i < length vals)%nat -> fits vals (items p) ->
  is_derive (fun t => eval (monx (at_ i t vals)) (items p)) (nth i vals 0)
    (eval (monx vals) (items (d_loop (r_plain i) kf p))).
Proof.
  intros Hi Hf. set (x := nth i vals 0).
  assert (Ex : nth_error vals i = Some x) by now apply nth_error_nth'.
  assert (Em : map (fun f => f x) (at_ i (fun t => t) (map c_ vals)) = vals).
  { rewrite map_at. now apply at_nth. }
  apply (is_derive_ext_loc_all (fun t => eval (monx (map (fun f => f t) (at_ i (fun t => t) (map c_ vals)))) (items p))).
  { intro t. now rewrite map_at. }
  replace (eval (monx vals) (items (d_loop (r_plain i) kf p)))
    with (eval (monx (map (fun f => f x) (at_ i (fun t => t) (map c_ vals)))) (items (d_loop (r_plain i) kf p)))
    by now rewrite Em.
  apply (d_loop_derive _ x (at_ i 1 (map (fun _ => 0) vals))).
  - intros k c Hin. specialize (Hf k c Hin). clear Hin Em Hi. clearbody x. revert i Ex.
    induction Hf as [|y n vals' ks h1 h2 IH]; intros [|i] Ex; try discriminate; cbn [map at_ nth_error] in *.
    + injection Ex as ->. constructor; [apply is_derive_Rid|assumption|now apply ders_consts].
    + constructor; [apply is_derive_Rconst|assumption|]. now apply IH.
  - intros k c Hin. specialize (Hf k c Hin). rewrite Em. clear Hin Em Hi. clearbody x.
    unfold r_plain. cbn [sumR fst snd]. rewrite Rplus_0_r. revert i Ex.
    induction Hf as [|y n vals' ks h1 h2 IH]; intros [|i] Ex; try discriminate; cbn [map at_ nth_error] in *.
    + injection Ex as ->. unfold nthZ. cbn [nth addat monx dmonx]. rewrite dmonx_0. unfold Z.sub. change (Z.opp 1) with (-1)%Z. ring.
    + unfold nthZ in *. cbn [nth addat monx dmonx]. specialize (IH i Ex). rewrite <- IH. ring.
Qed.

(** d/dk and d/drho for the layouts of the one-factor models *)
Lemma k_derive (rest : list R) kf p : fits (exp (- (K * H)) :: H :: / K :: rest) (items p) ->
  is_derive (fun k => eval (monx (exp (- (k * H)) :: H :: / k :: rest)) (items p)) K
    (eval (monx (exp (- (K * H)) :: H :: / K :: rest)) (items (d_loop r_k kf p))).
Proof.
  intro Hf.
  set (fs := (fun k => exp (- (k * H))) :: (fun _ => H) :: (fun k => / k) :: map c_ rest).
  assert (Em : forall x, map (fun f => f x) fs = exp (- (x * H)) :: H :: / x :: rest).
  { intro x. unfold fs. cbn [map]. now rewrite map_c. }
  apply (is_derive_ext_loc_all (fun t => eval (monx (map (fun f => f t) fs)) (items p))).
  { intro t. now rewrite Em. }
  rewrite <- Em.
  apply (d_loop_derive fs K (- H * exp (- (K * H)) :: 0 :: - (/ K * / K) :: map (fun _ => 0) rest)).
  - intros k c Hin. specialize (Hf k c Hin).
    inversion Hf as [|? n0 ? k0 _ h1]; subst. inversion h1 as [|? n1 ? k1 g1 h2]; subst. inversion h2 as [|? n2 ? k2 _ h3]; subst.
    unfold fs. apply ders_cons; [apply der_ekh|left; apply exp_neq0|]. apply ders_cons; [apply is_derive_Rconst|assumption|].
    apply ders_cons; [now apply der_inv|left; now apply Rinv_neq_0_compat|]. now apply ders_consts.
  - intros k c Hin. specialize (Hf k c Hin). rewrite Em.
    inversion Hf as [|? n0 ? k0 _ h1]; subst. inversion h1 as [|? n1 ? k1 g1 h2]; subst. inversion h2 as [|? n2 ? k2 _ h3]; subst.
    unfold r_k, nthZ. cbn [sumR fst snd nth addat monx dmonx]. rewrite dmonx_0, !opp_IZR.
    assert (Hi : / K <> 0) by now apply Rinv_neq_0_compat.
    rewrite (pow_lemma_pw (/ K) n2 1) by now left.
    unfold Z.sub. rewrite (pow_lemma_pw (/ K) n2 (- (1))) by now left.
    rewrite (pow_lemma_pw H n1 1) by (destruct g1; [now left|right; split; lia]).
    rewrite (pow_lemma_pw (exp (- (K * H))) n0 (- (1))) by (left; apply exp_neq0).
    change (- (1))%Z with (-1)%Z. rewrite ?pw_p1, ?pw_m1, ?pw_m2. field.
    split; [assumption|apply exp_neq0].
Qed.

Lemma rho_derive (pre rest : list R) kf p :
  fits (pre ++ RHO :: S1 :: rest) (items p) ->
  is_derive (fun r => eval (monx (pre ++ r :: sqrt (1 - r ^ 2) :: rest)) (items p)) RHO
    (eval (monx (pre ++ RHO :: S1 :: rest)) (items (d_loop (r_rho (length pre) (S (length pre))) kf p))).
Proof.
  intro Hf.
  set (fs := map c_ pre ++ (fun r => r) :: (fun r => sqrt (1 - r ^ 2)) :: map c_ rest).
  assert (Em : forall x, map (fun f => f x) fs = pre ++ x :: sqrt (1 - x ^ 2) :: rest).
  { intro x. unfold fs. rewrite map_app. cbn [map]. now rewrite !map_c. }
  apply (is_derive_ext_loc_all (fun t => eval (monx (map (fun f => f t) fs)) (items p))).
  { intro t. now rewrite Em. }
  rewrite <- Em.
  apply (d_loop_derive fs RHO (map (fun _ => 0) pre ++ 1 :: (- RHO * / S1) :: map (fun _ => 0) rest)).
  - intros k c Hin. specialize (Hf k c Hin). unfold fs. clear - Hf Hr. revert k Hf.
    induction pre as [|y pre IH]; intros k Hf; cbn [app map] in *.
    + inversion Hf as [|? n0 ? k0 g0 h1]; subst. inversion h1 as [|? n1 ? k1 g1 h2]; subst.
      apply ders_cons; [apply is_derive_Rid|assumption|]. apply ders_cons; [now apply der_sqrt|assumption|]. now apply ders_consts.
    + inversion Hf as [|? n0 ? k0 g0 h1]; subst. apply ders_cons; [apply is_derive_Rconst|assumption|]. now apply IH.
  - intros k c Hin. specialize (Hf k c Hin). rewrite Em. unfold r_rho, nthZ. cbn [sumR fst snd]. clear - Hf Hr. revert k Hf.
    induction pre as [|y pre IH]; intros k Hf; cbn [app map length] in *.
    + inversion Hf as [|? n0 ? k0 g0 h1]; subst. inversion h1 as [|? n1 ? k1 g1 h2]; subst.
      cbn [nth addat monx dmonx]. rewrite dmonx_0, opp_IZR.
      pose proof (sqrt_nz _ Hr) as Hs. clear g1.
      rewrite (pow_lemma_pw RHO n0 1) by (destruct g0; [now left|right; split; lia]).
      unfold Z.sub. rewrite (pow_lemma_pw S1 n1 (-2)), (pow_lemma_pw S1 n1 (- (1))) by now left.
      change (- (1))%Z with (-1)%Z. set (A := pw RHO (n0 + -1)). rewrite ?pw_p1, ?pw_m1, ?pw_m2. field. assumption.
    + inversion Hf as [|? n0 ? k0 g0 h1]; subst. cbn [nth addat monx dmonx]. specialize (IH _ h1). cbn [addat] in IH. rewrite <- IH. ring.
Qed.
End Ders.
