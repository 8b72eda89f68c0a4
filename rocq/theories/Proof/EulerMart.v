(** Martingale property, isometry and the limit without noise of the Euler schemes. *)
From Coq Require Import Reals Lra.
From Coquelicot Require Import Coquelicot.
From Verif.Spec Require Import Euler.
From Verif.Proof Require Import SumFacts ExpectFacts EulerProofs.
Local Open Scope R_scope.

Lemma before_le {Om} (Z : nat -> Om -> R) c c' f : (c <= c')%nat -> before Z c f -> before Z c' f.
Proof. intros Hc H w w' Hw. apply H. intros. apply Hw. lia. Qed.
Lemma before_draw {Om} (Z : nat -> Om -> R) c c' : (c < c')%nat -> before Z c' (Z c).
Proof. intros Hc w w' Hw. apply Hw. exact Hc. Qed.
Lemma before_2 {Om} (Z : nat -> Om -> R) c f g (op : R -> R -> R) : before Z c f -> before Z c g -> before Z c (fun w => op (f w) (g w)).
Proof. intros Hf Hg w w' Hw. now rewrite (Hf w w' Hw), (Hg w w' Hw). Qed.
Lemma before_1 {Om} (Z : nat -> Om -> R) c f (op : R -> R) : before Z c f -> before Z c (fun w => op (f w)).
Proof. intros Hf w w' Hw. now rewrite (Hf w w' Hw). Qed.
Lemma before_tpath {Om} (Z : nat -> Om -> R) c k th sg dt (dw : nat -> Om -> R) v m b : before Z c v ->
  (forall j, (j < m)%nat -> before Z b (dw j)) -> (c <= b)%nat -> before Z b (fun w => tpath k th sg dt (fun j => dw j w) (v w) m).
Proof.
  intros Hv. induction m as [|m IH]; intros Hd Hb; [exact (before_le _ _ _ _ Hb Hv)|].
  cbn [tpath]. apply (before_2 _ _ (dw m) (fun w => tpath k th sg dt (fun j => dw j w) (v w) m) (fun a b => tstep k th sg dt a b)).
  - apply Hd. lia.
  - apply IH; [|exact Hb]. intros. apply Hd. lia.
Qed.
Lemma before_sum {Om} (Z : nat -> Om -> R) b (f : nat -> Om -> R) n : (forall j, (j < n)%nat -> before Z b (f j)) ->
  before Z b (fun w => sumR (fun j => f j w) (seq 0 n)).
Proof. intros H w w' Hw. apply sumR_ext. intros j Hj. apply in_seq in Hj. apply H; [lia|exact Hw]. Qed.
Lemma sumR_S (f : nat -> R) n : sumR f (seq 0 (S n)) = sumR f (seq 0 n) + f n.
Proof. rewrite seq_S, sumR_app. cbn [sumR Nat.add]. lra. Qed.

(** Sums of predictable integrands: s j times (a Z_p + b Z_{p+1}), p = p0 + q j *)
Section Mart.
Context {Om : Type} (E : (Om -> R) -> R) (Z : nat -> Om -> R) (C : nat) (HW : white E Z C).
Let HE := wh_E E Z C HW.

Lemma mart1 (q p0 : nat) (s : nat -> Om -> R) n : (1 <= q)%nat -> (p0 + q * n <= C)%nat ->
  (forall j, (j < n)%nat -> before Z (p0 + q * j) (s j)) ->
  E (fun w => sumR (fun j => s j w * Z (p0 + q * j)%nat w) (seq 0 n)) = 0 /\
  E (fun w => sumR (fun j => s j w * Z (p0 + q * j)%nat w) (seq 0 n) ^ 2) = E (fun w => sumR (fun j => s j w ^ 2) (seq 0 n)).
Proof.
  intros Hq. induction n as [|n IH]; intros HC Hs.
  { cbn [seq sumR]. split; [|apply (E_ext E HE); intro; ring].
    transitivity (E (fun w => 0 * 1)); [apply (E_ext E HE); intro; ring|]. rewrite (E_scal E HE). ring. }
  destruct IH as [IH1 IH2]; [lia|intros; apply Hs; lia|]. set (M := fun w => sumR (fun j => s j w * Z (p0 + q * j)%nat w) (seq 0 n)) in *.
  assert (BM : before Z (p0 + q * n) M).
  { apply before_sum. intros j Hj. apply (before_2 _ _ (s j) (Z (p0 + q * j)%nat) Rmult).
    - apply (before_le _ (p0 + q * j)); [nia|]. apply Hs. lia.
    - apply before_draw. nia. }
  assert (Bs : before Z (p0 + q * n) (s n)) by (apply Hs; lia).
  split.
  - transitivity (E M + E (fun w => s n w * Z (p0 + q * n)%nat w)).
    { rewrite <- (E_plus E HE). apply (E_ext E HE). intro w. unfold M. now rewrite sumR_S. }
    rewrite IH1, (wh_mean E Z C HW) by (try assumption; nia). ring.
  - transitivity (E (fun w => M w ^ 2) + (2 * E (fun w => (M w * s n w) * Z (p0 + q * n)%nat w) + E (fun w => s n w ^ 2 * Z (p0 + q * n)%nat w ^ 2))).
    { rewrite <- (E_scal E HE), <- !(E_plus E HE). apply (E_ext E HE). intro w. unfold M. rewrite sumR_S. ring. }
    rewrite (wh_mean E Z C HW) by (try nia; now apply before_2).
    rewrite (wh_var E Z C HW) by (try nia; now apply (before_1 _ _ _ (fun x => x ^ 2))).
    unfold M. rewrite IH2, Rmult_0_r, Rplus_0_l, <- (E_plus E HE). apply (E_ext E HE). intro w. now rewrite sumR_S.
Qed.
Lemma mart2 (a b : R) (p0 : nat) (s : nat -> Om -> R) n : (p0 + 2 * n <= C)%nat ->
  (forall j, (j < n)%nat -> before Z (p0 + 2 * j) (s j)) ->
  let M w := sumR (fun j => s j w * (a * Z (p0 + 2 * j)%nat w + b * Z (p0 + 2 * j + 1)%nat w)) (seq 0 n) in
  E M = 0 /\ E (fun w => M w ^ 2) = (a ^ 2 + b ^ 2) * E (fun w => sumR (fun j => s j w ^ 2) (seq 0 n)).
Proof.
  induction n as [|n IH]; intros HC Hs.
  { cbn [seq sumR]. split; [|rewrite <- (E_scal E HE); apply (E_ext E HE); intro; ring].
    transitivity (E (fun w => 0 * 1)); [apply (E_ext E HE); intro; ring|]. rewrite (E_scal E HE). ring. }
  destruct IH as [IH1 IH2]; [lia|intros; apply Hs; lia|]. cbv zeta.
  set (M := fun w => sumR (fun j => s j w * (a * Z (p0 + 2 * j)%nat w + b * Z (p0 + 2 * j + 1)%nat w)) (seq 0 n)) in *.
  assert (BM : before Z (p0 + 2 * n) M).
  { apply before_sum. intros j Hj. apply (before_2 _ _ (s j) (fun w => a * Z (p0 + 2 * j)%nat w + b * Z (p0 + 2 * j + 1)%nat w) Rmult).
    - apply (before_le _ (p0 + 2 * j)); [lia|]. apply Hs. lia.
    - apply (before_2 _ _ (Z (p0 + 2 * j)%nat) (Z (p0 + 2 * j + 1)%nat) (fun x y => a * x + b * y)); apply before_draw; lia. }
  assert (Bs : before Z (p0 + 2 * n) (s n)) by (apply Hs; lia).
  set (z := Z (p0 + 2 * n)%nat). set (z' := Z (p0 + 2 * n + 1)%nat).
  assert (B' : forall f, before Z (p0 + 2 * n) f -> before Z (p0 + 2 * n + 1) f) by (intros f; apply before_le; lia).
  assert (Bz : before Z (p0 + 2 * n + 1) z) by (apply before_draw; lia).
  assert (k1 : forall f, before Z (p0 + 2 * n) f -> E (fun w => f w * z w) = 0) by (intros; apply (wh_mean E Z C HW); [lia|assumption]).
  assert (k2 : forall f, before Z (p0 + 2 * n + 1) f -> E (fun w => f w * z' w) = 0) by (intros; apply (wh_mean E Z C HW); [lia|assumption]).
  split.
  - transitivity (E M + (a * E (fun w => s n w * z w) + b * E (fun w => s n w * z' w))).
    { rewrite <- !(E_scal E HE), <- !(E_plus E HE). apply (E_ext E HE). intro w. unfold M. rewrite sumR_S. fold (z w) (z' w). ring. }
    rewrite IH1, k1, k2 by (try assumption; now apply B'). ring.
  - transitivity (E (fun w => M w ^ 2) + (2 * a * E (fun w => (M w * s n w) * z w) + (2 * b * E (fun w => (M w * s n w) * z' w)
      + (a ^ 2 * E (fun w => s n w ^ 2 * z w ^ 2) + (b ^ 2 * E (fun w => s n w ^ 2 * z' w ^ 2) + 2 * a * b * E (fun w => (s n w ^ 2 * z w) * z' w)))))).
    { rewrite <- !(E_scal E HE), <- !(E_plus E HE). apply (E_ext E HE). intro w. unfold M. rewrite sumR_S. fold (z w) (z' w). ring. }
    assert (BMs : before Z (p0 + 2 * n) (fun w => M w * s n w)) by now apply before_2.
    assert (Bs2 : before Z (p0 + 2 * n) (fun w => s n w ^ 2)) by now apply (before_1 _ _ _ (fun x => x ^ 2)).
    rewrite (k1 _ BMs), (k2 _ (B' _ BMs)).
    rewrite (k2 (fun w => s n w ^ 2 * z w)) by (apply (before_2 _ _ (fun w => s n w ^ 2) z Rmult); [now apply B'|exact Bz]).
    unfold z, z'. rewrite !(wh_var E Z C HW) by (try lia; try assumption; now apply B').
    unfold M. rewrite IH2. transitivity ((a ^ 2 + b ^ 2) * (E (fun w => sumR (fun j => s j w ^ 2) (seq 0 n)) + E (fun w => s n w ^ 2))); [ring|].
    f_equal. rewrite <- (E_plus E HE). apply (E_ext E HE). intro w. now rewrite sumR_S.
Qed.
End Mart.

(** ** balance of the truncated scheme *)
Lemma tpath_balance k th sg dt dw v n :
  v + k * (th * (INR n * dt) - itgr dt (tpath k th sg dt dw v) n) + sg * stoch dw (tpath k th sg dt dw v) n <= tpath k th sg dt dw v n.
Proof.
  induction n as [|n IH]; [unfold itgr, stoch; cbn [seq sumR tpath INR]; lra|].
  unfold itgr, stoch in *. rewrite !sumR_S, S_INR. cbn [tpath]. unfold tstep. eapply Rle_trans; [|apply Rmax_r].
  set (V := tpath k th sg dt dw v) in *. nra.
Qed.
Lemma tpath_balance_eq k th sg dt dw v n :
  (forall j, (j < n)%nat -> let x := tpath k th sg dt dw v j in 0 <= x + k * (th - x) * dt + sg * (sqrt x * dw j)) ->
  tpath k th sg dt dw v n = v + k * (th * (INR n * dt) - itgr dt (tpath k th sg dt dw v) n) + sg * stoch dw (tpath k th sg dt dw v) n.
Proof.
  induction n as [|n IH]; intro H; [unfold itgr, stoch; cbn [seq sumR tpath INR]; lra|].
  specialize (IH ltac:(intros; apply H; lia)). unfold itgr, stoch in *. rewrite !sumR_S, S_INR. cbn [tpath]. unfold tstep.
  rewrite Rmax_right by (apply (H n); lia). set (V := tpath k th sg dt dw v) in *. nra.
Qed.

(** ** without noise *)
Lemma tpath_0 k th dt dw v n : 0 <= v -> 0 <= th -> 0 <= k * dt <= 1 -> tpath k th 0 dt dw v n = th + (v - th) * (1 - k * dt) ^ n.
Proof.
  intros Hv Hth Hk. assert (P : forall j, 0 <= th + (v - th) * (1 - k * dt) ^ j).
  { intro j. assert (0 <= (1 - k * dt) ^ j <= 1).
    { split; [apply pow_le; lra|]. apply Rle_trans with (1 ^ j); [apply pow_incr; lra|rewrite pow1; lra]. }
    nra. }
  induction n as [|n IH]; [cbn; ring|]. cbn [tpath]. unfold tstep. rewrite IH.
  assert (e : th + (v - th) * (1 - k * dt) ^ n + k * (th - (th + (v - th) * (1 - k * dt) ^ n)) * dt + 0 * (sqrt (th + (v - th) * (1 - k * dt) ^ n) * dw n)
    = th + (v - th) * (1 - k * dt) ^ S n) by (simpl; ring).
  rewrite e. apply Rmax_right, P.
Qed.
Lemma itgr_0 k th dt dw v n : 0 <= v -> 0 <= th -> 0 <= k * dt <= 1 -> k <> 0 ->
  itgr dt (tpath k th 0 dt dw v) n = th * (INR n * dt) + (v - th) * ((1 - (1 - k * dt) ^ n) / k).
Proof.
  intros Hv Hth Hk H0. unfold itgr. induction n as [|n IH]; [cbn; field; assumption|].
  rewrite sumR_S, IH, tpath_0, S_INR by assumption. simpl. field. assumption.
Qed.
Lemma compound x : is_lim_seq (fun n => (1 - x / INR n) ^ n) (exp (- x)).
Proof.
  destruct (Req_dec x 0) as [->|Hx].
  { apply (is_lim_seq_ext (fun _ => 1)); [|rewrite Ropp_0, exp_0; apply is_lim_seq_const].
    intro n. unfold Rdiv. rewrite Rmult_0_l, Rminus_0_r. now rewrite pow1. }
  assert (L : is_lim_seq (fun n => x / INR n) 0).
  { apply (is_lim_seq_ext (fun n => x * / INR n)); [reflexivity|]. replace (Finite 0) with (Rbar_mult x 0) by (cbn; f_equal; ring).
    apply is_lim_seq_scal_l. replace (Finite 0) with (Rbar_inv p_infty) by reflexivity. apply is_lim_seq_inv; [apply is_lim_seq_INR|discriminate]. }
  apply (is_lim_seq_ext_loc (fun n => exp (INR n * ln (1 - x / INR n)))).
  { apply is_lim_seq_spec in L. destruct (L (mkposreal 1 Rlt_0_1)) as [n0 Hn0]. exists n0. intros n Hn. specialize (Hn0 n Hn). cbn in Hn0.
    rewrite Rminus_0_r in Hn0. apply Rabs_def2 in Hn0. rewrite <- (exp_ln ((1 - x / INR n) ^ n)) by (apply pow_lt; lra).
    now rewrite ln_pow by lra. }
  apply (is_lim_seq_continuous exp); [apply derivable_continuous_pt, derivable_pt_exp|].
  (* n ln(1 - x/n) -> -x, the derivative of ln at 1 *)
  assert (D : is_lim (fun y => ln (1 + y) / y) 0 1) by apply is_lim_div_ln1p_0.
  assert (L2 : is_lim_seq (fun n => - (x / INR n)) 0).
  { replace (Finite 0) with (Rbar_opp 0) by (cbn; f_equal; ring). exact (proj1 (is_lim_seq_opp (fun n => x / INR n) 0) L). }
  assert (L3 : is_lim_seq (fun n => ln (1 + - (x / INR n)) / - (x / INR n)) 1).
  { apply (is_lim_comp_seq _ _ 0 1 D); [|exact L2]. exists 1%nat. intros n Hn e. injection e as e.
    assert (INR n <> 0) by (apply not_0_INR; lia). apply Ropp_eq_0_compat in e. rewrite Ropp_involutive in e.
    apply Hx. apply (Rmult_eq_reg_r (/ INR n)); [|now apply Rinv_neq_0_compat]. unfold Rdiv in e. lra. }
  apply (is_lim_seq_ext_loc (fun n => - x * (ln (1 + - (x / INR n)) / - (x / INR n)))).
  { exists 1%nat. intros n Hn. assert (INR n <> 0) by (apply not_0_INR; lia). unfold Rminus. field. split; assumption. }
  replace (Finite (- x)) with (Rbar_mult (- x) 1) by (cbn; f_equal; ring). apply is_lim_seq_scal_l. exact L3.
Qed.
