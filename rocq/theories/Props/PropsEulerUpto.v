(** Property C51: which simulators given the jumps of the variance leave out the jumps after the horizon. *)
From Coq Require Import Reals Lra Lia List ZArith.
From Verif.Spec Require Import Svvj SvcjPath Euler Chi2.
From Verif.Model Require Import Euler.
From Verif.Proof Require Import SumFacts DecodeProofs EulerProofs EulerGrid EulerSv EulerSrjd.
Import ListNotations.
Local Open Scope R_scope.

Lemma taken_taken t T (z : path) : t <= T -> taken t (taken T z) = taken t z.
Proof.
  intro Ht. induction z as [|sj z IH]; [reflexivity|]. cbn [taken]. destruct (Rle_dec (fst sj) T) as [h|h].
  - cbn [taken]. destruct (Rle_dec (fst sj) t); [now rewrite IH|reflexivity].
  - cbn [taken]. destruct (Rle_dec (fst sj) t); [lra|reflexivity].
Qed.
Lemma rest_taken t T (z : path) : t <= T -> rest t (taken T z) = taken T (rest t z).
Proof.
  intro Ht. induction z as [|sj z IH]; [reflexivity|]. cbn [taken rest]. destruct (Rle_dec (fst sj) T) as [h|h].
  - cbn [rest]. destruct (Rle_dec (fst sj) t); [exact IH|]. cbn [taken]. destruct (Rle_dec (fst sj) T); [reflexivity|lra].
  - cbn [rest]. destruct (Rle_dec (fst sj) t); [lra|]. cbn [taken]. destruct (Rle_dec (fst sj) T); [lra|reflexivity].
Qed.
Lemma upto_taken T (z : path) : forall t, ordered t z -> upto T z = taken T z.
Proof.
  induction z as [|sj z IH]; intros t H; [reflexivity|]. cbn [ordered] in H. destruct H as (h1 & h2 & h3).
  unfold upto in *. cbn [filter taken]. destruct (Rle_dec (fst sj) T) as [h|h]; [f_equal; now apply (IH (fst sj))|].
  clear IH h1 h2. revert h3 h. generalize (fst sj) as a. induction z as [|b z IH]; intros a h3 h; [reflexivity|].
  cbn [ordered] in h3. destruct h3 as (g1 & g2 & g3). cbn [filter]. destruct (Rle_dec (fst b) T); [lra|]. apply (IH (fst b)); [exact g3|lra].
Qed.
Lemma upto_upto T (z : path) : upto T (upto T z) = upto T z.
Proof.
  unfold upto. induction z as [|sj z IH]; [reflexivity|]. cbn [filter]. destruct (Rle_dec (fst sj) T) as [h|h]; [|exact IH].
  cbn [filter]. destruct (Rle_dec (fst sj) T); [now rewrite IH|lra].
Qed.
Lemma gsteps_taken dt T : forall m i (z : path), 0 < dt -> IZR (i + Z.of_nat m) * dt <= T -> gsteps dt m i (taken T z) = gsteps dt m i z.
Proof.
  induction m as [|m IH]; intros i z Hd HT; [reflexivity|]. cbn [gsteps].
  assert (Ht : IZR (i + 1) * dt <= T).
  { apply Rle_trans with (2 := HT). apply Rmult_le_compat_r; [lra|]. apply IZR_le. lia. }
  unfold sseg. rewrite taken_taken, rest_taken by exact Ht. f_equal. apply IH; [exact Hd|].
  apply Rle_trans with (2 := HT). apply Req_le. do 2 f_equal. lia.
Qed.
Lemma rsteps_upto T n (z : path) : 0 < T -> (0 < n)%Z -> ordered 0 z -> rsteps T n (upto T z) = rsteps T n z.
Proof.
  intros HT Hn Hz. unfold rsteps. rewrite (upto_taken T z 0 Hz). assert (0 < IZR n) by now apply IZR_lt.
  apply gsteps_taken; [now apply Rdiv_lt_0_compat|]. rewrite Z.add_0_l, Z2Nat.id by lia. apply Req_le. field. lra.
Qed.
Lemma ordered_upto T (z : path) : ordered 0 z -> ordered 0 (upto T z).
Proof. intro Hz. rewrite (upto_taken T z 0 Hz). now apply taken_ordered. Qed.
Lemma Yv_upto W v0 mu k th sg rho T z n c : 0 < T -> (0 < n)%Z -> ordered 0 z ->
  Yv W v0 mu k th sg rho T (upto T z) n c = Yv W v0 mu k th sg rho T z n c.
Proof.
  intros HT Hn Hz. unfold Yv. rewrite rsteps_upto by assumption. destruct (grun _ _ _ _ _ _ _ _ _ _ _) as [[[a b] d] e].
  unfold sv_ret, sv_intv, v_path, v_given, IZ_path, IEZ_path. cbn [svh svz svmu svrho zpk]. now rewrite upto_upto.
Qed.

(** rSVVJ and rSVIJ: the result is the one without the jumps after T *)
Theorem C51_rSVVJ_partial : forall W v0 mu k th sg rho T (z : path) N n c, (0 <= N)%Z -> (0 < n)%Z -> 0 < T -> k <> 0 -> rho ^ 2 <= 1 -> 0 <= v0 -> ordered 0 z ->
  rSVVJ W v0 mu k th sg rho T (map snd z) (map fst z) N n c = rSVVJ W v0 mu k th sg rho T (map snd (upto T z)) (map fst (upto T z)) N n c.
Proof.
  intros W v0 mu k th sg rho T z N n c HN Hn HT Hk Hr Hv Hz. rewrite !rSVVJ_ok by first [assumption|now apply ordered_upto].
  rewrite rsteps_upto by assumption. do 2 f_equal. apply map_ext. intro i. now rewrite Yv_upto.
Qed.
Theorem C51_rSVIJ_partial : forall W v0 mu k th sg rho T (z : path) lam mus sgs N n c, (0 <= N)%Z -> (0 < n)%Z -> 0 < T -> k <> 0 -> rho ^ 2 <= 1 -> 0 <= v0 -> ordered 0 z ->
  rSVIJ W v0 mu k th sg rho T (map snd z) (map fst z) lam mus sgs N n c = rSVIJ W v0 mu k th sg rho T (map snd (upto T z)) (map fst (upto T z)) lam mus sgs N n c.
Proof.
  intros W v0 mu k th sg rho T z lam mus sgs N n c HN Hn HT Hk Hr Hv Hz. unfold rSVIJ, rbind at 1. unfold rbind at 3.
  now rewrite (C51_rSVVJ_partial W v0 mu k th sg rho T z N n c) by assumption.
Qed.
(** rSVCJ: the price jumps also with the variance jumps after T *)
Theorem C51_rSVCJ_beyond : forall W v0 mu k th sg rho T (z : path) mus sgs rhoJ N n c, (0 <= N)%Z -> (0 < n)%Z -> 0 < T -> k <> 0 -> rho ^ 2 <= 1 -> 0 <= v0 -> ordered 0 z -> 0 <= sgs ->
  exists xs c1 ys c2, rSVVJ W v0 mu k th sg rho T (map snd (upto T z)) (map fst (upto T z)) N n c = Ok (xs, c1) /\
    rSVCJ W v0 mu k th sg rho T (map snd z) (map fst z) mus sgs rhoJ N n c = Ok (ys, c2) /\ length ys = Z.to_nat N /\
    forall i, (i < Z.to_nat N)%nat -> nth i ys 0 = nth i xs 0 + sumR (fun j => mus + rhoJ * snd (nth j z (0, 0)) + sgs * wnorm W (c1 + length z * i + j)) (seq 0 (length z)).
Proof.
  intros W v0 mu k th sg rho T z mus sgs rhoJ N n c HN Hn HT Hk Hr Hv Hz Hs.
  rewrite <- C51_rSVVJ_partial by assumption. do 4 eexists. split; [now apply rSVVJ_ok|]. split; [now apply rSVCJ_ok|].
  split; [now rewrite map_length, seq_length|]. intros i Hi.
  assert (G : forall f : nat -> R, nth i (map f (seq 0 (Z.to_nat N))) 0 = f i).
  { intro f. rewrite (nth_indep _ 0 (f O)) by now rewrite map_length, seq_length. rewrite (map_nth f), seq_nth by assumption. reflexivity. }
  rewrite !G. reflexivity.
Qed.
Theorem C51_rSVCJ_refuted : exists W v0 mu k th sg rho T (z : path) mus sgs rhoJ N n c, (0 <= N)%Z /\ (0 < n)%Z /\ 0 < T /\ k <> 0 /\ rho ^ 2 <= 1 /\ 0 <= v0 /\ ordered 0 z /\ 0 <= sgs /\
  exists y c1 y' c2, rSVCJ W v0 mu k th sg rho T (map snd z) (map fst z) mus sgs rhoJ N n c = Ok (y, c1) /\
    rSVCJ W v0 mu k th sg rho T (map snd (upto T z)) (map fst (upto T z)) mus sgs rhoJ N n c = Ok (y', c2) /\ y <> y'.
Proof.
  set (W := mkWorld (fun _ => 0) (fun _ _ => 0%Z) (fun _ _ _ => 0)).
  exists W, 1, 0, 1, 1, 1, 0, 1, [(2, 5)], 3, 1, 0, 1%Z, 1%Z, O.
  assert (Hz : ordered 0 [(2, 5)]) by (cbn; lra). assert (H0 : 0 ^ 2 <= 1) by (cbn; lra).
  split; [lia|]. split; [lia|]. split; [lra|]. split; [lra|]. split; [exact H0|]. split; [lra|]. split; [exact Hz|]. split; [lra|].
  assert (G : forall z', ordered 0 z' -> exists y c1, rSVCJ W 1 0 1 1 1 0 1 (map snd z') (map fst z') 3 1 0 1 1 O = Ok (y, c1) /\
    y = [Yv W 1 0 1 1 1 0 1 z' 1 O + 3 * INR (length z')]).
  { intros z' Hz'. do 2 eexists. split; [apply rSVCJ_ok; first [exact Hz'|exact H0|lia|lra]|].
    change (Z.to_nat 1) with 1%nat. cbn [seq map]. rewrite Nat.mul_0_r, Nat.add_0_r. do 2 f_equal.
    cbn [W wnorm]. transitivity (sumR (fun _ : nat => 3) (seq 0 (length z'))); [apply sumR_ext; intros; ring|].
    generalize (length z') at 1 2 as m. generalize O as s. intros s m. revert s. induction m as [|m IH]; intro s; [cbn; ring|].
    cbn [seq sumR]. rewrite IH, S_INR. ring. }
  destruct (G [(2, 5)] Hz) as (y & c1 & e1 & f1). destruct (G (upto 1 [(2, 5)]) (ordered_upto 1 _ Hz)) as (y' & c2 & e2 & f2).
  exists y, c1, y', c2. split; [exact e1|]. split; [exact e2|]. rewrite f1, f2, (Yv_upto W 1 0 1 1 1 0 1 [(2, 5)]) by first [lra|lia|exact Hz].
  unfold upto. cbn [filter fst]. destruct (Rle_dec 2 1); [lra|]. cbn [length INR]. intro e. injection e as e. lra.
Qed.

(** rSRJD: jumps after T are not left out: the end time is then the last jump time *)
Theorem C51_rSRJD_beyond : forall W v0 k th sg T (z : path) N c, (forall c d l, 0 <= wchi W c d l) -> (0 <= N)%Z -> k <> 0 -> 0 < k * th -> sg <> 0 -> 0 <= v0 -> 0 < T ->
  strictly 0 z -> T <= last (map fst z) 0 ->
  rSRJD W v0 k th sg T (map snd z) (map fst z) N c = rSRJD W v0 k th sg (last (map fst z) 0) (map snd z) (map fst z) N c.
Proof.
  intros W v0 k th sg T z N c HX HN Hk Hkt Hs Hv HT Hz Hl. rewrite !rSRJD_ok by (try assumption; lra). unfold xrow, xdraws.
  set (l := last (map fst z) 0) in *. destruct (Rlt_dec 0 (T - l)) as [h|h]; [lra|]. destruct (Rlt_dec 0 (l - l)) as [h'|h']; [lra|]. reflexivity.
Qed.
Theorem C51_rSRJD_refuted : exists W v0 k th sg T (z : path) N c, (forall c d l, 0 <= wchi W c d l) /\ (0 <= N)%Z /\ k <> 0 /\ 0 < k * th /\ sg <> 0 /\ 0 <= v0 /\ 0 < T /\ strictly 0 z /\
  exists y c1 y' c2, rSRJD W v0 k th sg T (map snd z) (map fst z) N c = Ok (y, c1) /\
    rSRJD W v0 k th sg T (map snd (upto T z)) (map fst (upto T z)) N c = Ok (y', c2) /\ y <> y'.
Proof.
  exists (mkWorld (fun _ => 0) (fun _ _ => 0%Z) (fun _ _ _ => 0)), 1, 1, 1, 1, 1, [(2, 5)], 1%Z, O.
  assert (HX : forall (c : nat) (d l : R), 0 <= wchi (mkWorld (fun _ => 0) (fun _ _ => 0%Z) (fun _ _ _ => 0)) c d l) by (intros; cbn; lra).
  assert (Hz : strictly 0 [(2, 5)]) by (cbn; lra).
  split; [exact HX|]. split; [lia|]. split; [lra|]. split; [lra|]. split; [lra|]. split; [lra|]. split; [lra|]. split; [exact Hz|].
  do 4 eexists. split; [apply (rSRJD_ok 1 1 1); try assumption; try lra; lia|].
  unfold upto. cbn [filter fst]. destruct (Rle_dec 2 1); [lra|].
  split; [apply (rSRJD_ok 1 1 1 ltac:(lra) ltac:(lra) ltac:(lra) _ HX 1 1 [] 1 O); try lra; try lia; exact I|].
  cbn [map seq Z.to_nat Pos.to_nat Pos.iter_op Nat.mul Nat.add]. unfold xrow, xdraws, xstep. cbn [map fst last length xjumps wchi].
  destruct (Rlt_dec 0 (1 - 2)); [lra|]. destruct (Rlt_dec 0 (1 - 0)); [|lra]. intro e. injection e as e. unfold xstep in e. cbn [wchi] in e. lra.
Qed.

(** two jumps, the second after T = 1 *)
Example C51_example : ordered 0 [(1/2, 1); (2, 5)] /\ upto 1 [(1/2, 1); (2, 5)] = [(1/2, 1)] /\ strictly 0 [(1/2, 1); (2, 5)] /\ 1 <= last (map fst [(1/2, 1); (2, 5)]) 0.
Proof.
  split; [cbn; lra|]. split; [|split; cbn; lra]. unfold upto. cbn [filter fst]. destruct (Rle_dec (1/2) 1); [|lra]. destruct (Rle_dec 2 1); [lra|]. reflexivity.
Qed.
