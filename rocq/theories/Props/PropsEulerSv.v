(** Property C49: the simulators rSVVJ, rSVIJ, rSVCJ given the jumps of the variance. *)
From Coq Require Import Reals Lra.
From Coquelicot Require Import Coquelicot.
From Verif.Spec Require Import Svvj SvcjPath Euler.
From Verif.Proof Require Import SvvjW.
From Verif.Props Require Import PropsSvvj PropsSvcjCond2.
From Verif.Model Require Import Svvj SvcjCond2.
From Verif.Model Require Import Euler.
From Verif.Proof Require Import SumFacts ExpectFacts DecodeProofs EulerProofs EulerMart EulerGrid EulerSv.
From Verif.Props Require Import PropsEuler.
Local Open Scope R_scope.
Notation world := Verif.Model.Euler.world.

(** ** Every row is the return of the SVVJ model, with the stochastic integrals taken along an Euler scheme whose
    grid contains the multiples of T/n and the jump times up to T; row i uses its own draws. *)
Theorem C49_rSVVJ : forall (W : world) v0 mu k th sg rho T (z : path) N n c, (0 <= N)%Z -> (0 < n)%Z -> 0 < T -> k <> 0 -> rho ^ 2 <= 1 -> 0 <= v0 -> ordered 0 z ->
  exists steps ys, grid T (Z.to_nat n) z steps /\
    rSVVJ W v0 mu k th sg rho T (map snd z) (map fst z) N n c = Ok (ys, (c + 2 * length steps * Z.to_nat N)%nat) /\ length ys = Z.to_nat N /\
    forall i, (i < Z.to_nat N)%nat ->
      let '(v, IE, I1, Is) := grun k th sg (wnorm W) (c + 2 * length steps * i) 0 v0 0 0 0 steps in
      0 <= v /\ nth i ys 0 = sv_ret (mkSv (mkZpar k v0 th sg) mu rho T) z IE I1 Is.
Proof.
  intros W v0 mu k th sg rho T z N n c HN Hn HT Hk Hr Hv Hz. exists (rsteps T n z). eexists. split; [now apply rsteps_grid|].
  split; [exact (rSVVJ_ok W v0 mu k th sg rho T z n Hn HT Hk Hr Hv Hz N c HN)|].
  split; [now rewrite map_length, seq_length|]. intros i Hi.
  assert (Hp : Forall (fun s => 0 <= jump_of s) (rsteps T n z)) by (apply (gsteps_pos _ _ _ _ 0); [apply Rdiv_lt_0_compat; [exact HT|now apply IZR_lt]|exact Hz]).
  pose proof (grun_nonneg W k th sg (rsteps T n z) (c + 2 * length (rsteps T n z) * i) 0 v0 0 0 0 Hv Hp) as P.
  set (f := fun i => Yv W v0 mu k th sg rho T z n (c + 2 * length (rsteps T n z) * i)).
  erewrite nth_indep by now rewrite map_length, seq_length. rewrite (map_nth f), seq_nth by assumption. unfold f, Yv. cbn [Nat.add].
  destruct (grun k th sg (wnorm W) (c + 2 * length (rsteps T n z) * i) 0 v0 0 0 0 (rsteps T n z)) as [[[v IE] I1] I2].
  split; [exact P|reflexivity].
Unshelve. exact 0%nat.
Qed.

(** rSVCJ adds to row i one normal variable N(mu_s + rho_J J_j, sigma_s^2) for every jump, rSVIJ a Poisson number of
    normal variables N(mu_s, sigma_s^2); the first rows are those of rSVVJ. *)
Theorem C49_rSVCJ : forall (W : world) v0 mu k th sg rho T (z : path) mus sgs rhoJ N n c, (0 <= N)%Z -> (0 < n)%Z -> 0 < T -> k <> 0 -> rho ^ 2 <= 1 -> 0 <= v0 ->
  ordered 0 z -> 0 <= sgs ->
  exists c1 xs ys, rSVVJ W v0 mu k th sg rho T (map snd z) (map fst z) N n c = Ok (xs, c1) /\
    rSVCJ W v0 mu k th sg rho T (map snd z) (map fst z) mus sgs rhoJ N n c = Ok (ys, (c1 + length z * Z.to_nat N)%nat) /\
    length xs = Z.to_nat N /\ length ys = Z.to_nat N /\
    forall i, (i < Z.to_nat N)%nat ->
      nth i ys 0 = nth i xs 0 + sumR (fun j => mus + rhoJ * snd (nth j z (0, 0)) + sgs * wnorm W (c1 + length z * i + j)) (seq 0 (length z)).
Proof.
  intros W v0 mu k th sg rho T z mus sgs rhoJ N n c HN Hn HT Hk Hr Hv Hz Hs. do 3 eexists.
  split; [exact (rSVVJ_ok W v0 mu k th sg rho T z n Hn HT Hk Hr Hv Hz N c HN)|].
  split; [exact (rSVCJ_ok W v0 mu k th sg rho T z n Hn HT Hk Hr Hv Hz mus sgs Hs rhoJ N c HN)|].
  rewrite !map_length, seq_length. do 2 (split; [reflexivity|]). intros i Hi.
  erewrite nth_indep by now rewrite map_length, seq_length. rewrite map_nth, seq_nth by assumption.
  erewrite (nth_indep (map (fun i => Yv _ _ _ _ _ _ _ _ _ _ _) _)) by now rewrite map_length, seq_length. rewrite map_nth, seq_nth by assumption. reflexivity.
Unshelve. all: exact 0%nat.
Qed.
Theorem C49_rSVIJ : forall (W : world) v0 mu k th sg rho T (z : path) lam mus sgs N n c, (0 <= N)%Z -> (0 < n)%Z -> 0 < T -> k <> 0 -> rho ^ 2 <= 1 -> 0 <= v0 ->
  ordered 0 z -> 0 <= sgs -> 0 <= lam ->
  exists (cs nj : nat -> nat) xs ys, rSVVJ W v0 mu k th sg rho T (map snd z) (map fst z) N n c = Ok (xs, cs O) /\
    rSVIJ W v0 mu k th sg rho T (map snd z) (map fst z) lam mus sgs N n c = Ok (ys, cs (Z.to_nat N)) /\
    length xs = Z.to_nat N /\ length ys = Z.to_nat N /\
    forall i, (i < Z.to_nat N)%nat -> nj i = Z.to_nat (wpois W (cs i) (lam * T)) /\ cs (S i) = (cs i + 1 + nj i)%nat /\
      nth i ys 0 = nth i xs 0 + nsum mus sgs (fun l => wnorm W (cs i + 1 + l)) (nj i).
Proof.
  intros W v0 mu k th sg rho T z lam mus sgs N n c HN Hn HT Hk Hr Hv Hz Hs Hl.
  set (c1 := (c + 2 * length (rsteps T n z) * Z.to_nat N)%nat).
  exists (fun i => snd (it (nxi W T lam) tt c1 i)), (fun i => npois W (snd (it (nxi W T lam) tt c1 i)) (lam * T)). do 2 eexists.
  split; [exact (rSVVJ_ok W v0 mu k th sg rho T z n Hn HT Hk Hr Hv Hz N c HN)|].
  split; [exact (rSVIJ_ok W v0 mu k th sg rho T z n Hn HT Hk Hr Hv Hz mus sgs Hs lam N c HN Hl)|].
  rewrite !map_length, seq_length. do 2 (split; [reflexivity|]). intros i Hi. split; [reflexivity|].
  split; [rewrite it_S; unfold nxi; cbn [snd]; lia|].
  erewrite nth_indep by now rewrite map_length, seq_length. rewrite map_nth, seq_nth by assumption.
  erewrite (nth_indep (map (fun i => Yv _ _ _ _ _ _ _ _ _ _ _) _)) by now rewrite map_length, seq_length. rewrite map_nth, seq_nth by assumption.
  f_equal. cbn [Nat.add]. fold c1. unfold nsum. apply sumR_ext. intros l _. do 3 f_equal. lia.
Unshelve. all: exact 0%nat.
Qed.

(** ** White noise draws.  Whatever the number n of segments, the mean is the mean of the model, and the variance is that of
    int sqrt(v) (g dw^v + sqrt(1-rho^2) dw), g(s) = rho - sigma/(2k) (1 - e^{-k(T-s)}), along the scheme. *)
Definition wgt (k sg rho T s : R) : R := (rho - sg / (2 * k) * (1 - exp (- (k * (T - s))))) ^ 2 + (1 - rho ^ 2).
Theorem C49_mean_variance : forall Om (E : (Om -> R) -> R) (Z : nat -> Om -> R) (W : Om -> world) C v0 mu k th sg rho T (z : path) N n c,
  white E Z C -> (forall w i, wnorm (W w) i = Z i w) ->
  (0 <= N)%Z -> (0 < n)%Z -> 0 < T -> k <> 0 -> rho ^ 2 <= 1 -> 0 <= v0 -> ordered 0 z ->
  (c + 2 * (Z.to_nat n + length z) * Z.to_nat N <= C)%nat ->
  let p := mkSv (mkZpar k v0 th sg) mu rho T in
  exists steps, grid T (Z.to_nat n) z steps /\
    exists ys : Om -> list R, (forall w, exists c', rSVVJ (W w) v0 mu k th sg rho T (map snd z) (map fst z) N n c = Ok (ys w, c')) /\
    forall i, (i < Z.to_nat N)%nat ->
      E (fun w => nth i (ys w) 0) = sv_mean p z /\
      E (fun w => (nth i (ys w) 0 - sv_mean p z) ^ 2)
      = E (fun w => eint (wgt k sg rho T) k th sg (fun j => Z j w) (c + 2 * length steps * i) 0 v0 steps).
Proof.
  intros Om E Z W C v0 mu k th sg rho T z N n c HW HWn HN Hn HT Hk Hr Hv Hz HC' p. exists (rsteps T n z). split; [now apply rsteps_grid|].
  assert (HC : (c + 2 * length (rsteps T n z) * Z.to_nat N <= C)%nat) by (pose proof (rsteps_len T n z); nia).
  assert (HE := wh_E E Z C HW). set (L := (2 * length (rsteps T n z))%nat) in *.
  exists (fun w => map (fun i => Yv (W w) v0 mu k th sg rho T z n (c + L * i)) (seq 0 (Z.to_nat N))).
  split; [intro w; eexists; exact (rSVVJ_ok (W w) v0 mu k th sg rho T z n Hn HT Hk Hr Hv Hz N c HN)|]. intros i Hi.
  assert (HY : forall w, nth i (map (fun i => Yv (W w) v0 mu k th sg rho T z n (c + L * i)) (seq 0 (Z.to_nat N))) 0
    = sv_mean p z + gnoise (gw k sg rho T) (sqrt (1 - rho ^ 2)) k th sg (fun j => Z j w) (c + L * i) 0 v0 (rsteps T n z)).
  { intro w. erewrite nth_indep by now rewrite map_length, seq_length. rewrite (map_nth (fun i => Yv (W w) v0 mu k th sg rho T z n (c + L * i))), seq_nth by assumption.
    cbn [Nat.add]. rewrite Yv_noise by exact Hk. fold p. f_equal. clear - HWn. generalize (c + L * i)%nat 0 v0. induction (rsteps T n z) as [|s st IH]; intros; [reflexivity|].
    cbn [gnoise]. now rewrite !HWn, IH. }
  assert (Hp : Forall (fun s => 0 <= jump_of s) (rsteps T n z)) by (apply (gsteps_pos _ _ _ _ 0); [apply Rdiv_lt_0_compat; [exact HT|now apply IZR_lt]|exact Hz]).
  assert (HCi : (c + L * i + 2 * length (rsteps T n z) <= C)%nat) by (fold L; nia).
  split.
  - transitivity (E (fun w => sv_mean p z * 1 + gnoise (gw k sg rho T) (sqrt (1 - rho ^ 2)) k th sg (fun j => Z j w) (c + L * i) 0 v0 (rsteps T n z))).
    { apply (E_ext E HE). intro w. rewrite HY. ring. }
    destruct (gnoise_mart E Z C HW (gw k sg rho T) (sqrt (1 - rho ^ 2)) k th sg (rsteps T n z) (c + L * i) 0 (fun _ => v0) (fun _ => sv_mean p z * 1)
      HCi (g_incr _ _ _ _ (rsteps_grid T n z Hn HT Hz)) Hp ltac:(intro; exact Hv) ltac:(intros ? ? _; reflexivity) ltac:(intros ? ? _; reflexivity)) as [M _].
    rewrite M, (E_scal E HE), (wh_1 E Z C HW). ring.
  - transitivity (E (fun w => (0 * 1 + gnoise (gw k sg rho T) (sqrt (1 - rho ^ 2)) k th sg (fun j => Z j w) (c + L * i) 0 v0 (rsteps T n z)) ^ 2)).
    { apply (E_ext E HE). intro w. rewrite HY. ring. }
    destruct (gnoise_mart E Z C HW (gw k sg rho T) (sqrt (1 - rho ^ 2)) k th sg (rsteps T n z) (c + L * i) 0 (fun _ => v0) (fun _ => 0 * 1)
      HCi (g_incr _ _ _ _ (rsteps_grid T n z Hn HT Hz)) Hp ltac:(intro; exact Hv) ltac:(intros ? ? _; reflexivity) ltac:(intros ? ? _; reflexivity)) as [_ M].
    rewrite M. rewrite (E_ext E HE (fun w => (0 * 1) ^ 2) (fun _ => 0 * 1)) by (intro; ring). rewrite (E_scal E HE), Rmult_0_l, Rplus_0_l.
    apply (E_ext E HE). intro w. apply eint_ext. intro s. unfold gw, wgt. rewrite pow2_sqrt by lra. reflexivity.
Unshelve. exact 0%nat.
Qed.

(** the closed-form mean of cond2_mom.py: m(1, par) is the mean of the simulated values *)
Lemma sv_mean_code p z : svk p <> 0 -> 0 <= svh p -> jumps_ok z -> (forall sj, In sj z -> fst sj <= svh p) ->
  exists q, sv_moment_y 1 = Ok q /\
    sv_m2num q (zpv (svz p)) (svmu p) (svk p) (zpth (svz p)) (zpsg (svz p)) (svrho p) (svh p) (map fst z) (map snd z) = Ok (sv_mean p z).
Proof.
  intros Hk Hh Hz Hzh.
  pose proof (C34_sv_moment_y 1 ltac:(lia)) as h. destruct (sv_moment_y 1) as [q|]; [|destruct h]. exists q. split; [reflexivity|].
  destruct h as (_ & _ & A & V). destruct (C34_hypotheses_hold p z 1 0 0 0 ltac:(lia)) as (Om & E & IE & I0 & Is & J & HE & HW & HJ).
  specialize (V Om E p z IE I0 Is Hk HE HW).
  pose proof (C34_sv_cmoment_y 1 ltac:(lia)) as h. destruct (sv_cmoment_y 1) as [q1|]; [|destruct h]. destruct h as (_ & _ & _ & V1).
  destruct (V1 Om E p z IE I0 Is Hk HE HW) as [_ e]. specialize (e ltac:(lia)).
  assert (ev : eval (mon_sv p z) (items q) = sv_mean p z).
  { rewrite V, <- e. apply (E_ext E HE). intro w. change (Z.to_nat 1) with 1%nat. ring. }
  rewrite <- ev. destruct p as [[k v0 th sg] mu rho t]. exact (C34_sv_mom_poly2num q v0 mu k th sg rho t z Hk Hzh A).
Qed.
Theorem C49_code_mean : forall Om (E : (Om -> R) -> R) (Z : nat -> Om -> R) (W : Om -> world) C v0 mu k th sg rho T (z : path) N n c,
  white E Z C -> (forall w i, wnorm (W w) i = Z i w) ->
  (0 <= N)%Z -> (0 < n)%Z -> 0 < T -> k <> 0 -> rho ^ 2 <= 1 -> 0 <= v0 -> ordered 0 z -> jumps_ok z -> (forall sj, In sj z -> fst sj <= T) ->
  (c + 2 * (Z.to_nat n + length z) * Z.to_nat N <= C)%nat ->
  exists (q : Poly svkey) (ys : Om -> list R), sv_moment_y 1 = Ok q /\
    (forall w, exists c', rSVVJ (W w) v0 mu k th sg rho T (map snd z) (map fst z) N n c = Ok (ys w, c')) /\
    forall i, (i < Z.to_nat N)%nat -> sv_m2num q v0 mu k th sg rho T (map fst z) (map snd z) = Ok (E (fun w => nth i (ys w) 0)).
Proof.
  intros Om E Z W C v0 mu k th sg rho T z N n c HW HWn HN Hn HT Hk Hr Hv Hz Hj Hzh HC.
  destruct (sv_mean_code (mkSv (mkZpar k v0 th sg) mu rho T) z Hk (Rlt_le _ _ HT) Hj Hzh) as (q & Eq & Vq).
  destruct (C49_mean_variance Om E Z W C v0 mu k th sg rho T z N n c HW HWn HN Hn HT Hk Hr Hv Hz HC) as (st & _ & ys & Hys & M).
  exists q, ys. split; [exact Eq|]. split; [exact Hys|]. intros i Hi. destruct (M i Hi) as [-> _]. exact Vq.
Qed.

(** rSVCJ: the mean and variance of the price jumps are added, and the mean is m(1, par) of mdl_svcj/cond2_mom.py *)
Theorem C49_svcj_mean_variance : forall Om (E : (Om -> R) -> R) (Z : nat -> Om -> R) (W : Om -> world) C v0 mu k th sg rho T (z : path) mus sgs rhoJ N n c,
  white E Z C -> (forall w i, wnorm (W w) i = Z i w) ->
  (0 <= N)%Z -> (0 < n)%Z -> 0 < T -> k <> 0 -> rho ^ 2 <= 1 -> 0 <= v0 -> ordered 0 z -> 0 <= sgs ->
  (c + (2 * (Z.to_nat n + length z) + length z) * Z.to_nat N <= C)%nat ->
  let m := sv_mean (mkSv (mkZpar k v0 th sg) mu rho T) z + jumps_mean mus rhoJ z in
  exists steps, grid T (Z.to_nat n) z steps /\
    exists ys : Om -> list R, (forall w, exists c', rSVCJ (W w) v0 mu k th sg rho T (map snd z) (map fst z) mus sgs rhoJ N n c = Ok (ys w, c')) /\
    forall i, (i < Z.to_nat N)%nat ->
      E (fun w => nth i (ys w) 0) = m /\
      E (fun w => (nth i (ys w) 0 - m) ^ 2)
      = E (fun w => eint (wgt k sg rho T) k th sg (fun j => Z j w) (c + 2 * length steps * i) 0 v0 steps) + INR (length z) * sgs ^ 2.
Proof.
  intros Om E Z W C v0 mu k th sg rho T z mus sgs rhoJ N n c HW HWn HN Hn HT Hk Hr Hv Hz Hs HC' m. exists (rsteps T n z). split; [now apply rsteps_grid|].
  assert (HC : (c + 2 * length (rsteps T n z) * Z.to_nat N + length z * Z.to_nat N <= C)%nat) by (pose proof (rsteps_len T n z); nia).
  assert (HE := wh_E E Z C HW). set (L := (2 * length (rsteps T n z))%nat) in *. set (p := mkSv (mkZpar k v0 th sg) mu rho T) in *.
  set (c1 := (c + L * Z.to_nat N)%nat) in *.
  eexists. split; [intro w; eexists; exact (rSVCJ_ok (W w) v0 mu k th sg rho T z n Hn HT Hk Hr Hv Hz mus sgs Hs rhoJ N c HN)|]. intros i Hi.
  set (G := fun w => gnoise (gw k sg rho T) (sqrt (1 - rho ^ 2)) k th sg (fun j => Z j w) (c + L * i) 0 v0 (rsteps T n z)).
  set (ys := fun w => _ : list R). 
  assert (HY : forall w, nth i (ys w) 0 = m + (G w + sumR (fun j => sgs * Z (c1 + length z * i + j)%nat w) (seq 0 (length z)))).
  { intro w. unfold ys. erewrite nth_indep by now rewrite map_length, seq_length. rewrite map_nth, seq_nth by assumption.
    cbn [Nat.add]. rewrite Yv_noise by exact Hk. fold p L c1. unfold m. rewrite sumR_plus.
    assert (e1 : sumR (fun j => mus + rhoJ * snd (nth j z (0, 0))) (seq 0 (length z)) = jumps_mean mus rhoJ z).
    { unfold jumps_mean. clear. induction z as [|sj z IH]; [reflexivity|]. cbn [length seq sumR nth]. rewrite <- seq_shift, sumR_map, <- IH. reflexivity. }
    rewrite e1. assert (e2 : gnoise (gw k sg rho T) (sqrt (1 - rho ^ 2)) k th sg (wnorm (W w)) (c + L * i) 0 v0 (rsteps T n z) = G w).
    { unfold G. clear - HWn. generalize (c + L * i)%nat 0 v0. induction (rsteps T n z) as [|s st IH]; intros; [reflexivity|]. cbn [gnoise]. now rewrite !HWn, IH. }
    rewrite e2. rewrite (sumR_ext (fun j => sgs * wnorm (W w) (c1 + length z * i + j)) (fun j => sgs * Z (c1 + length z * i + j)%nat w)) by (intros; now rewrite HWn).
    ring. }
  assert (Hp : Forall (fun s => 0 <= jump_of s) (rsteps T n z)) by (apply (gsteps_pos _ _ _ _ 0); [apply Rdiv_lt_0_compat; [exact HT|now apply IZR_lt]|exact Hz]).
  assert (HCi : (c + L * i + 2 * length (rsteps T n z) <= C)%nat) by (fold L; nia).
  destruct (gnoise_mart E Z C HW (gw k sg rho T) (sqrt (1 - rho ^ 2)) k th sg (rsteps T n z) (c + L * i) 0 (fun _ => v0) (fun _ => 0 * 1)
      HCi (g_incr _ _ _ _ (rsteps_grid T n z Hn HT Hz)) Hp ltac:(intro; exact Hv) ltac:(intros ? ? _; reflexivity) ltac:(intros ? ? _; reflexivity)) as [M1 M2].
  fold (G : Om -> R) in M1.
  assert (BG : before Z (c1 + length z * i) G).
  { apply (before_le Z (c + L * i + 2 * length (rsteps T n z))); [unfold c1; fold L; nia|]. apply (before_gnoise Z _ _ _ _ _ _ _ _ (fun _ => v0)). intros ? ? _; reflexivity. }
  destruct (more_draws E Z C HW sgs (c1 + length z * i) (length z) G ltac:(nia) BG) as [D1 D2].
  assert (G1 : E G = 0).
  { transitivity (E (fun w => 0 * 1 + G w)); [apply (E_ext E HE); intro; ring|]. etransitivity; [exact M1|]. rewrite (E_scal E HE). ring. }
  assert (G2 : E (fun w => G w ^ 2) = E (fun w => eint (wgt k sg rho T) k th sg (fun j => Z j w) (c + L * i) 0 v0 (rsteps T n z))).
  { transitivity (E (fun w => (0 * 1 + G w) ^ 2)); [apply (E_ext E HE); intro; ring|]. etransitivity; [exact M2|].
    rewrite (E_ext E HE (fun w => (0 * 1) ^ 2) (fun _ => 0 * 1)) by (intro; ring). rewrite (E_scal E HE), Rmult_0_l, Rplus_0_l.
    apply (E_ext E HE). intro w. apply eint_ext. intro s. unfold gw, wgt. rewrite pow2_sqrt by lra. reflexivity. }
  split.
  - transitivity (m * E (fun _ => 1) + E (fun w => G w + sumR (fun j => sgs * Z (c1 + length z * i + j)%nat w) (seq 0 (length z)))).
    { rewrite <- (E_scal E HE), <- (E_plus E HE). apply (E_ext E HE). intro w. rewrite HY. ring. }
    rewrite D1, G1, (wh_1 E Z C HW). ring.
  - transitivity (E (fun w => (G w + sumR (fun j => sgs * Z (c1 + length z * i + j)%nat w) (seq 0 (length z))) ^ 2)).
    { apply (E_ext E HE). intro w. rewrite HY. ring. }
    rewrite D2, G2. reflexivity.
Unshelve. all: exact 0%nat.
Qed.
Theorem C49_svcj_code_mean : forall Om (E : (Om -> R) -> R) (Z : nat -> Om -> R) (W : Om -> world) C v0 mu k th sg rho T (z : path) mus sgs rhoJ N n c,
  white E Z C -> (forall w i, wnorm (W w) i = Z i w) ->
  (0 <= N)%Z -> (0 < n)%Z -> 0 < T -> k <> 0 -> rho ^ 2 <= 1 -> 0 <= v0 -> ordered 0 z -> 0 <= sgs -> jumps_ok z -> (forall sj, In sj z -> fst sj <= T) ->
  (c + (2 * (Z.to_nat n + length z) + length z) * Z.to_nat N <= C)%nat ->
  exists ys : Om -> list R, (forall w, exists c', rSVCJ (W w) v0 mu k th sg rho T (map snd z) (map fst z) mus sgs rhoJ N n c = Ok (ys w, c')) /\
    forall i, (i < Z.to_nat N)%nat -> cj_m 1 v0 mu k th sg rho T mus rhoJ sgs (map fst z) (map snd z) = Ok (E (fun w => nth i (ys w) 0)).
Proof.
  intros Om E Z W C v0 mu k th sg rho T z mus sgs rhoJ N n c HW HWn HN Hn HT Hk Hr Hv Hz Hs Hj Hzh HC.
  destruct (C49_svcj_mean_variance Om E Z W C v0 mu k th sg rho T z mus sgs rhoJ N n c HW HWn HN Hn HT Hk Hr Hv Hz Hs HC) as (st & _ & ys & Hys & M).
  exists ys. split; [exact Hys|]. intros i Hi. destruct (M i Hi) as [-> _]. set (p := mkSv (mkZpar k v0 th sg) mu rho T).
  destruct (C44_hypotheses_hold p z 1 mus rhoJ sgs ltac:(lia)) as (Om' & E' & IE & I1 & Is & Xs & HE & HG & HX).
  etransitivity; [exact (C44_m 1 p z mus rhoJ sgs Om' E' IE I1 Is Xs ltac:(lia) Hk Hzh HE HG HX)|]. f_equal.
  pose proof (C44_cmoment_y 1 (length z) ltac:(lia)) as h. destruct (cj_cmoment_y 1 (length z)) as [q1|]; [|destruct h]. destruct h as (_ & _ & _ & V1).
  destruct (V1 Om' E' p z IE I1 Is Xs mus rhoJ sgs Hk HE eq_refl HG HX) as [_ e]. rewrite <- (e ltac:(lia)).
  apply (E_ext E' HE). intro w. change (Z.to_nat 1) with 1%nat. ring.
Qed.

(** ** Errors; jump times out of order make a segment of negative length *)
Theorem C49_errors : forall (W : world) v0 mu k th sg rho T js jt N n c,
  ((N < 0)%Z -> rSVVJ W v0 mu k th sg rho T js jt N n c = Err ValueError) /\
  ((0 <= N)%Z -> k = 0 -> rSVVJ W v0 mu k th sg rho T js jt N n c = Err ZeroDivisionError) /\
  ((0 <= N)%Z -> k <> 0 -> (length jt < length js)%nat -> (forall s, In s jt -> s <= T) -> rSVVJ W v0 mu k th sg rho T js jt N n c = Err IndexError) /\
  ((0 < N)%Z -> (0 < n)%Z -> 0 < T -> k <> 0 -> 0 <= v0 -> forall a b Ja Jb, js = [Ja; Jb] -> jt = [a; b] -> 0 <= b < a -> a <= T / IZR n ->
    rSVVJ W v0 mu k th sg rho T js jt N n c = Err ValueError).
Proof.
  intros W v0 mu k th sg rho T js jt N n c. unfold rSVVJ. split; [|split; [|split]].
  - intro HN. destruct (Z.ltb_spec N 0); [reflexivity|lia].
  - intros HN ->. destruct (Z.ltb_spec N 0); [lia|]. unfold rbind at 1, rlift, pydiv. destruct (Req_EM_T (2 * 0) 0); [reflexivity|lra].
  - intros HN Hk Hl Ht. destruct (Z.ltb_spec N 0); [lia|].
    rewrite (rbind_lift _ ((1 - exp (- k * T)) / (2 * k))) by (apply pydiv_ok; lra).
    assert (e : eIEZ T js jt k = Err IndexError).
    { revert jt Hl Ht. induction js as [|J js IH]; intros [|s jt] Hl Ht; cbn [length eIEZ] in *; try lia; [reflexivity|].
      destruct (Rle_dec s T); [|destruct n0; apply Ht; now left]. rewrite IH; [reflexivity|lia|]. intros x Hx. apply Ht. now right. }
    unfold rbind at 1, rlift. now rewrite e.
  - intros HN Hn HT Hk Hv a b Ja Jb -> -> Hab Ha. destruct (Z.ltb_spec N 0); [lia|].
    assert (Hn1 : 1 <= IZR n) by (apply IZR_le; lia).
    assert (HaT : T / IZR n <= T) by (apply (Rmult_le_reg_r (IZR n)); [lra|]; unfold Rdiv; rewrite Rmult_assoc, Rinv_l, Rmult_1_r by lra; nra).
    rewrite (rbind_lift _ ((1 - exp (- k * T)) / (2 * k))) by (apply pydiv_ok; lra).
    assert (Ta : a <= T) by lra. assert (Tb : b <= T) by lra. clear Hn1 HaT.
    assert (e1 : exists x, eIEZ T [Ja; Jb] [a; b] k = Ok x).
    { cbn [eIEZ]. destruct (Rle_dec a T); [|now destruct n0]. destruct (Rle_dec b T); [|now destruct n0]. cbn [bind]. now eexists. }
    assert (e2 : exists x, eIZ T [Ja; Jb] [a; b] = Ok x).
    { cbn [eIZ]. destruct (Rle_dec a T); [|now destruct n0]. destruct (Rle_dec b T); [|now destruct n0]. cbn [bind]. now eexists. }
    destruct e1 as [x e1], e2 as [y e2].
    rewrite (rbind_lift _ x) by exact e1. rewrite (rbind_lift _ (exp (- k * T) * x / (2 * k))) by (apply pydiv_ok; lra).
    rewrite (rbind_lift _ y) by exact e2. rewrite (rbind_lift _ (y / (2 * k))) by (apply pydiv_ok; lra).
    destruct (Z.to_nat N) as [|N'] eqn:EN; [lia|]. cbn [rowsR]. unfold rbind at 1. unfold rbind at 1.
    unfold rIEII. rewrite (rbind_lift _ (T / IZR n)) by now apply seg_len. unfold range. rewrite Z.sub_0_r.
    destruct (Z.to_nat n) as [|n'] eqn:En; [lia|]. cbn [seq map foldR]. unfold rbind at 1. unfold rbind at 1. unfold rbind at 1.
    change (0 + Z.of_nat 0)%Z with 0%Z. change (0 + 1)%Z with 1%Z. rewrite Rmult_1_l, Rmult_0_l. cbn [jumps_to].
    destruct (Rle_dec a (T / IZR n)); [|now destruct n0].
    rewrite (rbind_ok _ _ _ _ _ (inc_ok W k th sg c 0 (a - 0) v0 0 0 0 ltac:(lra) Hv)).
    destruct (Rle_dec b (T / IZR n)); [|lra]. unfold rbind at 1. unfold incIEII. unfold rbind at 1, rlift at 1. rewrite msqrt_err by lra. reflexivity.
Qed.

(** two jumps, three segments, signs as noise: the mean is that of the model *)
Example C49_example : exists ys : (nat -> R) -> list R,
  (forall w, exists c', rSVVJ (mkWorld w (fun _ _ => 0%Z) (fun _ _ _ => 0)) 4 (1/8) 2 3 (1/2) (-3/5) 1 [1; 2] [1/2; 1/2] 1 3 O = Ok (ys w, c')) /\
  Esign 10 (fun w => nth 0 (ys w) 0) = sv_mean (mkSv (mkZpar 2 4 3 (1/2)) (1/8) (-3/5) 1) [(1/2, 1); (1/2, 2)].
Proof.
  destruct (C49_mean_variance (nat -> R) (Esign 10) (fun c w => w c) (fun w => mkWorld w (fun _ _ => 0%Z) (fun _ _ _ => 0)) 10 4 (1/8) 2 3 (1/2) (-3/5) 1
    [(1/2, 1); (1/2, 2)] 1 3 O (C48_white 10) ltac:(reflexivity) ltac:(lia) ltac:(lia) ltac:(lra) ltac:(lra) ltac:(lra) ltac:(lra)
    ltac:(cbn [ordered fst snd]; repeat split; lra) ltac:(cbn; lia)) as (st & _ & ys & H1 & H2).
  exists ys. split; [exact H1|]. apply (H2 O). cbn. lia.
Qed.
