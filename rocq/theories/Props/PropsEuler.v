(** Property C48: the Euler simulators of the factor models are truncated Euler schemes. *)
From Coq Require Import Reals Lra.
From Coquelicot Require Import Coquelicot.
From Verif.Spec Require Import Euler.
From Verif.Model Require Import Euler.
From Verif.Proof Require Import SumFacts ExpectFacts DecodeProofs EulerProofs EulerMart.
Local Open Scope R_scope.

Definition par_1fsv (par : dict) (mu k th sg rho : R) : Prop :=
  par "mu"%string = Some mu /\ par "k"%string = Some k /\ par "theta"%string = Some th /\
  par "sigma_v"%string = Some sg /\ par "rho"%string = Some rho.
Definition par_2fsv (par : dict) (mu k1 t1 s1 k2 t2 s2 : R) : Prop :=
  par "mu"%string = Some mu /\ par "k1"%string = Some k1 /\ par "theta1"%string = Some t1 /\ par "sigma_v1"%string = Some s1 /\
  par "k2"%string = Some k2 /\ par "theta2"%string = Some t2 /\ par "sigma_v2"%string = Some s2.
Definition par_jump (par : dict) (lmbd mj sj : R) : Prop :=
  par "lambda"%string = Some lmbd /\ par "mu_j"%string = Some mj /\ par "sigma_j"%string = Some sj.

Lemma it_inv {S} (nx : S -> nat -> S * nat) (P : S -> Prop) s c i : (forall s c, P s -> P (fst (nx s c))) -> P s -> P (fst (it nx s c i)).
Proof. intros H Hs. induction i as [|i IH]; [exact Hs|]. rewrite it_S. now apply H. Qed.

(** ** One factor.  Draw c+2m drives the variance in step m, draw c+2m+1 the other Brownian motion; row i is
    steps n i, ..., n i + n - 1 of one path. *)
Theorem C48_r1FSV : forall (W : world) v0 par N n h c mu k th sg rho, (0 <= N)%Z -> (0 < n)%Z -> 0 <= h -> rho ^ 2 <= 1 -> 0 <= v0 ->
  par_1fsv par mu k th sg rho ->
  let dt := h / IZR n in
  let dw m := sqrt dt * wnorm W (c + 2 * m) in
  let dw2 m := sqrt dt * wnorm W (c + 2 * m + 1) in
  let V := tpath k th sg dt dw v0 in
  exists ys, r1FSV W v0 par N n h c = Ok (ys, (c + 2 * Z.to_nat n * Z.to_nat N)%nat) /\ length ys = Z.to_nat N /\
    (forall m, 0 <= V m) /\
    forall i, (i < Z.to_nat N)%nat -> let a := (Z.to_nat n * i)%nat in
      nth i ys 0 = eret1 mu rho h dt (Z.to_nat n) (fun j => dw (a + j)%nat) (fun j => dw2 (a + j)%nat) (fun j => V (a + j)%nat).
Proof.
  intros W v0 par N n h c mu k th sg rho HN Hn Hh Hr Hv (h1 & h2 & h3 & h4 & h5) dt dw dw2 V.
  eexists. split; [exact (r1FSV_ok W mu k th sg rho h n par Hn Hh Hr h1 h2 h3 h4 h5 N v0 c HN Hv)|].
  split; [now rewrite map_length, seq_length|]. split; [intro m; now apply tpath_nonneg|]. intros i Hi a.
  erewrite nth_indep by now rewrite map_length, seq_length. rewrite map_nth, seq_nth by assumption. cbn [Nat.add].
  assert (e1 : forall j, dwa W (c + 2 * Z.to_nat n * i) (sqrt (h / IZR n)) j = dw (a + j)%nat).
  { intro j. unfold dwa, dw, dt, a. do 2 f_equal. lia. }
  assert (e2 : forall j, dwb W (c + 2 * Z.to_nat n * i) (sqrt (h / IZR n)) j = dw2 (a + j)%nat).
  { intro j. unfold dwb, dw2, dt, a. do 2 f_equal. lia. }
  assert (e3 : forall j, tpath k th sg (h / IZR n) (dwa W (c + 2 * Z.to_nat n * i) (sqrt (h / IZR n)))
     (tpath k th sg (h / IZR n) (dwa W c (sqrt (h / IZR n))) v0 (Z.to_nat n * i)) j = V (a + j)%nat).
  { intro j. unfold V. rewrite tpath_add. apply tpath_ext. intros; apply e1. }
  unfold eret1. erewrite itgr_ext by (intros; apply e3).
  rewrite (stoch_ext (dwa W _ _) (fun j => dw (a + j)%nat) _ (fun j => V (a + j)%nat)) by (intros; first [apply e3|apply e1]).
  rewrite (stoch_ext (dwb W _ _) (fun j => dw2 (a + j)%nat) _ (fun j => V (a + j)%nat)) by (intros; first [apply e3|apply e2]).
  reflexivity.
Unshelve. exact 0%nat.
Qed.

(** Every row of r1FSV_iid is a fresh path from v0 with its own draws. *)
Theorem C48_r1FSV_iid : forall (W : world) v0 par N n h c mu k th sg rho, (0 <= N)%Z -> (0 < n)%Z -> 0 <= h -> rho ^ 2 <= 1 -> 0 <= v0 ->
  par_1fsv par mu k th sg rho ->
  exists ys, r1FSV_iid W v0 par N n h c = Ok (ys, (c + 2 * Z.to_nat n * Z.to_nat N)%nat) /\ length ys = Z.to_nat N /\
    (forall i, (i < Z.to_nat N)%nat ->
      let dt := h / IZR n in
      let dw m := sqrt dt * wnorm W (c + 2 * Z.to_nat n * i + 2 * m) in
      let dw2 m := sqrt dt * wnorm W (c + 2 * Z.to_nat n * i + 2 * m + 1) in
      nth i ys 0 = eret1 mu rho h dt (Z.to_nat n) dw dw2 (tpath k th sg dt dw v0)) /\
    (forall i, (i < Z.to_nat N)%nat -> r1FSV W v0 par 1 n h (c + 2 * Z.to_nat n * i)%nat = Ok ([nth i ys 0], (c + 2 * Z.to_nat n * (i + 1))%nat)).
Proof.
  intros W v0 par N n h c mu k th sg rho HN Hn Hh Hr Hv (h1 & h2 & h3 & h4 & h5).
  eexists. split; [exact (r1FSV_iid_ok W mu k th sg rho h n par Hn Hh Hr h1 h2 h3 h4 h5 N v0 c HN Hv)|].
  split; [now rewrite map_length, seq_length|]. split; intros i Hi.
  - intros dt dw dw2. erewrite nth_indep by now rewrite map_length, seq_length. rewrite map_nth, seq_nth by assumption. reflexivity.
  - rewrite (r1FSV_ok W mu k th sg rho h n par Hn Hh Hr h1 h2 h3 h4 h5 1 v0 _ ltac:(lia) Hv). change (Z.to_nat 1) with 1%nat. cbn [seq map].
    erewrite nth_indep by now rewrite map_length, seq_length. rewrite map_nth, seq_nth by assumption. cbn [Nat.add].
    rewrite !Nat.mul_0_r, Nat.add_0_r. cbn [tpath]. do 2 f_equal. lia.
Unshelve. all: exact 0%nat.
Qed.

(** r1FSVJ: row i uses draws from cs i on: 2 n normals, one Poisson number, then that many normals. *)
Theorem C48_r1FSVJ : forall (W : world) v0 par N n h c mu k th sg rho lmbd mj sj, (0 <= N)%Z -> (0 < n)%Z -> 0 <= h -> rho ^ 2 <= 1 -> 0 <= v0 ->
  0 <= lmbd -> 0 <= sj -> par_1fsv par mu k th sg rho -> par_jump par lmbd mj sj ->
  let dt := h / IZR n in let m := Z.to_nat n in
  exists (cs : nat -> nat) (vs : nat -> R) (nj : nat -> nat) ys,
    r1FSVJ W v0 par N n h c = Ok (ys, cs (Z.to_nat N)) /\ length ys = Z.to_nat N /\ cs O = c /\ vs O = v0 /\
    forall i, (i < Z.to_nat N)%nat ->
      let dw j := sqrt dt * wnorm W (cs i + 2 * j) in
      let dw2 j := sqrt dt * wnorm W (cs i + 2 * j + 1) in
      let V := tpath k th sg dt dw (vs i) in
      0 <= vs i /\ vs (S i) = V m /\ nj i = Z.to_nat (wpois W (cs i + 2 * m) (lmbd * h)) /\ cs (S i) = (cs i + 2 * m + 1 + nj i)%nat /\
      nth i ys 0 = eret1 mu rho h dt m dw dw2 V + nsum mj sj (fun l => wnorm W (cs i + 2 * m + 1 + l)) (nj i).
Proof.
  intros W v0 par N n h c mu k th sg rho lmbd mj sj HN Hn Hh Hr Hv Hl Hs (h1 & h2 & h3 & h4 & h5) (h6 & h7 & h8) dt m.
  set (nx := nxj W k th sg lmbd h n).
  exists (fun i => snd (it nx v0 c i)), (fun i => fst (it nx v0 c i)), (fun i => nj W lmbd h (snd (it nx v0 c i) + 2 * m)).
  eexists. split; [exact (r1FSVJ_ok W mu k th sg rho lmbd mj sj h n par Hn Hh Hr Hl Hs h1 h2 h3 h4 h5 h6 h7 h8 N v0 c HN Hv)|].
  split; [now rewrite map_length, seq_length|]. split; [reflexivity|]. split; [reflexivity|]. intros i Hi dw dw2 V.
  split; [apply (it_inv nx (fun v => 0 <= v)); [intros; now apply tpath_nonneg|exact Hv]|].
  split; [rewrite it_S; reflexivity|]. split; [reflexivity|]. split; [rewrite it_S; unfold nx, nxj; cbn [snd]; fold m; lia|].
  erewrite nth_indep by now rewrite map_length, seq_length. rewrite map_nth, seq_nth by assumption. cbn [Nat.add].
  unfold Yj. fold nx m dt. f_equal. apply sumR_ext. intros l _. do 2 f_equal. f_equal. lia.
Unshelve. all: exact 0%nat.
Qed.

(** ** Two factors: three draws a step, the first for the price *)
Theorem C48_r2FSV : forall (W : world) v1 v2 par N n h c mu k1 t1 s1 k2 t2 s2, (0 <= N)%Z -> (0 < n)%Z -> 0 <= h -> 0 <= v1 -> 0 <= v2 ->
  par_2fsv par mu k1 t1 s1 k2 t2 s2 ->
  let dt := h / IZR n in
  let dw r m := sqrt dt * wnorm W (c + 3 * m + r) in
  let V1 := tpath k1 t1 s1 dt (dw 1%nat) v1 in
  let V2 := tpath k2 t2 s2 dt (dw 2%nat) v2 in
  exists ys, r2FSV W (v1, v2) par N n h c = Ok (ys, (c + 3 * Z.to_nat n * Z.to_nat N)%nat) /\ length ys = Z.to_nat N /\
    (forall m, 0 <= V1 m /\ 0 <= V2 m) /\
    forall i, (i < Z.to_nat N)%nat -> let a := (Z.to_nat n * i)%nat in
      nth i ys 0 = eret2 mu h dt (Z.to_nat n) (fun j => dw O (a + j)%nat) (fun j => V1 (a + j)%nat) (fun j => V2 (a + j)%nat).
Proof.
  intros W v1 v2 par N n h c mu k1 t1 s1 k2 t2 s2 HN Hn Hh H1 H2 (h1 & h2 & h3 & h4 & h5 & h6 & h7) dt dw V1 V2.
  eexists. split; [exact (r2FSV_ok W mu k1 t1 s1 k2 t2 s2 h n par Hn Hh h1 h2 h3 h4 h5 h6 h7 N (v1, v2) c HN (conj H1 H2))|].
  split; [now rewrite map_length, seq_length|]. split; [intro m; split; now apply tpath_nonneg|]. intros i Hi a.
  erewrite nth_indep by now rewrite map_length, seq_length. rewrite map_nth, seq_nth by assumption. cbn [Nat.add fst snd].
  assert (e : forall r j, dw3 W (c + 3 * Z.to_nat n * i) (sqrt (h / IZR n)) r j = dw r (a + j)%nat).
  { intros r j. unfold dw3, dw, dt, a. do 2 f_equal. lia. }
  assert (e1 : forall j, tpath k1 t1 s1 (h / IZR n) (dw3 W (c + 3 * Z.to_nat n * i) (sqrt (h / IZR n)) 1)
     (tpath k1 t1 s1 (h / IZR n) (dw3 W c (sqrt (h / IZR n)) 1) v1 (Z.to_nat n * i)) j = V1 (a + j)%nat).
  { intro j. unfold V1. rewrite tpath_add. apply tpath_ext. intros; apply e. }
  assert (e2 : forall j, tpath k2 t2 s2 (h / IZR n) (dw3 W (c + 3 * Z.to_nat n * i) (sqrt (h / IZR n)) 2)
     (tpath k2 t2 s2 (h / IZR n) (dw3 W c (sqrt (h / IZR n)) 2) v2 (Z.to_nat n * i)) j = V2 (a + j)%nat).
  { intro j. unfold V2. rewrite tpath_add. apply tpath_ext. intros; apply e. }
  unfold eret2. rewrite (itgr_ext _ (tpath k1 t1 s1 _ _ _) (fun j => V1 (a + j)%nat)) by (intros; apply e1).
  rewrite (itgr_ext _ (tpath k2 t2 s2 _ _ _) (fun j => V2 (a + j)%nat)) by (intros; apply e2).
  rewrite (stoch_ext (dw3 W _ _ 0) (fun j => dw O (a + j)%nat) _ (fun j => V1 (a + j)%nat + V2 (a + j)%nat))
    by (intros; first [apply e|rewrite e1, e2; reflexivity]).
  reflexivity.
Unshelve. exact 0%nat.
Qed.
Theorem C48_r2FSVJ : forall (W : world) v1 v2 par N n h c mu k1 t1 s1 k2 t2 s2 lmbd mj sj, (0 <= N)%Z -> (0 < n)%Z -> 0 <= h -> 0 <= v1 -> 0 <= v2 ->
  0 <= lmbd -> 0 <= sj -> par_2fsv par mu k1 t1 s1 k2 t2 s2 -> par_jump par lmbd mj sj ->
  let dt := h / IZR n in let m := Z.to_nat n in
  exists (cs : nat -> nat) (vs us : nat -> R) (nj : nat -> nat) ys,
    r2FSVJ W (v1, v2) par N n h c = Ok (ys, cs (Z.to_nat N)) /\ length ys = Z.to_nat N /\ cs O = c /\ vs O = v1 /\ us O = v2 /\
    forall i, (i < Z.to_nat N)%nat ->
      let dw r j := sqrt dt * wnorm W (cs i + 3 * j + r) in
      let V1 := tpath k1 t1 s1 dt (dw 1%nat) (vs i) in
      let V2 := tpath k2 t2 s2 dt (dw 2%nat) (us i) in
      0 <= vs i /\ 0 <= us i /\ vs (S i) = V1 m /\ us (S i) = V2 m /\ nj i = Z.to_nat (wpois W (cs i + 3 * m) (lmbd * h)) /\
      cs (S i) = (cs i + 3 * m + 1 + nj i)%nat /\
      nth i ys 0 = eret2 mu h dt m (dw O) V1 V2 + nsum mj sj (fun l => wnorm W (cs i + 3 * m + 1 + l)) (nj i).
Proof.
  intros W v1 v2 par N n h c mu k1 t1 s1 k2 t2 s2 lmbd mj sj HN Hn Hh H1 H2 Hl Hs (h1 & h2 & h3 & h4 & h5 & h6 & h7) (h8 & h9 & h10) dt m.
  set (nx := nxj2 W k1 t1 s1 k2 t2 s2 h n lmbd).
  exists (fun i => snd (it nx (v1, v2) c i)), (fun i => fst (fst (it nx (v1, v2) c i))), (fun i => snd (fst (it nx (v1, v2) c i))),
    (fun i => nj2 W h lmbd (snd (it nx (v1, v2) c i) + 3 * m)).
  eexists. split; [exact (r2FSVJ_ok W mu k1 t1 s1 k2 t2 s2 h n par Hn Hh h1 h2 h3 h4 h5 h6 h7 lmbd mj sj Hl Hs h8 h9 h10 N (v1, v2) c HN (conj H1 H2))|].
  split; [now rewrite map_length, seq_length|]. do 3 (split; [reflexivity|]). intros i Hi dw V1 V2.
  assert (P : 0 <= fst (fst (it nx (v1, v2) c i)) /\ 0 <= snd (fst (it nx (v1, v2) c i))).
  { apply (it_inv nx (fun v => 0 <= fst v /\ 0 <= snd v)); [intros s c' [a b]; split; now apply tpath_nonneg|split; assumption]. }
  split; [apply P|]. split; [apply P|].
  split; [rewrite it_S; reflexivity|]. split; [rewrite it_S; reflexivity|]. split; [reflexivity|].
  split; [rewrite it_S; unfold nx, nxj2; cbn [snd]; fold m; lia|].
  erewrite nth_indep by now rewrite map_length, seq_length. rewrite map_nth, seq_nth by assumption. cbn [Nat.add].
  unfold Yj2. fold nx m dt. f_equal. apply sumR_ext. intros l _. do 2 f_equal. f_equal. lia.
Unshelve. all: exact 0%nat.
Qed.

(** ** Errors *)
Theorem C48_errors : forall (W : world) v0 par N n h c mu k th sg rho, par_1fsv par mu k th sg rho ->
  (n = 0%Z -> r1FSV W v0 par N n h c = Err ZeroDivisionError) /\
  ((0 < n)%Z -> h < 0 -> r1FSV W v0 par N n h c = Err ValueError) /\
  ((0 < n)%Z -> 0 <= h -> (N < 0)%Z -> r1FSV W v0 par N n h c = Err ValueError) /\
  ((0 < n)%Z -> 0 <= h -> (0 < N)%Z -> v0 < 0 -> r1FSV W v0 par N n h c = Err ValueError) /\
  ((0 < n)%Z -> 0 <= h -> (0 < N)%Z -> 0 <= v0 -> 1 < rho ^ 2 -> r1FSV W v0 par N n h c = Err ValueError).
Proof.
  intros W v0 par N n h c mu k th sg rho (h1 & h2 & h3 & h4 & h5). unfold r1FSV. names.
  split; [|split; [|split; [|split]]].
  - intros ->. unfold rbind, rlift, pydiv. destruct (Req_EM_T 0 0); [reflexivity|lra].
  - intros Hn Hh. rewrite (rbind_lift _ (h / IZR n)) by now apply seg_len. unfold rbind at 1. rewrite msqrt_err; [reflexivity|].
    unfold Rdiv. apply IZR_lt, Rinv_0_lt_compat in Hn. nra.
  - intros Hn Hh HN. rewrite (rbind_lift _ (h / IZR n)) by now apply seg_len.
    rewrite (rbind_lift _ (sqrt (h / IZR n))) by (apply msqrt_ok; now apply seg_nonneg).
    unfold emptyR. destruct (Z.ltb_spec N 0); [reflexivity|lia].
  - intros Hn Hh HN Hv. rewrite (rbind_lift _ (h / IZR n)) by now apply seg_len.
    rewrite (rbind_lift _ (sqrt (h / IZR n))) by (apply msqrt_ok; now apply seg_nonneg).
    unfold emptyR. destruct (Z.ltb_spec N 0); [lia|]. destruct (Z.to_nat N) as [|N'] eqn:EN; [lia|]. cbn [rowsR].
    assert (L := range_len n). destruct (range 0 n) as [|z l]; [cbn in L; lia|]. cbn [foldR].
    unfold rbind, seg1, rlift, rbind. rewrite (msqrt_err v0 Hv). reflexivity.
  - intros Hn Hh HN Hv Hr. rewrite (rbind_lift _ (h / IZR n)) by now apply seg_len.
    rewrite (rbind_lift _ (sqrt (h / IZR n))) by (apply msqrt_ok; now apply seg_nonneg).
    unfold emptyR. destruct (Z.ltb_spec N 0); [lia|]. destruct (Z.to_nat N) as [|N'] eqn:EN; [lia|]. cbn [rowsR].
    unfold rbind at 1. unfold rbind at 1.
    rewrite (segs1_ok W k th sg (h / IZR n) (sqrt (h / IZR n)) (sqrt_pos _) (range 0 n) v0 0 0 0 c Hv). cbn [bind fst snd].
    unfold rbind at 1, rlift at 1. rewrite msqrt_err by lra. reflexivity.
Qed.

(** ** Balance: the truncation only adds variance, and nothing when it never acts *)
Theorem C48_balance : forall k th sg dt dw v n, let V := tpath k th sg dt dw v in
  v + k * (th * (INR n * dt) - itgr dt V n) + sg * stoch dw V n <= V n /\
  ((forall j, (j < n)%nat -> 0 <= V j + k * (th - V j) * dt + sg * (sqrt (V j) * dw j)) ->
    V n = v + k * (th * (INR n * dt) - itgr dt V n) + sg * stoch dw V n).
Proof. intros k th sg dt dw v n V. split; [apply tpath_balance|apply tpath_balance_eq]. Qed.

(** ** White noise draws: the simulated return has conditional mean mu h - IV/2 and variance IV *)
Theorem C48_mean_variance : forall Om (E : (Om -> R) -> R) (Z : nat -> Om -> R) (W : Om -> world) C v0 par N n h c mu k th sg rho,
  white E Z C -> (forall w i, wnorm (W w) i = Z i w) ->
  (0 <= N)%Z -> (0 < n)%Z -> 0 <= h -> rho ^ 2 <= 1 -> 0 <= v0 -> (c + 2 * Z.to_nat n * Z.to_nat N <= C)%nat ->
  par_1fsv par mu k th sg rho ->
  exists ys : Om -> list R, (forall w, exists c', r1FSV (W w) v0 par N n h c = Ok (ys w, c')) /\
    forall i, (i < Z.to_nat N)%nat -> exists IV : Om -> R,
      (forall w, IV w = itgr (h / IZR n) (fun j => tpath k th sg (h / IZR n) (fun m => sqrt (h / IZR n) * Z (c + 2 * m)%nat w) v0 (Z.to_nat n * i + j)) (Z.to_nat n)) /\
      E (fun w => nth i (ys w) 0) = mu * h - E IV / 2 /\
      E (fun w => (nth i (ys w) 0 - (mu * h - IV w / 2)) ^ 2) = E IV.
Proof.
  intros Om E Z W C v0 par N n h c mu k th sg rho HW HWn HN Hn Hh Hr Hv HC HP.
  assert (HE := wh_E E Z C HW). set (dt := h / IZR n). set (m := Z.to_nat n).
  set (dw := fun (w : Om) j => sqrt dt * Z (c + 2 * j)%nat w). set (V := fun w => tpath k th sg dt (dw w) v0).
  assert (dt0 : 0 <= dt) by now apply seg_nonneg.
  exists (fun w => match r1FSV (W w) v0 par N n h c with Ok r => fst r | Err _ => [] end).
  assert (HY : forall w, exists ys c', r1FSV (W w) v0 par N n h c = Ok (ys, c') /\ forall i, (i < Z.to_nat N)%nat -> let a := (m * i)%nat in
    nth i ys 0 = mu * h - itgr dt (fun j => V w (a + j)%nat) m / 2
      + sumR (fun j => sqrt (V w (a + j)%nat) * sqrt dt * (rho * Z (c + 2 * a + 2 * j)%nat w + sqrt (1 - rho ^ 2) * Z (c + 2 * a + 2 * j + 1)%nat w)) (seq 0 m)).
  { intro w. destruct (C48_r1FSV (W w) v0 par N n h c mu k th sg rho HN Hn Hh Hr Hv HP) as (ys & Ey & _ & _ & Hy).
    exists ys. eexists. split; [exact Ey|]. intros i Hi a. rewrite Hy by assumption. fold dt m a.
    assert (e0 : forall j, tpath k th sg dt (fun m0 => sqrt dt * wnorm (W w) (c + 2 * m0)) v0 j = V w j).
    { intro j. apply tpath_ext. intros p _. unfold dw. now rewrite HWn. }
    unfold eret1. rewrite (itgr_ext _ _ (fun j => V w (a + j)%nat)) by (intros; apply e0). f_equal.
    unfold stoch. rewrite <- !sumR_scal, <- sumR_plus. apply sumR_ext. intros j _. rewrite e0, !HWn.
    replace (c + 2 * (a + j))%nat with (c + 2 * a + 2 * j)%nat by lia. ring. }
  split; [intro w; destruct (HY w) as (ys & c' & Ey & _); exists c'; now rewrite Ey|].
  intros i Hi. exists (fun w => itgr dt (fun j => V w (m * i + j)%nat) m). split; [intro w; reflexivity|].
  set (a := (m * i)%nat).
  assert (HYi : forall w, nth i (match r1FSV (W w) v0 par N n h c with Ok r => fst r | Err _ => [] end) 0
    = mu * h - itgr dt (fun j => V w (a + j)%nat) m / 2
      + sumR (fun j => sqrt (V w (a + j)%nat) * sqrt dt * (rho * Z (c + 2 * a + 2 * j)%nat w + sqrt (1 - rho ^ 2) * Z (c + 2 * a + 2 * j + 1)%nat w)) (seq 0 m)).
  { intro w. destruct (HY w) as (ys & c' & Ey & Hy). rewrite Ey. cbn [fst]. now apply Hy. }
  destruct (mart2 E Z C HW rho (sqrt (1 - rho ^ 2)) (c + 2 * a) (fun j w => sqrt (V w (a + j)%nat) * sqrt dt) m) as [M1 M2].
  { unfold a. fold m in HC. nia. }
  { intros j Hj. apply (before_1 Z _ (fun w => V w (a + j)%nat) (fun x => sqrt x * sqrt dt)). unfold V, dw.
    apply (before_tpath Z 0 k th sg dt (fun j w => sqrt dt * Z (c + 2 * j)%nat w) (fun _ => v0)); [intros ? ? _; reflexivity| |lia].
    intros p Hp. apply (before_1 Z _ (Z (c + 2 * p)%nat) (fun x => sqrt dt * x)). apply before_draw. lia. }
  split.
  - transitivity (E (fun w => mu * h * 1) + (- (1 / 2) * E (fun w => itgr dt (fun j => V w (a + j)%nat) m)
      + E (fun w => sumR (fun j => sqrt (V w (a + j)%nat) * sqrt dt * (rho * Z (c + 2 * a + 2 * j)%nat w + sqrt (1 - rho ^ 2) * Z (c + 2 * a + 2 * j + 1)%nat w)) (seq 0 m)))).
    { rewrite <- (E_scal E HE (- (1 / 2))), <- !(E_plus E HE). apply (E_ext E HE). intro w. rewrite HYi. field. }
    rewrite M1, (E_scal E HE), (wh_1 E Z C HW). field.
  - transitivity (E (fun w => (sumR (fun j => sqrt (V w (a + j)%nat) * sqrt dt * (rho * Z (c + 2 * a + 2 * j)%nat w + sqrt (1 - rho ^ 2) * Z (c + 2 * a + 2 * j + 1)%nat w)) (seq 0 m)) ^ 2)).
    { apply (E_ext E HE). intro w. rewrite HYi. fold a. ring. }
    rewrite M2. replace (sqrt (1 - rho ^ 2) ^ 2) with (1 - rho ^ 2) by (rewrite pow2_sqrt; lra).
    replace (rho ^ 2 + (1 - rho ^ 2)) with 1 by ring. rewrite Rmult_1_l. apply (E_ext E HE). intro w. unfold itgr. fold a.
    apply sumR_ext. intros j _. rewrite Rpow_mult_distr, !pow2_sqrt; [reflexivity|assumption|now apply tpath_nonneg].
Qed.
Theorem C48_mean_variance_2fsv : forall Om (E : (Om -> R) -> R) (Z : nat -> Om -> R) (W : Om -> world) C v1 v2 par N n h c mu k1 t1 s1 k2 t2 s2,
  white E Z C -> (forall w i, wnorm (W w) i = Z i w) ->
  (0 <= N)%Z -> (0 < n)%Z -> 0 <= h -> 0 <= v1 -> 0 <= v2 -> (c + 3 * Z.to_nat n * Z.to_nat N <= C)%nat ->
  par_2fsv par mu k1 t1 s1 k2 t2 s2 ->
  exists ys : Om -> list R, (forall w, exists c', r2FSV (W w) (v1, v2) par N n h c = Ok (ys w, c')) /\
    forall i, (i < Z.to_nat N)%nat -> exists IV : Om -> R,
      (forall w, IV w = itgr (h / IZR n) (fun j =>
         tpath k1 t1 s1 (h / IZR n) (fun m => sqrt (h / IZR n) * Z (c + 3 * m + 1)%nat w) v1 (Z.to_nat n * i + j)
         + tpath k2 t2 s2 (h / IZR n) (fun m => sqrt (h / IZR n) * Z (c + 3 * m + 2)%nat w) v2 (Z.to_nat n * i + j)) (Z.to_nat n)) /\
      E (fun w => nth i (ys w) 0) = mu * h - E IV / 2 /\
      E (fun w => (nth i (ys w) 0 - (mu * h - IV w / 2)) ^ 2) = E IV.
Proof.
  intros Om E Z W C v1 v2 par N n h c mu k1 t1 s1 k2 t2 s2 HW HWn HN Hn Hh Hv1 Hv2 HC HP.
  assert (HE := wh_E E Z C HW). set (dt := h / IZR n). set (m := Z.to_nat n).
  set (V1 := fun w => tpath k1 t1 s1 dt (fun j => sqrt dt * Z (c + 3 * j + 1)%nat w) v1).
  set (V2 := fun w => tpath k2 t2 s2 dt (fun j => sqrt dt * Z (c + 3 * j + 2)%nat w) v2).
  assert (dt0 : 0 <= dt) by now apply seg_nonneg.
  exists (fun w => match r2FSV (W w) (v1, v2) par N n h c with Ok r => fst r | Err _ => [] end).
  assert (HY : forall w, exists ys c', r2FSV (W w) (v1, v2) par N n h c = Ok (ys, c') /\ forall i, (i < Z.to_nat N)%nat -> let a := (m * i)%nat in
    nth i ys 0 = mu * h - itgr dt (fun j => V1 w (a + j)%nat + V2 w (a + j)%nat) m / 2
      + sumR (fun j => sqrt (V1 w (a + j)%nat + V2 w (a + j)%nat) * sqrt dt * Z (c + 3 * a + 3 * j)%nat w) (seq 0 m)).
  { intro w. destruct (C48_r2FSV (W w) v1 v2 par N n h c mu k1 t1 s1 k2 t2 s2 HN Hn Hh Hv1 Hv2 HP) as (ys & Ey & _ & _ & Hy).
    exists ys. eexists. split; [exact Ey|]. intros i Hi a. rewrite Hy by assumption. fold dt m a.
    assert (e1 : forall j, tpath k1 t1 s1 dt (fun m0 => sqrt dt * wnorm (W w) (c + 3 * m0 + 1)) v1 j = V1 w j).
    { intro j. apply tpath_ext. intros p _. now rewrite HWn. }
    assert (e2 : forall j, tpath k2 t2 s2 dt (fun m0 => sqrt dt * wnorm (W w) (c + 3 * m0 + 2)) v2 j = V2 w j).
    { intro j. apply tpath_ext. intros p _. now rewrite HWn. }
    unfold eret2, itgr, stoch. rewrite <- sumR_plus. f_equal; [f_equal; f_equal|]; apply sumR_ext; intros j _; rewrite e1, e2; [ring|].
    rewrite HWn. replace (c + 3 * (a + j) + 0)%nat with (c + 3 * a + 3 * j)%nat by lia. ring. }
  split; [intro w; destruct (HY w) as (ys & c' & Ey & _); exists c'; now rewrite Ey|].
  intros i Hi. exists (fun w => itgr dt (fun j => V1 w (m * i + j)%nat + V2 w (m * i + j)%nat) m). split; [intro w; reflexivity|].
  set (a := (m * i)%nat). set (s := fun j w => sqrt (V1 w (a + j)%nat + V2 w (a + j)%nat) * sqrt dt).
  assert (HYi : forall w, nth i (match r2FSV (W w) (v1, v2) par N n h c with Ok r => fst r | Err _ => [] end) 0
    = mu * h - itgr dt (fun j => V1 w (a + j)%nat + V2 w (a + j)%nat) m / 2 + sumR (fun j => s j w * Z (c + 3 * a + 3 * j)%nat w) (seq 0 m)).
  { intro w. destruct (HY w) as (ys & c' & Ey & Hy). rewrite Ey. cbn [fst]. now apply Hy. }
  destruct (mart1 E Z C HW 3 (c + 3 * a) s m) as [M1 M2]; [lia|unfold a; fold m in HC; nia| |].
  { intros j Hj. apply (before_2 Z _ (fun w => V1 w (a + j)%nat) (fun w => V2 w (a + j)%nat) (fun x y => sqrt (x + y) * sqrt dt)).
    - apply (before_tpath Z 0 k1 t1 s1 dt (fun j w => sqrt dt * Z (c + 3 * j + 1)%nat w) (fun _ => v1)); [intros ? ? _; reflexivity| |lia].
      intros p Hp. apply (before_1 Z _ (Z (c + 3 * p + 1)%nat) (fun x => sqrt dt * x)). apply before_draw. lia.
    - apply (before_tpath Z 0 k2 t2 s2 dt (fun j w => sqrt dt * Z (c + 3 * j + 2)%nat w) (fun _ => v2)); [intros ? ? _; reflexivity| |lia].
      intros p Hp. apply (before_1 Z _ (Z (c + 3 * p + 2)%nat) (fun x => sqrt dt * x)). apply before_draw. lia. }
  split.
  - transitivity (E (fun w => mu * h * 1) + (- (1 / 2) * E (fun w => itgr dt (fun j => V1 w (a + j)%nat + V2 w (a + j)%nat) m)
      + E (fun w => sumR (fun j => s j w * Z (c + 3 * a + 3 * j)%nat w) (seq 0 m)))).
    { rewrite <- (E_scal E HE (- (1 / 2))), <- !(E_plus E HE). apply (E_ext E HE). intro w. rewrite HYi. field. }
    rewrite M1, (E_scal E HE), (wh_1 E Z C HW). field.
  - transitivity (E (fun w => sumR (fun j => s j w * Z (c + 3 * a + 3 * j)%nat w) (seq 0 m) ^ 2)).
    { apply (E_ext E HE). intro w. rewrite HYi. fold a. ring. }
    rewrite M2. apply (E_ext E HE). intro w. unfold itgr. fold a. apply sumR_ext. intros j _. unfold s.
    rewrite Rpow_mult_distr, !pow2_sqrt; [reflexivity|assumption|]. apply Rplus_le_le_0_compat; now apply tpath_nonneg.
Qed.

(** ** Without noise the scheme converges to the solution of v' = k (theta - v) *)
Theorem C48_limit : forall k th v0 h (dw : nat -> nat -> R), 0 < k -> 0 <= th -> 0 <= v0 -> 0 <= h ->
  is_lim_seq (fun n => tpath k th 0 (h / INR n) (dw n) v0 n) (th + (v0 - th) * exp (- (k * h))) /\
  is_lim_seq (fun n => itgr (h / INR n) (tpath k th 0 (h / INR n) (dw n) v0) n) (RInt (fun s => th + (v0 - th) * exp (- (k * s))) 0 h).
Proof.
  intros k th v0 h dw Hk Hth Hv Hh.
  assert (EV : exists n0, forall n, (n0 <= n)%nat -> 0 <= k * (h / INR n) <= 1 /\ INR n * (h / INR n) = h).
  { destruct (nfloor_ex (k * h)) as [n0 [_ Hn0]]; [nra|]. exists (S n0). intros n Hn.
    assert (Hp : 0 < INR n) by (apply lt_0_INR; lia). split; [|field; lra].
    assert (k * (h / INR n) = (k * h) / INR n) as -> by (field; lra).
    split; [apply Rmult_le_pos; [nra|apply Rlt_le, Rinv_0_lt_compat, Hp]|]. apply (Rmult_le_reg_r (INR n)); [exact Hp|].
    unfold Rdiv. rewrite Rmult_assoc, Rinv_l, Rmult_1_r, Rmult_1_l by lra. apply Rlt_le, (Rlt_le_trans _ _ _ Hn0).
    rewrite <- S_INR. apply le_INR. exact Hn. }
  assert (L := compound (k * h)).
  assert (L' : is_lim_seq (fun n => (1 - k * (h / INR n)) ^ n) (exp (- (k * h)))).
  { apply (is_lim_seq_ext (fun n => (1 - k * h / INR n) ^ n)); [|exact L]. intro n. f_equal. unfold Rdiv. ring. }
  split.
  - apply (is_lim_seq_ext_loc (fun n => th + (v0 - th) * (1 - k * (h / INR n)) ^ n)).
    { destruct EV as [n0 H]. exists n0. intros n Hn. destruct (H n Hn) as [H1 _]. symmetry. now apply tpath_0. }
    apply (is_lim_seq_plus' _ _ th _ (is_lim_seq_const th)). apply (is_lim_seq_scal_l _ (v0 - th) _ L').
  - assert (EI : RInt (fun s => th + (v0 - th) * exp (- (k * s))) 0 h = th * h + (v0 - th) * ((1 - exp (- (k * h))) / k)).
    { apply is_RInt_unique. evar_last.
      - apply (is_RInt_derive (fun s => th * s - (v0 - th) * (exp (- (k * s)) / k))).
        + intros x _. auto_derive; [trivial|]. field. lra.
        + intros x _. apply continuity_pt_filterlim. reg.
      - unfold minus, plus, opp. cbn. rewrite !Rmult_0_r, Ropp_0, exp_0. field. lra. }
    rewrite EI.
    apply (is_lim_seq_ext_loc (fun n => th * h + (v0 - th) * ((1 - (1 - k * (h / INR n)) ^ n) / k))).
    { destruct EV as [n0 H]. exists n0. intros n Hn. destruct (H n Hn) as [H1 H2]. rewrite itgr_0 by (try assumption; lra). now rewrite H2. }
    apply (is_lim_seq_plus' _ _ (th * h) _ (is_lim_seq_const _)). apply (is_lim_seq_scal_l _ (v0 - th) (Finite _)).
    apply (is_lim_seq_mult' _ _ _ (/ k)); [|apply is_lim_seq_const]. apply (is_lim_seq_minus' _ _ 1 _ (is_lim_seq_const 1) L').
Qed.

(** ** white noise exists: independent signs *)
Definition upd (w : nat -> R) (c : nat) (x : R) : nat -> R := fun i => if Nat.eqb i c then x else w i.
Fixpoint Esign (C : nat) (f : (nat -> R) -> R) : R :=
  match C with
  | O => f (fun _ => 0)
  | S C => (Esign C (fun w => f (upd w C 1)) + Esign C (fun w => f (upd w C (-1)))) / 2
  end.
Example C48_white : forall C, white (Esign C) (fun c w => w c) C.
Proof.
  assert (HE : forall C, expectation (Esign C)).
  { induction C as [|C IH]; split; intros; cbn [Esign].
    - apply H. - reflexivity. - reflexivity.
    - f_equal. f_equal; apply (E_ext _ IH); intro; apply H.
    - rewrite !(E_plus _ IH). field.
    - rewrite !(E_scal _ IH). field. }
  intro C. split; [apply HE| | |].
  - induction C as [|C IH]; [reflexivity|]. cbn [Esign]. rewrite IH. field.
  - induction C as [|C IH]; intros c f Hc Hf; [lia|]. cbn [Esign]. destruct (Nat.eq_dec c C) as [->|Hn].
    + assert (e : forall x w, f (upd w C x) = f w).
      { intros x w. apply Hf. intros i Hi. unfold upd. destruct (Nat.eqb_spec i C); [lia|reflexivity]. }
      transitivity ((Esign C (fun w => 1 * f w) + Esign C (fun w => -1 * f w)) / 2).
      { f_equal. f_equal; apply (E_ext _ (HE C)); intro w; rewrite e; unfold upd; rewrite Nat.eqb_refl; ring. }
      rewrite !(E_scal _ (HE C)). field.
    + assert (e : forall x, Esign C (fun w => f (upd w C x) * upd w C x c) = 0).
      { intro x. transitivity (Esign C (fun w => f (upd w C x) * w c)).
        - apply (E_ext _ (HE C)). intro w. unfold upd at 2. destruct (Nat.eqb_spec c C); [lia|reflexivity].
        - apply IH; [lia|]. intros w w' Hw. apply Hf. intros i Hi. unfold upd. destruct (Nat.eqb_spec i C); [reflexivity|now apply Hw]. }
      rewrite !e. field.
  - induction C as [|C IH]; intros c f Hc Hf; [lia|]. cbn [Esign]. destruct (Nat.eq_dec c C) as [->|Hn].
    + f_equal. f_equal; apply (E_ext _ (HE C)); intro w; unfold upd at 2; rewrite Nat.eqb_refl; ring.
    + f_equal. f_equal.
      * transitivity (Esign C (fun w => f (upd w C 1) * w c ^ 2)).
        -- apply (E_ext _ (HE C)). intro w. unfold upd at 2. destruct (Nat.eqb_spec c C); [lia|reflexivity].
        -- apply (IH c (fun w => f (upd w C 1))); [lia|]. intros w w' Hw. apply Hf. intros i Hi. unfold upd. destruct (Nat.eqb_spec i C); [reflexivity|now apply Hw].
      * transitivity (Esign C (fun w => f (upd w C (-1)) * w c ^ 2)).
        -- apply (E_ext _ (HE C)). intro w. unfold upd at 2. destruct (Nat.eqb_spec c C); [lia|reflexivity].
        -- apply (IH c (fun w => f (upd w C (-1)))); [lia|]. intros w w' Hw. apply Hf. intros i Hi. unfold upd. destruct (Nat.eqb_spec i C); [reflexivity|now apply Hw].
Qed.
Definition dex : dict := fun s => if String.eqb s "mu" then Some 1 else if String.eqb s "k" then Some 2 else if String.eqb s "theta" then Some 3
  else if String.eqb s "sigma_v" then Some (1/2) else if String.eqb s "rho" then Some (-3/5) else None.
(** one row of one segment with signs as noise: the mean is mu h - v0 h / 2 *)
Example C48_example : exists ys : (nat -> R) -> list R,
  (forall w, exists c', r1FSV (mkWorld w (fun _ _ => 0%Z) (fun _ _ _ => 0)) 4 dex 1 1 1 O = Ok (ys w, c')) /\
  Esign 2 (fun w => nth 0 (ys w) 0) = 1 - 4 / 2.
Proof.
  destruct (C48_mean_variance (nat -> R) (Esign 2) (fun c w => w c) (fun w => mkWorld w (fun _ _ => 0%Z) (fun _ _ _ => 0)) 2 4 dex 1 1 1 O 1 2 3 (1/2) (-3/5)
    (C48_white 2) ltac:(reflexivity) ltac:(lia) ltac:(lia) ltac:(lra) ltac:(lra) ltac:(lra) ltac:(cbn; lia) ltac:(repeat split)) as (ys & H1 & H2).
  exists ys. split; [exact H1|]. destruct (H2 O ltac:(cbn; lia)) as (IV & e & M & _). rewrite M.
  assert (E4 : Esign 2 IV = 4).
  { rewrite (E_ext _ (wh_E _ _ _ (C48_white 2)) _ (fun w => 4 * 1)).
    - rewrite (E_scal _ (wh_E _ _ _ (C48_white 2))), (wh_1 _ _ _ (C48_white 2)). ring.
    - intro w. rewrite e. unfold itgr. change (Z.to_nat 1) with 1%nat. cbn. field. }
  rewrite E4. field.
Qed.
