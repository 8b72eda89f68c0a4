(** Property C64: mean and variance in closed form, for the square-root jump diffusion and SVCJ. *)
From Coq Require Import Reals Lra.
From Coquelicot Require Import Coquelicot.
From Verif.Spec Require Import Sums Srjd JumpPath SrjdPath Svcj.
From Verif.Model Require Import Decode.
From Verif.Proof Require Import KeyInv MonTac SrjdIezProofs SrjdCondProofs SrjdCondV SvcjIezProofs SvcjIezTable SvcjMomProofs SvcjStatProofs DecodeProofs.
From Verif.Props Require Import PropsSrjd PropsSrjdCond PropsSrjdCond2 PropsSrjdStat PropsSvcj PropsSvcjCond PropsSvcjMom PropsDecode PropsClosed.
Local Open Scope R_scope.

(** ** The square-root jump diffusion: mean and variance of v_h given v_0, and of the stationary law *)
Ltac nums := cbn [items eval monx]; unfold pw; rewrite ?pz_neg, ?pz_pos, ?pz_0; unfold Q2R; cbn [Qnum Qden];
  repeat match goal with |- context [Pos.to_nat ?p] => let n := eval compute in (Pos.to_nat p) in change (Pos.to_nat p) with n end; cbn [pow].
Theorem C64_srjd : forall par p h, sk p <> 0 -> srjd_dict par p h -> let e := exp (- (sk p * h)) in
  srjd_m 1 par = Ok (e * sv0 p + (1 - e) * mean_v p) /\
  srjd_cm 2 par = Ok (ssg p ^ 2 * (mean_v p * (1 - e ^ 2) / (2 * sk p) + (sv0 p - mean_v p) * (e - e ^ 2) / sk p)
    + slam p * smu p ^ 2 * (1 - e ^ 2) / sk p).
Proof.
  intros par p h Hk HD e.
  assert (He : exp (sk p * h) = / e) by (unfold e; rewrite exp_Ropp, Rinv_inv; reflexivity). assert (e0 : e <> 0) by (unfold e; apply Rgt_not_eq, exp_pos).
  split.
  - destruct (returns_inv _ _ (cond_moment_v_spec 1 ltac:(lia))) as (q & Eq & W & _).
    unfold srjd_m, scal. rewrite Eq. cbn [bind]. rewrite (ie_eval par p h q HD Hk (proj2 (proj2 W))). f_equal. clear W.
    vm_compute in Eq. injection Eq as <-. unfold ie_vals. rewrite He. nums. unfold mean_v. field. tauto.
  - destruct (returns_inv _ _ (cond_cmoment_v_spec 2 ltac:(lia))) as (q & Eq & W & _).
    unfold srjd_cm, scal. rewrite Eq. cbn [bind]. rewrite (ie_eval par p h q HD Hk (proj2 (proj2 W))). f_equal. clear W.
    vm_compute in Eq. injection Eq as <-. unfold ie_vals. rewrite He. nums. unfold mean_v. field. tauto.
Qed.

(** ** SVCJ with a stationary initial variance.  A price jump X goes with a variance jump J: exponential with mean mu_v,
    X = mu_s + rho_J J + sigma_s N.  m2 = E X^2, mx = E (X J). *)
Definition jm1 (p : svcj) (rhoJ : R) : R := jms p + rhoJ * jmv p.
Definition jm2 (p : svcj) (rhoJ : R) : R := jms p ^ 2 + 2 * jms p * rhoJ * jmv p + 2 * rhoJ ^ 2 * jmv p ^ 2 + jss p ^ 2.
Definition jmx (p : svcj) (rhoJ : R) : R := jms p * jmv p + 2 * rhoJ * jmv p ^ 2.
Definition jvmean (p : svcj) : R := jth p + jlam p * jmv p / Svcj.jk p.
Definition jvvar (p : svcj) : R := (jsg p ^ 2 * jvmean p + 2 * jlam p * jmv p ^ 2) / (2 * Svcj.jk p).
Definition var_svcj (p : svcj) (rho rhoJ h : R) : R :=
  h * (jvmean p + jlam p * jm2 p rhoJ) +
  (h - bt (Svcj.jk p) h) / Svcj.jk p * (jvvar p / 2 - rho * jsg p * jvmean p - jlam p * jmx p rhoJ).
Theorem C64_svcj : forall par p mu rho rhoJ h, Svcj.jk p <> 0 -> svcj_dict par p h -> ret_dict par mu rho rhoJ ->
  svcj_unm_y 1 par = Ok ((mu - jvmean p / 2) * h + jlam p * h * jm1 p rhoJ) /\
  svcj_cm_y 2 par = Ok (var_svcj p rho rhoJ h).
Proof.
  intros par p mu rho rhoJ h Hk (h1 & h2 & h3 & h4 & h5 & h6 & h7 & h8 & h9) (r1 & r2 & r3).
  assert (EV : forall q, allk (wfs s13) (items q) ->
    p2n_svcj q par = Ok (eval (monx (svcj_vals p mu rho rhoJ h (jth p + jlam p * jmv p / Svcj.jk p))) (items q))).
  { intros q A. destruct p. apply p2n_svcj_eval; [assumption| |exact A]. repeat constructor; assumption. }
  set (e := exp (- (Svcj.jk p * h))).
  assert (He : exp (Svcj.jk p * h) = / e) by (unfold e; rewrite exp_Ropp, Rinv_inv; reflexivity). assert (e0 : e <> 0) by (unfold e; apply Rgt_not_eq, exp_pos).
  split.
  - destruct (returns_inv _ _ (stat_moment_y_spec 1 ltac:(lia))) as (q & Eq & W & _).
    unfold svcj_unm_y, scal. rewrite Eq. cbn [bind]. rewrite (EV q (proj2 (proj2 W))). f_equal. clear W.
    vm_compute in Eq. injection Eq as <-. unfold svcj_vals. rewrite He. nums. unfold jvmean, jm1. field. tauto.
  - destruct (returns_inv _ _ (stat_cmoment_y_spec 2 ltac:(lia))) as (q & Eq & W & _).
    unfold svcj_cm_y, scal. rewrite Eq. cbn [bind]. rewrite (EV q (proj2 (proj2 W))). f_equal. clear W.
    vm_compute in Eq. injection Eq as <-. unfold svcj_vals. rewrite He. nums. unfold var_svcj, jvvar, jvmean, jm2, jmx, bt. fold e. field. tauto.
Qed.

(** the stationary law of the variance *)
Theorem C64_srjd_stat : forall p, sk p <> 0 -> exists q1 q2, stat_moment_v 1 true = Ok q1 /\ stat_cmoment_v 2 = Ok q2 /\
  eval (monx (stat_vals_theta p)) (items q1) = sth p + slam p * smu p / sk p /\
  eval (monx (stat_vals p)) (items q2) = (ssg p ^ 2 * mean_v p + 2 * slam p * smu p ^ 2) / (2 * sk p).
Proof.
  intros p Hk. do 2 eexists. split; [vm_compute; reflexivity|]. split; [vm_compute; reflexivity|]. unfold stat_vals_theta, stat_vals.
  split; nums; field; exact Hk.
Qed.

(** ** The variances are positive *)
Theorem C64_positive_srjd : forall par p h, 0 < sk p -> 0 < h -> 0 <= sv0 p -> 0 < sth p -> 0 <= slam p -> 0 <= smu p -> ssg p <> 0 -> srjd_dict par p h ->
  exists v, srjd_cm 2 par = Ok v /\ 0 < v.
Proof.
  intros par p h Hk Hh Hv Ht Hl Hm Hs HD. eexists. split; [exact (proj2 (C64_srjd par p h (Rgt_not_eq _ _ Hk) HD))|]. cbv beta.
  set (e := exp (- (sk p * h))). assert (e0 : 0 < e) by apply exp_pos. assert (e1 : e < 1) by (unfold e; rewrite <- exp_0; apply exp_increasing; nra).
  assert (M : 0 < mean_v p).
  { unfold mean_v. assert (0 <= slam p * smu p / sk p); [|lra]. apply Rmult_le_pos; [now apply Rmult_le_pos|left; now apply Rinv_0_lt_compat]. }
  replace (ssg p ^ 2 * (mean_v p * (1 - e ^ 2) / (2 * sk p) + (sv0 p - mean_v p) * (e - e ^ 2) / sk p) + slam p * smu p ^ 2 * (1 - e ^ 2) / sk p)
    with ((ssg p ^ 2 * (mean_v p * (1 - e) ^ 2 / 2 + sv0 p * (e * (1 - e))) + slam p * smu p ^ 2 * (1 - e ^ 2)) / sk p) by (field; lra).
  apply Rdiv_lt_0_compat; [|assumption].
  assert (S : 0 < ssg p ^ 2) by (apply pow2_gt_0; assumption). assert (A : 0 < mean_v p * (1 - e) ^ 2 / 2) by (assert (0 < (1 - e) ^ 2) by nra; nra).
  assert (B : 0 <= sv0 p * (e * (1 - e))) by (apply Rmult_le_pos; [assumption|nra]).
  assert (C : 0 <= slam p * smu p ^ 2 * (1 - e ^ 2)) by (apply Rmult_le_pos; [apply Rmult_le_pos; [assumption|nra]|nra]).
  nra.
Qed.
Lemma var_svcj_squares p rho rhoJ h : Svcj.jk p <> 0 -> let b := bt (Svcj.jk p) h in let d := / (2 * Svcj.jk p) in
  var_svcj p rho rhoJ h = jvmean p * (b + (h - b) * ((jsg p * d - rho) ^ 2 + (1 - rho ^ 2))) +
    jlam p * (b * jm2 p rhoJ + (h - b) * ((jms p + (rhoJ - d) * jmv p) ^ 2 + ((rhoJ - d) * jmv p) ^ 2 + jss p ^ 2)).
Proof. intros Hk b d. unfold var_svcj, jvvar, jm2, jmx. fold b. unfold d. field. exact Hk. Qed.
Theorem C64_positive_svcj : forall par p mu rho rhoJ h, 0 < Svcj.jk p -> 0 < h -> 0 < jth p -> 0 <= jlam p -> 0 <= jmv p -> -1 <= rho <= 1 ->
  svcj_dict par p h -> ret_dict par mu rho rhoJ -> exists v, svcj_cm_y 2 par = Ok v /\ 0 < v.
Proof.
  intros par p mu rho rhoJ h Hk Hh Ht Hl Hm Hr H1 H2. eexists. split; [exact (proj2 (C64_svcj par p mu rho rhoJ h (Rgt_not_eq _ _ Hk) H1 H2))|]. cbv beta.
  rewrite var_svcj_squares by lra. cbv zeta. set (d := / (2 * Svcj.jk p)). destruct (bt_pos (Svcj.jk p) h Hk Hh) as [b0 b1]. set (b := bt (Svcj.jk p) h) in *.
  assert (M : 0 < jvmean p).
  { unfold jvmean. assert (0 <= jlam p * jmv p / Svcj.jk p); [|lra]. apply Rmult_le_pos; [now apply Rmult_le_pos|left; now apply Rinv_0_lt_compat]. }
  assert (A : 0 <= (h - b) * ((jsg p * d - rho) ^ 2 + (1 - rho ^ 2))) by (apply Rmult_le_pos; [lra|]; pose proof (pow2_ge_0 (jsg p * d - rho)); nra).
  assert (B : 0 <= jm2 p rhoJ).
  { replace (jm2 p rhoJ) with ((jms p + rhoJ * jmv p) ^ 2 + (rhoJ * jmv p) ^ 2 + jss p ^ 2) by (unfold jm2; ring).
    pose proof (pow2_ge_0 (jms p + rhoJ * jmv p)). pose proof (pow2_ge_0 (rhoJ * jmv p)). pose proof (pow2_ge_0 (jss p)). lra. }
  assert (C : 0 <= (h - b) * ((jms p + (rhoJ - d) * jmv p) ^ 2 + ((rhoJ - d) * jmv p) ^ 2 + jss p ^ 2)).
  { apply Rmult_le_pos; [lra|]. pose proof (pow2_ge_0 (jms p + (rhoJ - d) * jmv p)). pose proof (pow2_ge_0 ((rhoJ - d) * jmv p)). pose proof (pow2_ge_0 (jss p)). lra. }
  apply Rplus_lt_le_0_compat; [apply Rmult_lt_0_compat; lra|]. apply Rmult_le_pos; [assumption|]. assert (0 <= b * jm2 p rhoJ) by (apply Rmult_le_pos; lra). lra.
Qed.
(** k = 2, h = 3, v_0 = 1, all other parameters 1/4 *)
Example C64_example_jumps : let p := mkSvcj 2 1 (1/4) (1/4) (1/4) (1/4) (1/4) (1/4) in
  let par s := (if String.eqb s "v0" then Some 1 else if String.eqb s "k" then Some 2 else if String.eqb s "h" then Some 3 else Some (1/4))%string in
  svcj_dict par p 3 /\ ret_dict par (1/4) (1/4) (1/4) /\ (exists v, svcj_cm_y 2 par = Ok v /\ 0 < v) /\ (exists v, srjd_cm 2 par = Ok v /\ 0 < v).
Proof.
  set (p := mkSvcj _ _ _ _ _ _ _ _). cbv zeta. set (par := fun s => _).
  assert (h1 : svcj_dict par p 3) by (repeat split; reflexivity). assert (h2 : ret_dict par (1/4) (1/4) (1/4)) by (repeat split; reflexivity).
  split; [exact h1|]. split; [exact h2|]. split.
  - exact (C64_positive_svcj par p (1/4) (1/4) (1/4) 3 ltac:(cbn; lra) ltac:(lra) ltac:(cbn; lra) ltac:(cbn; lra) ltac:(cbn; lra) ltac:(lra) h1 h2).
  - refine (C64_positive_srjd par (mkSrjd 2 1 (1/4) (1/4) (1/4) (1/4)) 3 _ _ _ _ _ _ _ _); [cbn; lra..|]. repeat split; reflexivity.
Qed.
