(** C35, continued: the moments of order 0 are 1 and the central moments of order 1 are 0. *)
From Coq Require Import Reals Lra.
From Verif.Model Require Import Scalar Decode SvcjCond2 Svvj.
From Verif.Model Require Import Fsv1 Fsv1j Fsv2 SrjdStat SvcjMom.
From Verif.Proof Require Import MonTac.
Local Open Scope R_scope.

Lemma Q2R_one : Q2R 1 = 1. Proof. unfold Q2R; cbn; field. Qed.
Lemma Q2R_zero : Q2R 0 = 0. Proof. unfold Q2R; cbn; field. Qed.
Ltac run_at e := let v := eval vm_compute in e in replace e with v by (vm_compute; reflexivity).

(** ** mdl_1fsv, mdl_1fsvj, mdl_2fsv, mdl_2fsvj: for every dict of parameters, also with k = 0 *)
Theorem C35_factor_models : forall par : string -> R,
  m_1fsv 0 par = Ok 1 /\ cm_1fsv 0 par = Ok 1 /\ cm_1fsv 1 par = Ok 0 /\
  m_1fsvj 0 par = Ok 1 /\ cm_1fsvj 0 par = Ok 1 /\ cm_1fsvj 1 par = Ok 0 /\
  m_2fsv 0 par = Ok 1 /\ cm_2fsv 0 par = Ok 1 /\ cm_2fsv 1 par = Ok 0 /\
  m_2fsvj 0 par = Ok 1 /\ cm_2fsvj 0 par = Ok 1 /\ cm_2fsvj 1 par = Ok 0.
Proof.
  intro par.
  unfold m_1fsv, cm_1fsv, m_1fsvj, cm_1fsvj, m_2fsv, cm_2fsv, m_2fsvj, cm_2fsvj, scalar.
  run_at (Fsv1.moment_y 0). run_at (Fsv1.cmoment_y 0). run_at (Fsv1.cmoment_y 1).
  run_at (jmoment_y 0). run_at (jcmoment_y 0). run_at (jcmoment_y 1).
  run_at (moment_y2 0). run_at (cmoment_y2 0). run_at (cmoment_y2 1).
  run_at (jmoment_y2 0). run_at (jcmoment_y2 0). run_at (jcmoment_y2 1).
  cbn [bind].
  unfold poly2num_m1, poly2num_cm1, poly2num_mj, poly2num_cmj, poly2num2_m, poly2num2_cm, poly2num2_mj, poly2num2_cmj.
  cbn [items fold_left]. unfold p2n_head, kint, pint, nthZ. cbn [fst snd fold_left nth Z.to_nat Z.opp]. cbn [powerRZ].
  rewrite ?Q2R_one.
  repeat split; f_equal; rewrite ?Rplus_0_l, ?Rmult_0_l, ?Rplus_0_l, ?Ropp_0, ?Rmult_0_l, ?exp_0; try ring.
Qed.

(** ** mdl_srjd, mdl_svcj *)
Definition known (par : dict) (names : list string) : Prop := forall s, In s names -> exists x, par s = Some x.
Lemma pypow_0 x : pypow x 0 = Ok 1.
Proof. unfold pypow. destruct (Req_EM_T x 0); reflexivity. Qed.
Lemma pydiv_1 x : pydiv x 1 = Ok x.
Proof. unfold pydiv. destruct (Req_EM_T 1 0); [lra|]. f_equal. field. Qed.
Ltac look H := repeat match goal with |- context [dget ?par ?s] =>
  let x := fresh "x" in let e := fresh "e" in destruct (H s ltac:(cbn; tauto)) as [x e];
  let q := fresh in assert (q : dget par s = Ok x) by (unfold dget; now rewrite e); rewrite q in *; clear q; cbn [bind] end.
Ltac ones := unfold p2n_loop; cbn [items foldM fst snd]; unfold nthZ; cbn [nth Z.to_nat Z.opp]; cbn [pows];
  rewrite ?pypow_0; cbn [bind]; rewrite ?pydiv_1; cbn [bind]; rewrite ?pypow_0; cbn [bind]; rewrite ?Rmult_0_l, ?exp_0, ?Q2R_one, ?Q2R_zero; cbn [bind]; f_equal; ring.

Theorem C35_srjd : forall par : dict, known par ["v0"; "k"; "theta"; "sigma"; "lmbd"; "mu_v"; "h"]%string ->
  srjd_m_x 0 par = Ok 1 /\ srjd_m 0 par = Ok 1 /\ srjd_cm_x 0 par = Ok 1 /\ srjd_cm 0 par = Ok 1 /\
  srjd_cm_x 1 par = Ok 0 /\ srjd_cm 1 par = Ok 0 /\ srjd_m_ie 0 par = Ok 1 /\ srjd_m_ie_iez 0 0 par = Ok 1.
Proof.
  intros par H. unfold srjd_m_x, srjd_m, srjd_cm_x, srjd_cm, srjd_m_ie, srjd_m_ie_iez, scal.
  run_at (srjd_moment_x 0). run_at (srjd_cond_moment_v 0). run_at (srjd_cmoment_x 0). run_at (srjd_cond_cmoment_v 0).
  run_at (srjd_cmoment_x 1). run_at (srjd_cond_cmoment_v 1). run_at (moment_ie 0). run_at (moment_ie_iez 0 0). cbn [bind].
  unfold p2n_ie. look H. repeat split; ones.
Qed.
(** cond_ie_iez_cmom.py, svcj/mom.py and svcj/cmom.py divide by k first *)
Theorem C35_srjd_central : forall par : dict, known par ["v0"; "k"; "theta"; "sigma"; "lmbd"; "mu_v"; "h"]%string ->
  (par "k"%string <> Some 0 -> srjd_c_m_ie 0 par = Ok 1 /\ srjd_cm_ie_iez 0 0 par = Ok 1 /\ srjd_cm_ie_iez 0 1 par = Ok 0) /\
  (par "k"%string = Some 0 -> srjd_c_m_ie 0 par = Err ZeroDivisionError /\ srjd_cm_ie_iez 0 0 par = Err ZeroDivisionError).
Proof.
  intros par H. unfold srjd_c_m_ie, srjd_cm_ie_iez, scal.
  run_at (cmoment_ie 0). run_at (cmoment_ie_iez 0 0). run_at (cmoment_ie_iez 0 1). cbn [bind].
  unfold p2n_cie. destruct (H "k"%string ltac:(cbn; tauto)) as [k ek].
  assert (qk : dget par "k" = Ok k) by (unfold dget; now rewrite ek). rewrite qk. cbn [bind]. look H. rewrite ek. unfold pydiv at 1 3 5 7 9. split.
  - intro Hk. destruct (Req_EM_T k 0) as [->|]; [now destruct Hk|]. cbn [bind]. repeat split; ones.
  - intro Hk. injection Hk as ->. destruct (Req_EM_T 0 0); [|lra]. split; reflexivity.
Qed.
Theorem C35_svcj : forall par : dict, known par ["k"; "mu"; "v0"; "theta"; "sigma"; "rho"; "lmbd"; "mu_v"; "rhoJ"; "mu_s"; "sigma_s"; "h"]%string ->
  svcj_m_ieziziz 0 0 0 par = Ok 1 /\ svcj_m_ieii 0 0 0 0 0 0 par = Ok 1 /\
  svcj_cond_m_y 0 par = Ok 1 /\ svcj_cond_cm_y 0 par = Ok 1 /\ svcj_cond_cm_y 1 par = Ok 0.
Proof.
  intros par H. unfold svcj_m_ieziziz, svcj_m_ieii, svcj_cond_m_y, svcj_cond_cm_y, scal.
  run_at (moment_ieziziz 0 0 0). run_at (moment_ieii6 0 0 0 0 0 0). run_at (svcj_moment_y 0). run_at (svcj_cmoment_y 0). run_at (svcj_cmoment_y 1). cbn [bind].
  unfold p2n_ieziziz, p2n_ieii, p2n_svcj_cond, p2n_13. look H. repeat split; ones.
Qed.
Theorem C35_svcj_stationary : forall par : dict, known par ["k"; "mu"; "theta"; "sigma"; "rho"; "lmbd"; "mu_v"; "rhoJ"; "mu_s"; "sigma_s"; "h"]%string ->
  (par "k"%string <> Some 0 -> svcj_unm_y 0 par = Ok 1 /\ svcj_cm_y 0 par = Ok 1 /\ svcj_cm_y 1 par = Ok 0) /\
  (par "k"%string = Some 0 -> svcj_unm_y 0 par = Err ZeroDivisionError /\ svcj_cm_y 0 par = Err ZeroDivisionError).
Proof.
  intros par H. unfold svcj_unm_y, svcj_cm_y, scal.
  run_at (svcj_stat_moment_y 0). run_at (svcj_stat_cmoment_y 0). run_at (svcj_stat_cmoment_y 1). cbn [bind].
  unfold p2n_svcj, p2n_13. destruct (H "k"%string ltac:(cbn; tauto)) as [k ek].
  assert (qk : dget par "k" = Ok k) by (unfold dget; now rewrite ek). rewrite qk. cbn [bind]. look H. rewrite ek. unfold pydiv at 1 3 5 7 9. split.
  - intro Hk. destruct (Req_EM_T k 0) as [->|]; [now destruct Hk|]. cbn [bind]. repeat split; ones.
  - intro Hk. injection Hk as ->. destruct (Req_EM_T 0 0); [|lra]. split; reflexivity.
Qed.

(** the stationary moments of the SRJD variance, whatever the values of the five names *)
Theorem C35_srjd_stationary : exists q1 q2 q3 q4, stat_moment_v 0 true = Ok q1 /\ stat_moment_v 0 false = Ok q2 /\ stat_cmoment_v 0 = Ok q3 /\ stat_cmoment_v 1 = Ok q4 /\
  forall x : list R, eval (monx x) (items q1) = 1 /\ eval (monx x) (items q2) = 1 /\ eval (monx x) (items q3) = 1 /\ eval (monx x) (items q4) = 0.
Proof.
  do 4 eexists. do 4 (split; [vm_compute; reflexivity|]). intro x. cbn [items eval]. unfold eval; cbn [fold_right fst snd]. rewrite ?Q2R_one, ?Q2R_zero.
  assert (M : monx x [0;0;0;0;0]%Z = 1).
  { destruct x as [|x0 [|x1 [|x2 [|x3 [|x4 x]]]]]; cbn [monx]; rewrite ?pw_0; try ring. destruct x; cbn; ring. }
  rewrite ?M. repeat split; ring.
Qed.

(** ** given the variance jumps: mdl_srjd, mdl_svvj, mdl_svij (scalar functions), for all parameters and jumps *)
Theorem C35_cond2 : forall (v0 mu k theta sigma rho h lam mus sgs : R) (s J : list R),
  srjd_m2 0 v0 k theta sigma h s J = Ok 1 /\ srjd_cm2 0 v0 k theta sigma h s J = Ok 1 /\ srjd_cm2 1 v0 k theta sigma h s J = Ok 0 /\
  (exists q, sv_moment_y 0 = Ok q /\ sv_m2num q v0 mu k theta sigma rho h s J = Ok 1) /\
  (exists q, svij_moment_y 0 = Ok q /\ svij_m2num q v0 mu k theta sigma rho h lam mus sgs s J = Ok 1) /\
  (exists q, sv_cmoment_y 1 = Ok q /\ sv_cm2num q v0 k theta sigma rho h s J = Ok 0) /\
  (exists q, svij_cmoment_y 1 = Ok q /\ svij_cm2num q v0 k theta sigma rho h lam mus sgs s J = Ok 0).
Proof.
  intros. unfold srjd_m2, srjd_cm2. run_at (c2_moment_v 0). run_at (c2_cmoment_v 0). run_at (c2_cmoment_v 1). cbn [bind].
  split; [|split; [|split; [|split; [|split; [|split]]]]].
  - unfold c2_poly2num. cbn. rewrite ?pw_0, ?Rmult_0_l, ?exp_0, ?Q2R_one. f_equal. ring.
  - unfold c2_poly2num. cbn. rewrite ?pw_0, ?Rmult_0_l, ?exp_0, ?Q2R_one. f_equal. ring.
  - unfold c2_poly2num. cbn. rewrite ?Q2R_zero. f_equal. ring.
  - eexists. split; [vm_compute; reflexivity|]. unfold sv_m2num. cbn. rewrite ?pw_0, ?Rmult_0_l, ?exp_0, ?Q2R_one. f_equal. ring.
  - eexists. split; [vm_compute; reflexivity|]. unfold svij_m2num, sv_m2num. cbn. rewrite ?pw_0, ?Rmult_0_l, ?exp_0, ?Q2R_one. f_equal. ring.
  - eexists. split; [vm_compute; reflexivity|]. unfold sv_cm2num. cbn. rewrite ?Q2R_zero. f_equal. ring.
  - eexists. split; [vm_compute; reflexivity|]. unfold svij_cm2num, sv_cm2num. cbn. rewrite ?Q2R_zero. f_equal. ring.
Qed.

(** the hypotheses can be met *)
Example C35_example : known (fun _ => Some 1) ["k"; "mu"; "v0"; "theta"; "sigma"; "rho"; "lmbd"; "mu_v"; "rhoJ"; "mu_s"; "sigma_s"; "h"]%string
  /\ svcj_unm_y 0 (fun s => if (s =? "k")%string then Some 2 else Some 1) = Ok 1.
Proof.
  split; [intros s _; exists 1; reflexivity|].
  assert (K : known (fun s => if (s =? "k")%string then Some 2 else Some 1) ["k"; "mu"; "theta"; "sigma"; "rho"; "lmbd"; "mu_v"; "rhoJ"; "mu_s"; "sigma_s"; "h"]%string).
  { intros s _. destruct (s =? "k")%string; eexists; reflexivity. }
  destruct (C35_svcj_stationary _ K) as [h _]. destruct h as [h _]; [|exact h]. cbn. intro H. injection H as H. lra.
Qed.
