(** C55: the results do not depend on the unit in which time is measured. *)
From Coq Require Import Lra.
From Verif.Proof Require Import TimeUnit TimeUnit2 TimeUnitV.
From Verif.Spec Require Import Units.
From Verif.Model Require Import Scalar.
Local Open Scope R_scope.

(** What the four packages have in common: [f] is unchanged, its derivative with respect to a rate
    is multiplied by [c], any other derivative is unchanged, and errors are the same. *)
Definition unit_free (f : (string -> R) -> res R) (df : (string -> R) -> string -> res R) : Prop :=
  forall c par, c <> 0 -> f (time_unit c par) = f par /\
    forall wrt, df (time_unit c par) wrt = rmap (fun x => if is_rate wrt then c * x else x) (df par wrt).

Theorem C55_1fsv l l1 l2 :
  unit_free (m_1fsv l) (dm_1fsv l) /\ unit_free (cm_1fsv l) (dcm_1fsv l) /\ unit_free (cov_1fsv l1 l2) (dcov_1fsv l1 l2).
Proof.
  repeat split; intros; unfold m_1fsv, dm_1fsv, cm_1fsv, dcm_1fsv, cov_1fsv, dcov_1fsv.
  - apply (scalar_tu _ _ p2n_m1); [assumption|apply moment_y_hom].
  - apply (dscalar_tu _ _ _ p2n_m1 dpoly_m1_hom); [assumption|apply moment_y_hom].
  - apply (scalar_tu _ _ p2n_cm1); [assumption|apply cmoment_y_hom].
  - apply (dscalar_tu _ _ _ p2n_cm1 dpoly_cm1_hom); [assumption|apply cmoment_y_hom].
  - apply (scalar_tu _ _ p2n_m1); [assumption|apply cov_yy_hom].
  - apply (dscalar_tu _ _ _ p2n_m1 dpoly_m1_hom); [assumption|apply cov_yy_hom].
Qed.
Theorem C55_1fsvj l l1 l2 :
  unit_free (m_1fsvj l) (dm_1fsvj l) /\ unit_free (cm_1fsvj l) (dcm_1fsvj l) /\ unit_free (cov_1fsvj l1 l2) (dcov_1fsvj l1 l2).
Proof.
  repeat split; intros; unfold m_1fsvj, dm_1fsvj, cm_1fsvj, dcm_1fsvj, cov_1fsvj, dcov_1fsvj.
  - apply (scalar_tu _ _ p2n_mj); [assumption|apply jmoment_y_hom].
  - apply (dscalar_tu _ _ _ p2n_mj dpoly_mj_hom); [assumption|apply jmoment_y_hom].
  - apply (scalar_tu _ _ p2n_cmj); [assumption|apply jcmoment_y_hom].
  - apply (dscalar_tu _ _ _ p2n_cmj dpoly_cmj_hom); [assumption|apply jcmoment_y_hom].
  - apply (scalar_tu _ _ p2n_mj); [assumption|apply jcov_yy_hom].
  - apply (dscalar_tu _ _ _ p2n_mj dpoly_mj_hom); [assumption|apply jcov_yy_hom].
Qed.
Theorem C55_2fsv l l1 l2 :
  unit_free (m_2fsv l) (dm_2fsv l) /\ unit_free (cm_2fsv l) (dcm_2fsv l) /\ unit_free (cov_2fsv l1 l2) (dcov_2fsv l1 l2).
Proof.
  repeat split; intros; unfold m_2fsv, dm_2fsv, cm_2fsv, dcm_2fsv, cov_2fsv, dcov_2fsv.
  - apply (scalar_tu _ _ p2n2_m); [assumption|apply moment_y2_hom].
  - apply (dscalar_tu _ _ _ p2n2_m dpoly2_m_hom); [assumption|apply moment_y2_hom].
  - apply (scalar_tu _ _ p2n2_cm); [assumption|apply cmoment_y2_hom].
  - apply (dscalar_tu _ _ _ p2n2_cm dpoly2_cm_hom); [assumption|apply cmoment_y2_hom].
  - apply (scalar_tu _ _ p2n2_m); [assumption|apply cov_yy2_hom].
  - apply (dscalar_tu _ _ _ p2n2_m dpoly2_m_hom); [assumption|apply cov_yy2_hom].
Qed.
Theorem C55_2fsvj l l1 l2 :
  unit_free (m_2fsvj l) (dm_2fsvj l) /\ unit_free (cm_2fsvj l) (dcm_2fsvj l) /\ unit_free (cov_2fsvj l1 l2) (dcov_2fsvj l1 l2).
Proof.
  repeat split; intros; unfold m_2fsvj, dm_2fsvj, cm_2fsvj, dcm_2fsvj, cov_2fsvj, dcov_2fsvj.
  - apply (scalar_tu _ _ p2n2_mj); [assumption|apply jmoment_y2_hom].
  - apply (dscalar_tu _ _ _ p2n2_mj dpoly2_mj_hom); [assumption|apply jmoment_y2_hom].
  - apply (scalar_tu _ _ p2n2_cmj); [assumption|apply jcmoment_y2_hom].
  - apply (dscalar_tu _ _ _ p2n2_cmj dpoly2_cmj_hom); [assumption|apply jcmoment_y2_hom].
  - apply (scalar_tu _ _ p2n2_mj); [assumption|apply jcov_yy2_hom].
  - apply (dscalar_tu _ _ _ p2n2_mj dpoly2_mj_hom); [assumption|apply jcov_yy2_hom].
Qed.
(** the joint moments of the stochastic integrals that all of the above is built from are numbers
    without a dimension: time, 1/k, and 1/v, 1/theta, 1/sigma_v have the dimension of time *)
Theorem C55_integrals n3 n4 n5 p k a : moment_IEII n3 n4 n5 = Ok p -> In (k, a) (items p) ->
  (nthZ k 2 + nthZ k 4 = nthZ k 3 + nthZ k 5 + nthZ k 6)%Z.
Proof.
  intros E Hin. pose proof (moment_IEII_hom n3 n4 n5) as h. rewrite E in h. pose proof (allk_in _ _ _ _ h Hin) as D. red in D. lia.
Qed.

(** a year as 12 months: the parameters, and a function that is not constant *)
Definition par_y (s : string) : R :=
  if (s =? "h")%string then 1/4 else if (s =? "mu")%string then 3 else if (s =? "theta")%string then 4
  else if (s =? "rho")%string then 1/2 else 1.
Example C55_par : time_unit 12 par_y "h" = 3 /\ time_unit 12 par_y "mu" = 1/4 /\ time_unit 12 par_y "theta" = 1/3 /\
  time_unit 12 par_y "rho" = 1/2.
Proof. unfold time_unit, par_y; cbn; repeat split; lra. Qed.
Ltac e0 := repeat match goal with |- context [exp ?x] => let E := fresh in assert (E : exp x = 1) by
  (transitivity (exp 0); [f_equal; field|apply exp_0]); rewrite E; clear E end.
Ltac qs := repeat match goal with |- context [Q2R ?q] => let v := eval compute in q in
  change (Q2R q) with (IZR (Qnum v) / IZR (Zpos (Qden v))); cbn [Qnum Qden] end.
Example C55_m_1fsv : m_1fsv 1 par_y = Ok (1/4) /\ m_1fsv 1 (time_unit 12 par_y) = Ok (1/4) /\
  m_1fsv 1 (fun s => if (s =? "h")%string then 12 * par_y s else par_y s) = Ok 3.
Proof.
  assert (E : exists p, moment_y 1 = Ok p /\ items p = [([0;1;0;1;0;0;0;0], 1%Q); ([0;1;0;0;1;0;0;0], (-1#2)%Q)]%Z) by (eexists; split; [vm_compute; reflexivity|reflexivity]).
  destruct E as [p [E1 E2]]. unfold m_1fsv, scalar. rewrite E1. cbn [bind]. unfold poly2num_m1. rewrite E2.
  cbn [fold_left fst snd pint nthZ nth]. unfold time_unit, par_y. cbn. unfold pint, nthZ; cbn [nth]. change (Pos.to_nat 1) with 1%nat. e0. qs. repeat split; f_equal; field.
Qed.
Example C55_dm_1fsv : dm_1fsv 1 par_y "mu" = Ok (1/4) /\ dm_1fsv 1 (time_unit 12 par_y) "mu" = Ok 3.
Proof.
  split; [|rewrite (proj2 (proj1 (C55_1fsv 1 1 1) 12 par_y ltac:(lra)) "mu"%string)];
  (assert (E : dm_1fsv 1 par_y "mu" = Ok (1/4)); [|rewrite E; try reflexivity; cbn; f_equal; field]).
  all: unfold dm_1fsv, dscalar;
  assert (E : exists p, (let! m := moment_y 1 in dpoly_m1 m "mu") = Ok p /\ items p = [([0;1;0;0;0;0;0;0], 1%Q)]%Z) by (eexists; split; [vm_compute; reflexivity|reflexivity]);
  destruct E as [p [E1 E2]]; destruct (moment_y 1) as [m|]; [|discriminate E1]; cbn [bind] in *; rewrite E1; cbn [bind]; unfold poly2num_m1; rewrite E2;
  cbn [fold_left fst snd pint nthZ nth]; unfold par_y; cbn; unfold pint, nthZ; cbn [nth]; change (Pos.to_nat 1) with 1%nat; e0; qs; f_equal; field.
Qed.
(** c = 0 is excluded: it would divide by zero *)
Example C55_zero : time_unit 0 par_y "h" = 0.
Proof. unfold time_unit. cbn. ring. Qed.
