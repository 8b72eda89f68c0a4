(** C56: the signs of the volatilities do not matter. Replacing a Brownian motion W by -W, which has the
    same law, is the same as changing the sign of the parameters that multiply it. *)
From Coq Require Import Lra.
From Verif.Proof Require Import Parity Parity2 ParityV.
From Verif.Spec Require Import Signs.
From Verif.Model Require Import Scalar.
Local Open Scope R_scope.

(** mdl_1fsv: W^v enters as sigma_v dW^v and rho dW^v *)
Theorem C56_1fsv l l1 l2 : let ns := ["sigma_v"; "rho"]%string in
  even_in ns (m_1fsv l) (dm_1fsv l) /\ even_in ns (cm_1fsv l) (dcm_1fsv l) /\ even_in ns (cov_1fsv l1 l2) (dcov_1fsv l1 l2).
Proof.
  cbv zeta. split; [|split].
  { unfold m_1fsv, dm_1fsv. apply (even_scal _ (fun d p => sup (hom2 _ d) p) _ _ v2n_m1 dpoly_m1_par). apply moment_y_par. }
  { unfold cm_1fsv, dcm_1fsv. apply (even_scal _ (fun d p => sup (hom2 _ d) p) _ _ v2n_cm1 dpoly_cm1_par). apply cmoment_y_par. }
  { unfold cov_1fsv, dcov_1fsv. apply (even_scal _ (fun d p => sup (hom2 _ d) p) _ _ v2n_m1 dpoly_m1_par). apply cov_yy_par. }
Qed.
Theorem C56_1fsvj l l1 l2 ns : ns = ["sigma_v"; "rho"]%string \/ ns = ["sigma_j"]%string ->
  even_in ns (m_1fsvj l) (dm_1fsvj l) /\ even_in ns (cm_1fsvj l) (dcm_1fsvj l) /\ even_in ns (cov_1fsvj l1 l2) (dcov_1fsvj l1 l2).
Proof.
  intros [->| ->]; (split; [|split]).
  { unfold m_1fsvj, dm_1fsvj. apply (even_scal _ (fun d p => sup (hom2 _ d) p) _ _ v2n_mjw dpoly_mj_parw). apply jmoment_y_par; lia. }
  { unfold cm_1fsvj, dcm_1fsvj. apply (even_scal _ (fun d p => sup (hom2 _ d) p) _ _ v2n_cmjw dpoly_cmj_parw). apply jcmoment_y_par; lia. }
  { unfold cov_1fsvj, dcov_1fsvj. apply (even_scal _ (fun d p => sup (hom2 _ d) p) _ _ v2n_mjw dpoly_mj_parw). apply jcov_yy_par; lia. }
  { unfold m_1fsvj, dm_1fsvj. apply (even_scal _ (fun d p => sup (hom2 _ d) p) _ _ v2n_mjj dpoly_mj_parj). apply jmoment_y_par; lia. }
  { unfold cm_1fsvj, dcm_1fsvj. apply (even_scal _ (fun d p => sup (hom2 _ d) p) _ _ v2n_cmjj dpoly_cmj_parj). apply jcmoment_y_par; lia. }
  { unfold cov_1fsvj, dcov_1fsvj. apply (even_scal _ (fun d p => sup (hom2 _ d) p) _ _ v2n_mjj dpoly_mj_parj). apply jcov_yy_par; lia. }
Qed.
(** mdl_2fsv: the Brownian motions of the two variances are independent of that of the price *)
Theorem C56_2fsv l l1 l2 ns : ns = ["sigma_v1"]%string \/ ns = ["sigma_v2"]%string ->
  even_in ns (m_2fsv l) (dm_2fsv l) /\ even_in ns (cm_2fsv l) (dcm_2fsv l) /\ even_in ns (cov_2fsv l1 l2) (dcov_2fsv l1 l2).
Proof.
  intros [->| ->]; (split; [|split]).
  { unfold m_2fsv, dm_2fsv. apply (even_scal _ (fun d p => allp (fpar _ d) p) _ _ v2n2_m1 dpoly2_m_par1). apply (moment_y2_par 1 0 0)%Z; lia. }
  { unfold cm_2fsv, dcm_2fsv. apply (even_scal _ (fun d p => allp (fpar _ d) p) _ _ v2n2_cm1 dpoly2_cm_par1). apply (cmoment_y2_par 1 0 0)%Z; lia. }
  { unfold cov_2fsv, dcov_2fsv. apply (even_scal _ (fun d p => allp (fpar _ d) p) _ _ v2n2_m1 dpoly2_m_par1). apply (cov_yy2_par 1 0 0)%Z; lia. }
  { unfold m_2fsv, dm_2fsv. apply (even_scal _ (fun d p => allp (fpar _ d) p) _ _ v2n2_m2 dpoly2_m_par2). apply (moment_y2_par 0 1 0)%Z; lia. }
  { unfold cm_2fsv, dcm_2fsv. apply (even_scal _ (fun d p => allp (fpar _ d) p) _ _ v2n2_cm2 dpoly2_cm_par2). apply (cmoment_y2_par 0 1 0)%Z; lia. }
  { unfold cov_2fsv, dcov_2fsv. apply (even_scal _ (fun d p => allp (fpar _ d) p) _ _ v2n2_m2 dpoly2_m_par2). apply (cov_yy2_par 0 1 0)%Z; lia. }
Qed.
Theorem C56_2fsvj l l1 l2 ns : ns = ["sigma_v1"]%string \/ ns = ["sigma_v2"]%string \/ ns = ["sigma_j"]%string ->
  even_in ns (m_2fsvj l) (dm_2fsvj l) /\ even_in ns (cm_2fsvj l) (dcm_2fsvj l) /\ even_in ns (cov_2fsvj l1 l2) (dcov_2fsvj l1 l2).
Proof.
  intros [->|[->| ->]]; (split; [|split]).
  { unfold m_2fsvj, dm_2fsvj. apply (even_scal _ (fun d p => allp (fpar _ d) p) _ _ v2n2_mj1 dpoly2_mj_par1). apply (jmoment_y2_par 1 0 0)%Z; lia. }
  { unfold cm_2fsvj, dcm_2fsvj. apply (even_scal _ (fun d p => allp (fpar _ d) p) _ _ v2n2_cmj1 dpoly2_cmj_par1). apply (jcmoment_y2_par 1 0 0)%Z; lia. }
  { unfold cov_2fsvj, dcov_2fsvj. apply (even_scal _ (fun d p => allp (fpar _ d) p) _ _ v2n2_mj1 dpoly2_mj_par1). apply (jcov_yy2_par 1 0 0)%Z; lia. }
  { unfold m_2fsvj, dm_2fsvj. apply (even_scal _ (fun d p => allp (fpar _ d) p) _ _ v2n2_mj2 dpoly2_mj_par2). apply (jmoment_y2_par 0 1 0)%Z; lia. }
  { unfold cm_2fsvj, dcm_2fsvj. apply (even_scal _ (fun d p => allp (fpar _ d) p) _ _ v2n2_cmj2 dpoly2_cmj_par2). apply (jcmoment_y2_par 0 1 0)%Z; lia. }
  { unfold cov_2fsvj, dcov_2fsvj. apply (even_scal _ (fun d p => allp (fpar _ d) p) _ _ v2n2_mj2 dpoly2_mj_par2). apply (jcov_yy2_par 0 1 0)%Z; lia. }
  { unfold m_2fsvj, dm_2fsvj. apply (even_scal _ (fun d p => allp (fpar _ d) p) _ _ v2n2_mjj dpoly2_mj_parj). apply (jmoment_y2_par 0 0 1)%Z; lia. }
  { unfold cm_2fsvj, dcm_2fsvj. apply (even_scal _ (fun d p => allp (fpar _ d) p) _ _ v2n2_cmjj dpoly2_cmj_parj). apply (jcmoment_y2_par 0 0 1)%Z; lia. }
  { unfold cov_2fsvj, dcov_2fsvj. apply (even_scal _ (fun d p => allp (fpar _ d) p) _ _ v2n2_mjj dpoly2_mj_parj). apply (jcov_yy2_par 0 0 1)%Z; lia. }
Qed.

(** the two signs have to change together: the variance is not even in rho alone *)
Definition par_1 (s : string) : R := 1.
Ltac qs := repeat match goal with |- context [Q2R ?q] => let v := eval compute in q in
  change (Q2R q) with (IZR (Qnum v) / IZR (Zpos (Qden v))); cbn [Qnum Qden] end.
Example C56_not_rho : exists x y, cm_1fsv 2 par_1 = Ok x /\ cm_1fsv 2 (flip ["rho"]%string par_1) = Ok y /\ y - x = 2 * exp (-1).
Proof.
  assert (E : exists p, cmoment_y 2 = Ok p /\ items p =
     [([0; 0; 3; 1; 2; 0; 0], (-1#4)%Q); ([1; 0; 3; 1; 2; 0; 0], (1#4)%Q);
      ([0; 0; 2; 1; 1; 1; 0], 1%Q); ([1; 0; 2; 1; 1; 1; 0], (-1)%Q);
      ([0; 1; 0; 1; 0; 2; 0], 1%Q); ([0; 1; 1; 1; 1; 1; 0], (-1)%Q);
      ([0; 1; 2; 1; 2; 0; 0], (1#4)%Q); ([0; 1; 0; 1; 0; 0; 2], 1%Q)]%Z) by (eexists; split; [vm_compute; reflexivity|reflexivity]).
  destruct E as [p [E1 E2]]. unfold cm_1fsv, scalar. rewrite E1. cbn [bind]. do 2 eexists. split; [reflexivity|split; [reflexivity|]].
  unfold poly2num_cm1. rewrite E2. cbn [fold_left fst snd].
  change (flip ["rho"]%string par_1 "rho") with (- 1). change (flip ["rho"]%string par_1 "k") with 1. change (flip ["rho"]%string par_1 "h") with 1.
  change (flip ["rho"]%string par_1 "theta") with 1. change (flip ["rho"]%string par_1 "sigma_v") with 1. unfold par_1.
  replace (1 - (-1) ^ 2) with 0 by ring. replace (1 - 1 ^ 2) with 0 by ring. rewrite sqrt_0.
  unfold pint, nthZ. cbn [nth]. cbn [Z.opp powerRZ]. change (Pos.to_nat 1) with 1%nat. change (Pos.to_nat 2) with 2%nat. change (Pos.to_nat 3) with 3%nat.
  cbn [pow]. replace (- 0 * 1 * 1) with 0 by ring. replace (- (1) * 1 * 1) with (-1) by ring. rewrite exp_0. qs. field.
Qed.
Example C56_flip : flip ["sigma_v"; "rho"]%string par_1 "rho" = -1 /\ flip ["sigma_v"; "rho"]%string par_1 "sigma_v" = -1 /\
  flip ["sigma_v"; "rho"]%string par_1 "k" = 1.
Proof. repeat split. Qed.
(** changing both signs meets odd powers *)
Example C56_odd : exists p, cmoment_y 2 = Ok p /\ In ([0; 0; 2; 1; 1; 1; 0]%Z, 1%Q) (items p).
Proof. eexists. split; [vm_compute; reflexivity|]. vm_compute. tauto. Qed.
Example C56_dcm : exists p, (let! m := cmoment_y 2 in dpoly_cm1 m "rho") = Ok p /\ In ([0; 0; 2; 1; 1; 0; 0]%Z, 1%Q) (items p).
Proof. eexists. split; [vm_compute; reflexivity|]. vm_compute. tauto. Qed.
