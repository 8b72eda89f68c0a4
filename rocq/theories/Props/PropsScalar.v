(** Property C46: m/cm/cov and dm/dcm/dcov of the one- and two-factor models.  The d-functions
    return the partial derivative of the scalar functions. *)
From Coq Require Import Reals Lra.
From Coquelicot Require Import Coquelicot.
From Verif.Spec Require Import Returns1.
From Verif.Model Require Import Scalar.
From Verif.Proof Require Import ItoProofs Fsv1Proofs ConvProofs Fsv2Proofs Fsv2jProofs DpolyProofs Dpoly2Proofs ScalarProofs.
From Verif.Props Require Import Props1fsv Props1fsvj PropsDpoly PropsDpoly2.
Import Verif.Model.Fsv1 Verif.Model.Fsv1j Verif.Model.Scalar.
Local Open Scope R_scope.

(** [g] is defined everywhere and [d] is its partial derivative at [par] in the direction [wrt] *)
Definition partial_of (g : (string -> R) -> res R) (par : string -> R) (wrt : string) (d : res R) : Prop :=
  exists f x, (forall q, g q = Ok (f q)) /\ d = Ok x /\ is_derive (fun t => f (upd par wrt t)) (par wrt) x.

Lemma partial_scalar {K} (p : res (Poly K)) p2n dp par wrt q : p = Ok q ->
  (exists r, dp q wrt = Ok r /\ is_derive (fun x => p2n q (upd par wrt x)) (par wrt) (p2n r par)) ->
  partial_of (scalar p p2n) par wrt (dscalar p dp p2n par wrt).
Proof.
  intros -> (r & Er & D). exists (p2n q), (p2n r par). split; [reflexivity|]. split; [|exact D].
  unfold dscalar. cbn [bind]. now rewrite Er.
Qed.
Ltac fitn s W := apply (fits_of s); [reflexivity| |apply W];
  (constructor; [intros _; apply Rgt_not_eq, exp_pos|repeat (constructor; [discriminate|]); constructor]).

Local Notation n1 := ["k"; "mu"; "theta"; "sigma_v"; "rho"]%string.
Local Notation nj := ["k"; "mu"; "theta"; "sigma_v"; "rho"; "lambda"; "mu_j"; "sigma_j"]%string.
Local Notation n2 := ["k1"; "k2"; "mu"; "theta1"; "sigma_v1"; "theta2"; "sigma_v2"]%string.
Local Notation n2j := ["k1"; "k2"; "mu"; "theta1"; "sigma_v1"; "theta2"; "sigma_v2"; "lambda"; "mu_j"; "sigma_j"]%string.

(** ** one factor, without and with jumps *)
Theorem C46_1fsv : forall (par : string -> R) (wrt : string), In wrt n1 ->
  par "k"%string <> 0 -> -1 < par "rho"%string < 1 ->
  (forall l, (0 <= l)%Z -> partial_of (m_1fsv l) par wrt (dm_1fsv l par wrt) /\ partial_of (cm_1fsv l) par wrt (dcm_1fsv l par wrt)) /\
  (forall l1 l2, (0 <= l1)%Z -> (0 <= l2)%Z -> partial_of (cov_1fsv l1 l2) par wrt (dcov_1fsv l1 l2 par wrt)).
Proof.
  intros par wrt Hw Hk Hr.
  assert (Hw' : In wrt ["mu"; "k"; "theta"; "sigma_v"; "rho"]%string) by (cbn [In] in *; tauto).
  split; [intros l Hl; split|intros l1 l2 H1 H2].
  - destruct (returns_inv _ _ (moment_y_wf l Hl)) as (q & Eq & W). apply (partial_scalar _ _ _ _ _ q Eq).
    destruct (C22_dpoly_m1 q par wrt Hw Hk Hr ltac:(fitn [false; true; true; true; true; true; true; true] W)) as (r & Er & _ & D). eauto.
  - destruct (returns_inv _ _ (cmoment_y_wf l Hl)) as (q & Eq & W). apply (partial_scalar _ _ _ _ _ q Eq).
    destruct (C22_dpoly_cm1 q par wrt Hw' Hk Hr ltac:(fitn [false; true; true; true; true; true; true] W)) as (r & Er & _ & D). eauto.
  - destruct (returns_inv _ _ (cov_yy_wf l1 l2 H1 H2)) as (q & Eq & W). apply (partial_scalar _ _ _ _ _ q Eq).
    destruct (C22_dpoly_m1 q par wrt Hw Hk Hr ltac:(fitn [false; true; true; true; true; true; true; true] W)) as (r & Er & _ & D). eauto.
Qed.

Theorem C46_1fsvj : forall (par : string -> R) (wrt : string), In wrt nj ->
  par "k"%string <> 0 -> -1 < par "rho"%string < 1 ->
  (forall l, (0 <= l)%Z -> partial_of (m_1fsvj l) par wrt (dm_1fsvj l par wrt) /\ partial_of (cm_1fsvj l) par wrt (dcm_1fsvj l par wrt)) /\
  (forall l1 l2, (0 <= l1)%Z -> (0 <= l2)%Z -> partial_of (cov_1fsvj l1 l2) par wrt (dcov_1fsvj l1 l2 par wrt)).
Proof.
  intros par wrt Hw Hk Hr.
  assert (Hw1 : In wrt ["k"; "rho"; "mu"; "theta"; "sigma_v"; "lambda"; "mu_j"; "sigma_j"]%string) by (cbn [In] in *; tauto).
  assert (Hw2 : In wrt ["mu"; "k"; "theta"; "sigma_v"; "lambda"; "mu_j"; "sigma_j"; "rho"]%string) by (cbn [In] in *; tauto).
  split; [intros l Hl; split|intros l1 l2 H1 H2].
  - destruct (returns_inv _ _ (jmoment_y_wf l Hl)) as (q & Eq & W). apply (partial_scalar _ _ _ _ _ q Eq).
    destruct (C22_dpoly_mj q par wrt Hw1 Hk Hr ltac:(fitn [false; true; true; true; true; true; true; true; true; true; true] W)) as (r & Er & _ & D). eauto.
  - destruct (returns_inv _ _ (jcmoment_y_wf l Hl)) as (q & Eq & W). apply (partial_scalar _ _ _ _ _ q Eq).
    destruct (C22_dpoly_cmj q par wrt Hw2 Hk Hr ltac:(fitn [false; true; true; true; true; true; true; true; true; true] W)) as (r & Er & _ & D). eauto.
  - destruct (returns_inv _ _ (jcov_yy_wf l1 l2 H1 H2)) as (q & Eq & W). apply (partial_scalar _ _ _ _ _ q Eq).
    destruct (C22_dpoly_mj q par wrt Hw1 Hk Hr ltac:(fitn [false; true; true; true; true; true; true; true; true; true; true] W)) as (r & Er & _ & D). eauto.
Qed.

(** ** two factors: wherever no denominator n1 k1 + n2 k2 of the moment vanishes *)
Definition dens_defined (par : string -> R) (p : res (Poly fkey)) : Prop :=
  forall q t0 t1 x c, p = Ok q -> In ((t0, (t1, x)), c) (items q) -> dens_ok par t0.

Theorem C46_2fsv : forall (par : string -> R) (wrt : string), In wrt n2 ->
  (forall l, (0 <= l)%Z -> dens_defined par (moment_y2 l) -> partial_of (m_2fsv l) par wrt (dm_2fsv l par wrt)) /\
  (forall l, (0 <= l)%Z -> dens_defined par (cmoment_y2 l) -> partial_of (cm_2fsv l) par wrt (dcm_2fsv l par wrt)) /\
  (forall l1 l2, (0 <= l1)%Z -> (0 <= l2)%Z -> dens_defined par (cov_yy2 l1 l2) ->
     partial_of (cov_2fsv l1 l2) par wrt (dcov_2fsv l1 l2 par wrt)).
Proof.
  intros par wrt Hw.
  assert (Hw' : In wrt ["mu"; "k1"; "k2"; "theta1"; "sigma_v1"; "theta2"; "sigma_v2"]%string) by (cbn [In] in *; tauto).
  split; [|split]; [intros l Hl D0|intros l Hl D0|intros l1 l2 H1 H2 D0].
  - destruct (returns_inv _ _ (moment_y2_shape l Hl)) as (q & Eq & W). apply (partial_scalar _ _ _ _ _ q Eq).
    destruct (C27_dpoly_m q par wrt Hw (fits2_of T6 noB par (v2_m par) (items q) eq_refl ltac:(repeat constructor) (proj2 (proj2 W)) (fun t0 t1 x c => D0 q t0 t1 x c Eq))) as (r & Er & _ & D). eauto.
  - destruct (returns_inv _ _ (cmoment_y2_shape l Hl)) as (q & Eq & W). apply (partial_scalar _ _ _ _ _ q Eq).
    destruct (C27_dpoly_cm q par wrt Hw' (fits2_of T5 noB par (v2_cm par) (items q) eq_refl ltac:(repeat constructor) (proj2 (proj2 W)) (fun t0 t1 x c => D0 q t0 t1 x c Eq))) as (r & Er & _ & D). eauto.
  - destruct (returns_inv _ _ (moment_yy2_shape l1 l2 H1 H2)) as (m & Em & _).
    destruct (returns_inv _ _ (moment_y2_shape l1 H1)) as (a & Ea & _).
    destruct (returns_inv _ _ (moment_y2_shape l2 H2)) as (b & Eb & _).
    destruct (returns_inv _ _ (cov_yy2_sp 1 1 1 0 0 0 0 0 l1 l2 m a b H1 H2 Em Ea Eb)) as (q & Eq & W & _). apply (partial_scalar _ _ _ _ _ q Eq).
    destruct (C27_dpoly_m q par wrt Hw (fits2_of T6 noB par (v2_m par) (items q) eq_refl ltac:(repeat constructor) (proj2 (proj2 W)) (fun t0 t1 x c => D0 q t0 t1 x c Eq))) as (r & Er & _ & D). eauto.
Qed.

Theorem C46_2fsvj : forall (par : string -> R) (wrt : string), In wrt n2j ->
  (forall l, (0 <= l)%Z -> dens_defined par (jmoment_y2 l) -> partial_of (m_2fsvj l) par wrt (dm_2fsvj l par wrt)) /\
  (forall l, (0 <= l)%Z -> dens_defined par (jcmoment_y2 l) -> partial_of (cm_2fsvj l) par wrt (dcm_2fsvj l par wrt)) /\
  (forall l1 l2, (0 <= l1)%Z -> (0 <= l2)%Z -> dens_defined par (jcov_yy2 l1 l2) ->
     partial_of (cov_2fsvj l1 l2) par wrt (dcov_2fsvj l1 l2 par wrt)).
Proof.
  intros par wrt Hw.
  assert (Hw' : In wrt ["mu"; "k1"; "k2"; "theta1"; "sigma_v1"; "theta2"; "sigma_v2"; "lambda"; "mu_j"; "sigma_j"]%string) by (cbn [In] in *; tauto).
  split; [|split]; [intros l Hl D0|intros l Hl D0|intros l1 l2 H1 H2 D0].
  - destruct (returns_inv _ _ (jmoment_y2_sp 1 1 1 0 0 0 0 0 0 0 0 l Hl)) as (q & Eq & W & _). apply (partial_scalar _ _ _ _ _ q Eq).
    destruct (C27_dpoly_mj q par wrt Hw (fits2_of T9 noB par (v2_m par ++ v_jump par) (items q) eq_refl ltac:(repeat constructor) (proj2 (proj2 W)) (fun t0 t1 x c => D0 q t0 t1 x c Eq))) as (r & Er & _ & D). eauto.
  - destruct (returns_inv _ _ (jcmoment_y2_sp 1 1 1 0 0 0 0 0 0 0 l Hl)) as (q & Eq & W & _). apply (partial_scalar _ _ _ _ _ q Eq).
    destruct (C27_dpoly_cmj q par wrt Hw' (fits2_of T8 noB par (v2_cm par ++ v_jump par) (items q) eq_refl ltac:(repeat constructor) (proj2 (proj2 W)) (fun t0 t1 x c => D0 q t0 t1 x c Eq))) as (r & Er & _ & D). eauto.
  - destruct (returns_inv _ _ (jcov_yy2_sp 1 1 1 0 0 0 0 0 0 0 0 l1 l2 H1 H2)) as (q & Eq & W & _). apply (partial_scalar _ _ _ _ _ q Eq).
    destruct (C27_dpoly_mj q par wrt Hw (fits2_of T9 noB par (v2_m par ++ v_jump par) (items q) eq_refl ltac:(repeat constructor) (proj2 (proj2 W)) (fun t0 t1 x c => D0 q t0 t1 x c Eq))) as (r & Er & _ & D). eauto.
Qed.

(** ** the derivatives of the true moments *)

Lemma allk_len s l : allk (wfs s) l -> allk (fun k => length k = length s) l.
Proof. intro H. exact (allk_weaken _ _ _ H (wfs_length s)). Qed.

(** whenever [m] is the moment, the scalar function returns it *)
Theorem C46_value_1fsv : forall (par : string -> R), par "k"%string <> 0 -> 0 <= par "h"%string ->
  (forall l m, (0 <= l)%Z -> ymom l par m -> m_1fsv l par = Ok m) /\
  (forall l m, (0 <= l)%Z -> ycmom l par m -> cm_1fsv l par = Ok m) /\
  (forall l1 l2 m, (0 <= l1)%Z -> (0 <= l2)%Z -> ycov l1 l2 par m -> cov_1fsv l1 l2 par = Ok m).
Proof.
  intros par Hk Hh. split; [|split].
  - intros l m Hl (Om & E & L & s0 & V & IE & I & Is & HE & HV & HT & HL & ->).
    destruct (C19_moment_y (fpar_of par) Om E L s0 V IE I Is l Hk Hh HE HV HT (conj Hl HL)) as (q & Eq & _ & Ev).
    destruct (returns_inv _ _ (moment_y_wf l Hl)) as (q' & Eq' & W). assert (q' = q) by congruence. subst q'.
    unfold m_1fsv, scalar. rewrite Eq. cbn [bind]. f_equal. rewrite <- Ev.
    apply poly2num_m1_eval. exact (allk_len [false; true; true; true; true; true; true; true] _ (proj2 (proj2 W))).
  - intros l m Hl (Om & E & L & s0 & V & IE & I & Is & HE & HV & HT & HL & HL1 & ->).
    destruct (C20_cmoment_y (fpar_of par) Om E L s0 V IE I Is l Hk Hh HE HV HT (conj Hl HL) HL1) as (q & Eq & _ & Ev).
    destruct (returns_inv _ _ (cmoment_y_wf l Hl)) as (q' & Eq' & W). assert (q' = q) by congruence. subst q'.
    unfold cm_1fsv, scalar. rewrite Eq. cbn [bind]. f_equal. rewrite <- Ev.
    apply poly2num_cm1_eval. exact (allk_len [false; true; true; true; true; true; true] _ (proj2 (proj2 W))).
  - intros l1 l2 m H1 H2 (Om & E & L & s0 & V & IE & I & Is & IE1 & I1 & Is1 & HE & HV & HT & HT1 & HL & ->).
    destruct (C21_cov_yy (fpar_of par) Om E L s0 V IE I Is IE1 I1 Is1 Hk Hh (conj HE (conj HV (conj HT HT1))) l1 l2 H1 H2 HL) as (q & Eq & _ & Ev).
    destruct (returns_inv _ _ (cov_yy_wf l1 l2 H1 H2)) as (q' & Eq' & W). assert (q' = q) by congruence. subst q'.
    unfold cov_1fsv, scalar. rewrite Eq. cbn [bind]. f_equal. rewrite <- Ev.
    apply poly2num_m1_eval. exact (allk_len [false; true; true; true; true; true; true; true] _ (proj2 (proj2 W))).
Qed.

Theorem C46_value_1fsvj : forall (par : string -> R), par "k"%string <> 0 -> 0 <= par "h"%string ->
  (forall l m, (0 <= l)%Z -> yjmom l par m -> m_1fsvj l par = Ok m) /\
  (forall l m, (0 <= l)%Z -> yjcmom l par m -> cm_1fsvj l par = Ok m) /\
  (forall l1 l2 m, (0 <= l1)%Z -> (0 <= l2)%Z -> yjcov l1 l2 par m -> cov_1fsvj l1 l2 par = Ok m).
Proof.
  intros par Hk Hh. split; [|split].
  - intros l m Hl (Om & E & L & s0 & V & IE & I & Is & J & HE & HV & HT & HJ & HI & HL & ->).
    destruct (C23_moment_y (fpar_of par) (par "lambda"%string) (par "mu_j"%string) (par "sigma_j"%string) Om E L s0 V IE I Is J l Hk Hh HE HV HT HJ HI (conj Hl HL)) as (q & Eq & _ & Ev).
    destruct (returns_inv _ _ (jmoment_y_wf l Hl)) as (q' & Eq' & W). assert (q' = q) by congruence. subst q'.
    unfold m_1fsvj, scalar. rewrite Eq. cbn [bind]. f_equal. rewrite <- Ev.
    apply poly2num_mj_eval. exact (allk_len [false; true; true; true; true; true; true; true; true; true; true] _ (proj2 (proj2 W))).
  - intros l m Hl (Om & E & L & s0 & V & IE & I & Is & J & HE & HV & HT & HJ & HI & HL & HL1 & ->).
    destruct (C23_cmoment_y (fpar_of par) (par "lambda"%string) (par "mu_j"%string) (par "sigma_j"%string) Om E L s0 V IE I Is J l Hk Hh HE HV HT HJ HI (conj Hl HL) HL1) as (q & Eq & _ & Ev).
    destruct (returns_inv _ _ (jcmoment_y_wf l Hl)) as (q' & Eq' & W). assert (q' = q) by congruence. subst q'.
    unfold cm_1fsvj, scalar. rewrite Eq. cbn [bind]. f_equal. rewrite <- Ev.
    apply poly2num_cmj_eval. exact (allk_len [false; true; true; true; true; true; true; true; true; true] _ (proj2 (proj2 W))).
  - intros l1 l2 m H1 H2 (Om & E & L & s0 & V & IE & I & Is & IE1 & I1 & Is1 & J0 & J1 & HE & HV & HT & HT1 & HJ0 & HJ1 & HI & HL & ->).
    destruct (C23_cov_yy (fpar_of par) (par "lambda"%string) (par "mu_j"%string) (par "sigma_j"%string) Om E L s0 V IE I Is IE1 I1 Is1 J0 J1 Hk Hh
      (conj (conj HE (conj HV (conj HT HT1))) (conj HJ0 (conj HJ1 HI))) l1 l2 H1 H2 HL) as (q & Eq & _ & Ev).
    destruct (returns_inv _ _ (jcov_yy_wf l1 l2 H1 H2)) as (q' & Eq' & W). assert (q' = q) by congruence. subst q'.
    unfold cov_1fsvj, scalar. rewrite Eq. cbn [bind]. f_equal. rewrite <- Ev.
    apply poly2num_mj_eval. exact (allk_len [false; true; true; true; true; true; true; true; true; true; true] _ (proj2 (proj2 W))).
Qed.

(** [d] is the partial derivative of [EY] at [par] *)
Definition is_partial (EY : (string -> R) -> R) (par : string -> R) (wrt : string) (d : res R) : Prop :=
  exists x, d = Ok x /\ is_derive (fun t => EY (upd par wrt t)) (par wrt) x.

Lemma partial_true (g : (string -> R) -> res R) EY par wrt d : wrt <> "h"%string -> par "k"%string <> 0 -> 0 <= par "h"%string ->
  (forall q, q "k"%string <> 0 -> 0 <= q "h"%string -> g q = Ok (EY q)) -> partial_of g par wrt d -> is_partial EY par wrt d.
Proof.
  intros Hw Hk Hh HG (f & x & Hf & Ed & D). exists x. split; [exact Ed|].
  refine (is_derive_ext_loc _ _ _ _ _ D).
  assert (Hh' : forall t, 0 <= upd par wrt t "h"%string).
  { intro t. unfold upd. destruct (String.eqb_spec "h" wrt); [congruence|assumption]. }
  assert (HQ : forall t, upd par wrt t "k"%string <> 0 -> f (upd par wrt t) = EY (upd par wrt t)).
  { intros t h. specialize (HG _ h (Hh' t)). rewrite Hf in HG. now injection HG. }
  destruct (String.eqb_spec "k" wrt) as [<-|Hn].
  - assert (Hp : 0 < Rabs (par "k"%string)) by (now apply Rabs_pos_lt).
    exists (mkposreal _ Hp). intros y Hy. apply HQ. unfold upd. rewrite String.eqb_refl. intros ->.
    unfold ball in Hy; cbn in Hy; unfold AbsRing_ball, abs, minus, plus, opp in Hy; cbn in Hy.
    rewrite Rplus_0_l, Rabs_Ropp in Hy. lra.
  - apply filter_forall. intro y. apply HQ. unfold upd. destruct (String.eqb_spec "k" wrt); [contradiction|assumption].
Qed.

Theorem C46_true_1fsv : forall (par : string -> R) (wrt : string) (EY : (string -> R) -> R), In wrt n1 ->
  par "k"%string <> 0 -> 0 <= par "h"%string -> -1 < par "rho"%string < 1 ->
  let is_moment (M : (string -> R) -> R -> Prop) := forall q, q "k"%string <> 0 -> 0 <= q "h"%string -> M q (EY q) in
  (forall l, (0 <= l)%Z -> is_moment (ymom l) -> is_partial EY par wrt (dm_1fsv l par wrt)) /\
  (forall l, (0 <= l)%Z -> is_moment (ycmom l) -> is_partial EY par wrt (dcm_1fsv l par wrt)) /\
  (forall l1 l2, (0 <= l1)%Z -> (0 <= l2)%Z -> is_moment (ycov l1 l2) -> is_partial EY par wrt (dcov_1fsv l1 l2 par wrt)).
Proof.
  intros par wrt EY Hw Hk Hh Hr im. unfold im.
  assert (Hnh : wrt <> "h"%string) by (intros ->; cbn [In] in Hw; intuition discriminate).
  destruct (C46_1fsv par wrt Hw Hk Hr) as [D1 D2]. split; [|split]; [intros l Hl HM|intros l Hl HM|intros l1 l2 H1 H2 HM].
  - apply (partial_true (m_1fsv l)); try assumption; [|apply (D1 l Hl)].
    intros q hk hh. exact (proj1 (C46_value_1fsv q hk hh) l _ Hl (HM q hk hh)).
  - apply (partial_true (cm_1fsv l)); try assumption; [|apply (D1 l Hl)].
    intros q hk hh. exact (proj1 (proj2 (C46_value_1fsv q hk hh)) l _ Hl (HM q hk hh)).
  - apply (partial_true (cov_1fsv l1 l2)); try assumption; [|apply (D2 l1 l2 H1 H2)].
    intros q hk hh. exact (proj2 (proj2 (C46_value_1fsv q hk hh)) l1 l2 _ H1 H2 (HM q hk hh)).
Qed.

Theorem C46_true_1fsvj : forall (par : string -> R) (wrt : string) (EY : (string -> R) -> R), In wrt nj ->
  par "k"%string <> 0 -> 0 <= par "h"%string -> -1 < par "rho"%string < 1 ->
  let is_moment (M : (string -> R) -> R -> Prop) := forall q, q "k"%string <> 0 -> 0 <= q "h"%string -> M q (EY q) in
  (forall l, (0 <= l)%Z -> is_moment (yjmom l) -> is_partial EY par wrt (dm_1fsvj l par wrt)) /\
  (forall l, (0 <= l)%Z -> is_moment (yjcmom l) -> is_partial EY par wrt (dcm_1fsvj l par wrt)) /\
  (forall l1 l2, (0 <= l1)%Z -> (0 <= l2)%Z -> is_moment (yjcov l1 l2) -> is_partial EY par wrt (dcov_1fsvj l1 l2 par wrt)).
Proof.
  intros par wrt EY Hw Hk Hh Hr im. unfold im.
  assert (Hnh : wrt <> "h"%string) by (intros ->; cbn [In] in Hw; intuition discriminate).
  destruct (C46_1fsvj par wrt Hw Hk Hr) as [D1 D2]. split; [|split]; [intros l Hl HM|intros l Hl HM|intros l1 l2 H1 H2 HM].
  - apply (partial_true (m_1fsvj l)); try assumption; [|apply (D1 l Hl)].
    intros q hk hh. exact (proj1 (C46_value_1fsvj q hk hh) l _ Hl (HM q hk hh)).
  - apply (partial_true (cm_1fsvj l)); try assumption; [|apply (D1 l Hl)].
    intros q hk hh. exact (proj1 (proj2 (C46_value_1fsvj q hk hh)) l _ Hl (HM q hk hh)).
  - apply (partial_true (cov_1fsvj l1 l2)); try assumption; [|apply (D2 l1 l2 H1 H2)].
    intros q hk hh. exact (proj2 (proj2 (C46_value_1fsvj q hk hh)) l1 l2 _ H1 H2 (HM q hk hh)).
Qed.

(** ** any other name raises ValueError, in all models *)
Lemma dscalar_err {K} (p : res (Poly K)) dp p2n par wrt q : p = Ok q -> dp q wrt = Err ValueError ->
  dscalar p dp p2n par wrt = Err ValueError.
Proof. intros -> e. unfold dscalar. cbn [bind]. now rewrite e. Qed.

Theorem C46_unknown_name : forall (par : string -> R) (wrt : string),
  (~ In wrt n1 -> (forall l, (0 <= l)%Z -> dm_1fsv l par wrt = Err ValueError /\ dcm_1fsv l par wrt = Err ValueError) /\
     forall l1 l2, (0 <= l1)%Z -> (0 <= l2)%Z -> dcov_1fsv l1 l2 par wrt = Err ValueError) /\
  (~ In wrt nj -> (forall l, (0 <= l)%Z -> dm_1fsvj l par wrt = Err ValueError /\ dcm_1fsvj l par wrt = Err ValueError) /\
     forall l1 l2, (0 <= l1)%Z -> (0 <= l2)%Z -> dcov_1fsvj l1 l2 par wrt = Err ValueError) /\
  (~ In wrt n2 -> (forall l, (0 <= l)%Z -> dm_2fsv l par wrt = Err ValueError /\ dcm_2fsv l par wrt = Err ValueError) /\
     forall l1 l2, (0 <= l1)%Z -> (0 <= l2)%Z -> dcov_2fsv l1 l2 par wrt = Err ValueError) /\
  (~ In wrt n2j -> (forall l, (0 <= l)%Z -> dm_2fsvj l par wrt = Err ValueError /\ dcm_2fsvj l par wrt = Err ValueError) /\
     forall l1 l2, (0 <= l1)%Z -> (0 <= l2)%Z -> dcov_2fsvj l1 l2 par wrt = Err ValueError).
Proof.
  intros par wrt. split; [|split; [|split]]; intro Hn; (split; [intros l Hl; split|intros l1 l2 H1 H2]).
  - destruct (returns_inv _ _ (moment_y_wf l Hl)) as (q & Eq & _). exact (dscalar_err _ _ _ _ _ q Eq (proj1 (proj1 (C22_unknown_name q wrt) Hn))).
  - destruct (returns_inv _ _ (cmoment_y_wf l Hl)) as (q & Eq & _). exact (dscalar_err _ _ _ _ _ q Eq (proj2 (proj1 (C22_unknown_name q wrt) Hn))).
  - destruct (returns_inv _ _ (cov_yy_wf l1 l2 H1 H2)) as (q & Eq & _). exact (dscalar_err _ _ _ _ _ q Eq (proj1 (proj1 (C22_unknown_name q wrt) Hn))).
  - destruct (returns_inv _ _ (jmoment_y_wf l Hl)) as (q & Eq & _). exact (dscalar_err _ _ _ _ _ q Eq (proj1 (proj2 (C22_unknown_name q wrt) Hn))).
  - destruct (returns_inv _ _ (jcmoment_y_wf l Hl)) as (q & Eq & _). exact (dscalar_err _ _ _ _ _ q Eq (proj2 (proj2 (C22_unknown_name q wrt) Hn))).
  - destruct (returns_inv _ _ (jcov_yy_wf l1 l2 H1 H2)) as (q & Eq & _). exact (dscalar_err _ _ _ _ _ q Eq (proj1 (proj2 (C22_unknown_name q wrt) Hn))).
  - destruct (returns_inv _ _ (moment_y2_shape l Hl)) as (q & Eq & _). exact (dscalar_err _ _ _ _ _ q Eq (proj1 (proj1 (C27_unknown_name q wrt) Hn))).
  - destruct (returns_inv _ _ (cmoment_y2_shape l Hl)) as (q & Eq & _). exact (dscalar_err _ _ _ _ _ q Eq (proj2 (proj1 (C27_unknown_name q wrt) Hn))).
  - destruct (returns_inv _ _ (moment_yy2_shape l1 l2 H1 H2)) as (m & Em & _).
    destruct (returns_inv _ _ (moment_y2_shape l1 H1)) as (a & Ea & _).
    destruct (returns_inv _ _ (moment_y2_shape l2 H2)) as (b & Eb & _).
    destruct (returns_inv _ _ (cov_yy2_sp 1 1 1 0 0 0 0 0 l1 l2 m a b H1 H2 Em Ea Eb)) as (q & Eq & _).
    exact (dscalar_err _ _ _ _ _ q Eq (proj1 (proj1 (C27_unknown_name q wrt) Hn))).
  - destruct (returns_inv _ _ (jmoment_y2_sp 1 1 1 0 0 0 0 0 0 0 0 l Hl)) as (q & Eq & _). exact (dscalar_err _ _ _ _ _ q Eq (proj1 (proj1 (proj2 (C27_unknown_name q wrt)) Hn))).
  - destruct (returns_inv _ _ (jcmoment_y2_sp 1 1 1 0 0 0 0 0 0 0 l Hl)) as (q & Eq & _). exact (dscalar_err _ _ _ _ _ q Eq (proj2 (proj1 (proj2 (C27_unknown_name q wrt)) Hn))).
  - destruct (returns_inv _ _ (jcov_yy2_sp 1 1 1 0 0 0 0 0 0 0 0 l1 l2 H1 H2)) as (q & Eq & _). exact (dscalar_err _ _ _ _ _ q Eq (proj1 (proj1 (proj2 (C27_unknown_name q wrt)) Hn))).
Qed.

(** the moment functions of the hypotheses exist: for every parameter point the moment relation holds
    of some number *)
Theorem C46_hypotheses_hold : forall (par : string -> R), par "k"%string <> 0 -> 0 <= par "h"%string ->
  (forall l, (0 <= l)%Z -> (exists m, ymom l par m) /\ (exists m, ycmom l par m) /\ exists m, yjmom l par m) /\
  forall l1 l2, (0 <= l1)%Z -> (0 <= l2)%Z -> (exists m, ycov l1 l2 par m) /\ exists m, yjcov l1 l2 par m.
Proof.
  intros par Hk Hh. split.
  - intros l Hl.
    destruct (C23_hypotheses_hold (fpar_of par) (par "lambda"%string) (par "mu_j"%string) (par "sigma_j"%string) 0 (l + 1) Hk Hh ltac:(lia))
      as (Om & E & V & IE & I & Is & IE1 & I1 & Is1 & J0 & J1 & H).
    pose proof (jindep0 _ _ _ _ _ _ _ _ _ _ _ _ _ _ _ _ _ H ltac:(lia)) as HI.
    destruct H as ((HE & HV & HT & _) & HJ & _).
    split; [|split]; eexists.
    + exists Om, E, (l + 1)%Z, 0, V, IE, I, Is. cbv zeta. repeat (split; [assumption || lia|]). reflexivity.
    + exists Om, E, (l + 1)%Z, 0, V, IE, I, Is. cbv zeta. repeat (split; [assumption || lia|]). reflexivity.
    + exists Om, E, (l + 1)%Z, 0, V, IE, I, Is, J0. cbv zeta. repeat (split; [assumption || lia|]). reflexivity.
  - intros l1 l2 H1 H2.
    destruct (C23_hypotheses_hold (fpar_of par) (par "lambda"%string) (par "mu_j"%string) (par "sigma_j"%string) 0 (l1 + l2) Hk Hh ltac:(lia))
      as (Om & E & V & IE & I & Is & IE1 & I1 & Is1 & J0 & J1 & (HE & HV & HT & HT1) & HJ0 & HJ1 & HI).
    split; eexists.
    + exists Om, E, (l1 + l2)%Z, 0, V, IE, I, Is, IE1, I1, Is1. cbv zeta. repeat (split; [assumption || lia|]). reflexivity.
    + exists Om, E, (l1 + l2)%Z, 0, V, IE, I, Is, IE1, I1, Is1, J0, J1. cbv zeta. repeat (split; [assumption || lia|]). reflexivity.
Qed.

(** the mean return and its derivative in mu at k = 2, h = 1/2 *)
Example C46_example : let par := fun s : string => if (s =? "h")%string then 1/2 else if (s =? "rho")%string then -1/2 else 2 in
  par "k"%string <> 0 /\ -1 < par "rho"%string < 1 /\ m_1fsv 1 par = Ok (1/2) /\ dm_1fsv 1 par "mu" = Ok (1/2).
Proof.
  cbv zeta. split; [cbn; lra|]. split; [cbn; lra|].
  assert (e : exists q, moment_y 1 = Ok q) by (eexists; vm_compute; reflexivity).
  destruct e as [q e]. assert (e' := e). vm_compute in e'. injection e' as <-.
  split; unfold m_1fsv, dm_1fsv, scalar, dscalar; rewrite e; cbn [bind]; [|set (d := dpoly_m1 _ _); vm_compute in d; subst d; cbn [bind]];
    f_equal; (rewrite poly2num_m1_eval; [unfold eval, monx, Q2R; cbn; change (Pos.to_nat 1) with 1%nat; lra|
      cbn; intros k Hk; cbn in Hk; intuition (subst k; reflexivity)]).
Qed.

(** the second moment of the two-factor return has no vanishing denominator at k1 = 1, k2 = 2 *)
Example C46_example_2f : let par := fun s : string => if (s =? "k1")%string then 1 else 2 in dens_defined par (moment_y2 2).
Proof.
  cbv zeta. intros q t0 t1 x c Eq Hin.
  assert (e : moment_y2 2 = Ok q) by exact Eq. vm_compute in e. injection e as <-. cbn [items In] in Hin.
  repeat match type of Hin with
  | False => destruct Hin
  | _ \/ _ => destruct Hin as [Hin|Hin];
      [injection Hin as <- <- <- <-; intros a b e h; cbn [In] in h;
       repeat match type of h with False => destruct h | _ \/ _ => destruct h as [h|h]; [injection h as <- <- <-; cbn; (right; lia) || (left; lra)|] end|]
  end.
Qed.
