(** Property C68: the lowest orders of the one-factor models. *)
From Coq Require Import Reals Lra Lia.
From Coquelicot Require Import Coquelicot.
From Verif.Spec Require Import Params Returns1 Cpp.
From Verif.Model Require Import Scalar.
From Verif.Proof Require Import ItoProofs.
From Verif.Props Require Import PropsIto Props1fsv Props1fsvj PropsScalar PropsLimits.
Import Verif.Model.Scalar.
Local Open Scope R_scope.

(** orders 0 and 1 are trivial: E y^0 = 1, E(y - Ey)^0 = 1, E(y - Ey) = 0, Cov(1, y^l) = Cov(y^l, 1) = 0 *)
Definition low_orders (m cm : Z -> res R) (cov : Z -> Z -> res R) : Prop :=
  m 0%Z = Ok 1 /\ cm 0%Z = Ok 1 /\ cm 1%Z = Ok 0 /\ forall l, (0 <= l)%Z -> cov 0%Z l = Ok 0 /\ cov l 0%Z = Ok 0.

Theorem C68_1fsv : forall par : string -> R, par "k"%string <> 0 -> 0 <= par "h"%string ->
  low_orders (fun l => m_1fsv l par) (fun l => cm_1fsv l par) (fun l1 l2 => cov_1fsv l1 l2 par).
Proof.
  intros par Hk Hh. destruct (C46_value_1fsv par Hk Hh) as (V1 & V2 & V3).
  destruct (C21_hypotheses_hold (fpar_of par) 0 1 Hk Hh ltac:(lia)) as (Om & E & V & IE & I & Is & IE1 & I1 & Is1 & HE & HV & HT & HT1).
  assert (one : E (fun _ => 1) = 1) by exact (HV 0%Z ltac:(lia)).
  split; [|split; [|split]].
  - apply V1; [lia|]. exists Om, E, 1%Z, 0, V, IE, I, Is. repeat (split; [assumption|]). split; [lia|]. symmetry. exact one.
  - apply V2; [lia|]. exists Om, E, 1%Z, 0, V, IE, I, Is. repeat (split; [assumption|]). split; [lia|]. split; [lia|]. symmetry. exact one.
  - apply V2; [lia|]. exists Om, E, 1%Z, 0, V, IE, I, Is. repeat (split; [assumption|]). split; [lia|]. split; [lia|].
    set (y := fun w => ret (fpar_of par) 0 (V w) (IE w) (I w) (Is w)). change (0 = E (fun w => (y w - E y) ^ Z.to_nat 1)).
    rewrite (E_ext E HE _ (fun w => y w + (- E y) * 1)) by (intro; change (Z.to_nat 1) with 1%nat; ring).
    rewrite (E_plus E HE), (E_scal E HE), one. change (E (fun w => y w)) with (E y). ring.
  - clear - Hk Hh V3. intros l Hl.
    destruct (C21_hypotheses_hold (fpar_of par) 0 l Hk Hh Hl) as (Om & E & V & IE & I & Is & IE1 & I1 & Is1 & HE & HV & HT & HT1).
    assert (one : E (fun _ => 1) = 1) by exact (HV 0%Z ltac:(lia)).
    split; apply V3; try lia; exists Om, E, l, 0, V, IE, I, Is, IE1, I1, Is1; repeat (split; [assumption|]); (split; [lia|]); change (Z.to_nat 0) with O; cbn [pow]; rewrite one.
    + rewrite (E_ext E HE (fun w => 1 * _) (fun w => ret (fpar_of par) (0 + fh (fpar_of par)) (v_end (fpar_of par) 0 (V w) (IE w)) (IE1 w) (I1 w) (Is1 w) ^ Z.to_nat l)) by (intro; ring). ring.
    + rewrite (E_ext E HE (fun w => _ * 1) (fun w => ret (fpar_of par) 0 (V w) (IE w) (I w) (Is w) ^ Z.to_nat l)) by (intro; ring). ring.
Qed.
Theorem C68_1fsvj : forall par : string -> R, par "k"%string <> 0 -> 0 <= par "h"%string ->
  low_orders (fun l => m_1fsvj l par) (fun l => cm_1fsvj l par) (fun l1 l2 => cov_1fsvj l1 l2 par).
Proof.
  intros par Hk Hh. destruct (C46_value_1fsvj par Hk Hh) as (V1 & V2 & V3).
  destruct (C23_hypotheses_hold (fpar_of par) (par "lambda"%string) (par "mu_j"%string) (par "sigma_j"%string) 0 1 Hk Hh ltac:(lia))
    as (Om & E & V & IE & I & Is & IE1 & I1 & Is1 & J & J1 & HC).
  pose proof (jindep0 _ _ _ _ _ _ _ _ _ _ _ _ _ _ _ _ _ HC ltac:(lia)) as HI.
  destruct HC as ((HE & HV & HT & _) & HJ & _).
  assert (one : E (fun _ => 1) = 1) by exact (HV 0%Z ltac:(lia)).
  split; [|split; [|split]].
  - apply V1; [lia|]. exists Om, E, 1%Z, 0, V, IE, I, Is, J. repeat (split; [assumption|]). split; [lia|]. symmetry. exact one.
  - apply V2; [lia|]. exists Om, E, 1%Z, 0, V, IE, I, Is, J. repeat (split; [assumption|]). split; [lia|]. split; [lia|]. symmetry. exact one.
  - apply V2; [lia|]. exists Om, E, 1%Z, 0, V, IE, I, Is, J. repeat (split; [assumption|]). split; [lia|]. split; [lia|].
    set (y := fun w => ret (fpar_of par) 0 (V w) (IE w) (I w) (Is w) + J w). change (0 = E (fun w => (y w - E y) ^ Z.to_nat 1)).
    rewrite (E_ext E HE _ (fun w => y w + (- E y) * 1)) by (intro; change (Z.to_nat 1) with 1%nat; ring).
    rewrite (E_plus E HE), (E_scal E HE), one. change (E (fun w => y w)) with (E y). ring.
  - clear - Hk Hh V3. intros l Hl.
    destruct (C23_hypotheses_hold (fpar_of par) (par "lambda"%string) (par "mu_j"%string) (par "sigma_j"%string) 0 l Hk Hh Hl)
      as (Om & E & V & IE & I & Is & IE1 & I1 & Is1 & J & J1 & (HE & HV & HT & HT1) & HJ & HJ1 & HI).
    assert (one : E (fun _ => 1) = 1) by exact (HV 0%Z ltac:(lia)).
    split; apply V3; try lia; exists Om, E, l, 0, V, IE, I, Is, IE1, I1, Is1, J, J1; repeat (split; [assumption|]); (split; [lia|]); change (Z.to_nat 0) with O; cbn [pow]; rewrite one.
    + rewrite (E_ext E HE (fun w => 1 * _) (fun w => (ret (fpar_of par) (0 + fh (fpar_of par)) (v_end (fpar_of par) 0 (V w) (IE w)) (IE1 w) (I1 w) (Is1 w) + J1 w) ^ Z.to_nat l)) by (intro; ring). ring.
    + rewrite (E_ext E HE (fun w => _ * 1) (fun w => (ret (fpar_of par) 0 (V w) (IE w) (I w) (Is w) + J w) ^ Z.to_nat l)) by (intro; ring). ring.
Qed.
Example C68_ex : cov_1fsv 5 0 (lim_par 5 1 7) = Ok 0 /\ cm_1fsvj 1 (lim_par 5 1 7) = Ok 0.
Proof.
  assert (h1 : lim_par 5 1 7 "k"%string <> 0) by (cbn; lra). assert (h2 : 0 <= lim_par 5 1 7 "h"%string) by (cbn; lra).
  split; [exact (proj2 (proj2 (proj2 (proj2 (C68_1fsv _ h1 h2))) 5%Z ltac:(lia)))|exact (proj1 (proj2 (proj2 (C68_1fsvj _ h1 h2))))].
Qed.
