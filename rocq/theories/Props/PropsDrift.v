(** Property C62, continued: the derivatives with respect to the drift. *)
From Coq Require Import Reals Lra Lia.
From Coquelicot Require Import Coquelicot.
From Verif.Spec Require Import Params Returns1 Fsv2 Consist.
From Verif.Model Require Import Scalar.
From Verif.Proof Require Import ItoProofs Realise Nested Consist.
From Verif.Props Require Import Props1fsv Props1fsvj Props2fsv PropsScalar PropsCentral PropsDpoly2.
Import Verif.Model.Scalar.
Local Open Scope R_scope.

Lemma C_S_diag k : Binomial.C (S k) k = INR (S k).
Proof.
  unfold Binomial.C. replace (S k - k)%nat with 1%nat by lia. change (Factorial.fact (S k)) with (S k * Factorial.fact k)%nat. rewrite mult_INR.
  change (INR (Factorial.fact 1)) with 1. field. apply INR_fact_neq_0.
Qed.
Lemma is_derive_moved ms a h l : is_derive (fun t => moved ms ((t - a) * h) l) a (match l with O => 0 | S k => INR l * h * ms k end).
Proof.
  set (g := fun i : nat => match (l - i)%nat with 1%nat => Binomial.C l i * ms i * h | _ => 0 end).
  assert (D : forall n, is_derive (fun t => sum_f_R0 (fun i => Binomial.C l i * ms i * ((t - a) * h) ^ (l - i)) n) a (sum_f_R0 g n)).
  { assert (T : forall i, is_derive (fun t => Binomial.C l i * ms i * ((t - a) * h) ^ (l - i)) a (g i)).
    { intro i. unfold g. destruct (l - i)%nat as [|[|m]].
      - apply (is_derive_ext (fun _ => Binomial.C l i * ms i)); [intro; cbn; ring|]. apply (@is_derive_const R_AbsRing R_NormedModule).
      - auto_derive; [trivial|]. cbn. ring.
      - auto_derive; [trivial|]. replace (a + - a) with 0 by ring. cbn. ring. }
    induction n as [|n IH]; cbn [sum_f_R0]; [apply T|]. apply (is_derive_plus (K := R_AbsRing) (V := R_NormedModule)); [exact IH|apply T]. }
  refine (eq_ind (sum_f_R0 g l) (fun x => is_derive (fun t => moved ms ((t - a) * h) l) a x) (D l) _ _).
  destruct l as [|k].
  - reflexivity.
  - cbn [sum_f_R0]. unfold g at 2. rewrite Nat.sub_diag. rewrite Rplus_0_r. destruct k as [|k].
    + cbn [sum_f_R0]. unfold g. cbn [Nat.sub]. rewrite C_S_diag. ring.
    + cbn [sum_f_R0]. unfold g at 2. replace (S (S k) - S k)%nat with 1%nat by lia. rewrite C_S_diag.
      replace (sum_f_R0 g k) with 0; [ring|]. symmetry. apply sum_eq_R0. intros n Hn. unfold g.
      destruct (S (S k) - n)%nat as [|[|m]] eqn:e; [reflexivity|lia|reflexivity].
Qed.

Lemma moments_unique m a b : returns_moments m a -> returns_moments m b -> forall l, a l = b l.
Proof. intros [a0 ha] [b0 hb] [|l]; [congruence|]. specialize (ha (S l) ltac:(lia)). specialize (hb (S l) ltac:(lia)). congruence. Qed.
Lemma moved_ext a b c l : (forall i, a i = b i) -> moved a c l = moved b c l.
Proof. intro H. unfold moved. apply sum_eq. intros i _. now rewrite H. Qed.

(** the derivative of the raw moment of order l in the drift is l h times the raw moment of order l-1 *)
Lemma drift_m (m : Z -> (string -> R) -> res R) par ms l dm : (1 <= l)%nat ->
  (forall d, moved_by (d * par "h"%string) (fun l => m l par) (fun l => m l (mu_plus par d))) ->
  returns_moments (fun l => m l par) ms -> partial_of (m (Z.of_nat l)) par "mu"%string dm ->
  dm = Ok (INR l * par "h"%string * ms (l - 1)%nat).
Proof.
  intros Hl HM Hms (f & x & Hf & -> & D). f_equal.
  assert (E : forall t, f (upd par "mu"%string t) = moved ms ((t - par "mu"%string) * par "h"%string) l).
  { intro t. destruct (HM (t - par "mu"%string)) as (ms' & Hms' & H). specialize (H l Hl). cbv beta in H. unfold mu_plus in H.
    replace (par "mu"%string + (t - par "mu"%string)) with t in H by ring. rewrite Hf in H. injection H as ->.
    apply moved_ext, (moments_unique _ _ _ Hms' Hms). }
  pose proof (is_derive_ext _ _ _ _ E D) as D'. pose proof (is_derive_moved ms (par "mu"%string) (par "h"%string) l) as D2.
  etransitivity; [symmetry; exact (is_derive_unique _ _ _ D')|]. etransitivity; [exact (is_derive_unique _ _ _ D2)|].
  destruct l as [|k]; [lia|]. now rewrite Nat.sub_succ, Nat.sub_0_r.
Qed.
(** a function that does not depend on the drift has derivative 0 *)
Lemma drift_0 (g : (string -> R) -> res R) par dg : (forall d, g (mu_plus par d) = g par) -> partial_of g par "mu"%string dg -> dg = Ok 0.
Proof.
  intros H (f & x & Hf & -> & D). f_equal.
  assert (E : forall t, f (upd par "mu"%string t) = f par).
  { intro t. specialize (H (t - par "mu"%string)). unfold mu_plus in H.
    replace (par "mu"%string + (t - par "mu"%string)) with t in H by ring. rewrite !Hf in H. now injection H. }
  pose proof (is_derive_ext _ _ _ _ E D) as D'. etransitivity; [symmetry; exact (is_derive_unique _ _ _ D')|]. apply Derive_const.
Qed.

Theorem C62_dm_1fsv : forall par : string -> R, par "k"%string <> 0 -> 0 <= par "h"%string -> -1 < par "rho"%string < 1 ->
  (forall ms, returns_moments (fun l => m_1fsv l par) ms -> forall l, (1 <= l)%nat ->
     dm_1fsv (Z.of_nat l) par "mu" = Ok (INR l * par "h"%string * ms (l - 1)%nat) /\ dcm_1fsv (Z.of_nat l) par "mu" = Ok 0) /\
  (forall ms, returns_moments (fun l => m_1fsvj l par) ms -> forall l, (1 <= l)%nat ->
     dm_1fsvj (Z.of_nat l) par "mu" = Ok (INR l * par "h"%string * ms (l - 1)%nat) /\ dcm_1fsvj (Z.of_nat l) par "mu" = Ok 0).
Proof.
  intros par Hk Hh Hr. split; intros ms Hms l Hl.
  - destruct (C46_1fsv par "mu" ltac:(cbn; tauto) Hk Hr) as [H _]. destruct (H (Z.of_nat l) ltac:(lia)) as [h1 h2]. split.
    + refine (drift_m m_1fsv par ms l _ Hl _ Hms h1). intro d. apply (C62_1fsv par d Hk Hh).
    + refine (drift_0 _ par _ _ h2). intro d. now apply (C62_1fsv par d Hk Hh).
  - destruct (C46_1fsvj par "mu" ltac:(cbn; tauto) Hk Hr) as [H _]. destruct (H (Z.of_nat l) ltac:(lia)) as [h1 h2]. split.
    + refine (drift_m m_1fsvj par ms l _ Hl _ Hms h1). intro d. apply (C62_1fsv par d Hk Hh).
    + refine (drift_0 _ par _ _ h2). intro d. now apply (C62_1fsv par d Hk Hh).
Qed.
Theorem C62_dm_2fsv : forall par : string -> R, par "k1"%string <> 0 -> par "k2"%string <> 0 -> 0 <= par "h"%string ->
  (forall ms, returns_moments (fun l => m_2fsv l par) ms -> forall l, (1 <= l)%nat ->
     (dens_defined par (moment_y2 (Z.of_nat l)) -> dm_2fsv (Z.of_nat l) par "mu" = Ok (INR l * par "h"%string * ms (l - 1)%nat)) /\
     (dens_defined par (cmoment_y2 (Z.of_nat l)) -> dcm_2fsv (Z.of_nat l) par "mu" = Ok 0)) /\
  (forall ms, returns_moments (fun l => m_2fsvj l par) ms -> forall l, (1 <= l)%nat ->
     (dens_defined par (jmoment_y2 (Z.of_nat l)) -> dm_2fsvj (Z.of_nat l) par "mu" = Ok (INR l * par "h"%string * ms (l - 1)%nat)) /\
     (dens_defined par (jcmoment_y2 (Z.of_nat l)) -> dcm_2fsvj (Z.of_nat l) par "mu" = Ok 0)).
Proof.
  intros par Hk1 Hk2 Hh. split; intros ms Hms l Hl; split; intro HD.
  - destruct (C46_2fsv par "mu" ltac:(cbn; tauto)) as [H _]. refine (drift_m m_2fsv par ms l _ Hl _ Hms (H (Z.of_nat l) ltac:(lia) HD)).
    intro d. apply (C62_2fsv par d Hk1 Hk2 Hh).
  - destruct (C46_2fsv par "mu" ltac:(cbn; tauto)) as (_ & H & _). refine (drift_0 _ par _ _ (H (Z.of_nat l) ltac:(lia) HD)).
    intro d. now apply (C62_2fsv par d Hk1 Hk2 Hh).
  - destruct (C46_2fsvj par "mu" ltac:(cbn; tauto)) as [H _]. refine (drift_m m_2fsvj par ms l _ Hl _ Hms (H (Z.of_nat l) ltac:(lia) HD)).
    intro d. apply (C62_2fsv par d Hk1 Hk2 Hh).
  - destruct (C46_2fsvj par "mu" ltac:(cbn; tauto)) as (_ & H & _). refine (drift_0 _ par _ _ (H (Z.of_nat l) ltac:(lia) HD)).
    intro d. now apply (C62_2fsv par d Hk1 Hk2 Hh).
Qed.
