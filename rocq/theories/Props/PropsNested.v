(** Property C60: a model whose extra jumps vanish gives the numbers of the model without them. *)
From Coq Require Import Reals Lra.
From Coquelicot Require Import Coquelicot.
From Verif.Spec Require Import Params Returns1 Cond2Dict Svvj SvcjPath.
From Verif.Model Require Import Scalar Cond2D.
From Verif.Proof Require Import ItoProofs SvvjW Nested.
From Verif.Props Require Import Props1fsv Props1fsvj PropsScalar PropsSvvj PropsCond2Dict.
Import Verif.Model.Scalar.
Local Open Scope R_scope.

(** no jumps in a dict of the models with jumps in the price: rate 0, or all sizes 0 *)
Definition jumps_off (par : string -> R) : Prop :=
  par "lambda"%string = 0 \/ (par "mu_j"%string = 0 /\ par "sigma_j"%string = 0).

Lemma jumps_off_no par h : jumps_off par -> no_jump (par "lambda"%string * h) (par "mu_j"%string) (par "sigma_j"%string).
Proof. intros [e|e]; [left; rewrite e; ring|now right]. Qed.

Theorem C60_1fsvj : forall par : string -> R, par "k"%string <> 0 -> 0 <= par "h"%string -> jumps_off par ->
  (forall l, (0 <= l)%Z -> m_1fsvj l par = m_1fsv l par /\ cm_1fsvj l par = cm_1fsv l par) /\
  (forall l1 l2, (0 <= l1)%Z -> (0 <= l2)%Z -> cov_1fsvj l1 l2 par = cov_1fsv l1 l2 par).
Proof.
  intros par Hk Hh H0.
  destruct (C46_value_1fsv par Hk Hh) as (V1 & V2 & V3). destruct (C46_value_1fsvj par Hk Hh) as (W1 & W2 & W3).
  assert (G : forall L, (0 <= L)%Z -> exists (Om : Type) (E : (Om -> R) -> R) (V IE I Is IE1 I1 Is1 : Om -> R),
    cov_hyps E (fpar_of par) L 0 V IE I Is IE1 I1 Is1 /\ E (fun _ => 1) = 1).
  { intros L HL. destruct (C21_hypotheses_hold (fpar_of par) 0 L Hk Hh HL) as (Om & E & V & IE & I & Is & IE1 & I1 & Is1 & HC).
    exists Om, E, V, IE, I, Is, IE1, I1, Is1. split; [exact HC|]. destruct HC as (HE & HV & _). exact (HV 0%Z ltac:(lia)). }
  pose proof (jumps_off_no par (par "h"%string) H0) as NJ. split.
  - intros l Hl. destruct (G (l + 1)%Z ltac:(lia)) as (Om & E & V & IE & I & Is & IE1 & I1 & Is1 & (HE & HV & HT & _) & E1). split.
    + rewrite (V1 l _ Hl (ex_intro _ Om (ex_intro _ E (ex_intro _ (l + 1)%Z (ex_intro _ 0 (ex_intro _ V (ex_intro _ IE (ex_intro _ I (ex_intro _ Is
        (conj HE (conj HV (conj HT (conj (ltac:(lia) : (l <= l + 1)%Z) eq_refl))))))))))))). apply (W1 l _ Hl).
      exists Om, E, (l + 1)%Z, 0, V, IE, I, Is, (fun _ => 0). cbv zeta. do 3 (split; [assumption|]).
      split; [now apply (cpp_0 E HE)|]. split; [now apply (indep_0 E HE)|]. split; [lia|].
      apply (E_ext E HE). intro w. now rewrite Rplus_0_r.
    + rewrite (V2 l _ Hl (ex_intro _ Om (ex_intro _ E (ex_intro _ (l + 1)%Z (ex_intro _ 0 (ex_intro _ V (ex_intro _ IE (ex_intro _ I (ex_intro _ Is
        (conj HE (conj HV (conj HT (conj (ltac:(lia) : (l <= l + 1)%Z) (conj (ltac:(lia) : (1 <= l + 1)%Z) eq_refl)))))))))))))). apply (W2 l _ Hl).
      exists Om, E, (l + 1)%Z, 0, V, IE, I, Is, (fun _ => 0). cbv zeta. do 3 (split; [assumption|]).
      split; [now apply (cpp_0 E HE)|]. split; [now apply (indep_0 E HE)|]. split; [lia|]. split; [lia|].
      rewrite (E_ext E HE (fun w => ret (fpar_of par) 0 (V w) (IE w) (I w) (Is w) + 0) (fun w => ret (fpar_of par) 0 (V w) (IE w) (I w) (Is w))) by (intro; ring).
      apply (E_ext E HE). intro w. now rewrite Rplus_0_r.
  - intros l1 l2 H1 H2. destruct (G (l1 + l2)%Z ltac:(lia)) as (Om & E & V & IE & I & Is & IE1 & I1 & Is1 & (HE & HV & HT & HT1) & E1).
    rewrite (V3 l1 l2 _ H1 H2 (ex_intro _ Om (ex_intro _ E (ex_intro _ (l1 + l2)%Z (ex_intro _ 0 (ex_intro _ V (ex_intro _ IE (ex_intro _ I (ex_intro _ Is
      (ex_intro _ IE1 (ex_intro _ I1 (ex_intro _ Is1 (conj HE (conj HV (conj HT (conj HT1 (conj (Z.le_refl _) eq_refl))))))))))))))))). apply (W3 l1 l2 _ H1 H2).
    exists Om, E, (l1 + l2)%Z, 0, V, IE, I, Is, IE1, I1, Is1, (fun _ => 0), (fun _ => 0). cbv zeta. do 4 (split; [assumption|]).
    do 2 (split; [now apply (cpp_0 E HE)|]). split; [now apply (indep3_0 E HE)|]. split; [lia|].
    f_equal; [|f_equal]; apply (E_ext E HE); intro w; rewrite !Rplus_0_r; reflexivity.
Qed.

Theorem C60_2fsvj : forall par : string -> R, jumps_off par ->
  (forall l, (0 <= l)%Z -> m_2fsvj l par = m_2fsv l par /\ cm_2fsvj l par = cm_2fsv l par) /\
  (forall l1 l2, (0 <= l1)%Z -> (0 <= l2)%Z -> cov_2fsvj l1 l2 par = cov_2fsv l1 l2 par).
Proof.
  intros par H0. pose proof (jumps_off_no par (par "h"%string) H0) as NJ.
  split; [intros l Hl; split|intros l1 l2 H1 H2]; [now apply m_2fsvj_0|now apply cm_2fsvj_0|now apply cov_2fsvj_0].
Qed.

(** ** given the jumps of the variance *)
(** mdl_svij without jumps in the price is mdl_svvj *)
Theorem C60_svij : forall (l : Z) (p : svpar) (z : path) lam mus sgs nums tups,
  jump_dict p z [("lmbd_s", lam); ("mu_s", mus); ("sigma_s", sgs)]%string nums tups -> lam = 0 \/ (mus = 0 /\ sgs = 0) ->
  ((0 <= l)%Z -> m_svij l (mkJpar nums tups) = m_svvj l (mkJpar nums tups)) /\
  ((1 <= l)%Z -> cm_svij l (mkJpar nums tups) = cm_svvj l (mkJpar nums tups)).
Proof.
  intros l p z lam mus sgs nums tups HD H0. destruct (Z.lt_ge_cases l 0) as [|Hl]; [split; lia|].
  destruct (C34_hypotheses_hold p z l lam mus sgs Hl) as (Om & E & IE & I & Is & J & HE & HW & HJ & _).
  assert (NJ : no_jump (lam * svh p) mus sgs) by (destruct H0 as [->|e]; [left; ring|now right]).
  assert (E1 : E (fun _ => 1) = 1) by (transitivity (E (fun w => J w ^ 0)); [reflexivity|]; rewrite (HJ 0%nat (Nat.le_0_l _)); apply mcpp_0, NJ).
  assert (HD' : jump_dict p z [] nums tups).
  { destruct HD as (h1 & h2 & h3 & h4 & h5). repeat (split; [assumption|]). split; [|exact h5]. apply Forall_app in h4. rewrite app_nil_r. apply h4. }
  destruct (C59_svvj_end l p z nums tups Om E IE I Is HD' HE (or_introl HW)) as [a1 a2].
  destruct (C59_svij_end l p z lam mus sgs nums tups Om E IE I Is (fun _ => 0) HD HE (or_introl HW)) as [b1 b2].
  { split; [now apply (cpp_0 E HE)|now apply (indep_0 E HE)]. }
  split; intro h.
  - rewrite (a1 h), (b1 h). f_equal. apply (E_ext E HE). intro w. now rewrite Rplus_0_r.
  - rewrite (a2 h), (b2 h). f_equal. apply (E_ext E HE). intro w. f_equal.
    assert (lam * svh p * mus = 0) as -> by (destruct H0 as [->|[-> _]]; ring). ring.
Qed.
Lemma nmom_0 i : (0 <= i)%Z -> nmom 0 0 i = 0 ^ Z.to_nat i.
Proof.
  intro Hi. unfold nmom. rewrite (Derive_n_ext _ (fun _ => 1)).
  - destruct (Z.to_nat i); [reflexivity|]. rewrite Derive_n_const. simpl. ring.
  - intro t. unfold mgf_normal. replace (0 * t + 0 ^ 2 / 2 * t ^ 2) with 0 by (simpl; field). apply exp_0.
Qed.
Lemma jprod_0 (Om : Type) (w : Om) z : forall al, length al = length z -> Forall (fun a => 0 <= a)%Z al ->
  powprod (map (fun X => X w) (repeat (fun _ => 0) (length z))) al = jprod 0 0 0 z al.
Proof.
  induction z as [|sj z IH]; intros [|a al] Hl Ha; try discriminate; [reflexivity|]. inversion Ha; subst. cbn [length repeat map powprod jprod].
  rewrite IH by (try assumption; now injection Hl). unfold jmean. rewrite Rmult_0_l, Rplus_0_r, nmom_0 by assumption. reflexivity.
Qed.
(** mdl_svcj without jumps, or with jumps in the variance only, is mdl_svvj *)
Theorem C60_svcj : forall (l : Z) (p : svpar) (z : path) mus rhoJ sgs nums tups, (1 <= l)%Z ->
  jump_dict p z [("mu_s", mus); ("rho_J", rhoJ); ("sigma_s", sgs)]%string nums tups -> z = [] \/ (mus = 0 /\ rhoJ = 0 /\ sgs = 0) ->
  m_svcj l (mkJpar nums tups) = m_svvj l (mkJpar nums tups) /\ cm_svcj l (mkJpar nums tups) = cm_svvj l (mkJpar nums tups).
Proof.
  intros l p z mus rhoJ sgs nums tups Hl HD H0.
  destruct (C34_hypotheses_hold p z l 0 0 0 ltac:(lia)) as (Om & E & IE & I & Is & J & HE & HW & _).
  assert (HD' : jump_dict p z [] nums tups).
  { destruct HD as (h1 & h2 & h3 & h4 & h5). repeat (split; [assumption|]). split; [|exact h5]. apply Forall_app in h4. rewrite app_nil_r. apply h4. }
  destruct (C59_svvj_end l p z nums tups Om E IE I Is HD' HE (or_introl HW)) as [a1 a2].
  destruct (C59_svcj_end l p z mus rhoJ sgs nums tups Om E IE I Is (repeat (fun _ => 0) (length z)) Hl HD HE (or_introl HW)) as [b1 b2].
  { split; [apply repeat_length|]. intros i al Hi Hal Ha Hs.
    rewrite (E_ext E HE _ (fun w => jprod mus rhoJ sgs z al * sv_ret p z (IE w) (I w) (Is w) ^ Z.to_nat i)); [rewrite (E_scal E HE); ring|].
    intro w. rewrite Rmult_comm. f_equal. destruct H0 as [->|(-> & -> & ->)]; [destruct al; [reflexivity|discriminate]|now apply jprod_0]. }
  rewrite (a1 ltac:(lia)), (a2 ltac:(lia)), b1, b2.
  assert (S0 : forall (w : Om) (n : nat), sumR (fun X => X w) (repeat (fun _ : Om => 0) n) = 0).
  { intros w n. induction n as [|n IH]; cbn [repeat sumR]; [reflexivity|]. rewrite IH. ring. }
  split; f_equal; apply (E_ext E HE); intro w; rewrite S0; f_equal; [ring|].
  assert (jumps_mean mus rhoJ z = 0) as ->; [|ring].
  unfold jumps_mean, jmean. destruct H0 as [->|(-> & -> & _)]; [reflexivity|]. apply sumR_0. intros. ring.
Qed.

(** the hypotheses can be met: no jumps in the price, two jumps in the variance *)
Example C60_example_factor : let par s := (if String.eqb s "k" then 2 else if String.eqb s "lambda" then 0 else if String.eqb s "h" then 1 else 1/4)%string in
  par "k"%string <> 0 /\ 0 <= par "h"%string /\ jumps_off par /\ m_1fsvj 4 par = m_1fsv 4 par /\ cov_2fsvj 2 2 par = cov_2fsv 2 2 par.
Proof.
  set (par := fun s => _). cbv zeta. assert (h1 : par "k"%string <> 0) by (cbn; lra). assert (h2 : 0 <= par "h"%string) by (cbn; lra).
  assert (h3 : jumps_off par) by (left; reflexivity). do 3 (split; [assumption|]). split.
  - exact (proj1 (proj1 (C60_1fsvj par h1 h2 h3) 4%Z ltac:(lia))).
  - exact (proj2 (C60_2fsvj par h3) 2%Z 2%Z ltac:(lia) ltac:(lia)).
Qed.
Example C60_example_jumps : let z := [(1, 2); (3, 1)]%R in let p := mkSv (mkZpar 1 1 2 1) (1 / 8) 0 3 in
  exists nums tups, jump_dict p z [("mu_s", 0); ("rho_J", 0); ("sigma_s", 0)]%string nums tups /\ cm_svcj 4 (mkJpar nums tups) = cm_svvj 4 (mkJpar nums tups).
Proof.
  set (nums := (fun s => if String.eqb s "v0" then Some 1 else if String.eqb s "k" then Some 1 else if String.eqb s "theta" then Some 2 else if String.eqb s "sigma" then Some 1
    else if String.eqb s "rho" then Some 0 else if String.eqb s "mu" then Some (1/8) else if String.eqb s "h" then Some 3 else Some 0)%string).
  exists nums, (td [1; 3] [2; 1]). assert (H : jump_dict (mkSv (mkZpar 1 1 2 1) (1 / 8) 0 3) [(1, 2); (3, 1)] [("mu_s", 0); ("rho_J", 0); ("sigma_s", 0)]%string nums (td [1; 3] [2; 1])).
  { repeat split; cbn; try lra; [rewrite Rabs_R0; lra| |repeat constructor]. intros sj [<-|[<-|[]]]; cbn; lra. }
  split; [exact H|]. exact (proj2 (C60_svcj 4 _ _ 0 0 0 nums _ ltac:(lia) H (or_intror (conj eq_refl (conj eq_refl eq_refl))))).
Qed.
