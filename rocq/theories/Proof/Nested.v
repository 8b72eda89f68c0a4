(** No jumps: a compound Poisson sum with rate 0, or with all jump sizes 0, is 0. *)
From Coq Require Import Reals Lra.
From Coquelicot Require Import Coquelicot.
From Verif.Spec Require Import Params Returns1 Fsv2.
From Verif.Model Require Import Scalar.
From Verif.Proof Require Import ItoProofs Fsv1Proofs ConvProofs Fsv2Proofs Fsv2jProofs DpolyProofs Dpoly2Proofs ScalarProofs ScalarDProofs.
From Verif.Proof Require SvvjProofs.
Import Verif.Model.Fsv1 Verif.Model.Fsv1j Verif.Model.Scalar.
Local Open Scope R_scope.

Definition no_jump (L mu s : R) : Prop := L = 0 \/ (mu = 0 /\ s = 0).

Lemma mgf_cpp_0 L mu s x : no_jump L mu s -> mgf_cpp L mu (s ^ 2) x = 1.
Proof.
  unfold mgf_cpp, mgf_normal. intros [->|[-> ->]].
  - rewrite Rmult_0_l. apply exp_0.
  - replace (0 * x + 0 ^ 2 / 2 * x ^ 2) with 0 by (simpl; field). rewrite exp_0, Rminus_diag_eq by reflexivity. rewrite Rmult_0_r. apply exp_0.
Qed.
Lemma mcpp_0 L mu s n : no_jump L mu s -> Derive_n (mgf_cpp L mu (s ^ 2)) n 0 = match n with O => 1 | S _ => 0 end.
Proof.
  intro H. rewrite (Derive_n_ext _ (fun _ => 1)) by (intro t; now apply mgf_cpp_0). destruct n; [reflexivity|]. apply Derive_n_const.
Qed.
Lemma E_pow0 {Om} (E : (Om -> R) -> R) (HE : expectation E) n : E (fun _ => 1) = 1 ->
  E (fun _ => 0 ^ n) = match n with O => 1 | S _ => 0 end.
Proof.
  intro E1. destruct n; [exact E1|]. rewrite (E_ext E HE _ (fun _ => 0 * 1)) by (intro; cbn [pow]; ring).
  rewrite (E_scal E HE). ring.
Qed.
Lemma cpp_0 {Om} (E : (Om -> R) -> R) (HE : expectation E) N L mu s : E (fun _ => 1) = 1 -> no_jump L mu s ->
  cpp_moments E N L mu s (fun _ => 0).
Proof. intros E1 H i _. rewrite mcpp_0 by exact H. now apply E_pow0. Qed.
Lemma indep_0 {Om} (E : (Om -> R) -> R) (HE : expectation E) N Y : E (fun _ => 1) = 1 -> indep E N Y (fun _ => 0).
Proof.
  intros E1 i j _. rewrite (E_pow0 E HE j E1). destruct j.
  - rewrite Rmult_1_r. apply (E_ext E HE). intro w. simpl. ring.
  - rewrite (E_ext E HE _ (fun w => 0 * Y w ^ i)) by (intro; simpl; ring). rewrite (E_scal E HE). ring.
Qed.
Lemma indep3_0 {Om} (E : (Om -> R) -> R) (HE : expectation E) N Y0 Y1 : E (fun _ => 1) = 1 -> indep3 E N Y0 Y1 (fun _ => 0) (fun _ => 0).
Proof.
  intros E1 i0 i1 j0 j1 _. rewrite (E_pow0 E HE j0 E1), (E_pow0 E HE j1 E1). destruct j0; destruct j1.
  - rewrite !Rmult_1_r. apply (E_ext E HE). intro w. simpl. ring.
  - rewrite (E_ext E HE _ (fun w => 0 * (Y0 w ^ i0 * Y1 w ^ i1))) by (intro; simpl; ring). rewrite (E_scal E HE). ring.
  - rewrite (E_ext E HE _ (fun w => 0 * (Y0 w ^ i0 * Y1 w ^ i1))) by (intro; simpl; ring). rewrite (E_scal E HE). ring.
  - rewrite (E_ext E HE _ (fun w => 0 * (Y0 w ^ i0 * Y1 w ^ i1))) by (intro; simpl; ring). rewrite (E_scal E HE). ring.
Qed.

(** ** sums in which only the jump-free term is left *)
Lemma sum_last (l : Z) (c : Z -> Z) (f g : Z -> R) : (0 <= l)%Z -> c l = 1%Z -> g 0%Z = 1 -> (forall n, (0 < n)%Z -> g n = 0) ->
  sumR (fun i => IZR (c i) * (f i * g (l - i)%Z)) (range_down l) = f l.
Proof.
  intros Hl c1 g0 gn. unfold range_down. rewrite SvvjProofs.range_snoc, rev_app_distr by lia. cbn [rev app sumR].
  rewrite c1, Z.sub_diag, g0, sumR_0; [ring|]. intros i Hi. apply in_rev in Hi. apply in_range in Hi.
  rewrite gn by lia. ring.
Qed.

Lemma Edirac : expectation (fun f : unit -> R => f tt).
Proof. split; try reflexivity. intros X Y h. apply h. Qed.
Section Zero.
Variables (L mu s : R).
Hypothesis H : no_jump L mu s.
Lemma vof_mcpp_0 n : (0 <= n)%Z -> vof (mon_j L mu s) (mcpp n) = if (n =? 0)%Z then 1 else 0.
Proof.
  intro Hn. pose proof (mcpp_sp L mu s n Hn) as S. destruct (mcpp n); [|destruct S]. cbn [vof]. destruct S as [_ ->].
  rewrite mcpp_0 by exact H. destruct (Z.eqb_spec n 0) as [->|]; [reflexivity|]. destruct (Z.to_nat n) eqn:E; [lia|reflexivity].
Qed.
Lemma vof_cmcpp_0 n : (0 <= n)%Z -> vof (mon_j L mu s) (cmcpp n) = if (n =? 0)%Z then 1 else 0.
Proof.
  intro Hn. pose proof (cmcpp_sp _ Edirac L mu s (fun _ => 0) n Hn (cpp_0 _ Edirac _ L mu s eq_refl H)) as S.
  destruct (cmcpp n); [|destruct S]. cbn [vof]. destruct S as [_ ->].
  replace (0 - L * mu) with 0 by (destruct H as [->|[-> _]]; ring).
  destruct (Z.eqb_spec n 0) as [->|]; [reflexivity|]. apply pow_i. lia.
Qed.
End Zero.

(** ** the two-factor functions *)
Lemma fwf_len s B l : allk (fwf s B) l -> allk (len2 (length s)) l.
Proof. intro A. apply (allk_weaken _ _ _ A). intros [t0 [t1 x]] (_ & W & _). exact (wfs_length _ _ W). Qed.

Lemma pw_neg_inv x e : pw x (- e) = powerRZ (/ x) e.
Proof.
  change (powerRZ x (- e) = powerRZ (/ x) e). destruct e; cbn [powerRZ Z.opp]; [reflexivity| |].
  - symmetry. apply pow_inv.
  - rewrite pow_inv, Rinv_inv. reflexivity.
Qed.
Lemma den2_denv k1 k2 d : den2 k1 k2 d = denv k1 k2 d.
Proof. induction d as [|[[a b] e] r IH]; cbn [den2 denv]; [reflexivity|]. now rewrite IH, pw_neg_inv. Qed.
Lemma mon2_fmon k1 k2 vals K : mon2 k1 k2 vals K = fmon k1 k2 (nth 0 vals 0) vals K.
Proof. destruct K as [d [[a b] x]]. unfold mon2, fmon. rewrite den2_denv. do 2 f_equal. f_equal. ring. Qed.

Section Two.
Variable par : string -> R.
Notation "# x" := (par x%string) (at level 1, format "# x").
Local Notation f6 := (F6 #"k1" #"k2" #"h" #"mu" #"theta1" #"sigma_v1" #"theta2" #"sigma_v2").
Local Notation f5 := (F5 #"k1" #"k2" #"h" #"theta1" #"sigma_v1" #"theta2" #"sigma_v2").
Local Notation f9 := (F9 #"k1" #"k2" #"h" #"mu" #"theta1" #"sigma_v1" #"theta2" #"sigma_v2" #"lambda" #"mu_j" #"sigma_j").
Local Notation f8 := (F8 #"k1" #"k2" #"h" #"theta1" #"sigma_v1" #"theta2" #"sigma_v2" #"lambda" #"mu_j" #"sigma_j").

Lemma num_6 q : allk P_f6 (items q) -> poly2num2_m q par = evp f6 tt q.
Proof. intro A. rewrite (poly2num2_m_eval _ _ (fwf_len _ _ _ A)). apply eval_ext_in. intros K c _. apply mon2_fmon. Qed.
Lemma num_5 q : allk P_f5 (items q) -> poly2num2_cm q par = evp f5 tt q.
Proof. intro A. rewrite (poly2num2_cm_eval _ _ (fwf_len _ _ _ A)). apply eval_ext_in. intros K c _. apply mon2_fmon. Qed.
Lemma num_9 q : allk P_f9 (items q) -> poly2num2_mj q par = evp f9 tt q.
Proof. intro A. rewrite (poly2num2_mj_eval _ _ (fwf_len _ _ _ A)). apply eval_ext_in. intros K c _. apply mon2_fmon. Qed.
Lemma num_8 q : allk P_f8 (items q) -> poly2num2_cmj q par = evp f8 tt q.
Proof. intro A. rewrite (poly2num2_cmj_eval _ _ (fwf_len _ _ _ A)). apply eval_ext_in. intros K c _. apply mon2_fmon. Qed.

Lemma m_2fsv_vof l : (0 <= l)%Z -> m_2fsv l par = Ok (vof f6 (moment_y2 l)).
Proof. intro Hl. pose proof (moment_y2_shape l Hl) as W. unfold m_2fsv, scalar. destruct (moment_y2 l); [|destruct W]. cbn [bind vof]. f_equal. apply num_6, W. Qed.
Lemma cm_2fsv_vof l : (0 <= l)%Z -> cm_2fsv l par = Ok (vof f5 (cmoment_y2 l)).
Proof. intro Hl. pose proof (cmoment_y2_shape l Hl) as W. unfold cm_2fsv, scalar. destruct (cmoment_y2 l); [|destruct W]. cbn [bind vof]. f_equal. apply num_5, W. Qed.
Lemma cov_2fsv_vof l1 l2 : (0 <= l1)%Z -> (0 <= l2)%Z ->
  cov_2fsv l1 l2 par = Ok (vof f6 (moment_yy2 l1 l2) - vof f6 (moment_y2 l1) * vof f6 (moment_y2 l2)).
Proof.
  intros H1 H2. pose proof (moment_yy2_shape l1 l2 H1 H2) as Wm. pose proof (moment_y2_shape l1 H1) as Wa. pose proof (moment_y2_shape l2 H2) as Wb.
  destruct (moment_yy2 l1 l2) as [m|] eqn:Em; [|destruct Wm]. destruct (moment_y2 l1) as [a|] eqn:Ea; [|destruct Wa]. destruct (moment_y2 l2) as [b|] eqn:Eb; [|destruct Wb].
  pose proof (cov_yy2_sp #"k1" #"k2" #"h" #"mu" #"theta1" #"sigma_v1" #"theta2" #"sigma_v2" l1 l2 m a b H1 H2 Em Ea Eb) as S.
  unfold cov_2fsv, scalar. destruct (cov_yy2 l1 l2); [|destruct S]. cbn [bind vof returns] in *. f_equal. destruct S as (W & _ & <-). apply num_6, W.
Qed.

Hypothesis H : no_jump (#"lambda" * #"h") #"mu_j" #"sigma_j".
Lemma sum_mcpp_0 l (f : Z -> R) : (0 <= l)%Z ->
  sumR (fun i => IZR (mcomb l i) * (f i * vof (mon_j (#"lambda" * #"h") #"mu_j" #"sigma_j") (mcpp (l - i)))) (range_down l) = f l.
Proof.
  intro Hl. apply (sum_last l (mcomb l) f (fun n => vof (mon_j (#"lambda" * #"h") #"mu_j" #"sigma_j") (mcpp n)) Hl (mcomb_diag l)).
  - rewrite vof_mcpp_0 by (lia || exact H). reflexivity.
  - intros n Hn. rewrite vof_mcpp_0 by (lia || exact H). destruct (Z.eqb_spec n 0); [lia|reflexivity].
Qed.
Lemma jm_0 l : (0 <= l)%Z -> vof f9 (jmoment_y2 l) = vof f6 (moment_y2 l).
Proof.
  intro Hl. pose proof (jmoment_y2_sp #"k1" #"k2" #"h" #"mu" #"theta1" #"sigma_v1" #"theta2" #"sigma_v2" #"lambda" #"mu_j" #"sigma_j" l Hl) as S.
  destruct (jmoment_y2 l); [|destruct S]. cbn [vof]. destruct S as (_ & _ & ->).
  apply (sum_mcpp_0 l (fun i => vof f6 (moment_y2 i)) Hl).
Qed.
Lemma m_2fsvj_0 l : (0 <= l)%Z -> m_2fsvj l par = m_2fsv l par.
Proof.
  intro Hl. rewrite (m_2fsv_vof l Hl), <- (jm_0 l Hl).
  pose proof (jmoment_y2_sp #"k1" #"k2" #"h" #"mu" #"theta1" #"sigma_v1" #"theta2" #"sigma_v2" #"lambda" #"mu_j" #"sigma_j" l Hl) as S.
  unfold m_2fsvj, scalar. destruct (jmoment_y2 l); [|destruct S]. cbn [bind vof]. f_equal. apply num_9, S.
Qed.
Lemma cm_2fsvj_0 l : (0 <= l)%Z -> cm_2fsvj l par = cm_2fsv l par.
Proof.
  intro Hl. rewrite (cm_2fsv_vof l Hl).
  pose proof (jcmoment_y2_sp #"k1" #"k2" #"h" #"theta1" #"sigma_v1" #"theta2" #"sigma_v2" #"lambda" #"mu_j" #"sigma_j" l Hl) as S.
  unfold cm_2fsvj, scalar. destruct (jcmoment_y2 l); [|destruct S]. cbn [bind]. f_equal. etransitivity; [apply num_8, S|].
  destruct S as (_ & _ & ->).
  apply (sum_last l (mcomb l) (fun i => vof f5 (cmoment_y2 i)) (fun n => vof (mon_j (#"lambda" * #"h") #"mu_j" #"sigma_j") (cmcpp n)) Hl (mcomb_diag l)).
  - rewrite vof_cmcpp_0 by (lia || exact H). reflexivity.
  - intros n Hn. rewrite vof_cmcpp_0 by (lia || exact H). destruct (Z.eqb_spec n 0); [lia|reflexivity].
Qed.
Lemma cov_2fsvj_0 l1 l2 : (0 <= l1)%Z -> (0 <= l2)%Z -> cov_2fsvj l1 l2 par = cov_2fsv l1 l2 par.
Proof.
  intros H1 H2. rewrite (cov_2fsv_vof l1 l2 H1 H2).
  pose proof (jcov_yy2_sp #"k1" #"k2" #"h" #"mu" #"theta1" #"sigma_v1" #"theta2" #"sigma_v2" #"lambda" #"mu_j" #"sigma_j" l1 l2 H1 H2) as S.
  unfold cov_2fsvj, scalar. destruct (jcov_yy2 l1 l2); [|destruct S]. cbn [bind]. f_equal. etransitivity; [apply num_9, S|].
  destruct S as (_ & _ & ->). rewrite (jm_0 l1 H1), (jm_0 l2 H2). f_equal.
  pose proof (jmoment_yy2_sp #"k1" #"k2" #"h" #"mu" #"theta1" #"sigma_v1" #"theta2" #"sigma_v2" #"lambda" #"mu_j" #"sigma_j" l1 l2 H1 H2) as S.
  destruct (jmoment_yy2 l1 l2); [|destruct S]. cbn [vof]. destruct S as (_ & _ & ->).
  set (c n := vof (mon_j (#"lambda" * #"h") #"mu_j" #"sigma_j") (mcpp n)).
  transitivity (sumR (fun i => IZR (mcomb l1 i) * (vof f6 (moment_yy2 i l2) * c (l1 - i)%Z)) (range_down l1)).
  - apply sumR_ext. intros i _. rewrite <- (sum_mcpp_0 l2 (fun j => vof f6 (moment_yy2 i j)) H2), <- sumR_scal_r, <- sumR_scal.
    apply sumR_ext. intros j _. rewrite mult_IZR. fold (c (l1 - i)%Z) (c (l2 - j)%Z). ring.
  - apply (sum_mcpp_0 l1 (fun i => vof f6 (moment_yy2 i l2)) H1).
Qed.
End Two.
