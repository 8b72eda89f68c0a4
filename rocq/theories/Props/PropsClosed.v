(** Property C64: mean, variance and autocovariance of the returns in closed form; the variance is positive. *)
From Coq Require Import Reals Lra.
From Coquelicot Require Import Coquelicot.
From Verif.Model Require Import Scalar.
From Verif.Proof Require Import ItoProofs Fsv1Proofs ConvProofs Fsv2Proofs Fsv2jProofs DpolyProofs Dpoly2Proofs ScalarProofs.
Import Verif.Model.Fsv1 Verif.Model.Fsv1j Verif.Model.Scalar.
Local Open Scope R_scope.

(** beta(k, h) = int_0^h e^{-ks} ds *)
Definition bt (k h : R) : R := (1 - exp (- (k * h))) / k.

Lemma sqrt_sq rho : -1 <= rho <= 1 -> sqrt (1 - rho ^ 2) * (sqrt (1 - rho ^ 2) * 1) = 1 - rho ^ 2.
Proof. intro H. rewrite Rmult_1_r. apply sqrt_sqrt. nra. Qed.
Lemma pz_neg x n : powerRZ x (Z.neg n) = / x ^ Pos.to_nat n. Proof. reflexivity. Qed.
Lemma pz_pos x n : powerRZ x (Z.pos n) = x ^ Pos.to_nat n. Proof. reflexivity. Qed.
Lemma pz_0 x : powerRZ x 0 = 1. Proof. reflexivity. Qed.

Lemma expz n k h : exp (- IZR n * k * h) = powerRZ (exp (- (k * h))) n.
Proof.
  assert (P : forall m, exp (- INR m * k * h) = exp (- (k * h)) ^ m).
  { induction m as [|m IH]; [cbn; rewrite <- exp_0; f_equal; ring|]. rewrite S_INR. cbn [pow]. rewrite <- IH, <- exp_plus. f_equal. ring. }
  destruct n as [|n|n].
  - rewrite pz_0, <- exp_0. f_equal. ring.
  - rewrite pz_pos, <- P, INR_IPR. reflexivity.
  - rewrite pz_neg, <- P, <- exp_Ropp, INR_IPR. change (IZR (Z.neg n)) with (- IPR n). f_equal. ring.
Qed.
Ltac evaluate q := let p := fresh in set (p := q); vm_compute in p; subst p; cbn [bind]; f_equal.
Ltac numbers := rewrite ?expz; cbn [Z.opp]; rewrite ?pz_neg, ?pz_pos, ?pz_0; unfold Q2R; cbn [Qnum Qden];
  repeat match goal with |- context [Pos.to_nat ?p] => let n := eval compute in (Pos.to_nat p) in change (Pos.to_nat p) with n end; cbn [pow].
Ltac open_keys := cbn [fold_left items fst snd]; unfold pint, nthZ; cbn [nth].

(** ** One factor *)
Definition mean1 (mu th h : R) : R := (mu - th / 2) * h.
Definition var1 (k th sg rho h : R) : R := th * (h + (h - bt k h) * (sg ^ 2 / (4 * k ^ 2) - rho * sg / k)).
Definition acov1 (k th sg rho h : R) : R := th * bt k h ^ 2 * (sg ^ 2 / (8 * k) - rho * sg / 2).

Theorem C64_1fsv : forall par : string -> R, let k := par "k"%string in let h := par "h"%string in let mu := par "mu"%string in
  let th := par "theta"%string in let sg := par "sigma_v"%string in let rho := par "rho"%string in
  k <> 0 -> -1 <= rho <= 1 ->
  m_1fsv 1 par = Ok (mean1 mu th h) /\ cm_1fsv 2 par = Ok (var1 k th sg rho h) /\ cov_1fsv 1 1 par = Ok (acov1 k th sg rho h).
Proof.
  intros par k h mu th sg rho Hk Hr. pose proof (sqrt_sq rho Hr) as Hs. set (s := sqrt (1 - rho ^ 2)) in *. unfold m_1fsv, cm_1fsv, cov_1fsv, scalar. split; [|split].
  - evaluate (moment_y 1). unfold poly2num_m1. open_keys. fold k h mu th sg rho s. numbers. unfold mean1. field.
  - evaluate (cmoment_y 2). unfold poly2num_cm1. open_keys. fold k h th sg rho s. numbers. rewrite ?Hs. unfold var1, bt. field. exact Hk.
  - evaluate (cov_yy 1 1). unfold poly2num_m1. open_keys. fold k h mu th sg rho s. numbers. rewrite ?Hs. unfold acov1, bt. field. exact Hk.
Qed.

(** compound Poisson jumps add their mean and variance; jumps of different periods are independent *)
Theorem C64_1fsvj : forall par : string -> R, let k := par "k"%string in let h := par "h"%string in let mu := par "mu"%string in
  let th := par "theta"%string in let sg := par "sigma_v"%string in let rho := par "rho"%string in
  let lam := par "lambda"%string in let mj := par "mu_j"%string in let sj := par "sigma_j"%string in
  k <> 0 -> -1 <= rho <= 1 ->
  m_1fsvj 1 par = Ok (mean1 mu th h + lam * h * mj) /\ cm_1fsvj 2 par = Ok (var1 k th sg rho h + lam * h * (mj ^ 2 + sj ^ 2)) /\
  cov_1fsvj 1 1 par = Ok (acov1 k th sg rho h).
Proof.
  intros par k h mu th sg rho lam mj sj Hk Hr. pose proof (sqrt_sq rho Hr) as Hs. set (s := sqrt (1 - rho ^ 2)) in *. unfold m_1fsvj, cm_1fsvj, cov_1fsvj, scalar. split; [|split].
  - evaluate (jmoment_y 1). unfold poly2num_mj. open_keys. fold k h mu th sg rho lam mj sj s. numbers. unfold mean1. field.
  - evaluate (jcmoment_y 2). unfold poly2num_cmj. open_keys. fold k h th sg rho lam mj sj s. numbers. rewrite ?Hs. unfold var1, bt. field. exact Hk.
  - evaluate (jcov_yy 1 1). unfold poly2num_mj. open_keys. fold k h mu th sg rho lam mj sj s. numbers. rewrite ?Hs. unfold acov1, bt. field. exact Hk.
Qed.

(** ** Two independent factors without leverage: the sums over the factors *)
Ltac open_keys2 := cbn [fold_left items fst snd]; unfold kint, p2n_head, nthZ; cbn [nth fst snd fold_left].
Lemma expz2 n1 n2 k1 k2 h : exp (- (IZR n1 * k1 + IZR n2 * k2) * h) = powerRZ (exp (- (k1 * h))) n1 * powerRZ (exp (- (k2 * h))) n2.
Proof. rewrite <- !expz, <- exp_plus. f_equal. ring. Qed.
Ltac numbers2 := rewrite ?expz2; numbers.
Theorem C64_2fsv : forall par : string -> R, let h := par "h"%string in let mu := par "mu"%string in
  let k1 := par "k1"%string in let t1 := par "theta1"%string in let s1 := par "sigma_v1"%string in
  let k2 := par "k2"%string in let t2 := par "theta2"%string in let s2 := par "sigma_v2"%string in
  k1 <> 0 -> k2 <> 0 ->
  m_2fsv 1 par = Ok (mean1 mu (t1 + t2) h) /\ cm_2fsv 2 par = Ok (var1 k1 t1 s1 0 h + var1 k2 t2 s2 0 h) /\
  cov_2fsv 1 1 par = Ok (acov1 k1 t1 s1 0 h + acov1 k2 t2 s2 0 h).
Proof.
  intros par h mu k1 t1 s1 k2 t2 s2 H1 H2. unfold m_2fsv, cm_2fsv, cov_2fsv, scalar. split; [|split].
  - evaluate (moment_y2 1). unfold poly2num2_m. open_keys2. fold h mu k1 t1 s1 k2 t2 s2. numbers2. unfold mean1. field.
  - evaluate (cmoment_y2 2). unfold poly2num2_cm. open_keys2. fold h k1 t1 s1 k2 t2 s2. numbers2. unfold var1, bt. field. repeat split; lra.
  - evaluate (cov_yy2 1 1). unfold poly2num2_m. open_keys2. fold h mu k1 t1 s1 k2 t2 s2. numbers2. unfold acov1, bt. field. repeat split; lra.
Qed.
Theorem C64_2fsvj : forall par : string -> R, let h := par "h"%string in let mu := par "mu"%string in
  let k1 := par "k1"%string in let t1 := par "theta1"%string in let s1 := par "sigma_v1"%string in
  let k2 := par "k2"%string in let t2 := par "theta2"%string in let s2 := par "sigma_v2"%string in
  let lam := par "lambda"%string in let mj := par "mu_j"%string in let sj := par "sigma_j"%string in
  k1 <> 0 -> k2 <> 0 ->
  m_2fsvj 1 par = Ok (mean1 mu (t1 + t2) h + lam * h * mj) /\
  cm_2fsvj 2 par = Ok (var1 k1 t1 s1 0 h + var1 k2 t2 s2 0 h + lam * h * (mj ^ 2 + sj ^ 2)) /\
  cov_2fsvj 1 1 par = Ok (acov1 k1 t1 s1 0 h + acov1 k2 t2 s2 0 h).
Proof.
  intros par h mu k1 t1 s1 k2 t2 s2 lam mj sj H1 H2. unfold m_2fsvj, cm_2fsvj, cov_2fsvj, scalar. split; [|split].
  - evaluate (jmoment_y2 1). unfold poly2num2_mj. open_keys2. fold h mu k1 t1 s1 k2 t2 s2 lam mj sj. numbers2. unfold mean1. field.
  - evaluate (jcmoment_y2 2). unfold poly2num2_cmj. open_keys2. fold h k1 t1 s1 k2 t2 s2 lam mj sj. numbers2. unfold var1, bt. field. repeat split; lra.
  - evaluate (jcov_yy2 1 1). unfold poly2num2_mj. open_keys2. fold h mu k1 t1 s1 k2 t2 s2 lam mj sj. numbers2. unfold acov1, bt. field. repeat split; lra.
Qed.

(** ** The variance is positive, also in the models with jumps of the price *)
Lemma bt_pos k h : 0 < k -> 0 < h -> 0 < bt k h < h.
Proof.
  intros Hk Hh. unfold bt. pose proof (exp_ineq1 (- (k * h)) ltac:(nra)) as A. assert (B : exp (- (k * h)) < 1) by (rewrite <- exp_0; apply exp_increasing; nra).
  split; [apply Rdiv_lt_0_compat; lra|]. apply (Rmult_lt_reg_r k); [assumption|]. unfold Rdiv. rewrite Rmult_assoc, Rinv_l by lra. nra.
Qed.
Lemma var1_squares k th sg rho h : k <> 0 -> var1 k th sg rho h = th * (bt k h + (h - bt k h) * ((sg / (2 * k) - rho) ^ 2 + (1 - rho ^ 2))).
Proof. intro Hk. unfold var1. field. exact Hk. Qed.
Lemma var1_pos k th sg rho h : 0 < k -> 0 < th -> 0 < h -> -1 <= rho <= 1 -> th * bt k h <= var1 k th sg rho h /\ 0 < th * bt k h.
Proof.
  intros Hk Ht Hh Hr. rewrite var1_squares by lra. destruct (bt_pos k h Hk Hh) as [A B]. pose proof (pow2_ge_0 (sg / (2 * k) - rho)) as C.
  set (x := (sg / (2 * k) - rho) ^ 2) in *. assert (0 <= (h - bt k h) * (x + (1 - rho ^ 2))) by (apply Rmult_le_pos; nra).
  split; [apply Rmult_le_compat_l; lra|nra].
Qed.
Theorem C64_positive_1f : forall par, 0 < par "k"%string -> 0 < par "theta"%string -> 0 < par "h"%string -> -1 <= par "rho"%string <= 1 ->
  (exists v, cm_1fsv 2 par = Ok v /\ 0 < v) /\ (0 <= par "lambda"%string -> exists v, cm_1fsvj 2 par = Ok v /\ 0 < v).
Proof.
  intros par Hk Ht Hh Hr. destruct (var1_pos (par "k"%string) (par "theta"%string) (par "sigma_v"%string) (par "rho"%string) (par "h"%string) Hk Ht Hh Hr) as [A B].
  split; [|intro Hl]; eexists; (split; [|]).
  - exact (proj1 (proj2 (C64_1fsv par (Rgt_not_eq _ _ Hk) Hr))).
  - lra.
  - exact (proj1 (proj2 (C64_1fsvj par (Rgt_not_eq _ _ Hk) Hr))).
  - cbv beta. assert (0 <= par "lambda"%string * par "h"%string * (par "mu_j"%string ^ 2 + par "sigma_j"%string ^ 2)); [|lra].
    apply Rmult_le_pos; [nra|]. pose proof (pow2_ge_0 (par "mu_j"%string)). pose proof (pow2_ge_0 (par "sigma_j"%string)). lra.
Qed.
Theorem C64_positive_2f : forall par, 0 < par "k1"%string -> 0 < par "k2"%string -> 0 < par "theta1"%string -> 0 < par "theta2"%string -> 0 < par "h"%string ->
  (exists v, cm_2fsv 2 par = Ok v /\ 0 < v) /\ (0 <= par "lambda"%string -> exists v, cm_2fsvj 2 par = Ok v /\ 0 < v).
Proof.
  intros par Hk1 Hk2 Ht1 Ht2 Hh.
  destruct (var1_pos (par "k1"%string) (par "theta1"%string) (par "sigma_v1"%string) 0 (par "h"%string) Hk1 Ht1 Hh ltac:(lra)) as [A B].
  destruct (var1_pos (par "k2"%string) (par "theta2"%string) (par "sigma_v2"%string) 0 (par "h"%string) Hk2 Ht2 Hh ltac:(lra)) as [C D].
  split; [|intro Hl]; eexists; (split; [|]).
  - exact (proj1 (proj2 (C64_2fsv par (Rgt_not_eq _ _ Hk1) (Rgt_not_eq _ _ Hk2)))).
  - lra.
  - exact (proj1 (proj2 (C64_2fsvj par (Rgt_not_eq _ _ Hk1) (Rgt_not_eq _ _ Hk2)))).
  - cbv beta. assert (0 <= par "lambda"%string * par "h"%string * (par "mu_j"%string ^ 2 + par "sigma_j"%string ^ 2)); [|lra].
    apply Rmult_le_pos; [nra|]. pose proof (pow2_ge_0 (par "mu_j"%string)). pose proof (pow2_ge_0 (par "sigma_j"%string)). lra.
Qed.
(** k = 2, h = 1, all other parameters 1/4 *)
Example C64_example : let par s := (if String.eqb s "k" then 2 else if String.eqb s "k1" then 2 else if String.eqb s "k2" then 3 else if String.eqb s "h" then 1 else 1/4)%string in
  m_1fsv 1 par = Ok (1/8) /\ m_1fsvj 1 par = Ok (3/16) /\ m_2fsv 1 par = Ok 0 /\ exists v, cm_1fsvj 2 par = Ok v /\ 0 < v.
Proof.
  set (par := fun s => _). cbv zeta. split; [|split; [|split]].
  - rewrite (proj1 (C64_1fsv par ltac:(cbn; lra) ltac:(cbn; lra))). f_equal. unfold mean1. cbn. lra.
  - rewrite (proj1 (C64_1fsvj par ltac:(cbn; lra) ltac:(cbn; lra))). f_equal. unfold mean1. cbn. lra.
  - rewrite (proj1 (C64_2fsv par ltac:(cbn; lra) ltac:(cbn; lra))). f_equal. unfold mean1. cbn. lra.
  - destruct (C64_positive_1f par) as [_ H]; [cbn; lra..|]. apply H. cbn. lra.
Qed.
