(** The sequence computed by moment_ieziziz is the sequence of derivatives of the moment
    generating function (C36), and its dependence on s and t. *)
From Coq Require Import Reals Lra Ring FunctionalExtensionality.
From Coquelicot Require Import Coquelicot.
From Verif.Spec Require Export Svcj.
From Verif.Proof Require Export SvcjIezProofs.
Import Verif.Model.SvcjIez Verif.Proof.SvcjTree Verif.Proof.Seq3.
Local Open Scope R_scope.

Definition jvals (k lam mv ms ss s t : R) : jv := mkJv (exp (k * t)) (exp (k * s)) (t - s) (/ k) lam mv ms ss.

(** ** differentiation of int c(u) / (1 - (P(u) z + Q(u)))^n du *)
Lemma cont2_of1 (f : R -> R) (x t : R) : continuous f t -> continuity_2d_pt (fun _ v : R => f v) x t.
Proof.
  intro h. apply (continuity_1d_2d_pt_comp f (fun _ v => v)); [|apply continuity_2d_pt_id2].
  now apply continuity_pt_filterlim.
Qed.
Lemma cont2_pow (f : R -> R -> R) x t n : continuity_2d_pt f x t -> continuity_2d_pt (fun u v => f u v ^ n) x t.
Proof.
  intro h. induction n as [|n IH].
  - apply (continuity_2d_pt_ext (fun _ _ => 1)); [reflexivity|]. apply continuity_2d_pt_const.
  - apply (continuity_2d_pt_ext (fun u v => f u v * f u v ^ n)); [reflexivity|]. now apply continuity_2d_pt_mult.
Qed.
Lemma cont_pow (f : R -> R) (x : R) n : continuous f x -> continuous (fun u => f u ^ n) x.
Proof.
  intro h. induction n as [|n IH]; [apply continuous_Rconst|]. exact (continuous_Rmult f (fun u => f u ^ n) x h IH).
Qed.
Lemma cont_inv (f : R -> R) (x : R) : f x <> 0 -> continuous f x -> continuous (fun u => / f u) x.
Proof.
  intros h0 h. apply (continuous_comp f Rinv); [assumption|]. apply (continuous_of_derive Rinv _ (- 1 / (f x) ^ 2)).
  auto_derive; [assumption|]. field. assumption.
Qed.

Section Param.
Context (c P Q : R -> R) (s t : R) (D : R -> Prop).
Hypothesis Cc : forall u, continuous c u.
Hypothesis CP : forall u, continuous P u.
Hypothesis CQ : forall u, continuous Q u.
Hypothesis Dopen : forall z : R, D z -> locally z D.
Hypothesis Dden : forall z u, D z -> Rmin s t <= u <= Rmax s t -> 1 - (P u * z + Q u) <> 0.

Lemma ker_derive n z u : 1 - (P u * z + Q u) <> 0 ->
  is_derive (fun z => c u * / (1 - (P u * z + Q u)) ^ n) z (INR n * P u * c u * / (1 - (P u * z + Q u)) ^ S n).
Proof.
  intro h. apply (is_derive_ext (fun z => c u * (/ (1 - (P u * z + Q u))) ^ n)); [intro y; now rewrite pow_inv|].
  eapply is_derive_val.
  - apply is_derive_Rscal. apply is_derive_Rpow. instantiate (1 := P u * / (1 - (P u * z + Q u)) ^ 2).
    auto_derive; [lra|]. field. lra.
  - rewrite <- !pow_inv. destruct n as [|n]; [simpl; ring|]. cbn [pred]. simpl pow. field. assumption.
Qed.

Lemma RInt_param_derive n (z : R) : D z ->
  is_derive (fun z => RInt (fun u => c u * / (1 - (P u * z + Q u)) ^ n) s t) z
            (INR n * RInt (fun u => P u * c u * / (1 - (P u * z + Q u)) ^ S n) s t).
Proof.
  intro Dz.
  assert (CI : forall (b : R -> R) m y, (forall u, continuous b u) -> D y ->
    forall u, Rmin s t <= u <= Rmax s t -> continuous (fun u => b u * / (1 - (P u * y + Q u)) ^ m) u).
  { intros b m y Hb Dy u Hu. apply continuous_Rmult; [apply Hb|]. apply cont_inv; [apply pow_nonzero, Dden; assumption|].
    apply cont_pow. apply continuous_Rminus; [apply continuous_Rconst|]. apply continuous_Rplus; [|apply CQ].
    apply continuous_Rmult; [apply CP|apply continuous_Rconst]. }
  eapply is_derive_val.
  - apply (is_derive_RInt_param (fun z u => c u * / (1 - (P u * z + Q u)) ^ n)).
    + apply (filter_imp D); [|now apply Dopen]. intros y Dy u Hu. eexists. apply ker_derive. now apply Dden.
    + intros u Hu.
      apply (continuity_2d_pt_ext_loc (fun z u => INR n * P u * c u * / (1 - (P u * z + Q u)) ^ S n)).
      * assert (L : locally_2d (fun z u => 1 - (P u * z + Q u) <> 0) z u).
        { apply (continuity_2d_pt_neq_0 (fun z u => 1 - (P u * z + Q u))); [|now apply Dden].
          apply continuity_2d_pt_minus; [apply continuity_2d_pt_const|]. apply continuity_2d_pt_plus; [|apply cont2_of1, CQ].
          apply continuity_2d_pt_mult; [apply cont2_of1, CP|apply continuity_2d_pt_id1]. }
        revert L. apply locally_2d_impl. apply locally_2d_forall. intros y v h. symmetry. apply is_derive_unique. now apply ker_derive.
      * apply (continuity_2d_pt_mult (fun _ u => INR n * P u * c u) (fun z u => / (1 - (P u * z + Q u)) ^ S n)).
        -- apply cont2_of1. apply continuous_Rmult; [|apply Cc]. apply continuous_Rmult; [apply continuous_Rconst|apply CP].
        -- apply continuity_2d_pt_inv; [|now apply pow_nonzero, Dden]. apply cont2_pow.
           apply continuity_2d_pt_minus; [apply continuity_2d_pt_const|]. apply continuity_2d_pt_plus; [|apply cont2_of1, CQ].
           apply continuity_2d_pt_mult; [apply cont2_of1, CP|apply continuity_2d_pt_id1].
    + apply (filter_imp D); [|now apply Dopen]. intros y Dy. apply (ex_RInt_continuous (V := R_CompleteNormedModule)). intros u Hu. now apply CI.
  - rewrite (RInt_ext _ (fun u => INR n * (P u * c u * / (1 - (P u * z + Q u)) ^ S n))).
    + apply is_RInt_unique. apply (is_RInt_scal (fun u => P u * c u * / (1 - (P u * z + Q u)) ^ S n) s t (INR n)).
      apply (RInt_correct (V := R_CompleteNormedModule)). apply (ex_RInt_continuous (V := R_CompleteNormedModule)). intros u Hu.
      apply (CI (fun u => P u * c u)); [|assumption|assumption]. intro w. now apply continuous_Rmult.
    + intros u Hu.
      assert (E : INR n * P u * c u * / (1 - (P u * z + Q u)) ^ S n = INR n * (P u * c u * / (1 - (P u * z + Q u)) ^ S n)) by ring.
      refine (eq_trans _ E).
      apply is_derive_unique. apply ker_derive. apply Dden; [assumption|]. lra.
Qed.
End Param.

Lemma exp_cont (k u : R) : continuous (fun u => exp (k * u)) u.
Proof. apply continuous_Rexp. apply continuous_Rmult; [apply continuous_Rconst|apply continuous_Rid]. Qed.
Lemma exp_pow x n : exp x ^ n = exp (INR n * x).
Proof.
  induction n as [|n IH]; [simpl; rewrite Rmult_0_l, exp_0; reflexivity|].
  rewrite S_INR. simpl pow. rewrite IH, <- exp_plus. f_equal. ring.
Qed.

Section MGF3.
Context (k lam mv ms ss s t : R) (Hk : k <> 0).

(** bound of e^{ku} between s and t *)
Definition eb : R := exp (Rabs k * (Rabs s + Rabs t)).
Lemma eb_bound u : Rmin s t <= u <= Rmax s t -> exp (k * u) <= eb.
Proof.
  intro Hu. unfold eb. destruct (Req_dec (k * u) (Rabs k * (Rabs s + Rabs t))) as [->|Ne]; [lra|]. left. apply exp_increasing.
  assert (A : Rabs u <= Rabs s + Rabs t).
  { unfold Rmin, Rmax in Hu. destruct (Rle_dec s t); unfold Rabs; repeat destruct Rcase_abs; lra. }
  assert (k * u <= Rabs k * (Rabs s + Rabs t)); [|lra].
  apply Rle_trans with (Rabs (k * u)); [apply Rle_abs|]. rewrite Rabs_mult. apply Rmult_le_compat_l; [apply Rabs_pos|exact A].
Qed.
Definition dom2 (a1 a2 : R) : Prop := Rabs mv * (eb * Rabs a1 + Rabs a2) < 1.
Lemma dom2_0 a : Rabs mv * Rabs a < 1 -> dom2 0 a.
Proof. intro h. unfold dom2. rewrite Rabs_R0. replace (eb * 0 + Rabs a) with (Rabs a) by ring. exact h. Qed.
Lemma dom2_00 : dom2 0 0.
Proof. apply dom2_0. rewrite Rabs_R0. lra. Qed.
Lemma dom2_den a1 a2 u : dom2 a1 a2 -> Rmin s t <= u <= Rmax s t -> 1 - mv * (exp (k * u) * a1 + a2) <> 0.
Proof.
  intros Hd Hu. pose proof (eb_bound u Hu) as E. unfold dom2 in Hd.
  assert (B : Rabs (mv * (exp (k * u) * a1 + a2)) <= Rabs mv * (eb * Rabs a1 + Rabs a2)).
  { rewrite Rabs_mult. apply Rmult_le_compat_l; [apply Rabs_pos|].
    apply Rle_trans with (Rabs (exp (k * u) * a1) + Rabs a2); [apply Rabs_triang|]. apply Rplus_le_compat_r.
    rewrite Rabs_mult, (Rabs_pos_eq (exp (k * u))) by (left; apply exp_pos). apply Rmult_le_compat_r; [apply Rabs_pos|assumption]. }
  pose proof (Rle_abs (mv * (exp (k * u) * a1 + a2))). lra.
Qed.
Lemma open_lt (f : R -> R) (x : R) : continuous f x -> f x < 1 -> locally x (fun y => f y < 1).
Proof. intros C h. apply (C (fun y => y < 1)). apply (open_lt 1), h. Qed.
Lemma dom2_open1 a1 a2 : dom2 a1 a2 -> locally a1 (fun x => dom2 x a2).
Proof.
  apply (open_lt (fun x => Rabs mv * (eb * Rabs x + Rabs a2))).
  apply continuous_Rmult; [apply continuous_Rconst|]. apply continuous_Rplus; [|apply continuous_Rconst].
  apply continuous_Rmult; [apply continuous_Rconst|]. apply continuous_Rabs.
Qed.
Lemma dom2_open2 a1 a2 : dom2 a1 a2 -> locally a2 (fun x => dom2 a1 x).
Proof.
  apply (open_lt (fun x => Rabs mv * (eb * Rabs a1 + Rabs x))).
  apply continuous_Rmult; [apply continuous_Rconst|]. apply continuous_Rplus; [apply continuous_Rconst|]. apply continuous_Rabs.
Qed.

Definition hker (i n : nat) (a1 a2 : R) : R :=
  RInt (fun u => exp (k * u) ^ i * / (1 - mv * (exp (k * u) * a1 + a2)) ^ n) s t.
Lemma hker_1 i n (a1 a2 : R) : dom2 a1 a2 ->
  is_derive (fun a1 => hker i n a1 a2) a1 (INR n * mv * hker (S i) (S n) a1 a2).
Proof.
  intro Hd. unfold hker.
  pose proof (RInt_param_derive (fun u => exp (k * u) ^ i) (fun u => mv * exp (k * u)) (fun _ => mv * a2) s t (fun x => dom2 x a2)) as H.
  assert (X : forall n y, RInt (fun u => exp (k * u) ^ i * / (1 - (mv * exp (k * u) * y + mv * a2)) ^ n) s t
    = RInt (fun u => exp (k * u) ^ i * / (1 - mv * (exp (k * u) * y + a2)) ^ n) s t).
  { intros m y. apply RInt_ext. intros u _. replace (mv * exp (k * u) * y + mv * a2) with (mv * (exp (k * u) * y + a2)) by ring. reflexivity. }
  eapply is_derive_ext; [intro y; apply (X n y)|]. eapply is_derive_val.
  - apply H; clear H.
    + intro u. apply cont_pow, exp_cont.
    + intro u. apply continuous_Rmult; [apply continuous_Rconst|apply exp_cont].
    + intro u. apply continuous_Rconst.
    + intros z. apply dom2_open1.
    + intros z u Dz Hu. replace (mv * exp (k * u) * z + mv * a2) with (mv * (exp (k * u) * z + a2)) by ring. now apply dom2_den.
    + exact Hd.
  - rewrite Rmult_assoc. f_equal.
    rewrite (RInt_ext _ (fun u => scal mv (exp (k * u) ^ S i * / (1 - mv * (exp (k * u) * a1 + a2)) ^ S n))).
    + apply is_RInt_unique, (is_RInt_scal (fun u => exp (k * u) ^ S i * / (1 - mv * (exp (k * u) * a1 + a2)) ^ S n)).
      apply (RInt_correct (V := R_CompleteNormedModule)), (ex_RInt_continuous (V := R_CompleteNormedModule)). intros u Hu.
      apply continuous_Rmult; [apply cont_pow, exp_cont|]. apply cont_inv; [now apply pow_nonzero, dom2_den|]. apply cont_pow.
      apply continuous_Rminus; [apply continuous_Rconst|]. apply continuous_Rmult; [apply continuous_Rconst|].
      apply continuous_Rplus; [|apply continuous_Rconst]. apply continuous_Rmult; [apply exp_cont|apply continuous_Rconst].
    + intros u _. unfold scal; simpl; unfold mult; simpl.
      replace (mv * exp (k * u) * a1 + mv * a2) with (mv * (exp (k * u) * a1 + a2)) by ring. ring.
Qed.
Lemma hker_2 i n (a1 a2 : R) : dom2 a1 a2 ->
  is_derive (fun a2 => hker i n a1 a2) a2 (INR n * mv * hker i (S n) a1 a2).
Proof.
  intro Hd. unfold hker.
  pose proof (RInt_param_derive (fun u => exp (k * u) ^ i) (fun _ => mv) (fun u => mv * (exp (k * u) * a1)) s t (fun x => dom2 a1 x)) as H.
  assert (X : forall n y, RInt (fun u => exp (k * u) ^ i * / (1 - (mv * y + mv * (exp (k * u) * a1))) ^ n) s t
    = RInt (fun u => exp (k * u) ^ i * / (1 - mv * (exp (k * u) * a1 + y)) ^ n) s t).
  { intros m y. apply RInt_ext. intros u _. replace (mv * y + mv * (exp (k * u) * a1)) with (mv * (exp (k * u) * a1 + y)) by ring. reflexivity. }
  eapply is_derive_ext; [intro y; apply (X n y)|]. eapply is_derive_val.
  - apply H; clear H.
    + intro u. apply cont_pow, exp_cont.
    + intro u. apply continuous_Rconst.
    + intro u. apply continuous_Rmult; [apply continuous_Rconst|]. apply continuous_Rmult; [apply exp_cont|apply continuous_Rconst].
    + intros z. apply dom2_open2.
    + intros z u Dz Hu. replace (mv * z + mv * (exp (k * u) * a1)) with (mv * (exp (k * u) * a1 + z)) by ring. now apply dom2_den.
    + exact Hd.
  - rewrite Rmult_assoc. f_equal.
    rewrite (RInt_ext _ (fun u => scal mv (exp (k * u) ^ i * / (1 - mv * (exp (k * u) * a1 + a2)) ^ S n))).
    + apply is_RInt_unique, (is_RInt_scal (fun u => exp (k * u) ^ i * / (1 - mv * (exp (k * u) * a1 + a2)) ^ S n)).
      apply (RInt_correct (V := R_CompleteNormedModule)), (ex_RInt_continuous (V := R_CompleteNormedModule)). intros u Hu.
      apply continuous_Rmult; [apply cont_pow, exp_cont|]. apply cont_inv; [now apply pow_nonzero, dom2_den|]. apply cont_pow.
      apply continuous_Rminus; [apply continuous_Rconst|]. apply continuous_Rmult; [apply continuous_Rconst|].
      apply continuous_Rplus; [|apply continuous_Rconst]. apply continuous_Rmult; [apply exp_cont|apply continuous_Rconst].
    + intros u _. unfold scal; simpl; unfold mult; simpl.
      replace (mv * a2 + mv * (exp (k * u) * a1)) with (mv * (exp (k * u) * a1 + a2)) by ring. ring.
Qed.

(** derivatives of log mgf (up to the constant lam (t - s)) *)
Definition Kan (a1 a2 a3 : R) : S3 := fun i j l =>
  lam * (IZR (factN (i + j)) * mv ^ (i + j) * hker i (S (i + j)) a1 a2 * G ms (ss ^ 2) l a3).
Lemma Kan_1 (a1 a2 a3 : R) i j l : dom2 a1 a2 -> is_derive (fun a1 => Kan a1 a2 a3 i j l) a1 (D1 (Kan a1 a2 a3) i j l).
Proof.
  intro Hd. unfold Kan, D1. eapply is_derive_val.
  - apply is_derive_Rscal. apply is_derive_Rscal_r. apply is_derive_Rscal. apply hker_1, Hd.
  - replace (S i + j)%nat with (S (i + j)) by lia. rewrite factN_S, mult_IZR, <- INR_IZR_INZ. simpl pow. ring.
Qed.
Lemma Kan_2 (a1 a2 a3 : R) i j l : dom2 a1 a2 -> is_derive (fun a2 => Kan a1 a2 a3 i j l) a2 (D2 (Kan a1 a2 a3) i j l).
Proof.
  intro Hd. unfold Kan, D2. eapply is_derive_val.
  - apply is_derive_Rscal. apply is_derive_Rscal_r. apply is_derive_Rscal. apply hker_2, Hd.
  - replace (i + S j)%nat with (S (i + j)) by lia. rewrite factN_S, mult_IZR, <- INR_IZR_INZ. simpl pow. ring.
Qed.
Lemma Kan_3 (a1 a2 a3 : R) i j l : is_derive (fun a3 => Kan a1 a2 a3 i j l) a3 (D3 (Kan a1 a2 a3) i j l).
Proof. unfold Kan, D3. apply is_derive_Rscal, is_derive_Rscal, G_derive. Qed.

Definition Fan (a1 a2 a3 : R) : R := exp (Kan a1 a2 a3 0%nat 0%nat 0%nat - lam * (t - s)).
Definition Tan (i j l : nat) (a1 a2 a3 : R) : R := Fan a1 a2 a3 * sexp (Kan a1 a2 a3) i j l.

Lemma dir_derive (D : S3 -> S3) (K : R -> S3) (x : R) :
  (forall f g, D (s3mul f g) = s3add (s3mul (D f) g) (s3mul f (D g))) ->
  D (sexp (K x)) = s3mul (D (K x)) (sexp (K x)) ->
  (forall i j l, is_derive (fun x => K x i j l) x (D (K x) i j l)) ->
  forall i j l, is_derive (fun x => exp (K x 0%nat 0%nat 0%nat - lam * (t - s)) * sexp (K x) i j l) x
    (exp (K x 0%nat 0%nat 0%nat - lam * (t - s)) * D (sexp (K x)) i j l).
Proof.
  intros _ De Dk i j l.
  set (c := D (K x) 0%nat 0%nat 0%nat).
  set (ga := s3sub (D (K x)) (sc c s3_1)).
  assert (g0 : ga 0%nat 0%nat 0%nat = 0) by (unfold ga, s3sub, sc, c, s3_1; simpl; ring).
  assert (gk : forall a b d, (0 < a + b + d)%nat -> is_derive (fun u => K u a b d) x (ga a b d)).
  { intros a b d h. eapply is_derive_val; [apply Dk|]. unfold ga, s3sub, sc.
    replace (s3_1 a b d) with 0 by (destruct a, b, d; try lia; reflexivity). ring. }
  pose proof (sexp_derive K ga x g0 gk i j l) as S1.
  eapply is_derive_val.
  - apply is_derive_Rmult; [|exact S1]. apply is_derive_Rexp. apply is_derive_Rminus; [apply Dk|apply is_derive_Rconst].
  - cbv beta. fold c. rewrite De. set (e := exp _).
    assert (X : s3mul ga (sexp (K x)) = s3sub (s3mul (D (K x)) (sexp (K x))) (sc c (sexp (K x)))).
    { unfold ga. replace (s3mul (s3sub (D (K x)) (sc c s3_1)) (sexp (K x)))
        with (s3sub (s3mul (D (K x)) (sexp (K x))) (s3mul (sexp (K x)) (sc c s3_1))) by ring.
      rewrite sc_mul_r. do 2 f_equal. ring. }
    rewrite X. unfold s3sub, sc. ring.
Qed.
Lemma Tan_1 i j l (a1 a2 a3 : R) : dom2 a1 a2 -> is_derive (fun a1 => Tan i j l a1 a2 a3) a1 (Tan (S i) j l a1 a2 a3).
Proof.
  intro Hd. apply (dir_derive D1 (fun a1 => Kan a1 a2 a3) a1 D1_mul (sexp_D1 _)). intros. now apply Kan_1.
Qed.
Lemma Tan_2 i j l (a1 a2 a3 : R) : dom2 a1 a2 -> is_derive (fun a2 => Tan i j l a1 a2 a3) a2 (Tan i (S j) l a1 a2 a3).
Proof.
  intro Hd. apply (dir_derive D2 (fun a2 => Kan a1 a2 a3) a2 D2_mul (sexp_D2 _)). intros. now apply Kan_2.
Qed.
Lemma Tan_3 i j l (a1 a2 a3 : R) : is_derive (fun a3 => Tan i j l a1 a2 a3) a3 (Tan i j (S l) a1 a2 a3).
Proof. apply (dir_derive D3 (fun a3 => Kan a1 a2 a3) a3 D3_mul (sexp_D3 _)). intros. apply Kan_3. Qed.

Lemma mgf_Tan a1 a2 a3 : dom2 a1 a2 -> mgf_ieziziz k lam mv ms ss s t a1 a2 a3 = Tan 0 0 0 a1 a2 a3.
Proof.
  intro Hd. unfold Tan. rewrite sexp_0, Rmult_1_r. unfold mgf_ieziziz, Fan. f_equal. unfold Kan, hker. simpl factN.
  rewrite <- Rmult_minus_distr_l. f_equal. simpl pow.
  assert (G0 : G ms (ss ^ 2) 0 a3 = mgf_normal ms (ss ^ 2) a3) by (unfold G, mgf_normal; rewrite V_0; ring).
  simpl pow in G0. rewrite G0. generalize (mgf_normal ms (ss * (ss * 1)) a3). intro g.
  apply is_RInt_unique.
  assert (C : is_RInt (fun u => / (1 - mv * (exp (k * u) * a1 + a2))) s t (RInt (fun u => / (1 - mv * (exp (k * u) * a1 + a2))) s t)).
  { apply (RInt_correct (V := R_CompleteNormedModule)), (ex_RInt_continuous (V := R_CompleteNormedModule)). intros u Hu.
    apply cont_inv; [now apply dom2_den|].
    apply continuous_Rminus; [apply continuous_Rconst|]. apply continuous_Rmult; [apply continuous_Rconst|].
    apply continuous_Rplus; [|apply continuous_Rconst]. apply continuous_Rmult; [apply exp_cont|apply continuous_Rconst]. }
  replace (1 * 1 * RInt (fun u => 1 * / ((1 - mv * (exp (k * u) * a1 + a2)) * 1)) s t * g - (t - s))
    with (minus (scal g (RInt (fun u => / (1 - mv * (exp (k * u) * a1 + a2))) s t)) (scal (t - s) 1)).
  - apply (is_RInt_ext (fun u => minus (scal g (/ (1 - mv * (exp (k * u) * a1 + a2)))) 1)).
    + intros u _. unfold minus, plus, opp, scal; simpl; unfold mult; simpl. ring.
    + apply (is_RInt_minus (fun u => scal g (/ (1 - mv * (exp (k * u) * a1 + a2)))) (fun _ => 1)); [|apply (is_RInt_const s t (1 : R))].
      now apply (is_RInt_scal (fun u => / (1 - mv * (exp (k * u) * a1 + a2)))).
  - rewrite (RInt_ext (fun u => 1 * / ((1 - mv * (exp (k * u) * a1 + a2)) * 1)) (fun u => / (1 - mv * (exp (k * u) * a1 + a2)))).
    + unfold minus, plus, opp, scal; simpl; unfold mult; simpl. ring.
    + intros u _. now rewrite Rmult_1_l, Rmult_1_r.
Qed.

Lemma mgf_d3 n3 : forall a1 a2 a3, dom2 a1 a2 ->
  Derive_n (fun a3 => mgf_ieziziz k lam mv ms ss s t a1 a2 a3) n3 a3 = Tan 0 0 n3 a1 a2 a3.
Proof.
  induction n3 as [|n IH]; intros a1 a2 a3 Hd; [now apply mgf_Tan|].
  cbn [Derive_n]. rewrite (Derive_ext _ (fun a3 => Tan 0 0 n a1 a2 a3)) by (intro; now apply IH).
  apply is_derive_unique, Tan_3.
Qed.
Lemma mgf_d1 n1 n3 : forall a1 a2, dom2 a1 a2 ->
  Derive_n (fun a1 => Derive_n (fun a3 => mgf_ieziziz k lam mv ms ss s t a1 a2 a3) n3 0) n1 a1 = Tan n1 0 n3 a1 a2 0.
Proof.
  induction n1 as [|n IH]; intros a1 a2 Hd; [now apply mgf_d3|].
  cbn [Derive_n]. rewrite (Derive_ext_loc _ (fun a1 => Tan n 0 n3 a1 a2 0)).
  - apply is_derive_unique. now apply Tan_1.
  - apply (filter_imp (fun x => dom2 x a2)); [|now apply dom2_open1]. intros y Hy. now apply IH.
Qed.
Lemma mgf_d2 n1 n2 n3 : forall a2, dom2 0 a2 ->
  Derive_n (fun a2 => Derive_n (fun a1 => Derive_n (fun a3 => mgf_ieziziz k lam mv ms ss s t a1 a2 a3) n3 0) n1 0) n2 a2 = Tan n1 n2 n3 0 a2 0.
Proof.
  induction n2 as [|n IH]; intros a2 Hd; [now apply mgf_d1|].
  cbn [Derive_n]. rewrite (Derive_ext_loc _ (fun a2 => Tan n1 n n3 0 a2 0)).
  - apply is_derive_unique. now apply Tan_2.
  - apply (filter_imp (fun x => dom2 0 x)); [|now apply dom2_open2]. intros y Hy. now apply IH.
Qed.

Lemma RInt_epow i : RInt (fun u => exp (k * u) ^ i) s t = tker (jvals k lam mv ms ss s t) i.
Proof.
  apply is_RInt_unique. destruct i as [|i].
  - apply (is_RInt_ext (fun _ => 1)); [reflexivity|]. unfold tker, jvals, q_d.
    replace (t - s) with (scal (t - s) 1) by (unfold scal; simpl; unfold mult; simpl; ring). apply (is_RInt_const s t (1 : R)).
  - assert (N : INR (S i) <> 0) by (apply not_0_INR; lia).
    unfold tker, jvals, q_i, q_t, q_s. rewrite !exp_pow.
    replace (/ k * / INR (S i) * (exp (INR (S i) * (k * t)) - exp (INR (S i) * (k * s))))
      with (minus (/ k * / INR (S i) * exp (INR (S i) * (k * t))) (/ k * / INR (S i) * exp (INR (S i) * (k * s))))
      by (unfold minus, plus, opp; simpl; ring).
    apply (is_RInt_ext (fun u => exp (INR (S i) * (k * u)))); [intros u _; now rewrite exp_pow|].
    apply (is_RInt_derive (fun u => / k * / INR (S i) * exp (INR (S i) * (k * u)))).
    + intros u _. generalize dependent (INR (S i)). intros x N. auto_derive; [trivial|]. field. split; assumption.
    + intros u _. apply continuous_Rexp. apply continuous_Rmult; [apply continuous_Rconst|].
      apply continuous_Rmult; [apply continuous_Rconst|apply continuous_Rid].
Qed.
Lemma Kan_0 : Kan 0 0 0 = jcum (jvals k lam mv ms ss s t).
Proof.
  apply s3_ext. intros i j l. unfold Kan, jcum, ejv. cbn [jvals q_l q_v q_m q_g]. rewrite G_at0. f_equal. f_equal. f_equal.
  unfold hker. rewrite <- RInt_epow. apply RInt_ext. intros u _.
  replace (1 - mv * (exp (k * u) * 0 + 0)) with 1 by ring. rewrite pow1, Rinv_1. apply Rmult_1_r.
Qed.
Lemma jmom_mgf n1 n2 n3 :
  Derive_n (fun a2 => Derive_n (fun a1 => Derive_n (fun a3 => mgf_ieziziz k lam mv ms ss s t a1 a2 a3) n3 0) n1 0) n2 0
  = jmom (jvals k lam mv ms ss s t) n1 n2 n3.
Proof.
  rewrite mgf_d2 by apply dom2_00. unfold Tan, Fan. rewrite Kan_0. unfold jcum at 1, ejv, tker. cbn [jvals q_l q_v q_m q_g q_d Nat.add].
  rewrite V_0. simpl factN. replace (lam * (1 * mv ^ 0 * (t - s) * 1) - lam * (t - s)) with 0 by (simpl; ring).
  rewrite exp_0. unfold jmom. ring.
Qed.
End MGF3.

(** ** dependence on s and t *)
Section ST.
Context (k lam mv ms ss : R) (Hk : k <> 0).
(** jump intensities: the rate of change of the cumulants *)
Definition jgam (t : R) : S3 := fun a b c =>
  match (a + b + c)%nat with
  | O => 0
  | _ => lam * (IZR (factN (a + b)) * mv ^ (a + b) * exp (k * t) ^ a * V c ms (ss ^ 2))
  end.
Notation jm s t := (jmom (jvals k lam mv ms ss s t)).

Lemma jcum_t s (t : R) a b c : (0 < a + b + c)%nat ->
  is_derive (fun t => jcum (jvals k lam mv ms ss s t) a b c) t (jgam t a b c).
Proof.
  intro h. unfold jgam. destruct (a + b + c)%nat eqn:E; [lia|]. unfold jcum, ejv. cbn [jvals q_l q_v q_m q_g].
  apply is_derive_Rscal, is_derive_Rscal_r, is_derive_Rscal. destruct a as [|a].
  - unfold tker. cbn [jvals q_d]. simpl pow. auto_derive; [trivial|ring].
  - assert (N : INR (S a) <> 0) by (apply not_0_INR; lia). unfold tker. cbn [jvals q_t q_s q_i].
    apply (is_derive_ext (fun t => / k * / INR (S a) * (exp (INR (S a) * (k * t)) - exp (k * s) ^ S a)));
      [intro y; now rewrite <- exp_pow|].
    generalize (exp (k * s) ^ S a). intro z.
    rewrite exp_pow. generalize dependent (INR (S a)). intros x N. auto_derive; [trivial|]. field. split; assumption.
Qed.
Lemma jcum_s (s t : R) a b c : (0 < a + b + c)%nat ->
  is_derive (fun s => jcum (jvals k lam mv ms ss s t) a b c) s (s3opp (jgam s) a b c).
Proof.
  intro h. unfold s3opp, jgam. destruct (a + b + c)%nat eqn:E; [lia|]. unfold jcum, ejv. cbn [jvals q_l q_v q_m q_g].
  rewrite Ropp_mult_distr_r. apply is_derive_Rscal. rewrite Ropp_mult_distr_l, Ropp_mult_distr_r.
  apply is_derive_Rscal_r, is_derive_Rscal. destruct a as [|a].
  - unfold tker. cbn [jvals q_d]. simpl pow. auto_derive; [trivial|ring].
  - assert (N : INR (S a) <> 0) by (apply not_0_INR; lia). unfold tker. cbn [jvals q_t q_s q_i].
    apply (is_derive_ext (fun s => / k * / INR (S a) * (exp (k * t) ^ S a - exp (INR (S a) * (k * s)))));
      [intro y; now rewrite <- exp_pow|].
    generalize (exp (k * t) ^ S a). intro z. rewrite exp_pow. generalize dependent (INR (S a)). intros x N.
    auto_derive; [trivial|]. field. split; assumption.
Qed.
Lemma jmom_t s (t : R) i j l : is_derive (fun t => jm s t i j l) t (s3mul (jgam t) (jm s t) i j l).
Proof. apply (sexp_derive (fun t => jcum (jvals k lam mv ms ss s t)) (jgam t) t); [reflexivity|]. intros. now apply jcum_t. Qed.
Lemma jmom_s (s t : R) i j l : is_derive (fun s => jm s t i j l) s (s3opp (s3mul (jgam s) (jm s t)) i j l).
Proof.
  replace (s3opp (s3mul (jgam s) (jm s t))) with (s3mul (s3opp (jgam s)) (jm s t)) by ring.
  apply (sexp_derive (fun s => jcum (jvals k lam mv ms ss s t)) (s3opp (jgam s)) s); [unfold s3opp, jgam; simpl; ring|].
  intros. now apply jcum_s.
Qed.
Lemma jmom_ss s : jm s s = s3_1.
Proof.
  apply sexp_zero. intros i j l _. unfold jcum, ejv. cbn [jvals q_l q_v q_m q_g].
  replace (tker (jvals k lam mv ms ss s s) i) with 0; [ring|]. unfold tker, jvals. cbn [q_d q_i q_t q_s]. destruct i; ring.
Qed.
End ST.
