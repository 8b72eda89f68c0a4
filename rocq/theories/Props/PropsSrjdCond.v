(** Property C30: moments of the square-root jump diffusion given v_0. *)
From Coq Require Import Reals Lra.
From Coquelicot Require Import Coquelicot.
From Verif.Model Require Import SrjdCond.
From Verif.Spec Require Import Srjd.
From Verif.Proof Require Import SrjdCondV Realise.
Local Open Scope R_scope.

Definition raw_cv (p : srjd) (Hk : sk p <> 0) : cv := mkCv (sk p) Hk (sv0 p - sth p) (sth p) (ssg p) (slam p) (smu p).
Definition cen_cv (p : srjd) (Hk : sk p <> 0) : cv := mkCv (sk p) Hk (sv0 p - mean_v p) (mean_v p) (ssg p) (slam p) (smu p).

Lemma raw_unique p Hk M i t : srjd_moments p M -> jd_dom i -> 0 <= t -> JM 1 (raw_cv p Hk) i t = M i t.
Proof.
  intros HM Hi Ht. set (v := raw_cv p Hk).
  apply (vsol_unique jd_dom (csys 1 v) jd_init cord (csys_tri 1 ltac:(lia) v)); try assumption.
  apply (vsol_exists jd_dom (csys 1 v) jd_init cord (csys_tri 1 ltac:(lia) v) (csys_cont 1 v)).
Qed.
Lemma cen_unique p Hk M i t : srjd_cmoments p M -> jd_dom i -> 0 <= t -> JM 2 (cen_cv p Hk) i t = M i t.
Proof.
  intros HM Hi Ht. set (v := cen_cv p Hk).
  apply (vsol_unique jd_dom (csys 2 v) jd_init cord (csys_tri 2 ltac:(lia) v)); try assumption.
  apply (vsol_exists jd_dom (csys 2 v) jd_init cord (csys_tri 2 ltac:(lia) v) (csys_cont 2 v)).
Qed.

(** C30: moment_ie_iez(n1, n2) is the moment E[IE_t^n1 IEZ_t^n2 | v_0] for every solution of the moment
    equations, and never raises; the table keyfor is missing only from moment_ie_iez(2, 0). *)
Theorem C30_moment_ie_iez : forall n1 n2, (0 <= n1)%Z -> (0 <= n2)%Z ->
  exists p, moment_ie_iez n1 n2 = Ok p /\
    ((n1, n2) <> (2, 0)%Z -> keyfor p = ["e^{kt}"; "k^{-}"; "v0-theta"; "theta"; "sigma"; "lmbd"; "mu_v"]%string) /\
    forall par M t, sk par <> 0 -> srjd_moments par M -> 0 <= t ->
      eval (monx (ie_vals par t)) (items p) = M (n1, n2) t.
Proof.
  intros n1 n2 H1 H2. destruct (returns_inv _ _ (moment_ie_iez_spec n1 n2 H1 H2)) as (p & E & (U & A & V & K)).
  exists p. split; [assumption|]. split; [exact K|]. intros par M t Hk HM Ht.
  rewrite <- (raw_unique par Hk M (n1, n2) t HM) by (auto; split; assumption). apply (V (raw_cv par Hk) t).
Qed.
Theorem C30_moment_ie : forall n, (0 <= n)%Z ->
  exists p, moment_ie n = Ok p /\
    forall par M t, sk par <> 0 -> srjd_moments par M -> 0 <= t ->
      eval (monx (ie_vals par t)) (items p) = M (n, 0)%Z t.
Proof.
  intros n Hn. destruct (returns_inv _ _ (moment_ie_spec n Hn)) as (p & E & (U & A & V & K)).
  exists p. split; [assumption|]. intros par M t Hk HM Ht.
  rewrite <- (raw_unique par Hk M (n, 0)%Z t HM) by (auto; split; cbn; lia). apply (V (raw_cv par Hk) t).
Qed.
(** the documented keyfor is missing from moment_ie_iez(2, 0) *)
Theorem C30_keyfor_missing : exists p, moment_ie_iez 2 0 = Ok p /\ keyfor p = [].
Proof. eexists. split; [vm_compute; reflexivity|reflexivity]. Qed.
Theorem C30_negative : forall n1 n2, (n1 < 0 \/ n2 < 0)%Z ->
  moment_ie_iez n1 n2 = Err ValueError /\ cmoment_ie_iez n1 n2 = Err ValueError.
Proof.
  intros n1 n2 h. unfold moment_ie_iez, cmoment_ie_iez, miz_f. cbn [miz]. unfold moment_ie_iez_body.
  destruct (Z.leb_spec 0 n1), (Z.leb_spec 0 n2); try lia; split; reflexivity.
Qed.
Theorem C30_negative_ie : forall n, (n < 0)%Z -> moment_ie n = Err ValueError /\ cmoment_ie n = Err ValueError.
Proof. intros n h. unfold moment_ie, cmoment_ie, mie_f, moment_ie_body. destruct (Z.ltb_spec n 0); [split; reflexivity|lia]. Qed.

(** The same for the version with IEZ_t centred. *)
Theorem C30_cmoment_ie_iez : forall n1 n2, (0 <= n1)%Z -> (0 <= n2)%Z ->
  exists p, cmoment_ie_iez n1 n2 = Ok p /\
    ((n1, n2) <> (2, 0)%Z -> keyfor p = ["e^{kt}"; "k^{-}"; "v0-E[v]"; "E[v]"; "sigma"; "lmbd"; "mu_v"]%string) /\
    forall par M t, sk par <> 0 -> srjd_cmoments par M -> 0 <= t ->
      eval (monx (cie_vals par t)) (items p) = M (n1, n2) t.
Proof.
  intros n1 n2 H1 H2. destruct (returns_inv _ _ (cmoment_ie_iez_spec n1 n2 H1 H2)) as (p & E & (U & A & V & K)).
  exists p. split; [assumption|]. split; [exact K|]. intros par M t Hk HM Ht.
  rewrite <- (cen_unique par Hk M (n1, n2) t HM) by (auto; split; assumption). apply (V (cen_cv par Hk) t).
Qed.

(** ... which is the moment of (IE_t, IEZ_t - E[IEZ_t]) whenever (IE_t, IEZ_t) has the raw moments. *)
Theorem C30_cmoment_expectation : forall n1 n2, (0 <= n1)%Z -> (0 <= n2)%Z ->
  exists p, cmoment_ie_iez n1 n2 = Ok p /\
    forall par M t Om (E : (Om -> R) -> R) IE IEZ, sk par <> 0 -> srjd_moments par M -> 0 <= t -> expectation E ->
      (forall a b, (0 <= a)%Z -> (0 <= b)%Z -> (a + b <= n1 + n2)%Z ->
         E (fun w => IE w ^ Z.to_nat a * IEZ w ^ Z.to_nat b) = M (a, b) t) ->
      eval (monx (cie_vals par t)) (items p)
      = E (fun w => IE w ^ Z.to_nat n1 * (IEZ w - E IEZ) ^ Z.to_nat n2).
Proof.
  intros n1 n2 H1 H2. destruct (returns_inv _ _ (cmoment_ie_iez_spec n1 n2 H1 H2)) as (p & E & (U & A & V & K)).
  exists p. split; [assumption|]. intros par M t Om EE IE IEZ Hk HM Ht HE h.
  set (v := raw_cv par Hk).
  assert (Hr : forall a b, (0 <= a)%Z -> (0 <= b)%Z -> (a + b <= n1 + n2)%Z ->
    EE (fun w => IE w ^ Z.to_nat a * IEZ w ^ Z.to_nat b) = JM 1 v (a, b) t).
  { intros a b Ha Hb Hab. rewrite h by assumption. symmetry. apply raw_unique; [assumption|split; assumption|assumption]. }
  transitivity (JM 2 (vc v) (n1, n2) t).
  { rewrite <- V. unfold evp, mon7, ievals, vc, v, raw_cv, cie_vals, mean_v; cbn [fst snd ck ca cb csg clam cmu].
    replace (sv0 par - sth par - slam par * smu par * / sk par) with (sv0 par - (sth par + slam par * smu par / sk par)) by (unfold Rdiv; ring).
    reflexivity. }
  rewrite <- (Z2Nat.id n2 H2) at 1. rewrite central_link by assumption.
  destruct (Z.eq_dec n2 0) as [->|Hn2].
  { change (Z.to_nat 0) with 0%nat. rewrite bc_0. change (epow (- mz1 v t) 0) with 1. rewrite Rmult_1_l.
    unfold Ms. cbn [Z.of_nat]. rewrite <- Hr by lia. reflexivity. }
  assert (Em : EE IEZ = mz1 v t).
  { assert (Q : EE (fun w => IE w ^ Z.to_nat 0 * IEZ w ^ Z.to_nat 1) = JM 1 v (0, 1)%Z t) by (apply Hr; lia).
    rewrite (E_ext EE HE _ IEZ) in Q by (intro; simpl; ring). rewrite Q.
    pose proof (Ms_z 1 ltac:(lia) iezm iezm_fam v 1%nat t) as Q1. unfold Ms in Q1. cbn [Z.of_nat Pos.of_succ_nat] in Q1. rewrite Q1.
    rewrite (proj2 iezm_fam _ 0%nat), bc_0, iezm_0. unfold sh, kap. cbn [Nat.ltb Nat.leb]. unfold iezk. rewrite gj_0.
    unfold mz1, ivt, iezv; cbn [xl xi xm xt xs factN]. rewrite Rmult_0_r, exp_0. simpl. ring. }
  rewrite Em.
  rewrite (E_ext EE HE _ (fun w => sumR (fun j => (IZR (combN (Z.to_nat n2) j) * epow (- mz1 v t) j) * (IE w ^ Z.to_nat n1 * IEZ w ^ (Z.to_nat n2 - j))) (seq 0 (S (Z.to_nat n2))))).
  - rewrite (E_sumR EE HE). unfold bc. apply sumR_ext. intros j Hj. apply in_seq in Hj. rewrite (E_scal EE HE).
    pose proof (Hr n1 (n2 - Z.of_nat j)%Z ltac:(lia) ltac:(lia) ltac:(lia)) as Q.
    replace (Z.to_nat (n2 - Z.of_nat j)) with (Z.to_nat n2 - j)%nat in Q by lia. rewrite Q.
    unfold Ms. replace (Z.of_nat (Z.to_nat n2 - j)) with (n2 - Z.of_nat j)%Z by lia. ring.
  - intro w. replace (IEZ w - mz1 v t) with (- mz1 v t + IEZ w) by ring. rewrite <- bc_epow. unfold bc.
    rewrite <- sumR_scal. apply sumR_ext. intros j _. unfold epow. ring.
Qed.

(** (IE, IEZ) on Om have under E the conditional moments up to total order n *)
Definition has_moments {Om} (par : srjd) (t : R) (E : (Om -> R) -> R) (IE IEZ : Om -> R) (n : Z) : Prop :=
  exists M, srjd_moments par M /\
    forall a b, (0 <= a)%Z -> (0 <= b)%Z -> (a + b <= n)%Z ->
      E (fun w => IE w ^ Z.to_nat a * IEZ w ^ Z.to_nat b) = M (a, b) t.

Lemma has_JM {Om} par t (E : (Om -> R) -> R) IE IEZ n (Hk : sk par <> 0) : 0 <= t -> has_moments par t E IE IEZ n ->
  forall a b, (0 <= a)%Z -> (0 <= b)%Z -> (a + b <= n)%Z ->
    E (fun w => IE w ^ Z.to_nat a * IEZ w ^ Z.to_nat b) = JM 1 (raw_cv par Hk) (a, b) t.
Proof.
  intros Ht (M & HM & h) a b Ha Hb Hab. rewrite h by assumption. symmetry.
  apply raw_unique; [assumption|split; assumption|assumption].
Qed.

(** moment_x(n) is the moment of x_t = sigma IE_t + IEZ_t *)
Theorem C30_moment_x : forall n, (0 <= n)%Z ->
  exists p, srjd_moment_x n = Ok p /\ keyfor p = ["e^{kt}"; "k^{-}"; "v0-theta"; "theta"; "sigma"; "lmbd"; "mu_v"]%string /\
    forall par t Om (E : (Om -> R) -> R) IE IEZ, sk par <> 0 -> 0 <= t -> expectation E -> has_moments par t E IE IEZ n ->
      eval (monx (ie_vals par t)) (items p) = E (fun w => (ssg par * IE w + IEZ w) ^ Z.to_nat n).
Proof.
  intros n Hn. destruct (returns_inv _ _ (moment_x_spec n Hn)) as (p & E & [K _] & V).
  exists p. split; [assumption|]. split; [exact K|]. intros par t Om EE IE IEZ Hk Ht HE h.
  pose proof (E_x EE HE IE IEZ (raw_cv par Hk) t n (has_JM par t EE IE IEZ n Hk Ht h) n ltac:(lia)) as Q.
  cbn [raw_cv csg] in Q. rewrite Q, <- V. reflexivity.
Qed.

(** v_t = e^{-kt}(v_0 - theta) + theta + e^{-kt}(sigma IE_t + IEZ_t) *)
Definition v_of (par : srjd) (t ie iez : R) : R :=
  exp (- (sk par * t)) * (sv0 par - sth par) + sth par + exp (- (sk par * t)) * (ssg par * ie + iez).

Theorem C30_moment_v : forall n, (0 <= n)%Z ->
  exists p, srjd_cond_moment_v n = Ok p /\ keyfor p = ["e^{kt}"; "k^{-}"; "v0-theta"; "theta"; "sigma"; "lmbd"; "mu_v"]%string /\
    forall par t Om (E : (Om -> R) -> R) IE IEZ, sk par <> 0 -> 0 <= t -> expectation E -> has_moments par t E IE IEZ n ->
      eval (monx (ie_vals par t)) (items p) = E (fun w => v_of par t (IE w) (IEZ w) ^ Z.to_nat n).
Proof.
  intros n Hn. destruct (returns_inv _ _ (cond_moment_v_spec n Hn)) as (p & E & [K _] & V).
  exists p. split; [assumption|]. split; [exact K|]. intros par t Om EE IE IEZ Hk Ht HE h.
  pose proof (has_JM par t EE IE IEZ n Hk Ht h) as HJ.
  etransitivity; [exact (V (raw_cv par Hk, t))|]. cbv zeta. cbn [fst snd raw_cv ck ca cb].
  symmetry. set (e := exp (- (sk par * t))). set (a := sv0 par - sth par).
  rewrite (E_ext EE HE _ (fun w => sumR (fun i => sumR (fun j => (IZR (mcomb n i) * IZR (mcomb (n - i) j) *
      (pw e (n - j) * pw a i * pw (sth par) j)) * (ssg par * IE w + IEZ w) ^ Z.to_nat (n - i - j)) (range 0 (n - i + 1))) (range 0 (n + 1)))).
  - rewrite (E_sumR EE HE). apply sumR_ext. intros i Hi. apply in_range in Hi. rewrite (E_sumR EE HE). apply sumR_ext.
    intros j Hj. apply in_range in Hj. rewrite (E_scal EE HE).
    pose proof (E_x EE HE IE IEZ (raw_cv par Hk) t n HJ (n - i - j)%Z ltac:(lia)) as Q. cbn [raw_cv csg] in Q.
    rewrite Q. fold a. ring.
  - intro w. unfold v_of. fold e. fold a. set (x := ssg par * IE w + IEZ w).
    replace (e * a + sth par + e * x) with (e * a + (sth par + e * x)) by ring.
    rewrite <- pw_Zpos by lia. rewrite <- binomial_pw by lia. apply sumR_ext. intros i Hi. apply in_range in Hi.
    rewrite <- binomial_pw by lia. rewrite <- !sumR_scal. apply sumR_ext. intros j Hj. apply in_range in Hj.
    rewrite <- !pw_Zpos by lia. replace (n - j)%Z with (i + (n - i - j))%Z by lia.
    rewrite (pow_lemma_pw e) by (right; split; lia). rewrite !pw_mult by lia. ring.
Qed.

Theorem C30_cmoment_x : forall n, (0 <= n)%Z ->
  exists p, srjd_cmoment_x n = Ok p /\ keyfor p = ["e^{kt}"; "k^{-}"; "v0-theta"; "theta"; "sigma"; "lmbd"; "mu_v"]%string /\
    forall par t Om (E : (Om -> R) -> R) IE IEZ, sk par <> 0 -> 0 <= t -> expectation E -> has_moments par t E IE IEZ n ->
      let x w := ssg par * IE w + IEZ w in
      eval (monx (ie_vals par t)) (items p) = E (fun w => (x w - E x) ^ Z.to_nat n).
Proof.
  intros n Hn. destruct (returns_inv _ _ (cmoment_x_spec n Hn)) as (p & E & [K _] & V).
  exists p. split; [assumption|]. split; [exact K|]. intros par t Om EE IE IEZ Hk Ht HE h x.
  pose proof (has_JM par t EE IE IEZ n Hk Ht h) as HJ.
  etransitivity; [exact (V (raw_cv par Hk, t))|]. cbv zeta. cbn [fst snd raw_cv ck ca cb clam cmu].
  set (m := slam par * smu par * / sk par * (exp (sk par * t) - 1)).
  transitivity (EE (fun w => (1 * (csg (raw_cv par Hk) * IE w + IEZ w) + - m) ^ Z.to_nat n)).
  - rewrite (E_affine_pow EE HE IE IEZ (raw_cv par Hk) t n HJ 1 (- m) n) by lia. apply sumR_ext. intros i _. rewrite pw_one. ring.
  - apply (E_ext EE HE). intro w. cbn [raw_cv csg]. fold (x w). destruct (Z.eq_dec n 0) as [->|h0]; [reflexivity|].
    replace (EE x) with m; [f_equal; ring|]. symmetry.
    exact (E_mean_x EE HE IE IEZ (raw_cv par Hk) t n HJ ltac:(lia)).
Qed.

Theorem C30_cmoment_v : forall n, (0 <= n)%Z ->
  exists p, srjd_cond_cmoment_v n = Ok p /\ keyfor p = ["e^{kt}"; "k^{-}"; "v0-theta"; "theta"; "sigma"; "lmbd"; "mu_v"]%string /\
    forall par t Om (E : (Om -> R) -> R) IE IEZ, sk par <> 0 -> 0 <= t -> expectation E -> has_moments par t E IE IEZ n ->
      let v w := v_of par t (IE w) (IEZ w) in
      eval (monx (ie_vals par t)) (items p) = E (fun w => (v w - E v) ^ Z.to_nat n).
Proof.
  intros n Hn. destruct (returns_inv _ _ (cond_cmoment_v_spec n Hn)) as (p & E & [K _] & V).
  exists p. split; [assumption|]. split; [exact K|]. intros par t Om EE IE IEZ Hk Ht HE h x.
  pose proof (has_JM par t EE IE IEZ n Hk Ht h) as HJ.
  etransitivity; [exact (V (raw_cv par Hk, t))|]. cbv zeta. cbn [fst snd raw_cv ck ca cb clam cmu].
  set (e := exp (- (sk par * t))). set (m := slam par * smu par * / sk par * (e - 1)).
  transitivity (EE (fun w => (e * (csg (raw_cv par Hk) * IE w + IEZ w) + m) ^ Z.to_nat n)).
  - now rewrite (E_affine_pow EE HE IE IEZ (raw_cv par Hk) t n HJ e m n) by lia.
  - apply (E_ext EE HE). intro w. cbn [raw_cv csg]. destruct (Z.eq_dec n 0) as [->|h0]; [reflexivity|].
    assert (Ex : EE x = e * (sv0 par - sth par) + sth par - m).
    { unfold x, v_of. fold e.
      rewrite (E_ext EE HE _ (fun w => (e * (sv0 par - sth par) + sth par) * 1 + e * (ssg par * IE w + IEZ w))) by (intro; ring).
      rewrite (E_plus EE HE), !(E_scal EE HE), (E_one EE HE IE IEZ (raw_cv par Hk) t n HJ Hn).
      pose proof (E_mean_x EE HE IE IEZ (raw_cv par Hk) t n HJ ltac:(lia)) as Q. cbn [raw_cv csg clam cmu ck] in Q. rewrite Q.
      unfold m. unfold e. rewrite exp_Ropp. field. split; [apply exp_neq0|assumption]. }
    rewrite Ex. unfold x, v_of. fold e. f_equal. ring.
Qed.

(** solutions of the moment equations and variables with these moments exist for every order *)
Example C30_moments_exist : forall par, sk par <> 0 -> exists M, srjd_moments par M.
Proof.
  intros par Hk. set (v := raw_cv par Hk). exists (JM 1 v).
  apply (vsol_exists jd_dom (csys 1 v) jd_init cord (csys_tri 1 ltac:(lia) v) (csys_cont 1 v)).
Qed.
Example C30_variables_exist : forall par t n, sk par <> 0 -> (0 <= n)%Z ->
  exists Om (E : (Om -> R) -> R) IE IEZ, expectation E /\ has_moments par t E IE IEZ n.
Proof.
  intros par t n Hk Hn. destruct (C30_moments_exist par Hk) as (M & HM).
  set (tab := fun ns => match ns with [a; b] => M (a, b) t | _ => 0 end).
  exists (list R), (Efin (realise (Z.to_nat n) 2 tab)), (fun xs => nthR xs 0), (fun xs => nthR xs 1).
  split; [apply Efin_expectation|]. exists M. split; [assumption|]. intros a b Ha Hb Hab.
  change (M (a, b) t) with (tab [a; b]).
  rewrite <- (realise_spec (Z.to_nat n) 2 tab [a; b]);
    [|reflexivity|repeat (apply Forall_cons; [lia|]); apply Forall_nil].
  unfold Efin. apply sumR_ext. intros [r xs] Hin. cbn [fst snd]. f_equal.
  pose proof (realise_len _ _ _ _ _ Hin) as Hl. destruct xs as [|x [|y [|? ?]]]; try discriminate.
  unfold nthR. cbn [powprod]. change (Z.to_nat 0) with 0%nat. change (Z.to_nat 1) with 1%nat. cbn [nth]. ring.
Qed.
Example C30_example : match moment_ie_iez 3 2 with Ok p => length (items p) = 36%nat | Err _ => False end.
Proof. vm_compute. reflexivity. Qed.
Example C30_cexample : match cmoment_ie_iez 3 2 with Ok p => length (items p) = 13%nat | Err _ => False end.
Proof. vm_compute. reflexivity. Qed.
Example C30_v_example : match srjd_cond_cmoment_v 3 with Ok p => (0 <? length (items p))%nat = true | Err _ => False end.
Proof. vm_compute. reflexivity. Qed.
