(** Property C31: stationary moments of the square-root jump diffusion. *)
From Coq Require Import Reals Lra.
From Coquelicot Require Import Coquelicot.
From Verif.Model Require Import SrjdStat.
From Verif.Spec Require Import Srjd.
From Verif.Proof Require Import SrjdStatProofs Realise.
From Verif.Props Require Import PropsSrjdCond.
Local Open Scope R_scope.

Definition with_v0 (par : srjd) (x : R) : srjd := mkSrjd (sk par) x (sth par) (ssg par) (slam par) (smu par).

(** V0, IE, IEZ on Om: given V0 the moments of (IE, IEZ) are the conditional moments, up to total order n *)
Definition joint_moments {Om} (par : srjd) (t : R) (E : (Om -> R) -> R) (V0 IE IEZ : Om -> R) (n : nat) : Prop :=
  exists M, (forall x, srjd_moments (with_v0 par x) (M x)) /\
    forall c a b, (c + a + b <= n)%nat ->
      E (fun w => V0 w ^ c * (IE w ^ a * IEZ w ^ b)) = E (fun w => V0 w ^ c * M (V0 w) (Z.of_nat a, Z.of_nat b) t).
(** the variance at time t, started from V0 *)
Definition v_next {Om} (par : srjd) (t : R) (V0 IE IEZ : Om -> R) (w : Om) : R := v_of (with_v0 par (V0 w)) t (IE w) (IEZ w).

(** values of the symbols of the keys of cmoment_v (E[v] second) and of moment_v(n, True) (theta second) *)
Definition stat_vals (par : srjd) : list R := [/ sk par; mean_v par; ssg par; slam par; smu par].
Definition stat_vals_theta (par : srjd) : list R := [/ sk par; sth par; ssg par; slam par; smu par].

(** V has the central moments returned by cmoment_v up to order n *)
Definition code_cmoments {Om} (par : srjd) (E : (Om -> R) -> R) (V : Om -> R) (n : nat) : Prop :=
  forall i, (i <= n)%nat -> exists q, stat_cmoment_v (Z.of_nat i) = Ok q /\
    E (fun w => (V w - mean_v par) ^ i) = eval (monx (stat_vals par)) (items q).

Definition scv (par : srjd) (Hk : sk par <> 0) : cv := mkCv (sk par) Hk 0 (mean_v par) (ssg par) (slam par) (smu par).

Lemma code_cst par Hk n : exists q, stat_cmoment_v (Z.of_nat n) = Ok q /\ keyfor q = ["k^{-}"; "E[v]"; "sigma"; "lmbd"; "mu_v"]%string /\
  eval (monx (stat_vals par)) (items q) = cst (scv par Hk) n.
Proof.
  destruct (returns_inv _ _ (stat_cmoment_v_sp (Z.of_nat n) ltac:(lia))) as (q & Eq & [K _] & V).
  exists q. split; [assumption|]. split; [exact K|]. specialize (V (scv par Hk)). rewrite Nat2Z.id in V. rewrite <- V. reflexivity.
Qed.
Lemma code_cmoments_iff {Om} par Hk (E : (Om -> R) -> R) V n : code_cmoments par E V n <->
  forall i, (i <= n)%nat -> E (fun w => (V w - mean_v par) ^ i) = cst (scv par Hk) i.
Proof.
  split; intros h i Hi; destruct (code_cst par Hk i) as (q & E1 & _ & E2).
  - destruct (h i Hi) as (q' & E3 & E4). rewrite E1 in E3. injection E3 as <-. rewrite E4. exact E2.
  - exists q. split; [assumption|]. rewrite (h i Hi). now symmetry.
Qed.

(** the tower step *)
Section Step.
Context {Om : Type} (E : (Om -> R) -> R) (HE : expectation E) (par : srjd) (Hk : sk par <> 0) (t : R) (Ht : 0 <= t)
  (V0 IE IEZ : Om -> R) (N : nat) (HJ : joint_moments par t E V0 IE IEZ N).
Definition m1 : R := mz1 (scv par Hk) t.

Lemma joint_JM c a b : (c + a + b <= N)%nat -> E (fun w => V0 w ^ c * (IE w ^ a * IEZ w ^ b))
  = E (fun w => V0 w ^ c * JM 1 (raw_cv (with_v0 par (V0 w)) Hk) (Z.of_nat a, Z.of_nat b) t).
Proof.
  destruct HJ as (M & HM & h). intro H. rewrite h by assumption. apply (E_ext E HE). intro w. f_equal. symmetry.
  apply raw_unique; [apply HM|split; cbn; lia|assumption].
Qed.
Lemma joint_shift c : forall d a b, (c + d + a + b <= N)%nat -> E (fun w => V0 w ^ d * (V0 w - mean_v par) ^ c * (IE w ^ a * IEZ w ^ b))
  = E (fun w => V0 w ^ d * (V0 w - mean_v par) ^ c * JM 1 (raw_cv (with_v0 par (V0 w)) Hk) (Z.of_nat a, Z.of_nat b) t).
Proof.
  induction c as [|c IH]; intros d a b H.
  - etransitivity; [|etransitivity; [apply (joint_JM d a b); lia|]]; apply (E_ext E HE); intro w; simpl; ring.
  - transitivity (E (fun w => V0 w ^ S d * (V0 w - mean_v par) ^ c * (IE w ^ a * IEZ w ^ b))
      + (- mean_v par) * E (fun w => V0 w ^ d * (V0 w - mean_v par) ^ c * (IE w ^ a * IEZ w ^ b))).
    { rewrite <- (E_scal E HE), <- (E_plus E HE). apply (E_ext E HE). intro w. simpl. ring. }
    rewrite !IH by lia. rewrite <- (E_scal E HE), <- (E_plus E HE). apply (E_ext E HE). intro w. simpl. ring.
Qed.
Lemma raw_vc x : vc (raw_cv (with_v0 par x) Hk) = cva (scv par Hk) (x - mean_v par).
Proof.
  unfold vc, raw_cv, cva, scv, with_v0, mean_v. cbn [sk sv0 sth ssg slam smu ck ckn ca cb csg clam cmu].
  f_equal; unfold Rdiv; ring.
Qed.
Lemma joint_central c a b : (c + a + b <= N)%nat -> E (fun w => (V0 w - mean_v par) ^ c * (IE w ^ a * (IEZ w - m1) ^ b))
  = E (fun w => (V0 w - mean_v par) ^ c * Ms 2 (cva (scv par Hk) (V0 w - mean_v par)) (Z.of_nat a) t b).
Proof.
  intro H.
  transitivity (sumR (fun j => (IZR (combN b j) * epow (- m1) j) * E (fun w => (V0 w - mean_v par) ^ c * (IE w ^ a * IEZ w ^ (b - j)))) (seq 0 (S b))).
  { rewrite (sumR_ext _ (fun j => E (fun w => (IZR (combN b j) * epow (- m1) j) * ((V0 w - mean_v par) ^ c * (IE w ^ a * IEZ w ^ (b - j)))))).
    2: { intros j _. now rewrite (E_scal E HE). }
    rewrite <- (E_sumR E HE). apply (E_ext E HE). intro w. replace (IEZ w - m1) with (- m1 + IEZ w) by ring.
    rewrite <- bc_epow. unfold bc. rewrite <- !sumR_scal. apply sumR_ext. intros j _. unfold epow. ring. }
  transitivity (sumR (fun j => (IZR (combN b j) * epow (- m1) j) * E (fun w => (V0 w - mean_v par) ^ c * Ms 1 (raw_cv (with_v0 par (V0 w)) Hk) (Z.of_nat a) t (b - j))) (seq 0 (S b))).
  { apply sumR_ext. intros j Hj. apply in_seq in Hj. f_equal. pose proof (joint_shift c 0 a (b - j) ltac:(lia)) as Q.
    etransitivity; [|etransitivity; [exact Q|]]; apply (E_ext E HE); intro w; unfold Ms; simpl; ring. }
  rewrite (sumR_ext _ (fun j => E (fun w => (IZR (combN b j) * epow (- m1) j) * ((V0 w - mean_v par) ^ c * Ms 1 (raw_cv (with_v0 par (V0 w)) Hk) (Z.of_nat a) t (b - j))))).
  2: { intros j _. now rewrite (E_scal E HE). }
  rewrite <- (E_sumR E HE). apply (E_ext E HE). intro w. unfold Ms at 2. rewrite <- raw_vc.
  rewrite central_link by (auto; lia). unfold bc. rewrite <- sumR_scal. apply sumR_ext. intros j _. unfold m1, mz1, scv, raw_cv, with_v0.
  cbn [sk sv0 sth ssg slam smu ck clam cmu]. ring.
Qed.
Lemma step_value n : (n <= N)%nat -> E (fun w => (v_next par t V0 IE IEZ w - mean_v par) ^ n)
  = exp (- (sk par * t)) ^ n * E (fun w => W (cva (scv par Hk) (V0 w - mean_v par)) t n).
Proof.
  intro Hn. set (e := exp (- (sk par * t))).
  pose proof (Wf_joint E (fun w => V0 w - mean_v par) IE (fun w => IEZ w - m1) (ssg par) HE n
    (fun a i j => Ms 2 (cva (scv par Hk) a) (Z.of_nat i) t j) 0 0 0) as Q.
  rewrite (E_ext E HE (fun w => W (cva (scv par Hk) (V0 w - mean_v par)) t n)
    (fun w => (V0 w - mean_v par) ^ 0 * Wf (V0 w - mean_v par) (ssg par) n (fun i j => Ms 2 (cva (scv par Hk) (V0 w - mean_v par)) (Z.of_nat i) t j))).
  2: { intro w. unfold W. cbn [cva ca csg scv]. simpl. ring. }
  rewrite Q.
  - rewrite <- (E_scal E HE). apply (E_ext E HE). intro w. rewrite !pow_O, !Rmult_1_l. rewrite <- Rpow_mult_distr. f_equal.
    unfold v_next, v_of, with_v0, m1, mz1, scv, mean_v. cbn [sk sv0 sth ssg slam smu ck clam cmu]. fold e.
    unfold e. rewrite exp_Ropp. field. split; [assumption|apply exp_neq0].
  - intros c i j H. rewrite <- joint_central by lia. apply (E_ext E HE). intro w. now rewrite !Nat.add_0_r.
Qed.
End Step.

(** C31: if the initial value has the central moments returned by cmoment_v up to order n, then the value at
    any later time has the same ones; the code never raises (in particular its self-checks pass). *)
Theorem C31_stationary : forall n par t Om (E : (Om -> R) -> R) V0 IE IEZ,
  sk par <> 0 -> 0 <= t -> expectation E -> joint_moments par t E V0 IE IEZ n ->
  code_cmoments par E V0 n -> code_cmoments par E (v_next par t V0 IE IEZ) n.
Proof.
  intros n par t Om E V0 IE IEZ Hk Ht HE HJ h. apply (code_cmoments_iff par Hk). rewrite (code_cmoments_iff par Hk) in h.
  intros i Hi. rewrite (step_value E HE par Hk t Ht V0 IE IEZ n HJ i Hi).
  pose proof (E_W_step E (fun w => V0 w - mean_v par) (scv par Hk) t i HE ltac:(intros; apply h; lia)) as Q. cbn [scv ck] in Q.
  cbv zeta in Q. fold (scv par Hk) in Q. rewrite Q, (h i Hi). ring.
Qed.

(** ... and these are the only moments with this property, even at a single time t > 0 *)
Theorem C31_unique : forall n par t Om (E : (Om -> R) -> R) V0 IE IEZ,
  sk par <> 0 -> 0 < t -> expectation E -> joint_moments par t E V0 IE IEZ n -> E (fun _ => 1) = 1 ->
  (forall i, (i <= n)%nat -> E (fun w => (v_next par t V0 IE IEZ w - mean_v par) ^ i) = E (fun w => (V0 w - mean_v par) ^ i)) ->
  code_cmoments par E V0 n.
Proof.
  intros n par t Om E V0 IE IEZ Hk Ht HE HJ h1 h. apply (code_cmoments_iff par Hk).
  intro i. induction i as [i IH] using lt_wf_ind. intro Hi. destruct i as [|i].
  { rewrite cst_0, <- h1. apply (E_ext E HE). reflexivity. }
  pose proof (E_W_step E (fun w => V0 w - mean_v par) (scv par Hk) t (S i) HE ltac:(intros; apply IH; lia)) as Q. cbn [scv ck] in Q.
  cbv zeta in Q. fold (scv par Hk) in Q. rewrite <- (step_value E HE par Hk t ltac:(lra) V0 IE IEZ n HJ (S i) Hi), h in Q by assumption.
  set (e := exp (- (sk par * t))) in *.
  assert (He : e ^ S i <> 1).
  { unfold e. rewrite exp_pow_mul, <- exp_0. intro A. apply exp_inv in A.
    assert (INR (S i) <> 0) by (apply not_0_INR; lia). apply Rmult_integral in A. destruct A as [A|A]; [auto|].
    assert (sk par * t = 0) as B by lra. apply Rmult_integral in B. destruct B; [auto|lra]. }
  apply (Rmult_eq_reg_l (1 - e ^ S i)); [|lra]. lra.
Qed.

(** the code returns a polynomial over the documented symbols for every order, and rejects negative orders *)
Theorem C31_cmoment_v : forall n, (0 <= n)%Z -> exists p, stat_cmoment_v n = Ok p /\
  keyfor p = ["k^{-}"; "E[v]"; "sigma"; "lmbd"; "mu_v"]%string /\
  Forall (fun kv => length (fst kv) = 5%nat /\ Forall (Z.le 0) (fst kv)) (items p) /\ NoDup (map fst (items p)).
Proof.
  intros n Hn. destruct (returns_inv _ _ (stat_cmoment_v_sp n Hn)) as (p & E & (K & U & A) & _).
  exists p. split; [assumption|]. split; [exact K|]. split; [|exact U]. apply Forall_forall. intros [k x] Hin.
  pose proof (allk_in _ _ k x A Hin) as Hk. split; [exact (wfs_length _ _ Hk)|]. unfold P5 in Hk. wfs_destruct.
  cbn [fst]. repeat (apply Forall_cons; [assumption|]). apply Forall_nil.
Qed.
Theorem C31_negative : forall n b, (n < 0)%Z -> stat_cmoment_v n = Err ValueError /\ stat_moment_v n b = Err ValueError.
Proof.
  intros n b Hn. unfold stat_cmoment_v, stat_moment_v. destruct (Z.ltb_spec n 0); [|lia]. now split.
Qed.

(** moment_v(n) is the moment about zero of every V with the central moments of cmoment_v *)
Theorem C31_moment_v : forall n, (0 <= n)%Z -> exists p q, stat_moment_v n false = Ok p /\ stat_moment_v n true = Ok q /\
  keyfor p = ["k^{-}"; "E[v]"; "sigma"; "lmbd"; "mu_v"]%string /\
  keyfor q = ["k^{-}"; "theta"; "sigma"; "lmbd"; "mu_v"]%string /\
  forall par Om (E : (Om -> R) -> R) V, sk par <> 0 -> expectation E -> code_cmoments par E V (Z.to_nat n) ->
    eval (monx (stat_vals par)) (items p) = E (fun w => V w ^ Z.to_nat n) /\
    eval (monx (stat_vals_theta par)) (items q) = E (fun w => V w ^ Z.to_nat n).
Proof.
  intros n Hn. destruct (returns_inv _ _ (stat_moment_v_false n Hn)) as (p & Ep & [Kp _] & Vp).
  destruct (returns_inv _ _ (stat_moment_v_true n Hn)) as (q & Eq & [Kq _] & Vq).
  exists p, q. split; [assumption|]. split; [assumption|]. split; [exact Kp|]. split; [exact Kq|].
  intros par Om E V Hk HE h. rewrite (code_cmoments_iff par Hk) in h.
  assert (Em : mst (scv par Hk) n = E (fun w => V w ^ Z.to_nat n)).
  { rewrite (E_ext E HE _ (fun w => sumR (fun i => (IZR (mcomb n i) * pw (mean_v par) (n - i)) * (V w - mean_v par) ^ Z.to_nat i) (range 0 (n + 1)))).
    - rewrite (E_sumR E HE). unfold mst. apply sumR_ext. intros i Hi. apply in_range in Hi. rewrite (E_scal E HE), h by lia. cbn [scv cb]. ring.
    - intro w. replace (V w) with (V w - mean_v par + mean_v par) at 1 by ring. rewrite <- pw_Zpos by lia. rewrite <- binomial_pw by lia.
      apply sumR_ext. intros i Hi. apply in_range in Hi. rewrite (pw_Zpos (V w - mean_v par)) by lia. ring. }
  rewrite <- Em. split; [exact (Vp (scv par Hk))|]. exact (Vq (scv par Hk) (sth par) eq_refl).
Qed.

(** a stationary joint law exists for every order *)
Example C31_law_exists : forall n par t, sk par <> 0 -> exists Om (E : (Om -> R) -> R) V0 IE IEZ,
  expectation E /\ joint_moments par t E V0 IE IEZ n /\ code_cmoments par E V0 n /\ E (fun _ => 1) = 1.
Proof.
  intros n par t Hk. set (E0 := Efin (realise1 n (cst (scv par Hk)))). assert (H0 : expectation E0) by apply Efin_expectation.
  set (V := fun a => mean_v par + a).
  set (tab := fun a ns => match ns with [i; j] => JM 1 (raw_cv (with_v0 par (V a)) Hk) (i, j) t | _ => 0 end).
  set (Kn := fun a => realise n 2 (tab a)).
  assert (HK : forall a i j, (i + j <= n)%nat -> Efin (Kn a) (fun xs => nth 0 xs 0 ^ i * nth 1 xs 0 ^ j) = JM 1 (raw_cv (with_v0 par (V a)) Hk) (Z.of_nat i, Z.of_nat j) t).
  { intros a i j Hij. change (JM 1 (raw_cv (with_v0 par (V a)) Hk) (Z.of_nat i, Z.of_nat j) t) with (tab a [Z.of_nat i; Z.of_nat j]).
    rewrite <- (realise_spec n 2 (tab a) [Z.of_nat i; Z.of_nat j]); [|reflexivity|repeat (apply Forall_cons; [lia|]); apply Forall_nil].
    unfold Efin. apply sumR_ext. intros [r xs] Hin. cbn [fst snd]. f_equal.
    pose proof (realise_len _ _ _ _ _ Hin) as Hl. destruct xs as [|x [|y [|? ?]]]; try discriminate.
    cbn [powprod nth]. rewrite !Nat2Z.id. ring. }
  assert (H1 : forall a, Efin (Kn a) (fun _ => 1) = 1).
  { intro a. transitivity (JM 1 (raw_cv (with_v0 par (V a)) Hk) (0, 0)%Z t).
    - etransitivity; [|exact (HK a 0%nat 0%nat ltac:(lia))]. apply (E_ext _ (Efin_expectation _)). intro. simpl. ring.
    - pose proof (Ms_z 1 ltac:(lia) iezm iezm_fam (raw_cv (with_v0 par (V a)) Hk) 0%nat t) as Q. unfold Ms in Q. cbn [Z.of_nat] in Q. rewrite Q. apply iezm_0. }
  exists (R * list R)%type, (Ekern E0 Kn), (fun p => V (fst p)), (fun p => nth 0 (snd p) 0), (fun p => nth 1 (snd p) 0).
  split; [now apply Ekern_expectation|].
  assert (Ho : forall i, (i <= n)%nat -> Ekern E0 Kn (fun p => fst p ^ i) = cst (scv par Hk) i).
  { intros i Hi. rewrite (Ekern_old E0 Kn (fun a => a ^ i) H0 H1). now apply realise1_spec. }
  split; [|split].
  - exists (fun x => JM 1 (raw_cv (with_v0 par x) Hk)). split.
    + intro x. set (v := raw_cv (with_v0 par x) Hk).
      apply (vsol_exists jd_dom (csys 1 v) jd_init cord (csys_tri 1 ltac:(lia) v) (csys_cont 1 v)).
    + intros c a b H. rewrite (Ekern_tower E0 Kn (fun x => V x ^ c) (fun xs => nth 0 xs 0 ^ a * nth 1 xs 0 ^ b) _ H0 (fun w => HK w a b ltac:(lia))).
      symmetry. apply (Ekern_old E0 Kn (fun x => V x ^ c * JM 1 (raw_cv (with_v0 par (V x)) Hk) (Z.of_nat a, Z.of_nat b) t) H0 H1).
  - apply (code_cmoments_iff par Hk). intros i Hi. rewrite <- (Ho i Hi). apply (E_ext _ (Ekern_expectation E0 Kn H0)).
    intro w. unfold V. f_equal. ring.
  - exact (Ho 0%nat ltac:(lia)).
Qed.
(** the second central moment: lmbd mu_v^2 / k + sigma^2 E[v] / (2k) *)
Example C31_example : stat_cmoment_v 2
  = Ok (mkPoly [([1; 0; 0; 1; 2], 1%Q); ([1; 1; 2; 0; 0], (1 # 2)%Q)]%Z ["k^{-}"; "E[v]"; "sigma"; "lmbd"; "mu_v"]%string).
Proof. vm_compute. reflexivity. Qed.
Example C31_example4 : match stat_cmoment_v 4 with Ok p => length (items p) = 7%nat | Err _ => False end.
Proof. vm_compute. reflexivity. Qed.
