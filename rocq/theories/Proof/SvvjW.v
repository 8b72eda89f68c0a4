(** C34, C43: the tables of SVVJ and SVIJ moments in terms of expectations. *)
From Coq Require Import Reals Lra.
From Verif.Spec Require Import Svvj Cpp.
From Verif.Model Require Import Svvj.
From Verif.Proof Require Export SvvjSimp.
Import Verif.Model.Svvj.
Local Open Scope R_scope.

(** What is assumed about the moments of IE, I, I* up to order n. *)
Definition world : Type :=
  forall Om : Type, ((Om -> R) -> R) -> svpar -> path -> Z -> (Om -> R) -> (Om -> R) -> (Om -> R) -> Prop.

(** the moments are the values of the polynomials of moment_IEII *)
Definition given_code : world := fun Om E p z n IE I Is => exists val, joint3 E val n IE I Is /\
  forall a b d, (0 <= a)%Z -> (0 <= b)%Z -> (0 <= d)%Z -> (a + b + d <= n)%Z ->
    returns (jmoment_IEII a b d) (fun q => eval (jmon (svz p) z (svh p)) (items q) = val (a, b, d)).
(** the moments are those given v_0 and the jump path *)
Definition given_path : world := fun Om E p z n IE I Is =>
  0 <= svh p /\ jumps_ok z /\ cond_path E p z n IE I Is.

Definition kf_sv13 : list string :=
  ["e^{kt}"; "t"; "k^{-}"; "v0-theta"; "theta"; "sigma"; "l_{1:n}"; "o_{1:n}"; "p_{2:n}"; "q_{2:n}";
   "sigma/2k"; "rho-sigma/2k"; "sqrt(1-rho^2)"]%string.
Definition kf_sv15 : list string :=
  ["e^{kt}"; "t"; "k^{-}"; "beta_t"; "mu-theta/2"; "v0-theta"; "theta"; "sigma"; "l_{1:n}"; "o_{1:n}"; "p_{2:n}"; "q_{2:n}";
   "sigma/2k"; "rho-sigma/2k"; "sqrt(1-rho^2)"]%string.
Definition kf_j3 : list string := ["lmbd_s"; "mu_s"; "sigma_s"]%string.

(** q is the n-th central moment of the return; the central moments of order 0 and 1 are the
    constants 1 and 0 *)
Definition is_cmoment (W : world) (n : Z) (q : Poly svkey) : Prop :=
  keyfor q = kf_sv13 /\ uniq (items q) /\ (forall k, In k (keys (items q)) -> svok 6 3 k) /\
  forall Om E p z (IE I Is : Om -> R), svk p <> 0 -> expectation E -> W Om E p z n IE I Is ->
    eval (cmon_sv p z) (items q) = E (fun w => (sv_ret p z (IE w) (I w) (Is w) - sv_mean p z) ^ Z.to_nat n) /\
    ((1 <= n)%Z -> E (fun w => sv_ret p z (IE w) (I w) (Is w)) = sv_mean p z).
Definition is_moment (W : world) (n : Z) (q : Poly svkey) : Prop :=
  keyfor q = kf_sv15 /\ uniq (items q) /\ (forall k, In k (keys (items q)) -> svok 8 3 k) /\
  forall Om E p z (IE I Is : Om -> R), svk p <> 0 -> expectation E -> W Om E p z n IE I Is ->
    eval (mon_sv p z) (items q) = E (fun w => sv_ret p z (IE w) (I w) (Is w) ^ Z.to_nat n).

(** J is a compound Poisson sum over [0, h] independent of the return *)
Definition jump_part {Om} (E : (Om -> R) -> R) (p : svpar) (z : path) (n : Z) (IE I Is J : Om -> R) (lam mus sgs : R) : Prop :=
  cpp_moments E (Z.to_nat n) (lam * svh p) mus sgs J /\ indep E (Z.to_nat n) (fun w => sv_ret p z (IE w) (I w) (Is w)) J.
Definition is_ij_cmoment (W : world) (n : Z) (q : Poly svkey) : Prop :=
  keyfor q = kf_sv13 ++ kf_j3 /\ uniq (items q) /\ (forall k, In k (keys (items q)) -> svok 6 6 k) /\
  forall Om E p z (IE I Is J : Om -> R) lam mus sgs, svk p <> 0 -> expectation E -> W Om E p z n IE I Is ->
    jump_part E p z n IE I Is J lam mus sgs ->
    eval (svmon (zvals (svz p) (svh p)) (svij_lst p lam mus sgs) p z) (items q)
    = E (fun w => (sv_ret p z (IE w) (I w) (Is w) + J w - (sv_mean p z + lam * svh p * mus)) ^ Z.to_nat n) /\
    ((1 <= n)%Z -> E (fun w => sv_ret p z (IE w) (I w) (Is w) + J w) = sv_mean p z + lam * svh p * mus).
Definition is_ij_moment (W : world) (n : Z) (q : Poly svkey) : Prop :=
  keyfor q = kf_sv15 ++ kf_j3 /\ uniq (items q) /\ (forall k, In k (keys (items q)) -> svok 8 6 k) /\
  forall Om E p z (IE I Is J : Om -> R) lam mus sgs, svk p <> 0 -> expectation E -> W Om E p z n IE I Is ->
    jump_part E p z n IE I Is J lam mus sgs ->
    eval (svmon (sv8 p) (svij_lst p lam mus sgs) p z) (items q)
    = E (fun w => (sv_ret p z (IE w) (I w) (Is w) + J w) ^ Z.to_nat n).

(** a list whose n-th entry, n <= hi, is as stated; n <= N *)
Definition is_table {K} (N hi : Z) (P : Z -> Poly K -> Prop) (cs : list (Poly K)) : Prop :=
  length cs = Z.to_nat (hi + 1) /\
  forall n, (0 <= n <= hi)%Z -> (n <= N)%Z -> exists q, nth_error cs (Z.to_nat n) = Some q /\ P n q.

Lemma lastp_sp {A} (l : list A) x : nth_error l (pred (length l)) = Some x -> lastp l = Ok x.
Proof.
  unfold lastp. induction l as [|y l IH]; [discriminate|]. cbn [length pred map last]. destruct l as [|y' l].
  - cbn. congruence.
  - intro H. cbn [map]. cbn [length pred] in IH. apply IH. exact H.
Qed.
Lemma table_last {K} N hi P (r : res (list (Poly K))) : (0 <= hi <= N)%Z -> returns r (is_table N hi P) ->
  returns (let! cs := r in lastp cs) (P hi).
Proof.
  intros Hh H. eapply returns_bind; [exact H|]. intros cs [Hl Hn]. destruct (Hn hi ltac:(lia) ltac:(lia)) as (q & Eq & Pq).
  rewrite (lastp_sp cs q); [exact Pq|]. rewrite Hl. replace (pred (Z.to_nat (hi + 1))) with (Z.to_nat hi) by lia. exact Eq.
Qed.

Section W.
Context (iez : Q -> Z -> Poly jkey -> res (Poly jkey)).
Hypothesis HJ : forall i, zdom i -> returns (Jm iez i) (wfJ i).
Variables (N : Z) (W : world).
Hypothesis HW : forall Om E p z n (IE I Is : Om -> R), svk p <> 0 -> (n <= N)%Z -> W Om E p z n IE I Is ->
  joint3 E (fun i => Jv iez i (svz p) z (svh p)) n IE I Is.

Lemma w_sv_c l : returns (sv_cmoments_with iez l) (is_table N (Z.max 1 l) (is_cmoment W)).
Proof.
  eapply returns_weaken; [apply (sv_cmoments_tab iez HJ l)|]. intros cs (Hl & Ht & Hv). split; [exact Hl|].
  intros n Hn HN. destruct (Ht n Hn) as (q & Eq & K & U & A). exists q. split; [exact Eq|].
  split; [exact K|]. split; [exact U|]. split; [exact A|]. intros Om E p z IE I Is Hk HE w.
  pose proof (HW Om E p z n IE I Is Hk HN w) as HT. split.
  - rewrite <- (Cv_cen iez n p z Om E IE I Is Hk HE HT n) by lia.
    rewrite <- (Hv n Hn p z). unfold tabv. now rewrite Eq.
  - intro h. exact (sv_E_mean iez n p z Om E IE I Is Hk HE HT h).
Qed.
Lemma w_sv_m l : returns (sv_moments_with iez l) (is_table N (Z.max 0 l) (is_moment W)).
Proof.
  eapply returns_weaken; [apply (sv_moments_tab iez HJ l)|]. intros cs (Hl & Ht & Hv). split; [exact Hl|].
  intros n Hn HN. destruct (Ht n Hn) as (q & Eq & K & U & A). exists q. split; [exact Eq|].
  split; [exact K|]. split; [exact U|]. split; [exact A|]. intros Om E p z IE I Is Hk HE w.
  pose proof (HW Om E p z n IE I Is Hk HN w) as HT.
  rewrite <- (Mv_E iez n p z Om E IE I Is Hk HE HT n) by lia. rewrite <- (Hv n Hn p z). unfold tabv. now rewrite Eq.
Qed.
Lemma w_ij_c l : returns (svij_cmoments_with iez l) (is_table N (Z.max 1 l) (is_ij_cmoment W)).
Proof.
  eapply returns_weaken; [apply (svij_cmoments_tab iez HJ l)|]. intros cs (Hl & Ht & Hv). split; [exact Hl|].
  intros n Hn HN. destruct (Ht n Hn) as (q & Eq & K & U & A). exists q. split; [exact Eq|].
  split; [exact K|]. split; [exact U|]. split; [exact A|]. intros Om E p z IE I Is J lam mus sgs Hk HE w [Hc Hi].
  pose proof (HW Om E p z n IE I Is Hk HN w) as HT. split.
  - rewrite <- (conv_c iez n p z Om E IE I Is Hk HE HT lam mus sgs J (Z.to_nat n) Hc Hi n) by lia.
    rewrite <- (Hv n Hn p z lam mus sgs). unfold tabv. now rewrite Eq.
  - intro h. exact (sv_J_mean iez n p z Om E IE I Is Hk HE HT lam mus sgs J (Z.to_nat n) Hc h ltac:(lia)).
Qed.
Lemma w_ij_m l : returns (svij_moments_with iez l) (is_table N (Z.max 0 l) (is_ij_moment W)).
Proof.
  eapply returns_weaken; [apply (svij_moments_tab iez HJ l)|]. intros cs (Hl & Ht & Hv). split; [exact Hl|].
  intros n Hn HN. destruct (Ht n Hn) as (q & Eq & K & U & A). exists q. split; [exact Eq|].
  split; [exact K|]. split; [exact U|]. split; [exact A|]. intros Om E p z IE I Is J lam mus sgs Hk HE w [Hc Hi].
  pose proof (HW Om E p z n IE I Is Hk HN w) as HT.
  rewrite <- (conv_m iez n p z Om E IE I Is Hk HE HT lam mus sgs J (Z.to_nat n) Hc Hi n) by lia.
  rewrite <- (Hv n Hn p z lam mus sgs). unfold tabv. now rewrite Eq.
Qed.
End W.

Lemma HJ_code i : zdom i -> returns (Jm int_e_IEZ_poly i) (wfJ i).
Proof.
  destruct i as [[a b] d]. intros (h1 & h2 & h3). eapply returns_weaken; [now apply (jmoment_code a b d)|]. now intros q [h _].
Qed.
Lemma HJ_fixed i : zdom i -> returns (Jm iez_fixed i) (wfJ i).
Proof.
  destruct i as [[a b] d]. intros (h1 & h2 & h3). eapply returns_weaken; [now apply (jmoment_fixed a b d)|]. now intros q [h _].
Qed.
Lemma HW_code N Om E p z n (IE I Is : Om -> R) : svk p <> 0 -> (n <= N)%Z -> given_code Om E p z n IE I Is ->
  joint3 E (fun i => Jv int_e_IEZ_poly i (svz p) z (svh p)) n IE I Is.
Proof.
  intros _ _ (val & HT & Hv) a b d h1 h2 h3 h4. rewrite (HT a b d h1 h2 h3 h4). specialize (Hv a b d h1 h2 h3 h4).
  unfold Jv, Jm. cbn [fst snd]. change (jmoment_IEII_with int_e_IEZ_poly a b d) with (jmoment_IEII a b d).
  destruct (jmoment_IEII a b d); [now symmetry|destruct Hv].
Qed.
Lemma Jv_fixed a b d p z M t : (0 <= a)%Z -> (0 <= b)%Z -> (0 <= d)%Z -> jsol p z M -> 0 <= t -> Jv iez_fixed (a, b, d) p z t = M (a, b, d) t.
Proof.
  intros h1 h2 h3 HM Ht. unfold Jv, Jm. cbn [fst snd]. pose proof (jmoment_fixed a b d h1 h2 h3) as h.
  destruct (jmoment_IEII_with iez_fixed a b d) as [q|]; [|destruct h]. destruct h as [_ h].
  destruct (h ltac:(discriminate)) as [_ h']. now apply h'.
Qed.
Lemma HW_fixed N Om E p z n (IE I Is : Om -> R) : svk p <> 0 -> (n <= N)%Z -> given_path Om E p z n IE I Is ->
  joint3 E (fun i => Jv iez_fixed i (svz p) z (svh p)) n IE I Is.
Proof.
  intros Hk _ (Hh & Hz & M & HM & HT) a b d h1 h2 h3 h4. rewrite (HT a b d h1 h2 h3 h4). symmetry. apply Jv_fixed; try assumption.
  now repeat split.
Qed.
Lemma HW_code3 Om E p z n (IE I Is : Om -> R) : svk p <> 0 -> (n <= 3)%Z -> given_path Om E p z n IE I Is ->
  joint3 E (fun i => Jv int_e_IEZ_poly i (svz p) z (svh p)) n IE I Is.
Proof.
  intros Hk Hn w a b d h1 h2 h3 h4. rewrite (HW_fixed 3 Om E p z n IE I Is Hk Hn w a b d h1 h2 h3 h4).
  unfold Jv, Jm. cbn [fst snd]. change (jmoment_IEII_with int_e_IEZ_poly a b d) with (jmoment_IEII a b d).
  now rewrite jmoment_code_3 by lia.
Qed.

(** ** order 4 *)
Definition psv : svpar := mkSv p2 0 (/ (2 * ln 2)) 2.
Definition Dj (i : zidx) : R := Jv int_e_IEZ_poly i p2 z2 2 - Jv iez_fixed i p2 z2 2.
Lemma Dj_val i r : zdom i -> pdiff (Jm int_e_IEZ_poly i) (Jm iez_fixed i) = Ok r -> Dj i = eval (jmon p2 z2 2) (items r).
Proof.
  intros Hi E. unfold Dj, Jv. pose proof (HJ_code i Hi) as h1. pose proof (HJ_fixed i Hi) as h2.
  destruct (Jm int_e_IEZ_poly i) as [a|]; [|destruct h1]. destruct (Jm iez_fixed i) as [b|]; [|destruct h2].
  apply pdiff_val; [apply h1|apply h2|exact E].
Qed.
Ltac dj i := erewrite (Dj_val i); [|now repeat split|vm_compute; reflexivity]; cbn [items eval].
Lemma qm1 : Q2R (-1) = -1. Proof. unfold Q2R; simpl; lra. Qed.
Lemma q1 : Q2R 1 = 1. Proof. unfold Q2R; simpl; lra. Qed.
Lemma Dj_400 : Dj (4, 0, 0)%Z = 0.
Proof. dj (4, 0, 0)%Z. reflexivity. Qed.
Lemma Dj_301 : Dj (3, 0, 1)%Z = 0.
Proof. dj (3, 0, 1)%Z. reflexivity. Qed.
Lemma Dj_103 : Dj (1, 0, 3)%Z = 0.
Proof. dj (1, 0, 3)%Z. reflexivity. Qed.
Lemma pw_i1 x : pw x (-1) = / x.
Proof. change (-1)%Z with (Z.opp 1). rewrite pw_inv_neg. unfold pw. simpl. ring. Qed.
Lemma Dj_202 : Dj (2, 0, 2)%Z = - 4 * (/ ln 2) ^ 2.
Proof. dj (2, 0, 2)%Z. rewrite !jmon_2, qm1, q1. unfold pw. simpl. ring. Qed.
Lemma Dj_004 : Dj (0, 0, 4)%Z = - (3 / 2) * (/ ln 2) ^ 2.
Proof. dj (0, 0, 4)%Z. rewrite !jmon_2, q6, qm6, !pw_i1. unfold pw. simpl. field. apply ln2_nz. Qed.

Lemma Cv4_diff : Cv int_e_IEZ_poly 4 psv z2 - Cv iez_fixed 4 psv z2 < 0.
Proof.
  unfold Cv. set (x1 := nth 0 (sv3 psv) 0). set (x3 := nth 2 (sv3 psv) 0).
  assert (E2 : nth 1 (sv3 psv) 0 = 0).
  { unfold sv3, psv, svk. cbn [svz svrho zpk zpsg p2 nth]. field. apply ln2_nz. }
  rewrite E2. pose proof ln_lt_2 as L.
  assert (H1 : x1 = / (2 * ln 2)).
  { unfold x1, sv3, psv, svk. cbn [svz svrho zpk zpsg p2 nth]. field. apply ln2_nz. }
  assert (H2 : 0 < / (2 * ln 2) < 1).
  { split; [apply Rinv_0_lt_compat; lra|]. rewrite <- Rinv_1. apply Rinv_lt_contravar; lra. }
  assert (H3 : 0 < x3).
  { unfold x3, sv3, psv. cbn [svrho nth]. apply sqrt_lt_R0. set (r := / (2 * ln 2)) in *. nra. }
  assert (H4 : exp (- (svk psv * svh psv)) = / 4).
  { unfold psv, svk. cbn [svz svh zpk p2]. rewrite exp_Ropp. f_equal. replace (ln 2 * 2) with (ln 2 + ln 2) by ring. rewrite exp_plus, exp_ln by lra. ring. }
  change (rcomp 2 4) with [[4;0;0];[3;1;0];[3;0;1];[2;2;0];[2;1;1];[2;0;2];[1;3;0];[1;2;1];[1;1;2];[1;0;3];[0;4;0];[0;3;1];[0;2;2];[0;1;3];[0;0;4]]%Z.
  cbn [sumR svterm]. rewrite H4. change (svz psv) with p2. change (svh psv) with 2.
  assert (G : forall j, (0 < j)%Z -> pw 0 j = 0) by (intros j Hj; rewrite pw_Zpos by lia; apply pow_ne_zero; lia).
  rewrite (G 1%Z), (G 2%Z), (G 3%Z), (G 4%Z) by lia.
  set (c := cmb 4) in *. change (c [4;0;0]%Z) with 1%Z. change (c [2;0;2]%Z) with 6%Z. change (c [0;0;4]%Z) with 1%Z.
  pose proof Dj_400 as d1. pose proof Dj_301 as d2. pose proof Dj_103 as d3. pose proof Dj_202 as d4. pose proof Dj_004 as d5.
  unfold Dj in *.
  match goal with |- ?X < 0 => replace X with
    (6 * (- 4 * (/ ln 2) ^ 2) * (pw (/ 4) 2 * pw x1 2 * pw 0 0 * pw x3 2) + (- (3 / 2) * (/ ln 2) ^ 2) * (pw (/ 4) 0 * pw x1 0 * pw 0 0 * pw x3 4)) end.
  - unfold pw. rewrite H1. set (u := / ln 2). assert (0 < u) by (apply Rinv_0_lt_compat; lra).
    simpl.
    assert (0 < u * u) by nra. assert (0 < x3 * x3) by nra. assert (0 < (x3 * x3) * (x3 * x3)) by nra.
    assert (0 < / (2 * ln 2) * / (2 * ln 2)) by nra. set (v := / (2 * ln 2)) in *.
    assert (0 < u * u * ((x3 * x3) * (x3 * x3))) by nra. assert (0 < (v * v) * (u * u)) by nra. assert (0 < (v * v) * (u * u) * (x3 * x3)) by nra. nra.
  - rewrite <- d4, <- d5.
    match type of d1 with ?a - ?b = 0 => assert (e1 : a = b) by lra; rewrite e1 end.
    match type of d2 with ?a - ?b = 0 => assert (e2 : a = b) by lra; rewrite e2 end.
    match type of d3 with ?a - ?b = 0 => assert (e3 : a = b) by lra; rewrite e3 end. ring.
Qed.
