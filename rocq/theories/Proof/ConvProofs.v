(** Binomial convolutions of polynomials: the jump models (C23, C28). *)
From Coq Require Import Reals Lra.
From Coquelicot Require Import Coquelicot.
From Verif.Spec Require Export Cpp.
From Verif.Model Require Export CppMom.
From Verif.Proof Require Export MonTac CppProofs.
Local Open Scope R_scope.

Definition P_3 : list Z -> Prop := wfs [true; true; true].
Definition mon_j (L mu s : R) (_ : unit) : list Z -> R := monx [L; mu; s].

Lemma nn3_P_3 l : nn3 l -> allk P_3 l.
Proof.
  intros h k Hk. specialize (h k Hk). destruct h as (h1 & h2 & h3 & h4).
  destruct k as [|a [|b [|c [|? ?]]]]; try discriminate. unfold nthZ in *. cbn [nth] in *. repeat split; assumption.
Qed.
Lemma monx3' x y z k : P_3 k -> monx [x; y; z] k = mon3 x y z k.
Proof. unfold P_3. intro h. wfs_destruct. unfold mon3, nthZ. simpl. ring. Qed.

Lemma mcpp_sp L mu s n : (0 <= n)%Z ->
  returns (mcpp n) (fun r => wfp P_3 kf_cpp r /\ evp (mon_j L mu s) tt r = Derive_n (mgf_cpp L mu (s ^ 2)) (Z.to_nat n) 0).
Proof.
  intro Hn. rewrite <- (Z2Nat.id n Hn) at 1. eapply returns_weaken; [apply mcpp_spec|].
  intros r (h1 & h2 & h3 & h4). pose proof (nn3_P_3 _ h2) as A. split; [split; auto|].
  unfold evp, mon_j. rewrite (eval_ext_in _ (mon3 L mu s)).
  - rewrite h4. change (mgf_cpp L mu (s ^ 2)) with (Fm L mu (s ^ 2)). rewrite mgf_derivative, Fm_0. ring.
  - intros k v Hin. apply monx3'. exact (allk_in _ _ k v A Hin).
Qed.
Lemma cmcpp_sp {Om} (E : (Om -> R) -> R) (HE : expectation E) L mu s J n : (0 <= n)%Z ->
  cpp_moments E (Z.to_nat n) L mu s J ->
  returns (cmcpp n) (fun r => wfp P_3 kf_cpp r /\ evp (mon_j L mu s) tt r = E (fun w => (J w - L * mu) ^ Z.to_nat n)).
Proof.
  intros Hn HJ. rewrite <- (Z2Nat.id n Hn) at 1. eapply returns_weaken; [apply cmcpp_spec|].
  intros r (h1 & h2 & h3 & h4). pose proof (nn3_P_3 _ h2) as A. split; [split; auto|].
  unfold evp, mon_j. rewrite (eval_ext_in _ (mon3 L mu s)).
  2: { intros k v Hin. apply monx3'. exact (allk_in _ _ k v A Hin). }
  rewrite h4. set (N := Z.to_nat n) in *.
  rewrite (E_ext _ HE _ (fun w => sumR (fun i => IZR (combN N i) * ((- (L * mu)) ^ (N - i) * J w ^ i)) (seq 0 (S N)))).
  - rewrite (E_sumR E HE (fun i w => IZR (combN N i) * ((- (L * mu)) ^ (N - i) * J w ^ i))).
    apply sumR_ext. intros i Hi. apply in_seq in Hi.
    rewrite (E_scal _ HE), (E_scal _ HE), HJ by lia.
    change (mgf_cpp L mu (s ^ 2)) with (Fm L mu (s ^ 2)). rewrite mgf_derivative, Fm_0. ring.
  - intro w. pose proof (binomial_range (J w) (- (L * mu)) n Hn) as B. fold N in B.
    replace (J w - L * mu) with (J w + - (L * mu)) by ring. rewrite B.
    unfold range. replace (Z.to_nat (n + 1 - 0)) with (S N) by lia.
    rewrite sumR_map. apply sumR_ext. intros i Hi. apply in_seq in Hi.
    unfold mcomb. rewrite Z.add_0_l, Nat2Z.id. fold N.
    replace (Z.to_nat (n - Z.of_nat i)) with (N - i)%nat by lia. ring.
Qed.

(** ** the loops *)
Section Conv.
Variables (P1 P2 P3 : list Z -> Prop) (mon1 mon2 mon3 : unit -> list Z -> R) (idx1 idx2 : list Z) (kf1 kf2 kf : list string).
Hypothesis Hidx : length idx1 = length idx2.
Hypothesis Hkey : forall k1 k2, P1 k1 -> P2 k2 -> P3 (kcomb_pure idx1 idx2 k1 k2) /\
     forall t, mon3 t (kcomb_pure idx1 idx2 k1 k2) = mon1 t k1 * mon2 t k2.

Lemma term_adds c (p q : Poly (list Z)) a b : wfp P1 kf1 p -> wfp P2 kf2 q -> evp mon1 tt p = a -> evp mon2 tt q = b ->
  adds (wfp P3 kf) (evp mon3) (fun poly => let! poln := mul_poly p q idx1 idx2 kf in merge poly (rmulZ c poln))
    (fun _ => IZR c * (a * b)).
Proof.
  intros Wp Wq Ep Eq. eapply adds_bind.
  - apply (mul_poly_sp P1 P2 P3 mon1 mon2 mon3); [exact Hidx|apply Wp|apply Wq|exact Hkey].
  - intros r [Wr Er]. destruct (rmul_sp P3 mon3 kf (qz c) r Wr) as [W' E'].
    eapply adds_ext; [apply (adds_merge P3 mon3 kf (rmulZ c r)); apply W'|].
    intros []. change (eval (mon3 tt) (items (rmulZ c r))) with (evp mon3 tt (rmul (qz c) r)). rewrite E', Er, Ep, Eq, Q2R_qz. reflexivity.
Qed.

Lemma conv_sp (f1 f2 : Z -> res (Poly (list Z))) (a b : Z -> R) l : (0 <= l)%Z ->
  (forall i, (0 <= i <= l)%Z -> returns (f1 i) (fun r => wfp P1 kf1 r /\ evp mon1 tt r = a i)) ->
  (forall i, (0 <= i <= l)%Z -> returns (f2 i) (fun r => wfp P2 kf2 r /\ evp mon2 tt r = b i)) ->
  returns (foldM (fun poly i =>
    let! coef := math_comb l i in
    let! pol1 := f1 i in
    let! pol2 := f2 (l - i)%Z in
    let! poln := mul_poly pol1 pol2 idx1 idx2 kf in
    merge poly (rmulZ coef poln)) (range 0 (l + 1)) (mkPoly [] kf))
  (fun r => wfp P3 kf r /\ evp mon3 tt r = sumR (fun i => IZR (mcomb l i) * (a i * b (l - i)%Z)) (range 0 (l + 1))).
Proof.
  intros Hl H1 H2. eapply returns_weaken.
  - apply (adds_foldM (wfp P3 kf) (evp mon3) _ (fun i _ => IZR (mcomb l i) * (a i * b (l - i)%Z))); [|apply wfp_nil].
    intros i Hi. apply in_range in Hi. rewrite math_comb_ok by lia. cbn [bind].
    eapply adds_bind; [apply H1; lia|]. intros p [Wp Ep]. eapply adds_bind; [apply H2; lia|]. intros q [Wq Eq].
    now apply (term_adds (mcomb l i) p q).
  - intros r [Wr Er]. split; [exact Wr|]. rewrite Er. unfold evp. cbn [items eval]. ring.
Qed.
End Conv.

(** the convolution is the moment of the sum *)
Lemma conv_E {Om} (E : (Om -> R) -> R) (HE : expectation E) (Y J : Om -> R) N l : (0 <= l)%Z -> (Z.to_nat l <= N)%nat -> indep E N Y J ->
  sumR (fun i => IZR (mcomb l i) * (E (fun w => Y w ^ Z.to_nat i) * E (fun w => J w ^ Z.to_nat (l - i)))) (range 0 (l + 1))
  = E (fun w => (Y w + J w) ^ Z.to_nat l).
Proof.
  intros Hl HN HI.
  rewrite (E_ext E HE (fun w => (Y w + J w) ^ Z.to_nat l)
    (fun w => sumR (fun i => IZR (mcomb l i) * (Y w ^ Z.to_nat i * J w ^ Z.to_nat (l - i))) (range 0 (l + 1))))
    by (intro w; now apply binomial_range).
  rewrite (E_sumR E HE (fun i w => IZR (mcomb l i) * (Y w ^ Z.to_nat i * J w ^ Z.to_nat (l - i)))).
  apply sumR_ext. intros i Hi. apply in_range in Hi. rewrite (E_scal E HE), HI by lia. reflexivity.
Qed.
(** two intervals *)
Lemma conv2_E {Om} (E : (Om -> R) -> R) (HE : expectation E) (Y0 Y1 J0 J1 : Om -> R) N l1 l2 :
  (0 <= l1)%Z -> (0 <= l2)%Z -> (Z.to_nat (l1 + l2) <= N)%nat -> indep3 E N Y0 Y1 J0 J1 ->
  sumR (fun i => sumR (fun j => IZR (mcomb l2 i * mcomb l1 j) * (E (fun w => Y0 w ^ Z.to_nat j * Y1 w ^ Z.to_nat i) *
     (E (fun w => J1 w ^ Z.to_nat (l2 - i)) * E (fun w => J0 w ^ Z.to_nat (l1 - j))))) (range 0 (l1 + 1))) (range 0 (l2 + 1))
  = E (fun w => (Y0 w + J0 w) ^ Z.to_nat l1 * (Y1 w + J1 w) ^ Z.to_nat l2).
Proof.
  intros Hl1 Hl2 HN HI.
  rewrite (E_ext E HE (fun w => (Y0 w + J0 w) ^ Z.to_nat l1 * (Y1 w + J1 w) ^ Z.to_nat l2)
    (fun w => sumR (fun i => sumR (fun j => IZR (mcomb l2 i * mcomb l1 j) *
      (Y0 w ^ Z.to_nat j * Y1 w ^ Z.to_nat i * (J0 w ^ Z.to_nat (l1 - j) * J1 w ^ Z.to_nat (l2 - i)))) (range 0 (l1 + 1))) (range 0 (l2 + 1)))).
  - rewrite (E_sumR E HE (fun i w => sumR (fun j => IZR (mcomb l2 i * mcomb l1 j) *
      (Y0 w ^ Z.to_nat j * Y1 w ^ Z.to_nat i * (J0 w ^ Z.to_nat (l1 - j) * J1 w ^ Z.to_nat (l2 - i)))) (range 0 (l1 + 1)))).
    apply sumR_ext. intros i Hi. apply in_range in Hi.
    rewrite (E_sumR E HE (fun j w => IZR (mcomb l2 i * mcomb l1 j) *
      (Y0 w ^ Z.to_nat j * Y1 w ^ Z.to_nat i * (J0 w ^ Z.to_nat (l1 - j) * J1 w ^ Z.to_nat (l2 - i))))).
    apply sumR_ext. intros j Hj. apply in_range in Hj. rewrite (E_scal E HE), HI by lia. ring.
  - intro w. rewrite (binomial_range (Y0 w) (J0 w) l1 Hl1), (binomial_range (Y1 w) (J1 w) l2 Hl2).
    rewrite Rmult_comm, <- sumR_scal_r. apply sumR_ext. intros i _. rewrite <- sumR_scal. apply sumR_ext. intros j _.
    rewrite mult_IZR. ring.
Qed.

Section Conv2.
Variables (P1 P2 P3 : list Z -> Prop) (mon1 mon2 mon3 : unit -> list Z -> R) (idx1 idx2 : list Z) (kf1 kf2 kf : list string).
Hypothesis Hidx : length idx1 = length idx2.
Hypothesis Hkey : forall k1 k2, P1 k1 -> P2 k2 -> P3 (kcomb_pure idx1 idx2 k1 k2) /\
     forall t, mon3 t (kcomb_pure idx1 idx2 k1 k2) = mon1 t k1 * mon2 t k2.
Hypothesis Hmul : forall k1 k2, P2 k1 -> P2 k2 -> (length k1 <= length k2)%nat /\ P2 (kadd_pure k1 k2) /\
     forall t, mon2 t (kadd_pure k1 k2) = mon2 t k1 * mon2 t k2.

Lemma conv2_sp (f1 : Z -> Z -> res (Poly (list Z))) (f2 : Z -> res (Poly (list Z))) (a : Z -> Z -> R) (b : Z -> R) l1 l2 :
  (0 <= l1)%Z -> (0 <= l2)%Z ->
  (forall i j, (0 <= i <= l1)%Z -> (0 <= j <= l2)%Z -> returns (f1 i j) (fun r => wfp P1 kf1 r /\ evp mon1 tt r = a i j)) ->
  (forall i, (0 <= i <= l1 + l2)%Z -> returns (f2 i) (fun r => wfp P2 kf2 r /\ evp mon2 tt r = b i)) ->
  returns (foldM (fun poly i =>
    foldM (fun poly j =>
      let! c2 := math_comb l2 i in
      let! c1 := math_comb l1 j in
      let coef := (c2 * c1)%Z in
      let! pol1 := f1 j i in
      let! pol2 := f2 (l2 - i)%Z in
      let! pol3 := f2 (l1 - j)%Z in
      let! pol23 := pmul pol2 pol3 in
      let! poln := mul_poly pol1 pol23 idx1 idx2 kf in
      merge poly (rmulZ coef poln)) (range 0 (l1 + 1)) poly) (range 0 (l2 + 1)) (mkPoly [] kf))
  (fun r => wfp P3 kf r /\ evp mon3 tt r = sumR (fun i => sumR (fun j => IZR (mcomb l2 i * mcomb l1 j) *
      (a j i * (b (l2 - i)%Z * b (l1 - j)%Z))) (range 0 (l1 + 1))) (range 0 (l2 + 1))).
Proof.
  intros Hl1 Hl2 H1 H2. eapply returns_weaken.
  - apply (adds_foldM (wfp P3 kf) (evp mon3) _ (fun i _ => sumR (fun j => IZR (mcomb l2 i * mcomb l1 j) *
      (a j i * (b (l2 - i)%Z * b (l1 - j)%Z))) (range 0 (l1 + 1)))); [|apply wfp_nil].
    intros i Hi. apply in_range in Hi.
    apply (adds_foldM (wfp P3 kf) (evp mon3) _ (fun j _ => IZR (mcomb l2 i * mcomb l1 j) *
      (a j i * (b (l2 - i)%Z * b (l1 - j)%Z)))).
    intros j Hj. apply in_range in Hj. rewrite !math_comb_ok by lia. cbn [bind]. cbv zeta.
    eapply adds_bind; [apply H1; lia|]. intros p [Wp Ep].
    eapply adds_bind; [apply (H2 (l2 - i)%Z); lia|]. intros q [Wq Eq].
    eapply adds_bind; [apply (H2 (l1 - j)%Z); lia|]. intros q' [Wq' Eq'].
    eapply adds_bind; [apply (pmul_sp P2 P2 P2 mon2 mon2 mon2 kf2 q q'); [apply Wq|apply Wq'|apply Wq|apply Wq'|exact Hmul]|].
    intros qq [Wqq Eqq]. specialize (Eqq tt). rewrite Eq, Eq' in Eqq.
    now apply (term_adds P1 P2 P3 mon1 mon2 mon3 idx1 idx2 kf1 kf2 kf Hidx Hkey (mcomb l2 i * mcomb l1 j) p qq).
  - intros r [Wr Er]. split; [exact Wr|]. rewrite Er. unfold evp. cbn [items eval]. ring.
Qed.
End Conv2.

(** ** centring *)
Lemma pow_minus (x c : R) n : (x - c) ^ n = sumR (fun i => IZR (mcomb (Z.of_nat n) i) * ((- c) ^ Z.to_nat (Z.of_nat n - i) * x ^ Z.to_nat i)) (range 0 (Z.of_nat n + 1)).
Proof.
  replace (x - c) with (x + - c) by ring. rewrite <- (Nat2Z.id n) at 1. rewrite (binomial_range x (- c) (Z.of_nat n)) by lia.
  apply sumR_ext. intros i _. ring.
Qed.
Lemma indep_shift {Om} (E : (Om -> R) -> R) (HE : expectation E) N (Y J : Om -> R) c d : indep E N Y J ->
  indep E N (fun w => Y w - c) (fun w => J w - d).
Proof.
  intros HI i j Hij.
  set (ci a := IZR (mcomb (Z.of_nat i) a) * (- c) ^ Z.to_nat (Z.of_nat i - a)).
  set (dj a := IZR (mcomb (Z.of_nat j) a) * (- d) ^ Z.to_nat (Z.of_nat j - a)).
  assert (e1 : forall w, (Y w - c) ^ i = sumR (fun a => ci a * Y w ^ Z.to_nat a) (range 0 (Z.of_nat i + 1))).
  { intro w. rewrite pow_minus. apply sumR_ext. intros a _. unfold ci. ring. }
  assert (e2 : forall w, (J w - d) ^ j = sumR (fun a => dj a * J w ^ Z.to_nat a) (range 0 (Z.of_nat j + 1))).
  { intro w. rewrite pow_minus. apply sumR_ext. intros a _. unfold dj. ring. }
  rewrite (E_ext E HE (fun w => (Y w - c) ^ i) _ e1), (E_ext E HE (fun w => (J w - d) ^ j) _ e2).
  rewrite !(E_sumR E HE).
  rewrite (E_ext E HE _ (fun w => sumR (fun a => sumR (fun b => (ci a * dj b) * (Y w ^ Z.to_nat a * J w ^ Z.to_nat b))
    (range 0 (Z.of_nat j + 1))) (range 0 (Z.of_nat i + 1)))).
  - rewrite (E_sumR E HE (fun a w => sumR (fun b => (ci a * dj b) * (Y w ^ Z.to_nat a * J w ^ Z.to_nat b))
    (range 0 (Z.of_nat j + 1)))).
    rewrite <- sumR_scal_r. apply sumR_ext. intros a Ha. apply in_range in Ha.
    rewrite (E_sumR E HE (fun b w => (ci a * dj b) * (Y w ^ Z.to_nat a * J w ^ Z.to_nat b))), <- sumR_scal.
    apply sumR_ext. intros b Hb. apply in_range in Hb. rewrite !(E_scal E HE), HI by lia. ring.
  - intro w. rewrite e1, e2, <- sumR_scal_r. apply sumR_ext. intros a _. rewrite <- sumR_scal. apply sumR_ext. intros b _. ring.
Qed.
Lemma cpp_mean {Om} (E : (Om -> R) -> R) (HE : expectation E) N L mu s J : E (fun _ => 1) = 1 -> (1 <= N)%nat ->
  cpp_moments E N L mu s J -> E J = L * mu.
Proof.
  intros H1 HN HJ.
  pose proof (cmcpp_sp E HE L mu s J 1 ltac:(lia) ltac:(intros i Hi; apply HJ; change (Z.to_nat 1) with 1%nat in Hi; lia)) as t.
  set (r := cmcpp 1) in t. vm_compute in r. subst r. cbn [returns] in t. destruct t as [_ t].
  unfold evp in t. cbn [items eval] in t. change (Z.to_nat 1) with 1%nat in t.
  transitivity (E (fun w => L * mu * 1 + (J w - L * mu) ^ 1)); [apply (E_ext E HE); intro; ring|].
  rewrite (E_plus E HE), (E_scal E HE), H1, <- t. ring.
Qed.
