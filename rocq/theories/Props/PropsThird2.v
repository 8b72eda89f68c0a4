(** Property C52: the third moments of mdl_2fsv (mom.py, cmom.py) are too small. *)
From Coq Require Import Reals Lra.
From Coquelicot Require Import Coquelicot.
From Verif.Spec Require Import Fsv2 Cpp Names.
From Verif.Model Require Import Fsv2.
From Verif.Proof Require Import ItoProofs Fsv2Proofs Fsv2jProofs ConvProofs Third2.
From Verif.Props Require Import PropsItos Props2fsv.
Local Open Scope R_scope.

(** the third moments left out by one variance factor *)
Definition lost3 (k h th sg : R) : R :=
  3 * sg ^ 4 * th / (4 * k ^ 5) *
  (3 / 4 - exp (- (k * h)) + exp (- (k * h)) ^ 2 / 4 - k * h * exp (- (k * h)) + k * h * exp (- (k * h)) ^ 2 / 2).

Lemma tower_nil {Om} (E : (Om -> R) -> R) (HE : expectation E) M L (V1 V2 IE1 I1 IE2 I2 Is : Om -> R) :
  tower2 E M L [] V1 V2 IE1 I1 IE2 I2 Is ->
  forall m n a b c d e, (0 <= m)%Z -> (0 <= n)%Z -> ito2_dom (a, b, c, d, e) -> (m + n + a + b + c + d + e <= L)%Z ->
    E (fun w => V1 w ^ Z.to_nat m * V2 w ^ Z.to_nat n * (IE1 w ^ Z.to_nat a * I1 w ^ Z.to_nat b *
          IE2 w ^ Z.to_nat c * I2 w ^ Z.to_nat d * Is w ^ Z.to_nat e))
    = E (fun w => V1 w ^ Z.to_nat m * V2 w ^ Z.to_nat n * M (V1 w) (V2 w) (a, b, c, d, e)).
Proof.
  intros HT m n a b c d e h3 h4 h5 h6.
  pose proof (HT [] m n a b c d e eq_refl (Forall_nil _) h3 h4 h5) as t.
  cbn [fold_right map powprod] in t. specialize (t ltac:(lia)).
  rewrite (E_ext E HE _ _ (fun w => eq_sym (Rmult_1_l _))), t. apply (E_ext E HE). intro w. ring.
Qed.

Section Third.
Context (p : f2par) (Om : Type) (E : (Om -> R) -> R) (L : Z) (s0 : R) (M : R -> R -> ito2_idx -> R)
    (V1 V2 IE1 I1 IE2 I2 Is : Om -> R).
Hypothesis Hk1 : gk1 p <> 0.
Hypothesis Hk2 : gk2 p <> 0.
Hypothesis Hh : 0 <= gh p.
Hypothesis HE : expectation E.
Hypothesis HV : stationary2 E p L V1 V2.
Hypothesis HT : tower2 E M L [] V1 V2 IE1 I1 IE2 I2 Is.
Hypothesis HM : true_moments M p s0.
Hypothesis HL : (3 <= L)%Z.
Local Notation y := (fun w => ret2 p s0 (V1 w) (V2 w) (IE1 w) (I1 w) (IE2 w) (I2 w) (Is w)).

Lemma st_one : E (fun _ => 1) = 1.
Proof.
  transitivity (E (fun w => V1 w ^ Z.to_nat 0 * V2 w ^ Z.to_nat 0)); [apply (E_ext E HE); intro; simpl; ring|].
  rewrite HV by lia. simpl. ring.
Qed.
Lemma st_V1 : E V1 = gth1 p.
Proof.
  transitivity (E (fun w => V1 w ^ Z.to_nat 1 * V2 w ^ Z.to_nat 0)); [apply (E_ext E HE); intro; simpl; ring|].
  rewrite HV by lia. change (Z.to_nat 1) with 1%nat. simpl. field. assumption.
Qed.
Lemma st_V2 : E V2 = gth2 p.
Proof.
  transitivity (E (fun w => V1 w ^ Z.to_nat 0 * V2 w ^ Z.to_nat 1)); [apply (E_ext E HE); intro; simpl; ring|].
  rewrite HV by lia. change (Z.to_nat 1) with 1%nat. simpl. field. assumption.
Qed.
Lemma low_central l : (0 <= l <= 2)%Z -> E y = (gmu p - (gth1 p + gth2 p) / 2) * gh p /\
  exists q, cmoment_y2 l = Ok q /\ keyfor q = nm2_cm /\ cval2 p q = E (fun w => (y w - E y) ^ Z.to_nat l).
Proof.
  intro Hl. apply (C40_central p Om E 2 s0 M V1 V2 IE1 I1 IE2 I2 Is l Hk1 Hk2 HE); try lia.
  - intros m n h1 h2 h3. apply HV; lia.
  - intros hs m n a b c d e h1 h2 h3 h4 h5 h6. apply HT; try assumption; lia.
  - now apply C40_order_two.
Qed.
Lemma third_central : exists q, cmoment_y2 3 = Ok q /\ keyfor q = nm2_cm /\
  E (fun w => (y w - E y) ^ 3) - cval2 p q = lost3 (gk1 p) (gh p) (gth1 p) (gsg1 p) + lost3 (gk2 p) (gh p) (gth2 p) (gsg2 p).
Proof.
  destruct (low_central 1 ltac:(lia)) as [Ey _].
  pose proof (cmoment_y2_sp (gk1 p) (gk2 p) (gh p) (gth1 p) (gsg1 p) (gth2 p) (gsg2 p) Hk1 Hk2 s0 3 ltac:(lia)) as h.
  apply returns_inv in h. destruct h as (q & Eq & Wq & _ & P & AP & Er & Ep). exists q. split; [exact Eq|]. split; [apply Wq|].
  pose proof (short_sum (gk1 p) (gk2 p) (gh p) (gth1 p) (gsg1 p) (gth2 p) (gsg2 p) Hk1 Hk2 Hh s0 M HM E HE V1 V2 IE1 I1 IE2 I2 Is
    st_one st_V1 st_V2) as S.
  specialize (S ltac:(intros; apply (tower_nil E HE M L); try assumption; lia) (Fsv2Proofs.C1 (gk1 p) (gk2 p) (gh p) (gth1 p) (gth2 p))).
  etransitivity; [|exact S]. f_equal.
  - apply (E_ext E HE). intro w. rewrite Ey, (ret2_centred p Hk1 Hk2). reflexivity.
  - f_equal. transitivity (evp (mon_f5 (gk1 p) (gk2 p) (gh p) (gth1 p) (gsg1 p) (gth2 p) (gsg2 p)) tt q); [reflexivity|].
    rewrite Er, <- (E_mon_ve2 (gk1 p) (gk2 p) (gh p) (gth1 p) (gsg1 p) (gth2 p) (gsg2 p) E HE V1 V2 3).
    + apply (E_ext E HE). intro w. apply Ep.
    + intros m n h1 h2 h3. apply HV; lia.
    + exact AP.
Qed.
Lemma third_raw : exists q, moment_y2 3 = Ok q /\ keyfor q = nm2_m /\
  E (fun w => y w ^ 3) - val2 p q = lost3 (gk1 p) (gh p) (gth1 p) (gsg1 p) + lost3 (gk2 p) (gh p) (gth2 p) (gsg2 p).
Proof.
  pose proof (moment_y2_sp (gk1 p) (gk2 p) (gh p) (gmu p) (gth1 p) (gsg1 p) (gth2 p) (gsg2 p) Hk1 Hk2 s0 3 ltac:(lia)) as h.
  apply returns_inv in h. destruct h as (q & Eq & Wq & _ & P & AP & Er & Ep). exists q. split; [exact Eq|]. split; [apply Wq|].
  pose proof (short_sum (gk1 p) (gk2 p) (gh p) (gth1 p) (gsg1 p) (gth2 p) (gsg2 p) Hk1 Hk2 Hh s0 M HM E HE V1 V2 IE1 I1 IE2 I2 Is
    st_one st_V1 st_V2) as S.
  specialize (S ltac:(intros; apply (tower_nil E HE M L); try assumption; lia) (A1' (gk1 p) (gk2 p) (gh p) (gmu p) (gth1 p) (gth2 p))).
  etransitivity; [|exact S]. f_equal.
  - apply (E_ext E HE). intro w. rewrite (ret2_linear p Hk1 Hk2). reflexivity.
  - f_equal. transitivity (evp (mon_f6 (gk1 p) (gk2 p) (gh p) (gmu p) (gth1 p) (gsg1 p) (gth2 p) (gsg2 p)) tt q); [reflexivity|].
    rewrite Er, <- (E_mon_10 (gk1 p) (gk2 p) (gh p) (gmu p) (gth1 p) (gsg1 p) (gth2 p) (gsg2 p) E HE V1 V2 3).
    + apply (E_ext E HE). intro w. apply Ep.
    + intros m n h1 h2 h3. apply HV; lia.
    + exact AP.
Qed.

(** with independent compound Poisson jumps J in the return (2FSVJ) *)
Lemma third_jump (lam muj sj : R) (J : Om -> R) :
  cpp_moments E 3 (lam * gh p) muj sj J -> indep E 3 (fun w => y w - E y) (fun w => J w - lam * gh p * muj) ->
  exists q, jcmoment_y2 3 = Ok q /\ keyfor q = nm2_cmj /\
  E (fun w => (y w + J w - (E y + lam * gh p * muj)) ^ 3) - cval2j p lam muj sj q
  = lost3 (gk1 p) (gh p) (gth1 p) (gsg1 p) + lost3 (gk2 p) (gh p) (gth2 p) (gsg2 p).
Proof.
  intros HJ HI.
  pose proof (jcmoment_y2_sp (gk1 p) (gk2 p) (gh p) (gth1 p) (gsg1 p) (gth2 p) (gsg2 p) lam muj sj 3 ltac:(lia)) as S.
  apply returns_inv in S. destruct S as (q & Eq & Wq & _ & V). exists q. split; [assumption|]. split; [apply Wq|].
  set (Yc := fun w => y w - E y) in *. set (Jc := fun w => J w - lam * gh p * muj) in *.
  assert (VJ : forall n, (0 <= n <= 3)%Z -> vof (mon_j (lam * gh p) muj sj) (cmcpp n) = E (fun w => Jc w ^ Z.to_nat n)).
  { intros n Hn. pose proof (cmcpp_sp E HE (lam * gh p) muj sj J n ltac:(lia)) as B.
    specialize (B ltac:(intros j Hj; apply HJ; lia)). destruct (cmcpp n) as [c|]; [|destruct B]. cbn [vof]. apply B. }
  assert (VY : forall i, (0 <= i <= 2)%Z ->
    vof (F5 (gk1 p) (gk2 p) (gh p) (gth1 p) (gsg1 p) (gth2 p) (gsg2 p)) (cmoment_y2 i) = E (fun w => Yc w ^ Z.to_nat i)).
  { intros i Hi. destruct (low_central i Hi) as [_ (c & -> & _ & Ec)]. exact Ec. }
  destruct third_central as (q3 & Eq3 & _ & D3).
  rewrite (E_ext E HE _ (fun w => (Yc w + Jc w) ^ Z.to_nat 3)) by (intro w; unfold Yc, Jc; change (Z.to_nat 3) with 3%nat; f_equal; ring).
  rewrite <- (conv_E E HE Yc Jc 3 3 ltac:(lia) ltac:(lia) HI).
  match goal with |- ?a - ?b = _ => transitivity (a - evp (F8 (gk1 p) (gk2 p) (gh p) (gth1 p) (gsg1 p) (gth2 p) (gsg2 p) lam muj sj) tt q); [reflexivity|] end.
  rewrite V, sumR_down. change (range 0 (3 + 1)) with [0; 1; 2; 3]%Z. cbn [sumR].
  rewrite !VJ, !VY, Eq3 by lia. cbn [vof].
  change (evp (F5 (gk1 p) (gk2 p) (gh p) (gth1 p) (gsg1 p) (gth2 p) (gsg2 p)) tt q3) with (cval2 p q3).
  rewrite <- D3. change (Z.to_nat (3 - 3)) with 0%nat. change (Z.to_nat 3) with 3%nat.
  rewrite (E_ext E HE (fun w => Jc w ^ 0) (fun _ => 1)) by reflexivity. rewrite st_one. unfold Yc. change (mcomb 3 3) with 1%Z. cbn beta. ring.
Qed.
End Third.

(** ** C52 *)
(** The third moment and the third central moment returned by moment_y and cmoment_y fall short of the
    moments of the model by lost3 for each of the two variance factors. *)
Theorem C52_third_moment : forall (p : f2par) (Om : Type) (E : (Om -> R) -> R) (L : Z) (s0 : R) (M : R -> R -> ito2_idx -> R)
    (V1 V2 IE1 I1 IE2 I2 Is : Om -> R),
  gk1 p <> 0 -> gk2 p <> 0 -> 0 <= gh p -> expectation E -> stationary2 E p L V1 V2 ->
  tower2 E M L [] V1 V2 IE1 I1 IE2 I2 Is -> true_moments M p s0 -> (3 <= L)%Z ->
  exists q, moment_y2 3 = Ok q /\ keyfor q = nm2_m /\
    E (fun w => ret2 p s0 (V1 w) (V2 w) (IE1 w) (I1 w) (IE2 w) (I2 w) (Is w) ^ 3) - val2 p q
    = lost3 (gk1 p) (gh p) (gth1 p) (gsg1 p) + lost3 (gk2 p) (gh p) (gth2 p) (gsg2 p).
Proof. intros p Om E L s0 M V1 V2 IE1 I1 IE2 I2 Is. intros. now apply (third_raw p Om E L s0 M). Qed.
Theorem C52_third_central : forall (p : f2par) (Om : Type) (E : (Om -> R) -> R) (L : Z) (s0 : R) (M : R -> R -> ito2_idx -> R)
    (V1 V2 IE1 I1 IE2 I2 Is : Om -> R),
  gk1 p <> 0 -> gk2 p <> 0 -> 0 <= gh p -> expectation E -> stationary2 E p L V1 V2 ->
  tower2 E M L [] V1 V2 IE1 I1 IE2 I2 Is -> true_moments M p s0 -> (3 <= L)%Z ->
  let y w := ret2 p s0 (V1 w) (V2 w) (IE1 w) (I1 w) (IE2 w) (I2 w) (Is w) in
  exists q, cmoment_y2 3 = Ok q /\ keyfor q = nm2_cm /\
    E (fun w => (y w - E y) ^ 3) - cval2 p q
    = lost3 (gk1 p) (gh p) (gth1 p) (gsg1 p) + lost3 (gk2 p) (gh p) (gth2 p) (gsg2 p).
Proof. intros p Om E L s0 M V1 V2 IE1 I1 IE2 I2 Is. intros. now apply (third_central p Om E L s0 M). Qed.
(** the same for mdl_2fsvj, where J is an independent compound Poisson sum *)
Theorem C52_third_jump : forall (p : f2par) (Om : Type) (E : (Om -> R) -> R) (L : Z) (s0 : R) (M : R -> R -> ito2_idx -> R)
    (V1 V2 IE1 I1 IE2 I2 Is : Om -> R) (lam muj sj : R) (J : Om -> R),
  gk1 p <> 0 -> gk2 p <> 0 -> 0 <= gh p -> expectation E -> stationary2 E p L V1 V2 ->
  tower2 E M L [] V1 V2 IE1 I1 IE2 I2 Is -> true_moments M p s0 -> (3 <= L)%Z ->
  let y w := ret2 p s0 (V1 w) (V2 w) (IE1 w) (I1 w) (IE2 w) (I2 w) (Is w) in
  cpp_moments E 3 (lam * gh p) muj sj J -> indep E 3 (fun w => y w - E y) (fun w => J w - lam * gh p * muj) ->
  exists q, jcmoment_y2 3 = Ok q /\ keyfor q = nm2_cmj /\
    E (fun w => (y w + J w - (E y + lam * gh p * muj)) ^ 3) - cval2j p lam muj sj q
    = lost3 (gk1 p) (gh p) (gth1 p) (gsg1 p) + lost3 (gk2 p) (gh p) (gth2 p) (gsg2 p).
Proof. intros p Om E L s0 M V1 V2 IE1 I1 IE2 I2 Is lam muj sj J. intros. now apply (third_jump p Om E L s0 M). Qed.

(** and the shortfall is positive *)
Theorem C52_lost_positive : forall k h th sg : R, 0 < k -> 0 < h -> 0 < th -> sg <> 0 -> 0 < lost3 k h th sg.
Proof. exact short3_pos. Qed.

(** for all positive parameters the returned third central moment is not the one of the model *)
Theorem C52_refuted : exists q r, cmoment_y2 3 = Ok q /\ moment_y2 3 = Ok r /\
  forall p : f2par, 0 < gk1 p -> 0 < gk2 p -> 0 < gh p -> 0 < gth1 p -> 0 < gth2 p -> gsg1 p <> 0 -> gsg2 p <> 0 ->
  (forall (Om : Type) (E : (Om -> R) -> R) (s0 : R) (M : R -> R -> ito2_idx -> R) (V1 V2 IE1 I1 IE2 I2 Is : Om -> R),
     expectation E -> stationary2 E p 3 V1 V2 -> tower2 E M 3 [] V1 V2 IE1 I1 IE2 I2 Is -> true_moments M p s0 ->
     let y w := ret2 p s0 (V1 w) (V2 w) (IE1 w) (I1 w) (IE2 w) (I2 w) (Is w) in
     cval2 p q < E (fun w => (y w - E y) ^ 3) /\ val2 p r < E (fun w => y w ^ 3)) /\
  forall s0, exists (Om : Type) (E : (Om -> R) -> R) (M : R -> R -> ito2_idx -> R) (V1 V2 IE1 I1 IE2 I2 Is : Om -> R),
     expectation E /\ stationary2 E p 3 V1 V2 /\ tower2 E M 3 [] V1 V2 IE1 I1 IE2 I2 Is /\ true_moments M p s0.
Proof.
  destruct (returns_inv _ _ (cmoment_y2_shape 3 ltac:(lia))) as (q & Eq & _).
  destruct (returns_inv _ _ (moment_y2_shape 3 ltac:(lia))) as (r & Er & _).
  exists q, r. split; [exact Eq|]. split; [exact Er|]. intros p h1 h2 h3 h4 h5 h6 h7. split.
  - intros Om E s0 M V1 V2 IE1 I1 IE2 I2 Is HE HV HT HM y.
    pose proof (C52_lost_positive _ _ _ _ h1 h3 h4 h6). pose proof (C52_lost_positive _ _ _ _ h2 h3 h5 h7).
    destruct (C52_third_central p Om E 3 s0 M V1 V2 IE1 I1 IE2 I2 Is ltac:(lra) ltac:(lra) ltac:(lra) HE HV HT HM ltac:(lia)) as (q' & Eq' & _ & D).
    destruct (C52_third_moment p Om E 3 s0 M V1 V2 IE1 I1 IE2 I2 Is ltac:(lra) ltac:(lra) ltac:(lra) HE HV HT HM ltac:(lia)) as (r' & Er' & _ & D').
    rewrite Eq in Eq'. injection Eq' as <-. rewrite Er in Er'. injection Er' as <-.
    split; [|unfold y; lra]. cbv zeta in D. unfold y. lra.
  - intro s0. destruct (C40_tables_exist p s0 ltac:(lra)) as [(M & HM & M1) _].
    destruct (C40_hypotheses_hold p s0 3 M M ltac:(lia) M1 M1)
      as (Om & E & V1 & V2 & IE1 & I1 & IE2 & I2 & Is & _ & _ & _ & _ & _ & HE & HV & HT & _).
    exists Om, E, M, V1, V2, IE1, I1, IE2, I2, Is. repeat (split; [assumption|]). exact HM.
Qed.

Example C52_example : 0 < lost3 1 1 1 1 + lost3 2 1 1 (1 / 2) /\
  match cmoment_y2 3 with Ok q => length (items q) = 62%nat | Err _ => False end.
Proof.
  split; [|vm_compute; reflexivity].
  pose proof (C52_lost_positive 1 1 1 1 ltac:(lra) ltac:(lra) ltac:(lra) ltac:(lra)).
  pose proof (C52_lost_positive 2 1 1 (1 / 2) ltac:(lra) ltac:(lra) ltac:(lra) ltac:(lra)). lra.
Qed.

Print Assumptions C52_third_moment. Print Assumptions C52_third_central. Print Assumptions C52_third_jump.
Print Assumptions C52_lost_positive. Print Assumptions C52_refuted.
