(** Property C62, covariances: the drift moves both returns of a pair by the same constant. *)
From Coq Require Import Reals Lra Lia.
From Coquelicot Require Import Coquelicot.
From Verif.Spec Require Import Params Returns1 Fsv2 Consist.
From Verif.Model Require Import Scalar.
From Verif.Proof Require Import ItoProofs Realise Nested Consist.
From Verif.Props Require Import Props1fsv Props1fsvj Props2fsv PropsScalar PropsCentral PropsDrift.
Import Verif.Model.Scalar.
Local Open Scope R_scope.

Lemma law_cov_1fsv par d l1 l2 : par "k"%string <> 0 -> 0 <= par "h"%string ->
  law_cov (d * par "h"%string) (fun a b => cov_1fsv a b par) (fun a b => cov_1fsv a b (mu_plus par d)) l1 l2.
Proof.
  intros Hk Hh. set (par' := mu_plus par d). set (L := Z.of_nat (l1 + l2)).
  destruct (C46_value_1fsv par Hk Hh) as (_ & _ & V3). destruct (C46_value_1fsv par' Hk Hh) as (_ & _ & W3).
  destruct (C21_hypotheses_hold (fpar_of par) 0 L Hk Hh ltac:(lia)) as (Om & E & V & IE & I & Is & IE1 & I1 & Is1 & HE & HV & HT & HT1).
  set (y0 q := fun w => ret (fpar_of q) 0 (V w) (IE w) (I w) (Is w)).
  set (v1 := fun w => v_end (fpar_of par) 0 (V w) (IE w)).
  set (y1 q := fun w => ret (fpar_of q) (0 + par "h"%string) (v1 w) (IE1 w) (I1 w) (Is1 w)).
  assert (e0 : forall w, y0 par' w = y0 par w + d * par "h"%string) by (intro; apply ret_mu).
  assert (e1 : forall w, y1 par' w = y1 par w + d * par "h"%string) by (intro; apply ret_mu).
  exists Om, E, (y0 par), (y1 par), (y1 par). split; [exact HE|]. intros i j Hi Hj. split.
  - apply V3; [lia|lia|]. exists Om, E, L, 0, V, IE, I, Is, IE1, I1, Is1. rewrite !Nat2Z.id. repeat (split; [assumption|]). split; [lia|reflexivity].
  - etransitivity.
    + apply (W3 (Z.of_nat i) (Z.of_nat j) (E (fun w => y0 par' w ^ i * y1 par' w ^ j) - E (fun w => y0 par' w ^ i) * E (fun w => y1 par' w ^ j))); [lia|lia|].
      exists Om, E, L, 0, V, IE, I, Is, IE1, I1, Is1. rewrite !Nat2Z.id. repeat (split; [assumption|]). split; [lia|reflexivity].
    + f_equal. f_equal; [|f_equal]; apply (E_ext E HE); intro w; rewrite ?e0, ?e1; reflexivity.
Qed.

(** independence of the jumps is kept when both returns are moved *)
Lemma indep3_moved {Om} (E : (Om -> R) -> R) (HE : expectation E) N Y0 Y1 Z0 Z1 J0 J1 c : (forall w, Z0 w = Y0 w + c) -> (forall w, Z1 w = Y1 w + c) ->
  indep3 E N Y0 Y1 J0 J1 -> indep3 E N Z0 Z1 J0 J1.
Proof.
  intros e0 e1 H i0 i1 j0 j1 Hs.
  rewrite (E_ext E HE _ (fun w => (Y0 w + c) ^ i0 * (Y1 w + c) ^ i1 * (J0 w ^ j0 * J1 w ^ j1))) by (intro; now rewrite e0, e1).
  rewrite (E_ext E HE (fun w => Z0 w ^ i0 * Z1 w ^ i1) (fun w => (Y0 w + c) ^ i0 * (Y1 w + c) ^ i1 * 1)) by (intro; rewrite e0, e1; ring).
  rewrite !(E_moved2X E HE). unfold moved2. rewrite Rmult_comm, scal_sum. apply sum_eq. intros i Hi.
  rewrite (Rmult_comm (sum_f_R0 _ _)), scal_sum. apply sum_eq. intros j Hj. rewrite (H i j j0 j1) by lia.
  rewrite (E_ext E HE (fun w => Y0 w ^ i * Y1 w ^ j * 1) (fun w => Y0 w ^ i * Y1 w ^ j)) by (intro; ring). ring.
Qed.
Lemma law_cov_1fsvj par d l1 l2 : par "k"%string <> 0 -> 0 <= par "h"%string ->
  law_cov (d * par "h"%string) (fun a b => cov_1fsvj a b par) (fun a b => cov_1fsvj a b (mu_plus par d)) l1 l2.
Proof.
  intros Hk Hh. set (par' := mu_plus par d). set (L := Z.of_nat (l1 + l2)).
  destruct (C46_value_1fsvj par Hk Hh) as (_ & _ & V3). destruct (C46_value_1fsvj par' Hk Hh) as (_ & _ & W3).
  destruct (C23_hypotheses_hold (fpar_of par) (par "lambda"%string) (par "mu_j"%string) (par "sigma_j"%string) 0 L Hk Hh ltac:(lia))
    as (Om & E & V & IE & I & Is & IE1 & I1 & Is1 & J0 & J1 & (HE & HV & HT & HT1) & HJ0 & HJ1 & HI).
  set (y0 q := fun w => ret (fpar_of q) 0 (V w) (IE w) (I w) (Is w)).
  set (v1 := fun w => v_end (fpar_of par) 0 (V w) (IE w)).
  set (y1 q := fun w => ret (fpar_of q) (0 + par "h"%string) (v1 w) (IE1 w) (I1 w) (Is1 w)).
  assert (e0 : forall w, y0 par' w = y0 par w + d * par "h"%string) by (intro; apply ret_mu).
  assert (e1 : forall w, y1 par' w = y1 par w + d * par "h"%string) by (intro; apply ret_mu).
  assert (HI' : indep3 E (Z.to_nat L) (y0 par') (y1 par') J0 J1) by exact (indep3_moved E HE _ (y0 par) (y1 par) _ _ _ _ _ e0 e1 HI).
  exists Om, E, (fun w => y0 par w + J0 w), (fun w => y1 par w + J1 w), (fun w => y1 par w + J1 w). split; [exact HE|]. intros i j Hi Hj. split.
  - apply V3; [lia|lia|]. exists Om, E, L, 0, V, IE, I, Is, IE1, I1, Is1, J0, J1. rewrite !(Nat2Z.id i), !(Nat2Z.id j). repeat (split; [assumption|]). split; [lia|reflexivity].
  - etransitivity.
    + apply (W3 (Z.of_nat i) (Z.of_nat j) (E (fun w => (y0 par' w + J0 w) ^ i * (y1 par' w + J1 w) ^ j) - E (fun w => (y0 par' w + J0 w) ^ i) * E (fun w => (y1 par' w + J1 w) ^ j))); [lia|lia|].
      exists Om, E, L, 0, V, IE, I, Is, IE1, I1, Is1, J0, J1. rewrite !(Nat2Z.id i), !(Nat2Z.id j). repeat (split; [assumption|]). split; [lia|reflexivity].
    + f_equal. f_equal; [|f_equal]; apply (E_ext E HE); intro w; rewrite ?e0, ?e1, ?(Rplus_assoc (y0 par w)), ?(Rplus_assoc (y1 par w)), ?(Rplus_comm (d * _)); reflexivity.
Qed.
Theorem C62_cov_1fsv : forall (par : string -> R) (d : R), par "k"%string <> 0 -> 0 <= par "h"%string ->
  cov_moved_by (d * par "h"%string) (fun l1 l2 => cov_1fsv l1 l2 par) (fun l1 l2 => cov_1fsv l1 l2 (mu_plus par d)) /\
  cov_moved_by (d * par "h"%string) (fun l1 l2 => cov_1fsvj l1 l2 par) (fun l1 l2 => cov_1fsvj l1 l2 (mu_plus par d)).
Proof.
  intros par d Hk Hh. split; apply law_cov_moved; intros l1 l2; [now apply law_cov_1fsv|now apply law_cov_1fsvj].
Qed.

(** ** two factors *)
Lemma space2c par L : par "k1"%string <> 0 -> par "k2"%string <> 0 -> 0 <= par "h"%string -> (1 <= L)%Z ->
  exists Om (E : (Om -> R) -> R) (V1 V2 IE1 I1 IE2 I2 Is W1 W2 JE1 J1 JE2 J2 Js : Om -> R), expectation E /\ E (fun _ => 1) = 1 /\
    forall d, let q := mu_plus par d in let y0 w := ret2 (f2par_of q) 0 (V1 w) (V2 w) (IE1 w) (I1 w) (IE2 w) (I2 w) (Is w) in
    let y1 w := ret2 (f2par_of q) (0 + par "h"%string) (W1 w) (W2 w) (JE1 w) (J1 w) (JE2 w) (J2 w) (Js w) in
    (forall l, (0 <= l <= L)%Z -> exists r, moment_y2 l = Ok r /\ val2 (f2par_of q) r = E (fun w => y0 w ^ Z.to_nat l)) /\
    (forall i j, (0 <= i)%Z -> (0 <= j)%Z -> (i + j <= L)%Z ->
       (exists r, moment_yy2 i j = Ok r /\ val2 (f2par_of q) r = E (fun w => y0 w ^ Z.to_nat i * y1 w ^ Z.to_nat j)) /\
       (exists c, cov_yy2 i j = Ok c /\ cov_2fsv i j q = Ok (E (fun w => y0 w ^ Z.to_nat i * y1 w ^ Z.to_nat j) - E (fun w => y0 w ^ Z.to_nat i) * E (fun w => y0 w ^ Z.to_nat j)))).
Proof.
  intros Hk1 Hk2 Hh HL. set (p := f2par_of par).
  destruct (proj2 (C40_tables_exist p 0 Hh) L) as (M & HF & HM). destruct (proj2 (C40_tables_exist p (0 + gh p) Hh) L) as (M1 & HF1 & HM1).
  destruct (C40_hypotheses_hold p 0 L M M1 ltac:(lia) HM HM1) as (Om & E & V1 & V2 & IE1 & I1 & IE2 & I2 & Is & JE1 & J1 & JE2 & J2 & Js & HC).
  pose proof HC as (HE & HV & HT & HT1).
  exists Om, E, V1, V2, IE1, I1, IE2, I2, Is, (fun w => v_end (fac_1 p) 0 (V1 w) (IE1 w)), (fun w => v_end (fac_2 p) 0 (V2 w) (IE2 w)), JE1, J1, JE2, J2, Js.
  split; [exact HE|]. split.
  { pose proof (HV 0%Z 0%Z ltac:(lia) ltac:(lia) ltac:(lia)) as h. change (Z.to_nat 0) with O in h. cbn [gmom] in h.
    rewrite (E_ext E HE _ (fun _ => 1)) in h by (intro; cbn; ring). etransitivity; [exact h|]. simpl. ring. }
  intros d q y0 y1.
  assert (G : forall l, (0 <= l <= L)%Z -> exists r, moment_y2 l = Ok r /\ val2 (f2par_of q) r = E (fun w => y0 w ^ Z.to_nat l)).
  { intros l Hl. destruct (C40_moment_y (f2par_of q) Om E L 0 M V1 V2 IE1 I1 IE2 I2 Is l Hk1 Hk2 HE HV HT HF Hl) as (r & Er & _ & Ev). now exists r. }
  split; [exact G|]. intros i j Hi Hj Hij.
  destruct (C40_moment_yy (f2par_of q) Om E L 0 M M1 V1 V2 IE1 I1 IE2 I2 Is JE1 J1 JE2 J2 Js Hk1 Hk2 HC HF HF1 i j Hi Hj Hij) as ((r & Er & _ & Ev) & (c & Ec & _ & _)).
  split; [now exists r|]. exists c. split; [exact Ec|]. rewrite (cov_2fsv_vof q i j Hi Hj), Er. destruct (G i ltac:(lia)) as (a & Ea & Va). destruct (G j ltac:(lia)) as (b & Eb & Vb).
  rewrite Ea, Eb, <- Va, <- Vb. f_equal. transitivity (val2 (f2par_of q) r - val2 (f2par_of q) a * val2 (f2par_of q) b); [reflexivity|]. now rewrite Ev.
Qed.
Lemma law_cov_2fsv par d l1 l2 : par "k1"%string <> 0 -> par "k2"%string <> 0 -> 0 <= par "h"%string ->
  law_cov (d * par "h"%string) (fun a b => cov_2fsv a b par) (fun a b => cov_2fsv a b (mu_plus par d)) l1 l2.
Proof.
  intros Hk1 Hk2 Hh.
  destruct (space2c par (Z.of_nat (1 + l1 + l2)) Hk1 Hk2 Hh ltac:(lia)) as (Om & E & V1 & V2 & IE1 & I1 & IE2 & I2 & Is & W1 & W2 & JE1 & J1 & JE2 & J2 & Js & HE & one & H).
  set (y0 q := fun w => ret2 (f2par_of q) 0 (V1 w) (V2 w) (IE1 w) (I1 w) (IE2 w) (I2 w) (Is w)).
  set (y1 q := fun w => ret2 (f2par_of q) (0 + par "h"%string) (W1 w) (W2 w) (JE1 w) (J1 w) (JE2 w) (J2 w) (Js w)).
  exists Om, E, (y0 par), (y1 par), (y0 par). split; [exact HE|]. intros i j Hi Hj.
  assert (e0 : forall d w, y0 (mu_plus par d) w = y0 par w + d * par "h"%string) by (intros; apply ret2_mu).
  assert (e1 : forall d w, y1 (mu_plus par d) w = y1 par w + d * par "h"%string) by (intros; apply ret2_mu).
  assert (G : forall d', cov_2fsv (Z.of_nat i) (Z.of_nat j) (mu_plus par d') = Ok (E (fun w => (y0 par w + d' * par "h"%string) ^ i * (y1 par w + d' * par "h"%string) ^ j) -
     E (fun w => (y0 par w + d' * par "h"%string) ^ i) * E (fun w => (y0 par w + d' * par "h"%string) ^ j))).
  { intro d'. destruct (H d') as [_ Hc]. destruct (Hc (Z.of_nat i) (Z.of_nat j) ltac:(lia) ltac:(lia) ltac:(lia)) as (_ & c & _ & e). rewrite e, !Nat2Z.id. f_equal.
    f_equal; [|f_equal]; apply (E_ext E HE); intro w; rewrite <- ?e0, <- ?e1; reflexivity. }
  split; [|apply G].
  assert (ep : cov_2fsv (Z.of_nat i) (Z.of_nat j) par = cov_2fsv (Z.of_nat i) (Z.of_nat j) (mu_plus par 0)).
  { rewrite !cov_2fsv_vof by lia. unfold mu_plus, upd. cbn. now rewrite Rplus_0_r. }
  rewrite ep, G. f_equal. f_equal; [|f_equal]; apply (E_ext E HE); intro w; now rewrite Rmult_0_l, !Rplus_0_r.
Qed.
Lemma covj2_val par i j q : (0 <= i)%Z -> (0 <= j)%Z -> jcov_yy2 i j = Ok q ->
  cov_2fsvj i j par = Ok (val2j (f2par_of par) (par "lambda"%string) (par "mu_j"%string) (par "sigma_j"%string) q).
Proof.
  intros Hi Hj Eq. pose proof (Fsv2jProofs.jcov_yy2_sp 0 0 0 0 0 0 0 0 0 0 0 i j Hi Hj) as S. unfold cov_2fsvj, scalar. rewrite Eq in *. cbn [bind returns] in *.
  f_equal. apply num_9, S.
Qed.
Lemma law_cov_2fsvj par d l1 l2 : par "k1"%string <> 0 -> par "k2"%string <> 0 -> 0 <= par "h"%string ->
  law_cov (d * par "h"%string) (fun a b => cov_2fsvj a b par) (fun a b => cov_2fsvj a b (mu_plus par d)) l1 l2.
Proof.
  intros Hk1 Hk2 Hh. set (L := (1 + l1 + l2)%nat).
  destruct (space2c par (Z.of_nat L) Hk1 Hk2 Hh ltac:(lia)) as (Om0 & E0 & V1 & V2 & IE1 & I1 & IE2 & I2 & Is & W1 & W2 & JE1 & J1 & JE2 & J2 & Js & HE0 & one0 & H).
  set (lh := par "lambda"%string * par "h"%string).
  destruct (add_cpp Om0 E0 (S L) lh (par "mu_j"%string) (par "sigma_j"%string) HE0 one0) as (E1 & HE1 & Eo1 & HJ1 & HI1).
  assert (one1 : E1 (fun _ => 1) = 1) by (rewrite (Eo1 (fun _ => 1)); exact one0).
  destruct (add_cpp _ E1 (S L) lh (par "mu_j"%string) (par "sigma_j"%string) HE1 one1) as (E & HE & Eo & HJ & HI).
  set (y0 q := fun w : Om0 * R * R => ret2 (f2par_of q) 0 (V1 (fst (fst w))) (V2 (fst (fst w))) (IE1 (fst (fst w))) (I1 (fst (fst w))) (IE2 (fst (fst w))) (I2 (fst (fst w))) (Is (fst (fst w)))).
  set (y1 q := fun w : Om0 * R * R => ret2 (f2par_of q) (0 + par "h"%string) (W1 (fst (fst w))) (W2 (fst (fst w))) (JE1 (fst (fst w))) (J1 (fst (fst w))) (JE2 (fst (fst w))) (J2 (fst (fst w))) (Js (fst (fst w)))).
  set (P0 := fun w : Om0 * R * R => snd (fst w)). set (P1 := fun w : Om0 * R * R => snd w).
  assert (EO : forall X : Om0 -> R, E (fun w => X (fst (fst w))) = E0 X) by (intro X; rewrite (Eo (fun w => X (fst w))); apply Eo1).
  assert (CP0 : cpp_moments E L lh (par "mu_j"%string) (par "sigma_j"%string) P0).
  { intros i Hi. unfold P0. rewrite (Eo (fun w => snd w ^ i)). apply HJ1. lia. }
  assert (CP1 : cpp_moments E L lh (par "mu_j"%string) (par "sigma_j"%string) P1) by (intros i Hi; apply HJ; lia).
  assert (F0 : forall (X : Om0 -> R) a, (a <= L)%nat -> E (fun w => X (fst (fst w)) * P0 w ^ a) = E0 X * E (fun w => P0 w ^ a)).
  { intros X a Ha. unfold P0. rewrite (Eo (fun w => X (fst w) * snd w ^ a)), (Eo (fun w => snd w ^ a)), <- Eo1.
    pose proof (HI1 X 1%nat a ltac:(lia)) as t. cbn beta in t.
    rewrite (E_ext E1 HE1 (fun w => X (fst w)) (fun w => X (fst w) ^ 1)) by (intro; ring). rewrite <- t. apply (E_ext E1 HE1). intro; ring. }
  assert (F1 : forall (X : Om0 -> R) a b, (a <= L)%nat -> (b <= L)%nat ->
    E (fun w => X (fst (fst w)) * (P0 w ^ a * P1 w ^ b)) = E0 X * (E (fun w => P0 w ^ a) * E (fun w => P1 w ^ b))).
  { intros X a b Ha Hb. pose proof (HI (fun w => X (fst w) * snd w ^ a) 1%nat b ltac:(lia)) as t. cbn beta in t.
    etransitivity; [|etransitivity; [exact t|]].
    - apply (E_ext E HE). intro w. unfold P0, P1. ring.
    - rewrite (E_ext E HE _ (fun w => X (fst (fst w)) * P0 w ^ a)) by (intro; unfold P0; ring). rewrite (F0 X a Ha). unfold P1. ring. }
  assert (Ones : E (fun w => P1 w ^ 0) = 1) by (rewrite (E_ext E HE _ (fun _ => 1)) by (intro; cbn; ring); rewrite (Eo (fun _ => 1)); exact one1).
  exists (Om0 * R * R)%type, E, (fun w => y0 par w + P0 w), (fun w => y1 par w + P1 w), (fun w => y0 par w + P0 w). split; [exact HE|]. intros i j Hi Hj.
  assert (e0 : forall d w, y0 (mu_plus par d) w = y0 par w + d * par "h"%string) by (intros; apply ret2_mu).
  assert (e1 : forall d w, y1 (mu_plus par d) w = y1 par w + d * par "h"%string) by (intros; apply ret2_mu).
  assert (G : forall d', cov_2fsvj (Z.of_nat i) (Z.of_nat j) (mu_plus par d') =
     Ok (E (fun w => (y0 par w + P0 w + d' * par "h"%string) ^ i * (y1 par w + P1 w + d' * par "h"%string) ^ j) -
         E (fun w => (y0 par w + P0 w + d' * par "h"%string) ^ i) * E (fun w => (y0 par w + P0 w + d' * par "h"%string) ^ j))).
  { intro d'. destruct (H d') as [Hm Hc]. set (q := mu_plus par d') in *.
    assert (M1 : forall l, (l <= L)%nat -> forall r, jmoment_y2 (Z.of_nat l) = Ok r ->
      val2j (f2par_of q) (q "lambda"%string) (q "mu_j"%string) (q "sigma_j"%string) r = E (fun w => (y0 q w + P0 w) ^ l)).
    { intros l Hl r Er. destruct (C28_moment_y (Z.of_nat l) ltac:(lia)) as (r' & Er' & _ & _ & Vr). assert (r' = r) by congruence. subst r'.
      specialize (Vr (f2par_of q) (q "lambda"%string) (q "mu_j"%string) (q "sigma_j"%string) _ E (y0 q) P0 HE). rewrite Nat2Z.id in Vr. apply Vr.
      - intros n m Hn Em. destruct (Hm n ltac:(lia)) as (m' & Em' & v). assert (m' = m) by congruence. subst m'. rewrite v.
        exact (EO (fun w => ret2 (f2par_of q) 0 (V1 w) (V2 w) (IE1 w) (I1 w) (IE2 w) (I2 w) (Is w) ^ Z.to_nat n)).
      - intros a Ha. apply CP0. lia.
      - intros a b Hab. etransitivity; [exact (F0 (fun w => ret2 (f2par_of q) 0 (V1 w) (V2 w) (IE1 w) (I1 w) (IE2 w) (I2 w) (Is w) ^ a) b ltac:(lia))|].
        f_equal. symmetry. exact (EO (fun w => ret2 (f2par_of q) 0 (V1 w) (V2 w) (IE1 w) (I1 w) (IE2 w) (I2 w) (Is w) ^ a)). }
    set (X n m := fun w => ret2 (f2par_of q) 0 (V1 w) (V2 w) (IE1 w) (I1 w) (IE2 w) (I2 w) (Is w) ^ n *
                           ret2 (f2par_of q) (0 + par "h"%string) (W1 w) (W2 w) (JE1 w) (J1 w) (JE2 w) (J2 w) (Js w) ^ m).
    destruct (C28_jump_cov_yy (Z.of_nat i) (Z.of_nat j) ltac:(lia) ltac:(lia)) as (c & m & a & b & Ec & Em & Ea & Eb & _ & _ & Vc).
    rewrite (covj2_val q (Z.of_nat i) (Z.of_nat j) c ltac:(lia) ltac:(lia) Ec), Vc, (M1 i ltac:(lia) a Ea), (M1 j ltac:(lia) b Eb). f_equal. f_equal.
    - destruct (C28_moment_yy (Z.of_nat i) (Z.of_nat j) ltac:(lia) ltac:(lia)) as (m' & Em' & _ & _ & Vm). assert (m' = m) by congruence. subst m'.
      specialize (Vm (f2par_of q) (q "lambda"%string) (q "mu_j"%string) (q "sigma_j"%string) _ E (y0 q) (y1 q) P0 P1 HE). rewrite !Nat2Z.id in Vm. rewrite Vm.
      + apply (E_ext E HE). intro w. unfold q. rewrite e0, e1. f_equal; f_equal; ring.
      + intros n k r Hn Hk' Er. destruct (Hc n k ltac:(lia) ltac:(lia) ltac:(lia)) as ((r' & Er' & v) & _). assert (r' = r) by congruence. subst r'. rewrite v.
        exact (EO (X (Z.to_nat n) (Z.to_nat k))).
      + intros n Hn. apply CP0. lia.
      + intros n Hn. apply CP1. lia.
      + intros a0 a1 b0 b1 Hs. etransitivity; [exact (F1 (X a0 a1) b0 b1 ltac:(lia) ltac:(lia))|]. f_equal. symmetry. exact (EO (X a0 a1)).
    - f_equal; apply (E_ext E HE); intro w; unfold q; rewrite e0; f_equal; ring. }
  split; [|apply G].
  assert (ep : cov_2fsvj (Z.of_nat i) (Z.of_nat j) par = cov_2fsvj (Z.of_nat i) (Z.of_nat j) (mu_plus par 0)).
  { destruct (C28_jump_cov_yy (Z.of_nat i) (Z.of_nat j) ltac:(lia) ltac:(lia)) as (c & _ & _ & _ & Ec & _).
    rewrite !(covj2_val _ (Z.of_nat i) (Z.of_nat j) c ltac:(lia) ltac:(lia) Ec). unfold mu_plus, upd, f2par_of. cbn. now rewrite Rplus_0_r. }
  rewrite ep, G. f_equal. f_equal; [|f_equal]; apply (E_ext E HE); intro w; now rewrite Rmult_0_l, !Rplus_0_r.
Qed.
Theorem C62_cov_2fsv : forall (par : string -> R) (d : R), par "k1"%string <> 0 -> par "k2"%string <> 0 -> 0 <= par "h"%string ->
  cov_moved_by (d * par "h"%string) (fun l1 l2 => cov_2fsv l1 l2 par) (fun l1 l2 => cov_2fsv l1 l2 (mu_plus par d)) /\
  cov_moved_by (d * par "h"%string) (fun l1 l2 => cov_2fsvj l1 l2 par) (fun l1 l2 => cov_2fsvj l1 l2 (mu_plus par d)).
Proof.
  intros par d Hk1 Hk2 Hh. split; apply law_cov_moved; intros l1 l2; [now apply law_cov_2fsv|now apply law_cov_2fsvj].
Qed.

(** ** the covariance of the returns themselves does not see the drift *)
Lemma cov_11 c cov cov' : cov_moved_by c cov cov' -> cov 0%Z 0%Z = Ok 0 -> cov 0%Z 1%Z = Ok 0 -> cov 1%Z 0%Z = Ok 0 -> cov' 1%Z 1%Z = cov 1%Z 1%Z.
Proof.
  intros (cs & H & K) h00 h01 h10. change 0%Z with (Z.of_nat 0) in *. change 1%Z with (Z.of_nat 1) in *. rewrite H in *. rewrite K. f_equal.
  unfold moved2. cbn [sum_f_R0 Nat.sub pow]. unfold Binomial.C. cbn. injection h00 as ->. injection h01 as ->. injection h10 as ->. field.
Qed.
Lemma zero_1fsv par : cov_1fsv 0 0 par = Ok 0 /\ cov_1fsv 0 1 par = Ok 0 /\ cov_1fsv 1 0 par = Ok 0.
Proof.
  unfold cov_1fsv. split; [|split].
  - set (r := cov_yy 0 0). vm_compute in r. subst r. reflexivity.
  - set (r := cov_yy 0 1). vm_compute in r. subst r. reflexivity.
  - set (r := cov_yy 1 0). vm_compute in r. subst r. reflexivity.
Qed.
Lemma zero_1fsvj par : cov_1fsvj 0 0 par = Ok 0 /\ cov_1fsvj 0 1 par = Ok 0 /\ cov_1fsvj 1 0 par = Ok 0.
Proof.
  unfold cov_1fsvj. split; [|split].
  - set (r := jcov_yy 0 0). vm_compute in r. subst r. reflexivity.
  - set (r := jcov_yy 0 1). vm_compute in r. subst r. reflexivity.
  - set (r := jcov_yy 1 0). vm_compute in r. subst r. reflexivity.
Qed.
Lemma zero_2fsv par : cov_2fsv 0 0 par = Ok 0 /\ cov_2fsv 0 1 par = Ok 0 /\ cov_2fsv 1 0 par = Ok 0.
Proof.
  unfold cov_2fsv. split; [|split].
  - set (r := cov_yy2 0 0). vm_compute in r. subst r. reflexivity.
  - set (r := cov_yy2 0 1). vm_compute in r. subst r. reflexivity.
  - set (r := cov_yy2 1 0). vm_compute in r. subst r. reflexivity.
Qed.
Lemma zero_2fsvj par : cov_2fsvj 0 0 par = Ok 0 /\ cov_2fsvj 0 1 par = Ok 0 /\ cov_2fsvj 1 0 par = Ok 0.
Proof.
  unfold cov_2fsvj. split; [|split].
  - set (r := jcov_yy2 0 0). vm_compute in r. subst r. reflexivity.
  - set (r := jcov_yy2 0 1). vm_compute in r. subst r. reflexivity.
  - set (r := jcov_yy2 1 0). vm_compute in r. subst r. reflexivity.
Qed.
Theorem C62_cov11 : forall (par : string -> R) (d : R), 0 <= par "h"%string ->
  (par "k"%string <> 0 -> cov_1fsv 1 1 (mu_plus par d) = cov_1fsv 1 1 par /\ cov_1fsvj 1 1 (mu_plus par d) = cov_1fsvj 1 1 par) /\
  (par "k1"%string <> 0 -> par "k2"%string <> 0 -> cov_2fsv 1 1 (mu_plus par d) = cov_2fsv 1 1 par /\ cov_2fsvj 1 1 (mu_plus par d) = cov_2fsvj 1 1 par).
Proof.
  intros par d Hh. split.
  - intro Hk. destruct (C62_cov_1fsv par d Hk Hh) as [h1 h2]. destruct (zero_1fsv par) as (a & b & c). destruct (zero_1fsvj par) as (a' & b' & c').
    split; [exact (cov_11 _ _ _ h1 a b c)|exact (cov_11 _ _ _ h2 a' b' c')].
  - intros Hk1 Hk2. destruct (C62_cov_2fsv par d Hk1 Hk2 Hh) as [h1 h2]. destruct (zero_2fsv par) as (a & b & c). destruct (zero_2fsvj par) as (a' & b' & c').
    split; [exact (cov_11 _ _ _ h1 a b c)|exact (cov_11 _ _ _ h2 a' b' c')].
Qed.
Theorem C62_dcov11_1fsv : forall par : string -> R, par "k"%string <> 0 -> 0 <= par "h"%string -> -1 < par "rho"%string < 1 ->
  dcov_1fsv 1 1 par "mu" = Ok 0 /\ dcov_1fsvj 1 1 par "mu" = Ok 0.
Proof.
  intros par Hk Hh Hr. split.
  - destruct (C46_1fsv par "mu" ltac:(cbn; tauto) Hk Hr) as [_ H]. refine (drift_0 _ par _ _ (H 1%Z 1%Z ltac:(lia) ltac:(lia))). intro d. now apply (C62_cov11 par d Hh).
  - destruct (C46_1fsvj par "mu" ltac:(cbn; tauto) Hk Hr) as [_ H]. refine (drift_0 _ par _ _ (H 1%Z 1%Z ltac:(lia) ltac:(lia))). intro d. now apply (C62_cov11 par d Hh).
Qed.

(** the hypotheses can be met *)
Example C62_example_cov : let par s := (if String.eqb s "k" then 2 else if String.eqb s "k1" then 2 else if String.eqb s "k2" then 3 else if String.eqb s "h" then 1 else 1/4)%string in
  cov_moved_by (5 * 1) (fun l1 l2 => cov_1fsvj l1 l2 par) (fun l1 l2 => cov_1fsvj l1 l2 (mu_plus par 5)) /\
  cov_2fsvj 1 1 (mu_plus par 5) = cov_2fsvj 1 1 par /\ dcm_1fsvj 4 par "mu" = Ok 0 /\ dcov_1fsv 1 1 par "mu" = Ok 0.
Proof.
  set (par := fun s => _). cbv zeta. assert (h0 : 0 <= par "h"%string) by (cbn; lra). assert (hk : par "k"%string <> 0) by (cbn; lra).
  assert (h1 : par "k1"%string <> 0) by (cbn; lra). assert (h2 : par "k2"%string <> 0) by (cbn; lra). assert (hr : -1 < par "rho"%string < 1) by (cbn; lra).
  split; [exact (proj2 (C62_cov_1fsv par 5 hk h0))|]. split; [exact (proj2 (proj2 (C62_cov11 par 5 h0) h1 h2))|]. split.
  - destruct (C62_1fsv par 0 hk h0) as [_ [(ms & Hms & _) _]]. exact (proj2 (proj2 (C62_dm_1fsv par hk h0 hr) ms Hms 4%nat ltac:(lia))).
  - exact (proj1 (C62_dcov11_1fsv par hk h0 hr)).
Qed.

Print Assumptions C62_1fsv. Print Assumptions C62_2fsv. Print Assumptions C62_dm_1fsv. Print Assumptions C62_dm_2fsv.
Print Assumptions C62_cov_1fsv. Print Assumptions C62_cov_2fsv. Print Assumptions C62_cov11. Print Assumptions C62_dcov11_1fsv.
Print Assumptions C61_1fsv. Print Assumptions C61_2fsv. Print Assumptions C61_svcj_v0. Print Assumptions C61_orders.
