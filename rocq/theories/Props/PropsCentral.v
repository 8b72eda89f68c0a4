(** Properties C61 and C62: within each model the central moments are the binomial transform of the raw moments, and
    the drift mu moves the raw moments of the return and leaves its central moments alone. *)
From Coq Require Import Reals Lra Lia.
From Coquelicot Require Import Coquelicot.
From Verif.Spec Require Import Params Returns1 Fsv2 Cond2Dict Svvj SvcjPath Srjd Svcj Consist.
From Verif.Model Require Import Scalar Decode Cond2D.
From Verif.Proof Require Import ItoProofs Realise SvvjW Nested Consist.
From Verif.Props Require Import Props1fsv Props1fsvj Props2fsv PropsScalar PropsSvvj PropsSvcjCond2 PropsSrjdCond2 PropsCond2Dict
  PropsSrjdCond PropsSrjdStat PropsSvcjMom PropsDecode.
Import Verif.Model.Scalar.
Local Open Scope R_scope.

(** the dict with d added to the drift *)
Definition mu_plus (par : string -> R) (d : R) : string -> R := upd par "mu"%string (par "mu"%string + d).

Lemma mk_law Om (E : (Om -> R) -> R) (Y Y' : Om -> R) c m m' cm cm' L : expectation E -> E (fun _ => 1) = 1 -> (forall w, Y' w = Y w + c) ->
  (forall i, (1 <= i <= L)%nat -> m (Z.of_nat i) = Ok (E (fun w => Y w ^ i)) /\ m' (Z.of_nat i) = Ok (E (fun w => Y' w ^ i)) /\
     cm (Z.of_nat i) = Ok (E (fun w => (Y w - E Y) ^ i)) /\ cm' (Z.of_nat i) = Ok (E (fun w => (Y' w - E Y') ^ i))) ->
  law2 c m m' cm cm' L.
Proof.
  intros HE one e H. exists Om, E, Y. split; [exact HE|]. split; [exact one|]. intros i Hi. destruct (H i Hi) as (h1 & h2 & h3 & h4).
  split; [exact h1|]. split; [|split; [exact h3|]].
  - rewrite h2. f_equal. apply (E_ext E HE). intro w. now rewrite e.
  - rewrite h4. f_equal. assert (eE : E Y' = E Y + c).
    { rewrite (E_ext E HE _ (fun w => Y w + c * 1)) by (intro w; rewrite e; ring). rewrite (E_plus E HE), (E_scal E HE), one. ring. }
    apply (E_ext E HE). intro w. rewrite e, eE. f_equal. ring.
Qed.

Lemma E_mult_moved {Om} (E : (Om -> R) -> R) (HE : expectation E) (Y X : Om -> R) x c N :
  (forall i, (i <= N)%nat -> E (fun w => Y w ^ i * X w) = E (fun w => Y w ^ i) * x) ->
  forall i, (i <= N)%nat -> E (fun w => (Y w + c) ^ i * X w) = E (fun w => (Y w + c) ^ i) * x.
Proof.
  intros H i Hi.
  rewrite (E_ext E HE (fun w => (Y w + c) ^ i * X w) (fun w => sum_f_R0 (fun j => (Binomial.C i j * c ^ (i - j)) * (Y w ^ j * X w)) i)).
  2: { intro w. rewrite binomial, Rmult_comm, scal_sum. apply sum_eq. intros. ring. }
  rewrite (E_sum_f E HE (fun j w => (Binomial.C i j * c ^ (i - j)) * (Y w ^ j * X w))).
  rewrite (E_moved E HE Y c (fun j => E (fun w => Y w ^ j))) by reflexivity. unfold moved. rewrite Rmult_comm, scal_sum. apply sum_eq.
  intros j Hj. rewrite (E_scal E HE), H by lia. ring.
Qed.
Lemma indep_moved {Om} (E : (Om -> R) -> R) (HE : expectation E) Y J c N : indep E N Y J -> indep E N (fun w => Y w + c) J.
Proof. intros H i j Hij. apply (E_mult_moved E HE Y (fun w => J w ^ j) _ c (N - j)); [|lia]. intros a Ha. apply H. lia. Qed.
Lemma indep_sym {Om} (E : (Om -> R) -> R) (HE : expectation E) Y J N : indep E N Y J -> indep E N J Y.
Proof. intros H i j Hij. rewrite (E_ext E HE _ (fun w => Y w ^ j * J w ^ i)) by (intro; ring). rewrite H by lia. ring. Qed.
Lemma indep_ext {Om} (E : (Om -> R) -> R) (HE : expectation E) Y Y' J N : (forall w, Y w = Y' w) -> indep E N Y J -> indep E N Y' J.
Proof.
  intros e H i j Hij. rewrite (E_ext E HE _ (fun w => Y w ^ i * J w ^ j)) by (intro; now rewrite e). rewrite H by lia.
  f_equal. apply (E_ext E HE). intro; now rewrite e.
Qed.

(** an independent compound Poisson sum can be added to any probability space *)
Lemma add_cpp Om (E : (Om -> R) -> R) N L muj sj : expectation E -> E (fun _ => 1) = 1 ->
  exists (E' : (Om * R -> R) -> R), expectation E' /\ (forall X : Om -> R, E' (fun w => X (fst w)) = E X) /\
    cpp_moments E' N L muj sj snd /\ forall Y : Om -> R, indep E' N (fun w => Y (fst w)) snd.
Proof.
  intros HE E1. set (m := fun i => Derive_n (mgf_cpp L muj (sj ^ 2)) i 0). set (ps := realise1 N m).
  assert (Hps : forall i, (i <= N)%nat -> Efin ps (fun x => x ^ i) = m i) by (intros; now apply realise1_spec).
  assert (m0 : m O = 1).
  { unfold m. cbn [Derive_n]. unfold mgf_cpp, mgf_normal. replace (muj * 0 + sj ^ 2 / 2 * 0 ^ 2) with 0 by ring.
    rewrite exp_0. replace (L * (1 - 1)) with 0 by ring. apply exp_0. }
  assert (P1 : Efin ps (fun _ => 1) = 1) by (transitivity (m O); [exact (Hps O ltac:(lia))|exact m0]).
  assert (HE' : expectation (Ekern E (fun _ : Om => ps))) by now apply Ekern_expectation.
  assert (O1 : forall X : Om -> R, Ekern E (fun _ : Om => ps) (fun w => X (fst w)) = E X) by (intro X; apply Ekern_old; [assumption|intro; apply P1]).
  assert (F1 : forall (X : Om -> R) j, (j <= N)%nat -> Ekern E (fun _ => ps) (fun w => X (fst w) * snd w ^ j) = E X * m j).
  { intros X j Hj. rewrite (Ekern_tower E (fun _ => ps) X (fun x => x ^ j) (fun _ => m j) HE) by (intro; now apply Hps).
    rewrite (E_ext E HE _ (fun w => m j * X w)) by (intro; ring). rewrite (E_scal E HE). ring. }
  assert (C : cpp_moments (Ekern E (fun _ => ps)) N L muj sj snd).
  { intros i Hi. rewrite (E_ext _ HE' _ (fun w => 1 * snd w ^ i)) by (intro; ring). rewrite (F1 (fun _ => 1) i Hi), E1. fold (m i). ring. }
  exists (Ekern E (fun _ => ps)). split; [exact HE'|]. split; [exact O1|]. split; [exact C|].
  intros Y i j Hij. rewrite (F1 (fun w => Y w ^ i) j) by lia. rewrite (C j) by lia. fold (m j). f_equal. symmetry. apply (O1 (fun w => Y w ^ i)).
Qed.

(** ** one factor *)
Lemma ret_mu par d s0 v ie i is : ret (fpar_of (mu_plus par d)) s0 v ie i is = ret (fpar_of par) s0 v ie i is + d * par "h"%string.
Proof.
  transitivity ((par "mu"%string + d) * par "h"%string - int_v (fpar_of par) s0 v ie i / 2 + par "rho"%string * i + sqrt (1 - par "rho"%string ^ 2) * is); [reflexivity|].
  unfold ret. cbn [fpar_of fmu fh frho]. ring.
Qed.
Lemma law_1fsv par d L : par "k"%string <> 0 -> 0 <= par "h"%string -> (1 <= L)%nat ->
  law2 (d * par "h"%string) (fun l => m_1fsv l par) (fun l => m_1fsv l (mu_plus par d)) (fun l => cm_1fsv l par) (fun l => cm_1fsv l (mu_plus par d)) L.
Proof.
  intros Hk Hh HL. set (par' := mu_plus par d).
  destruct (C46_value_1fsv par Hk Hh) as (V1 & V2 & _). destruct (C46_value_1fsv par' Hk Hh) as (W1 & W2 & _).
  destruct (C21_hypotheses_hold (fpar_of par) 0 (Z.of_nat L) Hk Hh ltac:(lia)) as (Om & E & V & IE & I & Is & _ & _ & _ & HE & HV & HT & _).
  assert (one : E (fun _ => 1) = 1) by exact (HV 0%Z ltac:(lia)).
  apply (mk_law Om E (fun w => ret (fpar_of par) 0 (V w) (IE w) (I w) (Is w)) (fun w => ret (fpar_of par') 0 (V w) (IE w) (I w) (Is w)) _ _ _ _ _ _ HE one).
  { intro w. apply ret_mu. }
  intros i Hi. split; [|split; [|split]].
  - apply V1; [lia|]. exists Om, E, (Z.of_nat L), 0, V, IE, I, Is. rewrite Nat2Z.id. repeat (split; [assumption|]). split; [lia|reflexivity].
  - apply W1; [lia|]. exists Om, E, (Z.of_nat L), 0, V, IE, I, Is. rewrite Nat2Z.id. repeat (split; [assumption|]). split; [lia|reflexivity].
  - apply V2; [lia|]. exists Om, E, (Z.of_nat L), 0, V, IE, I, Is. rewrite Nat2Z.id. repeat (split; [assumption|]). split; [lia|]. split; [lia|reflexivity].
  - apply W2; [lia|]. exists Om, E, (Z.of_nat L), 0, V, IE, I, Is. rewrite Nat2Z.id. repeat (split; [assumption|]). split; [lia|]. split; [lia|reflexivity].
Qed.
Lemma law_1fsvj par d L : par "k"%string <> 0 -> 0 <= par "h"%string -> (1 <= L)%nat ->
  law2 (d * par "h"%string) (fun l => m_1fsvj l par) (fun l => m_1fsvj l (mu_plus par d)) (fun l => cm_1fsvj l par) (fun l => cm_1fsvj l (mu_plus par d)) L.
Proof.
  intros Hk Hh HL. set (par' := mu_plus par d).
  destruct (C46_value_1fsvj par Hk Hh) as (V1 & V2 & _). destruct (C46_value_1fsvj par' Hk Hh) as (W1 & W2 & _).
  destruct (C23_hypotheses_hold (fpar_of par) (par "lambda"%string) (par "mu_j"%string) (par "sigma_j"%string) 0 (Z.of_nat L) Hk Hh ltac:(lia))
    as (Om & E & V & IE & I & Is & IE1 & I1 & Is1 & J & J1 & HC).
  pose proof (jindep0 _ _ _ _ _ _ _ _ _ _ _ _ _ _ _ _ _ HC ltac:(lia)) as HI.
  destruct HC as ((HE & HV & HT & _) & HJ & _).
  assert (one : E (fun _ => 1) = 1) by exact (HV 0%Z ltac:(lia)).
  assert (HI' : indep E (Z.to_nat (Z.of_nat L)) (fun w => ret (fpar_of par') 0 (V w) (IE w) (I w) (Is w)) J).
  { apply (indep_ext E HE (fun w => ret (fpar_of par) 0 (V w) (IE w) (I w) (Is w) + d * par "h"%string)); [intro w; symmetry; apply ret_mu|].
    now apply indep_moved. }
  rewrite Nat2Z.id in HI, HI', HJ.
  apply (mk_law Om E (fun w => ret (fpar_of par) 0 (V w) (IE w) (I w) (Is w) + J w) (fun w => ret (fpar_of par') 0 (V w) (IE w) (I w) (Is w) + J w) _ _ _ _ _ _ HE one).
  { intro w. unfold par'. rewrite ret_mu. ring. }
  intros i Hi. split; [|split; [|split]].
  - apply V1; [lia|]. exists Om, E, (Z.of_nat L), 0, V, IE, I, Is, J. rewrite !Nat2Z.id. repeat (split; [assumption|]). split; [lia|reflexivity].
  - apply W1; [lia|]. exists Om, E, (Z.of_nat L), 0, V, IE, I, Is, J. rewrite !Nat2Z.id. repeat (split; [assumption|]). split; [lia|reflexivity].
  - apply V2; [lia|]. exists Om, E, (Z.of_nat L), 0, V, IE, I, Is, J. rewrite !Nat2Z.id. repeat (split; [assumption|]). split; [lia|]. split; [lia|reflexivity].
  - apply W2; [lia|]. exists Om, E, (Z.of_nat L), 0, V, IE, I, Is, J. rewrite !Nat2Z.id. repeat (split; [assumption|]). split; [lia|]. split; [lia|reflexivity].
Qed.

(** ** two factors *)
Definition f2par_of (par : string -> R) : f2par :=
  mkF2 (par "k1"%string) (par "k2"%string) (par "h"%string) (par "mu"%string) (par "theta1"%string) (par "sigma_v1"%string)
    (par "theta2"%string) (par "sigma_v2"%string).
Lemma ret2_mu par d s0 v1 v2 a b a' b' is :
  ret2 (f2par_of (mu_plus par d)) s0 v1 v2 a b a' b' is = ret2 (f2par_of par) s0 v1 v2 a b a' b' is + d * par "h"%string.
Proof.
  transitivity ((par "mu"%string + d) * par "h"%string - (int_v (fac_1 (f2par_of par)) s0 v1 a b + int_v (fac_2 (f2par_of par)) s0 v2 a' b') / 2 + is); [reflexivity|].
  unfold ret2. cbn [f2par_of gmu gh]. ring.
Qed.
Lemma m2_val par l q : (0 <= l)%Z -> moment_y2 l = Ok q -> m_2fsv l par = Ok (val2 (f2par_of par) q).
Proof. intros Hl Eq. rewrite (m_2fsv_vof par l Hl), Eq. reflexivity. Qed.
Lemma cm2_val par l q : (0 <= l)%Z -> cmoment_y2 l = Ok q -> cm_2fsv l par = Ok (cval2 (f2par_of par) q).
Proof. intros Hl Eq. rewrite (cm_2fsv_vof par l Hl), Eq. reflexivity. Qed.

(** the space on which the two-factor functions compute moments *)
Lemma space2 par L : par "k1"%string <> 0 -> par "k2"%string <> 0 -> 0 <= par "h"%string -> (1 <= L)%Z ->
  exists Om (E : (Om -> R) -> R) (V1 V2 IE1 I1 IE2 I2 Is : Om -> R), expectation E /\ E (fun _ => 1) = 1 /\
    forall d, let y w := ret2 (f2par_of (mu_plus par d)) 0 (V1 w) (V2 w) (IE1 w) (I1 w) (IE2 w) (I2 w) (Is w) in
    forall l, (0 <= l <= L)%Z ->
    (exists q, moment_y2 l = Ok q /\ val2 (f2par_of (mu_plus par d)) q = E (fun w => y w ^ Z.to_nat l)) /\
    (exists q, cmoment_y2 l = Ok q /\ cval2 (f2par_of (mu_plus par d)) q = E (fun w => (y w - E y) ^ Z.to_nat l)).
Proof.
  intros Hk1 Hk2 Hh HL. set (p := f2par_of par).
  destruct (proj2 (C40_tables_exist p 0 Hh) L) as (M & HF & HM).
  destruct (C40_hypotheses_hold p 0 L M M ltac:(lia) HM HM) as (Om & E & V1 & V2 & IE1 & I1 & IE2 & I2 & Is & _ & _ & _ & _ & _ & HE & HV & HT & _).
  exists Om, E, V1, V2, IE1, I1, IE2, I2, Is. split; [exact HE|]. split.
  { pose proof (HV 0%Z 0%Z ltac:(lia) ltac:(lia) ltac:(lia)) as h. change (Z.to_nat 0) with O in h. cbn [gmom] in h.
    rewrite (E_ext E HE _ (fun _ => 1)) in h by (intro; cbn; ring). etransitivity; [exact h|]. simpl. ring. }
  intros d y l Hl. split.
  - destruct (C40_moment_y (f2par_of (mu_plus par d)) Om E L 0 M V1 V2 IE1 I1 IE2 I2 Is l Hk1 Hk2 HE HV HT HF Hl) as (q & Eq & _ & Ev). now exists q.
  - destruct (C40_central (f2par_of (mu_plus par d)) Om E L 0 M V1 V2 IE1 I1 IE2 I2 Is l Hk1 Hk2 HE HV HT HF Hl HL) as (_ & q & Eq & _ & Ev). now exists q.
Qed.
Lemma mu_plus_0 par (g : string -> R) : g = mu_plus par 0 -> f2par_of g = f2par_of par.
Proof. intros ->. unfold f2par_of, mu_plus, upd. cbn. now rewrite Rplus_0_r. Qed.
Lemma law_2fsv par d L : par "k1"%string <> 0 -> par "k2"%string <> 0 -> 0 <= par "h"%string -> (1 <= L)%nat ->
  law2 (d * par "h"%string) (fun l => m_2fsv l par) (fun l => m_2fsv l (mu_plus par d)) (fun l => cm_2fsv l par) (fun l => cm_2fsv l (mu_plus par d)) L.
Proof.
  intros Hk1 Hk2 Hh HL.
  destruct (space2 par (Z.of_nat L) Hk1 Hk2 Hh ltac:(lia)) as (Om & E & V1 & V2 & IE1 & I1 & IE2 & I2 & Is & HE & one & H).
  set (yp q := fun w => ret2 (f2par_of q) 0 (V1 w) (V2 w) (IE1 w) (I1 w) (IE2 w) (I2 w) (Is w)).
  apply (mk_law Om E (yp par) (yp (mu_plus par d)) _ _ _ _ _ _ HE one); [intro; apply ret2_mu|].
  intros i Hi. pose proof (H 0 (Z.of_nat i) ltac:(lia)) as H0. rewrite (mu_plus_0 par _ eq_refl), Nat2Z.id in H0.
  pose proof (H d (Z.of_nat i) ltac:(lia)) as Hd. rewrite Nat2Z.id in Hd.
  destruct H0 as ((q1 & e1 & v1) & (q2 & e2 & v2)). destruct Hd as ((q1' & e1' & v1') & (q2' & e2' & v2')).
  split; [|split; [|split]].
  - now rewrite (m2_val par (Z.of_nat i) q1 ltac:(lia) e1), v1.
  - now rewrite (m2_val _ (Z.of_nat i) q1' ltac:(lia) e1'), v1'.
  - now rewrite (cm2_val par (Z.of_nat i) q2 ltac:(lia) e2), v2.
  - now rewrite (cm2_val _ (Z.of_nat i) q2' ltac:(lia) e2'), v2'.
Qed.
Lemma mj2_val par l q : (0 <= l)%Z -> jmoment_y2 l = Ok q ->
  m_2fsvj l par = Ok (val2j (f2par_of par) (par "lambda"%string) (par "mu_j"%string) (par "sigma_j"%string) q).
Proof.
  intros Hl Eq. pose proof (Fsv2jProofs.jmoment_y2_sp 0 0 0 0 0 0 0 0 0 0 0 l Hl) as S. unfold m_2fsvj, scalar. rewrite Eq in *. cbn [bind returns] in *.
  f_equal. apply num_9, S.
Qed.
Lemma cmj2_val par l q : (0 <= l)%Z -> jcmoment_y2 l = Ok q ->
  cm_2fsvj l par = Ok (cval2j (f2par_of par) (par "lambda"%string) (par "mu_j"%string) (par "sigma_j"%string) q).
Proof.
  intros Hl Eq. pose proof (Fsv2jProofs.jcmoment_y2_sp 0 0 0 0 0 0 0 0 0 0 l Hl) as S. unfold cm_2fsvj, scalar. rewrite Eq in *. cbn [bind returns] in *.
  f_equal. apply num_8, S.
Qed.
Lemma law_2fsvj par d L : par "k1"%string <> 0 -> par "k2"%string <> 0 -> 0 <= par "h"%string -> (1 <= L)%nat ->
  law2 (d * par "h"%string) (fun l => m_2fsvj l par) (fun l => m_2fsvj l (mu_plus par d)) (fun l => cm_2fsvj l par) (fun l => cm_2fsvj l (mu_plus par d)) L.
Proof.
  intros Hk1 Hk2 Hh HL.
  destruct (space2 par (Z.of_nat L) Hk1 Hk2 Hh ltac:(lia)) as (Om0 & E0 & V1 & V2 & IE1 & I1 & IE2 & I2 & Is & HE0 & one0 & H).
  destruct (add_cpp Om0 E0 L (par "lambda"%string * par "h"%string) (par "mu_j"%string) (par "sigma_j"%string) HE0 one0) as (E & HE & Eo & HJ & HI).
  assert (one : E (fun _ => 1) = 1) by (rewrite (Eo (fun _ => 1)); exact one0).
  set (yp q := fun w => ret2 (f2par_of q) 0 (V1 w) (V2 w) (IE1 w) (I1 w) (IE2 w) (I2 w) (Is w)).
  set (zp q := fun w : Om0 * R => yp q (fst w) + snd w).
  assert (G : forall d' q, q = mu_plus par d' -> forall i, (1 <= i <= L)%nat ->
    m_2fsvj (Z.of_nat i) q = Ok (E (fun w => zp q w ^ i)) /\ cm_2fsvj (Z.of_nat i) q = Ok (E (fun w => (zp q w - E (zp q)) ^ i))).
  { intros d' q eq i Hi. assert (ps : forall j, (j <= L)%nat -> _) by exact (fun j Hj => H d' (Z.of_nat j) (conj (Nat2Z.is_nonneg j) (proj1 (Nat2Z.inj_le j L) Hj))).
    clear H. rewrite <- eq in ps. fold (yp q) in ps.
    assert (HI1 : indep E i (fun w => yp q (fst w)) snd) by (intros a b Hab; apply (HI (yp q)); lia).
    assert (HJ1 : cpp_moments E i (par "lambda"%string * par "h"%string) (par "mu_j"%string) (par "sigma_j"%string) snd) by (intros a Ha; apply HJ; lia).
    split.
    - destruct (C28_moment_y (Z.of_nat i) ltac:(lia)) as (r & Er & _ & _ & Vr). rewrite (mj2_val _ (Z.of_nat i) r ltac:(lia) Er). f_equal.
      specialize (Vr (f2par_of q) (q "lambda"%string) (q "mu_j"%string) (q "sigma_j"%string) _ E (fun w => yp q (fst w)) snd HE). rewrite Nat2Z.id in Vr.
      apply Vr.
      + intros j m Hj Em. rewrite (Eo (fun w => yp q w ^ Z.to_nat j)). destruct (ps (Z.to_nat j) ltac:(lia)) as ((m' & Em' & v) & _).
        rewrite Nat2Z.id, Z2Nat.id in * by lia. assert (m' = m) by congruence. subst m'. now rewrite v.
      + subst q. exact HJ1.
      + exact HI1.
    - destruct (C28_cmoment_y (Z.of_nat i) ltac:(lia)) as (r & Er & _ & _ & Vr). rewrite (cmj2_val _ (Z.of_nat i) r ltac:(lia) Er). f_equal.
      set (mean := E0 (yp q)).
      assert (eJ : E snd = par "lambda"%string * par "h"%string * par "mu_j"%string).
      { exact (ConvProofs.cpp_mean E HE L _ _ _ snd one HL HJ). }
      specialize (Vr (f2par_of q) (q "lambda"%string) (q "mu_j"%string) (q "sigma_j"%string) mean _ E (fun w => yp q (fst w)) snd HE). rewrite Nat2Z.id in Vr.
      rewrite Vr.
      + apply (E_ext E HE). intro w. f_equal. unfold zp. rewrite (E_plus E HE (fun w => yp q (fst w)) snd), (Eo (yp q)), eJ. subst q. reflexivity.
      + intros j m Hj Em. rewrite (Eo (fun w => (yp q w - mean) ^ Z.to_nat j)). destruct (ps (Z.to_nat j) ltac:(lia)) as (_ & (m' & Em' & v)).
        rewrite Nat2Z.id, Z2Nat.id in * by lia. assert (m' = m) by congruence. subst m'. now rewrite v.
      + subst q. exact HJ1.
      + apply indep_moved; [exact HE|]. apply indep_sym; [exact HE|]. apply indep_moved; [exact HE|]. apply indep_sym; assumption. }
  assert (G0 : forall i, (1 <= i <= L)%nat ->
    m_2fsvj (Z.of_nat i) par = Ok (E (fun w => zp par w ^ i)) /\ cm_2fsvj (Z.of_nat i) par = Ok (E (fun w => (zp par w - E (zp par)) ^ i))).
  { intros i Hi. destruct (G 0 _ eq_refl i Hi) as [g1 g2]. unfold zp, yp in g1, g2. rewrite (mu_plus_0 par _ eq_refl) in g1, g2.
    destruct (returns_inv _ _ (Fsv2jProofs.jmoment_y2_sp 0 0 0 0 0 0 0 0 0 0 0 (Z.of_nat i) ltac:(lia))) as (q & Eq & _).
    destruct (returns_inv _ _ (Fsv2jProofs.jcmoment_y2_sp 0 0 0 0 0 0 0 0 0 0 (Z.of_nat i) ltac:(lia))) as (r & Er & _).
    rewrite (mj2_val (mu_plus par 0) (Z.of_nat i) q ltac:(lia) Eq) in g1. rewrite (cmj2_val (mu_plus par 0) (Z.of_nat i) r ltac:(lia) Er) in g2.
    rewrite (mj2_val par (Z.of_nat i) q ltac:(lia) Eq), (cmj2_val par (Z.of_nat i) r ltac:(lia) Er).
    rewrite (mu_plus_0 par _ eq_refl) in g1, g2. split; [exact g1|exact g2]. }
  apply (mk_law _ E (zp par) (zp (mu_plus par d)) _ _ _ _ _ _ HE one).
  { intro w. unfold zp, yp. rewrite ret2_mu. ring. }
  intros i Hi. destruct (G0 i Hi). destruct (G d _ eq_refl i Hi). now repeat split.
Qed.

(** ** given the jumps of the variance *)
Definition sv_up (p : svpar) (d : R) : svpar := mkSv (svz p) (svmu p + d) (svrho p) (svh p).
Lemma sv_ret_mu p d z ie i is : sv_ret (sv_up p d) z ie i is = sv_ret p z ie i is + d * svh p.
Proof.
  transitivity ((svmu p + d) * svh p - sv_intv p z ie i / 2 + svrho p * i + sqrt (1 - svrho p ^ 2) * is); [reflexivity|].
  unfold sv_ret. ring.
Qed.
Lemma given_code_le Om (E : (Om -> R) -> R) p z n m IE I Is : (m <= n)%Z -> given_code Om E p z n IE I Is -> given_code Om E p z m IE I Is.
Proof.
  intros H (v & h1 & h2). exists v. split; [intros a b d ? ? ? ?; apply h1; lia|]. intros a b d ? ? ? ?. apply h2; lia.
Qed.
Lemma given_code_one Om (E : (Om -> R) -> R) p z n IE I Is : expectation E -> (0 <= n)%Z -> given_code Om E p z n IE I Is -> E (fun _ => 1) = 1.
Proof.
  intros HE Hn (v & h1 & h2). pose proof (h1 0%Z 0%Z 0%Z ltac:(lia) ltac:(lia) ltac:(lia) ltac:(lia)) as e.
  pose proof (h2 0%Z 0%Z 0%Z ltac:(lia) ltac:(lia) ltac:(lia) ltac:(lia)) as e2.
  transitivity (E (fun w => IE w ^ Z.to_nat 0 * I w ^ Z.to_nat 0 * Is w ^ Z.to_nat 0)); [apply (E_ext E HE); intro; cbn; ring|].
  rewrite e. set (r := Verif.Model.ItoCond.jmoment_IEII 0 0 0) in e2. vm_compute in r. subst r. cbn [returns items eval] in e2. rewrite <- e2.
  unfold jmon, zvals, fZ_path. cbn [fst snd monx]. rewrite !PolyFacts.pw_0. unfold Q2R; cbn. field.
Qed.
Lemma jump_part_le Om (E : (Om -> R) -> R) p z n m IE I Is J lam mus sgs : (m <= n)%Z -> jump_part (Om := Om) E p z n IE I Is J lam mus sgs ->
  jump_part E p z m IE I Is J lam mus sgs.
Proof. intros H (h1 & h2). split; [intros i Hi; apply h1; lia|intros i j Hij; apply h2; lia]. Qed.
Lemma price_jumps_le Om mus rhoJ sgs (E : (Om -> R) -> R) p z n m IE I Is Xs : (m <= n)%Z -> price_jumps (Om := Om) mus rhoJ sgs E p z n IE I Is Xs ->
  price_jumps mus rhoJ sgs E p z m IE I Is Xs.
Proof. intros H (h1 & h2). split; [exact h1|]. intros. apply h2; trivial; lia. Qed.
Lemma price_jumps_mu Om mus rhoJ sgs (E : (Om -> R) -> R) p d z n IE I Is Xs : expectation E -> price_jumps (Om := Om) mus rhoJ sgs E p z n IE I Is Xs ->
  price_jumps mus rhoJ sgs E (sv_up p d) z n IE I Is Xs.
Proof.
  intros HE (h1 & h2). split; [exact h1|]. intros i al Hi Hl Ha Hs.
  set (Y := fun w => sv_ret p z (IE w) (I w) (Is w)). set (X := fun w => powprod (map (fun X => X w) Xs) al).
  rewrite (E_ext E HE _ (fun w => (Y w + d * svh p) ^ Z.to_nat i * X w)) by (intro w; unfold X, Y; now rewrite sv_ret_mu).
  rewrite (E_ext E HE (fun w => sv_ret (sv_up p d) z (IE w) (I w) (Is w) ^ Z.to_nat i) (fun w => (Y w + d * svh p) ^ Z.to_nat i)) by (intro w; unfold Y; now rewrite sv_ret_mu).
  apply (E_mult_moved E HE Y X (jprod mus rhoJ sgs z al) (d * svh p) (Z.to_nat i)); [|lia].
  intros j Hj. pose proof (h2 (Z.of_nat j) al ltac:(lia) Hl Ha ltac:(lia)) as h. rewrite Nat2Z.id in h. exact h.
Qed.
Lemma law_svvj p d z nums nums' tups L : jump_dict p z [] nums tups -> jump_dict (sv_up p d) z [] nums' tups -> (1 <= L)%nat ->
  law2 (d * svh p) (fun l => m_svvj l (mkJpar nums tups)) (fun l => m_svvj l (mkJpar nums' tups))
    (fun l => cm_svvj l (mkJpar nums tups)) (fun l => cm_svvj l (mkJpar nums' tups)) L.
Proof.
  intros HD HD' HL. destruct (C34_hypotheses_hold p z (Z.of_nat L) 0 0 0 ltac:(lia)) as (Om & E & IE & I & Is & J & HE & HW & _).
  pose proof (given_code_one _ E p z (Z.of_nat L) IE I Is HE ltac:(lia) HW) as one.
  assert (G : forall q n, jump_dict q z [] n tups -> given_code Om E q z (Z.of_nat L) IE I Is -> forall i, (1 <= i <= L)%nat ->
    m_svvj (Z.of_nat i) (mkJpar n tups) = Ok (E (fun w => sv_ret q z (IE w) (I w) (Is w) ^ i)) /\
    cm_svvj (Z.of_nat i) (mkJpar n tups) = Ok (E (fun w => (sv_ret q z (IE w) (I w) (Is w) - E (fun w => sv_ret q z (IE w) (I w) (Is w))) ^ i))).
  { intros q n Hq HG i Hi. pose proof (given_code_le _ _ _ _ (Z.of_nat L) (Z.of_nat i) _ _ _ ltac:(lia) HG) as HG'.
    destruct (C59_svvj_end (Z.of_nat i) q z n tups Om E IE I Is Hq HE (or_introl HG')) as [h1 h2]. rewrite Nat2Z.id in *.
    split; [apply h1; lia|]. rewrite h2 by lia. f_equal.
    destruct (returns_inv _ _ (C34_sv_cmoment_y (Z.of_nat i) ltac:(lia))) as (r & _ & _ & _ & _ & V).
    destruct (V Om E q z IE I Is (proj1 Hq) HE HG') as [_ em]. rewrite em by lia. reflexivity. }
  apply (mk_law _ E (fun w => sv_ret p z (IE w) (I w) (Is w)) (fun w => sv_ret (sv_up p d) z (IE w) (I w) (Is w)) _ _ _ _ _ _ HE one).
  { intro w. apply sv_ret_mu. }
  intros i Hi. destruct (G p nums HD HW i Hi). destruct (G (sv_up p d) nums' HD' HW i Hi). now repeat split.
Qed.
Lemma law_svij p d z lam mus sgs nums nums' tups L : let more := [("lmbd_s", lam); ("mu_s", mus); ("sigma_s", sgs)]%string in
  jump_dict p z more nums tups -> jump_dict (sv_up p d) z more nums' tups -> (1 <= L)%nat ->
  law2 (d * svh p) (fun l => m_svij l (mkJpar nums tups)) (fun l => m_svij l (mkJpar nums' tups))
    (fun l => cm_svij l (mkJpar nums tups)) (fun l => cm_svij l (mkJpar nums' tups)) L.
Proof.
  intros more HD HD' HL. destruct (C34_hypotheses_hold p z (Z.of_nat L) lam mus sgs ltac:(lia)) as (Om & E & IE & I & Is & J & HE & HW & HJ).
  pose proof (given_code_one _ E p z (Z.of_nat L) IE I Is HE ltac:(lia) HW) as one.
  assert (G : forall q n, jump_dict q z more n tups -> given_code Om E q z (Z.of_nat L) IE I Is -> jump_part E q z (Z.of_nat L) IE I Is J lam mus sgs -> forall i, (1 <= i <= L)%nat ->
    m_svij (Z.of_nat i) (mkJpar n tups) = Ok (E (fun w => (sv_ret q z (IE w) (I w) (Is w) + J w) ^ i)) /\
    cm_svij (Z.of_nat i) (mkJpar n tups) = Ok (E (fun w => (sv_ret q z (IE w) (I w) (Is w) + J w - E (fun w => sv_ret q z (IE w) (I w) (Is w) + J w)) ^ i))).
  { intros q n Hq HG HJq i Hi. pose proof (given_code_le _ _ _ _ (Z.of_nat L) (Z.of_nat i) _ _ _ ltac:(lia) HG) as HG'.
    pose proof (jump_part_le _ _ _ _ (Z.of_nat L) (Z.of_nat i) _ _ _ _ _ _ _ ltac:(lia) HJq) as HJ'.
    destruct (C59_svij_end (Z.of_nat i) q z lam mus sgs n tups Om E IE I Is J Hq HE (or_introl HG') HJ') as [h1 h2]. rewrite Nat2Z.id in *.
    split; [apply h1; lia|]. rewrite h2 by lia. f_equal.
    destruct (returns_inv _ _ (C34_svij_cmoment_y (Z.of_nat i) ltac:(lia))) as (r & _ & _ & _ & _ & V).
    destruct (V Om E q z IE I Is J lam mus sgs (proj1 Hq) HE HG' HJ') as [_ em]. rewrite em by lia. reflexivity. }
  apply (mk_law _ E (fun w => sv_ret p z (IE w) (I w) (Is w) + J w) (fun w => sv_ret (sv_up p d) z (IE w) (I w) (Is w) + J w) _ _ _ _ _ _ HE one).
  { intro w. rewrite sv_ret_mu. ring. }
  assert (HJ' : jump_part E (sv_up p d) z (Z.of_nat L) IE I Is J lam mus sgs).
  { destruct HJ as [j1 j2]. split; [exact j1|]. apply (indep_ext E HE (fun w => sv_ret p z (IE w) (I w) (Is w) + d * svh p)); [intro; symmetry; apply sv_ret_mu|].
    now apply indep_moved. }
  intros i Hi. destruct (G p nums HD HW HJ i Hi). destruct (G (sv_up p d) nums' HD' HW HJ' i Hi). now repeat split.
Qed.
Lemma law_svcj p d z mus rhoJ sgs nums nums' tups L : let more := [("mu_s", mus); ("rho_J", rhoJ); ("sigma_s", sgs)]%string in
  jump_dict p z more nums tups -> jump_dict (sv_up p d) z more nums' tups -> (1 <= L)%nat ->
  law2 (d * svh p) (fun l => m_svcj l (mkJpar nums tups)) (fun l => m_svcj l (mkJpar nums' tups))
    (fun l => cm_svcj l (mkJpar nums tups)) (fun l => cm_svcj l (mkJpar nums' tups)) L.
Proof.
  intros more HD HD' HL. destruct (C44_hypotheses_hold p z (Z.of_nat L) mus rhoJ sgs ltac:(lia)) as (Om & E & IE & I & Is & Xs & HE & HW & HX).
  pose proof (given_code_one _ E p z (Z.of_nat L) IE I Is HE ltac:(lia) HW) as one.
  set (J := fun w => sumR (fun X : Om -> R => X w) Xs).
  assert (G : forall q n, jump_dict q z more n tups -> given_code Om E q z (Z.of_nat L) IE I Is -> price_jumps mus rhoJ sgs E q z (Z.of_nat L) IE I Is Xs -> forall i, (1 <= i <= L)%nat ->
    m_svcj (Z.of_nat i) (mkJpar n tups) = Ok (E (fun w => (sv_ret q z (IE w) (I w) (Is w) + J w) ^ i)) /\
    cm_svcj (Z.of_nat i) (mkJpar n tups) = Ok (E (fun w => (sv_ret q z (IE w) (I w) (Is w) + J w - E (fun w => sv_ret q z (IE w) (I w) (Is w) + J w)) ^ i))).
  { intros q n Hq HG HJq i Hi. pose proof (given_code_le _ _ _ _ (Z.of_nat L) (Z.of_nat i) _ _ _ ltac:(lia) HG) as HG'.
    pose proof (price_jumps_le _ _ _ _ _ _ _ (Z.of_nat L) (Z.of_nat i) _ _ _ _ ltac:(lia) HJq) as HJ'.
    destruct (C59_svcj_end (Z.of_nat i) q z mus rhoJ sgs n tups Om E IE I Is Xs ltac:(lia) Hq HE (or_introl HG') HJ') as [h1 h2]. rewrite Nat2Z.id in *.
    split; [exact h1|]. rewrite h2. f_equal.
    destruct (returns_inv _ _ (C44_cmoment_y (Z.of_nat i) (length z) ltac:(lia))) as (r & _ & _ & _ & _ & V).
    destruct (V Om E q z IE I Is Xs mus rhoJ sgs (proj1 Hq) HE eq_refl HG' HJ') as [_ em]. fold J in em. unfold J. rewrite em by lia. reflexivity. }
  apply (mk_law _ E (fun w => sv_ret p z (IE w) (I w) (Is w) + J w) (fun w => sv_ret (sv_up p d) z (IE w) (I w) (Is w) + J w) _ _ _ _ _ _ HE one).
  { intro w. rewrite sv_ret_mu. ring. }
  pose proof (price_jumps_mu _ mus rhoJ sgs E p d z _ IE I Is Xs HE HX) as HX'.
  intros i Hi. destruct (G p nums HD HW HX i Hi). destruct (G (sv_up p d) nums' HD' HW HX' i Hi). now repeat split.
Qed.

(** ** the variance of the square-root jump diffusion, given v_0, and given v_0 and the jumps *)
Lemma RInt_one (f : R -> R) t x : (forall s, f s = 0) -> is_RInt f 0 t (x - 1) -> x = 1.
Proof.
  intros Hf e. assert (e0 : is_RInt f 0 t (Hierarchy.scal (t - 0) 0)) by (apply (is_RInt_ext (fun _ => 0)); [intros; symmetry; apply Hf|apply (@is_RInt_const R_NormedModule)]).
  pose proof (is_RInt_uniq _ _ _ _ _ e e0) as u. unfold Hierarchy.scal in u. simpl in u. unfold mult in u. simpl in u. lra.
Qed.
Lemma has_moments_le Om p t (E : (Om -> R) -> R) IE IEZ n m : (m <= n)%Z -> has_moments p t E IE IEZ n -> has_moments p t E IE IEZ m.
Proof. intros H (M & HM & h). exists M. split; [exact HM|]. intros. apply h; lia. Qed.
Lemma has_moments_one Om p t (E : (Om -> R) -> R) IE IEZ n : 0 <= t -> (0 <= n)%Z -> expectation E -> has_moments p t E IE IEZ n -> E (fun _ => 1) = 1.
Proof.
  intros Ht Hn HE (M & HM & h). transitivity (M (0, 0)%Z t).
  - rewrite <- (h 0 0)%Z by lia. apply (E_ext E HE). intro. cbn. ring.
  - pose proof (HM (0, 0)%Z ltac:(split; cbn; lia) t Ht) as e. refine (RInt_one _ t _ _ e). reflexivity.
Qed.
Lemma law_srjd (par : dict) p h L : sk p <> 0 -> 0 <= h -> srjd_dict par p h -> (1 <= L)%nat ->
  law2 0 (fun l => srjd_m l par) (fun l => srjd_m l par) (fun l => srjd_cm l par) (fun l => srjd_cm l par) L /\
  law2 0 (fun l => srjd_m_x l par) (fun l => srjd_m_x l par) (fun l => srjd_cm_x l par) (fun l => srjd_cm_x l par) L.
Proof.
  intros Hk Hh HD HL. destruct (C30_variables_exist p h (Z.of_nat L) Hk ltac:(lia)) as (Om & E & IE & IEZ & HE & HM).
  pose proof (has_moments_one Om p h E IE IEZ (Z.of_nat L) Hh ltac:(lia) HE HM) as one.
  pose proof (fun i Hi => C47_srjd_cond (Z.of_nat i) p h Om E IE IEZ par (Nat2Z.is_nonneg i) Hk Hh HE (has_moments_le Om p h E IE IEZ (Z.of_nat L) (Z.of_nat i) Hi HM) HD) as G.
  split.
  - apply (mk_law Om E (fun w => v_of p h (IE w) (IEZ w)) (fun w => v_of p h (IE w) (IEZ w)) _ _ _ _ _ _ HE one); [intro; ring|].
    intros i Hi. destruct (G i ltac:(lia)) as (_ & g1 & _ & g2). rewrite Nat2Z.id in g1, g2. repeat split; assumption.
  - apply (mk_law Om E (fun w => ssg p * IE w + IEZ w) (fun w => ssg p * IE w + IEZ w) _ _ _ _ _ _ HE one); [intro; ring|].
    intros i Hi. destruct (G i ltac:(lia)) as (g1 & _ & g2 & _). rewrite Nat2Z.id in g1, g2. repeat split; assumption.
Qed.
Lemma law_srjd2 p (z : path) h nums tups L : zpk p <> 0 -> 0 <= h -> jumps_ok z -> (forall sj, In sj z -> fst sj <= h) ->
  holds nums (z_dict p h) -> holds_path tups z -> (1 <= L)%nat ->
  law2 0 (fun l => m_srjd2 l (mkJpar nums tups)) (fun l => m_srjd2 l (mkJpar nums tups))
    (fun l => cm_srjd2 l (mkJpar nums tups)) (fun l => cm_srjd2 l (mkJpar nums tups)) L.
Proof.
  intros Hk Hh Hz Hzh Hn Ht HL. destruct (C42_hypotheses_hold p z h L Hk Hz Hh) as (M & HM & E & HE & HI).
  assert (one : E (fun _ => 1) = 1).
  { transitivity (M (0, 0, 0)%Z h); [rewrite <- HI by lia; apply (E_ext E HE); reflexivity|].
    pose proof (HM (0, 0, 0)%Z ltac:(repeat split; cbn; lia) h Hh) as e. refine (RInt_one _ h _ _ e). reflexivity. }
  set (v := fun x : R => v_given p z h + zpsg p * exp (- (zpk p * h)) * x).
  apply (mk_law R E v v _ _ _ _ _ _ HE one); [intro; ring|].
  intros i Hi. destruct (C59_srjd_end (Z.of_nat i) p z h nums tups M R E (fun x => x) ltac:(lia) Hk Hh Hz Hzh Hn Ht HM HE ltac:(intros; apply HI; lia)) as [g1 g2].
  assert (P : forall (Y : R -> R), E (fun w => pw (Y w) (Z.of_nat i)) = E (fun w => Y w ^ i)).
  { intro Y. apply (E_ext E HE). intro w. rewrite PolyFacts.pw_Zpos by lia. now rewrite Nat2Z.id. }
  assert (g1' : m_srjd2 (Z.of_nat i) (mkJpar nums tups) = Ok (E (fun w => v w ^ i))) by (rewrite <- P; exact g1).
  assert (g2' : cm_srjd2 (Z.of_nat i) (mkJpar nums tups) = Ok (E (fun w => (v w - E v) ^ i))) by (rewrite <- (P (fun w => v w - E v)); exact g2).
  repeat split; assumption.
Qed.

(** ** the return of the SVCJ model, given v_0, and started from the stationary law *)
Lemma svcj_y_mu p mu rho rhoJ d t a b c a' b' c' : svcj_y p (mu + d) rho rhoJ t a b c a' b' c' = svcj_y p mu rho rhoJ t a b c a' b' c' + d * t.
Proof. unfold svcj_y. ring. Qed.
Lemma svcj_M0 p M t : 0 <= t -> svcj_moments p M -> M (0, 0, 0, 0, 0, 0)%Z t = 1.
Proof.
  intros Ht HM. pose proof (HM (0, 0, 0, 0, 0, 0)%Z ltac:(repeat split; cbn; lia) t Ht) as e.
  refine (RInt_one _ t _ _ e). reflexivity.
Qed.
Lemma law_svcj_cond (par par' : dict) p mu rho rhoJ d h L : Svcj.jk p <> 0 -> 0 <= h -> rho ^ 2 <= 1 -> svcj_dict par p h -> ret_dict par mu rho rhoJ ->
  svcj_dict par' p h -> ret_dict par' (mu + d) rho rhoJ -> (1 <= L)%nat ->
  law2 (d * h) (fun l => svcj_cond_m_y l par) (fun l => svcj_cond_m_y l par') (fun l => svcj_cond_cm_y l par) (fun l => svcj_cond_cm_y l par') L.
Proof.
  intros Hk Hh Hr HD HR HD' HR' HL. destruct (C38_cond_law_exists L p h Hk) as (Om & E & IE & II & IIs & IEZ & IZ & IZs & HE & M & HM & HV).
  assert (one : E (fun _ => 1) = 1).
  { pose proof (HV 0%nat 0%nat 0%nat 0%nat 0%nat 0%nat ltac:(lia)) as e. cbn [Z.of_nat] in e. rewrite (svcj_M0 p M h Hh HM) in e. etransitivity; [|exact e]. apply (E_ext E HE). intro. cbn [pow]. ring. }
  assert (HM' : forall i, (i <= L)%nat -> has_moments6 p h E IE II IIs IEZ IZ IZs (Z.to_nat (Z.of_nat i))).
  { intros i Hi. exists M. split; [exact HM|]. intros. apply HV. lia. }
  set (y m := fun w => svcj_y p m rho rhoJ h (IE w) (II w) (IIs w) (IEZ w) (IZ w) (IZs w)).
  apply (mk_law Om E (y mu) (y (mu + d)) _ _ _ _ _ _ HE one); [intro; apply svcj_y_mu|].
  intros i Hi.
  destruct (C47_svcj_cond (Z.of_nat i) p mu rho rhoJ h Om E IE II IIs IEZ IZ IZs par ltac:(lia) Hk Hh Hr HE (HM' i ltac:(lia)) HD HR) as [g1 g2].
  destruct (C47_svcj_cond (Z.of_nat i) p (mu + d) rho rhoJ h Om E IE II IIs IEZ IZ IZs par' ltac:(lia) Hk Hh Hr HE (HM' i ltac:(lia)) HD' HR') as [g3 g4].
  rewrite Nat2Z.id in *. repeat split; assumption.
Qed.
Lemma law_svcj_stat (par par' : dict) p mu rho rhoJ d h L : Svcj.jk p <> 0 -> 0 <= h -> rho ^ 2 <= 1 -> svcj_dict par p h -> ret_dict par mu rho rhoJ ->
  svcj_dict par' p h -> ret_dict par' (mu + d) rho rhoJ -> (1 <= L)%nat ->
  law2 (d * h) (fun l => svcj_unm_y l par) (fun l => svcj_unm_y l par') (fun l => svcj_cm_y l par) (fun l => svcj_cm_y l par') L.
Proof.
  intros Hk Hh Hr HD HR HD' HR' HL. destruct (C38_law_exists L p h Hk Hh) as (Om & E & V0 & IE & II & IIs & IEZ & IZ & IZs & HE & (M & HM & HV) & HC).
  assert (one : E (fun _ => 1) = 1).
  { destruct (HC 0%nat ltac:(lia)) as (q & Eq & Ev). set (r := SrjdStat.stat_cmoment_v (Z.of_nat 0)) in Eq. vm_compute in r. subst r. injection Eq as <-.
    cbn [pow] in Ev. rewrite Ev. cbn [items eval monx stat_vals]. rewrite !PolyFacts.pw_0. unfold Q2R; cbn. field. }
  assert (HM' : forall i, (i <= L)%nat -> joint_moments6 p h E V0 IE II IIs IEZ IZ IZs (Z.to_nat (Z.of_nat i))).
  { intros i Hi. exists M. split; [exact HM|]. intros. apply HV. lia. }
  assert (HC' : forall i, (i <= L)%nat -> code_cmoments (jsrjd p) E V0 (Z.to_nat (Z.of_nat i))).
  { intros i Hi j Hj. apply HC. lia. }
  set (y m := fun w => svcj_y (with_jv0 p (V0 w)) m rho rhoJ h (IE w) (II w) (IIs w) (IEZ w) (IZ w) (IZs w)).
  apply (mk_law Om E (y mu) (y (mu + d)) _ _ _ _ _ _ HE one); [intro; apply svcj_y_mu|].
  intros i Hi.
  destruct (C47_svcj_stat (Z.of_nat i) p mu rho rhoJ h Om E V0 IE II IIs IEZ IZ IZs par ltac:(lia) Hk Hh Hr HE (HM' i ltac:(lia)) (HC' i ltac:(lia)) HD HR) as [g1 g2].
  destruct (C47_svcj_stat (Z.of_nat i) p (mu + d) rho rhoJ h Om E V0 IE II IIs IEZ IZ IZs par' ltac:(lia) Hk Hh Hr HE (HM' i ltac:(lia)) (HC' i ltac:(lia)) HD' HR') as [g3 g4].
  rewrite Nat2Z.id in *. repeat split; assumption.
Qed.

(** ** C61 *)
Theorem C61_1fsv : forall par : string -> R, par "k"%string <> 0 -> 0 <= par "h"%string ->
  central_of (fun l => m_1fsv l par) (fun l => cm_1fsv l par) /\ central_of (fun l => m_1fsvj l par) (fun l => cm_1fsvj l par).
Proof.
  intros par Hk Hh. split; [exact (law2_central _ _ _ _ _ (fun L HL => law_1fsv par 0 L Hk Hh HL))|exact (law2_central _ _ _ _ _ (fun L HL => law_1fsvj par 0 L Hk Hh HL))].
Qed.
Theorem C61_2fsv : forall par : string -> R, par "k1"%string <> 0 -> par "k2"%string <> 0 -> 0 <= par "h"%string ->
  central_of (fun l => m_2fsv l par) (fun l => cm_2fsv l par) /\ central_of (fun l => m_2fsvj l par) (fun l => cm_2fsvj l par).
Proof.
  intros par Hk1 Hk2 Hh. split; [exact (law2_central _ _ _ _ _ (fun L HL => law_2fsv par 0 L Hk1 Hk2 Hh HL))|exact (law2_central _ _ _ _ _ (fun L HL => law_2fsvj par 0 L Hk1 Hk2 Hh HL))].
Qed.
Lemma sv_up_0 p : sv_up p 0 = p.
Proof. destruct p. unfold sv_up. cbn. now rewrite Rplus_0_r. Qed.
Theorem C61_svvj : forall p (z : path) nums tups, jump_dict p z [] nums tups ->
  central_of (fun l => m_svvj l (mkJpar nums tups)) (fun l => cm_svvj l (mkJpar nums tups)).
Proof.
  intros p z nums tups HD. refine (law2_central _ _ _ _ _ (fun L HL => law_svvj p 0 z nums nums tups L HD _ HL)). now rewrite sv_up_0.
Qed.
Theorem C61_svij : forall p (z : path) lam mus sgs nums tups, jump_dict p z [("lmbd_s", lam); ("mu_s", mus); ("sigma_s", sgs)]%string nums tups ->
  central_of (fun l => m_svij l (mkJpar nums tups)) (fun l => cm_svij l (mkJpar nums tups)).
Proof.
  intros p z lam mus sgs nums tups HD. refine (law2_central _ _ _ _ _ (fun L HL => law_svij p 0 z lam mus sgs nums nums tups L HD _ HL)). now rewrite sv_up_0.
Qed.
Theorem C61_svcj : forall p (z : path) mus rhoJ sgs nums tups, jump_dict p z [("mu_s", mus); ("rho_J", rhoJ); ("sigma_s", sgs)]%string nums tups ->
  central_of (fun l => m_svcj l (mkJpar nums tups)) (fun l => cm_svcj l (mkJpar nums tups)).
Proof.
  intros p z mus rhoJ sgs nums tups HD. refine (law2_central _ _ _ _ _ (fun L HL => law_svcj p 0 z mus rhoJ sgs nums nums tups L HD _ HL)). now rewrite sv_up_0.
Qed.
Theorem C61_srjd : forall (par : dict) p h, sk p <> 0 -> 0 <= h -> srjd_dict par p h ->
  central_of (fun l => srjd_m l par) (fun l => srjd_cm l par) /\ central_of (fun l => srjd_m_x l par) (fun l => srjd_cm_x l par).
Proof.
  intros par p h Hk Hh HD. split; [exact (law2_central _ _ _ _ _ (fun L HL => proj1 (law_srjd par p h L Hk Hh HD HL)))|exact (law2_central _ _ _ _ _ (fun L HL => proj2 (law_srjd par p h L Hk Hh HD HL)))].
Qed.
Theorem C61_srjd2 : forall p (z : path) h nums tups, zpk p <> 0 -> 0 <= h -> jumps_ok z -> (forall sj, In sj z -> fst sj <= h) ->
  holds nums (z_dict p h) -> holds_path tups z ->
  central_of (fun l => m_srjd2 l (mkJpar nums tups)) (fun l => cm_srjd2 l (mkJpar nums tups)).
Proof.
  intros p z h nums tups Hk Hh Hz Hzh Hn Ht. exact (law2_central _ _ _ _ _ (fun L HL => law_srjd2 p z h nums tups L Hk Hh Hz Hzh Hn Ht HL)).
Qed.
Theorem C61_svcj_v0 : forall (par : dict) p mu rho rhoJ h, Svcj.jk p <> 0 -> 0 <= h -> rho ^ 2 <= 1 -> svcj_dict par p h -> ret_dict par mu rho rhoJ ->
  central_of (fun l => svcj_cond_m_y l par) (fun l => svcj_cond_cm_y l par) /\ central_of (fun l => svcj_unm_y l par) (fun l => svcj_cm_y l par).
Proof.
  intros par p mu rho rhoJ h Hk Hh Hr HD HR. assert (HR' : ret_dict par (mu + 0) rho rhoJ) by now rewrite Rplus_0_r.
  split; [exact (law2_central _ _ _ _ _ (fun L HL => law_svcj_cond par par p mu rho rhoJ 0 h L Hk Hh Hr HD HR HD HR' HL))|
          exact (law2_central _ _ _ _ _ (fun L HL => law_svcj_stat par par p mu rho rhoJ 0 h L Hk Hh Hr HD HR HD HR' HL))].
Qed.

(** ** C62 *)
Theorem C62_1fsv : forall (par : string -> R) (d : R), par "k"%string <> 0 -> 0 <= par "h"%string ->
  (moved_by (d * par "h"%string) (fun l => m_1fsv l par) (fun l => m_1fsv l (mu_plus par d)) /\
   forall l, (1 <= l)%nat -> cm_1fsv (Z.of_nat l) (mu_plus par d) = cm_1fsv (Z.of_nat l) par) /\
  (moved_by (d * par "h"%string) (fun l => m_1fsvj l par) (fun l => m_1fsvj l (mu_plus par d)) /\
   forall l, (1 <= l)%nat -> cm_1fsvj (Z.of_nat l) (mu_plus par d) = cm_1fsvj (Z.of_nat l) par).
Proof.
  intros par d Hk Hh. split; [exact (law2_shift _ _ _ _ _ (fun L HL => law_1fsv par d L Hk Hh HL))|exact (law2_shift _ _ _ _ _ (fun L HL => law_1fsvj par d L Hk Hh HL))].
Qed.
Theorem C62_2fsv : forall (par : string -> R) (d : R), par "k1"%string <> 0 -> par "k2"%string <> 0 -> 0 <= par "h"%string ->
  (moved_by (d * par "h"%string) (fun l => m_2fsv l par) (fun l => m_2fsv l (mu_plus par d)) /\
   forall l, (1 <= l)%nat -> cm_2fsv (Z.of_nat l) (mu_plus par d) = cm_2fsv (Z.of_nat l) par) /\
  (moved_by (d * par "h"%string) (fun l => m_2fsvj l par) (fun l => m_2fsvj l (mu_plus par d)) /\
   forall l, (1 <= l)%nat -> cm_2fsvj (Z.of_nat l) (mu_plus par d) = cm_2fsvj (Z.of_nat l) par).
Proof.
  intros par d Hk1 Hk2 Hh. split; [exact (law2_shift _ _ _ _ _ (fun L HL => law_2fsv par d L Hk1 Hk2 Hh HL))|exact (law2_shift _ _ _ _ _ (fun L HL => law_2fsvj par d L Hk1 Hk2 Hh HL))].
Qed.
Theorem C62_svvj : forall p d (z : path) nums nums' tups, jump_dict p z [] nums tups -> jump_dict (sv_up p d) z [] nums' tups ->
  moved_by (d * svh p) (fun l => m_svvj l (mkJpar nums tups)) (fun l => m_svvj l (mkJpar nums' tups)) /\
  forall l, (1 <= l)%nat -> cm_svvj (Z.of_nat l) (mkJpar nums' tups) = cm_svvj (Z.of_nat l) (mkJpar nums tups).
Proof. intros p d z nums nums' tups HD HD'. exact (law2_shift _ _ _ _ _ (fun L HL => law_svvj p d z nums nums' tups L HD HD' HL)). Qed.
Theorem C62_svij : forall p d (z : path) lam mus sgs nums nums' tups, let more := [("lmbd_s", lam); ("mu_s", mus); ("sigma_s", sgs)]%string in
  jump_dict p z more nums tups -> jump_dict (sv_up p d) z more nums' tups ->
  moved_by (d * svh p) (fun l => m_svij l (mkJpar nums tups)) (fun l => m_svij l (mkJpar nums' tups)) /\
  forall l, (1 <= l)%nat -> cm_svij (Z.of_nat l) (mkJpar nums' tups) = cm_svij (Z.of_nat l) (mkJpar nums tups).
Proof. intros p d z lam mus sgs nums nums' tups more HD HD'. exact (law2_shift _ _ _ _ _ (fun L HL => law_svij p d z lam mus sgs nums nums' tups L HD HD' HL)). Qed.
Theorem C62_svcj : forall p d (z : path) mus rhoJ sgs nums nums' tups, let more := [("mu_s", mus); ("rho_J", rhoJ); ("sigma_s", sgs)]%string in
  jump_dict p z more nums tups -> jump_dict (sv_up p d) z more nums' tups ->
  moved_by (d * svh p) (fun l => m_svcj l (mkJpar nums tups)) (fun l => m_svcj l (mkJpar nums' tups)) /\
  forall l, (1 <= l)%nat -> cm_svcj (Z.of_nat l) (mkJpar nums' tups) = cm_svcj (Z.of_nat l) (mkJpar nums tups).
Proof. intros p d z mus rhoJ sgs nums nums' tups more HD HD'. exact (law2_shift _ _ _ _ _ (fun L HL => law_svcj p d z mus rhoJ sgs nums nums' tups L HD HD' HL)). Qed.
Theorem C62_svcj_v0 : forall (par par' : dict) p mu rho rhoJ d h, Svcj.jk p <> 0 -> 0 <= h -> rho ^ 2 <= 1 ->
  svcj_dict par p h -> ret_dict par mu rho rhoJ -> svcj_dict par' p h -> ret_dict par' (mu + d) rho rhoJ ->
  (moved_by (d * h) (fun l => svcj_cond_m_y l par) (fun l => svcj_cond_m_y l par') /\
   forall l, (1 <= l)%nat -> svcj_cond_cm_y (Z.of_nat l) par' = svcj_cond_cm_y (Z.of_nat l) par) /\
  (moved_by (d * h) (fun l => svcj_unm_y l par) (fun l => svcj_unm_y l par') /\
   forall l, (1 <= l)%nat -> svcj_cm_y (Z.of_nat l) par' = svcj_cm_y (Z.of_nat l) par).
Proof.
  intros par par' p mu rho rhoJ d h Hk Hh Hr HD HR HD' HR'.
  split; [exact (law2_shift _ _ _ _ _ (fun L HL => law_svcj_cond par par' p mu rho rhoJ d h L Hk Hh Hr HD HR HD' HR' HL))|
          exact (law2_shift _ _ _ _ _ (fun L HL => law_svcj_stat par par' p mu rho rhoJ d h L Hk Hh Hr HD HR HD' HR' HL))].
Qed.

(** What [central_of] says at the first orders: the first central moment is 0, the second one is the variance. *)
Theorem C61_orders : forall m cm : Z -> res R, central_of m cm ->
  cm 1%Z = Ok 0 /\
  forall a b c, m 1%Z = Ok a -> m 2%Z = Ok b -> m 3%Z = Ok c -> cm 2%Z = Ok (b - a ^ 2) /\ cm 3%Z = Ok (c - 3 * a * b + 2 * a ^ 3).
Proof.
  intros m cm (ms & (m0 & H) & K). split.
  - change 1%Z with (Z.of_nat 1). rewrite K by lia. f_equal. unfold moved. cbn [sum_f_R0 Nat.sub pow]. unfold Binomial.C. cbn. rewrite m0. field.
  - intros a b c Ha Hb Hc. change 1%Z with (Z.of_nat 1) in Ha. change 2%Z with (Z.of_nat 2) in *. change 3%Z with (Z.of_nat 3) in *.
    rewrite H in Ha, Hb, Hc by lia. injection Ha as <-. injection Hb as <-. injection Hc as <-. rewrite !K by lia.
    split; f_equal; unfold moved; cbn [sum_f_R0 Nat.sub pow]; unfold Binomial.C; cbn; rewrite m0; field.
Qed.

(** the hypotheses can be met *)
Example C61_example_factor : let par s := (if String.eqb s "k" then 2 else if String.eqb s "h" then 1 else 1/4)%string in
  par "k"%string <> 0 /\ 0 <= par "h"%string /\ cm_1fsvj 1 par = Ok 0 /\ cm_1fsv 4 (mu_plus par 3) = cm_1fsv 4 par.
Proof.
  set (par := fun s => _). cbv zeta. assert (h1 : par "k"%string <> 0) by (cbn; lra). assert (h2 : 0 <= par "h"%string) by (cbn; lra).
  do 2 (split; [assumption|]). split.
  - exact (proj1 (C61_orders _ _ (proj2 (C61_1fsv par h1 h2)))).
  - exact (proj2 (proj1 (C62_1fsv par 3 h1 h2)) 4%nat ltac:(lia)).
Qed.
Example C61_example_factor2 : let par s := (if String.eqb s "k1" then 2 else if String.eqb s "k2" then 3 else if String.eqb s "h" then 1 else 1/4)%string in
  par "k1"%string <> 0 /\ par "k2"%string <> 0 /\ 0 <= par "h"%string /\ cm_2fsvj 1 par = Ok 0 /\ cm_2fsv 3 (mu_plus par 3) = cm_2fsv 3 par.
Proof.
  set (par := fun s => _). cbv zeta. assert (h1 : par "k1"%string <> 0) by (cbn; lra). assert (h2 : par "k2"%string <> 0) by (cbn; lra).
  assert (h3 : 0 <= par "h"%string) by (cbn; lra). do 3 (split; [assumption|]). split.
  - exact (proj1 (C61_orders _ _ (proj2 (C61_2fsv par h1 h2 h3)))).
  - exact (proj2 (proj1 (C62_2fsv par 3 h1 h2 h3)) 3%nat ltac:(lia)).
Qed.
Definition c62_nums (mu : R) (s : string) : option R :=
  (if String.eqb s "v0" then Some 1 else if String.eqb s "k" then Some 1 else if String.eqb s "theta" then Some 2 else if String.eqb s "sigma" then Some 1
   else if String.eqb s "rho" then Some 0 else if String.eqb s "mu" then Some mu else if String.eqb s "h" then Some 3 else Some (1/2))%string.
Definition c62_p mu := mkSv (mkZpar 1 1 2 1) mu 0 3.
Lemma c62_dict mu more : holds (c62_nums mu) more -> jump_dict (c62_p mu) [(1, 2); (3, 1)] more (c62_nums mu) (td [1; 3] [2; 1]).
Proof.
  intro H. unfold jump_dict. split; [cbn; lra|]. split; [cbn; rewrite Rabs_R0; lra|]. split; [intros sj [<-|[<-|[]]]; cbn; lra|].
  split; [|repeat constructor]. repeat (constructor; [reflexivity|]). exact H.
Qed.
Example C62_example_jumps : let z := [(1, 2); (3, 1)]%R in let tups := td [1; 3] [2; 1] in
  jump_dict (c62_p (1/8)) z [("mu_s", 1/2); ("rho_J", 1/2); ("sigma_s", 1/2)]%string (c62_nums (1/8)) tups /\
  jump_dict (sv_up (c62_p (1/8)) 2) z [("mu_s", 1/2); ("rho_J", 1/2); ("sigma_s", 1/2)]%string (c62_nums (1/8 + 2)) tups /\
  cm_svcj 1 (mkJpar (c62_nums (1/8)) tups) = Ok 0 /\
  cm_svcj 4 (mkJpar (c62_nums (1/8 + 2)) tups) = cm_svcj 4 (mkJpar (c62_nums (1/8)) tups) /\
  cm_svij 4 (mkJpar (c62_nums (1/8 + 2)) tups) = cm_svij 4 (mkJpar (c62_nums (1/8)) tups) /\
  cm_svvj 4 (mkJpar (c62_nums (1/8 + 2)) tups) = cm_svvj 4 (mkJpar (c62_nums (1/8)) tups).
Proof.
  cbv zeta. assert (G : forall mu, holds (c62_nums mu) [("mu_s", 1/2); ("rho_J", 1/2); ("sigma_s", 1/2)]%string) by (intro mu; repeat constructor).
  assert (G' : forall mu, holds (c62_nums mu) [("lmbd_s", 1/2); ("mu_s", 1/2); ("sigma_s", 1/2)]%string) by (intro mu; repeat constructor).
  assert (G0 : forall mu, holds (c62_nums mu) []) by (intro mu; constructor).
  split; [exact (c62_dict _ _ (G _))|]. split; [exact (c62_dict _ _ (G _))|]. split; [|split; [|split]].
  - exact (proj1 (C61_orders _ _ (C61_svcj _ _ _ _ _ _ _ (c62_dict _ _ (G _))))).
  - exact (proj2 (C62_svcj (c62_p (1/8)) 2 _ _ _ _ _ _ _ (c62_dict _ _ (G _)) (c62_dict _ _ (G _))) 4%nat ltac:(lia)).
  - exact (proj2 (C62_svij (c62_p (1/8)) 2 _ _ _ _ _ _ _ (c62_dict _ _ (G' _)) (c62_dict _ _ (G' _))) 4%nat ltac:(lia)).
  - exact (proj2 (C62_svvj (c62_p (1/8)) 2 _ _ _ _ (c62_dict _ _ (G0 _)) (c62_dict _ _ (G0 _))) 4%nat ltac:(lia)).
Qed.
Example C61_example_srjd : let par s := (if String.eqb s "v0" then Some 1 else if String.eqb s "k" then Some 2 else if String.eqb s "h" then Some 3 else Some (1/4))%string in
  srjd_dict par (mkSrjd 2 1 (1/4) (1/4) (1/4) (1/4)) 3 /\ srjd_cm 1 par = Ok 0 /\ srjd_cm_x 1 par = Ok 0.
Proof.
  cbv zeta. set (par := fun s => _). assert (H : srjd_dict par (mkSrjd 2 1 (1/4) (1/4) (1/4) (1/4)) 3) by (repeat split; reflexivity).
  split; [exact H|]. pose proof (C61_srjd par (mkSrjd 2 1 (1/4) (1/4) (1/4) (1/4)) 3 ltac:(cbn; lra) ltac:(lra) H) as [h1 h2]. split; [exact (proj1 (C61_orders _ _ h1))|exact (proj1 (C61_orders _ _ h2))].
Qed.
Example C61_example_srjd2 : let tups := td [1; 3] [2; 1] in
  jumps_ok [(1, 2); (3, 1)] /\ holds (c62_nums 0) (z_dict (mkZpar 1 1 2 1) 3) /\ holds_path tups [(1, 2); (3, 1)] /\ cm_srjd2 1 (mkJpar (c62_nums 0) tups) = Ok 0.
Proof.
  cbv zeta. assert (H1 : jumps_ok [(1, 2); (3, 1)]) by (intros sj [<-|[<-|[]]]; cbn; lra).
  assert (H2 : holds (c62_nums 0) (z_dict (mkZpar 1 1 2 1) 3)) by (repeat constructor). assert (H3 : holds_path (td [1; 3] [2; 1]) [(1, 2); (3, 1)]) by (repeat constructor).
  do 3 (split; [assumption|]). refine (proj1 (C61_orders _ _ (C61_srjd2 (mkZpar 1 1 2 1) [(1, 2); (3, 1)] 3 _ _ _ _ H1 _ H2 H3))); [cbn; lra|lra|].
  intros sj [<-|[<-|[]]]; cbn; lra.
Qed.
Definition c62_svcj (mu : R) (s : string) : option R :=
  (if String.eqb s "v0" then Some 1 else if String.eqb s "k" then Some 2 else if String.eqb s "h" then Some 3 else if String.eqb s "mu" then Some mu else Some (1/4))%string.
Example C62_example_svcj : let p := mkSvcj 2 1 (1/4) (1/4) (1/4) (1/4) (1/4) (1/4) in
  svcj_dict (c62_svcj 1) p 3 /\ ret_dict (c62_svcj 1) 1 (1/4) (1/4) /\ svcj_dict (c62_svcj (1 + 2)) p 3 /\ ret_dict (c62_svcj (1 + 2)) (1 + 2) (1/4) (1/4) /\
  svcj_cond_cm_y 4 (c62_svcj (1 + 2)) = svcj_cond_cm_y 4 (c62_svcj 1) /\ svcj_cm_y 4 (c62_svcj (1 + 2)) = svcj_cm_y 4 (c62_svcj 1).
Proof.
  set (p := mkSvcj _ _ _ _ _ _ _ _). cbv zeta. assert (H : forall mu, svcj_dict (c62_svcj mu) p 3 /\ ret_dict (c62_svcj mu) mu (1/4) (1/4)) by (intro mu; repeat split; reflexivity).
  destruct (H 1) as [h1 h2]. destruct (H (1 + 2)) as [h3 h4]. do 4 (split; [assumption|]).
  pose proof (C62_svcj_v0 _ _ p 1 (1/4) (1/4) 2 3 ltac:(cbn; lra) ltac:(lra) ltac:(lra) h1 h2 h3 h4) as [[_ a] [_ b]].
  split; [exact (a 4%nat ltac:(lia))|exact (b 4%nat ltac:(lia))].
Qed.
