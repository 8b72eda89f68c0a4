(** Property C60, continued: the square-root jump diffusion and the SVCJ model without jumps. *)
From Coq Require Import Reals Lra.
From Coquelicot Require Import Coquelicot.
From Verif.Spec Require Import Fsv1 Srjd Svcj Params Returns1 Cond1.
From Verif.Model Require Import ItoMom SrjdStat Scalar Decode CondCmom1.
From Verif.Proof Require Import ItoProofs MomentV Stationary Nested Nested2.
From Verif.Props Require Import PropsIto Props1fsv PropsSrjdCond PropsSrjdStat PropsSvcjMom PropsDecode PropsScalar PropsCond1.
Local Open Scope R_scope.

Lemma central_same {Om Om'} (E : (Om -> R) -> R) (E' : (Om' -> R) -> R) V V' (HE : expectation E) (HE' : expectation E') c N :
  (forall n, (n <= N)%nat -> E (fun w => V w ^ n) = E' (fun w => V' w ^ n)) ->
  forall i d, (d + i <= N)%nat -> E (fun w => V w ^ d * (V w - c) ^ i) = E' (fun w => V' w ^ d * (V' w - c) ^ i).
Proof.
  intro H. induction i as [|i IH]; intros d Hd.
  - rewrite (E_ext E HE _ (fun w => V w ^ d)) by (intro; ring). rewrite (E_ext E' HE' _ (fun w => V' w ^ d)) by (intro; ring). apply H. lia.
  - rewrite (E_ext E HE _ (fun w => V w ^ S d * (V w - c) ^ i + - c * (V w ^ d * (V w - c) ^ i))) by (intro; simpl; ring).
    rewrite (E_ext E' HE' _ (fun w => V' w ^ S d * (V' w - c) ^ i + - c * (V' w ^ d * (V' w - c) ^ i))) by (intro; simpl; ring).
    rewrite (E_plus E HE), (E_plus E' HE'), (E_scal E HE), (E_scal E' HE'), !IH by lia. reflexivity.
Qed.

(** without jumps the central moments returned by cmoment_v are those of the Gamma law *)
Lemma stat_code par Om (E : (Om -> R) -> R) V N f : sk par <> 0 -> slam par = 0 \/ smu par = 0 -> expectation E ->
  fk f = sk par -> fth f = sth par -> fsg f = ssg par -> stationary E f (Z.of_nat N) V -> code_cmoments par E V N.
Proof.
  intros Hk H0 HE e1 e2 e3 HV. set (p := mkF (sk par) 1 0 (sth par) (ssg par) 0).
  destruct (C21_hypotheses_hold p 0 (Z.of_nat N) Hk ltac:(cbn; lra) ltac:(lia)) as (Om' & E' & V' & IE & I & Is & _ & _ & _ & HE' & HV' & HT & _).
  assert (EV : forall n, (n <= N)%nat -> E (fun w => V w ^ n) = E' (fun w => V' w ^ n)).
  { intros n Hn. pose proof (HV (Z.of_nat n) ltac:(lia)) as a. pose proof (HV' (Z.of_nat n) ltac:(lia)) as b. rewrite Nat2Z.id in a, b.
    rewrite a, b, e1, e2, e3. reflexivity. }
  assert (Em : mean_v par = sth par) by (unfold mean_v; destruct H0 as [->| ->]; field; assumption).
  assert (HC : code_cmoments par E' V' N).
  { pose proof (tower_nil E' HE' p 0 (Z.of_nat N) V' IE I Is HT) as (M & HM & HT').
    apply (C31_unique N par 1 Om' E' V' IE (fun _ => 0) Hk Rlt_0_1 HE').
    - exists (fun x => jd_of (M x)). split; [intro x; apply jd_moments_0; [exact H0|exact (HM x)]|].
      intros c a b Hc. destruct b as [|b].
      + pose proof (HT' (Z.of_nat c) (Z.of_nat a) 0%Z 0%Z ltac:(lia) ltac:(lia) ltac:(lia) ltac:(lia) ltac:(lia)) as h. rewrite !Nat2Z.id in h.
        rewrite (E_ext E' HE' _ (fun w => V' w ^ c * IE w ^ a * I w ^ Z.to_nat 0 * Is w ^ Z.to_nat 0)) by (intro; simpl; ring). exact h.
      + rewrite (E_ext E' HE' _ (fun w => 0 * 0)) by (intro; simpl; ring). apply (E_ext E' HE'). intro w. unfold jd_of. cbn [fst snd].
        rewrite (proj2 (Z.eqb_neq _ 0)) by lia. ring.
    - etransitivity; [|exact (HV' 0%Z ltac:(lia))]. apply (E_ext E' HE'). reflexivity.
    - intros i Hi. pose proof (stationary_next E' HE' p 0 (Z.of_nat N) V' IE I Is Hk ltac:(cbn; lra) HV' HT) as HN.
      rewrite (E_ext E' HE' _ (fun w => v_end p 0 (V' w) (IE w) ^ 0 * (v_end p 0 (V' w) (IE w) - mean_v par) ^ i)).
      2: { intro w. unfold v_next, v_of, v_end, eKH, with_v0. cbn [p sk sv0 sth ssg slam smu fk fh fth fsg]. simpl pow. rewrite Rmult_1_l. f_equal. f_equal.
           rewrite ?Rplus_0_l. ring. }
      rewrite (E_ext E' HE' (fun w => (V' w - mean_v par) ^ i) (fun w => V' w ^ 0 * (V' w - mean_v par) ^ i)) by (intro; ring).
      apply (central_same E' E' _ V' HE' HE' _ N); [|lia]. intros n Hn.
      pose proof (HN (Z.of_nat n) ltac:(lia)) as a. pose proof (HV' (Z.of_nat n) ltac:(lia)) as b. rewrite Nat2Z.id in a, b. now rewrite a, b. }
  intros i Hi. destruct (HC i Hi) as (q & Eq & Ev). exists q. split; [exact Eq|]. rewrite <- Ev.
  rewrite (E_ext E HE _ (fun w => V w ^ 0 * (V w - mean_v par) ^ i)) by (intro; ring).
  rewrite (E_ext E' HE' _ (fun w => V' w ^ 0 * (V' w - mean_v par) ^ i)) by (intro; ring).
  apply (central_same E E' V V' HE HE' _ N EV). lia.
Qed.

(** the stationary moments of the variance *)
Theorem C60_srjd_stat : forall n, (0 <= n)%Z -> exists p q r,
  stat_moment_v n false = Ok p /\ stat_moment_v n true = Ok q /\ ItoMom.moment_v n = Ok r /\
  forall par, sk par <> 0 -> slam par = 0 \/ smu par = 0 ->
    eval (monx (stat_vals par)) (items p) = eval (monx [sth par; ssg par ^ 2 / sk par]) (items r) /\
    eval (monx (stat_vals_theta par)) (items q) = eval (monx [sth par; ssg par ^ 2 / sk par]) (items r).
Proof.
  intros n Hn. destruct (C31_moment_v n Hn) as (p & q & Ep & Eq & _ & _ & V). 
  pose proof (moment_v_spec n Hn) as h. apply returns_inv in h. destruct h as (r & Er & _ & _ & _ & W).
  exists p, q, r. do 3 (split; [assumption|]). intros par Hk H0.
  set (f := mkF (sk par) 1 0 (sth par) (ssg par) 0).
  destruct (C21_hypotheses_hold f 0 n Hk ltac:(cbn; lra) Hn) as (Om & E & Vv & _ & _ & _ & _ & _ & _ & HE & HV & _).
  assert (HC : code_cmoments par E Vv (Z.to_nat n)).
  { apply (stat_code par Om E Vv _ f Hk H0 HE); try reflexivity. rewrite Z2Nat.id by lia. exact HV. }
  destruct (V par Om E Vv Hk HE HC) as [a b]. rewrite a, b, (HV n ltac:(lia)), W. split; reflexivity.
Qed.

(** the dict q of mdl_1fsv has the entries of the dict of mdl_svcj *)
Definition same_1fsv (p : svcj) (mu rho h : R) (q : string -> R) : Prop :=
  q "k"%string = Svcj.jk p /\ q "h"%string = h /\ q "mu"%string = mu /\ q "theta"%string = jth p /\ q "sigma_v"%string = jsg p /\ q "rho"%string = rho.

Lemma svcj_y_ret p mu rho rhoJ h v IE II IIs : Svcj.jk p <> 0 ->
  svcj_y (with_jv0 p v) mu rho rhoJ h IE II IIs 0 0 0 = ret (mkF (Svcj.jk p) h mu (jth p) (jsg p) rho) 0 v IE II IIs.
Proof.
  intro Hk. unfold svcj_y, svcj_iv, ret, int_v, v_end, eKH, with_jv0. cbn [Svcj.jk jv0 jth jsg fk fh fmu fth fsg frho].
  rewrite Rplus_0_l. field. assumption.
Qed.

(** mdl_svcj without jumps: the returns of mdl_1fsv *)
Theorem C60_svcj_1fsv : forall n p mu rho rhoJ h (par : dict) (q : string -> R), (0 <= n)%Z ->
  Svcj.jk p <> 0 -> 0 <= h -> rho ^ 2 <= 1 -> jlam p = 0 -> svcj_dict par p h -> ret_dict par mu rho rhoJ -> same_1fsv p mu rho h q ->
  svcj_unm_y n par = m_1fsv n q /\ svcj_cm_y n par = cm_1fsv n q /\
  ((1 <= n)%Z -> q "v0"%string = jv0 p -> svcj_cond_cm_y n par = cond_cm n q).
Proof.
  intros n p mu rho rhoJ h par q Hn Hk Hh Hr H0 HD HR (e1 & e2 & e3 & e4 & e5 & e6).
  set (f := mkF (Svcj.jk p) h mu (jth p) (jsg p) rho).
  assert (Ef : fpar_of q = f) by (unfold fpar_of, f; now rewrite e1, e2, e3, e4, e5, e6).
  assert (ZP : forall (X : R) b, X * 0 ^ S b = 0) by (intros; rewrite pow_i by lia; ring).
  assert (J6 : forall Om (E : (Om -> R) -> R) (X : Om -> R) (IE II IIs : Om -> R) (M : Om -> ito_idx -> R -> R) N c n1 n2 n3 n4 n5 n6, expectation E ->
    (forall a b d, (c + a + b + d <= N)%nat -> E (fun w => X w * (IE w ^ a * II w ^ b * IIs w ^ d)) = E (fun w => X w * M w (Z.of_nat a, Z.of_nat b, Z.of_nat d) h)) ->
    (c + n1 + n2 + n3 + n4 + n5 + n6 <= N)%nat ->
    E (fun w => X w * (IE w ^ n1 * II w ^ n2 * IIs w ^ n3 * 0 ^ n4 * 0 ^ n5 * 0 ^ n6))
      = E (fun w => X w * cj_of (M w) (Z.of_nat n1, Z.of_nat n2, Z.of_nat n3, Z.of_nat n4, Z.of_nat n5, Z.of_nat n6) h)).
  { intros Om E X IE II IIs M N c n1 n2 n3 n4 n5 n6 HE HM HN. destruct (Nat.eq_dec (n4 + n5 + n6) 0) as [z|z].
    - assert (n4 = 0 /\ n5 = 0 /\ n6 = 0)%nat as (-> & -> & ->) by lia.
      rewrite (E_ext E HE _ (fun w => X w * (IE w ^ n1 * II w ^ n2 * IIs w ^ n3))) by (intro; simpl; ring). apply HM. lia.
    - apply (E_ext E HE). intro w. f_equal. unfold cj_of.
      destruct n6 as [|n6].
      + destruct n5 as [|n5].
        * destruct n4 as [|n4]; [lia|]. rewrite (proj2 (Z.eqb_neq (Z.of_nat (S n4)) 0)) by lia. cbn [andb]. rewrite ZP. ring.
        * rewrite (proj2 (Z.eqb_neq (Z.of_nat (S n5)) 0)) by lia. rewrite andb_false_r. cbn [andb]. rewrite ZP. ring.
      + rewrite (proj2 (Z.eqb_neq (Z.of_nat (S n6)) 0)) by lia. rewrite andb_false_r. now rewrite ZP. }
  split; [|split].
  1,2: destruct (C21_hypotheses_hold f 0 (n + 1) Hk Hh ltac:(lia)) as (Om & E & V & IE & I & Is & _ & _ & _ & HE & HV & HT & _);
    pose proof (tower_nil E HE f 0 (n + 1) V IE I Is HT) as (M & HM & HT');
    assert (HJ : joint_moments6 p h E V IE I Is (fun _ => 0) (fun _ => 0) (fun _ => 0) (Z.to_nat n));
    [exists (fun x => cj_of (M x)); split; [intro x; apply cj_moments_0; [exact H0|exact (HM x)]|];
     intros c n1 n2 n3 n4 n5 n6 HN; apply (J6 Om E (fun w => V w ^ c) IE I Is (fun w => M (V w)) (Z.to_nat n) c); try assumption;
     intros a b d Hs; pose proof (HT' (Z.of_nat c) (Z.of_nat a) (Z.of_nat b) (Z.of_nat d) ltac:(lia) ltac:(lia) ltac:(lia) ltac:(lia) ltac:(lia)) as t;
     rewrite !Nat2Z.id in t; cbn [f fh] in t; rewrite <- t; apply (E_ext E HE); intro; ring|];
    assert (HC : code_cmoments (jsrjd p) E V (Z.to_nat n));
    [apply (stat_code (jsrjd p) Om E V _ f); try reflexivity; try assumption; [now left|]; intros i Hi; apply HV; lia|];
    destruct (C47_svcj_stat n p mu rho rhoJ h Om E V IE I Is _ _ _ par Hn Hk Hh Hr HE HJ HC HD HR) as [a b];
    destruct (C46_value_1fsv q ltac:(now rewrite e1) ltac:(now rewrite e2)) as (V1 & V2 & _).
  - rewrite a. symmetry. apply (V1 n _ Hn). exists Om, E, (n + 1)%Z, 0, V, IE, I, Is. rewrite Ef. do 3 (split; [assumption|]). split; [lia|].
    apply (E_ext E HE). intro w. rewrite svcj_y_ret by assumption. reflexivity.
  - rewrite b. symmetry. apply (V2 n _ Hn). exists Om, E, (n + 1)%Z, 0, V, IE, I, Is. rewrite Ef. do 3 (split; [assumption|]). split; [lia|]. split; [lia|].
    cbv zeta. match goal with |- E (fun w => (_ - ?a) ^ _) = E (fun w0 => (_ - ?b) ^ _) => assert (a = b) as -> end.
    { apply (E_ext E HE). intro w. rewrite svcj_y_ret by assumption. reflexivity. }
    apply (E_ext E HE). intro w. rewrite svcj_y_ret by assumption. reflexivity.
  - intros Hn1 ev. destruct (C24_hypotheses_hold f (jv0 p) n Hk Hh ltac:(lia)) as (Om & E & IE & I & Is & HE & HI).
    assert (HJ : has_moments6 p h E IE I Is (fun _ => 0) (fun _ => 0) (fun _ => 0) (Z.to_nat n)).
    { destruct HI as (M & HM & HI). exists (cj_of M). split; [now apply cj_moments_0|]. intros n1 n2 n3 n4 n5 n6 HN.
      pose proof (J6 Om E (fun _ => 1) IE I Is (fun _ => M) (Z.to_nat n) 0%nat n1 n2 n3 n4 n5 n6 HE) as t.
      assert (E1 : E (fun _ => 1) = 1).
      { etransitivity; [|etransitivity; [exact (HI 0%Z 0%Z 0%Z ltac:(lia) ltac:(lia) ltac:(lia) ltac:(lia))|]].
        - apply (E_ext E HE). intro; simpl; ring.
        - pose proof (HM (0, 0, 0)%Z ltac:(cbn; lia) h Hh) as i2. pose proof (is_RInt_unique _ _ _ _ i2) as i3.
          rewrite (is_RInt_unique _ _ _ _ (vsol_zero (ito_sys (mkPar (fk f) 0 (jv0 p) (fth f) (fsg f))) M (0, 0, 0)%Z h (fun _ => eq_refl))) in i3.
          cbn [ito_init] in i3. cbn [f fh]. lra. }
      assert (EC : forall c, E (fun _ => 1 * c) = c) by (intro c; rewrite (E_ext E HE _ (fun _ => c * 1)), (E_scal E HE), E1 by (intro; ring); ring).
      cbv beta in t. etransitivity; [|etransitivity; [apply t; [|lia]|exact (EC _)]]; [apply (E_ext E HE); intro; ring|].
      intros a b d Hs. etransitivity; [|symmetry; exact (EC _)]. 
      etransitivity; [|exact (HI (Z.of_nat a) (Z.of_nat b) (Z.of_nat d) ltac:(lia) ltac:(lia) ltac:(lia) ltac:(lia))].
      rewrite !Nat2Z.id. apply (E_ext E HE). intro; ring. }
    rewrite (proj2 (C47_svcj_cond n p mu rho rhoJ h Om E IE I Is _ _ _ par Hn Hk Hh Hr HE HJ HD HR)).
    assert (YR : forall w, svcj_y p mu rho rhoJ h (IE w) (I w) (Is w) 0 0 0 = ret f 0 (jv0 p) (IE w) (I w) (Is w)).
    { intro w. etransitivity; [|exact (svcj_y_ret p mu rho rhoJ h (jv0 p) (IE w) (I w) (Is w) Hk)]. destruct p; reflexivity. }
    rewrite (C24_cond_cm f (jv0 p) Om E n IE I Is q n Hk Hh); try assumption; try lia.
    2: { cbn [f frho]. apply Rabs_le. nra. }
    cbv zeta. f_equal. match goal with |- E (fun w => (_ - ?a) ^ _) = E (fun w0 => (_ - ?b) ^ _) => assert (a = b) as -> end.
    { apply (E_ext E HE). intro w. exact (YR w). }
    apply (E_ext E HE). intro w. f_equal. f_equal. exact (YR w).
Qed.

(** the hypotheses can be met *)
Example C60_svcj_example : exists (par : dict) (q : string -> R), let p := mkSvcj 2 (1/5) (1/4) (1/10) 0 (1/20) (-1/10) (1/2) in
  svcj_dict par p 1 /\ ret_dict par (1/8) (-7/10) (-3/10) /\ same_1fsv p (1/8) (-7/10) 1 q /\ q "v0"%string = jv0 p /\
  svcj_unm_y 4 par = m_1fsv 4 q /\ svcj_cm_y 4 par = cm_1fsv 4 q /\ svcj_cond_cm_y 4 par = cond_cm 4 q.
Proof.
  set (par := (fun s => if String.eqb s "v0" then Some (1/5) else if String.eqb s "k" then Some 2 else if String.eqb s "theta" then Some (1/4)
    else if String.eqb s "sigma" then Some (1/10) else if String.eqb s "lmbd" then Some 0 else if String.eqb s "mu_v" then Some (1/20)
    else if String.eqb s "mu_s" then Some (-1/10) else if String.eqb s "sigma_s" then Some (1/2) else if String.eqb s "h" then Some 1
    else if String.eqb s "mu" then Some (1/8) else if String.eqb s "rho" then Some (-7/10) else if String.eqb s "rhoJ" then Some (-3/10) else None)%string : dict).
  set (q := (fun s => if String.eqb s "v0" then 1/5 else if String.eqb s "k" then 2 else if String.eqb s "theta" then 1/4
    else if String.eqb s "sigma_v" then 1/10 else if String.eqb s "h" then 1
    else if String.eqb s "mu" then 1/8 else if String.eqb s "rho" then -7/10 else 0)%string : string -> R).
  exists par, q. intro p. assert (HD : svcj_dict par p 1) by (repeat split). assert (HR : ret_dict par (1/8) (-7/10) (-3/10)) by (repeat split).
  assert (HS : same_1fsv p (1/8) (-7/10) 1 q) by (repeat split).
  destruct (C60_svcj_1fsv 4 p (1/8) (-7/10) (-3/10) 1 par q ltac:(lia) ltac:(cbn; lra) ltac:(lra) ltac:(lra) eq_refl HD HR HS) as (a & b & c).
  do 3 (split; [assumption|]). split; [reflexivity|]. split; [exact a|]. split; [exact b|]. apply c; [lia|reflexivity].
Qed.
Example C60_srjd_example : let par := mkSrjd 2 (1/5) (1/4) (1/10) 0 3 in sk par <> 0 /\ (slam par = 0 \/ smu par = 0).
Proof. cbn. split; [lra|now left]. Qed.
