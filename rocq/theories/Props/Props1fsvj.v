(** Property C23: mdl_1fsvj/mom.py, cmom.py and cov.py.  The return is the sum of the return of
    the one-factor model without jumps and of an independent compound Poisson sum J with
    intensity lambda h and N(mu_j, sigma_j^2) jumps. *)
From Coq Require Import Reals Lra.
From Coquelicot Require Import Coquelicot.
From Verif.Spec Require Import Fsv1 Cpp.
From Verif.Model Require Import Fsv1j.
From Verif.Spec Require Import Names.
From Verif.Proof Require Import ItoProofs Realise Stationary Fsv1Proofs ConvProofs.
From Verif.Props Require Import Props1fsv.
Local Open Scope R_scope.

Local Notation rho' p := (sqrt (1 - frho p ^ 2)).

(** the values of 'lambda', 'mu_j', 'sigma_j' *)
Definition jvals (lam muj sj : R) : list R := [lam; muj; sj].

(** ** the 1FSV moments with the shape of their keys *)
Definition m8 (p : fpar) (_ : unit) : list Z -> R := monx (fvals p).
Definition c7 (p : fpar) (_ : unit) : list Z -> R := monx (cvals p).

Lemma moment_y_ret p {Om} (E : (Om -> R) -> R) L s0 (V IE I Is : Om -> R) l :
  fk p <> 0 -> 0 <= fh p -> expectation E -> stationary E p L V -> tower E p s0 L [] V IE I Is -> (0 <= l <= L)%Z ->
  returns (moment_y l) (fun r => wfp P_8 kf_8 r /\ evp (m8 p) tt r = E (fun w => ret p s0 (V w) (IE w) (I w) (Is w) ^ Z.to_nat l)).
Proof.
  intros Hk Hh HE HV HT Hl. destruct (tower_nil E HE p s0 L V IE I Is HT) as (M & HM & HT').
  eapply returns_weaken; [apply (moment_y_E (fk p) (fh p) (fmu p) (fth p) (fsg p) (frho p) (rho' p) Hk s0 M Hh HM E HE V L HV l Hl)|].
  intros q (Wq & _ & Ev). split; [exact Wq|]. transitivity (evp (mon_b (fk p) (fh p) (fmu p) (fth p) (fsg p) (frho p) (rho' p)) tt q); [reflexivity|].
  rewrite Ev, (gsum_E (fk p) (fh p) (fsg p) (frho p) (rho' p) s0 M E HE V L IE I Is HT' _ l Hl).
  apply (E_ext E HE). intro w. rewrite (ret_linear p Hk). cbn [sumR]. f_equal. ring.
Qed.
Lemma cmoment_y_ret p {Om} (E : (Om -> R) -> R) L s0 (V IE I Is : Om -> R) l :
  fk p <> 0 -> 0 <= fh p -> expectation E -> stationary E p L V -> tower E p s0 L [] V IE I Is -> (0 <= l <= L)%Z ->
  returns (cmoment_y l) (fun r => wfp P_c7 kf_c7 r /\
    evp (c7 p) tt r = E (fun w => (ret p s0 (V w) (IE w) (I w) (Is w) - (fmu p - fth p / 2) * fh p) ^ Z.to_nat l)).
Proof.
  intros Hk Hh HE HV HT Hl. destruct (tower_nil E HE p s0 L V IE I Is HT) as (M & HM & HT').
  eapply returns_weaken; [apply (cmoment_y_E (fk p) (fh p) (fth p) (fsg p) (frho p) (rho' p) Hk s0 M Hh HM E HE V L HV l Hl)|].
  intros q (Wq & _ & Ev). split; [exact Wq|]. transitivity (evp (mon_c7 (fk p) (fh p) (fth p) (fsg p) (frho p) (rho' p)) tt q); [reflexivity|].
  rewrite Ev, (gsum_E (fk p) (fh p) (fsg p) (frho p) (rho' p) s0 M E HE V L IE I Is HT' _ l Hl).
  apply (E_ext E HE). intro w. rewrite (ret_linear p Hk). cbn [sumR]. f_equal. unfold Fsv1Proofs.A1. field. assumption.
Qed.
Lemma moment_yy_ret p {Om} (E : (Om -> R) -> R) L s0 (V IE I Is IE1 I1 Is1 : Om -> R) l1 l2 :
  fk p <> 0 -> 0 <= fh p -> cov_hyps E p L s0 V IE I Is IE1 I1 Is1 -> (0 <= l1)%Z -> (0 <= l2)%Z -> (l1 + l2 <= L)%Z ->
  returns (moment_yy l1 l2) (fun r => wfp P_8 kf_8 r /\ evp (m8 p) tt r = E (fun w => ret p s0 (V w) (IE w) (I w) (Is w) ^ Z.to_nat l1
    * ret p (s0 + fh p) (v_end p s0 (V w) (IE w)) (IE1 w) (I1 w) (Is1 w) ^ Z.to_nat l2)).
Proof.
  intros Hk Hh (HE & HV & HT & (M1 & HM1 & HT1)) h1 h2 h3.
  destruct (tower_nil E HE p s0 L V IE I Is HT) as (M & HM & HT').
  pose proof (moment_yy_E (fk p) (fh p) (fmu p) (fth p) (fsg p) (frho p) (rho' p) Hk s0 M Hh HM M1 HM1 E HE
    V IE I Is (fun w => v_end p s0 (V w) (IE w)) IE1 I1 Is1 L HV HT') as h.
  assert (e1 : forall w, v_end p s0 (V w) (IE w)
     = vnext (fk p) (fh p) (fth p) (fsg p) (exp (- (fk p * (s0 + fh p))) * IE w, V w)).
  { intro w. unfold v_end, vnext, eKH. cbn [fst snd]. ring. }
  specialize (h e1 HT1 l1 l2 h1 h2 h3). eapply returns_weaken; [exact h|].
  intros q (Wq & _ & Ev). split; [exact Wq|]. transitivity (evp (mon_b (fk p) (fh p) (fmu p) (fth p) (fsg p) (frho p) (rho' p)) tt q); [reflexivity|].
  rewrite Ev. apply (E_ext E HE). intro w. rewrite !(ret_linear p Hk). reflexivity.
Qed.

(** ** keys of the products *)
Definition P_j11 : list Z -> Prop := wfs [false; true; true; true; true; true; true; true; true; true; true].
Definition P_j10 : list Z -> Prop := wfs [false; true; true; true; true; true; true; true; true; true].
Definition m11 (p : fpar) (lam muj sj : R) (_ : unit) : list Z -> R := monx (fvals p ++ jvals lam muj sj).
Definition c10 (p : fpar) (lam muj sj : R) (_ : unit) : list Z -> R := monx (cvals p ++ jvals lam muj sj).

Lemma key11 p lam muj sj k1 k2 : P_8 k1 -> P_3 k2 ->
  P_j11 (kcomb_pure [0;1;2;3;4;5;6;7;-1;-1;-1]%Z [-1;0;-1;-1;-1;-1;-1;-1;0;1;2]%Z k1 k2) /\
  forall t, m11 p lam muj sj t (kcomb_pure [0;1;2;3;4;5;6;7;-1;-1;-1]%Z [-1;0;-1;-1;-1;-1;-1;-1;0;1;2]%Z k1 k2)
    = m8 p t k1 * mon_j (lam * fh p) muj sj t k2.
Proof.
  unfold P_8, P_3. intros H1 H2. wfs_destruct. keyred. split.
  - unfold P_j11. cbn [wfs]. repeat split; lia.
  - intros []. unfold m11, m8, mon_j, fvals, jvals. cbn [app monx]. rewrite !Z.add_0_r, ?Z.add_0_l. pwx. pws. ring.
Qed.
Lemma key10 p lam muj sj k1 k2 : P_c7 k1 -> P_3 k2 ->
  P_j10 (kcomb_pure [0;1;2;3;4;5;6;-1;-1;-1]%Z [-1;0;-1;-1;-1;-1;-1;0;1;2]%Z k1 k2) /\
  forall t, c10 p lam muj sj t (kcomb_pure [0;1;2;3;4;5;6;-1;-1;-1]%Z [-1;0;-1;-1;-1;-1;-1;0;1;2]%Z k1 k2)
    = c7 p t k1 * mon_j (lam * fh p) muj sj t k2.
Proof.
  unfold P_c7, P_3. intros H1 H2. wfs_destruct. keyred. split.
  - unfold P_j10. cbn [wfs]. repeat split; lia.
  - intros []. unfold c10, c7, mon_j, cvals, jvals. cbn [app monx]. rewrite !Z.add_0_r, ?Z.add_0_l. pwx. pws. ring.
Qed.
Lemma key3 L mu s k1 k2 : P_3 k1 -> P_3 k2 -> (length k1 <= length k2)%nat /\ P_3 (kadd_pure k1 k2) /\
  forall t, mon_j L mu s t (kadd_pure k1 k2) = mon_j L mu s t k1 * mon_j L mu s t k2.
Proof.
  unfold P_3. intros H1 H2. wfs_destruct. keyred. split; [cbn [length]; lia|]. split.
  - cbn [wfs]. repeat split; lia.
  - intros []. unfold mon_j. cbn [monx]. pws. ring.
Qed.

(** ** C23 *)
Theorem C23_moment_y : forall (p : fpar) (lam muj sj : R) (Om : Type) (E : (Om -> R) -> R) (L : Z) (s0 : R) (V IE I Is J : Om -> R) (l : Z),
  fk p <> 0 -> 0 <= fh p -> expectation E -> stationary E p L V -> tower E p s0 L [] V IE I Is ->
  let y w := ret p s0 (V w) (IE w) (I w) (Is w) in
  cpp_moments E (Z.to_nat L) (lam * fh p) muj sj J -> indep E (Z.to_nat L) y J -> (0 <= l <= L)%Z ->
  exists q, jmoment_y l = Ok q /\ keyfor q = nm_mj /\
    eval (monx (fvals p ++ jvals lam muj sj)) (items q) = E (fun w => (y w + J w) ^ Z.to_nat l).
Proof.
  intros p lam muj sj Om E L s0 V IE I Is J l Hk Hh HE HV HT y HJ HI Hl.
  assert (h : returns (jmoment_y l) (fun r => wfp P_j11 kf_j11 r /\ evp (m11 p lam muj sj) tt r = E (fun w => (y w + J w) ^ Z.to_nat l))).
  { unfold jmoment_y. eapply returns_weaken.
    - apply (conv_sp P_8 P_3 P_j11 (m8 p) (mon_j (lam * fh p) muj sj) (m11 p lam muj sj) [0;1;2;3;4;5;6;7;-1;-1;-1]%Z [-1;0;-1;-1;-1;-1;-1;-1;0;1;2]%Z kf_8 kf_cpp kf_j11 eq_refl (key11 p lam muj sj)
        moment_y mcpp (fun i => E (fun w => y w ^ Z.to_nat i)) (fun i => E (fun w => J w ^ Z.to_nat i))); [lia| |].
      + intros i Hi. apply (moment_y_ret p E L s0 V IE I Is); try assumption. lia.
      + intros i Hi. eapply returns_weaken; [apply (mcpp_sp (lam * fh p) muj sj); lia|]. intros r [W e]. split; [exact W|].
        rewrite e. symmetry. apply HJ. lia.
    - intros r [W e]. split; [exact W|]. rewrite e. apply (conv_E E HE y J (Z.to_nat L)); [lia|lia|exact HI]. }
  apply returns_inv in h. destruct h as (q & Eq & Wq & Ev). exists q. split; [exact Eq|]. split; [apply Wq|exact Ev].
Qed.

Theorem C23_cmoment_y : forall (p : fpar) (lam muj sj : R) (Om : Type) (E : (Om -> R) -> R) (L : Z) (s0 : R) (V IE I Is J : Om -> R) (l : Z),
  fk p <> 0 -> 0 <= fh p -> expectation E -> stationary E p L V -> tower E p s0 L [] V IE I Is ->
  let y w := ret p s0 (V w) (IE w) (I w) (Is w) in let yj w := y w + J w in
  cpp_moments E (Z.to_nat L) (lam * fh p) muj sj J -> indep E (Z.to_nat L) y J -> (0 <= l <= L)%Z -> (1 <= L)%Z ->
  exists q, jcmoment_y l = Ok q /\ keyfor q = nm_cmj /\
    eval (monx (cvals p ++ jvals lam muj sj)) (items q) = E (fun w => (yj w - E yj) ^ Z.to_nat l).
Proof.
  intros p lam muj sj Om E L s0 V IE I Is J l Hk Hh HE HV HT y yj HJ HI Hl HL.
  assert (E1 : E (fun _ => 1) = 1) by (pose proof (HV 0%Z ltac:(lia)) as t; exact t).
  assert (Ey : E y = (fmu p - fth p / 2) * fh p) by exact (C20_mean p Om E L s0 V IE I Is Hk Hh HE HV HT HL).
  assert (EJ : E J = lam * fh p * muj) by (apply (cpp_mean E HE (Z.to_nat L) _ _ sj); [assumption|lia|assumption]).
  set (c := (fmu p - fth p / 2) * fh p) in *. set (d := lam * fh p * muj) in *.
  assert (Eyj : E yj = c + d) by (unfold yj; rewrite (E_plus E HE), Ey, EJ; reflexivity).
  assert (h : returns (jcmoment_y l) (fun r => wfp P_j10 kf_j10 r /\ evp (c10 p lam muj sj) tt r = E (fun w => ((y w - c) + (J w - d)) ^ Z.to_nat l))).
  { unfold jcmoment_y. eapply returns_weaken.
    - apply (conv_sp P_c7 P_3 P_j10 (c7 p) (mon_j (lam * fh p) muj sj) (c10 p lam muj sj) [0;1;2;3;4;5;6;-1;-1;-1]%Z [-1;0;-1;-1;-1;-1;-1;0;1;2]%Z kf_c7 kf_cpp kf_j10 eq_refl (key10 p lam muj sj)
        cmoment_y cmcpp (fun i => E (fun w => (y w - c) ^ Z.to_nat i)) (fun i => E (fun w => (J w - d) ^ Z.to_nat i))); [lia| |].
      + intros i Hi. apply (cmoment_y_ret p E L s0 V IE I Is); try assumption. lia.
      + intros i Hi. apply (cmcpp_sp E HE (lam * fh p) muj sj J); [lia|]. intros j Hj. apply HJ. lia.
    - intros r [W e]. split; [exact W|]. rewrite e. apply (conv_E E HE (fun w => y w - c) (fun w => J w - d) (Z.to_nat L)); [lia|lia|].
      now apply indep_shift. }
  apply returns_inv in h. destruct h as (q & Eq & Wq & Ev). exists q. split; [exact Eq|]. split; [apply Wq|].
  etransitivity; [exact Ev|]. apply (E_ext E HE). intro w. rewrite Eyj. unfold yj. f_equal. ring.
Qed.

Section Cov.
Variables (p : fpar) (lam muj sj : R) (Om : Type) (E : (Om -> R) -> R) (L : Z) (s0 : R) (V IE I Is IE1 I1 Is1 J0 J1 : Om -> R).
Let y0 w := ret p s0 (V w) (IE w) (I w) (Is w).
Let y1 w := ret p (s0 + fh p) (v_end p s0 (V w) (IE w)) (IE1 w) (I1 w) (Is1 w).
(** consecutive returns with jumps *)
Definition jcov_hyps : Prop := cov_hyps E p L s0 V IE I Is IE1 I1 Is1 /\
  cpp_moments E (Z.to_nat L) (lam * fh p) muj sj J0 /\ cpp_moments E (Z.to_nat L) (lam * fh p) muj sj J1 /\
  indep3 E (Z.to_nat L) y0 y1 J0 J1.
Hypotheses (Hk : fk p <> 0) (Hh : 0 <= fh p) (H : jcov_hyps).

Lemma jE1 : (0 <= L)%Z -> E (fun _ => 1) = 1.
Proof. intro HL. destruct H as ((_ & HV & _) & _). exact (HV 0%Z ltac:(lia)). Qed.
Lemma jindep0 : (0 <= L)%Z -> indep E (Z.to_nat L) y0 J0.
Proof.
  intros HL i j Hij. destruct H as ((HE & _) & _ & _ & HI). pose proof (HI i O j O ltac:(lia)) as t. cbn [pow] in t.
  rewrite (jE1 HL) in t.
  rewrite (E_ext E HE _ (fun w => y0 w ^ i * 1 * (J0 w ^ j * 1))) by (intro; ring).
  rewrite t, (E_ext E HE (fun w => y0 w ^ i * 1) (fun w => y0 w ^ i)) by (intro; ring). ring.
Qed.
Lemma jindep1 : (0 <= L)%Z -> indep E (Z.to_nat L) y1 J1.
Proof.
  intros HL i j Hij. destruct H as ((HE & _) & _ & _ & HI). pose proof (HI O i O j ltac:(lia)) as t. cbn [pow] in t.
  rewrite (jE1 HL) in t.
  rewrite (E_ext E HE _ (fun w => 1 * y1 w ^ i * (1 * J1 w ^ j))) by (intro; ring).
  rewrite t, (E_ext E HE (fun w => 1 * y1 w ^ i) (fun w => y1 w ^ i)) by (intro; ring). ring.
Qed.

Lemma jmoment_yy_ret l1 l2 : (0 <= l1)%Z -> (0 <= l2)%Z -> (l1 + l2 <= L)%Z ->
  returns (jmoment_yy l1 l2) (fun r => wfp P_j11 kf_j11 r /\
    evp (m11 p lam muj sj) tt r = E (fun w => (y0 w + J0 w) ^ Z.to_nat l1 * (y1 w + J1 w) ^ Z.to_nat l2)).
Proof.
  intros h1 h2 h3. destruct H as (HC & HJ0 & HJ1 & HI). pose proof HC as (HE & _). unfold jmoment_yy. eapply returns_weaken.
  - apply (conv2_sp P_8 P_3 P_j11 (m8 p) (mon_j (lam * fh p) muj sj) (m11 p lam muj sj) [0;1;2;3;4;5;6;7;-1;-1;-1]%Z [-1;0;-1;-1;-1;-1;-1;-1;0;1;2]%Z kf_8 kf_cpp kf_j11 eq_refl (key11 p lam muj sj)
      (key3 (lam * fh p) muj sj) moment_yy mcpp (fun i j => E (fun w => y0 w ^ Z.to_nat i * y1 w ^ Z.to_nat j))
      (fun i => Derive_n (mgf_cpp (lam * fh p) muj (sj ^ 2)) (Z.to_nat i) 0)); [lia|lia| |].
    + intros i j Hi Hj. apply (moment_yy_ret p E L s0 V IE I Is IE1 I1 Is1); try assumption; lia.
    + intros i Hi. apply (mcpp_sp (lam * fh p) muj sj). lia.
  - intros r [W e]. split; [exact W|]. rewrite e, <- (conv2_E E HE y0 y1 J0 J1 (Z.to_nat L)) by (assumption || lia).
    apply sumR_ext. intros i Hi. apply sumR_ext. intros j Hj. apply in_range in Hi, Hj. rewrite HJ0, HJ1 by lia. reflexivity.
Qed.
Lemma jmoment_y_ret l : (0 <= l <= L)%Z ->
  returns (jmoment_y l) (fun r => wfp P_j11 kf_j11 r /\ evp (m11 p lam muj sj) tt r = E (fun w => (y0 w + J0 w) ^ Z.to_nat l)).
Proof.
  intro Hl. pose proof (jindep0 ltac:(lia)) as HI. destruct H as ((HE & HV & HT & _) & HJ0 & _). unfold jmoment_y. eapply returns_weaken.
    - apply (conv_sp P_8 P_3 P_j11 (m8 p) (mon_j (lam * fh p) muj sj) (m11 p lam muj sj) [0;1;2;3;4;5;6;7;-1;-1;-1]%Z [-1;0;-1;-1;-1;-1;-1;-1;0;1;2]%Z kf_8 kf_cpp kf_j11 eq_refl (key11 p lam muj sj)
        moment_y mcpp (fun i => E (fun w => y0 w ^ Z.to_nat i)) (fun i => E (fun w => J0 w ^ Z.to_nat i))); [lia| |].
      + intros i Hi. apply (moment_y_ret p E L s0 V IE I Is); try assumption. lia.
      + intros i Hi. eapply returns_weaken; [apply (mcpp_sp (lam * fh p) muj sj); lia|]. intros r [W e]. split; [exact W|].
        rewrite e. symmetry. apply HJ0. lia.
    - intros r [W e]. split; [exact W|]. rewrite e. apply (conv_E E HE y0 J0 (Z.to_nat L)); [lia|lia|exact HI].
Qed.
End Cov.

Theorem C23_moment_yy : forall (p : fpar) (lam muj sj : R) (Om : Type) (E : (Om -> R) -> R) (L : Z) (s0 : R)
    (V IE I Is IE1 I1 Is1 J0 J1 : Om -> R),
  fk p <> 0 -> 0 <= fh p -> jcov_hyps p lam muj sj Om E L s0 V IE I Is IE1 I1 Is1 J0 J1 ->
  let y0 w := ret p s0 (V w) (IE w) (I w) (Is w) + J0 w in
  let y1 w := ret p (s0 + fh p) (v_end p s0 (V w) (IE w)) (IE1 w) (I1 w) (Is1 w) + J1 w in
  forall l1 l2 : Z, (0 <= l1)%Z -> (0 <= l2)%Z -> (l1 + l2 <= L)%Z ->
  exists q, jmoment_yy l1 l2 = Ok q /\ keyfor q = nm_mj /\
    eval (monx (fvals p ++ jvals lam muj sj)) (items q) = E (fun w => y0 w ^ Z.to_nat l1 * y1 w ^ Z.to_nat l2).
Proof.
  intros p lam muj sj Om E L s0 V IE I Is IE1 I1 Is1 J0 J1 Hk Hh H y0 y1 l1 l2 h1 h2 h3.
  pose proof (jmoment_yy_ret p lam muj sj Om E L s0 V IE I Is IE1 I1 Is1 J0 J1 Hk Hh H l1 l2 h1 h2 h3) as h.
  apply returns_inv in h. destruct h as (q & Eq & Wq & Ev). exists q. split; [exact Eq|]. split; [apply Wq|exact Ev].
Qed.

(** both returns have the same moments *)
Lemma jstationary : forall (p : fpar) (lam muj sj : R) (Om : Type) (E : (Om -> R) -> R) (L : Z) (s0 : R)
    (V IE I Is IE1 I1 Is1 J0 J1 : Om -> R),
  fk p <> 0 -> 0 <= fh p -> jcov_hyps p lam muj sj Om E L s0 V IE I Is IE1 I1 Is1 J0 J1 ->
  let y0 w := ret p s0 (V w) (IE w) (I w) (Is w) + J0 w in
  let y1 w := ret p (s0 + fh p) (v_end p s0 (V w) (IE w)) (IE1 w) (I1 w) (Is1 w) + J1 w in
  forall l : Z, (0 <= l <= L)%Z -> E (fun w => y1 w ^ Z.to_nat l) = E (fun w => y0 w ^ Z.to_nat l).
Proof.
  intros p lam muj sj Om E L s0 V IE I Is IE1 I1 Is1 J0 J1 Hk Hh H y0 y1 l Hl.
  pose proof (jindep0 p lam muj sj Om E L s0 V IE I Is IE1 I1 Is1 J0 J1 H ltac:(lia)) as I0.
  pose proof (jindep1 p lam muj sj Om E L s0 V IE I Is IE1 I1 Is1 J0 J1 H ltac:(lia)) as I1'.
  destruct H as (HC & HJ0 & HJ1 & _). pose proof (C21_stationary_return p Om E L s0 V IE I Is IE1 I1 Is1 Hk Hh HC) as HS.
  destruct HC as (HE & _). unfold y0, y1.
  rewrite <- (conv_E E HE _ J0 (Z.to_nat L) l), <- (conv_E E HE _ J1 (Z.to_nat L) l) by (assumption || lia).
  apply sumR_ext. intros i Hi. apply in_range in Hi. rewrite HJ0, HJ1 by lia. do 2 f_equal. apply HS. lia.
Qed.

Theorem C23_cov_yy : forall (p : fpar) (lam muj sj : R) (Om : Type) (E : (Om -> R) -> R) (L : Z) (s0 : R)
    (V IE I Is IE1 I1 Is1 J0 J1 : Om -> R),
  fk p <> 0 -> 0 <= fh p -> jcov_hyps p lam muj sj Om E L s0 V IE I Is IE1 I1 Is1 J0 J1 ->
  let y0 w := ret p s0 (V w) (IE w) (I w) (Is w) + J0 w in
  let y1 w := ret p (s0 + fh p) (v_end p s0 (V w) (IE w)) (IE1 w) (I1 w) (Is1 w) + J1 w in
  forall l1 l2 : Z, (0 <= l1)%Z -> (0 <= l2)%Z -> (l1 + l2 <= L)%Z ->
  exists q, jcov_yy l1 l2 = Ok q /\ keyfor q = nm_mj /\
    eval (monx (fvals p ++ jvals lam muj sj)) (items q) = E (fun w => y0 w ^ Z.to_nat l1 * y1 w ^ Z.to_nat l2)
      - E (fun w => y0 w ^ Z.to_nat l1) * E (fun w => y1 w ^ Z.to_nat l2).
Proof.
  intros p lam muj sj Om E L s0 V IE I Is IE1 I1 Is1 J0 J1 Hk Hh H y0 y1 l1 l2 h1 h2 h3.
  pose proof (jstationary p lam muj sj Om E L s0 V IE I Is IE1 I1 Is1 J0 J1 Hk Hh H l2 ltac:(lia)) as e2. fold y0 y1 in e2. rewrite e2.
  assert (h : returns (jcov_yy l1 l2) (fun r => wfp P_j11 kf_j11 r /\ evp (m11 p lam muj sj) tt r = 
    E (fun w => y0 w ^ Z.to_nat l1 * y1 w ^ Z.to_nat l2) - E (fun w => y0 w ^ Z.to_nat l1) * E (fun w => y0 w ^ Z.to_nat l2))).
  { unfold jcov_yy.
    eapply returns_bind; [apply (jmoment_yy_ret p lam muj sj Om E L s0 V IE I Is IE1 I1 Is1 J0 J1 Hk Hh H l1 l2); assumption|]. intros a (Wa & Ea).
    eapply returns_bind; [apply (jmoment_y_ret p lam muj sj Om E L s0 V IE I Is IE1 I1 Is1 J0 J1 Hk Hh H l1); lia|]. intros b (Wb & Eb).
    eapply returns_bind; [apply (jmoment_y_ret p lam muj sj Om E L s0 V IE I Is IE1 I1 Is1 J0 J1 Hk Hh H l2); lia|]. intros c (Wc & Ec).
    eapply returns_bind; [apply (pmul_sp P_j11 P_j11 P_j11 (m11 p lam muj sj) (m11 p lam muj sj) (m11 p lam muj sj) kf_j11 b c);
      [apply Wb|apply Wc|apply Wb|apply Wc|]|].
    { intros k1 k2 H1 H2. unfold P_j11 in *. wfs_destruct. keyred. split; [cbn [length]; lia|]. split.
      - cbn [wfs]; repeat split; lia.
      - intros []. unfold m11, fvals, jvals, eKH. cbn [app monx]. pws. ring. }
    intros bc (Wbc & Ebc).
    eapply returns_bind; [apply (psub_sp P_j11 (m11 p lam muj sj) kf_j11 a bc Wa Wbc)|]. intros r (Wr & Er).
    cbn [returns]. destruct (remove_zero_sp P_j11 (m11 p lam muj sj) kf_j11 r Wr) as (W' & _ & E').
    split; [exact W'|]. rewrite E', Er, Ebc, Ea, Eb, Ec. reflexivity. }
  apply returns_inv in h. destruct h as (q & Eq & Wq & Ev). exists q. split; [exact Eq|]. split; [apply Wq|exact Ev].
Qed.

(** the hypotheses can be met, for all parameters and orders *)
Lemma cov_hyps_lift {Om Om'} (f : Om' -> Om) (E : (Om -> R) -> R) (E' : (Om' -> R) -> R) p L s0 V IE I Is IE1 I1 Is1 :
  expectation E' -> (forall X, E' (fun w => X (f w)) = E X) -> cov_hyps E p L s0 V IE I Is IE1 I1 Is1 ->
  cov_hyps E' p L s0 (fun w => V (f w)) (fun w => IE (f w)) (fun w => I (f w)) (fun w => Is (f w))
    (fun w => IE1 (f w)) (fun w => I1 (f w)) (fun w => Is1 (f w)).
Proof.
  intros HE' HX (HE & HV & (M & HM & HT) & (M1 & HM1 & HT1)). split; [assumption|]. split; [|split].
  - intros n Hn. rewrite <- (HV n Hn), <- HX. reflexivity.
  - exists M. split; [assumption|]. intros hs n a b d h1 h2 h3 h4 h5 h6 h7.
    pose proof (HT hs n a b d h1 h2 h3 h4 h5 h6 h7) as t. rewrite <- !HX in t. exact t.
  - exists M1. split; [assumption|]. intros hs n a b d h1 h2 h3 h4 h5 h6 h7.
    pose proof (HT1 hs n a b d h1 h2 h3 h4 h5 h6 h7) as t. rewrite <- !HX in t. exact t.
Qed.
Theorem C23_hypotheses_hold : forall (p : fpar) (lam muj sj s0 : R) (L : Z), fk p <> 0 -> 0 <= fh p -> (0 <= L)%Z ->
  exists (Om : Type) (E : (Om -> R) -> R) (V IE I Is IE1 I1 Is1 J0 J1 : Om -> R),
    jcov_hyps p lam muj sj Om E L s0 V IE I Is IE1 I1 Is1 J0 J1.
Proof.
  intros p lam muj sj s0 L Hk Hh HL.
  destruct (C21_hypotheses_hold p s0 L Hk Hh HL) as (Om & E & V & IE & I & Is & IE1 & I1 & Is1 & HC).
  assert (HE : expectation E) by apply HC.
  set (m := fun i => Derive_n (mgf_cpp (lam * fh p) muj (sj ^ 2)) i 0).
  set (ps := realise1 (Z.to_nat L) m).
  assert (Hps : forall i, (i <= Z.to_nat L)%nat -> Efin ps (fun x => x ^ i) = m i) by (intros; now apply realise1_spec).
  assert (m0 : m O = 1).
  { unfold m. cbn [Derive_n]. unfold mgf_cpp, mgf_normal. replace (muj * 0 + sj ^ 2 / 2 * 0 ^ 2) with 0 by ring.
    rewrite exp_0. replace (lam * fh p * (1 - 1)) with 0 by ring. apply exp_0. }
  assert (P1 : Efin ps (fun _ => 1) = 1) by (transitivity (m O); [exact (Hps O ltac:(lia))|exact m0]).
  set (E1 := Ekern E (fun _ : Om => ps)). assert (HE1 : expectation E1) by now apply Ekern_expectation.
  set (E2 := Ekern E1 (fun _ : Om * R => ps)). assert (HE2 : expectation E2) by now apply Ekern_expectation.
  assert (O1 : forall X : Om -> R, E1 (fun w => X (fst w)) = E X) by (intro X; apply Ekern_old; [assumption|intro; apply P1]).
  assert (O2 : forall X : Om * R -> R, E2 (fun w => X (fst w)) = E1 X) by (intro X; apply Ekern_old; [assumption|intro; apply P1]).
  assert (HX : forall X : Om -> R, E2 (fun w => X (fst (fst w))) = E X) by (intro X; rewrite (O2 (fun w => X (fst w))); apply O1).
  assert (F1 : forall (X : Om -> R) j, (j <= Z.to_nat L)%nat -> E1 (fun w => X (fst w) * snd w ^ j) = E X * m j).
  { intros X j Hj. unfold E1. rewrite (Ekern_tower E (fun _ => ps) X (fun x => x ^ j) (fun _ => m j) HE) by (intro; now apply Hps).
    rewrite (E_ext E HE _ (fun w => m j * X w)) by (intro; ring). rewrite (E_scal E HE). ring. }
  assert (F2 : forall (X : Om -> R) i j, (i <= Z.to_nat L)%nat -> (j <= Z.to_nat L)%nat ->
     E2 (fun w => X (fst (fst w)) * snd (fst w) ^ i * snd w ^ j) = E X * (m i * m j)).
  { intros X i j Hi Hj. unfold E2. rewrite (Ekern_tower E1 (fun _ => ps) (fun w => X (fst w) * snd w ^ i) (fun x => x ^ j) (fun _ => m j) HE1) by (intro; now apply Hps).
    rewrite (E_ext E1 HE1 _ (fun w => m j * (X (fst w) * snd w ^ i))) by (intro; ring). rewrite (E_scal E1 HE1), F1 by assumption. ring. }
  assert (EJ1 : E (fun _ => 1) = 1) by (destruct HC as (_ & HV & _); exact (HV 0%Z ltac:(lia))).
  assert (G0 : forall i, (i <= Z.to_nat L)%nat -> E2 (fun w => snd (fst w) ^ i) = m i).
  { intros i Hi. rewrite (E_ext E2 HE2 _ (fun w => 1 * snd (fst w) ^ i * snd w ^ 0)) by (intro; cbn [pow]; ring).
    rewrite (F2 (fun _ => 1) i O) by lia. rewrite EJ1, m0. ring. }
  assert (G1 : forall i, (i <= Z.to_nat L)%nat -> E2 (fun w => snd w ^ i) = m i).
  { intros i Hi. rewrite (E_ext E2 HE2 _ (fun w => 1 * snd (fst w) ^ 0 * snd w ^ i)) by (intro; cbn [pow]; ring).
    rewrite (F2 (fun _ => 1) O i) by lia. rewrite EJ1, m0. ring. }
  exists (Om * R * R)%type, E2, (fun w => V (fst (fst w))), (fun w => IE (fst (fst w))), (fun w => I (fst (fst w))),
    (fun w => Is (fst (fst w))), (fun w => IE1 (fst (fst w))), (fun w => I1 (fst (fst w))), (fun w => Is1 (fst (fst w))),
    (fun w => snd (fst w)), (fun w => snd w).
  split; [exact (cov_hyps_lift (fun w : Om * R * R => fst (fst w)) E E2 p L s0 V IE I Is IE1 I1 Is1 HE2 HX HC)|].
  split; [exact G0|]. split; [exact G1|].
  intros i0 i1 j0 j1 Hij. rewrite G0, G1 by lia. set (Y := fun w : Om => ret p s0 (V w) (IE w) (I w) (Is w) ^ i0
    * ret p (s0 + fh p) (v_end p s0 (V w) (IE w)) (IE1 w) (I1 w) (Is1 w) ^ i1).
  change (E2 (fun w => Y (fst (fst w)) * (snd (fst w) ^ j0 * snd w ^ j1)) = E2 (fun w => Y (fst (fst w))) * (m j0 * m j1)).
  rewrite HX, <- F2 by lia. apply (E_ext E2 HE2). intro; ring.
Qed.

Example C23_example : jmoment_y 1 = Ok (mkPoly
  [([0; 1; 0; 0; 0; 0; 0; 0; 1; 1; 0]%Z, 1%Q); ([0; 1; 0; 1; 0; 0; 0; 0; 0; 0; 0]%Z, 1%Q); ([0; 1; 0; 0; 1; 0; 0; 0; 0; 0; 0]%Z, -1 # 2)] kf_j11)
  /\ jcmoment_y 1 = Ok (mkPoly [] kf_j10).
Proof. split; vm_compute; reflexivity. Qed.
