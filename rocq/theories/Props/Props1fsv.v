(** Properties C19-C21: mdl_1fsv/mom.py, cmom.py and cov.py. *)
From Coq Require Import Reals Lra.
From Verif.Spec Require Import Fsv1.
From Verif.Spec Require Import Names.
From Verif.Proof Require Import ItoProofs Realise Stationary Fsv1Proofs.
Local Open Scope R_scope.

Local Notation rho' p := (sqrt (1 - frho p ^ 2)).

Lemma ret_linear p : fk p <> 0 -> forall s0 v ie i is,
  ret p s0 v ie i is = sumR (fun x => x)
    [A1 (fk p) (fh p) (fmu p) (fth p); A2 (fk p) (fh p) * v;
     A3 (fk p) (fsg p) * (exp (- (fk p * (s0 + fh p))) * ie); A4 (fk p) (fsg p) (frho p) * i; rho' p * is].
Proof.
  intros Hk s0 v ie i is. unfold ret, int_v, v_end, A1, A2, A3, A4, eKH. cbn [sumR]. field. assumption.
Qed.

(** ** C19 *)
Theorem C19_moment_y : forall (p : fpar) (Om : Type) (E : (Om -> R) -> R) (L : Z) (s0 : R) (V IE I Is : Om -> R) (l : Z),
  fk p <> 0 -> 0 <= fh p -> expectation E ->
  stationary E p L V -> tower E p s0 L [] V IE I Is -> (0 <= l <= L)%Z ->
  exists q, moment_y l = Ok q /\ keyfor q = nm_m1 /\ eval (monx (fvals p)) (items q)
    = E (fun w => ret p s0 (V w) (IE w) (I w) (Is w) ^ Z.to_nat l).
Proof.
  intros p Om E L s0 V IE I Is l Hk Hh HE HV HT Hl.
  destruct (tower_nil E HE p s0 L V IE I Is HT) as (M & HM & HT').
  pose proof (moment_y_E (fk p) (fh p) (fmu p) (fth p) (fsg p) (frho p) (rho' p) Hk s0 M Hh HM E HE V L HV l Hl) as h.
  apply returns_inv in h. destruct h as (q & Eq & Wq & _ & Ev). exists q. split; [exact Eq|]. split; [apply Wq|].
  change (evp _ tt q) with (eval (monx (fvals p)) (items q)) in Ev. rewrite Ev.
  rewrite (gsum_E (fk p) (fh p) (fsg p) (frho p) (rho' p) s0 M E HE V L IE I Is HT' _ l Hl).
  apply (E_ext E HE). intro w. rewrite (ret_linear p Hk). cbn [sumR]. f_equal. ring.
Qed.

(** negative orders run no loop at all *)
Lemma nest_neg {S} m l acc (body : S -> list Z -> res S) s : (l < 0)%Z -> nest (Datatypes.S m) l acc body s = Ok s.
Proof. intro Hl. cbn [nest]. unfold range_down, range. replace (Z.to_nat (l + 1 - 0)) with O by lia. reflexivity. Qed.
Theorem C19_negative : forall l, (l < 0)%Z -> moment_y l = Ok (mkPoly [] kf_8) /\ cmoment_y l = Ok (mkPoly [] kf_c7).
Proof. intros l Hl. unfold moment_y, cmoment_y. rewrite !nest_neg by assumption. split; reflexivity. Qed.
Example C19_example : moment_y 1 = Ok (mkPoly
  [([0; 1; 0; 1; 0; 0; 0; 0]%Z, 1%Q); ([0; 1; 0; 0; 1; 0; 0; 0]%Z, -1 # 2)] kf_8).
Proof. vm_compute. reflexivity. Qed.

(** ** C20 *)
Theorem C20_order_1 : cmoment_y 1 = Ok (mkPoly [] kf_c7).
Proof. vm_compute. reflexivity. Qed.
Theorem C20_mean : forall (p : fpar) (Om : Type) (E : (Om -> R) -> R) (L : Z) (s0 : R) (V IE I Is : Om -> R),
  fk p <> 0 -> 0 <= fh p -> expectation E ->
  stationary E p L V -> tower E p s0 L [] V IE I Is -> (1 <= L)%Z ->
  E (fun w => ret p s0 (V w) (IE w) (I w) (Is w)) = (fmu p - fth p / 2) * fh p.
Proof.
  intros p Om E L s0 V IE I Is Hk Hh HE HV HT HL.
  destruct (tower_nil E HE p s0 L V IE I Is HT) as (M & HM & HT').
  pose proof (cmoment_y_E (fk p) (fh p) (fth p) (fsg p) (frho p) (rho' p) Hk s0 M Hh HM E HE V L HV 1 ltac:(lia)) as h.
  apply returns_inv in h. destruct h as (q & Eq & Wq & _ & Ev).
  rewrite C20_order_1 in Eq. injection Eq as <-.
  rewrite (gsum_E (fk p) (fh p) (fsg p) (frho p) (rho' p) s0 M E HE V L IE I Is HT' _ 1 ltac:(lia)) in Ev.
  unfold evp in Ev. cbn [items eval] in Ev. change (Z.to_nat 1) with 1%nat in Ev.
  assert (E1 : E (fun _ => 1) = 1).
  { pose proof (HV 0%Z ltac:(lia)) as t. exact t. }
  transitivity (E (fun w => (fmu p - fth p / 2) * fh p * 1 + (fth p * (1 - exp (- (fk p * fh p))) * (/ 2 * / fk p)
      + A2 (fk p) (fh p) * V w + A3 (fk p) (fsg p) * (exp (- (fk p * (s0 + fh p))) * IE w)
      + A4 (fk p) (fsg p) (frho p) * I w + rho' p * Is w) ^ 1)).
  - apply (E_ext E HE). intro w. rewrite (ret_linear p Hk). cbn [sumR]. unfold A1. field. assumption.
  - rewrite (E_plus E HE), <- Ev, (E_scal E HE), E1. ring.
Qed.
Theorem C20_cmoment_y : forall (p : fpar) (Om : Type) (E : (Om -> R) -> R) (L : Z) (s0 : R) (V IE I Is : Om -> R) (l : Z),
  fk p <> 0 -> 0 <= fh p -> expectation E ->
  stationary E p L V -> tower E p s0 L [] V IE I Is -> (0 <= l <= L)%Z -> (1 <= L)%Z ->
  let y w := ret p s0 (V w) (IE w) (I w) (Is w) in
  exists q, cmoment_y l = Ok q /\ keyfor q = nm_cm1 /\
    eval (monx (cvals p)) (items q) = E (fun w => (y w - E y) ^ Z.to_nat l).
Proof.
  intros p Om E L s0 V IE I Is l Hk Hh HE HV HT Hl HL y.
  pose proof (C20_mean p Om E L s0 V IE I Is Hk Hh HE HV HT HL) as Em. fold y in Em. rewrite Em.
  destruct (tower_nil E HE p s0 L V IE I Is HT) as (M & HM & HT').
  pose proof (cmoment_y_E (fk p) (fh p) (fth p) (fsg p) (frho p) (rho' p) Hk s0 M Hh HM E HE V L HV l Hl) as h.
  apply returns_inv in h. destruct h as (q & Eq & Wq & _ & Ev). exists q. split; [exact Eq|]. split; [apply Wq|].
  change (evp _ tt q) with (eval (monx (cvals p)) (items q)) in Ev. rewrite Ev.
  rewrite (gsum_E (fk p) (fh p) (fsg p) (frho p) (rho' p) s0 M E HE V L IE I Is HT' _ l Hl).
  apply (E_ext E HE). intro w. unfold y. rewrite (ret_linear p Hk). cbn [sumR]. f_equal. unfold A1. field. assumption.
Qed.

Example C20_example : cmoment_y 2 = Ok (mkPoly
   [([0; 0; 3; 1; 2; 0; 0]%Z, -1 # 4); ([1; 0; 3; 1; 2; 0; 0]%Z, 1 # 4); ([0; 0; 2; 1; 1; 1; 0]%Z, 1%Q);
    ([1; 0; 2; 1; 1; 1; 0]%Z, -1 # 1); ([0; 1; 0; 1; 0; 2; 0]%Z, 1%Q); ([0; 1; 1; 1; 1; 1; 0]%Z, -1 # 1);
    ([0; 1; 2; 1; 2; 0; 0]%Z, 1 # 4); ([0; 1; 0; 1; 0; 0; 2]%Z, 1%Q)] kf_c7).
Proof. vm_compute. reflexivity. Qed.

(** ** C21 *)
Definition cov_hyps {Om} (E : (Om -> R) -> R) (p : fpar) (L : Z) (s0 : R) (V IE I Is IE1 I1 Is1 : Om -> R) : Prop :=
  expectation E /\ stationary E p L V /\ tower E p s0 L [] V IE I Is /\
  tower E p (s0 + fh p) L [V; IE; I; Is] (fun w => v_end p s0 (V w) (IE w)) IE1 I1 Is1.


(** the hypotheses can be met, for all parameters and orders *)
Theorem C21_hypotheses_hold : forall (p : fpar) (s0 : R) (L : Z), fk p <> 0 -> 0 <= fh p -> (0 <= L)%Z ->
  exists (Om : Type) (E : (Om -> R) -> R) (V IE I Is IE1 I1 Is1 : Om -> R), cov_hyps E p L s0 V IE I Is IE1 I1 Is1.
Proof.
  intros p s0 L Hk Hh HL.
  set (N s v := ito_val (mkPar (fk p) s v (fth p) (fsg p))).
  assert (HN : forall s v, ito_moments (mkPar (fk p) s v (fth p) (fsg p)) (N s v)) by (intros; now apply ito_solution).
  set (tab s v := fun ns => match ns with [a; b; d] => N s v (a, b, d) (fh p) | _ => 0 end).
  set (ker s v := realise (Z.to_nat L) 3 (tab s v)).
  assert (Hker : forall s v a b d, (0 <= a)%Z -> (0 <= b)%Z -> (0 <= d)%Z -> (a + b + d <= L)%Z ->
    Efin (ker s v) (fun xs => nthR xs 0 ^ Z.to_nat a * nthR xs 1 ^ Z.to_nat b * nthR xs 2 ^ Z.to_nat d) = N s v (a, b, d) (fh p)).
  { intros s v a b d h1 h2 h3 h4. 
    change (N s v (a, b, d) (fh p)) with (tab s v [a; b; d]).
    rewrite <- (realise_spec (Z.to_nat L) 3 (tab s v) [a; b; d]);
      [|reflexivity|repeat (apply Forall_cons; [lia|]); apply Forall_nil].
    unfold ker, Efin. apply sumR_ext. intros [c xs] Hin. cbn [fst snd]. f_equal.
    pose proof (realise_len _ _ _ _ _ Hin) as Hl. destruct xs as [|x [|y [|z [|? ?]]]]; try discriminate.
    unfold nthR. cbn [powprod]. change (Z.to_nat 0) with 0%nat. change (Z.to_nat 1) with 1%nat.
    change (Z.to_nat 2) with 2%nat. cbn [nth]. ring. }
  assert (Hone : forall s v, Efin (ker s v) (fun _ => 1) = 1).
  { intros s v. transitivity (N s v (0, 0, 0)%Z (fh p)).
    - rewrite <- (Hker s v 0 0 0)%Z by lia. apply (E_ext _ (Efin_expectation _)). intro xs. simpl. ring.
    - unfold N, ito_val. set (r := moment_IEII 0 0 0). vm_compute in r. subst r. cbn [items eval monx ivals pk ps0 pv pth psg].
      rewrite !pw_0. unfold Q2R. cbn [Qnum Qden]. lra. }
  set (E0 := Efin (realise1 (Z.to_nat L) (gmom (fth p) (fsg p ^ 2 / fk p)))).
  assert (HE0 : expectation E0) by apply Efin_expectation.
  set (E1 := Ekern E0 (ker s0)). assert (HE1 : expectation E1) by now apply Ekern_expectation.
  set (v1 := fun w : R * list R => v_end p s0 (fst w) (nthR (snd w) 0)).
  set (E2 := Ekern E1 (fun w => ker (s0 + fh p) (v1 w))).
  assert (HE2 : expectation E2) by now apply Ekern_expectation.
  exists (R * list R * list R)%type, E2, (fun w => fst (fst w)), (fun w => nthR (snd (fst w)) 0),
    (fun w => nthR (snd (fst w)) 1), (fun w => nthR (snd (fst w)) 2),
    (fun w => nthR (snd w) 0), (fun w => nthR (snd w) 1), (fun w => nthR (snd w) 2).
  assert (OE2 : forall X : R * list R -> R, E2 (fun w => X (fst w)) = E1 X) by (intro X; apply Ekern_old; [assumption|intro; apply Hone]).
  assert (OE1 : forall X : R -> R, E1 (fun w => X (fst w)) = E0 X) by (intro X; apply Ekern_old; [assumption|intro; apply Hone]).
  split; [assumption|]. split; [|split].
  - intros n Hn. rewrite (OE2 (fun w => fst w ^ Z.to_nat n)), (OE1 (fun v => v ^ Z.to_nat n)).
    unfold E0. rewrite realise1_spec by lia. reflexivity.
  - exists (N s0). split; [apply HN|]. intros hs n a b d Hl Hf h1 h2 h3 h4 h5.
    destruct hs; [|discriminate]. cbn [map powprod fold_right] in *.
    rewrite (OE2 (fun w => 1 * (fst w ^ Z.to_nat n * nthR (snd w) 0 ^ Z.to_nat a * nthR (snd w) 1 ^ Z.to_nat b * nthR (snd w) 2 ^ Z.to_nat d))).
    rewrite (OE2 (fun w => 1 * (fst w ^ Z.to_nat n * N s0 (fst w) (a, b, d) (fh p)))).
    rewrite (OE1 (fun v => 1 * (v ^ Z.to_nat n * N s0 v (a, b, d) (fh p)))).
    rewrite (E_ext E1 HE1 _ (fun w => fst w ^ Z.to_nat n *
      (nthR (snd w) 0 ^ Z.to_nat a * nthR (snd w) 1 ^ Z.to_nat b * nthR (snd w) 2 ^ Z.to_nat d))) by (intro; ring).
    unfold E1. rewrite (Ekern_tower E0 (ker s0) (fun v => v ^ Z.to_nat n) (fun xs => nthR xs 0 ^ Z.to_nat a * nthR xs 1 ^ Z.to_nat b * nthR xs 2 ^ Z.to_nat d)
      (fun v => N s0 v (a, b, d) (fh p)) HE0) by (intro v; apply Hker; lia).
    apply (E_ext E0 HE0). intro; ring.
  - exists (N (s0 + fh p)). split; [apply HN|]. intros hs n a b d Hl Hf h1 h2 h3 h4 h5. cbn [map].
    assert (Hs : (0 <= fold_right Z.add 0 hs)%Z).
    { clear - Hf. induction Hf; cbn [fold_right]; lia. }
    change (E2 (fun w => powprod [fst (fst w); nthR (snd (fst w)) 0; nthR (snd (fst w)) 1; nthR (snd (fst w)) 2] hs *
       (v1 (fst w) ^ Z.to_nat n * nthR (snd w) 0 ^ Z.to_nat a * nthR (snd w) 1 ^ Z.to_nat b * nthR (snd w) 2 ^ Z.to_nat d))
     = E2 (fun w => powprod [fst (fst w); nthR (snd (fst w)) 0; nthR (snd (fst w)) 1; nthR (snd (fst w)) 2] hs *
       (v1 (fst w) ^ Z.to_nat n * N (s0 + fh p) (v1 (fst w)) (a, b, d) (fh p)))).
    rewrite (OE2 (fun w => powprod [fst w; nthR (snd w) 0; nthR (snd w) 1; nthR (snd w) 2] hs *
       (v1 w ^ Z.to_nat n * N (s0 + fh p) (v1 w) (a, b, d) (fh p)))).
    rewrite (E_ext E2 HE2 _ (fun w => (powprod [fst (fst w); nthR (snd (fst w)) 0; nthR (snd (fst w)) 1; nthR (snd (fst w)) 2] hs * v1 (fst w) ^ Z.to_nat n) *
      (nthR (snd w) 0 ^ Z.to_nat a * nthR (snd w) 1 ^ Z.to_nat b * nthR (snd w) 2 ^ Z.to_nat d))) by (intro; unfold v1; ring).
    unfold E2. rewrite (Ekern_tower E1 _ (fun w => powprod [fst w; nthR (snd w) 0; nthR (snd w) 1; nthR (snd w) 2] hs * v1 w ^ Z.to_nat n)
      (fun xs => nthR xs 0 ^ Z.to_nat a * nthR xs 1 ^ Z.to_nat b * nthR xs 2 ^ Z.to_nat d)
      (fun w => N (s0 + fh p) (v1 w) (a, b, d) (fh p)) HE1) by (intro v; apply Hker; lia).
    apply (E_ext E1 HE1). intro; ring.
Qed.

Lemma tower_forget {Om} (E : (Om -> R) -> R) (HE : expectation E) p s0 L X1 X2 X3 X4 V IE I Is :
  tower E p s0 L [X1; X2; X3; X4] V IE I Is -> tower E p s0 L [] V IE I Is.
Proof.
  intros (M & HM & HT). exists M. split; [exact HM|]. intros hs n a b d Hl _ h1 h2 h3 h4 h5.
  destruct hs; [|discriminate]. cbn [map powprod fold_right] in *.
  pose proof (HT [0; 0; 0; 0]%Z n a b d eq_refl ltac:(repeat constructor; lia) h1 h2 h3 h4 ltac:(cbn [fold_right]; lia)) as t.
  cbn [map powprod] in t. change (Z.to_nat 0) with 0%nat in t. cbn [pow] in t. rewrite !Rmult_1_r in t. exact t.
Qed.

Theorem C21_moment_yy : forall (p : fpar) (Om : Type) (E : (Om -> R) -> R) (L : Z) (s0 : R) (V IE I Is IE1 I1 Is1 : Om -> R),
  fk p <> 0 -> 0 <= fh p -> cov_hyps E p L s0 V IE I Is IE1 I1 Is1 ->
  let y0 w := ret p s0 (V w) (IE w) (I w) (Is w) in
  let y1 w := ret p (s0 + fh p) (v_end p s0 (V w) (IE w)) (IE1 w) (I1 w) (Is1 w) in
  forall l1 l2 : Z, (0 <= l1)%Z -> (0 <= l2)%Z -> (l1 + l2 <= L)%Z ->
  exists q, moment_yy l1 l2 = Ok q /\ keyfor q = nm_m1 /\
    eval (monx (fvals p)) (items q) = E (fun w => y0 w ^ Z.to_nat l1 * y1 w ^ Z.to_nat l2).
Proof.
  intros p Om E L s0 V IE I Is IE1 I1 Is1 Hk Hh (HE & HV & HT & (M1 & HM1 & HT1)) y0 y1 l1 l2 h1 h2 h3.
  destruct (tower_nil E HE p s0 L V IE I Is HT) as (M & HM & HT').
  pose proof (moment_yy_E (fk p) (fh p) (fmu p) (fth p) (fsg p) (frho p) (rho' p) Hk s0 M Hh HM M1 HM1 E HE
    V IE I Is (fun w => v_end p s0 (V w) (IE w)) IE1 I1 Is1 L HV HT') as h.
  assert (e1 : forall w, v_end p s0 (V w) (IE w)
     = vnext (fk p) (fh p) (fth p) (fsg p) (exp (- (fk p * (s0 + fh p))) * IE w, V w)).
  { intro w. unfold v_end, vnext, eKH. cbn [fst snd]. ring. }
  specialize (h e1 HT1 l1 l2 h1 h2 h3).
  apply returns_inv in h. destruct h as (q & Eq & Wq & _ & Ev). exists q. split; [exact Eq|]. split; [apply Wq|].
  change (evp _ tt q) with (eval (monx (fvals p)) (items q)) in Ev. rewrite Ev.
  apply (E_ext E HE). intro w. unfold y0, y1. rewrite !(ret_linear p Hk). reflexivity.
Qed.

(** the return of the second interval has the same moments *)
Theorem C21_stationary_return : forall (p : fpar) (Om : Type) (E : (Om -> R) -> R) (L : Z) (s0 : R) (V IE I Is IE1 I1 Is1 : Om -> R),
  fk p <> 0 -> 0 <= fh p -> cov_hyps E p L s0 V IE I Is IE1 I1 Is1 ->
  let y0 w := ret p s0 (V w) (IE w) (I w) (Is w) in
  let y1 w := ret p (s0 + fh p) (v_end p s0 (V w) (IE w)) (IE1 w) (I1 w) (Is1 w) in
  forall l : Z, (0 <= l <= L)%Z -> E (fun w => y1 w ^ Z.to_nat l) = E (fun w => y0 w ^ Z.to_nat l).
Proof.
  intros p Om E L s0 V IE I Is IE1 I1 Is1 Hk Hh (HE & HV & HT & HT1) y0 y1 l Hl.
  destruct (C19_moment_y p Om E L s0 V IE I Is l Hk Hh HE HV HT Hl) as (q & Eq & _ & Ev).
  destruct (C19_moment_y p Om E L (s0 + fh p) (fun w => v_end p s0 (V w) (IE w)) IE1 I1 Is1 l Hk Hh HE
    (stationary_next E HE p s0 L V IE I Is Hk Hh HV HT) (tower_forget E HE _ _ _ _ _ _ _ _ _ _ _ HT1) Hl)
    as (q' & Eq' & _ & Ev'). unfold y0, y1. rewrite <- Ev, <- Ev'. congruence.
Qed.

Theorem C21_cov_yy : forall (p : fpar) (Om : Type) (E : (Om -> R) -> R) (L : Z) (s0 : R) (V IE I Is IE1 I1 Is1 : Om -> R),
  fk p <> 0 -> 0 <= fh p -> cov_hyps E p L s0 V IE I Is IE1 I1 Is1 ->
  let y0 w := ret p s0 (V w) (IE w) (I w) (Is w) in
  let y1 w := ret p (s0 + fh p) (v_end p s0 (V w) (IE w)) (IE1 w) (I1 w) (Is1 w) in
  forall l1 l2 : Z, (0 <= l1)%Z -> (0 <= l2)%Z -> (l1 + l2 <= L)%Z ->
  exists q, cov_yy l1 l2 = Ok q /\ keyfor q = nm_m1 /\
    eval (monx (fvals p)) (items q) = E (fun w => y0 w ^ Z.to_nat l1 * y1 w ^ Z.to_nat l2)
      - E (fun w => y0 w ^ Z.to_nat l1) * E (fun w => y1 w ^ Z.to_nat l2).
Proof.
  intros p Om E L s0 V IE I Is IE1 I1 Is1 Hk Hh H y0 y1 l1 l2 h1 h2 h3.
  pose proof (C21_stationary_return p Om E L s0 V IE I Is IE1 I1 Is1 Hk Hh H l2 ltac:(lia)) as e2.
  fold y0 y1 in e2. rewrite e2. destruct H as (HE & HV & HT & (M1 & HM1 & HT1)).
  destruct (tower_nil E HE p s0 L V IE I Is HT) as (M & HM & HT').
  pose proof (cov_yy_E (fk p) (fh p) (fmu p) (fth p) (fsg p) (frho p) (rho' p) Hk s0 M Hh HM M1 HM1 E HE
    V IE I Is (fun w => v_end p s0 (V w) (IE w)) IE1 I1 Is1 L HV HT') as h.
  assert (e1 : forall w, v_end p s0 (V w) (IE w)
     = vnext (fk p) (fh p) (fth p) (fsg p) (exp (- (fk p * (s0 + fh p))) * IE w, V w)).
  { intro w. unfold v_end, vnext, eKH. cbn [fst snd]. ring. }
  specialize (h e1 HT1 l1 l2 h1 h2 h3).
  apply returns_inv in h. destruct h as (q & Eq & Wq & _ & Ev). exists q. split; [exact Eq|]. split; [apply Wq|].
  change (evp _ tt q) with (eval (monx (fvals p)) (items q)) in Ev. rewrite Ev.
  f_equal; [|f_equal]; apply (E_ext E HE); intro w; unfold y0, y1; rewrite !(ret_linear p Hk); reflexivity.
Qed.

(** the covariance with a zero order vanishes *)
Theorem C21_zero_order : forall l1 l2 : Z, (0 <= l1)%Z -> (0 <= l2)%Z -> l1 = 0%Z \/ l2 = 0%Z ->
  exists q, cov_yy l1 l2 = Ok q /\ forall p : fpar, fk p <> 0 -> 0 <= fh p -> eval (monx (fvals p)) (items q) = 0.
Proof.
  intros l1 l2 h1 h2 Hz.
  assert (W : forall p, fk p <> 0 -> 0 <= fh p -> exists q, cov_yy l1 l2 = Ok q /\ eval (monx (fvals p)) (items q) = 0).
  { intros p Hk Hh. destruct (C21_hypotheses_hold p 0 (l1 + l2) Hk Hh ltac:(lia)) as (Om & E & V & IE & I & Is & IE1 & I1 & Is1 & H).
    destruct (C21_cov_yy p Om E (l1 + l2) 0 V IE I Is IE1 I1 Is1 Hk Hh H l1 l2 h1 h2 ltac:(lia)) as (q & Eq & _ & Ev).
    exists q. split; [assumption|]. rewrite Ev. destruct H as (HE & HV & _).
    assert (one : E (fun _ => 1) = 1) by (pose proof (HV 0%Z ltac:(lia)) as t; exact t).
    destruct Hz as [-> | ->]; change (Z.to_nat 0) with 0%nat; cbn [pow].
    - rewrite one. rewrite Rmult_1_l. match goal with |- ?a - ?b = 0 => replace a with b; [ring|] end.
      apply (E_ext E HE). intro; ring.
    - rewrite one. rewrite Rmult_1_r. match goal with |- ?a - ?b = 0 => replace a with b; [ring|] end.
      apply (E_ext E HE). intro; ring. }
  destruct (W (mkF 1 1 0 0 0 0) ltac:(cbn; lra) ltac:(cbn; lra)) as (q & Eq & _). exists q. split; [assumption|].
  intros p Hk Hh. destruct (W p Hk Hh) as (q' & Eq' & Ev). congruence.
Qed.
Example C21_example : cov_yy 1 1 = Ok (mkPoly
   [([1; 0; 3; 0; 1; 2; 0; 0]%Z, -1 # 4); ([2; 0; 3; 0; 1; 2; 0; 0]%Z, 1 # 8); ([0; 0; 3; 0; 1; 2; 0; 0]%Z, 1 # 8);
    ([0; 0; 2; 0; 1; 1; 1; 0]%Z, -1 # 2); ([1; 0; 2; 0; 1; 1; 1; 0]%Z, 1%Q); ([2; 0; 2; 0; 1; 1; 1; 0]%Z, -1 # 2)] kf_8).
Proof. vm_compute. reflexivity. Qed.
