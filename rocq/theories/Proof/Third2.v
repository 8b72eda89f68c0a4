(** The third-order conditional moments that moment_IEI_IEII gets wrong (itos_mom.py:490-561), and what
    this does to the third moments of mdl_2fsv. *)
From Coq Require Import Reals Lra.
From Coquelicot Require Import Coquelicot.
From Verif.Proof Require Export Fsv2Proofs.
Local Open Scope R_scope.

(** ** the four wrong entries *)
Ltac zero5 HG Hp s i :=
  destruct (Gtab_init i) as (z & e3 & _ & g3); [unfold ito2_dom; lia|unfold ord5; lia|];
  inversion e3; subst z; destruct g3 as [_ g3]; [unfold gdom, ito2_dom; lia|]; rewrite (g3 _ _ Hp HG s) by lra; reflexivity.

Ltac missing f m1 m3 i j j' c za zb :=
  unfold moment_IEI_IEII; rewrite S_init_ok; cbn [bind Z.add Z.ltb Z.leb Z.compare Pos.compare Pos.compare_cont Pos.add Pos.succ];
  match goal with |- returns (bind ?r _) _ => change r with (branch_s S_tab c (mkPoly [] kf_s) f m1 m3 j j') end;
  let q := fresh "q" in let q' := fresh "q'" in
  let g1 := fresh "g1" in let g2 := fresh "g2" in let e1 := fresh "e1" in let e2 := fresh "e2" in
  destruct (Gtab_init j) as (q & e1 & _ & g1); [unfold ito2_dom; lia|unfold ord5; lia|];
  destruct (Gtab_init j') as (q' & e2 & _ & g2); [unfold ito2_dom; lia|unfold ord5; lia|];
  eapply returns_bind;
  [ apply (branch_s_val S_tab c (mkPoly [] kf_s) f m1 m3 i j j' (fun _ => []) q q'); try assumption;
    [ apply Accr_nil
    | apply g1; unfold gdom, ito2_dom; lia
    | apply g2; unfold gdom, ito2_dom; lia
    | first [now left | now right]
    | jcs | jcs | reflexivity | reflexivity | reflexivity | reflexivity | reflexivity
    | unfold ord5; lia | unfold ord5; lia ]
  | let r := fresh "r" in let D := fresh "D" in let HD := fresh "HD" in
    intros r [_ [D HD]]; cbn [returns remove_zero items]; intros p M Hp HM t Ht; rewrite eval_rm_zero;
    let d0 := fresh "d0" in let d1 := fresh "d1" in let d2 := fresh "d2" in let d3 := fresh "d3" in
    destruct (HD p Hp) as (d0 & d1 & d2 & d3); clear HD;
    assert (HG : vsol gdom (ito2_sys p) ito2_init M) by (intros i' Hi'; apply HM, gdom_dom, Hi');
    pose proof (HM i ltac:(unfold ito2_dom; lia) t Ht) as HI; cbn [ito2_init] in HI; rewrite Rminus_0_r in HI;
    assert (HR : is_RInt (D p) 0 t (eval (smon p t) (items r)));
    [ replace (eval (smon p t) (items r)) with (eval (smon p t) (items r) - eval (smon p 0) (items r)) by (rewrite d0; ring);
      now apply (RInt_of_derive (fun t => eval (smon p t) (items r)) (D p)) |];
    eapply is_RInt_ext; [|apply (is_RInt_minus _ _ _ _ _ _ HI HR)];
    intros s Hs; rewrite Rmin_left in Hs by assumption; unfold minus, plus, opp; simpl;
    rewrite (d3 M HG s) by lra; cbn [app]; unfold lin_rhs, tsum, ito2_sys;
    cbn [Z.leb Z.compare Pos.compare Pos.compare_cont andb app v1_terms v2_terms vi_terms sumR fst snd Z.sub Z.add Z.opp Z.mul Z.pos_sub Z.double Pos.pred_double Pos.add Pos.mul Pos.succ];
    unfold gs, facv, kf2; cbn [Z.eqb Z.add Pos.add Pos.succ Pos.eqb];
    assert (Z1 : M za s = 0) by (zero5 HG Hp s za);
    assert (Z2 : M zb s = 0) by (zero5 HG Hp s zb);
    rewrite Z1, Z2, Q2R_Frac by lia; rewrite ?exp_m1', !exp_Ropp;
    match goal with |- context [IZR (-1) * ?x] => replace (IZR (-1) * x) with (- x) by (simpl; ring); rewrite ?exp_Ropp | _ => idtac end;
    match goal with |- context [IZR 0 * ?x] => replace (IZR 0 * x) with 0 by (simpl; ring); rewrite ?exp_0 | _ => idtac end ].

Lemma moment_12 : returns (moment_IEI_IEII 1 2 0 0 0) (fun q => forall p M, sok2 p -> ito2_moments p M ->
  forall t, 0 <= t -> is_RInt (fun s => 2 * qsg1 p * M (1, 1, 0, 0, 0)%Z s) 0 t
    (M (1, 2, 0, 0, 0)%Z t - eval (smon p t) (items q))).
Proof.
  missing 1%Z (-1)%Z 0%Z (1, 2, 0, 0, 0)%Z (1, 0, 0, 0, 0)%Z (2, 0, 0, 0, 0)%Z (Frac 2 2) (1, 0, 0, 0, 0)%Z (0, 1, 0, 0, 0)%Z.
  field; split; apply exp_neq0.
Qed.
Lemma moment_21f : returns (moment_IEI_IEII 0 0 2 1 0) (fun q => forall p M, sok2 p -> ito2_moments p M ->
  forall t, 0 <= t -> is_RInt (fun s => 2 * qsg2 p * M (0, 0, 2, 0, 0)%Z s) 0 t
    (M (0, 0, 2, 1, 0)%Z t - eval (smon p t) (items q))).
Proof.
  missing 2%Z 1%Z 2%Z (0, 0, 2, 1, 0)%Z (0, 0, 0, 1, 0)%Z (0, 0, 1, 1, 0)%Z (Frac 2 2) (0, 0, 1, 0, 0)%Z (0, 0, 0, 1, 0)%Z.
  field; split; apply exp_neq0.
Qed.
Lemma moment_12f : returns (moment_IEI_IEII 0 0 1 2 0) (fun q => forall p M, sok2 p -> ito2_moments p M ->
  forall t, 0 <= t -> is_RInt (fun s => 2 * qsg2 p * M (0, 0, 1, 1, 0)%Z s) 0 t
    (M (0, 0, 1, 2, 0)%Z t - eval (smon p t) (items q))).
Proof.
  missing 2%Z (-1)%Z 0%Z (0, 0, 1, 2, 0)%Z (0, 0, 1, 0, 0)%Z (0, 0, 2, 0, 0)%Z (Frac 2 2) (0, 0, 1, 0, 0)%Z (0, 0, 0, 1, 0)%Z.
  field; split; apply exp_neq0.
Qed.

(** ** in closed form *)
Definition def21 (k s0 v th sg t : R) : R :=
  2 * sg * exp (2 * (k * s0)) * (th / (2 * k) * ((exp (2 * (k * t)) - 1) / (2 * k) - t) + (v - th) / k * ((exp (k * t) - 1) / k - t)).
Definition def12 (k s0 v th sg t : R) : R :=
  2 * sg * exp (k * s0) * ((v - th) * (t * t / 2) + th / k * ((exp (k * t) - 1) / k - t)).

Lemma def21_int k s0 v th sg t : k <> 0 ->
  is_RInt (fun s => 2 * sg * (exp (2 * (k * s0)) * (th * (exp (2 * (k * s)) - 1) / (2 * k) + (v - th) * (exp (k * s) - 1) / k))) 0 t
    (def21 k s0 v th sg t).
Proof.
  intro Hk. replace (def21 k s0 v th sg t) with (def21 k s0 v th sg t - def21 k s0 v th sg 0).
  2: { unfold def21. rewrite !Rmult_0_r, exp_0. field. exact Hk. }
  apply (RInt_of_derive (fun t => def21 k s0 v th sg t)).
  - intro s. unfold def21. auto_derive; [trivial|]. field. exact Hk.
  - intro s. apply (ex_derive_continuous (V:=R_NormedModule)). auto_derive. trivial.
Qed.
Lemma def12_int k s0 v th sg t : k <> 0 ->
  is_RInt (fun s => 2 * sg * (exp (k * s0) * ((v - th) * s + th * (exp (k * s) - 1) / k))) 0 t (def12 k s0 v th sg t).
Proof.
  intro Hk. replace (def12 k s0 v th sg t) with (def12 k s0 v th sg t - def12 k s0 v th sg 0).
  2: { unfold def12. rewrite !Rmult_0_r, exp_0. field. exact Hk. }
  apply (RInt_of_derive (fun t => def12 k s0 v th sg t)).
  - intro s. unfold def12. auto_derive; [trivial|]. field. exact Hk.
  - intro s. apply (ex_derive_continuous (V:=R_NormedModule)). auto_derive. trivial.
Qed.

Ltac closed i HM Hp s :=
  destruct (Gtab_init i) as (z & e3 & _ & g3); [unfold ito2_dom; lia|unfold ord5; lia|];
  inversion e3; subst z; destruct g3 as [_ g3]; [unfold gdom, ito2_dom; lia|];
  rewrite (g3 _ _ Hp (fun i' Hi' => HM i' (gdom_dom i' Hi')) s) by lra;
  cbn [items S_20000 S_11000 S_00200 S_00110 eval smon denv monx];
  change (powerRZ ?x 1) with (x * 1); change (powerRZ ?x 0) with 1;
  rewrite ?Rmult_1_r, ?Rmult_0_l, ?Rplus_0_l, ?Rplus_0_r, ?Rmult_0_l, ?exp_0, ?Rmult_1_l;
  repeat match goal with |- context [exp (2 * ?k * ?x)] => replace (2 * k * x) with (2 * (k * x)) by ring end.

Section Entries.
Context (p : par2) (M : ito2_idx -> R -> R) (Hp : sok2 p) (HM : ito2_moments p M).

Local Ltac fin := rewrite ?pw_1; unfold Q2R; cbn [Qnum Qden]; destruct Hp as [? ?]; field; assumption.
Lemma M20_closed s : 0 <= s -> M (2, 0, 0, 0, 0)%Z s =
  exp (2 * (qk1 p * qs0 p)) * (qth1 p * (exp (2 * (qk1 p * s)) - 1) / (2 * qk1 p) + (qv1 p - qth1 p) * (exp (qk1 p * s) - 1) / qk1 p).
Proof. intro Hs. closed (2, 0, 0, 0, 0)%Z HM Hp s. fin. Qed.
Lemma M11_closed s : 0 <= s -> M (1, 1, 0, 0, 0)%Z s =
  exp (qk1 p * qs0 p) * ((qv1 p - qth1 p) * s + qth1 p * (exp (qk1 p * s) - 1) / qk1 p).
Proof. intro Hs. closed (1, 1, 0, 0, 0)%Z HM Hp s. fin. Qed.
Lemma M20f_closed s : 0 <= s -> M (0, 0, 2, 0, 0)%Z s =
  exp (2 * (qk2 p * qs0 p)) * (qth2 p * (exp (2 * (qk2 p * s)) - 1) / (2 * qk2 p) + (qv2 p - qth2 p) * (exp (qk2 p * s) - 1) / qk2 p).
Proof. intro Hs. closed (0, 0, 2, 0, 0)%Z HM Hp s. fin. Qed.
Lemma M11f_closed s : 0 <= s -> M (0, 0, 1, 1, 0)%Z s =
  exp (qk2 p * qs0 p) * ((qv2 p - qth2 p) * s + qth2 p * (exp (qk2 p * s) - 1) / qk2 p).
Proof. intro Hs. closed (0, 0, 1, 1, 0)%Z HM Hp s. fin. Qed.

Context (t : R) (Ht : 0 <= t).
Local Ltac entry mis clo int :=
  pose proof mis as h; unfold itos_val; destruct (moment_IEI_IEII _ _ _ _ _) as [q|] in h |- *; [|destruct h];
  eapply is_RInt_uniq; [apply (h p M Hp HM t Ht)|];
  eapply is_RInt_ext; [|apply int; destruct Hp; assumption];
  intros s Hs; rewrite Rmin_left in Hs by assumption; cbn beta; rewrite clo by lra; reflexivity.
Lemma entry_21 : M (2, 1, 0, 0, 0)%Z t - itos_val p (2, 1, 0, 0, 0)%Z t = def21 (qk1 p) (qs0 p) (qv1 p) (qth1 p) (qsg1 p) t.
Proof. entry moment_21 M20_closed def21_int. Qed.
Lemma entry_12 : M (1, 2, 0, 0, 0)%Z t - itos_val p (1, 2, 0, 0, 0)%Z t = def12 (qk1 p) (qs0 p) (qv1 p) (qth1 p) (qsg1 p) t.
Proof. entry moment_12 M11_closed def12_int. Qed.
Lemma entry_21f : M (0, 0, 2, 1, 0)%Z t - itos_val p (0, 0, 2, 1, 0)%Z t = def21 (qk2 p) (qs0 p) (qv2 p) (qth2 p) (qsg2 p) t.
Proof. entry moment_21f M20f_closed def21_int. Qed.
Lemma entry_12f : M (0, 0, 1, 2, 0)%Z t - itos_val p (0, 0, 1, 2, 0)%Z t = def12 (qk2 p) (qs0 p) (qv2 p) (qth2 p) (qsg2 p) t.
Proof. entry moment_12f M11f_closed def12_int. Qed.
End Entries.

(** ** third moments of the return *)
Definition short3 (k h th sg : R) : R :=
  3 * sg ^ 4 * th / (4 * k ^ 5) * (3 / 4 - exp (- (k * h)) + exp (- (k * h)) ^ 2 / 4 - k * h * exp (- (k * h)) + k * h * exp (- (k * h)) ^ 2 / 2).

(** the combinations of order 3 whose conditional moment is wrong *)
Definition bad8 (ns : list Z) : bool :=
  match ns with
  | [_; _; _; a; b; c; d; _] => ((a + b =? 3) && negb (a =? 0) && negb (b =? 0) || (c + d =? 3) && negb (c =? 0) && negb (d =? 0))%Z
  | _ => false
  end.
Lemma sumR_filter {A} (f : A -> R) (b : A -> bool) l : (forall x, In x l -> b x = false -> f x = 0) ->
  sumR f l = sumR f (filter b l).
Proof.
  induction l as [|x r IH]; intro H; [reflexivity|]. cbn [filter sumR]. rewrite IH by (intros y Hy; apply H; now right).
  destruct (b x) eqn:e; [reflexivity|]. rewrite (H x (or_introl eq_refl) e). ring.
Qed.
Lemma bad8_rcomp : filter bad8 (rcomp 7 3) =
  [[0; 0; 0; 2; 1; 0; 0; 0]; [0; 0; 0; 1; 2; 0; 0; 0]; [0; 0; 0; 0; 0; 2; 1; 0]; [0; 0; 0; 0; 0; 1; 2; 0]]%Z.
Proof. vm_compute. reflexivity. Qed.

Section Short.
Context (k1 k2 h th1 sg1 th2 sg2 : R) (Hk1 : k1 <> 0) (Hk2 : k2 <> 0) (Hh : 0 <= h) (s0 : R).
Context (M : R -> R -> ito2_idx -> R).
Hypothesis HM : forall v1 v2, exists N, ito2_moments (mkPar2 k1 k2 s0 v1 th1 sg1 v2 th2 sg2) N /\ forall i, M v1 v2 i = N i h.
Local Notation W := (W2 k1 k2 h th1 sg1 th2 sg2 s0).
Local Notation dW := (fun i v1 v2 => M v1 v2 i - W v1 v2 i).

Lemma dW_good v1 v2 i : gdom i -> M v1 v2 i - W v1 v2 i = 0.
Proof.
  intro G. destruct (HM v1 v2) as (N & HN & E). rewrite E. destruct i as ((((a & b) & c) & d) & e).
  pose proof (moment_IEI_IEII_spec a b c d e ltac:(apply (gdom_dom _ G))) as r. unfold W2, itos_val.
  destruct (moment_IEI_IEII a b c d e) as [q|]; [|destruct r]. destruct r as [_ r]. destruct (r G) as [_ V].
  rewrite <- (V (mkPar2 k1 k2 s0 v1 th1 sg1 v2 th2 sg2) N); [ring|split; assumption| |assumption].
  intros i Hi. apply HN, gdom_dom, Hi.
Qed.
Lemma dW_bad v1 v2 :
  M v1 v2 (2, 1, 0, 0, 0)%Z - W v1 v2 (2, 1, 0, 0, 0)%Z = def21 k1 s0 v1 th1 sg1 h /\
  M v1 v2 (1, 2, 0, 0, 0)%Z - W v1 v2 (1, 2, 0, 0, 0)%Z = def12 k1 s0 v1 th1 sg1 h /\
  M v1 v2 (0, 0, 2, 1, 0)%Z - W v1 v2 (0, 0, 2, 1, 0)%Z = def21 k2 s0 v2 th2 sg2 h /\
  M v1 v2 (0, 0, 1, 2, 0)%Z - W v1 v2 (0, 0, 1, 2, 0)%Z = def12 k2 s0 v2 th2 sg2 h.
Proof.
  destruct (HM v1 v2) as (N & HN & E). rewrite !E. unfold W2.
  set (p := mkPar2 k1 k2 s0 v1 th1 sg1 v2 th2 sg2). assert (Hp : sok2 p) by (split; assumption).
  split; [exact (entry_21 p N Hp HN h Hh)|]. split; [exact (entry_12 p N Hp HN h Hh)|].
  split; [exact (entry_21f p N Hp HN h Hh)|exact (entry_12f p N Hp HN h Hh)].
Qed.

Context {Om : Type} (E : (Om -> R) -> R) (HE : expectation E) (V1 V2 IE1 I1 IE2 I2 Is : Om -> R).
Hypothesis H0 : E (fun _ => 1) = 1.
Hypothesis HV1 : E V1 = th1.
Hypothesis HV2 : E V2 = th2.
Hypothesis HT : forall m n a b c d e, (0 <= m)%Z -> (0 <= n)%Z -> ito2_dom (a, b, c, d, e) -> (m + n + a + b + c + d + e <= 3)%Z ->
  E (fun w => V1 w ^ Z.to_nat m * V2 w ^ Z.to_nat n * (IE1 w ^ Z.to_nat a * I1 w ^ Z.to_nat b * IE2 w ^ Z.to_nat c * I2 w ^ Z.to_nat d * Is w ^ Z.to_nat e))
  = E (fun w => V1 w ^ Z.to_nat m * V2 w ^ Z.to_nat n * M (V1 w) (V2 w) (a, b, c, d, e)).
Local Notation xs a1 w := (xs2 k1 k2 h sg1 sg2 s0 V1 V2 IE1 I1 IE2 I2 Is a1 w).
Local Notation gt a1 ns w := (gterm2 k1 k2 h th1 sg1 th2 sg2 s0 a1 3 ns (V1 w, V2 w)).

Lemma short_term a1 ns : In ns (rcomp 7 3) ->
  IZR (cmb 3 ns) * E (fun w => powprod (xs a1 w) ns) - E (fun w => gt a1 ns w) =
  match ns with
  | [n1; n2; n3; n4; n5; n6; n7; n8] => IZR (cmb 3 ns) * bval k1 k2 h sg1 sg2 a1 n1 n2 n3 n4 n5 n6 n7 *
      (pw (exp (- (k1 * (s0 + h)))) n4 * pw (exp (- (k2 * (s0 + h)))) n6) *
      E (fun w => V1 w ^ Z.to_nat n2 * V2 w ^ Z.to_nat n3 * (M (V1 w) (V2 w) (n4, n5, n6, n7, n8) - W (V1 w) (V2 w) (n4, n5, n6, n7, n8)))
  | _ => 0
  end.
Proof.
  intro Hns. apply in_rcomp in Hns; [|lia]. destruct Hns as (l1 & l2 & l3).
  destruct (comp8 ns 3 l1 l2 l3) as (n1 & n2 & n3 & n4 & n5 & n6 & n7 & n8 & -> & (q1 & q2 & q3 & q4 & q5 & q6 & q7 & q8) & qs).
  set (C := IZR (cmb 3 [n1; n2; n3; n4; n5; n6; n7; n8]) * bval k1 k2 h sg1 sg2 a1 n1 n2 n3 n4 n5 n6 n7 *
      (pw (exp (- (k1 * (s0 + h)))) n4 * pw (exp (- (k2 * (s0 + h)))) n6)).
  rewrite (E_ext E HE (fun w => V1 w ^ Z.to_nat n2 * V2 w ^ Z.to_nat n3 * (M (V1 w) (V2 w) (n4, n5, n6, n7, n8) - W (V1 w) (V2 w) (n4, n5, n6, n7, n8)))
    (fun w => V1 w ^ Z.to_nat n2 * V2 w ^ Z.to_nat n3 * M (V1 w) (V2 w) (n4, n5, n6, n7, n8) +
       (-1) * (V1 w ^ Z.to_nat n2 * V2 w ^ Z.to_nat n3 * W (V1 w) (V2 w) (n4, n5, n6, n7, n8)))) by (intro; ring).
  rewrite (E_plus E HE (fun w => V1 w ^ Z.to_nat n2 * V2 w ^ Z.to_nat n3 * M (V1 w) (V2 w) (n4, n5, n6, n7, n8))
    (fun w => (-1) * (V1 w ^ Z.to_nat n2 * V2 w ^ Z.to_nat n3 * W (V1 w) (V2 w) (n4, n5, n6, n7, n8)))).
  rewrite (E_scal E HE (-1)), <- HT by (try (repeat split; assumption); lia).
  rewrite (E_ext E HE (fun w => gt a1 _ w) (fun w => C * (V1 w ^ Z.to_nat n2 * V2 w ^ Z.to_nat n3 * W (V1 w) (V2 w) (n4, n5, n6, n7, n8)))).
  2: { intro w. unfold gterm2, C. cbn [fst snd]. rewrite <- !pw_Zpos by lia. ring. }
  rewrite (E_scal E HE C). unfold Rminus. rewrite Rmult_plus_distr_l. f_equal; [|ring].
  rewrite <- !(E_scal E HE). apply (E_ext E HE). intro w.
  unfold xs2. rewrite powprod_monx by assumption. cbn [monx]. rewrite <- !pw_Zpos by lia. unfold C, bval. pwx. ring.
Qed.

Lemma E_lin a b (X : Om -> R) : E (fun w => a * X w + b) = a * E X + b.
Proof.
  rewrite (E_ext E HE _ (fun w => a * X w + b * 1)) by (intro; ring).
  rewrite (E_plus E HE (fun w => a * X w) (fun _ => b * 1)), (E_scal E HE a X), (E_scal E HE b (fun _ => 1)), H0. ring.
Qed.
Lemma E_def21 k th sg (V : Om -> R) : k <> 0 -> E V = th ->
  E (fun w => def21 k s0 (V w) th sg h) = 2 * sg * exp (2 * (k * s0)) * (th / (2 * k) * ((exp (2 * (k * h)) - 1) / (2 * k) - h)).
Proof.
  intros Hk HV. set (a := 2 * sg * exp (2 * (k * s0)) * (/ k * ((exp (k * h) - 1) / k - h))).
  rewrite (E_ext E HE _ (fun w => a * V w + (def21 k s0 0 th sg h))) by (intro; unfold def21, a; field; assumption).
  rewrite E_lin, HV. unfold def21, a. field. assumption.
Qed.
Lemma E_def12 k th sg (V : Om -> R) : k <> 0 -> E V = th ->
  E (fun w => def12 k s0 (V w) th sg h) = 2 * sg * exp (k * s0) * (th / k * ((exp (k * h) - 1) / k - h)).
Proof.
  intros Hk HV. set (a := 2 * sg * exp (k * s0) * (h * h / 2)).
  rewrite (E_ext E HE _ (fun w => a * V w + (def12 k s0 0 th sg h))) by (intro; unfold def12, a; field; assumption).
  rewrite E_lin, HV. unfold def12, a. field. assumption.
Qed.
Lemma short3_sum k th sg : k <> 0 ->
  3 * ((sg * (/ 2 * / k)) ^ 2 * (- (sg * (/ 2 * / k))) * exp (- (k * (s0 + h))) ^ 2) *
    (2 * sg * exp (2 * (k * s0)) * (th / (2 * k) * ((exp (2 * (k * h)) - 1) / (2 * k) - h))) +
  3 * ((sg * (/ 2 * / k)) * (- (sg * (/ 2 * / k))) ^ 2 * exp (- (k * (s0 + h)))) *
    (2 * sg * exp (k * s0) * (th / k * ((exp (k * h) - 1) / k - h)))
  = short3 k h th sg.
Proof.
  intro Hk. unfold short3.
  replace (exp (- (k * (s0 + h)))) with (/ exp (k * s0) * / exp (k * h)).
  2: { rewrite <- !exp_Ropp, <- exp_plus. f_equal. ring. }
  replace (exp (2 * (k * s0))) with (exp (k * s0) ^ 2).
  2: { simpl. rewrite Rmult_1_r, <- exp_plus. f_equal. ring. }
  replace (exp (2 * (k * h))) with (exp (k * h) ^ 2).
  2: { simpl. rewrite Rmult_1_r, <- exp_plus. f_equal. ring. }
  rewrite exp_Ropp. field. repeat split; first [assumption|apply exp_neq0].
Qed.

(** the third moment of a1 + B1 v1 + ... + I_star against the value the code computes *)
Lemma short_sum a1 :
  E (fun w => sumR (fun x => x) (xs a1 w) ^ Z.to_nat 3) - E (fun w => sumR (fun ns => gt a1 ns w) (rcomp 7 3))
  = short3 k1 h th1 sg1 + short3 k2 h th2 sg2.
Proof.
  rewrite (E_multinomial E HE (fun w => xs a1 w) 7 3) by (try reflexivity; lia).
  rewrite (E_sumR E HE (fun ns w => gt a1 ns w)).
  transitivity (sumR (fun ns => IZR (cmb 3 ns) * E (fun w => powprod (xs a1 w) ns) + (-1) * E (fun w => gt a1 ns w)) (rcomp 7 3)).
  { rewrite sumR_plus, sumR_scal. ring. }
  etransitivity.
  { apply sumR_ext. intros ns Hns. etransitivity; [|exact (short_term a1 ns Hns)]. ring. }
  rewrite (sumR_filter _ bad8), bad8_rcomp.
  - cbn [sumR].
    rewrite (E_ext E HE _ (fun w => def21 k1 s0 (V1 w) th1 sg1 h)) by (intro w; rewrite (proj1 (dW_bad (V1 w) (V2 w))); simpl; ring).
    rewrite (E_def21 k1 th1 sg1 V1 Hk1 HV1).
    rewrite (E_ext E HE _ (fun w => def12 k1 s0 (V1 w) th1 sg1 h)) by (intro w; rewrite (proj1 (proj2 (dW_bad (V1 w) (V2 w)))); simpl; ring).
    rewrite (E_def12 k1 th1 sg1 V1 Hk1 HV1).
    rewrite (E_ext E HE _ (fun w => def21 k2 s0 (V2 w) th2 sg2 h)) by (intro w; rewrite (proj1 (proj2 (proj2 (dW_bad (V1 w) (V2 w))))); simpl; ring).
    rewrite (E_def21 k2 th2 sg2 V2 Hk2 HV2).
    rewrite (E_ext E HE _ (fun w => def12 k2 s0 (V2 w) th2 sg2 h)) by (intro w; rewrite (proj2 (proj2 (proj2 (dW_bad (V1 w) (V2 w))))); simpl; ring).
    rewrite (E_def12 k2 th2 sg2 V2 Hk2 HV2).
    rewrite <- (short3_sum k1 th1 sg1 Hk1), <- (short3_sum k2 th2 sg2 Hk2).
    repeat match goal with |- context [cmb 3 ?l] => replace (cmb 3 l) with 3%Z by reflexivity end.
    unfold bval, D1, D2. rewrite !pw_0, !pw_1.
    repeat match goal with |- context [pw ?x 2] => replace (pw x 2) with (x ^ 2) by (symmetry; apply (pw_Zpos x 2); lia) end. ring.
  - intros ns Hns Hb. apply in_rcomp in Hns; [|lia]. destruct Hns as (l1 & l2 & l3).
    destruct (comp8 ns 3 l1 l2 l3) as (n1 & n2 & n3 & n4 & n5 & n6 & n7 & n8 & -> & (q1 & q2 & q3 & q4 & q5 & q6 & q7 & q8) & qs).
    rewrite (E_ext E HE _ (fun w => 0 * 1)).
    + rewrite (E_scal E HE 0 (fun _ => 1)). ring.
    + intro w. rewrite dW_good; [ring|]. unfold bad8 in Hb. unfold gdom, ito2_dom.
      apply orb_false_iff in Hb. destruct Hb as [b1 b2].
      rewrite !andb_false_iff, !negb_false_iff, !Z.eqb_eq, Z.eqb_neq in b1, b2. split; [lia|]. left. lia.
Qed.
End Short.

(** ** the shortfall is positive *)
Lemma short3_pos k h th sg : 0 < k -> 0 < h -> 0 < th -> sg <> 0 -> 0 < short3 k h th sg.
Proof.
  intros Hk Hh Hth Hsg. unfold short3.
  assert (S4 : 0 < sg ^ 4).
  { replace (sg ^ 4) with ((sg * sg) * (sg * sg)) by ring. assert (0 < sg * sg) by (apply Rsqr_pos_lt in Hsg; exact Hsg). now apply Rmult_lt_0_compat. }
  apply Rmult_lt_0_compat.
  { apply Rdiv_lt_0_compat; [apply Rmult_lt_0_compat; lra|]. apply Rmult_lt_0_compat; [lra|apply pow_lt; lra]. }
  set (x := k * h). assert (Hx : 0 < x) by now apply Rmult_lt_0_compat.
  set (g := fun x => 3 / 4 - exp (- x) + exp (- x) ^ 2 / 4 - x * exp (- x) + x * exp (- x) ^ 2 / 2).
  change (0 < g x). replace 0 with (g 0) by (unfold g; rewrite Ropp_0, exp_0; field).
  destruct (MVT_cor2 g (fun x => x * (exp (- x) - exp (- x) ^ 2)) 0 x Hx) as (c & E & Hc).
  - intros y Hy. apply is_derive_Reals. unfold g. auto_derive; [trivial|]. field.
  - assert (e1 : 0 < exp (- c)) by apply exp_pos.
    assert (e2 : exp (- c) < 1) by (rewrite <- exp_0; apply exp_increasing; lra).
    assert (0 < g x - g 0); [|lra]. rewrite E. apply Rmult_lt_0_compat; [|lra]. apply Rmult_lt_0_compat; [lra|].
    replace (exp (- c) - exp (- c) ^ 2) with (exp (- c) * (1 - exp (- c))) by ring. apply Rmult_lt_0_compat; lra.
Qed.
