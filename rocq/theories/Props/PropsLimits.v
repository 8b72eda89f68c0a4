(** Property C67: the boundary cases of the one-factor models: an interval of length zero, no variance
    (theta = 0), and constant variance (sigma_v = 0), where the return is normal. *)
From Coq Require Import Reals Lra Lia.
From Coquelicot Require Import Coquelicot.
From Verif.Spec Require Import Params Returns1 Cpp.
From Verif.Model Require Import Scalar.
From Verif.Proof Require Import ItoProofs Realise CppProofs.
From Verif.Props Require Import PropsIto Props1fsv Props1fsvj PropsScalar PropsCpp.
Import Verif.Model.Scalar.
Local Open Scope R_scope.

Lemma init_pow a b d : (0 <= a)%Z -> (0 <= b)%Z -> (0 <= d)%Z -> 0 ^ Z.to_nat a * 0 ^ Z.to_nat b * 0 ^ Z.to_nat d = ito_init (a, b, d).
Proof.
  intros h1 h2 h3. destruct a as [|a|a]; [|rewrite pow_i by lia; cbn; ring|lia].
  destruct b as [|b|b]; [|rewrite (pow_i (Z.to_nat (Z.pos b))) by lia; cbn; ring|lia].
  destruct d as [|d|d]; [cbn; ring|rewrite (pow_i (Z.to_nat (Z.pos d))) by lia; cbn; ring|lia].
Qed.
(** if the integrals vanish they can be taken to be zero *)
Lemma quiet {Om} (E : (Om -> R) -> R) p s0 L hist V M : expectation E -> (forall v, ito_moments (mkPar (fk p) s0 v (fth p) (fsg p)) (M v)) ->
  (forall w a b d, (0 <= a)%Z -> (0 <= b)%Z -> (0 <= d)%Z -> M (V w) (a, b, d) (fh p) = ito_init (a, b, d)) ->
  tower E p s0 L hist V (fun _ => 0) (fun _ => 0) (fun _ => 0).
Proof.
  intros HE HM H. exists M. split; [exact HM|]. intros hs n a b d _ _ hn ha hb hd _. apply (E_ext E HE). intro w.
  rewrite (H w a b d ha hb hd), <- (init_pow a b d ha hb hd). ring.
Qed.
Lemma at_0 p M a b d : ito_moments p M -> (0 <= a)%Z -> (0 <= b)%Z -> (0 <= d)%Z -> M (a, b, d) 0 = ito_init (a, b, d).
Proof.
  intros HM ha hb hd. pose proof (HM (a, b, d) (conj ha (conj hb hd)) 0 (Rle_refl 0)) as h.
  pose proof (is_RInt_unique _ _ _ _ h) as e. rewrite RInt_point in e. change zero with 0 in e. lra.
Qed.
(** nothing happens from v = theta = 0 *)
Lemma at_rest k s0 sg : ito_moments (mkPar k s0 0 0 sg) (fun i _ => ito_init i).
Proof.
  intros [[a b] d] (ha & hb & hd) t Ht. replace (ito_init (a, b, d) - ito_init (a, b, d)) with (Hierarchy.scal (t - 0) 0).
  2: { unfold Hierarchy.scal; cbn; unfold mult; cbn. ring. }
  apply (is_RInt_ext (fun _ => 0)); [|apply (@is_RInt_const R_NormedModule)]. intros s _.
  match goal with |- ?x = ?y => change (@eq R x y) end.
  assert (Z1 : forall c i1 i2 i3, (0 <= i1)%Z -> sumR (fun cj => fst cj s * ito_init (snd cj)) (v_terms (mkPar k s0 0 0 sg) c (i1, i2, i3)) = 0).
  { intros c i1 i2 i3 h. unfold v_terms. cbn [sumR fst snd]. unfold v_mean. cbn [pk pv pth psg ps0].
    replace (ito_init (i1 + 1, i2, i3)%Z) with 0; [ring|]. destruct i1 as [|q|q]; [reflexivity| |lia]. reflexivity. }
  unfold lin_rhs, ito_sys. rewrite !sumR_app.
  destruct (Z.leb_spec 2 a); destruct (Z.leb_spec 2 b); destruct (Z.leb_spec 1 a); destruct (Z.leb_spec 1 b); destruct (Z.leb_spec 2 d);
    cbn [andb]; rewrite ?Z1 by lia; cbn [sumR]; ring.
Qed.
Lemma gmom_0 x n : gmom 0 x n = 0 ^ n.
Proof.
  destruct n as [|n]; [reflexivity|]. rewrite pow_i by lia. induction n as [|n IH]; [cbn; field|].
  change (gmom 0 x (S (S n))) with (gmom 0 x (S n) * (0 + INR (S n) * x / 2)). rewrite IH. ring.
Qed.
Definition Eone (X : unit -> R) : R := X tt.
Lemma Eone_exp : expectation Eone.
Proof. split; unfold Eone; auto. Qed.

Section Par.
Variable par : string -> R.
Hypothesis (Hk : par "k"%string <> 0).
Notation p := (fpar_of par).
Notation N s v := (ito_val (mkPar (fk p) s v (fth p) (fsg p))).
Lemma HN s v : ito_moments (mkPar (fk p) s v (fth p) (fsg p)) (N s v).
Proof. now apply ito_solution. Qed.

Lemma ret_h0 s0 v : fh p = 0 -> ret p s0 v 0 0 0 = 0.
Proof. intro e. unfold ret, int_v, v_end, eKH. rewrite e. replace (- (fk p * 0)) with 0 by ring. rewrite exp_0. field. exact Hk. Qed.
Lemma vend_h0 s0 v : fh p = 0 -> v_end p s0 v 0 = v.
Proof. intro e. unfold v_end, eKH. rewrite e. replace (- (fk p * 0)) with 0 by ring. rewrite exp_0. ring. Qed.
Lemma ret_th0 s0 : fth p = 0 -> ret p s0 0 0 0 0 = fmu p * fh p.
Proof. intro e. unfold ret, int_v, v_end. rewrite e. field. exact Hk. Qed.
Lemma vend_th0 s0 : fth p = 0 -> v_end p s0 0 0 = 0.
Proof. intro e. unfold v_end. rewrite e. ring. Qed.

Lemma rest_tower {Om} (E : (Om -> R) -> R) s0 L hist V : expectation E -> fth p = 0 -> 0 <= fh p -> (forall w, V w = 0) ->
  tower E p s0 L hist V (fun _ => 0) (fun _ => 0) (fun _ => 0).
Proof.
  intros HE e Hh HV. apply (quiet E p s0 L hist V (fun v => N s0 v) HE (HN s0)). intros w a b d ha hb hd. rewrite HV, e.
  refine (C14_unique (mkPar (fk p) s0 0 0 (fsg p)) _ (fun i _ => ito_init i) _ (at_rest _ _ _) (a, b, d) (conj ha (conj hb hd)) (fh p) Hh). now apply ito_solution.
Qed.
Lemma h0_tower {Om} (E : (Om -> R) -> R) s0 L hist V : expectation E -> fh p = 0 ->
  tower E p s0 L hist V (fun _ => 0) (fun _ => 0) (fun _ => 0).
Proof. intros HE e. apply (quiet E p s0 L hist V (fun v => N s0 v) HE (HN s0)). intros w a b d ha hb hd. rewrite e. now apply (at_0 _ _ _ _ _ (HN s0 (V w))). Qed.

Lemma E_pow0 {Om} (E : (Om -> R) -> R) (y : Om -> R) c l : expectation E -> E (fun _ => 1) = 1 -> (forall w, y w = c) -> E (fun w => y w ^ l) = c ^ l.
Proof. intros HE one e. rewrite (E_ext E HE _ (fun _ => c ^ l * 1)) by (intro w; rewrite e; ring). rewrite (E_scal E HE), one. ring. Qed.

(** the return is the constant c *)
Lemma const_1fsv (Hh : 0 <= par "h"%string) c : fth p = 0 /\ c = fmu p * fh p \/ fh p = 0 /\ c = 0 ->
  (forall l, (0 <= l)%Z -> m_1fsv l par = Ok (c ^ Z.to_nat l)) /\
  (forall l, (0 <= l)%Z -> cm_1fsv l par = Ok (0 ^ Z.to_nat l)) /\
  (forall l1 l2, (0 <= l1)%Z -> (0 <= l2)%Z -> cov_1fsv l1 l2 par = Ok 0).
Proof.
  intro H. destruct (C46_value_1fsv par Hk Hh) as (V1 & V2 & V3).
  assert (S : forall L, (0 <= L)%Z -> exists (Om : Type) (E : (Om -> R) -> R) (V : Om -> R), expectation E /\ E (fun _ => 1) = 1 /\ stationary E p L V /\
    (forall s0 hist V', (forall w, V' w = V w) -> tower E p s0 L hist V' (fun _ => 0) (fun _ => 0) (fun _ => 0)) /\
    (forall s0 w, ret p s0 (V w) 0 0 0 = c) /\ (forall s0 w, v_end p s0 (V w) 0 = V w)).
  { intros L HL. destruct H as [[e ->]|[e ->]].
    - exists unit, Eone, (fun _ => 0). split; [exact Eone_exp|]. split; [reflexivity|]. split; [|split; [|split]].
      + intros n Hn. rewrite e, gmom_0. reflexivity.
      + intros s0 hist V' HV'. now apply rest_tower; [exact Eone_exp| | |].
      + intros s0 _. now apply ret_th0.
      + intros s0 _. now apply vend_th0.
    - set (E := Efin (realise1 (Z.to_nat L) (gmom (fth p) (fsg p ^ 2 / fk p)))).
      assert (HE : expectation E) by apply Efin_expectation.
      assert (HV : stationary E p L (fun v => v)).
      { intros n Hn. unfold E. rewrite (realise1_spec (Z.to_nat L) _ (Z.to_nat n)) by lia. reflexivity. }
      exists R, E, (fun v => v). split; [exact HE|]. split; [exact (HV 0%Z ltac:(lia))|]. split; [exact HV|]. split; [|split].
      + intros s0 hist V' _. now apply h0_tower.
      + intros s0 w. now apply ret_h0.
      + intros s0 w. now apply vend_h0. }
  split; [|split].
  - intros l Hl. destruct (S l Hl) as (Om & E & V & HE & one & HV & HT & Hr & _). apply V1; [exact Hl|].
    exists Om, E, l, 0, V, (fun _ => 0), (fun _ => 0), (fun _ => 0). split; [exact HE|]. split; [exact HV|]. split; [now apply HT|]. split; [lia|].
    symmetry. apply E_pow0; [exact HE|exact one|]. intro w. apply Hr.
  - intros l Hl. destruct (S (Z.max 1 l) ltac:(lia)) as (Om & E & V & HE & one & HV & HT & Hr & _). apply V2; [exact Hl|].
    exists Om, E, (Z.max 1 l), 0, V, (fun _ => 0), (fun _ => 0), (fun _ => 0). split; [exact HE|]. split; [exact HV|]. split; [now apply HT|]. split; [lia|]. split; [lia|].
    symmetry. apply E_pow0; [exact HE|exact one|]. intro w.
    rewrite (E_ext E HE _ (fun _ => c * 1)) by (intro w'; rewrite Hr; ring). rewrite (E_scal E HE), one, Hr. ring.
  - intros l1 l2 h1 h2. destruct (S (l1 + l2)%Z ltac:(lia)) as (Om & E & V & HE & one & HV & HT & Hr & He). apply V3; [exact h1|exact h2|].
    exists Om, E, (l1 + l2)%Z, 0, V, (fun _ => 0), (fun _ => 0), (fun _ => 0), (fun _ => 0), (fun _ => 0), (fun _ => 0).
    split; [exact HE|]. split; [exact HV|]. split; [now apply HT|]. split; [|split; [lia|]].
    + apply HT. intro w. apply He.
    + rewrite (E_ext E HE _ (fun _ => c ^ Z.to_nat l1 * c ^ Z.to_nat l2 * 1)) by (intro w; rewrite He, !Hr; ring).
      rewrite (E_pow0 E (fun w => ret p 0 (V w) 0 0 0) c (Z.to_nat l1) HE one) by (intro; apply Hr).
      rewrite (E_pow0 E (fun w => ret p (0 + fh p) (v_end p 0 (V w) 0) 0 0 0) c (Z.to_nat l2) HE one) by (intro; rewrite He; apply Hr).
      rewrite (E_scal E HE), one. ring.
Qed.
End Par.

(** an interval of length zero: the return is 0 *)
Theorem C67_h0_1fsv : forall par : string -> R, par "k"%string <> 0 -> par "h"%string = 0 ->
  (forall l, (0 <= l)%Z -> m_1fsv l par = Ok (0 ^ Z.to_nat l)) /\
  (forall l, (0 <= l)%Z -> cm_1fsv l par = Ok (0 ^ Z.to_nat l)) /\
  (forall l1 l2, (0 <= l1)%Z -> (0 <= l2)%Z -> cov_1fsv l1 l2 par = Ok 0).
Proof. intros par Hk Hh. apply const_1fsv; [exact Hk|rewrite Hh; lra|]. right. split; [exact Hh|reflexivity]. Qed.
(** no variance: the return is mu h *)
Theorem C67_theta0_1fsv : forall par : string -> R, par "k"%string <> 0 -> 0 <= par "h"%string -> par "theta"%string = 0 ->
  (forall l, (0 <= l)%Z -> m_1fsv l par = Ok ((par "mu"%string * par "h"%string) ^ Z.to_nat l)) /\
  (forall l, (0 <= l)%Z -> cm_1fsv l par = Ok (0 ^ Z.to_nat l)) /\
  (forall l1 l2, (0 <= l1)%Z -> (0 <= l2)%Z -> cov_1fsv l1 l2 par = Ok 0).
Proof. intros par Hk Hh Ht. apply const_1fsv; [exact Hk|exact Hh|]. left. split; [exact Ht|reflexivity]. Qed.

(** ** Constant variance *)
Fixpoint gm (x : R) (n : nat) : R :=
  match n with O => 1 | S m => match m with O => 0 | S q => INR m * x * gm x q end end.
Lemma gm_SS x q : gm x (S (S q)) = INR (S q) * x * gm x q.
Proof. reflexivity. Qed.
Lemma nat_ind2 (P : nat -> Prop) : P O -> P 1%nat -> (forall n, P n -> P (S (S n))) -> forall n, P n.
Proof. intros h0 h1 hs n. cut (P n /\ P (S n)); [tauto|]. induction n as [|n [a b]]; auto. Qed.
Lemma gm_at0 n : gm 0 n = 0 ^ n.
Proof. induction n as [| |n IH] using nat_ind2; [reflexivity|cbn; ring|]. rewrite gm_SS, pow_i by lia. ring. Qed.
Lemma gm_derive b : forall x, is_derive (fun y => gm y b) x (INR b * (INR b - 1) / 2 * gm x (b - 2)).
Proof.
  induction b as [| |m IH] using nat_ind2; intro x.
  - eapply is_derive_val; [exact (is_derive_Rconst 1 x)|]. cbn. field.
  - eapply is_derive_val; [exact (is_derive_Rconst 0 x)|]. cbn. field.
  - apply (is_derive_ext (fun y => (INR (S m) * y) * gm y m)); [intro; now rewrite gm_SS|].
    eapply is_derive_val.
    { apply is_derive_Rmult; [apply is_derive_scal, is_derive_id|apply IH]. }
    replace (S (S m) - 2)%nat with m by lia. change one with 1. rewrite !S_INR.
    destruct m as [|[|q]]; [cbn; field|cbn; field|]. replace (S (S q) - 2)%nat with q by lia. rewrite gm_SS, !S_INR. field.
Qed.
Lemma prod_derive th b d s : is_derive (fun t => gm (th * t) b * gm (th * t) d) s
  (th * (INR b * (INR b - 1) / 2 * gm (th * s) (b - 2)) * gm (th * s) d + gm (th * s) b * (th * (INR d * (INR d - 1) / 2 * gm (th * s) (d - 2)))).
Proof.
  assert (H : forall n, is_derive (fun t => gm (th * t) n) s (th * (INR n * (INR n - 1) / 2 * gm (th * s) (n - 2)))).
  { intro n. eapply is_derive_val.
    - apply (is_derive_comp (fun y => gm y n) (fun t => th * t)); [apply gm_derive|apply is_derive_scal, is_derive_id].
    - unfold Hierarchy.scal; cbn; unfold mult; cbn. change one with 1. ring. }
  apply is_derive_Rmult; apply H.
Qed.
Lemma gm_cont th n s : continuous (fun t => gm (th * t) n) s.
Proof.
  apply (ex_derive_continuous (fun t => gm (th * t) n)). eexists.
  apply (is_derive_comp (fun y => gm y n) (fun t => th * t)); [apply gm_derive|apply is_derive_scal, is_derive_id].
Qed.
Lemma bs_moments k s0 th M : ito_moments (mkPar k s0 th th 0) M -> forall n b d, (b + d <= n)%nat ->
  forall t, 0 <= t -> M (0%Z, Z.of_nat b, Z.of_nat d) t = gm (th * t) b * gm (th * t) d.
Proof.
  intro HM. induction n as [n IH] using (well_founded_induction lt_wf). intros b d Hn t Ht.
  pose proof (HM (0%Z, Z.of_nat b, Z.of_nat d) ltac:(cbn; lia) t Ht) as H1.
  set (F' := fun s => th * (INR b * (INR b - 1) / 2 * gm (th * s) (b - 2)) * gm (th * s) d + gm (th * s) b * (th * (INR d * (INR d - 1) / 2 * gm (th * s) (d - 2)))).
  assert (H2 : is_RInt F' 0 t (gm (th * t) b * gm (th * t) d - gm (th * 0) b * gm (th * 0) d)).
  { apply (is_RInt_derive (fun s => gm (th * s) b * gm (th * s) d) F').
    - intros s _. apply prod_derive.
    - intros s _. unfold F'. apply (continuous_plus (V := R_NormedModule)).
      + apply (continuous_mult (K := R_AbsRing)); [|apply gm_cont].
        apply (continuous_mult (K := R_AbsRing)); [apply continuous_const|]. apply (continuous_mult (K := R_AbsRing)); [apply continuous_const|apply gm_cont].
      + apply (continuous_mult (K := R_AbsRing)); [apply gm_cont|].
        apply (continuous_mult (K := R_AbsRing)); [apply continuous_const|]. apply (continuous_mult (K := R_AbsRing)); [apply continuous_const|apply gm_cont]. }
  assert (H3 : is_RInt F' 0 t (M (0%Z, Z.of_nat b, Z.of_nat d) t - ito_init (0%Z, Z.of_nat b, Z.of_nat d))).
  { revert H1. apply is_RInt_ext. intros s Hs. rewrite Rmin_left, Rmax_right in Hs by lra.
    match goal with |- ?x = ?y => change (@eq R x y) end.
    assert (T : forall c i, sumR (fun cj => fst cj s * M (snd cj) s) (v_terms (mkPar k s0 th th 0) (fun _ => c) i) = c * th * M i s).
    { intros c [[x y] z]. unfold v_terms. cbn [sumR fst snd]. unfold v_mean. cbn [pk pv pth psg ps0]. ring. }
    assert (B : sumR (fun cj => fst cj s * M (snd cj) s) (if (2 <=? Z.of_nat b)%Z then v_terms (mkPar k s0 th th 0) (fun _ => IZR (Z.of_nat b * (Z.of_nat b - 1)) / 2) (0, Z.of_nat b - 2, Z.of_nat d)%Z else [])
      = th * (INR b * (INR b - 1) / 2 * gm (th * s) (b - 2)) * gm (th * s) d).
    { destruct b as [|[|q]]; [cbn; field|cbn; field|]. destruct (Z.leb_spec 2 (Z.of_nat (S (S q)))); [|lia].
      rewrite T. replace (Z.of_nat (S (S q)) - 2)%Z with (Z.of_nat q) by lia.
      rewrite (IH (q + d)%nat ltac:(lia) q d ltac:(lia) s ltac:(lra)). replace (S (S q) - 2)%nat with q by lia.
      rewrite mult_IZR, minus_IZR, <- INR_IZR_INZ. field. }
    assert (D : sumR (fun cj => fst cj s * M (snd cj) s) (if (2 <=? Z.of_nat d)%Z then v_terms (mkPar k s0 th th 0) (fun _ => IZR (Z.of_nat d * (Z.of_nat d - 1)) / 2) (0, Z.of_nat b, Z.of_nat d - 2)%Z else [])
      = gm (th * s) b * (th * (INR d * (INR d - 1) / 2 * gm (th * s) (d - 2)))).
    { destruct d as [|[|q]]; [cbn; field|cbn; field|]. destruct (Z.leb_spec 2 (Z.of_nat (S (S q)))); [|lia].
      rewrite T. replace (Z.of_nat (S (S q)) - 2)%Z with (Z.of_nat q) by lia.
      rewrite (IH (b + q)%nat ltac:(lia) b q ltac:(lia) s ltac:(lra)). replace (S (S q) - 2)%nat with q by lia.
      rewrite mult_IZR, minus_IZR, <- INR_IZR_INZ. field. }
    unfold lin_rhs, ito_sys. rewrite !sumR_app. rewrite B, D. cbn [Z.leb Z.compare andb sumR]. unfold F'. ring. }
  pose proof (is_RInt_unique _ _ _ _ H2) as e2. pose proof (is_RInt_unique _ _ _ _ H3) as e3. rewrite e2 in e3. clear - e3.
  rewrite Rmult_0_r, !gm_at0 in e3. pose proof (init_pow 0 (Z.of_nat b) (Z.of_nat d) ltac:(lia) ltac:(lia) ltac:(lia)) as e.
  rewrite !Nat2Z.id in e. cbn [Z.to_nat pow] in e. lra.
Qed.

(** E[(c + r X + s Y)^n X^b Y^d], X and Y independent N(0, x) *)
Section W.
Variables (x c r s : R).
Fixpoint W (n b d : nat) : R :=
  match n with O => gm x b * gm x d | S m => c * W m b d + r * W m (S b) d + s * W m b (S d) end.
Lemma W_S n b d : W (S n) b d = c * W n b d + r * W n (S b) d + s * W n b (S d).
Proof. reflexivity. Qed.
Lemma gm_S b : gm x (S b) = x * (INR b * gm x (b - 1)).
Proof. destruct b as [|b]; [cbn; ring|]. rewrite gm_SS. replace (S b - 1)%nat with b by lia. ring. Qed.
Lemma W_X n : forall b d, W n (S b) d = x * (INR n * r * W (n - 1) b d + INR b * W n (b - 1) d).
Proof.
  induction n as [|n IH]; intros b d.
  - cbn [W]. rewrite gm_S. cbn [INR]. ring.
  - rewrite W_S, !IH. replace (S n - 1)%nat with n by lia. rewrite (W_S n (b - 1)). replace (S b - 1)%nat with b by lia. rewrite !S_INR.
    replace (INR b * (c * W n (b - 1) d + r * W n (S (b - 1)) d + s * W n (b - 1) (S d)))
      with (INR b * (c * W n (b - 1) d + r * W n b d + s * W n (b - 1) (S d))) by (destruct b as [|b]; [cbn [INR]; ring|replace (S (S b - 1)) with (S b) by lia; ring]).
    assert (e : INR n * W n b d = INR n * (c * W (n - 1) b d + r * W (n - 1) (S b) d + s * W (n - 1) b (S d)))
      by (destruct n as [|n]; [cbn [INR]; ring|replace (S n - 1)%nat with n by lia; rewrite (W_S n b d); ring]).
    replace ((INR n + 1) * r * W n b d) with (r * (INR n * W n b d) + r * W n b d) by ring. rewrite e. ring.
Qed.
Lemma W_Y n : forall b d, W n b (S d) = x * (INR n * s * W (n - 1) b d + INR d * W n b (d - 1)).
Proof.
  induction n as [|n IH]; intros b d.
  - cbn [W]. rewrite (gm_S d). cbn [INR]. ring.
  - rewrite W_S, !IH. replace (S n - 1)%nat with n by lia. rewrite (W_S n b (d - 1)). replace (S d - 1)%nat with d by lia. rewrite !S_INR.
    replace (INR d * (c * W n b (d - 1) + r * W n (S b) (d - 1) + s * W n b (S (d - 1))))
      with (INR d * (c * W n b (d - 1) + r * W n (S b) (d - 1) + s * W n b d)) by (destruct d as [|d]; [cbn [INR]; ring|replace (S (S d - 1)) with (S d) by lia; ring]).
    assert (e : INR n * W n b d = INR n * (c * W (n - 1) b d + r * W (n - 1) (S b) d + s * W (n - 1) b (S d)))
      by (destruct n as [|n]; [cbn [INR]; ring|replace (S n - 1)%nat with n by lia; rewrite (W_S n b d); ring]).
    replace ((INR n + 1) * s * W n b d) with (s * (INR n * W n b d) + s * W n b d) by ring. rewrite e. ring.
Qed.
Lemma W_V n : r ^ 2 + s ^ 2 = 1 -> W n 0 0 = V n c x.
Proof.
  intro e. cut (W n 0 0 = V n c x /\ W (S n) 0 0 = V (S n) c x); [tauto|]. induction n as [|n [IH1 IH2]].
  - rewrite V_0, V_1. cbn. split; ring.
  - split; [exact IH2|]. rewrite V_stein, <- IH1, <- IH2, (W_S (S n)), W_X, W_Y. replace (S n - 1)%nat with n by lia. change (INR 0) with 0.
    replace (INR (S n) * x * W n 0 0) with ((r ^ 2 + s ^ 2) * (INR (S n) * x * W n 0 0)) by (rewrite e; ring). ring.
Qed.
Lemma W_spec {Om} (E : (Om -> R) -> R) (X Y : Om -> R) N : expectation E -> (forall b d, (b + d <= N)%nat -> E (fun w => X w ^ b * Y w ^ d) = gm x b * gm x d) ->
  forall n b d, (n + b + d <= N)%nat -> E (fun w => (c + r * X w + s * Y w) ^ n * X w ^ b * Y w ^ d) = W n b d.
Proof.
  intros HE H. induction n as [|n IH]; intros b d Hn.
  - cbn [W]. rewrite <- H by lia. apply (E_ext E HE). intro w. cbn [pow]. ring.
  - rewrite W_S, <- !IH by lia. rewrite <- !(E_scal E HE), <- !(E_plus E HE). apply (E_ext E HE). intro w. cbn [pow]. ring.
Qed.
End W.

Section Sigma0.
Variable par : string -> R.
Hypothesis (Hk : par "k"%string <> 0) (Hh : 0 <= par "h"%string) (Hs : par "sigma_v"%string = 0) (Hr : par "rho"%string ^ 2 <= 1).
Notation p := (fpar_of par).
Let c := (fmu p - fth p / 2) * fh p.
Let x := fth p * fh p.

Lemma bs_space s L : (0 <= L)%Z -> exists E : (list R -> R) -> R, expectation E /\
  (forall a b d, (0 <= a)%Z -> (0 <= b)%Z -> (0 <= d)%Z -> (a + b + d <= L)%Z ->
    E (fun w => nthR w 0 ^ Z.to_nat a * nthR w 1 ^ Z.to_nat b * nthR w 2 ^ Z.to_nat d) = ito_val (mkPar (fk p) s (fth p) (fth p) (fsg p)) (a, b, d) (fh p)) /\
  E (fun _ => 1) = 1 /\
  (forall c0 n, (n <= Z.to_nat L)%nat -> E (fun w => (c0 + frho p * nthR w 1 + sqrt (1 - frho p ^ 2) * nthR w 2) ^ n) = Derive_n (mgf_normal c0 x) n 0).
Proof.
  intro HL. set (N := ito_val (mkPar (fk p) s (fth p) (fth p) (fsg p))).
  set (tab := fun ns => match ns with [a; b; d] => N (a, b, d) (fh p) | _ => 0 end).
  exists (Efin (realise (Z.to_nat L) 3 tab)). assert (HE := Efin_expectation (realise (Z.to_nat L) 3 tab)).
  assert (HN : ito_moments (mkPar (fk p) s (fth p) (fth p) 0) N).
  { unfold N. replace (fsg p) with 0 by (symmetry; exact Hs). now apply ito_solution. }
  assert (H1 : forall a b d, (0 <= a)%Z -> (0 <= b)%Z -> (0 <= d)%Z -> (a + b + d <= L)%Z ->
    Efin (realise (Z.to_nat L) 3 tab) (fun w => nthR w 0 ^ Z.to_nat a * nthR w 1 ^ Z.to_nat b * nthR w 2 ^ Z.to_nat d) = N (a, b, d) (fh p)).
  { intros a b d h1 h2 h3 h4.
    change (N (a, b, d) (fh p)) with (tab [a; b; d]).
    rewrite <- (realise_spec (Z.to_nat L) 3 tab [a; b; d]);
      [|reflexivity|repeat (apply Forall_cons; [lia|]); apply Forall_nil].
    unfold Efin. apply sumR_ext. intros [e xs] Hin. cbn [fst snd]. f_equal.
    pose proof (realise_len _ _ _ _ _ Hin) as Hl. destruct xs as [|x0 [|y [|z [|? ?]]]]; try discriminate.
    unfold nthR. cbn [powprod]. change (Z.to_nat 0) with 0%nat. change (Z.to_nat 1) with 1%nat.
    change (Z.to_nat 2) with 2%nat. cbn [nth]. ring. }
  assert (H2 : forall b d, (b + d <= Z.to_nat L)%nat -> Efin (realise (Z.to_nat L) 3 tab) (fun w => nthR w 1 ^ b * nthR w 2 ^ d) = gm x b * gm x d).
  { intros b d h. unfold x. rewrite <- (bs_moments (fk p) s (fth p) N HN (b + d) b d (le_n _) (fh p) Hh).
    rewrite <- H1 by lia. apply (E_ext _ HE). intro w. rewrite !Nat2Z.id. cbn [Z.to_nat pow]. ring. }
  split; [exact HE|]. split; [exact H1|]. split.
  - transitivity (gm x 0 * gm x 0); [|cbn; ring]. rewrite <- H2 by lia. apply (E_ext _ HE). intro w. cbn [pow]. ring.
  - intros c0 n Hn. rewrite normal_derive_n, G_at0.
    rewrite <- (W_V x c0 (frho p) (sqrt (1 - frho p ^ 2)) n).
    2: { change (frho p) with (par "rho"%string). rewrite pow2_sqrt by lra. ring. }
    rewrite <- (W_spec x c0 _ _ _ (fun w => nthR w 1) (fun w => nthR w 2) (Z.to_nat L) HE H2) by lia.
    apply (E_ext _ HE). intro w. cbn [pow]. ring.
Qed.
Lemma bs_gmom n : gmom (fth p) (fsg p ^ 2 / fk p) n = fth p ^ n.
Proof.
  replace (fsg p ^ 2 / fk p) with 0 by (replace (fsg p) with 0 by (symmetry; exact Hs); field; exact Hk).
  induction n as [|n IH]; [reflexivity|]. change (gmom (fth p) 0 (S n)) with (gmom (fth p) 0 n * (fth p + INR n * 0 / 2)). rewrite IH. cbn [pow]. field.
Qed.
Lemma bs_vend s ie : v_end p s (fth p) ie = fth p.
Proof. unfold v_end. replace (fsg p) with 0 by (symmetry; exact Hs). ring. Qed.
Lemma bs_ret s ie i is : ret p s (fth p) ie i is = c + frho p * i + sqrt (1 - frho p ^ 2) * is.
Proof. unfold ret, int_v. rewrite bs_vend. replace (fsg p) with 0 by (symmetry; exact Hs). unfold c. field. exact Hk. Qed.

Lemma bs_hyps L : (0 <= L)%Z -> exists (E : (list R * list R -> R) -> R) (Ea Eb : (list R -> R) -> R),
  cov_hyps E p L 0 (fun _ => fth p) (fun w => nthR (fst w) 0) (fun w => nthR (fst w) 1) (fun w => nthR (fst w) 2)
    (fun w => nthR (snd w) 0) (fun w => nthR (snd w) 1) (fun w => nthR (snd w) 2) /\
  (forall X f g, (forall w, X w = f (fst w) * g (snd w)) -> E X = Ea f * Eb g) /\ Ea (fun _ => 1) = 1 /\ Eb (fun _ => 1) = 1 /\
  (forall c0 n, (n <= Z.to_nat L)%nat -> Ea (fun w => (c0 + frho p * nthR w 1 + sqrt (1 - frho p ^ 2) * nthR w 2) ^ n) = Derive_n (mgf_normal c0 x) n 0) /\
  (forall c0 n, (n <= Z.to_nat L)%nat -> Eb (fun w => (c0 + frho p * nthR w 1 + sqrt (1 - frho p ^ 2) * nthR w 2) ^ n) = Derive_n (mgf_normal c0 x) n 0).
Proof.
  intro HL. destruct (bs_space 0 L HL) as (Ea & HEa & Ma & Oa & Da). destruct (bs_space (0 + fh p) L HL) as (Eb & HEb & Mb & Ob & Db).
  set (E := fun X : list R * list R -> R => Ea (fun w => Eb (fun w' => X (w, w')))).
  assert (HE : expectation E).
  { unfold E. split.
    - intros X Y H. apply (E_ext Ea HEa). intro w. apply (E_ext Eb HEb). intro w'. apply H.
    - intros X Y. rewrite <- (E_plus Ea HEa). apply (E_ext Ea HEa). intro w. apply (E_plus Eb HEb).
    - intros e X. rewrite <- (E_scal Ea HEa). apply (E_ext Ea HEa). intro w. apply (E_scal Eb HEb). }
  assert (F : forall X f g, (forall w, X w = f (fst w) * g (snd w)) -> E X = Ea f * Eb g).
  { intros X f g H. rewrite (E_ext E HE _ _ H). unfold E. cbn [fst snd]. rewrite (E_ext Ea HEa _ (fun w => Eb g * f w)) by (intro w; cbv beta; rewrite (E_scal Eb HEb); ring).
    rewrite (E_scal Ea HEa). ring. }
  exists E, Ea, Eb. split; [|repeat split; assumption]. split; [exact HE|]. split; [|split].
  - intros n Hn. rewrite bs_gmom. rewrite (F _ (fun _ => fth p ^ Z.to_nat n * 1) (fun _ => 1)) by (intro; cbv beta; cbn; ring).
    rewrite (E_scal Ea HEa), Oa, Ob. ring.
  - exists (fun v => ito_val (mkPar (fk p) 0 v (fth p) (fsg p))). split; [intro v; now apply ito_solution|].
    intros hs n a b d hl _ h1 h2 h3 h4 h5. destruct hs as [|? ?]; [|discriminate]. cbn [fold_right] in h5. cbn [map powprod].
    rewrite (F _ (fun u => fth p ^ Z.to_nat n * (nthR u 0 ^ Z.to_nat a * nthR u 1 ^ Z.to_nat b * nthR u 2 ^ Z.to_nat d)) (fun _ => 1)) by (intro; cbv beta; cbn; ring).
    rewrite (E_scal Ea HEa), Ma, Ob by lia.
    rewrite (F _ (fun _ => (fth p ^ Z.to_nat n * ito_val (mkPar (fk p) 0 (fth p) (fth p) (fsg p)) (a, b, d) (fh p)) * 1) (fun _ => 1)) by (intro; cbv beta; ring).
    rewrite (E_scal Ea HEa), Oa, Ob. ring.
  - exists (fun v => ito_val (mkPar (fk p) (0 + fh p) v (fth p) (fsg p))). split; [intro v; now apply ito_solution|].
    intros hs n a b d hl hp h1 h2 h3 h4 h5.
    assert (h6 : (0 <= fold_right Z.add 0 hs)%Z) by (clear - hp; induction hp; cbn; lia).
    set (P := fun u : list R => powprod [fth p; nthR u 0; nthR u 1; nthR u 2] hs).
    rewrite (F _ (fun u => fth p ^ Z.to_nat n * P u) (fun u => nthR u 0 ^ Z.to_nat a * nthR u 1 ^ Z.to_nat b * nthR u 2 ^ Z.to_nat d))
      by (intro w; cbv beta; rewrite bs_vend; unfold P; cbn [map]; ring).
    rewrite Mb by lia.
    rewrite (F (fun w => powprod _ hs * (_ * _)) (fun u => fth p ^ Z.to_nat n * P u) (fun _ => ito_val (mkPar (fk p) (0 + fh p) (fth p) (fth p) (fsg p)) (a, b, d) (fh p) * 1))
      by (intro w; cbv beta; rewrite bs_vend; unfold P; cbn [map]; ring).
    rewrite (E_scal Eb HEb), Ob. ring.
Qed.

Lemma sigma0_1fsv : 
  (forall l, (0 <= l)%Z -> m_1fsv l par = Ok (Derive_n (mgf_normal c x) (Z.to_nat l) 0)) /\
  (forall l, (0 <= l)%Z -> cm_1fsv l par = Ok (Derive_n (mgf_normal 0 x) (Z.to_nat l) 0)) /\
  (forall l1 l2, (0 <= l1)%Z -> (0 <= l2)%Z -> cov_1fsv l1 l2 par = Ok 0).
Proof.
  destruct (C46_value_1fsv par Hk Hh) as (V1 & V2 & V3).
  split; [|split].
  - intros l Hl. destruct (bs_hyps l Hl) as (E & Ea & Eb & (HE & HV & HT & _) & F & Oa & Ob & Da & Db). apply V1; [exact Hl|].
    exists _, E, l, 0, (fun _ => fth p), (fun w => nthR (fst w) 0), (fun w => nthR (fst w) 1), (fun w => nthR (fst w) 2).
    split; [exact HE|]. split; [exact HV|]. split; [exact HT|]. split; [lia|].
    rewrite <- Da by lia. symmetry.
    rewrite (F _ (fun u => (c + frho p * nthR u 1 + sqrt (1 - frho p ^ 2) * nthR u 2) ^ Z.to_nat l) (fun _ => 1)) by (intro w; cbv beta; rewrite bs_ret; ring).
    rewrite Ob. ring.
  - intros l Hl. destruct (bs_hyps (Z.max 1 l) ltac:(lia)) as (E & Ea & Eb & (HE & HV & HT & _) & F & Oa & Ob & Da & Db). apply V2; [exact Hl|].
    exists _, E, (Z.max 1 l), 0, (fun _ => fth p), (fun w => nthR (fst w) 0), (fun w => nthR (fst w) 1), (fun w => nthR (fst w) 2).
    split; [exact HE|]. split; [exact HV|]. split; [exact HT|]. split; [lia|]. split; [lia|].
    assert (m1 : E (fun w => ret p 0 (fth p) (nthR (fst w) 0) (nthR (fst w) 1) (nthR (fst w) 2)) = c).
    { rewrite (F _ (fun u => (c + frho p * nthR u 1 + sqrt (1 - frho p ^ 2) * nthR u 2) ^ 1) (fun _ => 1)) by (intro w; cbv beta; rewrite bs_ret; ring).
      rewrite Ob, Da by lia. rewrite normal_derive_n, G_at0, V_1. ring. }
    rewrite m1, <- Da by lia. symmetry.
    rewrite (F _ (fun u => (0 + frho p * nthR u 1 + sqrt (1 - frho p ^ 2) * nthR u 2) ^ Z.to_nat l) (fun _ => 1)).
    2: { intro w. cbv beta. rewrite bs_ret, Rmult_1_r. f_equal. ring. }
    rewrite Ob. ring.
  - intros l1 l2 h1 h2. destruct (bs_hyps (l1 + l2)%Z ltac:(lia)) as (E & Ea & Eb & (HE & HV & HT & HT2) & F & Oa & Ob & Da & Db). apply V3; [exact h1|exact h2|].
    exists _, E, (l1 + l2)%Z, 0, (fun _ => fth p), (fun w => nthR (fst w) 0), (fun w => nthR (fst w) 1), (fun w => nthR (fst w) 2),
      (fun w => nthR (snd w) 0), (fun w => nthR (snd w) 1), (fun w => nthR (snd w) 2).
    split; [exact HE|]. split; [exact HV|]. split; [exact HT|]. split; [exact HT2|]. split; [lia|].
    set (q := fun n (u : list R) => (c + frho p * nthR u 1 + sqrt (1 - frho p ^ 2) * nthR u 2) ^ n).
    rewrite (F _ (q (Z.to_nat l1)) (q (Z.to_nat l2))) by (intro w; cbv beta; rewrite bs_vend, !bs_ret; reflexivity).
    rewrite (F (fun w => ret p 0 _ _ _ _ ^ _) (q (Z.to_nat l1)) (fun _ => 1)) by (intro w; cbv beta; rewrite !bs_ret; unfold q; ring).
    rewrite (F (fun w => ret p (0 + fh p) _ _ _ _ ^ _) (fun _ => 1) (q (Z.to_nat l2))) by (intro w; cbv beta; rewrite bs_vend, !bs_ret; unfold q; ring).
    rewrite Oa, Ob. ring.
Qed.
End Sigma0.
(** constant variance: the return is normal with mean (mu - theta/2) h and variance theta h *)
Theorem C67_sigma0_1fsv : forall par : string -> R, par "k"%string <> 0 -> 0 <= par "h"%string -> par "sigma_v"%string = 0 -> par "rho"%string ^ 2 <= 1 ->
  let mean := (par "mu"%string - par "theta"%string / 2) * par "h"%string in let var := par "theta"%string * par "h"%string in
  (forall l, (0 <= l)%Z -> m_1fsv l par = Ok (Derive_n (mgf_normal mean var) (Z.to_nat l) 0)) /\
  (forall l, (0 <= l)%Z -> cm_1fsv l par = Ok (Derive_n (mgf_normal 0 var) (Z.to_nat l) 0)) /\
  (forall l1 l2, (0 <= l1)%Z -> (0 <= l2)%Z -> cov_1fsv l1 l2 par = Ok 0).
Proof. intros par Hk Hh Hs Hr. exact (sigma0_1fsv par Hk Hh Hs Hr). Qed.

Definition lim_par (th sg h : R) (n : string) : R :=
  if String.eqb n "k" then 2 else if String.eqb n "h" then h else if String.eqb n "theta" then th else
  if String.eqb n "sigma_v" then sg else if String.eqb n "mu" then 3 else if String.eqb n "rho" then -1 / 2 else 0.
(** fourth central moment 3 (theta h)^2; second moment (mu h)^2; and 0 over an empty interval *)
Example C67_ex : cm_1fsv 4 (lim_par 5 0 7) = Ok (3 * (5 * 7) ^ 2) /\ m_1fsv 2 (lim_par 0 1 7) = Ok ((3 * 7) ^ 2) /\ m_1fsv 3 (lim_par 5 1 0) = Ok 0.
Proof.
  split; [|split].
  - destruct (C67_sigma0_1fsv (lim_par 5 0 7)) as (_ & H & _); [cbn; lra|cbn; lra|reflexivity|cbn; lra|].
    rewrite (H 4%Z ltac:(lia)). apply (f_equal Ok). rewrite normal_derive_n, G_at0. change (Z.to_nat 4) with 4%nat. rewrite !V_stein, V_1, V_0. cbn. ring.
  - destruct (C67_theta0_1fsv (lim_par 0 1 7)) as (H & _); [cbn; lra|cbn; lra|reflexivity|]. exact (H 2%Z ltac:(lia)).
  - destruct (C67_h0_1fsv (lim_par 5 1 0)) as (H & _); [cbn; lra|reflexivity|]. rewrite (H 3%Z ltac:(lia)). apply (f_equal Ok). change (Z.to_nat 3) with 3%nat. ring.
Qed.
