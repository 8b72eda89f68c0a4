(** The Gamma law is stationary for the square-root diffusion: if v at the start of an
    interval has its moments and the Ito integral IE has the moments of Spec/Ito.v given v,
    then v at the end of the interval has them too. *)
From Coq Require Import Reals Lra Lia.
From Coquelicot Require Import Coquelicot.
From Verif.Spec Require Import Fsv1.
From Verif.Proof Require Import ItoProofs MonTac Realise.
Local Open Scope R_scope.

Lemma sum_f_sumR (f : nat -> R) n : sum_f_R0 f n = sumR f (seq 0 (S n)).
Proof.
  induction n as [|n IH]; [simpl; lra|]. cbn [sum_f_R0]. rewrite IH, (seq_S (S n)), sumR_app. simpl. lra.
Qed.

Section Stat.
Variables (k s0 th sg : R).

Section v.
Variable (v : R).
Local Notation p := (mkPar k s0 v th sg).
Let N := vmin (ito_sys p) ito_init (fun i => Z.to_nat (ord3 i)).
Let m (a : nat) (t : R) : R := N (Z.of_nat a, 0, 0)%Z t.
Let x (t : R) := v_mean p t.
Let y (t : R) := sg * exp (- (k * (s0 + t))).
Let ee (t : R) := exp (k * (s0 + t)).

Lemma x_der (t : R) : is_derive x t (- k * (x t - th)).
Proof.
  unfold x, v_mean. cbn [pk pv pth]. eapply is_derive_val.
  - apply is_derive_Rplus; [|apply is_derive_Rconst]. apply is_derive_Rscal_r, is_derive_Rexp.
    apply (is_derive_ext_loc_all (fun t => (- k) * t)); [intro; ring|]. apply is_derive_lin.
  - cbv beta. ring.
Qed.
Lemma y_der (t : R) : is_derive y t (- k * y t).
Proof.
  unfold y. eapply is_derive_val.
  - apply is_derive_Rscal, is_derive_Rexp.
    apply (is_derive_ext_loc_all (fun t => - (k * s0) + (- k) * t)); [intro; ring|].
    apply is_derive_Rplus; [apply is_derive_Rconst|apply is_derive_lin].
  - cbv beta. ring.
Qed.
Lemma ey t : ee t * y t = sg.
Proof. unfold ee, y. rewrite Rmult_comm, Rmult_assoc, <- exp_plus. replace (_ + _) with 0 by ring. rewrite exp_0. ring. Qed.

Lemma m_der a (t : R) : is_derive (m a) t (INR (a * (a - 1)) / 2 * (ee t * ee t) * (x t * m (a - 2) t + y t * m (a - 1) t)).
Proof.
  unfold m at 1. eapply is_derive_val.
  - apply (vmin_derive ito_dom (ito_sys p) ito_init _ (ito_tri p) (ito_cont p)). cbn. lia.
  - fold N. unfold lin_rhs, ito_sys. cbn [Z.leb Z.compare andb]. rewrite andb_false_r.
    destruct (Z.leb_spec 2 (Z.of_nat a)) as [h|h].
    + cbn [app v_terms sumR fst snd].
      replace (Z.of_nat a - 2)%Z with (Z.of_nat (a - 2)) by lia.
      replace (Z.of_nat (a - 2) + 1)%Z with (Z.of_nat (a - 1)) by lia.
      replace (Z.of_nat a - 1)%Z with (Z.of_nat (a - 1)) by lia.
      rewrite <- Nat2Z.inj_mul, <- INR_IZR_INZ. unfold m, x, y, ee. cbn [pk ps0 psg]. ring.
    + cbn [app sumR]. replace (a * (a - 1))%nat with O by (destruct a as [|[|a]]; lia). simpl. lra.
Qed.
Lemma m_0 a : m a 0 = if Nat.eqb a 0 then 1 else 0.
Proof.
  unfold m, N. rewrite vmin_0. destruct a; reflexivity.
Qed.

(** coefficients of (x + y z)^n in z *)
Let cf (n a : nat) (t : R) : R := C n a * y t ^ a * x t ^ (n - a).
Let cf' (n a : nat) (t : R) : R := C n a * (INR a * (- k * y t) * y t ^ pred a * x t ^ (n - a)
  + y t ^ a * (INR (n - a) * (- k * (x t - th)) * x t ^ pred (n - a))).
Lemma cf_der n a (t : R) : is_derive (cf n a) t (cf' n a t).
Proof.
  unfold cf, cf'. eapply is_derive_val.
  - apply is_derive_Rmult; [apply is_derive_Rscal|]; apply is_derive_Rpow; [apply y_der|apply x_der].
  - cbv beta. ring.
Qed.
Lemma cf_sum n (t z : R) : (x t + y t * z) ^ n = sumR (fun a => cf n a t * z ^ a) (seq 0 (S n)).
Proof.
  rewrite Rplus_comm, binomial, sum_f_sumR. apply sumR_ext. intros a _. unfold cf. rewrite Rpow_mult_distr. ring.
Qed.
Lemma cf'_sum n (t z : R) : sumR (fun a => cf' n a t * z ^ a) (seq 0 (S n))
  = INR n * (- k * (x t - th) + - k * y t * z) * (x t + y t * z) ^ pred n.
Proof.
  apply (is_derive_uniq (fun t => (x t + y t * z) ^ n) t).
  - apply (is_derive_ext_loc_all (fun t => sumR (fun a => cf n a t * z ^ a) (seq 0 (S n)))).
    + intro u. symmetry. apply cf_sum.
    + apply (is_derive_sumR (fun a t => cf n a t * z ^ a)). intros a _. apply is_derive_Rscal_r, cf_der.
  - apply (is_derive_Rpow (fun t => x t + y t * z)), (is_derive_Rplus x (fun t => y t * z)); [apply x_der|apply (is_derive_Rscal_r y), y_der].
Qed.
Lemma cf_z1 n (t z : R) : sumR (fun a => cf n a t * (INR a * z ^ (a - 1))) (seq 0 (S n))
  = INR n * y t * (x t + y t * z) ^ (n - 1).
Proof.
  apply (is_derive_uniq (fun z => (x t + y t * z) ^ n) z).
  - apply (is_derive_ext_loc_all (fun z => sumR (fun a => cf n a t * z ^ a) (seq 0 (S n)))).
    + intro u. symmetry. apply cf_sum.
    + apply (is_derive_sumR (fun a z => cf n a t * z ^ a)). intros a _. apply is_derive_Rscal.
      eapply is_derive_val; [apply is_derive_Rpow, is_derive_Rid|]. rewrite Nat.sub_1_r. ring.
  - eapply is_derive_val; [apply is_derive_Rpow, is_derive_Rplus; [apply is_derive_Rconst|apply is_derive_lin]|].
    rewrite Nat.sub_1_r. ring.
Qed.
Lemma cf_z2 n (t z : R) : sumR (fun a => cf n a t * (INR a * (INR (a - 1) * z ^ (a - 2)))) (seq 0 (S n))
  = INR n * y t * (INR (n - 1) * y t * (x t + y t * z) ^ (n - 2)).
Proof.
  apply (is_derive_uniq (fun z => INR n * y t * (x t + y t * z) ^ (n - 1)) z).
  - apply (is_derive_ext_loc_all (fun z => sumR (fun a => cf n a t * (INR a * z ^ (a - 1))) (seq 0 (S n)))).
    + intro u. apply cf_z1.
    + apply (is_derive_sumR (fun a z => cf n a t * (INR a * z ^ (a - 1)))). intros a _.
      apply is_derive_Rscal, is_derive_Rscal.
      eapply is_derive_val; [apply is_derive_Rpow, is_derive_Rid|].
      replace (pred (a - 1)) with (a - 2)%nat by lia. ring.
  - apply is_derive_Rscal.
    eapply is_derive_val; [apply is_derive_Rpow, is_derive_Rplus; [apply is_derive_Rconst|apply is_derive_lin]|].
    replace (pred (n - 1)) with (n - 2)%nat by lia. ring.
Qed.

(** E[v_t^n | v] *)
Definition vmom (n : nat) (t : R) : R := sumR (fun a => cf n a t * m a t) (seq 0 (S n)).

Lemma vmom_K n L t : (n <= L)%nat ->
  vmom n t = Efin (realise1 L (fun a => m a t)) (fun z => (x t + y t * z) ^ n).
Proof.
  intro Hn. set (K := Efin _). assert (HK : expectation K) by apply Efin_expectation.
  rewrite (E_ext K HK _ (fun z => sumR (fun a => cf n a t * z ^ a) (seq 0 (S n)))) by (intro; apply cf_sum).
  rewrite (E_sumR K HK (fun a z => cf n a t * z ^ a)). unfold vmom. apply sumR_ext. intros a Ha. apply in_seq in Ha.
  rewrite (E_scal K HK). f_equal. symmetry. apply realise1_spec. lia.
Qed.

Lemma vmom_der n (t : R) : is_derive (vmom (S n)) t
  (- INR (S n) * k * vmom (S n) t + (INR (S n) * k * th + INR (S n) * INR n / 2 * sg ^ 2) * vmom n t).
Proof.
  eapply is_derive_val.
  - apply (is_derive_sumR (fun a t => cf (S n) a t * m a t)). intros a _. apply is_derive_Rmult; [apply cf_der|apply m_der].
  - set (K := Efin (realise1 (S n) (fun a => m a t))). assert (HK : expectation K) by apply Efin_expectation.
    assert (Km : forall a, (a <= S n)%nat -> m a t = K (fun z => z ^ a)) by (intros a Ha; symmetry; apply realise1_spec; lia).
    transitivity (K (fun z => sumR (fun a => cf' (S n) a t * z ^ a) (seq 0 (S (S n))) +
       ee t * ee t / 2 * (x t + y t * z) * sumR (fun a => cf (S n) a t * (INR a * (INR (a - 1) * z ^ (a - 2)))) (seq 0 (S (S n))))).
    + rewrite (E_ext K HK _ (fun z => sumR (fun a => cf' (S n) a t * z ^ a + ee t * ee t / 2 *
         (cf (S n) a t * (INR a * (INR (a - 1))) * (x t * z ^ (a - 2) + y t * z ^ (a - 1)))) (seq 0 (S (S n))))).
      2: { intro z. rewrite <- sumR_scal, <- sumR_plus. apply sumR_ext. intros a _. f_equal.
           destruct a as [|[|a]]; [simpl; ring|simpl; ring|].
           replace (S (S a) - 1)%nat with (S (S (S a) - 2)) by lia. cbn [pow]. ring. }
      rewrite (E_sumR K HK). apply sumR_ext. intros a Ha. apply in_seq in Ha.
      rewrite (E_plus K HK), !(E_scal K HK), (E_plus K HK), !(E_scal K HK), <- !Km by lia. rewrite mult_INR. field.
    + rewrite (vmom_K (S n) (S n) t), (vmom_K n (S n) t) by lia. fold K.
      rewrite <- !(E_scal K HK), <- (E_plus K HK). apply (E_ext K HK). intro z.
      rewrite cf'_sum, cf_z2. cbn [pred]. replace (S n - 1)%nat with n by lia.
      replace (sg ^ 2) with (ee t * y t * (ee t * y t)) by (rewrite ey; ring).
      destruct n as [|n]; [simpl; field|]. replace (S (S n) - 2)%nat with n by lia. cbn [pow]. field.
Qed.
Lemma vmom_0 n : vmom n 0 = v ^ n.
Proof.
  unfold vmom. cbn [seq sumR]. rewrite (sumR_ext _ (fun _ => 0)).
  - assert (Z : forall l : list nat, sumR (fun _ => 0) l = 0) by (induction l; simpl; lra). rewrite Z.
    rewrite m_0. cbn [Nat.eqb]. unfold cf, x, v_mean. cbn [pk pv pth]. rewrite Rmult_0_r, Ropp_0, exp_0, Nat.sub_0_r.
    unfold C. rewrite Nat.sub_0_r. change (INR (Factorial.fact 0)) with 1. cbn [pow].
    replace (1 * (v - th) + th) with v by ring. field. apply INR_fact_neq_0.
  - intros a Ha. apply in_seq in Ha. rewrite m_0. destruct (Nat.eqb_spec a 0); [lia|ring].
Qed.
Lemma vmom_at0 t : vmom 0 t = 1.
Proof.
  unfold vmom. cbn [seq sumR]. unfold cf. assert (e : m 0 t = 1).
  { transitivity (m 0 0); [|apply (m_0 0)]. symmetry. apply (derive_same (fun _ => m 0 0) (m 0) (fun _ => 0)).
    - intro; apply is_derive_Rconst.
    - intro u. eapply is_derive_val; [apply m_der|]. simpl. lra.
    - reflexivity. }
  rewrite e. unfold C. simpl. field.
Qed.
End v.

(** E[v_t^n | v_0] is a polynomial in v_0 *)
Hypothesis Hk : k <> 0.
Local Notation gm := (gmom th (sg ^ 2 / k)).
Lemma vmom_poly n : exists g : nat -> R -> R, (forall j t, continuous (g j) t) /\
  (forall j t, (n < j)%nat -> g j t = 0) /\
  (forall v t, vmom v n t = sumR (fun j => g j t * v ^ j) (seq 0 (S n))) /\
  forall t, sumR (fun j => g j t * gm j) (seq 0 (S n)) = gm n.
Proof.
  induction n as [|n (g & g1 & g2 & g3 & g4)].
  - exists (fun j t => if Nat.eqb j 0 then 1 else 0). split; [intros; apply continuous_Rconst|].
    split; [intros [|j] t Hj; [lia|reflexivity]|]. split.
    + intros v t. rewrite vmom_at0. simpl. ring.
    + intro t. simpl. ring.
  - set (b := INR (S n) * k * th + INR (S n) * INR n / 2 * sg ^ 2).
    set (q := INR (S n) * k).
    assert (Ce : forall t, continuous (fun s => exp (q * s)) t).
    { intro t. eapply continuous_of_derive, is_derive_Rexp, is_derive_lin. }
    set (P := fun j t => (if Nat.eqb j (S n) then 1 else 0) + b * RInt (fun s => exp (q * s) * g j s) 0 t).
    assert (Pd : forall j (t : R), is_derive (P j) t (b * (exp (q * t) * g j t))).
    { intros j t. unfold P. eapply is_derive_val.
      - apply is_derive_Rplus; [apply is_derive_Rconst|]. apply is_derive_Rscal.
        apply (is_derive_RInt0 (fun s => exp (q * s) * g j s)). intro u. apply continuous_Rmult; [apply Ce|apply g1].
      - ring. }
    assert (P0 : forall j, P j 0 = if Nat.eqb j (S n) then 1 else 0).
    { intro j. unfold P. rewrite (RInt_point (V := R_CompleteNormedModule)).
      change (@zero R_CompleteNormedModule) with 0. ring. }
    assert (D1 : forall (w : nat -> R), sumR (fun j => (if Nat.eqb j (S n) then 1 else 0) * w j) (seq 0 (S (S n))) = w (S n)).
    { intro w. apply sum_delta_seq. lia. }
    assert (SP : forall (w : nat -> R) (F : R -> R) f, (forall t, sumR (fun j => g j t * w j) (seq 0 (S n)) = f t) ->
       F 0 = w (S n) -> (forall t : R, is_derive F t (- q * F t + b * f t)) ->
       forall t, F t = sumR (fun j => exp (- (q * t)) * P j t * w j) (seq 0 (S (S n)))).
    { intros w F f Hf HF0 HFd t.
      assert (e : exp (q * t) * F t = sumR (fun j => P j t * w j) (seq 0 (S (S n)))).
      { apply (derive_same (fun t => exp (q * t) * F t) (fun t => sumR (fun j => P j t * w j) (seq 0 (S (S n))))
          (fun t => b * (exp (q * t) * f t))).
        - intro u. eapply is_derive_val; [apply is_derive_Rmult; [apply is_derive_Rexp, is_derive_lin|apply HFd]|]. cbv beta. ring.
        - intro u. eapply is_derive_val.
          + apply (is_derive_sumR (fun j t => P j t * w j)). intros j _. apply is_derive_Rscal_r, Pd.
          + rewrite <- (Hf u), (seq_S (S n)), sumR_app. cbn [sumR]. rewrite (g2 (0 + S n)%nat) by lia.
            rewrite <- !sumR_scal. rewrite (sumR_ext _ (fun j => b * (exp (q * u) * (g j u * w j)))) by (intros; ring). ring.
        - rewrite (sumR_ext _ (fun j => (if Nat.eqb j (S n) then 1 else 0) * w j)) by (intros; now rewrite P0).
          rewrite D1, Rmult_0_r, exp_0, HF0. ring. }
      rewrite (sumR_ext _ (fun j => exp (- (q * t)) * (P j t * w j))) by (intros; ring).
      rewrite sumR_scal, <- e, <- Rmult_assoc, <- exp_plus. replace (_ + _) with 0 by ring. rewrite exp_0. ring. }
    exists (fun j t => exp (- (q * t)) * P j t). split.
    { intros j t. apply continuous_Rmult; [|eapply continuous_of_derive, Pd].
      apply (continuous_ext_all (fun s => exp ((- q) * s))); [intro; f_equal; ring|].
      eapply continuous_of_derive, is_derive_Rexp, is_derive_lin. }
    split.
    { intros j t Hj. unfold P. destruct (Nat.eqb_spec j (S n)); [lia|].
      rewrite (RInt_ext _ (fun _ => 0)).
      - rewrite (RInt_const (V := R_CompleteNormedModule)). change (scal (t - 0) 0) with ((t - 0) * 0). ring.
      - intros s _. rewrite g2 by lia. apply Rmult_0_r. }
    split.
    + intros v t. apply (SP (fun j => v ^ j) (vmom v (S n)) (fun t => vmom v n t)).
      * intro u. symmetry. apply g3.
      * apply vmom_0.
      * intro u. eapply is_derive_val; [apply vmom_der|]. unfold q, b. ring.
    + intro t. symmetry. apply (SP gm (fun _ => gm (S n)) (fun _ => gm n)).
      * exact g4.
      * reflexivity.
      * intro u. eapply is_derive_val; [apply is_derive_Rconst|]. cbn [gmom]. unfold q, b. field. assumption.
Qed.
End Stat.

Lemma tower_nil {Om} (E : (Om -> R) -> R) (HE : expectation E) p s0 L V IE I Is : tower E p s0 L [] V IE I Is ->
  exists M, (forall v, ito_moments (mkPar (fk p) s0 v (fth p) (fsg p)) (M v)) /\
  forall n a b d, (0 <= n)%Z -> (0 <= a)%Z -> (0 <= b)%Z -> (0 <= d)%Z -> (n + a + b + d <= L)%Z ->
     E (fun w => V w ^ Z.to_nat n * IE w ^ Z.to_nat a * I w ^ Z.to_nat b * Is w ^ Z.to_nat d)
     = E (fun w => V w ^ Z.to_nat n * M (V w) (a, b, d) (fh p)).
Proof.
  intros (M & HM & HT). exists M. split; [exact HM|]. intros n a b d h1 h2 h3 h4 h5.
  pose proof (HT [] n a b d eq_refl (Forall_nil _) h1 h2 h3 h4 ltac:(cbn [fold_right]; lia)) as t.
  cbn [map powprod] in t.
  rewrite (E_ext E HE _ (fun w => 1 * (V w ^ Z.to_nat n * IE w ^ Z.to_nat a * I w ^ Z.to_nat b * Is w ^ Z.to_nat d)))
    by (intro; ring). rewrite t. apply (E_ext E HE). intro; ring.
Qed.

Theorem stationary_next {Om} (E : (Om -> R) -> R) (HE : expectation E) p s0 L V IE I Is :
  fk p <> 0 -> 0 <= fh p -> stationary E p L V -> tower E p s0 L [] V IE I Is ->
  stationary E p L (fun w => v_end p s0 (V w) (IE w)).
Proof.
  intros Hk Hh HV HT n Hn. destruct (tower_nil E HE p s0 L V IE I Is HT) as (M & HM & HT').
  set (k := fk p) in *. set (h := fh p) in *. set (th := fth p) in *. set (sg := fsg p) in *.
  set (N v := vmin (ito_sys (mkPar k s0 v th sg)) ito_init (fun i => Z.to_nat (ord3 i))).
  assert (MN : forall v i, ito_dom i -> M v i h = N v i h).
  { intros v i Hi.
    apply (vsol_unique ito_dom (ito_sys (mkPar k s0 v th sg)) ito_init (fun i => Z.to_nat (ord3 i)) (ito_tri _)); [apply HM| |assumption|assumption].
    apply (vsol_exists ito_dom _ ito_init _ (ito_tri _) (ito_cont _)). }
  set (K v := realise1 (Z.to_nat L) (fun a => N v (Z.of_nat a, 0, 0)%Z h)).
  set (E' := fun X : R * R -> R => E (fun w => Efin (K (V w)) (fun z => X (V w, z)))).
  assert (HE' : expectation E').
  { unfold E'. split.
    - intros X Y e. apply (E_ext E HE). intro w. apply (E_ext _ (Efin_expectation _)). intro z. apply e.
    - intros X Y. rewrite <- (E_plus E HE). apply (E_ext E HE). intro w. apply (E_plus _ (Efin_expectation _)).
    - intros c X. rewrite <- (E_scal E HE). apply (E_ext E HE). intro w. apply (E_scal _ (Efin_expectation _)). }
  set (e := exp (- (k * h))). set (y := sg * exp (- (k * (s0 + h)))).
  rewrite (E_ext E HE _ (fun w => sumR (fun x => x) [e * V w; (1 - e) * th; y * IE w] ^ Z.to_nat n)).
  2: { intro w. f_equal. unfold v_end, eKH. cbn [sumR]. fold k h th sg e y. unfold y. ring. }
  rewrite (E_multinomial E HE _ 2 n) by (try reflexivity; lia).
  transitivity (E' (fun vz => sumR (fun x => x) [e * fst vz; (1 - e) * th; y * snd vz] ^ Z.to_nat n)).
  - rewrite (E_multinomial E' HE' _ 2 n) by (try reflexivity; lia). apply sumR_ext. intros ns Hns.
    apply in_rcomp in Hns; [|lia]. destruct Hns as (l1 & l2 & l3).
    destruct ns as [|i [|j [|a [|? ?]]]]; try discriminate.
    apply Forall_cons_iff in l2 as [g1 l2]. apply Forall_cons_iff in l2 as [g2 l2]. apply Forall_cons_iff in l2 as [g3 _].
    cbn [sumZ fold_right] in l3. f_equal.
    set (c := pw e i * pw ((1 - e) * th) j * pw y a).
    rewrite (E_ext E HE _ (fun w => c * (V w ^ Z.to_nat i * IE w ^ Z.to_nat a * I w ^ Z.to_nat 0 * Is w ^ Z.to_nat 0))).
    2: { intro w. cbn [powprod]. rewrite <- !pw_Zpos by lia. unfold c. pwx. change (pw (I w) 0) with 1.
         change (pw (Is w) 0) with 1. ring. }
    rewrite (E_scal E HE), HT' by lia.
    rewrite (E_ext E' HE' _ (fun vz => c * (fst vz ^ Z.to_nat i * snd vz ^ Z.to_nat a))).
    2: { intros [v z]. cbn [powprod fst snd]. rewrite <- !pw_Zpos by lia. unfold c. pwx. ring. }
    rewrite (E_scal E' HE'). f_equal. unfold E'. apply (E_ext E HE). intro w. cbn [fst snd].
    rewrite (E_scal _ (Efin_expectation _)). f_equal. rewrite MN by (cbn; lia). unfold K.
    rewrite realise1_spec by lia. now rewrite Z2Nat.id by lia.
  - destruct (vmom_poly k s0 th sg Hk (Z.to_nat n)) as (g & _ & _ & g3 & g4).
    transitivity (E (fun w => vmom k s0 th sg (V w) (Z.to_nat n) h)).
    + unfold E'. apply (E_ext E HE). intro w. rewrite (vmom_K k s0 th sg (V w) (Z.to_nat n) (Z.to_nat L)) by lia.
      apply (E_ext _ (Efin_expectation _)). intro z. f_equal. cbn [sumR fst snd].
      unfold v_mean. cbn [pk pv pth]. unfold e, y. ring.
    + rewrite (E_ext E HE _ (fun w => sumR (fun j => g j h * V w ^ j) (seq 0 (S (Z.to_nat n))))) by (intro; apply g3).
      rewrite (E_sumR E HE (fun j w => g j h * V w ^ j)). rewrite <- (g4 h). apply sumR_ext.
      intros j Hj. apply in_seq in Hj. rewrite (E_scal E HE). f_equal.
      specialize (HV (Z.of_nat j) ltac:(lia)). rewrite Nat2Z.id in HV. exact HV.
Qed.
