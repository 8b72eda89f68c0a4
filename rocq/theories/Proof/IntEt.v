(** Proofs about int_et and int_e_poly of ito_mom.py (C12). *)
From Coq Require Import Reals Lra.
From Coquelicot Require Import Coquelicot.
From Verif.Model Require Export ItoMom.
From Verif.Proof Require Export Calc KeyInv.
Local Open Scope R_scope.

(** falling factorial *)
Fixpoint ff (m i : nat) : R :=
  match i with O => 1 | S j => ff m j * (INR m - INR j) end.

Lemma fold_prod l : forall a, fold_left (fun p j => (p * j)%Z) l a = (a * fold_right Z.mul 1 l)%Z.
Proof. induction l as [|x r IH]; intro a; cbn [fold_left fold_right]; [lia|]. rewrite IH. ring. Qed.

Lemma ff_range (m i : nat) : (i <= m)%nat ->
  IZR (fold_right Z.mul 1%Z (range (Z.of_nat m - Z.of_nat i + 1) (Z.of_nat m + 1))) = ff m i.
Proof.
  induction i as [|i IH]; intro Hi.
  - rewrite range_nil by lia. reflexivity.
  - rewrite range_cons by lia. cbn [fold_right ff]. rewrite mult_IZR.
    replace (Z.of_nat m - Z.of_nat (S i) + 1 + 1)%Z with (Z.of_nat m - Z.of_nat i + 1)%Z by lia.
    rewrite IH by lia. rewrite !INR_IZR_INZ.
    replace (Z.of_nat m - Z.of_nat (S i) + 1)%Z with (Z.of_nat m - Z.of_nat i)%Z by lia.
    rewrite minus_IZR. ring.
Qed.

Lemma sgn1_pow k : IZR (sgn1 (Z.of_nat k)) = (-1) ^ k.
Proof.
  induction k as [|k IH]; [reflexivity|]. simpl pow. rewrite <- IH. unfold sgn1.
  rewrite Nat2Z.inj_succ, Z.even_succ, <- Z.negb_even. destruct (Z.even (Z.of_nat k)); simpl; lra.
Qed.

Lemma IZR_pow_nat n (i : nat) : IZR (n ^ Z.of_nat i) = IZR n ^ i.
Proof. rewrite pow_IZR. reflexivity. Qed.

Lemma c_nmi_val n (m i : nat) : n <> 0%Z -> (i <= m)%nat ->
  Q2R (c_nmi n (Z.of_nat m) (Z.of_nat i)) = (-1) ^ i * ff m i / IZR n ^ (S i).
Proof.
  intros Hn Hi. unfold c_nmi. rewrite Q2R_mul, Q2R_qz, sgn1_pow, fold_prod, Z.mul_1_l.
  rewrite Q2R_Frac.
  - rewrite ff_range by assumption. replace (Z.of_nat i + 1)%Z with (Z.of_nat (S i)) by lia.
    rewrite IZR_pow_nat. unfold Rdiv. ring.
  - apply Z.pow_nonzero; lia.
Qed.

(** primitive of e^{at} t^m *)
Lemma etm_derive (a : R) (m : nat) (t : R) : a <> 0 ->
  is_derive (fun t => exp (a * t) * sumR (fun i => (-1) ^ i * ff m i / a ^ (S i) * t ^ (m - i)) (seq 0 (S m)))
    t (exp (a * t) * t ^ m).
Proof.
  intro Ha. set (c := fun i => (-1) ^ i * ff m i / a ^ (S i)).
  assert (Hc : forall i, a * c (S i) = - (INR m - INR i) * c i).
  { intro i. unfold c. cbn [ff]. simpl pow. field. split; [now apply pow_nonzero|assumption]. }
  eapply is_derive_val.
  - apply is_derive_Rmult; [apply is_derive_Rexp, is_derive_lin|].
    apply (is_derive_sumR (fun i t => c i * t ^ (m - i)) (fun i => c i * (INR (m - i) * 1 * t ^ pred (m - i)))).
    intros i _. apply is_derive_Rscal. apply (is_derive_Rpow (fun t => t)), is_derive_Rid.
  - rewrite Rmult_assoc, (Rmult_comm a), Rmult_assoc, <- Rmult_plus_distr_l. f_equal.
    rewrite Rmult_comm, <- sumR_scal, <- sumR_plus.
    set (f := fun i => a * c i * t ^ (m - i)).
    assert (T : forall p, (p <= m)%nat -> sumR (fun i => f i - f (S i)) (seq 0 p) = f O - f p).
    { induction p as [|p IH]; intro Hp; [simpl; ring|].
      rewrite seq_S, sumR_app, IH by lia. simpl. ring. }
    rewrite (sumR_ext _ (fun i => if Nat.eqb i m then f m else f i - f (S i))).
    + rewrite seq_S, sumR_app. cbn [sumR]. rewrite Nat.add_0_l, Nat.eqb_refl.
      rewrite (sumR_ext _ (fun i => f i - f (S i))).
      * rewrite T by lia. unfold f. rewrite Nat.sub_0_r. unfold c at 1. simpl. field. assumption.
      * intros i Hi. apply in_seq in Hi. destruct (Nat.eqb_spec i m); [lia|reflexivity].
    + intros i Hi. apply in_seq in Hi. destruct (Nat.eqb_spec i m) as [->|Hne].
      * rewrite Nat.sub_diag. unfold f. rewrite Nat.sub_diag. unfold c. simpl. ring.
      * unfold f. replace (pred (m - i)) with (m - S i)%nat by lia.
        rewrite Hc. rewrite minus_INR by lia. unfold c. ring.
Qed.

Definition etk (k : list Z) : Prop := length k = 3%nat /\ (0 <= nthZ k 1)%Z /\ (0 <= nthZ k 2)%Z.
Definition etmon (k t : R) : list Z -> R := monx [exp (k * t); t; / k].

Lemma etmon_key k t a b c : etmon k t [a; b; c]%Z = exp (IZR a * (k * t)) * pw t b * pw (/ k) c.
Proof. unfold etmon. cbn [monx]. rewrite pw_exp. ring. Qed.

(** the loop of the general case *)
Lemma int_et_loop n (m : nat) : n <> 0%Z -> (1 <= m)%nat -> forall d i0 a,
  (i0 + d = S m)%nat -> (1 <= i0)%nat -> (d > 0)%nat ->
  (forall k, In k (keys a) -> etk k /\ (nthZ k 2 <= Z.of_nat i0)%Z) ->
  let r := fold_left (fun a i =>
          let c := c_nmi n (Z.of_nat m) i in
          let a := set_kv [n; Z.of_nat m - i; i + 1]%Z c a in
          if (i =? Z.of_nat m)%Z then set_kv [0; 0; i + 1]%Z (qopp c) a else a)
        (range (Z.of_nat i0) (Z.of_nat m + 1)) a in
  allk etk r /\
  forall mon, eval mon r = eval mon a +
     sumR (fun i => Q2R (c_nmi n (Z.of_nat m) (Z.of_nat i)) * mon [n; Z.of_nat m - Z.of_nat i; Z.of_nat i + 1]%Z) (seq i0 d)
     - Q2R (c_nmi n (Z.of_nat m) (Z.of_nat m)) * mon [0; 0; Z.of_nat m + 1]%Z.
Proof.
  intros Hn Hm. induction d as [|d IH]; intros i0 a Hd Hi0 Hpos Ha; [lia|].
  rewrite range_cons by lia. cbn [fold_left].
  set (c := c_nmi n (Z.of_nat m) (Z.of_nat i0)).
  set (key := [n; (Z.of_nat m - Z.of_nat i0)%Z; (Z.of_nat i0 + 1)%Z]).
  assert (F1 : ~ In key (keys a)).
  { intro Hin. apply Ha in Hin. unfold key, nthZ in Hin. simpl in Hin. lia. }
  destruct (Z.eqb_spec (Z.of_nat i0) (Z.of_nat m)) as [E|Hne].
  - assert (d = O) by lia. subst d. rewrite range_nil by lia. cbn [fold_left].
    assert (i0 = m) by lia. subst i0.
    assert (F2 : ~ In [0; 0; Z.of_nat m + 1]%Z (keys (set_kv key c a))).
    { rewrite set_kv_fresh by assumption. unfold keys. rewrite map_app, in_app_iff.
      intros [Hin|[Hin|[]]].
      - apply Ha in Hin. unfold nthZ in Hin. simpl in Hin. lia.
      - inversion Hin. congruence. }
    split.
    + rewrite !set_kv_fresh by assumption. intros k Hk. unfold keys in Hk.
      rewrite !map_app, !in_app_iff in Hk. destruct Hk as [[Hk|[Hk|[]]]|[Hk|[]]].
      * now apply Ha in Hk.
      * subst k. unfold etk, nthZ; simpl. lia.
      * subst k. unfold etk, nthZ; simpl. lia.
    + intro mon. rewrite !eval_set_kv_fresh by assumption. cbn [seq sumR].
      rewrite Q2R_neg. unfold c, key. ring.
  - destruct (IH (S i0) (set_kv key c a)) as [g1 g2]; [lia|lia|lia| |].
    { intros k Hk. rewrite set_kv_fresh in Hk by assumption. unfold keys in Hk.
      rewrite map_app, in_app_iff in Hk. destruct Hk as [Hk|[Hk|[]]].
      - apply Ha in Hk. intuition lia.
      - subst k. unfold etk, nthZ, key; simpl. lia. }
    replace (Z.of_nat i0 + 1)%Z with (Z.of_nat (S i0)) by lia.
    split; [exact g1|]. intro mon. rewrite g2.
    rewrite eval_set_kv_fresh by assumption. cbn [seq sumR]. unfold c, key.
    ring.
Qed.

Lemma int_et_spec n (m : Z) : (0 <= m)%Z ->
  returns (int_et n m) (fun r => keyfor r = kf_et /\ allk etk (items r) /\
    forall k, k <> 0 ->
      eval (etmon k 0) (items r) = 0 /\
      forall t : R, is_derive (fun t => eval (etmon k t) (items r)) t (exp (IZR n * (k * t)) * pw t m)).
Proof.
  intro Hm. unfold int_et. destruct (Z.ltb_spec m 0); [lia|].
  destruct (Z.eqb_spec n 0) as [->|Hn].
  { simpl returns. split; [reflexivity|]. split.
    - intros k [<-|[]]. unfold etk, nthZ; simpl. lia.
    - intros k Hk. cbn [eval]. split.
      + rewrite etmon_key. rewrite pw_Zpos by lia.
        replace (Z.to_nat (m + 1)) with (S (Z.to_nat m)) by lia. simpl. ring.
      + intro t. apply (is_derive_ext_loc_all (fun t => Q2R (Frac 1 (m + 1)) * pw t (m + 1))).
        { intro u. rewrite etmon_key. rewrite Rmult_0_l, exp_0, pw_0. ring. }
        eapply is_derive_val; [apply is_derive_Rscal, (is_derive_pw (fun t => t)); [apply is_derive_Rid|right; lia]|].
        rewrite Q2R_Frac by lia. replace (m + 1 - 1)%Z with m by lia.
        rewrite Rmult_0_l, exp_0. field. apply not_0_IZR. lia. }
  destruct (Z.eqb_spec m 0) as [->|Hm0].
  { cbn [set_kv]. assert (E : keqb [n; 0; 1]%Z [0; 0; 1]%Z = false).
    { apply not_true_is_false. rewrite keqb_spec. congruence. }
    rewrite E. cbn [returns items keyfor]. split; [reflexivity|]. split.
    - intros k [<-|[<-|[]]]; unfold etk, nthZ; simpl; lia.
    - intros k Hk. cbn [eval]. split.
      + rewrite !etmon_key. rewrite Q2R_neg, Rmult_0_r, !Rmult_0_r, exp_0. ring.
      + intro t.
        apply (is_derive_ext_loc_all (fun t => Q2R (Frac 1 n) / k * exp (IZR n * k * t) - Q2R (Frac 1 n) / k)).
        { intro u. rewrite !etmon_key. rewrite Q2R_neg, Rmult_0_l, exp_0, !pw_0, pw_1.
          replace (IZR n * k * u) with (IZR n * (k * u)) by ring. field. assumption. }
        eapply is_derive_val.
        * apply is_derive_Rminus; [|apply is_derive_Rconst].
          apply is_derive_Rscal, is_derive_Rexp, is_derive_lin.
        * rewrite Q2R_Frac by assumption. rewrite pw_0.
          replace (IZR n * k * t) with (IZR n * (k * t)) by ring. field.
          split; first [assumption | now apply not_0_IZR]. }
  remember (Z.to_nat m) as mm eqn:Emm. replace m with (Z.of_nat mm) in * by lia. clear Emm m.
  cbn [set_kv].
  destruct (int_et_loop n mm Hn ltac:(lia) mm 1 [([n; Z.of_nat mm; 1]%Z, Frac 1 n)]) as [g1 g2];
    [lia|lia|lia| |].
  { intros k [<-|[]]. unfold etk, nthZ; simpl. lia. }
  cbn [returns items keyfor]. split; [reflexivity|]. split; [exact g1|].
  intros k Hk.
  assert (Ha : IZR n * k <> 0) by (apply Rmult_integral_contrapositive; split; [now apply not_0_IZR|assumption]).
  set (a := IZR n * k) in *.
  assert (EV : forall t, eval (etmon k t) (fold_left (fun a i =>
          let c := c_nmi n (Z.of_nat mm) i in
          let a := set_kv [n; Z.of_nat mm - i; i + 1]%Z c a in
          if (i =? Z.of_nat mm)%Z then set_kv [0; 0; i + 1]%Z (qopp c) a else a)
        (range 1 (Z.of_nat mm + 1)) [([n; Z.of_nat mm; 1]%Z, Frac 1 n)])
     = exp (a * t) * sumR (fun i => (-1) ^ i * ff mm i / a ^ (S i) * t ^ (mm - i)) (seq 0 (S mm))
       - (-1) ^ mm * ff mm mm / a ^ (S mm)).
  { intro t. change (range 1 (Z.of_nat mm + 1)) with (range (Z.of_nat 1) (Z.of_nat mm + 1)).
    rewrite g2. cbn [eval]. rewrite !etmon_key. rewrite Q2R_Frac by assumption.
    rewrite Rmult_0_l, exp_0, pw_0, pw_1.
    assert (En : forall i, IZR n ^ S i * k ^ S i = a ^ S i) by (intro; unfold a; rewrite Rpow_mult_distr; reflexivity).
    assert (N1 : forall i, IZR n ^ i <> 0) by (intro; apply pow_nonzero, not_0_IZR; assumption).
    assert (N2 : forall i, k ^ i <> 0) by (intro; now apply pow_nonzero).
    assert (Ek : forall i, pw (/ k) (Z.of_nat i + 1) = / k ^ S i).
    { intro i. replace (Z.of_nat i + 1)%Z with (Z.of_nat (S i)) by lia. rewrite pw_nat, pow_inv. reflexivity. }
    rewrite Ek, c_nmi_val by (try assumption; lia).
    change (seq 0 (S mm)) with (0%nat :: seq 1 mm). cbn [sumR].
    rewrite Rmult_plus_distr_l.
    replace (IZR n * (k * t)) with (a * t) by (unfold a; ring).
    rewrite <- sumR_scal.
    rewrite (sumR_ext (fun i => exp (a * t) * ((-1) ^ i * ff mm i / a ^ S i * t ^ (mm - i)))
      (fun i => Q2R (c_nmi n (Z.of_nat mm) (Z.of_nat i)) * etmon k t [n; Z.of_nat mm - Z.of_nat i; Z.of_nat i + 1]%Z)).
    - rewrite <- !En. rewrite pw_nat. cbn [ff]. rewrite Nat.sub_0_r.
      set (S1 := sumR _ _). generalize (exp (a * t)); intro Ex.
      generalize (t ^ mm); intro tm. cbn [pow].
      assert (q0 : IZR n <> 0) by now apply not_0_IZR.
      pose proof (N1 mm) as q1. pose proof (N2 mm) as q2. clear -q0 q1 q2 Hk.
      field. repeat split; assumption.
    - intros i Hi. apply in_seq in Hi. rewrite etmon_key, Ek, c_nmi_val by (try assumption; lia).
      rewrite <- En. replace (Z.of_nat mm - Z.of_nat i)%Z with (Z.of_nat (mm - i)) by lia.
      rewrite pw_nat. replace (IZR n * (k * t)) with (a * t) by (unfold a; ring).
      field. split; [apply N2|apply N1]. }
  split.
  - rewrite EV. rewrite Rmult_0_r, exp_0. rewrite seq_S, sumR_app. cbn [sumR]. rewrite Nat.add_0_l.
    rewrite sumR_0.
    + rewrite Nat.sub_diag. simpl. ring.
    + intros i Hi. apply in_seq in Hi. rewrite pow_i by lia. ring.
  - intro t. apply (is_derive_ext_loc_all (fun t => exp (a * t) * sumR (fun i => (-1) ^ i * ff mm i / a ^ (S i) * t ^ (mm - i)) (seq 0 (S mm))
       - (-1) ^ mm * ff mm mm / a ^ (S mm))).
    { intro u. now rewrite EV. }
    eapply is_derive_val.
    + apply is_derive_Rminus; [apply etm_derive, Ha|apply is_derive_Rconst].
    + rewrite pw_nat. unfold a. replace (IZR n * k * t) with (IZR n * (k * t)) by ring. ring.
Qed.
