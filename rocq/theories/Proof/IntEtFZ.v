(** int_et_fZ: the integral of e^{nks} s^m from the last jump time to t. *)
From Coq Require Import Reals Lra.
From Coquelicot Require Import Coquelicot.
From Verif.Model Require Export ItoCond.
From Verif.Proof Require Export IntEt JumpSum.
Local Open Scope R_scope.

(** primitive of e^{nks} s^m *)
Definition Fp (n m : Z) (k t : R) : R :=
  if (n =? 0)%Z then / IZR (m + 1) * pw t (m + 1)
  else exp (IZR n * k * t) * sumR (fun i => (-1) ^ i * ff (Z.to_nat m) i / (IZR n * k) ^ (S i) * t ^ (Z.to_nat m - i))
         (seq 0 (S (Z.to_nat m))).

Lemma Fp_derive n m k : (0 <= m)%Z -> k <> 0 -> forall t : R,
  is_derive (Fp n m k) t (exp (IZR n * (k * t)) * pw t m).
Proof.
  intros Hm Hk t. unfold Fp. destruct (Z.eqb_spec n 0) as [->|Hn].
  - eapply is_derive_val; [apply is_derive_Rscal, (is_derive_pw (fun t => t)); [apply is_derive_Rid|right; lia]|].
    replace (m + 1 - 1)%Z with m by lia. rewrite Rmult_0_l, exp_0. field. apply not_0_IZR. lia.
  - eapply is_derive_val.
    + apply etm_derive. apply Rmult_integral_contrapositive; split; [now apply not_0_IZR|assumption].
    + rewrite pw_Zpos by assumption. f_equal. f_equal. ring.
Qed.

Lemma Fp_RInt n m k a b : (0 <= m)%Z -> k <> 0 ->
  is_RInt (fun s => exp (IZR n * (k * s)) * pw s m) a b (Fp n m k b - Fp n m k a).
Proof.
  intros Hm Hk. apply RInt_of_derive; [now apply Fp_derive|].
  intro t. apply continuous_Rmult.
  - apply continuous_Rexp, continuous_Rmult; [apply continuous_Rconst|].
    apply continuous_Rmult; [apply continuous_Rconst|apply continuous_Rid].
  - apply (continuous_ext_all (fun s => s ^ Z.to_nat m)); [intro s; now rewrite pw_Zpos|].
    eapply continuous_of_derive. apply (is_derive_Rpow (fun t => t)), is_derive_Rid.
Qed.

Definition fmon (k t tau : R) : list Z -> R := monx [exp (k * t); t; / k; exp (k * tau); tau].
Lemma fmon_key k t tau a b c d e : fmon k t tau [a; b; c; d; e]%Z
  = exp (IZR a * (k * t)) * pw t b * pw (/ k) c * (exp (IZR d * (k * tau)) * pw tau e).
Proof. unfold fmon. cbn [monx]. rewrite !pw_exp. ring. Qed.

Definition etk5 (N : Z) (k : list Z) : Prop :=
  length k = 5%nat /\ (0 <= nthZ k 1)%Z /\ (0 <= nthZ k 2)%Z /\ (0 <= nthZ k 4)%Z /\
  (N = 0%Z -> nthZ k 3 = 0%Z /\ nthZ k 4 = 0%Z).
(** no power of t, and no negative power of e^{kt} *)
Definition etk5q (n m : Z) (k : list Z) : Prop :=
  n <> 0%Z -> m = 0%Z -> nthZ k 1 = 0%Z /\ (nthZ k 0 = n \/ nthZ k 0 = 0%Z).

Section Loop.
Context (n : Z) (Hn : n <> 0%Z) (m : nat) (Hm : (1 <= m)%nat).
Notation c := (c_nmi n (Z.of_nat m)).

(** terms of the primitive, at t and at the lower end *)
Notation K1 i := [n; Z.of_nat m - i; i + 1; 0; 0]%Z.
Notation K2 i := [0; 0; i + 1; n; Z.of_nat m - i]%Z.

Lemma loop_N1 : forall d i0 a, (i0 + d = S m)%nat -> (1 <= i0)%nat ->
  (forall k, In k (keys a) -> etk5 1 k /\ (nthZ k 2 <= Z.of_nat i0)%Z) ->
  let r := fold_left (fun a i => let v := c i in set_kv (K2 i) (qopp v) (set_kv (K1 i) v a))
        (range (Z.of_nat i0) (Z.of_nat m + 1)) a in
  allk (etk5 1) r /\
  forall mon, eval mon r = eval mon a +
     sumR (fun i => Q2R (c (Z.of_nat i)) * (mon (K1 (Z.of_nat i)) - mon (K2 (Z.of_nat i)))) (seq i0 d).
Proof.
  induction d as [|d IH]; intros i0 a Hd Hi0 Ha; cbv zeta.
  - rewrite range_nil by lia. cbn [fold_left seq sumR]. split; [|intros; ring].
    intros k Hk. now apply Ha.
  - rewrite range_cons by lia. cbn [fold_left].
    assert (F1 : forall v : Q, ~ In (K1 (Z.of_nat i0)) (keys a)).
    { intros v Hin. apply Ha in Hin. unfold nthZ in Hin. simpl in Hin. lia. }
    assert (F2 : forall v, ~ In (K2 (Z.of_nat i0)) (keys (set_kv (K1 (Z.of_nat i0)) v a))).
    { intro v. rewrite set_kv_fresh by (exact (F1 0%Q)). unfold keys. rewrite map_app, in_app_iff.
      intros [Hin|[Hin|[]]].
      - apply Ha in Hin. unfold nthZ in Hin. simpl in Hin. lia.
      - inversion Hin. congruence. }
    destruct (IH (S i0) (set_kv (K2 (Z.of_nat i0)) (qopp (c (Z.of_nat i0))) (set_kv (K1 (Z.of_nat i0)) (c (Z.of_nat i0)) a)))
      as [g1 g2]; [lia|lia| |].
    { intros k Hk. rewrite set_kv_fresh in Hk by apply F2. rewrite set_kv_fresh in Hk by (exact (F1 0%Q)).
      unfold keys in Hk. rewrite !map_app, !in_app_iff in Hk. destruct Hk as [[Hk|[Hk|[]]]|[Hk|[]]].
      - apply Ha in Hk. intuition lia.
      - subst k. unfold etk5, nthZ; simpl. lia.
      - subst k. unfold etk5, nthZ; simpl. lia. }
    replace (range (Z.of_nat i0 + 1) (Z.of_nat m + 1)) with (range (Z.of_nat (S i0)) (Z.of_nat m + 1)) by (f_equal; lia).
    split; [exact g1|]. intro mon. rewrite g2.
    rewrite !eval_set_kv_fresh; [|exact (F1 0%Q)|apply F2]. cbn [seq sumR]. rewrite Q2R_neg. ring.
Qed.

Lemma loop_N0 : forall d i0 a, (i0 + d = S m)%nat -> (1 <= i0)%nat -> (d > 0)%nat ->
  (forall k, In k (keys a) -> etk5 0 k /\ (nthZ k 2 <= Z.of_nat i0)%Z) ->
  let r := fold_left (fun a i =>
          let v := c i in
          let a := set_kv (K1 i) v a in
          if (i =? Z.of_nat m)%Z then set_kv [0; 0; i + 1; 0; 0]%Z (qopp v) a else a)
        (range (Z.of_nat i0) (Z.of_nat m + 1)) a in
  allk (etk5 0) r /\
  forall mon, eval mon r = eval mon a +
     sumR (fun i => Q2R (c (Z.of_nat i)) * mon (K1 (Z.of_nat i))) (seq i0 d)
     - Q2R (c (Z.of_nat m)) * mon [0; 0; Z.of_nat m + 1; 0; 0]%Z.
Proof.
  induction d as [|d IH]; intros i0 a Hd Hi0 Hpos Ha; [lia|]. cbv zeta.
  rewrite range_cons by lia. cbn [fold_left].
  set (v := c (Z.of_nat i0)). set (key := K1 (Z.of_nat i0)).
  assert (F1 : ~ In key (keys a)).
  { intro Hin. apply Ha in Hin. unfold key, nthZ in Hin. simpl in Hin. lia. }
  destruct (Z.eqb_spec (Z.of_nat i0) (Z.of_nat m)) as [E|Hne].
  - assert (d = O) by lia. subst d. rewrite range_nil by lia. cbn [fold_left].
    assert (i0 = m) by lia. subst i0.
    assert (F2 : ~ In [0; 0; Z.of_nat m + 1; 0; 0]%Z (keys (set_kv key v a))).
    { rewrite set_kv_fresh by assumption. unfold keys. rewrite map_app, in_app_iff.
      intros [Hin|[Hin|[]]].
      - apply Ha in Hin. unfold nthZ in Hin. simpl in Hin. lia.
      - inversion Hin. congruence. }
    split.
    + rewrite !set_kv_fresh by assumption. intros k Hk. unfold keys in Hk.
      rewrite !map_app, !in_app_iff in Hk. destruct Hk as [[Hk|[Hk|[]]]|[Hk|[]]].
      * now apply Ha in Hk.
      * subst k. unfold etk5, nthZ; simpl. lia.
      * subst k. unfold etk5, nthZ; simpl. lia.
    + intro mon. rewrite !eval_set_kv_fresh by assumption. cbn [seq sumR].
      rewrite Q2R_neg. unfold v, key. ring.
  - destruct (IH (S i0) (set_kv key v a)) as [g1 g2]; [lia|lia|lia| |].
    { intros k Hk. rewrite set_kv_fresh in Hk by assumption. unfold keys in Hk.
      rewrite map_app, in_app_iff in Hk. destruct Hk as [Hk|[Hk|[]]].
      - apply Ha in Hk. intuition lia.
      - subst k. unfold etk5, nthZ, key; simpl. lia. }
    replace (Z.of_nat i0 + 1)%Z with (Z.of_nat (S i0)) by lia.
    split; [exact g1|]. intro mon. rewrite g2.
    rewrite eval_set_kv_fresh by assumption. cbn [seq sumR]. unfold v, key. ring.
Qed.

(** value of the terms of the primitive *)
Lemma prim_val k t : k <> 0 ->
  Q2R (Frac 1 n) * (exp (IZR n * (k * t)) * pw t (Z.of_nat m) * pw (/ k) 1) +
  sumR (fun i => Q2R (c (Z.of_nat i)) * (exp (IZR n * (k * t)) * pw t (Z.of_nat m - Z.of_nat i) * pw (/ k) (Z.of_nat i + 1)))
    (seq 1 m) = Fp n (Z.of_nat m) k t.
Proof.
  intro Hk. unfold Fp. rewrite (proj2 (Z.eqb_neq n 0) Hn), Nat2Z.id.
  assert (q0 : IZR n <> 0) by now apply not_0_IZR.
  assert (N1 : forall i, IZR n ^ i <> 0) by (intro; now apply pow_nonzero).
  assert (N2 : forall i, k ^ i <> 0) by (intro; now apply pow_nonzero).
  change (seq 0 (S m)) with (0%nat :: seq 1 m). cbn [sumR]. rewrite Rmult_plus_distr_l, <- sumR_scal.
  replace (IZR n * k * t) with (IZR n * (k * t)) by ring. f_equal.
  - rewrite Q2R_Frac by assumption. rewrite pw_1, pw_nat, Nat.sub_0_r. cbn [ff pow].
    generalize (exp (IZR n * (k * t))); intro Ex. field. split; assumption.
  - apply sumR_ext. intros i Hi. apply in_seq in Hi. rewrite c_nmi_val by (try assumption; lia).
    replace (Z.of_nat m - Z.of_nat i)%Z with (Z.of_nat (m - i)) by lia.
    replace (Z.of_nat i + 1)%Z with (Z.of_nat (S i)) by lia. rewrite !pw_nat, pow_inv, Rpow_mult_distr.
    generalize (exp (IZR n * (k * t))); intro Ex. field. split; [apply N2|apply N1].
Qed.
End Loop.

Lemma Fp_0 n (m : nat) k : n <> 0%Z -> k <> 0 ->
  Fp n (Z.of_nat m) k 0 = Q2R (c_nmi n (Z.of_nat m) (Z.of_nat m)) * pw (/ k) (Z.of_nat m + 1).
Proof.
  intros Hn Hk. unfold Fp. rewrite (proj2 (Z.eqb_neq n 0) Hn), Nat2Z.id.
  rewrite Rmult_0_r, exp_0, Rmult_1_l, seq_S, sumR_app. cbn [sumR]. rewrite Nat.add_0_l.
  rewrite sumR_0.
  - rewrite Nat.sub_diag. rewrite c_nmi_val by (try assumption; lia).
    replace (Z.of_nat m + 1)%Z with (Z.of_nat (S m)) by lia. rewrite pw_nat, pow_inv, Rpow_mult_distr.
    assert (q0 : IZR n <> 0) by now apply not_0_IZR.
    change (0 ^ 0) with 1. rewrite Rmult_1_r, Rplus_0_l, Rplus_0_r. field. split; now apply pow_nonzero.
  - intros i Hi. apply in_seq in Hi. rewrite pow_i by lia. ring.
Qed.

Lemma int_et_fZ_spec n m N : (0 <= m)%Z ->
  returns (int_et_fZ n m N) (fun r => keyfor r = kf_fZ /\ allk (etk5 N) (items r) /\
    allk (etk5q n m) (items r) /\
    forall k t tau, k <> 0 -> (N = 0%Z -> tau = 0) ->
      eval (fmon k t tau) (items r) = Fp n m k t - Fp n m k tau).
Proof.
  intro Hm. unfold int_et_fZ. destruct (Z.ltb_spec m 0); [lia|].
  assert (W : forall N k, N <> 0%Z -> etk5 1 k -> etk5 N k).
  { intros N' k HN (h1 & h2 & h3 & h4 & _). unfold etk5. intuition. }
  destruct (Z.eqb_spec N 0) as [->|HN].
  - destruct (Z.eqb_spec n 0) as [->|Hn]; [|destruct (Z.eqb_spec m 0) as [->|Hm0]].
    + cbn [returns keyfor items set_kv]. split; [reflexivity|]. split; [|split].
      * intros k [<-|[]]. unfold etk5, nthZ; simpl. lia.
      * intros k [<-|[]] h. congruence.
      * intros k t tau Hk Ht. rewrite Ht by reflexivity. cbn [eval]. rewrite fmon_key.
        rewrite Q2R_Frac by lia. unfold Fp; cbn [Z.eqb]. rewrite !Rmult_0_l, exp_0, !pw_0.
        rewrite (pw_Zpos 0) by lia. rewrite pow_i by lia. field. apply not_0_IZR. lia.
    + cbn [set_kv]. assert (E : keqb [n; 0; 1; 0; 0]%Z [0; 0; 1; 0; 0]%Z = false).
      { apply not_true_is_false. rewrite keqb_spec. congruence. }
      rewrite E. cbn [returns keyfor items]. split; [reflexivity|]. split; [|split].
      * intros k [<-|[<-|[]]]; unfold etk5, nthZ; simpl; lia.
      * intros k [<-|[<-|[]]] _ _; unfold nthZ; simpl; auto.
      * intros k t tau Hk Ht. rewrite Ht by reflexivity. cbn [eval]. rewrite !fmon_key.
        rewrite Q2R_neg, Q2R_Frac by assumption. unfold Fp. rewrite (proj2 (Z.eqb_neq n 0) Hn).
        cbn [Z.to_nat seq sumR ff Nat.sub pow]. rewrite !Rmult_0_l, !Rmult_0_r, !exp_0, !pw_0, pw_1.
        replace (IZR n * k * t) with (IZR n * (k * t)) by ring.
        generalize (exp (IZR n * (k * t))); intro Ex. field. split; [assumption|now apply not_0_IZR].
    + remember (Z.to_nat m) as mm eqn:Emm. replace m with (Z.of_nat mm) in * by lia. clear Emm m.
      cbn [set_kv].
      destruct (loop_N0 n Hn mm ltac:(lia) mm 1 [([n; Z.of_nat mm; 1; 0; 0]%Z, Frac 1 n)]) as [g1 g2];
        [lia|lia|lia| |].
      { intros k [<-|[]]. unfold etk5, nthZ; simpl. lia. }
      cbn [returns items keyfor]. split; [reflexivity|]. split; [exact g1|]. split.
      { intros k _ _ h. lia. }
      intros k t tau Hk Ht. rewrite Ht by reflexivity.
      change (range 1 (Z.of_nat mm + 1)) with (range (Z.of_nat 1) (Z.of_nat mm + 1)). rewrite g2.
      cbn [eval]. rewrite Fp_0 by assumption. rewrite <- (prim_val n Hn mm ltac:(lia) k t Hk). rewrite !fmon_key.
      rewrite (sumR_ext _ (fun i => Q2R (c_nmi n (Z.of_nat mm) (Z.of_nat i)) *
        (exp (IZR n * (k * t)) * pw t (Z.of_nat mm - Z.of_nat i) * pw (/ k) (Z.of_nat i + 1)))).
      2: { intros i _. rewrite fmon_key. rewrite !Rmult_0_l, exp_0, pw_0. ring. }
      rewrite !Rmult_0_l, exp_0, !pw_0. ring.
  - destruct (Z.eqb_spec n 0) as [->|Hn]; [|destruct (Z.eqb_spec m 0) as [->|Hm0]].
    + cbn [set_kv]. assert (E : keqb [0; m + 1; 0; 0; 0]%Z [0; 0; 0; 0; m + 1]%Z = false).
      { apply not_true_is_false. rewrite keqb_spec. intro h. inversion h. lia. }
      rewrite E. cbn [returns keyfor items]. split; [reflexivity|]. split; [|split].
      * intros k [<-|[<-|[]]]; (apply W; [assumption|]); unfold etk5, nthZ; simpl; lia.
      * intros k [<-|[<-|[]]] h; congruence.
      * intros k t tau Hk _. cbn [eval]. rewrite !fmon_key.
        rewrite Q2R_neg, Q2R_Frac by lia. unfold Fp; cbn [Z.eqb]. rewrite !Rmult_0_l, exp_0, !pw_0.
        field. apply not_0_IZR. lia.
    + cbn [set_kv]. assert (E : keqb [n; 0; 1; 0; 0]%Z [0; 0; 1; n; 0]%Z = false).
      { apply not_true_is_false. rewrite keqb_spec. congruence. }
      rewrite E. cbn [returns keyfor items]. split; [reflexivity|]. split; [|split].
      * intros k [<-|[<-|[]]]; (apply W; [assumption|]); unfold etk5, nthZ; simpl; lia.
      * intros k [<-|[<-|[]]] _ _; unfold nthZ; simpl; auto.
      * intros k t tau Hk _. cbn [eval]. rewrite !fmon_key.
        rewrite Q2R_neg, Q2R_Frac by assumption. unfold Fp. rewrite (proj2 (Z.eqb_neq n 0) Hn).
        cbn [Z.to_nat seq sumR ff Nat.sub pow]. rewrite !Rmult_0_l, !exp_0, !pw_0, pw_1.
        replace (IZR n * k * t) with (IZR n * (k * t)) by ring.
        replace (IZR n * k * tau) with (IZR n * (k * tau)) by ring.
        generalize (exp (IZR n * (k * t))) (exp (IZR n * (k * tau))); intros Ex Ey.
        field. split; [assumption|now apply not_0_IZR].
    + remember (Z.to_nat m) as mm eqn:Emm. replace m with (Z.of_nat mm) in * by lia. clear Emm m.
      cbn [set_kv]. assert (E : keqb [n; Z.of_nat mm; 1; 0; 0]%Z [0; 0; 1; n; Z.of_nat mm]%Z = false).
      { apply not_true_is_false. rewrite keqb_spec. congruence. }
      rewrite E.
      destruct (loop_N1 n Hn mm ltac:(lia) mm 1 [([n; Z.of_nat mm; 1; 0; 0]%Z, Frac 1 n);
        ([0; 0; 1; n; Z.of_nat mm]%Z, qopp (Frac 1 n))]) as [g1 g2]; [lia|lia| |].
      { intros k [<-|[<-|[]]]; unfold etk5, nthZ; simpl; lia. }
      cbn [returns items keyfor]. split; [reflexivity|]. split; [|split].
      { eapply allk_weaken; [exact g1|]. intro k. now apply W. }
      { intros k _ _ h. lia. }
      intros k t tau Hk _.
      change (range 1 (Z.of_nat mm + 1)) with (range (Z.of_nat 1) (Z.of_nat mm + 1)). rewrite g2.
      cbn [eval]. rewrite <- (prim_val n Hn mm ltac:(lia) k t Hk), <- (prim_val n Hn mm ltac:(lia) k tau Hk). rewrite !fmon_key.
      rewrite (sumR_ext _ (fun i => Q2R (c_nmi n (Z.of_nat mm) (Z.of_nat i)) *
        (exp (IZR n * (k * t)) * pw t (Z.of_nat mm - Z.of_nat i) * pw (/ k) (Z.of_nat i + 1))
        - Q2R (c_nmi n (Z.of_nat mm) (Z.of_nat i)) *
        (exp (IZR n * (k * tau)) * pw tau (Z.of_nat mm - Z.of_nat i) * pw (/ k) (Z.of_nat i + 1)))).
      2: { intros i _. rewrite !fmon_key. rewrite !Rmult_0_l, exp_0, !pw_0. ring. }
      rewrite sumR_minus. rewrite Q2R_neg, !Rmult_0_l, exp_0, !pw_0. ring.
Qed.
