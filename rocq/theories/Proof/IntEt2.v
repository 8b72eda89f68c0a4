(** Proofs about int_et and t_mul_t0 of itos_mom.py (C25). *)
From Coq Require Import Reals Lra.
From Coquelicot Require Import Coquelicot.
From Verif.Model Require Export ItosMom.
From Verif.Spec Require Export Ito2.
From Verif.Proof Require Export IntEt.
Local Open Scope R_scope.

(** value of a monomial of int_et *)
Definition emon (k1 k2 t : R) (k : Z * Z * Z * ((Z * Z) * Z)) : R :=
  let '((n1, n2, i), ((a, b), h)) := k in
  pw (/ (IZR n1 * k1 + IZR n2 * k2)) i * exp ((IZR a * k1 + IZR b * k2) * t) * pw t h.
(** keys of int_et n1 n2 m *)
Definition ekok (n1 n2 : Z) (k : Z * Z * Z * ((Z * Z) * Z)) : Prop :=
  let '((_, _, i), (ab, h)) := k in (0 <= i)%Z /\ (0 <= h)%Z /\ (ab = (n1, n2) \/ ab = (0, 0)%Z).

Lemma Rmult_0_exp x : exp (0 * x) = 1.
Proof. now rewrite Rmult_0_l, exp_0. Qed.

Lemma et2_loop n1 n2 m l : (forall i, In i l -> (0 <= i <= m)%Z) -> forall a,
  allk (ekok n1 n2) a -> uniq a ->
  let f := (fun a i =>
          let '(kei, val) := c2 n1 n2 m i in
          let a := add_kv (kei, ((n1, n2), m - i)%Z) (qz val) a in
          if (i =? m)%Z then add_kv (kei, ((0, 0), 0)%Z) (qz (- val)) a else a) in
  let r := fold_left f l a in
  allk (ekok n1 n2) r /\ uniq r /\
  forall mon, eval mon r = eval mon a +
     sumR (fun i => IZR (snd (c2 n1 n2 m i)) * mon ((n1, n2, i + 1), ((n1, n2), m - i))%Z
       + if (i =? m)%Z then - IZR (snd (c2 n1 n2 m i)) * mon ((n1, n2, i + 1), ((0, 0), 0))%Z else 0) l.
Proof.
  intros Hl. cbn zeta. induction l as [|i l IH]; intros a A U.
  - cbn [fold_left sumR]. split; [assumption|]. split; [assumption|]. intro; ring.
  - cbn [fold_left]. set (a' := let '(kei, val) := c2 n1 n2 m i in _).
    assert (h : allk (ekok n1 n2) a' /\ uniq a' /\ forall mon, eval mon a' = eval mon a +
       (IZR (snd (c2 n1 n2 m i)) * mon ((n1, n2, i + 1), ((n1, n2), m - i))%Z
       + if (i =? m)%Z then - IZR (snd (c2 n1 n2 m i)) * mon ((n1, n2, i + 1), ((0, 0), 0))%Z else 0)).
    { pose proof (Hl i (or_introl eq_refl)) as Hi.
      assert (k1 : ekok n1 n2 ((n1, n2, i + 1), ((n1, n2), m - i))%Z) by (cbn; intuition lia).
      assert (k2 : ekok n1 n2 ((n1, n2, i + 1), ((0, 0), 0))%Z) by (cbn; intuition lia).
      unfold a', c2. cbn [snd]. destruct (i =? m)%Z.
      - split; [apply allk_add_kv; [apply allk_add_kv; [exact A|exact k1]|exact k2]|]. split; [now apply uniq_add_kv, uniq_add_kv|].
        intro mon. rewrite !eval_add_kv, !Q2R_qz, opp_IZR. ring.
      - split; [apply allk_add_kv; assumption|]. split; [now apply uniq_add_kv|].
        intro mon. rewrite !eval_add_kv, !Q2R_qz. ring. }
    destruct h as (h1 & h2 & h3). destruct (IH (fun j Hj => Hl j (or_intror Hj)) a' h1 h2) as (g1 & g2 & g3).
    split; [exact g1|]. split; [exact g2|]. intro mon. rewrite g3, h3. cbn [sumR]. ring.
Qed.

Definition et2_ok (k1 k2 : R) (n1 n2 : Z) : Prop :=
  (n1 = 0 /\ n2 = 0)%Z \/ ((n1 + n2)%Z <> 0%Z /\ IZR n1 * k1 + IZR n2 * k2 <> 0).

Lemma range1 (m : nat) : range 1 (Z.of_nat m + 1) = map Z.of_nat (seq 1 m).
Proof.
  unfold range. replace (Z.to_nat (Z.of_nat m + 1 - 1)) with m by lia.
  rewrite <- seq_shift, map_map. apply map_ext. intro; lia.
Qed.

Lemma int_et2_spec n1 n2 m : (0 <= m)%Z ->
  returns (int_et2 n1 n2 m) (fun r => keyfor r = kf_et2 /\ allk (ekok n1 n2) (items r) /\ uniq (items r) /\
    forall k1 k2, et2_ok k1 k2 n1 n2 ->
      eval (emon k1 k2 0) (items r) = 0 /\
      forall t : R, is_derive (fun t => eval (emon k1 k2 t) (items r)) t
        (exp ((IZR n1 * k1 + IZR n2 * k2) * t) * pw t m)).
Proof.
  intro Hm. unfold int_et2. destruct (Z.ltb_spec m 0); [lia|].
  destruct (Z.eqb_spec (n1 + n2) 0) as [E0|N0]; destruct (Z.eqb_spec m 0) as [->|Hm0]; cbn [andb negb].
  - cbn [returns keyfor items add_kv]. split; [reflexivity|]. split; [|split].
    + intros ? [<-|[]]; cbn; intuition lia.
    + apply (uniq_add_kv _ _ []), uniq_nil.
    + intros k1 k2 [[-> ->]|[h _]]; [|contradiction]. cbn [eval emon]. split.
      * rewrite pw_1. ring.
      * intro t. apply (is_derive_ext_loc_all (fun t => t)).
        { intro u. rewrite pw_0, pw_1. replace ((0 * k1 + 0 * k2) * u) with 0 by ring. rewrite exp_0. unfold Q2R; cbn; field. }
        eapply is_derive_val; [apply is_derive_Rid|]. rewrite pw_0.
        replace ((0 * k1 + 0 * k2) * t) with 0 by ring. rewrite exp_0. ring.
  - cbn [returns keyfor items add_kv]. split; [reflexivity|]. split; [|split].
    + intros ? [<-|[]]; cbn; intuition lia.
    + apply (uniq_add_kv _ _ []), uniq_nil.
    + intros k1 k2 [[-> ->]|[h _]]; [|contradiction]. cbn [eval emon]. split.
      * rewrite (pw_Zpos 0) by lia. replace (Z.to_nat (m + 1)) with (S (Z.to_nat m)) by lia. simpl. ring.
      * intro t. apply (is_derive_ext_loc_all (fun t => Q2R (Frac 1 (m + 1)) * pw t (m + 1))).
        { intro u. rewrite pw_0. replace ((0 * k1 + 0 * k2) * u) with 0 by ring. rewrite exp_0. ring. }
        eapply is_derive_val; [apply is_derive_Rscal, (is_derive_pw (fun t => t)); [apply is_derive_Rid|right; lia]|].
        rewrite Q2R_Frac by lia. replace (m + 1 - 1)%Z with m by lia.
        replace ((0 * k1 + 0 * k2) * t) with 0 by ring. rewrite exp_0. field. apply not_0_IZR. lia.
  - cbn [returns keyfor items]. split; [reflexivity|]. split; [|split].
    + apply allk_add_kv; [apply allk_add_kv; [apply allk_nil|]|]; cbn; intuition lia.
    + apply uniq_add_kv, uniq_add_kv, uniq_nil.
    + intros k1 k2 [[-> ->]|[_ HD]]; [contradiction|]. set (D := IZR n1 * k1 + IZR n2 * k2) in *.
      assert (EV : forall t, eval (emon k1 k2 t) (add_kv ((n1, n2, 1), ((0, 0), 0))%Z (-1)%Q
                 (add_kv ((n1, n2, 1), ((n1, n2), 0))%Z 1%Q [])) = / D * exp (D * t) - / D).
      { intro t. rewrite !eval_add_kv. cbn [eval emon]. fold D. rewrite pw_1, !pw_0.
        replace ((0 * k1 + 0 * k2) * t) with 0 by ring. rewrite exp_0. unfold Q2R; cbn. field. assumption. }
      split; [rewrite EV, Rmult_0_r, exp_0; ring|]. intro t.
      eapply is_derive_ext_loc_all; [intro u; symmetry; apply EV|].
      eapply is_derive_val; [apply is_derive_Rminus; [apply is_derive_Rscal, is_derive_Rexp, is_derive_lin|apply is_derive_Rconst]|].
      rewrite pw_0. field. assumption.
  - remember (Z.to_nat m) as mm eqn:Emm. replace m with (Z.of_nat mm) in * by lia. clear Emm m.
    cbn [add_kv].
    destruct (et2_loop n1 n2 (Z.of_nat mm) (range 1 (Z.of_nat mm + 1))) with (a := [((n1, n2, 1), ((n1, n2), Z.of_nat mm), 1%Q)]%Z) as (g1 & g2 & g3).
    { rewrite range1. intros i Hi. apply in_map_iff in Hi. destruct Hi as (j & <- & Hj). apply in_seq in Hj. lia. }
    { intros ? [<-|[]]; cbn; intuition lia. }
    { apply (uniq_add_kv _ _ []), uniq_nil. }
    cbn [returns keyfor items]. split; [reflexivity|]. split; [exact g1|]. split; [exact g2|].
    intros k1 k2 [[-> ->]|[_ HD]]; [contradiction|]. set (r := fold_left _ _ _) in *.
    set (D := IZR n1 * k1 + IZR n2 * k2) in *.
    assert (Ec : forall i, (i <= mm)%nat -> IZR (snd (c2 n1 n2 (Z.of_nat mm) (Z.of_nat i))) = (-1) ^ i * ff mm i).
    { intros i Hi. unfold c2. cbn [snd]. rewrite mult_IZR, sgn1_pow, fold_prod, Z.mul_1_l, ff_range by assumption. reflexivity. }
    assert (ED : forall i, pw (/ D) (Z.of_nat i + 1) = / D ^ S i).
    { intro i. replace (Z.of_nat i + 1)%Z with (Z.of_nat (S i)) by lia. now rewrite pw_nat, pow_inv. }
    assert (EV : forall t, eval (emon k1 k2 t) r
       = exp (D * t) * sumR (fun i => (-1) ^ i * ff mm i / D ^ (S i) * t ^ (mm - i)) (seq 0 (S mm))
         - (-1) ^ mm * ff mm mm / D ^ (S mm)).
    { intro t. rewrite g3, sumR_plus, range1, !sumR_map. cbn [eval emon]. fold D.
      rewrite pw_1, pw_nat. change (seq 0 (S mm)) with (0%nat :: seq 1 mm). cbn [sumR].
      rewrite Rmult_plus_distr_l, <- sumR_scal.
      rewrite (sumR_ext (fun i => exp (D * t) * ((-1) ^ i * ff mm i / D ^ S i * t ^ (mm - i)))
        (fun i => IZR (snd (c2 n1 n2 (Z.of_nat mm) (Z.of_nat i))) *
          (pw (/ D) (Z.of_nat i + 1) * exp (D * t) * pw t (Z.of_nat mm - Z.of_nat i)))).
      2:{ intros i Hi. apply in_seq in Hi. rewrite Ec, ED by lia.
          replace (Z.of_nat mm - Z.of_nat i)%Z with (Z.of_nat (mm - i)) by lia. rewrite pw_nat. unfold Rdiv; ring. }
      assert (E2 : sumR (fun i => if (Z.of_nat i =? Z.of_nat mm)%Z then
          - IZR (snd (c2 n1 n2 (Z.of_nat mm) (Z.of_nat i))) * (pw (/ D) (Z.of_nat i + 1) * exp ((0 * k1 + 0 * k2) * t) * pw t 0) else 0) (seq 1 mm)
          = - ((-1) ^ mm * ff mm mm / D ^ S mm)).
      { destruct mm as [|q]; [lia|]. rewrite seq_S, sumR_app. cbn [sumR]. change (1 + q)%nat with (S q); rewrite Z.eqb_refl.
        rewrite sumR_0.
        - rewrite Ec, ED by lia. replace ((0 * k1 + 0 * k2) * t) with 0 by ring. rewrite exp_0, pw_0. unfold Rdiv. ring.
        - intros i Hi. apply in_seq in Hi. destruct (Z.eqb_spec (Z.of_nat i) (Z.of_nat (S q))); [lia|reflexivity]. }
      rewrite E2. cbn [ff pow]. rewrite Nat.sub_0_r. unfold Q2R at 1; cbn [Qnum Qden]. unfold Rdiv.
      rewrite !Rmult_1_r. field_simplify; [|split; [now apply pow_nonzero|assumption]|split; [now apply pow_nonzero|assumption]]. reflexivity. }
    split.
    + rewrite EV. rewrite Rmult_0_r, exp_0. rewrite seq_S, sumR_app. cbn [sumR]. rewrite Nat.add_0_l.
      rewrite sumR_0.
      * rewrite Nat.sub_diag. simpl. ring.
      * intros i Hi. apply in_seq in Hi. rewrite pow_i by lia. ring.
    + intro t. eapply is_derive_ext_loc_all; [intro u; symmetry; apply EV|].
      eapply is_derive_val; [apply is_derive_Rminus; [apply etm_derive, HD|apply is_derive_Rconst]|].
      rewrite pw_nat. ring.
Qed.

(** ** the denominators *)
Definition dok (d : list (Z * Z * Z)) : Prop := d <> [] /\ Forall (fun f => (0 <= snd f)%Z) d.

Lemma t0_match_sp n1 n2 i d : (0 <= i)%Z -> Forall (fun f => (0 <= snd f)%Z) d ->
  match t0_match n1 n2 i d with
  | Some r => r <> [] /\ Forall (fun f => (0 <= snd f)%Z) r /\
      forall k1 k2, denv k1 k2 r = pw (/ (IZR n1 * k1 + IZR n2 * k2)) i * denv k1 k2 d
  | None => True
  end.
Proof.
  intros Hi F. induction F as [|[[m1 m2] j] r Hj F IH]; [exact Logic.I|]. cbn [t0_match]. cbn [snd] in Hj.
  destruct (Z.eqb_spec n1 m1) as [->|]; destruct (Z.eqb_spec n2 m2) as [->|]; cbn [andb];
    try (destruct (t0_match n1 n2 i r) as [r'|] || destruct (t0_match m1 n2 i r) as [r'|] || destruct (t0_match n1 m2 i r) as [r'|]; [|exact Logic.I];
      destruct IH as (h1 & h2 & h3); split; [discriminate|]; split; [constructor; assumption|];
      intros k1 k2; cbn [denv]; rewrite h3; unfold pw; ring).
  split; [discriminate|]. split; [constructor; [cbn [snd]; lia|assumption]|].
  intros k1 k2. cbn [denv]. unfold pw. fold (pw (/ (IZR m1 * k1 + IZR m2 * k2)) (i + j)).
  rewrite pow_lemma_pw by (right; lia). unfold pw. ring.
Qed.

Lemma t_mul_t0_sp n1 n2 i d : (0 <= i)%Z -> dok d ->
  returns (t_mul_t0 (n1, n2, i) d) (fun r => dok r /\
    forall k1 k2, denv k1 k2 r = pw (/ (IZR n1 * k1 + IZR n2 * k2)) i * denv k1 k2 d).
Proof.
  intros Hi [N F]. unfold t_mul_t0. destruct (Z.eqb_spec i 0) as [->|Hi0].
  { cbn [returns]. split; [now split|]. intros. rewrite pw_0. ring. }
  pose proof (t0_match_sp n1 n2 i d Hi F) as h. destruct (t0_match n1 n2 i d) as [r|].
  { cbn [returns]. destruct h as (h1 & h2 & h3). split; [now split|exact h3]. }
  destruct d as [|[[m1 m2] j] r]; [contradiction|]. inversion F as [|? ? Hj Fr]; subst. cbn [snd] in Hj.
  destruct (Z.eqb_spec j 0) as [->|Hj0]; cbn [negb returns].
  - split; [split; [discriminate|constructor; [cbn [snd]; lia|assumption]]|]. intros. cbn [denv]. unfold pw.
    change (powerRZ (/ (IZR m1 * k1 + IZR m2 * k2)) 0) with 1. ring.
  - split; [split; [discriminate|constructor; [cbn [snd]; lia|assumption]]|]. intros. cbn [denv]. unfold pw. ring.
Qed.
