(** Property C36: joint moments of the compound Poisson integrals of mdl_svcj. *)
From Coq Require Import Reals Lra.
From Coquelicot Require Import Coquelicot.
From Verif.Model Require Import SvcjIez.
From Verif.Spec Require Import Svcj.
From Verif.Proof Require Import SvcjIezTable SvcjMgf.
From Verif.Props Require Import PropsCpp.
Import Verif.Model.SvcjIez.
Local Open Scope R_scope.

(** C36: for all non-negative orders the function returns (no KeyError from its table, no failing
    product), every exponent is non-negative, in particular that of t-s, and the polynomial is the
    mixed derivative at 0 of the moment generating function, that is
    E[IEZ_{s,t}^n1 IZ_{s,t}^n2 IZ*_{s,t}^n3]. *)
Theorem C36_moment_ieziziz : forall n1 n2 n3, (0 <= n1)%Z -> (0 <= n2)%Z -> (0 <= n3)%Z ->
  exists p, moment_ieziziz n1 n2 n3 = Ok p /\
    keyfor p = ["e^{kt}"; "e^{ks}"; "t-s"; "k^{-}"; "lmbd"; "mu_v"; "mu_s"; "sigma_s"]%string /\
    NoDup (map fst (items p)) /\
    (forall key c, In (key, c) (items p) -> length key = 8%nat /\ forall e, In e key -> (0 <= e)%Z) /\
    forall k lam mv ms ss s t, k <> 0 ->
      eval (monx (ieziziz_vals k lam mv ms ss s t)) (items p) =
      Derive_n (fun a2 => Derive_n (fun a1 => Derive_n (fun a3 =>
        mgf_ieziziz k lam mv ms ss s t a1 a2 a3) (Z.to_nat n3) 0) (Z.to_nat n1) 0) (Z.to_nat n2) 0.
Proof.
  intros n1 n2 n3 H1 H2 H3.
  destruct (returns_inv _ _ (moment_ieziziz_spec n1 n2 n3 H1 H2 H3)) as (p & E & (h1 & h2 & h3) & h4).
  exists p. split; [assumption|]. split; [exact h1|]. split; [exact h2|]. split.
  - intros key c Hin. pose proof (allk_in _ _ _ _ h3 Hin) as W. unfold P_j, s8t in W. wfs_destruct.
    split; [reflexivity|]. intros e He. simpl in He. repeat (destruct He as [<-|He]; [assumption|]). destruct He.
  - intros k lam mv ms ss s t Hk. rewrite jmom_mgf by assumption. rewrite <- h4. reflexivity.
Qed.

(** As a function of t >= s the moments solve the forward equation of the jump process: a jump at
    time t (rate lmbd) adds (e^{kt} J, J, J* ), and E[J^m] = m! mu_v^m. *)
Theorem C36_forward : forall n1 n2 n3, (0 <= n1)%Z -> (0 <= n2)%Z -> (0 <= n3)%Z ->
  forall k lam mv ms ss s, k <> 0 ->
  let M i j l t := match moment_ieziziz i j l with
                   | Ok p => eval (monx (ieziziz_vals k lam mv ms ss s t)) (items p) | Err _ => 0 end in
  M n1 n2 n3 s = (if ((n1 =? 0) && (n2 =? 0) && (n3 =? 0))%Z then 1 else 0) /\
  forall t : R, is_derive (M n1 n2 n3) t
    (sumR (fun i => IZR (mcomb n1 i) * sumR (fun j => IZR (mcomb n2 j) * sumR (fun l => IZR (mcomb n3 l) *
       ((if (i + j + l =? 0)%Z then 0
         else lam * (IZR (fact (i + j)) * mv ^ Z.to_nat (i + j) * exp (k * t) ^ Z.to_nat i
                     * Derive_n (mgf_normal ms (ss ^ 2)) (Z.to_nat l) 0))
        * M (n1 - i)%Z (n2 - j)%Z (n3 - l)%Z t))
       (range 0 (n3 + 1))) (range 0 (n2 + 1))) (range 0 (n1 + 1))).
Proof.
  intros n1 n2 n3 H1 H2 H3 k lam mv ms ss s Hk M.
  assert (V0 : forall i j l t, (0 <= i)%Z -> (0 <= j)%Z -> (0 <= l)%Z ->
    M i j l t = jmom (jvals k lam mv ms ss s t) (Z.to_nat i) (Z.to_nat j) (Z.to_nat l)).
  { intros i j l t Hi Hj Hl. unfold M.
    destruct (returns_inv _ _ (moment_ieziziz_spec i j l Hi Hj Hl)) as (p & E & _ & h). rewrite E, <- h. reflexivity. }
  split.
  - rewrite V0 by assumption. rewrite jmom_ss.
    destruct (Z.eqb_spec n1 0) as [->|N1]; cbn [andb].
    + destruct (Z.eqb_spec n2 0) as [->|N2]; cbn [andb].
      * destruct (Z.eqb_spec n3 0) as [->|N3]; [reflexivity|]. destruct (Z.to_nat n3) eqn:X; [lia|reflexivity].
      * destruct (Z.to_nat n2) eqn:X; [lia|reflexivity].
    + destruct (Z.to_nat n1) eqn:X; [lia|reflexivity].
  - intro t. apply (is_derive_ext (fun t => jmom (jvals k lam mv ms ss s t) (Z.to_nat n1) (Z.to_nat n2) (Z.to_nat n3)));
      [intro y; symmetry; now apply V0|].
    eapply is_derive_val; [apply (jmom_t k lam mv ms ss Hk s t)|]. rewrite s3mul_sum.
    rewrite sumR_range0s by assumption. apply sumR_ext. intros a Ha. apply in_seq in Ha. unfold mcomb at 1. rewrite Nat2Z.id. f_equal.
    rewrite sumR_range0s by assumption. apply sumR_ext. intros b Hb. apply in_seq in Hb. unfold mcomb at 1. rewrite Nat2Z.id. f_equal.
    rewrite sumR_range0s by assumption. apply sumR_ext. intros c Hc. apply in_seq in Hc. unfold mcomb at 1. rewrite Nat2Z.id. f_equal.
    rewrite V0 by lia. f_equal; [|f_equal; lia].
    unfold jgam. destruct (Z.eqb_spec (Z.of_nat a + Z.of_nat b + Z.of_nat c) 0) as [E|N].
    + replace (a + b + c)%nat with O by lia. reflexivity.
    + destruct (a + b + c)%nat eqn:X; [lia|]. unfold fact.
      replace (Z.to_nat (Z.of_nat a + Z.of_nat b)) with (a + b)%nat by lia. rewrite normal_derive_n, G_at0. reflexivity.
Qed.

Theorem C36_negative : forall n1 n2 n3, (n1 < 0 \/ n2 < 0 \/ n3 < 0)%Z -> moment_ieziziz n1 n2 n3 = Err ValueError.
Proof.
  intros n1 n2 n3 H. unfold moment_ieziziz.
  destruct (Z.ltb_spec n1 0), (Z.ltb_spec n2 0), (Z.ltb_spec n3 0); try reflexivity. lia.
Qed.

Example C36_example : match moment_ieziziz 1 2 1 with Ok p => length (items p) = 8%nat | Err _ => False end.
Proof. vm_compute. reflexivity. Qed.
Example C36_value : exists p, moment_ieziziz 0 1 1 = Ok p /\
  items p = [([0; 0; 2; 0; 2; 1; 1; 0]%Z, 1%Q); ([0; 0; 1; 0; 1; 1; 1; 0]%Z, 1%Q)].
Proof. eexists. split; [vm_compute; reflexivity|]. reflexivity. Qed.
