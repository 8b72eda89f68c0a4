(** Proofs about ito_mom.moment_v (C13). *)
From Coq Require Import Reals Lra.
From Coquelicot Require Import Coquelicot.
From Verif.Spec Require Export Gamma.
From Verif.Model Require Export ItoMom.
From Verif.Proof Require Export Calc KeyInv.
Local Open Scope R_scope.

Definition vk (k : list Z) : Prop := length k = 2%nat /\ (0 <= nthZ k 0)%Z /\ (0 <= nthZ k 1)%Z.

Lemma moment_v_step_spec p i : allk vk (items p) -> 
  keyfor (moment_v_step p i) = kf_v /\ allk vk (items (moment_v_step p i)) /\
  uniq (items (moment_v_step p i)) /\
  forall th x, eval (monx [th; x]) (items (moment_v_step p i))
    = eval (monx [th; x]) (items p) * (th + IZR (i - 1) * x / 2).
Proof.
  intro W. unfold moment_v_step; cbn [items keyfor]. split; [reflexivity|].
  set (f := fun a kv => _).
  assert (L : forall l a, (forall k v, In (k, v) l -> vk k) -> allk vk a -> uniq a ->
    allk vk (fold_left f l a) /\ uniq (fold_left f l a) /\
    forall th x, eval (monx [th; x]) (fold_left f l a)
      = eval (monx [th; x]) a + eval (monx [th; x]) l * (th + IZR (i - 1) * x / 2)).
  { induction l as [|[k v] r IH]; intros a Hl Ha Ua; cbn [fold_left eval].
    - split; [assumption|]. split; [assumption|]. intros; ring.
    - destruct (Hl k v (or_introl eq_refl)) as (h0 & h1 & h2).
      destruct (IH (f a (k, v))) as (g1 & g2 & g3).
      + intros; eapply Hl; right; eauto.
      + unfold f; cbn [fst snd]. repeat apply allk_add_kv; [assumption| |];
          unfold vk, nthZ in *; simpl; lia.
      + unfold f; cbn [fst snd]. now repeat apply uniq_add_kv.
      + split; [assumption|]. split; [assumption|]. intros th x. rewrite g3.
        unfold f; cbn [fst snd]. rewrite !eval_add_kv.
        rewrite !monx_2 by (simpl; lia). unfold nthZ in *; cbn [nth].
        rewrite !pw_succ by (right; assumption).
        rewrite Q2R_mul, Q2R_Frac by lia. field. }
  destruct (L (items p) []) as (g1 & g2 & g3).
  - intros k v Hin. eapply allk_in; eauto.
  - apply allk_nil.
  - apply uniq_nil.
  - split; [assumption|]. split; [assumption|]. intros th x. rewrite g3. simpl. ring.
Qed.

Lemma moment_v_spec (n : Z) : (0 <= n)%Z ->
  returns (moment_v n) (fun p => keyfor p = kf_v /\ allk vk (items p) /\ uniq (items p) /\
    forall th x, eval (monx [th; x]) (items p) = gmom th x (Z.to_nat n)).
Proof.
  intro Hn. unfold moment_v.
  destruct (Z.eqb_spec n 0) as [->|N0].
  { cbn [returns items keyfor]. split; [reflexivity|]. split; [|split].
    - intros k [<-|[]]. unfold vk, nthZ; simpl; lia.
    - repeat constructor; simpl; tauto.
    - intros th x. simpl. unfold Q2R; simpl. field. }
  assert (B : keyfor (mkPoly [([1; 0]%Z, 1%Q)] kf_v) = kf_v /\ allk vk [([1; 0]%Z, 1%Q)] /\
    uniq [([1; 0]%Z, 1%Q)] /\ forall th x, eval (monx [th; x]) [([1; 0]%Z, 1%Q)] = gmom th x 1).
  { split; [reflexivity|]. split; [|split].
    - intros k [<-|[]]. unfold vk, nthZ; simpl; lia.
    - repeat constructor; simpl; tauto.
    - intros th x. simpl. unfold Q2R; simpl. field. }
  destruct (Z.eqb_spec n 1) as [->|N1]; [exact B|].
  destruct (Z.ltb_spec n 2); [lia|]. cbn [returns].
  assert (L : forall m i p, (1 <= i)%Z -> keyfor p = kf_v -> allk vk (items p) -> uniq (items p) ->
    (forall th x, eval (monx [th; x]) (items p) = gmom th x (Z.to_nat i)) ->
    let r := fold_left moment_v_step (range (i + 1) (i + 1 + Z.of_nat m)) p in
    keyfor r = kf_v /\ allk vk (items r) /\ uniq (items r) /\
    forall th x, eval (monx [th; x]) (items r) = gmom th x (Z.to_nat i + m)).
  { induction m as [|m IH]; intros i p Hi h1 h2 h3 h4.
    - rewrite range_nil by lia. cbn [fold_left]. rewrite Nat.add_0_r. auto.
    - rewrite range_cons by lia. cbn [fold_left].
      destruct (moment_v_step_spec p (i + 1) h2) as (g1 & g2 & g3 & g4).
      replace (i + 1 + Z.of_nat (S m))%Z with (i + 1 + 1 + Z.of_nat m)%Z by lia.
      replace (Z.to_nat i + S m)%nat with (Z.to_nat (i + 1) + m)%nat by lia.
      apply IH; try assumption; [lia|]. intros th x. rewrite g4, h4.
      replace (Z.to_nat (i + 1)) with (S (Z.to_nat i)) by lia. cbn [gmom].
      rewrite INR_IZR_INZ, Z2Nat.id by lia. do 4 f_equal. f_equal. lia. }
  destruct B as (b1 & b2 & b3 & b4).
  pose proof (L (Z.to_nat (n - 1)) 1%Z _ ltac:(lia) b1 b2 b3 b4) as h.
  rewrite Z2Nat.id in h by lia. replace (1 + 1 + (n - 1))%Z with (n + 1)%Z in h by lia.
  replace (Z.to_nat 1 + Z.to_nat (n - 1))%nat with (Z.to_nat n) in h by lia. exact h.
Qed.

(** the Gamma law with mean th and variance th*b: MGF (1 - b s)^(-th/b) *)
Definition mgf_gamma (th b s : R) : R := exp (- (th / b) * ln (1 - b * s)).

Lemma mgf_gamma_derive_n th b n : 0 < b -> forall s, b * s < 1 ->
  Derive_n (mgf_gamma th b) n s = gmom th (2 * b) n * exp (- (th / b + INR n) * ln (1 - b * s)).
Proof.
  intros Hb. induction n as [|n IH]; intros s Hs.
  - simpl. unfold mgf_gamma. rewrite Rplus_0_r. ring.
  - cbn [Derive_n].
    rewrite (Derive_ext_loc _ (fun s => gmom th (2 * b) n * exp (- (th / b + INR n) * ln (1 - b * s)))).
    + apply is_derive_unique. eapply is_derive_val.
      * apply is_derive_Rscal, is_derive_Rexp, is_derive_Rscal.
        apply (is_derive_Rcomp ln (fun s => 1 - b * s)).
        -- apply is_derive_ln. lra.
        -- apply is_derive_Rminus; [apply is_derive_Rconst|apply is_derive_lin].
      * cbn [gmom]. rewrite S_INR.
        replace (- (th / b + (INR n + 1)) * ln (1 - b * s))
          with (- (th / b + INR n) * ln (1 - b * s) + - ln (1 - b * s)) by ring.
        rewrite exp_plus, exp_Ropp, exp_ln by lra. field. split; lra.
    + assert (Hp : 0 < (1 - b * s) / b) by (apply Rdiv_lt_0_compat; lra).
      exists (mkposreal _ Hp). intros y Hy. apply IH.
      unfold ball in Hy; simpl in Hy. unfold AbsRing_ball, minus, plus, opp, abs in Hy; simpl in Hy.
      apply Rabs_def2 in Hy. destruct Hy as [Hy _].
      apply (Rmult_lt_compat_l b) in Hy; [|assumption]. field_simplify in Hy; lra.
Qed.
