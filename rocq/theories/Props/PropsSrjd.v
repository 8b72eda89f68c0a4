(** Property C29: moments of the exponentially weighted compound Poisson integral of mdl_srjd. *)
From Coq Require Import Reals Lra.
From Coquelicot Require Import Coquelicot.
From Verif.Model Require Import SrjdIez.
From Verif.Spec Require Import Srjd.
From Verif.Proof Require Import SrjdIezProofs Realise.
Local Open Scope R_scope.

(** C29: the n-th moment is the n-th derivative at 0 of the moment generating function
    exp(lmbd int_s^t (1/(1 - mu_v e^{ku} x) - 1) du) of int_s^t e^{ku} dZ_u; in particular the
    self-check on the power of t-s never raises. *)
Theorem C29_moment_IEZ : forall n, (0 <= n)%Z ->
  exists p, moment_IEZ n = Ok p /\ keyfor p = ["e^{kt}"; "e^{ks}"; "k^{-}"; "lmbd"; "mu_v"]%string /\
    forall k lam mu s t, k <> 0 ->
      eval (monx (iez_vals k lam mu s t)) (items p) = Derive_n (mgf_iez k lam mu s t) (Z.to_nat n) 0.
Proof.
  intros n Hn. destruct (returns_inv _ _ (moment_IEZ_spec n Hn)) as (p & E & [h1 _] & h2).
  exists p. split; [assumption|]. split; [exact h1|]. intros k lam mu s t Hk.
  rewrite iez_derive_n by assumption. rewrite <- h2. reflexivity.
Qed.

(** The cumulants of int_s^t e^{ku} dZ_u are lmbd (j-1)! mu_v^j (e^{jkt} - e^{jks}) / k. *)
Theorem C29_recurrence : forall n, (0 <= n)%Z ->
  exists q, moment_IEZ (n + 1) = Ok q /\
    forall k lam mu s t, k <> 0 ->
      let val p := match p with Ok r => eval (monx (iez_vals k lam mu s t)) (items r) | Err _ => 0 end in
      eval (monx (iez_vals k lam mu s t)) (items q) =
      sumR (fun j => IZR (mcomb n j) *
                     (lam * IZR (fact j) * mu ^ Z.to_nat (j + 1) / k *
                      (exp (IZR (j + 1) * (k * t)) - exp (IZR (j + 1) * (k * s)))) *
                     val (moment_IEZ (n - j))) (range 0 (n + 1)).
Proof.
  intros n Hn. destruct (returns_inv _ _ (moment_IEZ_spec (n + 1) ltac:(lia))) as (q & E & _ & h).
  exists q. split; [assumption|]. intros k lam mu s t Hk val.
  assert (V : forall m, (0 <= m)%Z -> val (moment_IEZ m) = iezm (iezv k lam mu s t) (Z.to_nat m)).
  { intros m Hm. destruct (returns_inv _ _ (moment_IEZ_spec m Hm)) as (r & Er & _ & hr).
    unfold val. rewrite Er. rewrite <- hr. reflexivity. }
  change (eval (monx (iez_vals k lam mu s t)) (items q)) with (evp mon_iez (iezv k lam mu s t) q).
  rewrite h. replace (Z.to_nat (n + 1)) with (S (Z.to_nat n)) by lia.
  rewrite iezm_S, sumR_range0s by assumption. apply sumR_ext. intros j Hj. apply in_seq in Hj.
  rewrite V by lia. unfold iezk. rewrite gj_0. unfold mcomb, fact. rewrite !Nat2Z.id.
  replace (Z.to_nat (n - Z.of_nat j)) with (Z.to_nat n - j)%nat by lia.
  replace (Z.to_nat (Z.of_nat j + 1)) with (S j) by lia. cbn [iezv xl xi xm xt xs].
  assert (X : forall x m, exp x ^ m = exp (INR m * x)).
  { intros x m. induction m as [|m IH]; [simpl; rewrite Rmult_0_l, exp_0; reflexivity|].
    rewrite S_INR. simpl pow. rewrite IH, <- exp_plus. f_equal. ring. }
  rewrite !Rpow_mult_distr, !X.
  replace (IZR (Z.of_nat j + 1)) with (INR (S j)) by (rewrite INR_IZR_INZ; f_equal; lia).
  unfold Rdiv. ring.
Qed.

Theorem C29_negative : forall n, (n < 0)%Z -> moment_IEZ n = Err ValueError /\ cmoment_IEZ n = Err ValueError.
Proof. intros n Hn. unfold moment_IEZ, cmoment_IEZ. destruct (Z.ltb_spec n 0); [split; reflexivity|lia]. Qed.

(** Central moments: whatever variable X has the moments above. *)
Theorem C29_cmoment_IEZ : forall n, (0 <= n)%Z ->
  exists p, cmoment_IEZ n = Ok p /\ keyfor p = ["e^{kt}"; "e^{ks}"; "k^{-}"; "lmbd"; "mu_v"]%string /\
    forall k lam mu s t, k <> 0 -> forall Om (E : (Om -> R) -> R) X, expectation E ->
      (forall i, (i <= Z.to_nat n)%nat -> E (fun w => X w ^ i) = Derive_n (mgf_iez k lam mu s t) i 0) ->
      eval (monx (iez_vals k lam mu s t)) (items p) = E (fun w => (X w - E X) ^ Z.to_nat n).
Proof.
  intros n Hn. destruct (returns_inv _ _ (cmoment_IEZ_spec n Hn)) as (p & E & [h1 _] & h2).
  exists p. split; [assumption|]. split; [exact h1|]. intros k lam mu s t Hk Om EE X HE h.
  transitivity (ciezm (iezv k lam mu s t) (Z.to_nat n)); [apply (h2 (iezv k lam mu s t))|].
  destruct (Z.to_nat n) as [|m] eqn:En.
  - simpl pow. pose proof (h 0%nat ltac:(lia)) as h0. simpl in h0.
    unfold mgf_iez in h0. rewrite h0. rewrite (RInt_ext _ (fun _ => 0)).
    + rewrite RInt_const. unfold scal; simpl; unfold mult; simpl. rewrite !Rmult_0_r, exp_0.
      unfold ciezm. cbn [seq sumR combN Nat.sub pow]. rewrite iezm_0. ring.
    + assert (Z0 : forall u : R, / (1 - mu * (exp (k * u) * 0)) - 1 = 0) by (intro u; rewrite !Rmult_0_r; field).
      intros u _. apply Z0.
  - symmetry. apply ciezm_E; [assumption|lia|]. intros i Hi. rewrite h by assumption. now apply iez_derive_n.
Qed.

Example C29_example : match moment_IEZ 3 with Ok p => length (items p) = 10%nat | Err _ => False end.
Proof. vm_compute. reflexivity. Qed.
Example C29_cexample : match cmoment_IEZ 3 with Ok p => length (items p) = 2%nat | Err _ => False end.
Proof. vm_compute. reflexivity. Qed.
Example C29_hyp : exists (E : (R -> R) -> R) (X : R -> R), expectation E /\
  forall i, (i <= 3)%nat -> E (fun w => X w ^ i) = Derive_n (mgf_iez 1 2 3 0 1) i 0.
Proof.
  exists (Efin (realise1 3 (fun i => Derive_n (mgf_iez 1 2 3 0 1) i 0))), (fun x => x).
  split; [apply Efin_expectation|]. intros i Hi. now apply realise1_spec.
Qed.
