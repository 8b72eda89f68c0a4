(** Moments of X + x from those of X, and the moments of a square-root diffusion along time. *)
From Coq Require Import Reals Lra Lia List.
From Coquelicot Require Import Coquelicot.
From Verif.Proof Require Import SumFacts Calc ExpectFacts Chi2Mom.
Import ListNotations.
Local Open Scope R_scope.

(** sum over j of binomial(a, j) x^{a-j} f(j) *)
Fixpoint bt (a : nat) (x : R) (f : nat -> R) : R :=
  match a with O => f O | S a => x * bt a x f + bt a x (fun j => f (S j)) end.

Lemma bt_ext a x : forall f g, (forall j, (j <= a)%nat -> f j = g j) -> bt a x f = bt a x g.
Proof.
  induction a as [|a IH]; intros f g H; cbn [bt]; [apply H; lia|].
  rewrite (IH f g), (IH (fun j => f (S j)) (fun j => g (S j))); [reflexivity| |]; intros; apply H; lia.
Qed.
Lemma bt_plus a x : forall f g, bt a x (fun j => f j + g j) = bt a x f + bt a x g.
Proof.
  induction a as [|a IH]; intros f g; cbn [bt]; [reflexivity|]. rewrite IH, (IH (fun j => f (S j))). ring.
Qed.
Lemma bt_scal a x c : forall f, bt a x (fun j => c * f j) = c * bt a x f.
Proof. induction a as [|a IH]; intro f; cbn [bt]; [reflexivity|]. rewrite IH, (IH (fun j => f (S j))). ring. Qed.
Lemma bt_0 a : forall f, bt a 0 f = f a.
Proof. induction a as [|a IH]; intro f; cbn [bt]; [reflexivity|]. rewrite IH, (IH (fun j => f (S j))). ring. Qed.
Lemma bt_bt a x y : forall f, bt a y (fun n => bt n x f) = bt a (x + y) f.
Proof.
  induction a as [|a IH]; intro f; cbn [bt]; [reflexivity|].
  rewrite bt_plus, bt_scal, !IH. ring.
Qed.
Lemma bt_pow a x y : bt a x (fun j => y ^ j) = (x + y) ^ a.
Proof.
  enough (G : forall c, bt a x (fun j => c * y ^ j) = c * (x + y) ^ a).
  { rewrite (bt_ext _ _ _ (fun j => 1 * y ^ j)) by (intros; ring). rewrite G. ring. }
  induction a as [|a IH]; intro c; cbn [bt pow]; [reflexivity|].
  rewrite IH, (bt_ext a x (fun j => c * (y * y ^ j)) (fun j => (c * y) * y ^ j)) by (intros; ring). rewrite IH. ring.
Qed.
Lemma bt_E {Om} (E : (Om -> R) -> R) (HE : expectation E) a x (X : Om -> R) : forall g,
  E (fun w => g w * (x + X w) ^ a) = bt a x (fun j => E (fun w => g w * X w ^ j)).
Proof.
  induction a as [|a IH]; intro g; cbn [bt].
  - apply (E_ext E HE). intro w. reflexivity.
  - rewrite <- IH. transitivity (x * E (fun w => g w * (x + X w) ^ a) + E (fun w => (g w * X w) * (x + X w) ^ a)).
    + rewrite <- (E_scal E HE), <- (E_plus E HE). apply (E_ext E HE). intro w. cbn [pow]. ring.
    + f_equal. rewrite IH. apply bt_ext. intros j _. apply (E_ext E HE). intro w. cbn [pow]. ring.
Qed.

(** j f(j-1) *)
Definition dl (f : nat -> R) (j : nat) : R := INR j * f (pred j).
Lemma bt_dl a x : forall f, bt a x (dl f) = INR a * bt (pred a) x f.
Proof.
  induction a as [|a IH]; intro f; [unfold dl; cbn [bt INR]; ring|]. cbn [bt pred].
  rewrite (bt_ext a x (fun j => dl f (S j)) (fun j => f j + dl (fun i => f (S i)) j)).
  - rewrite bt_plus, !IH, S_INR. destruct a as [|a]; [cbn [INR pred]; ring|]. cbn [pred bt]. ring.
  - intros j _. unfold dl. rewrite S_INR. cbn [pred]. destruct j as [|j]; [cbn [INR pred]; ring|]. cbn [pred]. ring.
Qed.
Lemma bt_derive a (x : R -> R) (x' t : R) : is_derive x t x' -> forall (f : nat -> R -> R) (f' : nat -> R),
  (forall j, (j <= a)%nat -> is_derive (f j) t (f' j)) ->
  is_derive (fun t => bt a (x t) (fun j => f j t)) t (INR a * x' * bt (pred a) (x t) (fun j => f j t) + bt a (x t) f').
Proof.
  intro Hx. induction a as [|a IH]; intros f f' Hf; cbn [bt].
  - eapply is_derive_val; [apply Hf; lia|]. cbn [INR]. ring.
  - eapply is_derive_val.
    + apply is_derive_Rplus; [apply is_derive_Rmult; [exact Hx|apply IH; intros; apply Hf; lia]|].
      apply (IH (fun j => f (S j)) (fun j => f' (S j))). intros; apply Hf; lia.
    + cbn [pred]. rewrite S_INR. destruct a as [|a]; [cbn [INR pred bt]; ring|]. cbn [pred bt]. change (fun j => f' j) with f'. ring.
Qed.

(** the moments of the diffusion e^{kt} v_t from those at an earlier time: q = sigma^2/2 (e^{kt} - e^{ks})/k, x = 2 k theta/sigma^2 *)
Definition pr (x q : R) (n : nat) (f : nat -> R) : R := sumR (fun j => cf x n j * q ^ (n - j) * f j) (seq 0 (S n)).
Lemma pr_ext x q n f g : (forall j, (j <= n)%nat -> f j = g j) -> pr x q n f = pr x q n g.
Proof. intro H. unfold pr. apply sumR_ext. intros j Hj. apply in_seq in Hj. rewrite H by lia. reflexivity. Qed.
Lemma pr_scal x q n c f : pr x q n (fun j => c * f j) = c * pr x q n f.
Proof. unfold pr. rewrite <- sumR_scal. apply sumR_ext. intros. ring. Qed.
Lemma pr_0 x n f : pr x 0 n f = f n.
Proof.
  unfold pr. rewrite sumR_last, sumR_0.
  - rewrite Nat.sub_diag, cf_diag. cbn [pow]. ring.
  - intros j Hj. apply in_seq in Hj. rewrite pow_i by lia. ring.
Qed.
Lemma pr_derive x n f (q : R -> R) q' t : is_derive q t q' ->
  is_derive (fun t => pr x (q t) n f) t (q' * (INR n * (x + INR n - 1) * pr x (q t) (pred n) f)).
Proof.
  intro Hq. destruct n as [|n].
  - unfold pr. cbn [seq sumR cf pow Nat.sub INR]. eapply is_derive_val; [apply is_derive_Rconst|]. ring.
  - cbn [pred]. rewrite S_INR. unfold pr. apply (is_derive_ext_loc_all (fun t => sumR (fun j => (cf x (S n) j * f j) * q t ^ (S n - j)) (seq 0 (S n)) + f (S n))).
    + intro u. rewrite (sumR_last _ (S n)), Nat.sub_diag, cf_diag. cbn [pow]. f_equal; [|ring]. apply sumR_ext. intros. ring.
    + eapply is_derive_val.
      * apply is_derive_Rplus; [|apply is_derive_Rconst]. apply (is_derive_sumR (fun j t => (cf x (S n) j * f j) * q t ^ (S n - j))).
        intros j Hj. apply is_derive_Rscal. apply (is_derive_Rpow q (S n - j) t q' Hq).
      * rewrite Rplus_0_r, <- !sumR_scal. apply sumR_ext. intros j Hj. apply in_seq in Hj.
        pose proof (cf_step x n j) as e. replace (S n - j)%nat with (S (n - j)) by lia. cbn [pred]. rewrite S_INR, minus_INR by lia.
        transitivity (q' * (((INR n + 1 - INR j) * cf x (S n) j) * q t ^ (n - j) * f j)); [ring|]. rewrite e. ring.
Qed.
