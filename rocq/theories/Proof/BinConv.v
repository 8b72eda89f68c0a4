(** Binomial convolution of sequences: (f * g)_n = sum_k C(n,k) f_k g_{n-k}. *)
From Coq Require Import Reals Lra.
From Coquelicot Require Import Coquelicot.
From Verif.Proof Require Export Calc CppProofs.
Local Open Scope R_scope.

Definition bc (f g : nat -> R) (n : nat) : R :=
  sumR (fun k => IZR (combN n k) * (f k * g (n - k)%nat)) (seq 0 (S n)).
Definition sh (f : nat -> R) (n : nat) : R := f (S n).
Definition dlt (n : nat) : R := match n with O => 1 | _ => 0 end.
Definition epow (a : R) (n : nat) : R := a ^ n.

Lemma bc_ext f f' g g' n : (forall k, (k <= n)%nat -> f k = f' k) -> (forall k, (k <= n)%nat -> g k = g' k) ->
  bc f g n = bc f' g' n.
Proof.
  intros h1 h2. unfold bc. apply sumR_ext. intros k Hk. apply in_seq in Hk.
  now rewrite h1, h2 by lia.
Qed.
Lemma bc_0 f g : bc f g 0 = f 0%nat * g 0%nat.
Proof. unfold bc. simpl. ring. Qed.
Lemma bc_S f g n : bc f g (S n) = bc (sh f) g n + bc f (sh g) n.
Proof.
  unfold bc at 1. rewrite (pascal_sum n (fun k => f k * g (S n - k)%nat)).
  unfold bc, sh. rewrite <- sumR_plus. apply sumR_ext. intros k Hk. apply in_seq in Hk.
  replace (S n - k)%nat with (S (n - k)) by lia. simpl (S n - S k)%nat. ring.
Qed.
Lemma bc_plus_l f f' g n : bc (fun k => f k + f' k) g n = bc f g n + bc f' g n.
Proof. unfold bc. rewrite <- sumR_plus. apply sumR_ext. intros; ring. Qed.
Lemma bc_plus_r f g g' n : bc f (fun k => g k + g' k) n = bc f g n + bc f g' n.
Proof. unfold bc. rewrite <- sumR_plus. apply sumR_ext. intros; ring. Qed.
Lemma bc_scal_l c f g n : bc (fun k => c * f k) g n = c * bc f g n.
Proof. unfold bc. rewrite <- sumR_scal. apply sumR_ext. intros; ring. Qed.
Lemma bc_scal_r c f g n : bc f (fun k => c * g k) n = c * bc f g n.
Proof. unfold bc. rewrite <- sumR_scal. apply sumR_ext. intros; ring. Qed.
Lemma bc_zero_l g n : bc (fun _ => 0) g n = 0.
Proof. unfold bc. rewrite (sumR_ext _ (fun _ => 0)) by (intros; ring). apply sumR_0. reflexivity. Qed.
Lemma bc_zero_r f n : bc f (fun _ => 0) n = 0.
Proof. unfold bc. rewrite (sumR_ext _ (fun _ => 0)) by (intros; ring). apply sumR_0. reflexivity. Qed.

Lemma bc_comm n : forall f g, bc f g n = bc g f n.
Proof.
  induction n as [|n IH]; intros f g; [rewrite !bc_0; ring|].
  rewrite !bc_S, (IH (sh f) g), (IH f (sh g)). ring.
Qed.
Lemma bc_assoc n : forall f g h, bc (bc f g) h n = bc f (bc g h) n.
Proof.
  induction n as [|n IH]; intros f g h; [rewrite !bc_0; ring|].
  rewrite !bc_S.
  rewrite (bc_ext (sh (bc f g)) (fun k => bc (sh f) g k + bc f (sh g) k) h h) by (intros; auto; apply bc_S).
  rewrite (bc_ext f f (sh (bc g h)) (fun k => bc (sh g) h k + bc g (sh h) k)) by (intros; auto; apply bc_S).
  rewrite bc_plus_l, bc_plus_r, !IH. ring.
Qed.
Lemma bc_swap f g h n : bc f (bc g h) n = bc g (bc f h) n.
Proof. rewrite <- !bc_assoc. apply bc_ext; [|reflexivity]. intros; apply bc_comm. Qed.
Lemma bc_dlt_l f n : bc dlt f n = f n.
Proof.
  revert f. induction n as [|n IH]; intro f; [rewrite bc_0; simpl; ring|].
  rewrite bc_S, (bc_ext (sh dlt) (fun _ => 0) f f) by auto. rewrite bc_zero_l, IH. unfold sh. ring.
Qed.
Lemma bc_dlt_r f n : bc f dlt n = f n.
Proof. rewrite bc_comm. apply bc_dlt_l. Qed.
Lemma sh_epow a n : sh (epow a) n = a * epow a n.
Proof. reflexivity. Qed.
Lemma bc_epow x y n : bc (epow x) (epow y) n = (x + y) ^ n.
Proof.
  induction n as [|n IH]; [rewrite bc_0; unfold epow; simpl; ring|].
  rewrite bc_S, (bc_ext _ (fun k => x * epow x k) _ (epow y)) by auto.
  rewrite (bc_ext (epow x) (epow x) (sh (epow y)) (fun k => y * epow y k)) by auto.
  rewrite bc_scal_l, bc_scal_r, IH. simpl. ring.
Qed.

Lemma bc_derive (f g : R -> nat -> R) f' g' (t : R) n :
  (forall k, (k <= n)%nat -> is_derive (fun t => f t k) t (f' k)) ->
  (forall k, (k <= n)%nat -> is_derive (fun t => g t k) t (g' k)) ->
  is_derive (fun t => bc (f t) (g t) n) t (bc f' (g t) n + bc (f t) g' n).
Proof.
  intros h1 h2. unfold bc. rewrite <- sumR_plus.
  apply (is_derive_sumR (fun k t => IZR (combN n k) * (f t k * g t (n - k)%nat))).
  intros k Hk. apply in_seq in Hk.
  eapply is_derive_val; [apply is_derive_Rscal, is_derive_Rmult; [apply h1; lia|apply h2; lia]|]. cbv beta. ring.
Qed.

(** A sequence with exponential cumulant structure m' = (sh kappa) * m moves like its cumulants. *)
Lemma cumulant_derive (m ka : R -> nat -> R) (ga : nat -> R) (t : R) :
  (forall u, m u 0%nat = 1) -> (forall u n, m u (S n) = bc (sh (ka u)) (m u) n) ->
  ga 0%nat = 0 -> (forall j, is_derive (fun u => ka u (S j)) t (ga (S j))) ->
  forall n, is_derive (fun u => m u n) t (bc ga (m t) n).
Proof.
  intros m0 mS g0 hk.
  enough (W : forall N n, (n <= N)%nat -> is_derive (fun u => m u n) t (bc ga (m t) n)) by (intro n; now apply (W n n)).
  induction N as [|N IH]; intros n Hn.
  - replace n with O by lia. apply (is_derive_ext_loc_all (fun _ => 1)); [intro u; now rewrite m0|].
    rewrite bc_0, g0. eapply is_derive_val; [apply is_derive_Rconst|ring].
  - destruct n as [|n]; [apply IH; lia|].
    apply (is_derive_ext_loc_all (fun u => bc (sh (ka u)) (m u) n)); [intro u; now rewrite mS|].
    eapply is_derive_val.
    + apply (bc_derive (fun u => sh (ka u)) m (sh ga) (bc ga (m t)));
        [intros k Hk; apply hk|intros k Hk; apply IH; lia].
    + rewrite bc_S, (bc_ext ga ga (sh (m t)) (bc (sh (ka t)) (m t))) by (intros; auto; apply mS).
      f_equal. apply bc_swap.
Qed.
