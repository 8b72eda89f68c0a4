(** Moments of the noncentral chi-square law in closed form. *)
From Coq Require Import Reals Lra Lia List.
From Coquelicot Require Import Coquelicot.
From Verif.Proof Require Import SumFacts Calc.
From Verif.Spec Require Import Chi2.
Import ListNotations.
Local Open Scope R_scope.

Lemma sumR_last (f : nat -> R) n : sumR f (seq 0 (S n)) = sumR f (seq 0 n) + f n.
Proof. rewrite seq_S, sumR_app. cbn [sumR]. rewrite Nat.add_0_l. lra. Qed.
Lemma sumR_first (f : nat -> R) n : sumR f (seq 0 (S n)) = f O + sumR (fun j => f (S j)) (seq 0 n).
Proof. cbn [seq sumR]. rewrite <- seq_shift, sumR_map. reflexivity. Qed.

(** binomial(n, j) (x+j)(x+j+1)...(x+n-1) *)
Fixpoint cf (x : R) (n j : nat) : R :=
  match n with
  | O => match j with O => 1 | S _ => 0 end
  | S n => (x + INR n + INR j) * cf x n j + match j with O => 0 | S j => cf x n j end
  end.
Lemma cf_gt x n : forall j, (n < j)%nat -> cf x n j = 0.
Proof.
  induction n as [|n IH]; intros [|j] Hj; try lia; [reflexivity|]. cbn [cf]. rewrite !IH by lia. ring.
Qed.
Lemma cf_diag x n : cf x n n = 1.
Proof. induction n as [|n IH]; [reflexivity|]. cbn [cf]. rewrite IH, cf_gt by lia. ring. Qed.
Lemma cf_step x n : forall j, (INR n + 1 - INR j) * cf x (S n) j = (INR n + 1) * (x + INR n) * cf x n j.
Proof.
  induction n as [|n IH]; intro j.
  - destruct j as [|[|j]]; cbn [cf INR]; ring.
  - rewrite S_INR. set (a := INR n) in *.
    destruct j as [|j].
    + change (cf x (S (S n)) 0) with ((x + INR (S n) + INR 0) * cf x (S n) 0 + 0). rewrite S_INR. fold a. cbn [INR]. ring.
    + pose proof (IH j) as Ij. pose proof (IH (S j)) as Is. rewrite S_INR in *. set (b := INR j) in *.
      assert (e1 : cf x (S n) (S j) = (x + a + (b + 1)) * cf x n (S j) + cf x n j) by (cbn [cf]; rewrite ?S_INR; reflexivity).
      assert (e2 : cf x (S (S n)) (S j) = (x + (a + 1) + (b + 1)) * cf x (S n) (S j) + cf x (S n) j).
      { change (cf x (S (S n)) (S j)) with ((x + INR (S n) + INR (S j)) * cf x (S n) (S j) + cf x (S n) j). now rewrite !S_INR. }
      rewrite e2. set (A := cf x (S n) (S j)) in *. set (B := cf x (S n) j) in *. set (u := cf x n (S j)) in *. set (v := cf x n j) in *.
      assert (ev : v = A - (x + a + (b + 1)) * u) by lra. rewrite ev in Ij.
      transitivity ((a + 1 + 1 - (b + 1)) * (x + (a + 1) + (b + 1)) * A + (a + 1 - b) * B); [ring|]. rewrite Ij.
      transitivity ((a + 1 + 1 - (b + 1)) * (x + (a + 1) + (b + 1)) * A + (a + 1) * (x + a) * A - (x + a + (b + 1)) * ((a + 1) * (x + a) * u)); [ring|].
      rewrite <- Is. ring.
Qed.

(** the n-th derivative of the mgf is the mgf times this polynomial in u = 1/(1-2s) *)
Definition ncpoly (d l : R) (n : nat) (u : R) : R :=
  sumR (fun j => cf (d / 2) n j * l ^ j * 2 ^ (n - j) * u ^ (n + j)) (seq 0 (S n)).
Definition ncpoly' (d l : R) (n : nat) (u : R) : R :=
  sumR (fun j => cf (d / 2) n j * l ^ j * 2 ^ (n - j) * (INR (n + j) * u ^ pred (n + j))) (seq 0 (S n)).
Lemma ncpoly_derive d l n u : is_derive (ncpoly d l n) u (ncpoly' d l n u).
Proof.
  apply (is_derive_sumR (fun j u => cf (d / 2) n j * l ^ j * 2 ^ (n - j) * u ^ (n + j))).
  intros j _. apply is_derive_Rscal. auto_derive; [exact I|ring].
Qed.
Lemma ncpoly_S d l n u : ncpoly d l (S n) u = (d * u + l * u ^ 2) * ncpoly d l n u + 2 * u ^ 2 * ncpoly' d l n u.
Proof.
  unfold ncpoly, ncpoly'.
  transitivity (sumR (fun j => (d / 2 + INR n + INR j) * cf (d / 2) n j * l ^ j * 2 ^ (S n - j) * u ^ (S n + j)) (seq 0 (S (S n)))
    + sumR (fun j => match j with O => 0 | S i => cf (d / 2) n i end * l ^ j * 2 ^ (S n - j) * u ^ (S n + j)) (seq 0 (S (S n)))).
  { rewrite <- sumR_plus. apply sumR_ext. intros j _. cbn [cf]. ring. }
  rewrite (sumR_last _ (S n)), cf_gt by lia. rewrite (sumR_first _ (S n)).
  rewrite <- !sumR_scal, Rmult_0_l, !Rmult_0_l. rewrite Rmult_0_r, !Rmult_0_l, Rplus_0_r, Rplus_0_l, <- !sumR_plus.
  apply sumR_ext. intros j Hj. apply in_seq in Hj.
  replace (S n - S j)%nat with (n - j)%nat by lia. replace (S n - j)%nat with (S (n - j)) by lia.
  replace (S n + S j)%nat with (S (S (n + j))) by lia. replace (S n + j)%nat with (S (n + j)) by lia.
  set (c := cf (d / 2) n j). destruct (n + j)%nat as [|q] eqn:Eq.
  - assert (n = O) by lia. assert (j = O) by lia. subst n j. cbn [pow INR]. field.
  - assert (eq : INR n + INR j = INR q + 1) by (rewrite <- plus_INR, Eq, S_INR; ring). cbn [pred]. rewrite S_INR.
    replace (d / 2 + INR n + INR j) with (d / 2 + (INR q + 1)) by lra. cbn [pow]. field.
Qed.

Lemma mgf_derive d l s : s < 1 / 2 -> is_derive (mgf_ncx2 d l) s (mgf_ncx2 d l s * (d * (/ (1 - 2 * s)) + l * (/ (1 - 2 * s)) ^ 2)).
Proof.
  intro Hs. unfold mgf_ncx2, Rpower. auto_derive; [split; [lra|split; [lra|exact I]]|]. unfold Rminus, Rdiv. field. lra.
Qed.
Lemma u_derive s : s < 1 / 2 -> is_derive (fun s => / (1 - 2 * s)) s (2 * (/ (1 - 2 * s)) ^ 2).
Proof. intro Hs. auto_derive; [lra|]. field. lra. Qed.

Lemma mgf_derive_n d l n : forall s, s < 1 / 2 -> Derive_n (mgf_ncx2 d l) n s = mgf_ncx2 d l s * ncpoly d l n (/ (1 - 2 * s)).
Proof.
  induction n as [|n IH]; intros s Hs.
  - cbn [Derive_n]. unfold ncpoly. cbn [seq sumR cf pow Nat.sub Nat.add]. ring.
  - cbn [Derive_n]. rewrite (Derive_ext_loc _ (fun s => mgf_ncx2 d l s * ncpoly d l n (/ (1 - 2 * s)))).
    2: { apply (locally_interval _ s m_infty (1 / 2)); [exact I|exact Hs|]. intros y _ Hy. apply IH. exact Hy. }
    apply is_derive_unique. rewrite ncpoly_S.
    eapply is_derive_val; [apply (is_derive_mult (mgf_ncx2 d l) (fun s => ncpoly d l n (/ (1 - 2 * s)))); [now apply mgf_derive| |intros; apply Rmult_comm]|].
    + eapply is_derive_comp; [apply ncpoly_derive|now apply u_derive].
    + unfold plus, mult, scal. cbn. unfold mult. cbn. ring.
Qed.

Theorem ncmom_closed d l n : ncmom d l n = sumR (fun j => cf (d / 2) n j * l ^ j * 2 ^ (n - j)) (seq 0 (S n)).
Proof.
  unfold ncmom. rewrite mgf_derive_n by lra. unfold mgf_ncx2, Rpower, ncpoly.
  replace (1 - 2 * 0) with 1 by ring. rewrite ln_1, Rmult_0_r, Rdiv_1, Rmult_0_r, exp_0, !Rmult_1_l.
  apply sumR_ext. intros j _. rewrite Rinv_1, pow1. ring.
Qed.
