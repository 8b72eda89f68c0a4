(** The binomial formula under an expectation. *)
From Coq Require Import Reals Lra Lia.
From Verif.Spec Require Import Consist Ito.
From Verif.Base Require Import Prelude.
From Verif.Proof Require Import ItoProofs Fsv1Proofs.
Local Open Scope R_scope.

Lemma E_sum_f {Om} (E : (Om -> R) -> R) (HE : expectation E) (f : nat -> Om -> R) n :
  E (fun w => sum_f_R0 (fun i => f i w) n) = sum_f_R0 (fun i => E (f i)) n.
Proof.
  induction n as [|n IH]; cbn [sum_f_R0]; [reflexivity|].
  rewrite (E_plus E HE (fun w => sum_f_R0 (fun i => f i w) n) (f (S n))). now rewrite IH.
Qed.
Lemma E_moved {Om} (E : (Om -> R) -> R) (HE : expectation E) (Y : Om -> R) (c : R) (ms : nat -> R) l :
  (forall i, (i <= l)%nat -> E (fun w => Y w ^ i) = ms i) -> E (fun w => (Y w + c) ^ l) = moved ms c l.
Proof.
  intro H. rewrite (E_ext E HE _ (fun w => sum_f_R0 (fun i => Binomial.C l i * Y w ^ i * c ^ (l - i)) l)) by (intro; apply binomial).
  rewrite (E_sum_f E HE (fun i w => Binomial.C l i * Y w ^ i * c ^ (l - i))). unfold moved. apply sum_eq. intros i Hi.
  rewrite (E_ext E HE _ (fun w => (Binomial.C l i * c ^ (l - i)) * Y w ^ i)) by (intro; ring). rewrite (E_scal E HE), H by exact Hi. ring.
Qed.

(** all four functions return moments of one random variable, up to order L *)
Definition law2 (c : R) (m m' cm cm' : Z -> res R) (L : nat) : Prop :=
  exists Om (E : (Om -> R) -> R) (Y : Om -> R), expectation E /\ E (fun _ => 1) = 1 /\
    forall i, (1 <= i <= L)%nat ->
      m (Z.of_nat i) = Ok (E (fun w => Y w ^ i)) /\ m' (Z.of_nat i) = Ok (E (fun w => (Y w + c) ^ i)) /\
      cm (Z.of_nat i) = Ok (E (fun w => (Y w - E Y) ^ i)) /\ cm' (Z.of_nat i) = Ok (E (fun w => (Y w - E Y) ^ i)).

Definition val (r : res R) : R := match r with Ok x => x | Err _ => 0 end.
Definition msof (m : Z -> res R) (l : nat) : R := match l with O => 1 | _ => val (m (Z.of_nat l)) end.

Section L.
Variables (c : R) (m m' cm cm' : Z -> res R).
Hypothesis H : forall L, (1 <= L)%nat -> law2 c m m' cm cm' L.

Lemma law2_ms : returns_moments m (msof m).
Proof.
  split; [reflexivity|]. intros l Hl. destruct (H l Hl) as (Om & E & Y & _ & _ & h).
  destruct (h l ltac:(lia)) as (e & _). destruct l; [lia|]. cbn [msof]. rewrite e. reflexivity.
Qed.
Lemma law2_moved l d : (1 <= l)%nat -> exists Om (E : (Om -> R) -> R) (Y : Om -> R), expectation E /\
  E (fun w => (Y w + d) ^ l) = moved (msof m) d l /\ E Y = msof m 1%nat /\
  m' (Z.of_nat l) = Ok (E (fun w => (Y w + c) ^ l)) /\
  cm (Z.of_nat l) = Ok (E (fun w => (Y w - E Y) ^ l)) /\ cm' (Z.of_nat l) = Ok (E (fun w => (Y w - E Y) ^ l)).
Proof.
  intro Hl. destruct (H l Hl) as (Om & E & Y & HE & one & h). exists Om, E, Y. split; [exact HE|].
  assert (G : forall i, (i <= l)%nat -> E (fun w => Y w ^ i) = msof m i).
  { intros i Hi. destruct i as [|i]; [exact one|]. destruct (h (S i) ltac:(lia)) as (e & _). cbn [msof]. now rewrite e. }
  split; [now apply E_moved|]. split; [|apply (h l); lia].
  rewrite <- (G 1%nat Hl). apply (E_ext E HE). intro; ring.
Qed.
Lemma law2_central : central_of m cm.
Proof.
  exists (msof m). split; [exact law2_ms|]. intros l Hl.
  destruct (law2_moved l (- msof m 1) Hl) as (Om & E & Y & HE & e & eY & _ & ec & _). rewrite ec, <- e, eY. reflexivity.
Qed.
Lemma law2_shift : moved_by c m m' /\ forall l, (1 <= l)%nat -> cm' (Z.of_nat l) = cm (Z.of_nat l).
Proof.
  split.
  - exists (msof m). split; [exact law2_ms|]. intros l Hl.
    destruct (law2_moved l c Hl) as (Om & E & Y & HE & e & eY & em & _). now rewrite em, e.
  - intros l Hl. destruct (law2_moved l c Hl) as (Om & E & Y & _ & _ & _ & _ & e1 & e2). congruence.
Qed.
End L.

(** ** pairs *)
Lemma E_moved2X {Om} (E : (Om -> R) -> R) (HE : expectation E) (Y0 Y1 X : Om -> R) (c : R) l1 l2 :
  E (fun w => (Y0 w + c) ^ l1 * (Y1 w + c) ^ l2 * X w) = moved2 (fun i j => E (fun w => Y0 w ^ i * Y1 w ^ j * X w)) c l1 l2.
Proof.
  unfold moved2.
  rewrite (E_ext E HE _ (fun w => sum_f_R0 (fun i => sum_f_R0 (fun j => (Binomial.C l1 i * Binomial.C l2 j * c ^ (l1 - i) * c ^ (l2 - j)) * (Y0 w ^ i * Y1 w ^ j * X w)) l2) l1)).
  2: { intro w. rewrite !binomial. rewrite Rmult_assoc, Rmult_comm, scal_sum. apply sum_eq. intros i Hi.
       rewrite (Rmult_comm _ (X w)), scal_sum, scal_sum. apply sum_eq. intros j Hj. ring. }
  rewrite (E_sum_f E HE (fun i w => sum_f_R0 (fun j => (Binomial.C l1 i * Binomial.C l2 j * c ^ (l1 - i) * c ^ (l2 - j)) * (Y0 w ^ i * Y1 w ^ j * X w)) l2)).
  apply sum_eq. intros i Hi.
  rewrite (E_sum_f E HE (fun j w => (Binomial.C l1 i * Binomial.C l2 j * c ^ (l1 - i) * c ^ (l2 - j)) * (Y0 w ^ i * Y1 w ^ j * X w))).
  apply sum_eq. intros j Hj. rewrite (E_scal E HE). ring.
Qed.
Lemma moved2_minus cs a b c l1 l2 : moved2 (fun i j => cs i j - a i * b j) c l1 l2 = moved2 cs c l1 l2 - moved a c l1 * moved b c l2.
Proof.
  unfold moved2, moved. rewrite (Rmult_comm (sum_f_R0 _ l1)), scal_sum, <- minus_sum. apply sum_eq. intros i Hi.
  rewrite scal_sum, <- minus_sum. apply sum_eq. intros j Hj. ring.
Qed.
Lemma moved2_ext cs cs' c l1 l2 : (forall i j, (i <= l1)%nat -> (j <= l2)%nat -> cs i j = cs' i j) -> moved2 cs c l1 l2 = moved2 cs' c l1 l2.
Proof. intro H. apply sum_eq. intros i Hi. apply sum_eq. intros j Hj. now rewrite H. Qed.

(** both functions return covariances of powers of one pair of random variables *)
Definition law_cov (c : R) (cov cov' : Z -> Z -> res R) (l1 l2 : nat) : Prop :=
  exists Om (E : (Om -> R) -> R) (Y0 Y1 B : Om -> R), expectation E /\
    forall i j, (i <= l1)%nat -> (j <= l2)%nat ->
      cov (Z.of_nat i) (Z.of_nat j) = Ok (E (fun w => Y0 w ^ i * Y1 w ^ j) - E (fun w => Y0 w ^ i) * E (fun w => B w ^ j)) /\
      cov' (Z.of_nat i) (Z.of_nat j) = Ok (E (fun w => (Y0 w + c) ^ i * (Y1 w + c) ^ j) - E (fun w => (Y0 w + c) ^ i) * E (fun w => (B w + c) ^ j)).
Lemma law_cov_moved c cov cov' : (forall l1 l2, law_cov c cov cov' l1 l2) -> cov_moved_by c cov cov'.
Proof.
  intro H. exists (fun i j => val (cov (Z.of_nat i) (Z.of_nat j))). split.
  - intros i j. destruct (H i j) as (Om & E & Y0 & Y1 & B & _ & h). destruct (h i j ltac:(lia) ltac:(lia)) as [e _]. now rewrite e.
  - intros l1 l2. destruct (H l1 l2) as (Om & E & Y0 & Y1 & B & HE & h). destruct (h l1 l2 ltac:(lia) ltac:(lia)) as [_ e]. rewrite e. f_equal.
    rewrite (moved2_ext _ (fun i j => E (fun w => Y0 w ^ i * Y1 w ^ j * 1) - E (fun w => Y0 w ^ i) * E (fun w => B w ^ j))).
    2: { intros i j Hi Hj. destruct (h i j Hi Hj) as [-> _]. cbn [val]. f_equal. apply (E_ext E HE). intro; ring. }
    rewrite (moved2_minus (fun i j => E (fun w => Y0 w ^ i * Y1 w ^ j * 1)) (fun i => E (fun w => Y0 w ^ i)) (fun j => E (fun w => B w ^ j))).
    rewrite <- (E_moved2X E HE Y0 Y1 (fun _ => 1)). f_equal; [apply (E_ext E HE); intro; ring|].
    f_equal; apply (E_moved E HE); reflexivity.
Qed.
