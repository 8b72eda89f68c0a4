(** Facts on finite sums, binomial and multinomial theorems. *)
From Coq Require Import Lra Permutation Binomial Factorial.
From Verif.Spec Require Export Sums.
From Verif.Proof Require Export StackProofs PolyFacts.
Local Open Scope R_scope.

Section S.
Context {A : Type}.
Implicit Types (f g : A -> R) (l : list A).

Lemma sumR_app f l1 l2 : sumR f (l1 ++ l2) = sumR f l1 + sumR f l2.
Proof. induction l1; simpl; lra. Qed.
Lemma sumR_ext f g l : (forall x, In x l -> f x = g x) -> sumR f l = sumR g l.
Proof.
  induction l as [|x r IH]; simpl; intro E; [reflexivity|].
  rewrite E, IH; auto.
Qed.
Lemma sumR_scal c f l : sumR (fun x => c * f x) l = c * sumR f l.
Proof. induction l; simpl; lra. Qed.
Lemma sumR_scal_r c f l : sumR (fun x => f x * c) l = sumR f l * c.
Proof. induction l; simpl; lra. Qed.
Lemma sumR_plus f g l : sumR (fun x => f x + g x) l = sumR f l + sumR g l.
Proof. induction l; simpl; lra. Qed.
Lemma sumR_minus f g l : sumR (fun x => f x - g x) l = sumR f l - sumR g l.
Proof. induction l; simpl; lra. Qed.
Lemma sumR_0 f l : (forall x, In x l -> f x = 0) -> sumR f l = 0.
Proof. induction l as [|x r IH]; simpl; intro E; [reflexivity|]. rewrite E, IH; auto; lra. Qed.
Lemma sumR_perm f l1 l2 : Permutation l1 l2 -> sumR f l1 = sumR f l2.
Proof. induction 1; simpl; lra. Qed.
Lemma sumR_map {B} (h : B -> A) f (l : list B) : sumR f (map h l) = sumR (fun x => f (h x)) l.
Proof. induction l; simpl; congruence. Qed.
Lemma sumR_flat_map {B} (h : B -> list A) f (l : list B) :
  sumR f (flat_map h l) = sumR (fun x => sumR f (h x)) l.
Proof. induction l; simpl; [reflexivity|]. rewrite sumR_app. congruence. Qed.
Lemma sumR_filter f (b : A -> bool) l :
  sumR f (filter b l) = sumR (fun x => if b x then f x else 0) l.
Proof. induction l as [|x r IH]; simpl; [reflexivity|]. destruct (b x); simpl; lra. Qed.
End S.

Lemma sumR_swap {A B} (f : A -> B -> R) la lb :
  sumR (fun a => sumR (f a) lb) la = sumR (fun b => sumR (fun a => f a b) la) lb.
Proof.
  induction la as [|a r IH]; simpl.
  - symmetry. now apply sumR_0.
  - rewrite IH. now rewrite <- sumR_plus.
Qed.

Lemma sumR_prod {A B} (f : A -> R) (g : B -> R) la lb :
  sumR f la * sumR g lb = sumR (fun a => sumR (fun b => f a * g b) lb) la.
Proof.
  rewrite <- sumR_scal_r. apply sumR_ext. intros. now rewrite sumR_scal.
Qed.

Lemma sumR_eval {K} (mon : K -> R) l : eval mon l = sumR (fun kv => Q2R (snd kv) * mon (fst kv)) l.
Proof. induction l as [|[k v] r IH]; simpl; congruence. Qed.

Lemma eval_sumR {A K} (mon : A -> K -> R) (c : A -> R) l (p : list (K * Q)) :
  eval (fun k => sumR (fun a => c a * mon a k) l) p = sumR (fun a => c a * eval (mon a) p) l.
Proof.
  induction p as [|[k v] r IH]; simpl.
  - symmetry. apply sumR_0. intros; lra.
  - rewrite IH, <- sumR_scal, <- sumR_plus. apply sumR_ext. intros. lra.
Qed.

(** ranges starting at 0 *)
Lemma sumR_range0 (f : Z -> R) n :
  sumR f (range 0 (Z.of_nat n + 1)) = sum_f_R0 (fun i => f (Z.of_nat i)) n.
Proof.
  unfold range. rewrite sumR_map.
  replace (Z.to_nat (Z.of_nat n + 1 - 0)) with (S n) by lia.
  rewrite (sumR_ext _ (fun i => f (Z.of_nat i))) by (intros; f_equal; lia).
  induction n as [|n IH]; [simpl; lra|].
  rewrite seq_S, sumR_app, IH. simpl. lra.
Qed.

(** ** binomial coefficients *)
Lemma combN_0 n : combN n 0 = 1%Z.
Proof. destruct n; reflexivity. Qed.
Lemma combN_S n k : combN (S n) (S k) = (combN n k + combN n (S k))%Z.
Proof. reflexivity. Qed.
Lemma combN_gt n : forall k, (n < k)%nat -> combN n k = 0%Z.
Proof.
  induction n as [|n IH]; intros [|k] Hk; try lia; [reflexivity|].
  rewrite combN_S, !IH by lia. reflexivity.
Qed.
Lemma combN_nn n : combN n n = 1%Z.
Proof. induction n as [|n IH]; [reflexivity|]. rewrite combN_S, IH, combN_gt; lia. Qed.
Lemma combN_nonneg n : forall k, (0 <= combN n k)%Z.
Proof. induction n as [|n IH]; intros [|k]; simpl; try lia. specialize (IH k) as h1. specialize (IH (S k)) as h2. lia. Qed.

Lemma factN_pos n : (0 < factN n)%Z.
Proof. induction n as [|n IH]; cbn [factN]; lia. Qed.
Lemma factN_S n : factN (S n) = (Z.of_nat (S n) * factN n)%Z.
Proof. reflexivity. Qed.

Lemma combN_fact n : forall k, (k <= n)%nat ->
  (combN n k * factN k * factN (n - k) = factN n)%Z.
Proof.
  induction n as [|n IH]; intros k Hk.
  - destruct k; [reflexivity|lia].
  - destruct k as [|k].
    + rewrite combN_0. rewrite Nat.sub_0_r. cbn [factN]. lia.
    + rewrite combN_S. replace (S n - S k)%nat with (n - k)%nat by lia.
      pose proof (IH k ltac:(lia)) as h1.
      destruct (Nat.eq_dec k n) as [->|Hne].
      * rewrite combN_nn, combN_gt by lia. rewrite Nat.sub_diag. cbn [factN]. nia.
      * pose proof (IH (S k) ltac:(lia)) as h2.
        destruct (Nat.le_exists_sub (S k) n ltac:(lia)) as [d [-> _]].
        replace (d + S k - k)%nat with (S d) in * by lia.
        replace (d + S k - S k)%nat with d in * by lia.
        rewrite (factN_S (d + S k)). rewrite (factN_S d) in *. rewrite (factN_S k) in *.
        set (a := combN (d + S k) k) in *. set (b := combN (d + S k) (S k)) in *.
        replace (Z.of_nat (S (d + S k))) with (Z.of_nat (S k) + Z.of_nat (S d))%Z by lia.
        transitivity (Z.of_nat (S k) * factN (d + S k) + Z.of_nat (S d) * factN (d + S k))%Z; [|ring].
        rewrite <- h1 at 1. rewrite <- h2. ring.
Qed.

Lemma factN_fact n : IZR (factN n) = INR (Factorial.fact n).
Proof.
  induction n as [|n IH]; [reflexivity|].
  rewrite factN_S, mult_IZR, IH, fact_simpl, mult_INR, (INR_IZR_INZ (S n)). reflexivity.
Qed.

Lemma combN_C n k : (k <= n)%nat -> IZR (combN n k) = C n k.
Proof.
  intro Hk. unfold C. pose proof (combN_fact n k Hk) as E.
  apply (f_equal IZR) in E. rewrite !mult_IZR, !factN_fact in E.
  apply Rmult_eq_reg_r with (INR (Factorial.fact k) * INR (Factorial.fact (n - k))).
  - rewrite <- Rmult_assoc, E. field. split; apply INR_fact_neq_0.
  - apply Rmult_integral_contrapositive. split; apply INR_fact_neq_0.
Qed.

Lemma binomial_range (x y : R) (n : Z) : (0 <= n)%Z ->
  (x + y) ^ Z.to_nat n =
  sumR (fun i => IZR (mcomb n i) * (x ^ Z.to_nat i * y ^ Z.to_nat (n - i))) (range 0 (n + 1)).
Proof.
  intro Hn. replace (n + 1)%Z with (Z.of_nat (Z.to_nat n) + 1)%Z by lia. rewrite sumR_range0.
  rewrite binomial. apply sum_eq. intros i Hi. unfold mcomb.
  rewrite Nat2Z.id. rewrite combN_C by assumption.
  replace (Z.to_nat (n - Z.of_nat i)) with (Z.to_nat n - i)%nat by lia. ring.
Qed.

(** ** comb *)
Fixpoint cmb (n : Z) (ns : list Z) : Z :=
  match ns with
  | [] => 1
  | k :: r => mcomb n k * cmb (n - k) r
  end.

Lemma comb_ok ns : forall n, Forall (fun x => 0 <= x)%Z ns -> (sumZ ns <= n)%Z ->
  comb n ns = Ok (cmb n ns).
Proof.
  unfold comb.
  assert (G : forall n f, Forall (fun x => 0 <= x)%Z ns -> (sumZ ns <= n)%Z ->
    comb_loop n ns f = Ok (f * cmb n ns)%Z).
  { induction ns as [|k r IH]; intros n f Hf Hs; simpl.
    - f_equal; lia.
    - inversion Hf; subst. pose proof (sumZ_nonneg r H2). simpl in Hs.
      unfold math_comb. destruct (Z.ltb_spec n 0); [lia|]. destruct (Z.ltb_spec k 0); [lia|].
      simpl. rewrite IH by (auto; lia). f_equal. ring. }
  intros. rewrite G by assumption. f_equal. lia.
Qed.

Fixpoint prodfact (ns : list Z) : Z :=
  match ns with [] => 1 | k :: r => fact k * prodfact r end.

Lemma cmb_fact ns : forall n, Forall (fun x => 0 <= x)%Z ns -> sumZ ns = n ->
  (cmb n ns * prodfact ns = fact n)%Z.
Proof.
  induction ns as [|k r IH]; intros n Hf Hs; simpl in *.
  - subst. reflexivity.
  - inversion Hf; subst. pose proof (sumZ_nonneg r H2).
    specialize (IH (sumZ r) H2 eq_refl).
    replace (k + sumZ r - k)%Z with (sumZ r) by lia.
    unfold mcomb, fact in *.
    pose proof (combN_fact (Z.to_nat (k + sumZ r)) (Z.to_nat k) ltac:(lia)) as E.
    replace (Z.to_nat (k + sumZ r) - Z.to_nat k)%nat with (Z.to_nat (sumZ r)) in E by lia.
    rewrite <- E, <- IH. ring.
Qed.

Lemma multinomial xs : forall m, (0 <= m)%Z ->
  sumR (fun t => IZR (cmb m t) * powprod xs t) (wcomp (length xs) m)
  = sumR (fun x => x) xs ^ Z.to_nat m.
Proof.
  induction xs as [|x r IH]; intros m Hm.
  - simpl. destruct (Z.eqb_spec m 0).
    + subst. simpl. lra.
    + simpl. rewrite pow_i; [reflexivity|lia].
  - cbn [length wcomp sumR]. rewrite sumR_flat_map, binomial_range by assumption.
    apply sumR_ext. intros i Hi. apply in_range in Hi.
    rewrite sumR_map, <- IH by lia. rewrite <- !sumR_scal. apply sumR_ext. intros t _.
    cbn [cmb powprod]. rewrite mult_IZR. ring.
Qed.

(** any duplicate-free enumeration of the weak compositions *)
Lemma multinomial_any xs m L : (0 <= m)%Z -> NoDup L ->
  (forall t, In t L <-> length t = length xs /\ Forall (fun x => 0 <= x)%Z t /\ sumZ t = m) ->
  sumR (fun t => IZR (cmb m t) * powprod xs t) L = sumR (fun x => x) xs ^ Z.to_nat m.
Proof.
  intros Hm Hn Hin. rewrite <- multinomial by assumption. apply sumR_perm.
  apply NoDup_Permutation; [assumption|apply NoDup_wcomp|].
  intro t. rewrite Hin, in_wcomp. reflexivity.
Qed.
