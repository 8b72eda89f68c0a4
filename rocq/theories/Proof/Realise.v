(** Every finite table of moments is realised by some expectation operator: a finite
    combination of point evaluations.  Used to show that the hypotheses on expectation
    operators in the theorems on model moments can be met. *)
From Coq Require Import Reals Lra Lia List ZArith.
From Verif.Proof Require Import ExpectFacts.
Import ListNotations.
Local Open Scope R_scope.

(** ** one variable: functionals reading off one coefficient *)
Definition shift (ps : list (R * R)) : list (R * R) := map (fun p => (fst p, snd p + 1)) ps.
Definition scale {Om} (c : R) (ps : list (R * Om)) : list (R * Om) := map (fun p => (c * fst p, snd p)) ps.

Lemma Efin_scale {Om} c (ps : list (R * Om)) X : Efin (scale c ps) X = c * Efin ps X.
Proof. unfold Efin, scale. induction ps as [|[a x] r IH]; simpl; [lra|]. simpl in IH. rewrite IH. lra. Qed.
Lemma Efin_app {Om} (ps qs : list (R * Om)) X : Efin (ps ++ qs) X = Efin ps X + Efin qs X.
Proof. unfold Efin. induction ps as [|[a x] r IH]; simpl; [lra|]. rewrite IH. lra. Qed.
Lemma Efin_shift ps X : Efin (shift ps) X = Efin ps (fun x => X (x + 1)).
Proof. unfold Efin, shift. induction ps as [|[a x] r IH]; simpl; [lra|]. simpl in IH. rewrite IH. lra. Qed.

(** divided forward differences at 0 *)
Fixpoint fdiff (n : nat) : list (R * R) :=
  match n with
  | O => [(1, 0)]
  | S m => scale (/ INR (S m)) (shift (fdiff m) ++ scale (-1) (fdiff m))
  end.

Lemma Efin_sum_f (ps : list (R * R)) (f : nat -> R -> R) n :
  Efin ps (fun x => sum_f_R0 (fun i => f i x) n) = sum_f_R0 (fun i => Efin ps (f i)) n.
Proof.
  induction n as [|n IH]; [reflexivity|]. cbn [sum_f_R0].
  rewrite <- IH, <- (E_plus _ (Efin_expectation ps)). reflexivity.
Qed.
Lemma sum_f_0 (f : nat -> R) n : (forall i, (i <= n)%nat -> f i = 0) -> sum_f_R0 f n = 0.
Proof.
  induction n as [|n IH]; intro h; cbn [sum_f_R0]; [apply h; lia|].
  rewrite IH, h by (intros; try apply h; lia). lra.
Qed.

Lemma fdiff_spec n : forall j, (j <= n)%nat ->
  Efin (fdiff n) (fun x => x ^ j) = if Nat.eqb j n then 1 else 0.
Proof.
  induction n as [|n IH]; intros j Hj.
  - replace j with O by lia. unfold Efin. simpl. lra.
  - cbn [fdiff]. rewrite Efin_scale, Efin_app, Efin_shift, Efin_scale.
    destruct j as [|j].
    + cbn [pow Nat.eqb]. match goal with |- _ * (?a + -1 * ?b) = _ => replace b with a by reflexivity end. lra.
    + rewrite (E_ext _ (Efin_expectation (fdiff n)) (fun x => (x + 1) ^ S j)
        (fun x => sum_f_R0 (fun i => C (S j) i * x ^ i) j + x ^ S j)).
      2: { intro x. rewrite binomial. cbn [sum_f_R0]. f_equal.
           - apply sum_eq. intros i Hi. rewrite pow1. lra.
           - rewrite Nat.sub_diag. unfold C. rewrite Nat.sub_diag. change (INR (Factorial.fact 0)) with 1.
             change (1 ^ 0) with 1. field. apply INR_fact_neq_0. }
      rewrite (E_plus _ (Efin_expectation (fdiff n))), Efin_sum_f.
      replace (sum_f_R0 (fun i => Efin (fdiff n) (fun x => C (S j) i * x ^ i)) j)
        with (if Nat.eqb (S j) (S n) then INR (S n) else 0).
      * destruct (Nat.eqb_spec (S j) (S n)); [|lra]. field. apply not_0_INR. lia.
      * destruct (Nat.eqb_spec (S j) (S n)) as [e|ne].
        -- assert (j = n) by lia. subst j. destruct n as [|m].
           ++ cbn [sum_f_R0]. rewrite (E_scal _ (Efin_expectation _)), (IH 0%nat) by lia.
              unfold C. simpl. lra.
           ++ cbn [sum_f_R0]. rewrite sum_f_0.
              ** rewrite (E_scal _ (Efin_expectation _)), (IH (S m)), Nat.eqb_refl by lia.
                 unfold C. replace (S (S m) - S m)%nat with 1%nat by lia.
                 change (Factorial.fact (S (S m))) with (S (S m) * Factorial.fact (S m))%nat. rewrite mult_INR.
                 change (INR (Factorial.fact 1)) with 1. field. apply INR_fact_neq_0.
              ** intros i Hi. rewrite (E_scal _ (Efin_expectation _)), IH by lia.
                 destruct (Nat.eqb_spec i (S m)); [lia|lra].
        -- symmetry. apply sum_f_0. intros i Hi. rewrite (E_scal _ (Efin_expectation _)), IH by lia.
           destruct (Nat.eqb_spec i n); [lia|lra].
Qed.

(** [dual n a] maps x^j to 1 if j = a and to 0 otherwise, for j <= n *)
Fixpoint dual (n a : nat) : list (R * R) :=
  if Nat.eqb a n then fdiff n else
  match n with
  | O => []
  | S m => dual m a ++ scale (- Efin (dual m a) (fun x => x ^ n)) (fdiff n)
  end.

Lemma dual_spec n : forall a j, (a <= n)%nat -> (j <= n)%nat ->
  Efin (dual n a) (fun x => x ^ j) = if Nat.eqb a j then 1 else 0.
Proof.
  induction n as [|n IH]; intros a j Ha Hj.
  - replace a with O by lia. replace j with O by lia. unfold Efin. simpl. lra.
  - cbn [dual]. destruct (Nat.eqb_spec a (S n)) as [->|ne].
    + rewrite fdiff_spec by assumption. rewrite Nat.eqb_sym. reflexivity.
    + rewrite Efin_app, Efin_scale, fdiff_spec by assumption.
      destruct (Nat.eqb_spec j (S n)) as [->|nj].
      * destruct (Nat.eqb_spec a (S n)); [lia|]. lra.
      * rewrite IH by lia. lra.
Qed.

(** ** several variables *)
Fixpoint tensor (ls : list (list (R * R))) : list (R * list R) :=
  match ls with
  | [] => [(1, [])]
  | l :: r => flat_map (fun p => map (fun q => (fst p * fst q, snd p :: snd q)) (tensor r)) l
  end.

Lemma tensor_spec ls : forall ns, length ns = length ls ->
  Efin (tensor ls) (fun xs => powprod xs ns) = prodR (fun lz => Efin (fst lz) (fun x => x ^ Z.to_nat (snd lz))) (combine ls ns).
Proof.
  induction ls as [|l r IH]; intros ns Hn; destruct ns as [|n ns]; try discriminate.
  - unfold Efin. simpl. lra.
  - cbn [combine prodR fst snd tensor]. injection Hn as Hn. rewrite <- (IH ns Hn). clear IH.
    induction l as [|[a x] l IHl]; [unfold Efin; simpl; lra|].
    cbn [flat_map]. rewrite Efin_app, IHl. cbn [fst snd].
    change (Efin ((a, x) :: l) (fun x => x ^ Z.to_nat n)) with (a * x ^ Z.to_nat n + Efin l (fun x => x ^ Z.to_nat n)).
    rewrite Rmult_plus_distr_r. f_equal.
    generalize (tensor r) as ts. intro ts. unfold Efin.
    induction ts as [|[b xs] ts IHt]; cbn [map sumR fst snd powprod]; [lra|]. rewrite IHt. cbn [powprod]. lra.
Qed.

Fixpoint box (N d : nat) : list (list nat) :=
  match d with
  | O => [[]]
  | S e => flat_map (fun a => map (cons a) (box N e)) (seq 0 (S N))
  end.

Definition realise (N d : nat) (m : list Z -> R) : list (R * list R) :=
  flat_map (fun is => scale (m (map Z.of_nat is)) (tensor (map (dual N) is))) (box N d).

Lemma Efin_flat_map {A Om} (f : A -> list (R * Om)) l X : Efin (flat_map f l) X = sumR (fun a => Efin (f a) X) l.
Proof. induction l as [|a r IH]; [reflexivity|]. cbn [flat_map sumR]. now rewrite Efin_app, IH. Qed.
Lemma sumR_flat_map {A B} (f : A -> list B) g l : sumR g (flat_map f l) = sumR (fun a => sumR g (f a)) l.
Proof. induction l as [|a r IH]; [reflexivity|]. cbn [flat_map sumR]. now rewrite sumR_app, IH. Qed.
Lemma sumR_map' {A B} (f : A -> B) g l : sumR g (map f l) = sumR (fun a => g (f a)) l.
Proof. induction l as [|a r IH]; [reflexivity|]. cbn [map sumR]. now rewrite IH. Qed.

Definition delta (ns : list Z) (is : list nat) : R :=
  prodR (fun p => if Nat.eqb (fst p) (Z.to_nat (snd p)) then 1 else 0) (combine is ns).

Lemma sum_delta_seq (n : nat) (f : nat -> R) : forall s l, (s <= n < s + l)%nat ->
  sumR (fun a => (if Nat.eqb a n then 1 else 0) * f a) (seq s l) = f n.
Proof.
  intros s l. revert s. induction l as [|l IH]; intros s Hs; [lia|]. cbn [seq sumR].
  destruct (Nat.eqb_spec s n) as [->|ne].
  - rewrite (sumR_ext _ (fun _ => 0)).
    + assert (Z : forall k : list nat, sumR (fun _ => 0) k = 0) by (induction k; simpl; lra). rewrite Z. lra.
    + intros a Ha. apply in_seq in Ha. destruct (Nat.eqb_spec a n); [lia|lra].
  - rewrite IH by lia. lra.
Qed.

Lemma sum_delta_box N d : forall (m : list Z -> R) ns, length ns = d -> Forall (fun x => 0 <= x <= Z.of_nat N)%Z ns ->
  sumR (fun is => m (map Z.of_nat is) * delta ns is) (box N d) = m ns.
Proof.
  induction d as [|d IH]; intros m ns Hl Hf; destruct ns as [|n ns]; try discriminate.
  - cbn [box sumR]. unfold delta. simpl. lra.
  - cbn [box]. injection Hl as Hl. apply Forall_cons_iff in Hf. destruct Hf as [Hn Hf].
    rewrite sumR_flat_map.
    rewrite (sumR_ext _ (fun a => (if Nat.eqb a (Z.to_nat n) then 1 else 0) * m (Z.of_nat a :: ns))).
    + rewrite sum_delta_seq by lia. f_equal. f_equal. lia.
    + intros a _. rewrite sumR_map'. rewrite <- (IH (fun l => m (Z.of_nat a :: l)) ns Hl Hf), <- sumR_scal.
      apply sumR_ext. intros is _. unfold delta. cbn [map combine prodR fst snd]. ring.
Qed.

Lemma box_in N d is : In is (box N d) -> length is = d /\ Forall (fun a => a <= N)%nat is.
Proof.
  revert is. induction d as [|d IH]; intros is Hin; cbn [box] in Hin.
  - destruct Hin as [<-|[]]. split; [reflexivity|constructor].
  - apply in_flat_map in Hin. destruct Hin as (a & Ha & Hin). apply in_map_iff in Hin.
    destruct Hin as (js & <- & Hj). destruct (IH js Hj) as [h1 h2]. apply in_seq in Ha.
    split; [cbn [length]; lia|]. constructor; [lia|assumption].
Qed.

Theorem realise_spec N d m ns : length ns = d -> Forall (fun x => 0 <= x <= Z.of_nat N)%Z ns ->
  Efin (realise N d m) (fun xs => powprod xs ns) = m ns.
Proof.
  intros Hl Hf. unfold realise. rewrite Efin_flat_map. rewrite <- (sum_delta_box N d m ns Hl Hf).
  apply sumR_ext. intros is Hin. destruct (box_in _ _ _ Hin) as [h1 h2].
  rewrite Efin_scale, tensor_spec by (rewrite map_length; congruence). f_equal.
  clear Hin m. revert ns d Hl Hf h1. induction is as [|a r IH]; intros ns d Hl Hf h1; [reflexivity|].
  destruct ns as [|n ns]; [reflexivity|]. apply Forall_cons_iff in Hf, h2. destruct Hf as [Hn Hf], h2 as [Ha h2].
  unfold delta. cbn [map combine prodR fst snd]. rewrite dual_spec by lia. f_equal.
  cbn [length] in *. apply (IH h2 ns (pred d)); try assumption; lia.
Qed.

Lemma tensor_len ls : forall c xs, In (c, xs) (tensor ls) -> length xs = length ls.
Proof.
  induction ls as [|l r IH]; intros c xs Hin; cbn [tensor] in Hin.
  - destruct Hin as [[= _ <-]|[]]. reflexivity.
  - apply in_flat_map in Hin. destruct Hin as ([? ?] & _ & Hin). apply in_map_iff in Hin.
    destruct Hin as ([? ys] & [= _ <-] & Hin). cbn [length fst snd]. f_equal. eapply IH, Hin.
Qed.
Lemma realise_len N d m c xs : In (c, xs) (realise N d m) -> length xs = d.
Proof.
  intro Hin. unfold realise in Hin. apply in_flat_map in Hin. destruct Hin as (is & Hi & Hin).
  destruct (box_in _ _ _ Hi) as [h1 _]. unfold scale in Hin. apply in_map_iff in Hin.
  destruct Hin as ([c' xs'] & [= _ <-] & Hin). cbn [snd]. apply tensor_len in Hin. rewrite map_length in Hin. congruence.
Qed.

(** moment tables for one real variable *)
Definition realise1 (N : nat) (m : nat -> R) : list (R * R) :=
  map (fun p => (fst p, nth 0 (snd p) 0)) (realise N 1 (fun ns => m (Z.to_nat (nth 0 ns 0%Z)))).
Theorem realise1_spec N m n : (n <= N)%nat -> Efin (realise1 N m) (fun x => x ^ n) = m n.
Proof.
  intro Hn. unfold realise1. 
  assert (e : forall l (X : R -> R), Efin (map (fun p : R * list R => (fst p, nth 0 (snd p) 0)) l) X
    = Efin l (fun xs => X (nth 0 xs 0))).
  { intros l X. unfold Efin. now rewrite sumR_map'. }
  rewrite e. clear e.
  transitivity (m (Z.to_nat (nth 0 [Z.of_nat n] 0%Z))); [|cbn [nth]; f_equal; lia].
  rewrite <- (realise_spec N 1 (fun ns => m (Z.to_nat (nth 0 ns 0%Z))) [Z.of_nat n]);
    [|reflexivity|constructor; [lia|constructor]].
  unfold Efin. apply sumR_ext. intros [c xs] Hin. cbn [fst snd]. f_equal.
  assert (Hl : length xs = 1%nat).
  { now apply realise_len in Hin. }
  destruct xs as [|x [|? ?]]; try discriminate. cbn [nth powprod]. rewrite Nat2Z.id. lra.
Qed.

(** draws y from a kernel depending on w *)
Definition Ekern {A B} (E : (A -> R) -> R) (K : A -> list (R * B)) : (A * B -> R) -> R :=
  fun X => E (fun w => Efin (K w) (fun y => X (w, y))).
Lemma Ekern_expectation {A B} (E : (A -> R) -> R) (K : A -> list (R * B)) : expectation E -> expectation (Ekern E K).
Proof.
  intro HE. unfold Ekern. split.
  - intros X Y e. apply (E_ext E HE). intro w. apply (E_ext _ (Efin_expectation _)). intro y. apply e.
  - intros X Y. rewrite <- (E_plus E HE). apply (E_ext E HE). intro w. apply (E_plus _ (Efin_expectation _)).
  - intros c X. rewrite <- (E_scal E HE). apply (E_ext E HE). intro w. apply (E_scal _ (Efin_expectation _)).
Qed.
(** variables known before the draw *)
Lemma Ekern_tower {A B} (E : (A -> R) -> R) (K : A -> list (R * B)) (X : A -> R) (Y : B -> R) (m : A -> R) :
  expectation E -> (forall w, Efin (K w) Y = m w) ->
  Ekern E K (fun p => X (fst p) * Y (snd p)) = E (fun w => X w * m w).
Proof.
  intros HE h. unfold Ekern. apply (E_ext E HE). intro w. cbn [fst snd].
  rewrite (E_scal _ (Efin_expectation (K w))), h. reflexivity.
Qed.
Lemma Ekern_old {A B} (E : (A -> R) -> R) (K : A -> list (R * B)) (X : A -> R) :
  expectation E -> (forall w, Efin (K w) (fun _ => 1) = 1) ->
  Ekern E K (fun p => X (fst p)) = E X.
Proof.
  intros HE h. unfold Ekern. apply (E_ext E HE). intro w. cbn [fst snd].
  transitivity (X w * Efin (K w) (fun _ => 1)); [|rewrite h; lra].
  rewrite <- (E_scal _ (Efin_expectation (K w))). apply (E_ext _ (Efin_expectation _)). intro. lra.
Qed.
