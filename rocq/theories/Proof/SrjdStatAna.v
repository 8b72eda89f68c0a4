(** Stationary central moments of the square-root jump diffusion: the analysis. *)
From Coq Require Import Reals Lra.
From Coquelicot Require Import Coquelicot.
From Verif.Proof Require Export SrjdAna Realise.
Local Open Scope R_scope.

(** ** E[(a + sg X + Y)^n] from the table T i j = E[X^i Y^j] *)
Section W.
Context (a sg : R).
Fixpoint Wf (n : nat) (T : nat -> nat -> R) : R :=
  match n with
  | O => T 0%nat 0%nat
  | S m => a * Wf m T + sg * Wf m (fun i => T (S i)) + Wf m (fun i j => T i (S j))
  end.
Lemma Wf_ext n : forall T T', (forall i j, T i j = T' i j) -> Wf n T = Wf n T'.
Proof.
  induction n as [|n IH]; intros T T' h; cbn [Wf]; [apply h|].
  rewrite (IH T T' h), (IH (fun i => T (S i)) (fun i => T' (S i))), (IH (fun i j => T i (S j)) (fun i j => T' i (S j))); auto.
Qed.
Lemma Wf_plus n : forall T T', Wf n (fun i j => T i j + T' i j) = Wf n T + Wf n T'.
Proof.
  induction n as [|n IH]; intros T T'; cbn [Wf]; [reflexivity|].
  rewrite (IH T T'), (IH (fun i => T (S i)) (fun i => T' (S i))), (IH (fun i j => T i (S j)) (fun i j => T' i (S j))). ring.
Qed.
Lemma Wf_scal n : forall c T, Wf n (fun i j => c * T i j) = c * Wf n T.
Proof. induction n as [|n IH]; intros c T; cbn [Wf]; [reflexivity|].
  rewrite (IH c T), (IH c (fun i => T (S i))), (IH c (fun i j => T i (S j))). ring.
Qed.
Lemma Wf_zero n : Wf n (fun _ _ => 0) = 0.
Proof. induction n as [|n IH]; cbn [Wf]; [reflexivity|]. rewrite !IH. ring. Qed.

Definition Dx (T : nat -> nat -> R) (i j : nat) : R := match i with O => 0 | S p => INR (S p) * T p j end.
Lemma Wf_Dx n : forall T, Wf n (Dx T) = INR n * sg * Wf (pred n) T.
Proof.
  induction n as [|n IH]; intro T; [cbn [Wf Dx INR]; ring|]. cbn [Wf].
  rewrite IH.
  rewrite (Wf_ext n (fun i => Dx T (S i)) (fun i j => Dx (fun i => T (S i)) i j + T i j)).
  2: { intros [|i] j; cbn [Dx]; [cbn [INR]; ring|]. rewrite (S_INR (S i)). ring. }
  rewrite (Wf_ext n (fun i j => Dx T i (S j)) (Dx (fun i j => T i (S j)))) by (intros [|i] j; reflexivity).
  rewrite (Wf_plus n (Dx (fun i => T (S i))) T), (IH (fun i => T (S i))), (IH (fun i j => T i (S j))).
  destruct n as [|n]; [cbn [INR pred]; ring|].
  cbn [pred]. rewrite (S_INR (S n)). cbn [Wf]. ring.
Qed.
Lemma Wf_bc n : forall g T, Wf n (fun i j => bc g (T i) j) = bc g (fun m => Wf m T) n.
Proof.
  induction n as [|n IH]; intros g T; [cbn [Wf]; now rewrite !bc_0|]. cbn [Wf].
  rewrite (IH g T), (IH g (fun i => T (S i))).
  rewrite (Wf_ext n (fun i j => bc g (T i) (S j)) (fun i j => bc (sh g) (T i) j + bc g (sh (T i)) j)) by (intros; apply bc_S).
  rewrite (Wf_plus n (fun i j => bc (sh g) (T i) j) (fun i j => bc g (sh (T i)) j)), (IH (sh g) T), (IH g (fun i => sh (T i))), bc_S.
  rewrite (bc_ext g g (sh (fun m => Wf m T)) (fun m => (a * Wf m T + sg * Wf m (fun i => T (S i))) + Wf m (fun i => sh (T i)))) by reflexivity.
  rewrite !bc_plus_r, !bc_scal_r. ring.
Qed.
Lemma Wf_derive n : forall (T : R -> nat -> nat -> R) T' (t : R), (forall i j, is_derive (fun t => T t i j) t (T' i j)) ->
  is_derive (fun t => Wf n (T t)) t (Wf n T').
Proof.
  induction n as [|n IH]; intros T T' t h; cbn [Wf]; [apply h|].
  apply is_derive_Rplus; [apply is_derive_Rplus|]; [apply is_derive_Rscal..|].
  - now apply IH.
  - apply (IH (fun t i => T t (S i))). intros; apply h.
  - apply (IH (fun t i j => T t i (S j))). intros; apply h.
Qed.
Lemma Wf_init n : Wf n (fun i j => match i with O => dlt j | _ => 0 end) = a ^ n.
Proof.
  induction n as [|n IH]; [reflexivity|]. cbn [Wf]. rewrite IH. cbn [dlt].
  transitivity (a * a ^ n + sg * Wf n (fun _ _ => 0) + Wf n (fun _ _ => 0)).
  - f_equal. apply Wf_ext. intros [|i] j; reflexivity.
  - rewrite Wf_zero. simpl. ring.
Qed.
Lemma Wf_step n T : Wf n (fun p j => a * T p j + sg * T (S p) j + T p (S j)) = Wf (S n) T.
Proof.
  rewrite (Wf_plus n (fun p j => a * T p j + sg * T (S p) j) (fun p j => T p (S j))),
    (Wf_plus n (fun p j => a * T p j) (fun p j => sg * T (S p) j)), (Wf_scal n a T), (Wf_scal n sg (fun i => T (S i))).
  reflexivity.
Qed.
(** ... with an expectation *)
Lemma Wf_E {Om} (E : (Om -> R) -> R) (X Y : Om -> R) : expectation E -> forall n T p q,
  (forall i j, (i + j <= n)%nat -> E (fun w => X w ^ (i + p) * Y w ^ (j + q)) = T i j) ->
  Wf n T = E (fun w => X w ^ p * Y w ^ q * (a + sg * X w + Y w) ^ n).
Proof.
  intro HE. induction n as [|n IH]; intros T p q h; cbn [Wf].
  - rewrite <- (h 0%nat 0%nat) by lia. apply (E_ext E HE). intro w. simpl. ring.
  - rewrite (IH T p q) by (intros; apply h; lia).
    rewrite (IH (fun i => T (S i)) (S p) q).
    2: { intros i j Hij. rewrite <- h by lia. apply (E_ext E HE). intro w. do 2 f_equal. lia. }
    rewrite (IH (fun i j => T i (S j)) p (S q)).
    2: { intros i j Hij. rewrite <- h by lia. apply (E_ext E HE). intro w. do 2 f_equal. lia. }
    rewrite <- !(E_scal E HE), <- !(E_plus E HE). apply (E_ext E HE). intro w. simpl. ring.
Qed.
End W.

(** ** e^{nkt} E[(v_t - E v)^n | v_0] *)
Definition W (v : cv) (t : R) (n : nat) : R := Wf (ca v) (csg v) n (fun i j => Ms 2 v (Z.of_nat i) t j).

Lemma W_derive v n (t : R) :
  is_derive (fun t => W v t n) t
    (INR n * INR (pred n) / 2 * csg v ^ 2 * (exp (ck v * t) * W v t (pred n) + exp (ck v * t) ^ 2 * (cb v * W v t (pred (pred n))))
     + bc (gam 2 v t) (W v t) n).
Proof.
  set (T := fun t i j => Ms 2 v (Z.of_nat i) t j). set (e := exp (ck v * t)).
  set (G := fun p j => (e * (ca v * T t p j + csg v * T t (S p) j + T t p (S j))) + e ^ 2 * (cb v * T t p j)).
  assert (H : forall i j, is_derive (fun t => T t i j) t (/ 2 * Dx (Dx G) i j + bc (gam 2 v t) (T t i) j)).
  { intros i j. unfold T. eapply is_derive_val; [apply Ms_derive; lia|]. f_equal.
    unfold hs. fold e. destruct i as [|[|i]]; [simpl; ring|simpl; ring|].
    destruct (Z.leb_spec 2 (Z.of_nat (S (S i)))); [|lia]. cbn [Dx]. unfold G, T.
    replace (Z.of_nat (S (S i)) - 2)%Z with (Z.of_nat i) by lia.
    replace (Z.of_nat (S (S i)) - 1)%Z with (Z.of_nat (S i)) by lia.
    rewrite mult_IZR, <- !INR_IZR_INZ. field. }
  eapply is_derive_val; [apply (Wf_derive (ca v) (csg v) n T _ t H)|].
  rewrite Wf_plus. f_equal.
  - rewrite Wf_scal, !Wf_Dx. unfold G.
    rewrite (Wf_plus _ _ _ (fun p j => e * (ca v * T t p j + csg v * T t (S p) j + T t p (S j))) (fun p j => e ^ 2 * (cb v * T t p j))).
    rewrite (Wf_scal _ _ _ e (fun p j => ca v * T t p j + csg v * T t (S p) j + T t p (S j))), (Wf_step _ _ _ (T t)).
    rewrite (Wf_scal _ _ _ (e ^ 2) (fun p j => cb v * T t p j)), (Wf_scal _ _ _ (cb v) (T t)).
    destruct n as [|[|n]]; [cbn [INR pred]; field|cbn [INR pred]; field|]. cbn [pred].
    change (Wf (ca v) (csg v) n (T t)) with (W v t n). change (Wf (ca v) (csg v) (S n) (T t)) with (W v t (S n)). field.
  - rewrite Wf_bc. reflexivity.
Qed.
Lemma W_0 v n : W v 0 n = ca v ^ n.
Proof.
  unfold W. rewrite <- (Wf_init (ca v) (csg v) n). apply Wf_ext. intros i j. rewrite Ms_0 by lia.
  destruct i; reflexivity.
Qed.

(** ** the stationary moments *)
Definition cnext (v : cv) (n : nat) (c : nat -> R) : R :=
  / (INR n * ck v) * (INR n * INR (pred n) / 2 * csg v ^ 2 * (c (pred n) + cb v * c (pred (pred n))) + bc (gam 2 v 0) c n).
Fixpoint cl (v : cv) (n : nat) : list R :=
  match n with
  | O => [1]
  | S m => cl v m ++ [cnext v (S m) (fun i => nth i (cl v m) 0)]
  end.
Definition cst (v : cv) (n : nat) : R := nth n (cl v n) 0.
Lemma cl_length v n : length (cl v n) = S n.
Proof. induction n as [|n IH]; [reflexivity|]. cbn [cl]. rewrite app_length, IH. simpl. lia. Qed.
Lemma cl_nth v n : forall i, (i <= n)%nat -> nth i (cl v n) 0 = cst v i.
Proof.
  induction n as [|n IH]; intros i Hi.
  - assert (i = 0)%nat as -> by lia. reflexivity.
  - destruct (Nat.eq_dec i (S n)) as [->|ne]; [reflexivity|]. cbn [cl]. rewrite app_nth1 by (rewrite cl_length; lia).
    apply IH. lia.
Qed.
Lemma cst_0 v : cst v 0 = 1.
Proof. reflexivity. Qed.
Lemma gam2_0 v t : gam 2 v t 0 = 0. Proof. reflexivity. Qed.
Lemma gam2_1 v t : gam 2 v t 1 = 0. Proof. reflexivity. Qed.
Lemma bc_head (f g g' : nat -> R) n : f 0%nat = 0 -> (forall i, (i < n)%nat -> g i = g' i) -> bc f g n = bc f g' n.
Proof.
  intros f0 h. unfold bc. apply sumR_ext. intros j Hj. apply in_seq in Hj. destruct j as [|j]; [rewrite f0; ring|].
  rewrite (h (n - S j)%nat) by lia. ring.
Qed.
Lemma cst_rec v n : (1 <= n)%nat ->
  INR n * ck v * cst v n = INR n * INR (pred n) / 2 * csg v ^ 2 * (cst v (pred n) + cb v * cst v (pred (pred n))) + bc (gam 2 v 0) (cst v) n.
Proof.
  intro Hn. destruct n as [|n]; [lia|]. unfold cst at 1. cbn [cl]. rewrite app_nth2 by (rewrite cl_length; lia).
  rewrite cl_length, Nat.sub_diag. cbn [nth]. unfold cnext.
  rewrite (bc_head _ (fun i => nth i (cl v n) 0) (cst v)) by (auto using gam2_0; intros; apply cl_nth; lia).
  rewrite !cl_nth by lia. field. split; [apply ckn|apply not_0_INR; lia].
Qed.
Lemma cst_1 v : cst v 1 = 0.
Proof.
  pose proof (cst_rec v 1 ltac:(lia)) as h. cbn [INR pred] in h. unfold bc in h. cbn [seq sumR] in h.
  rewrite gam2_0, gam2_1 in h. apply (Rmult_eq_reg_l (1 * ck v)); [|rewrite Rmult_1_l; apply ckn].
  rewrite h. field.
Qed.
Lemma gam_exp v t j : gam 2 v t j = exp (ck v * t) ^ j * gam 2 v 0 j.
Proof.
  unfold gam. destruct (j <? 2)%nat; [ring|]. rewrite exp_pow_mul, Rmult_0_r, Rmult_0_r, exp_0. ring.
Qed.

(** the same parameters with another initial value *)
Definition cva (v : cv) (x : R) : cv := mkCv (ck v) (ckn v) x (cb v) (csg v) (clam v) (cmu v).
Lemma cst_cva v x n : cst (cva v x) n = cst v n.
Proof.
  unfold cst. f_equal. induction n as [|n IH]; [reflexivity|]. cbn [cl]. rewrite IH. reflexivity.
Qed.

Theorem stationary v (ps : list (R * R)) N : (forall i, (i <= N)%nat -> Efin ps (fun x => x ^ i) = cst v i) ->
  forall n, (n <= N)%nat -> forall t, Efin ps (fun x => W (cva v x) t n) = exp (ck v * t) ^ n * cst v n.
Proof.
  intros Hps n. induction n as [n IH] using lt_wf_ind. intros Hn t.
  assert (D : forall t : R, is_derive (fun t => Efin ps (fun x => W (cva v x) t n)) t (INR n * ck v * cst v n * exp (ck v * t) ^ n)).
  { intro s. unfold Efin. set (e := exp (ck v * s)). eapply is_derive_val.
    - apply (is_derive_sumR (fun p t => fst p * W (cva v (snd p)) t n)
        (fun p => fst p * (INR n * INR (pred n) / 2 * csg v ^ 2 * (e * W (cva v (snd p)) s (pred n) + e ^ 2 * (cb v * W (cva v (snd p)) s (pred (pred n))))
           + bc (gam 2 v s) (W (cva v (snd p)) s) n))).
      intros [r x] _. cbn [fst snd]. apply is_derive_Rscal. exact (W_derive (cva v x) n s).
    - set (F := fun m => Efin ps (fun x => W (cva v x) s m)).
      transitivity (INR n * INR (pred n) / 2 * csg v ^ 2 * (e * F (pred n) + e ^ 2 * (cb v * F (pred (pred n)))) + bc (gam 2 v s) F n).
      { assert (B : bc (gam 2 v s) F n = sumR (fun p => fst p * bc (gam 2 v s) (W (cva v (snd p)) s) n) ps).
        { unfold bc, F, Efin.
          transitivity (sumR (fun j => sumR (fun p => fst p * (IZR (combN n j) * (gam 2 v s j * W (cva v (snd p)) s (n - j)))) ps) (seq 0 (S n))).
          - apply sumR_ext. intros j _. rewrite <- !sumR_scal. apply sumR_ext. intros; ring.
          - rewrite sumR_swap. apply sumR_ext. intros p _. apply sumR_scal. }
        rewrite B. unfold F, Efin. rewrite <- !sumR_scal, <- !sumR_plus, <- sumR_scal, <- sumR_plus.
        apply sumR_ext. intros p _. ring. }
      destruct n as [|n].
      { cbn [INR pred]. rewrite bc_0, gam2_0. field. }
      cbn [pred]. assert (Fv : forall m, (m < S n)%nat -> F m = e ^ m * cst v m).
      { intros m Hm. unfold F. apply IH; lia. }
      rewrite (bc_head _ F (fun m => e ^ m * cst v m)) by (auto using gam2_0).
      replace (bc (gam 2 v s) (fun m => e ^ m * cst v m) (S n)) with (e ^ (S n) * bc (gam 2 v 0) (cst v) (S n)).
      2: { unfold bc. rewrite <- sumR_scal. apply sumR_ext. intros j Hj. apply in_seq in Hj. rewrite (gam_exp v s j). fold e.
           replace (e ^ S n) with (e ^ j * e ^ (S n - j)) by (rewrite <- pow_add; f_equal; lia). ring. }
      rewrite Fv by lia. destruct n as [|n].
      + cbn [INR pred]. rewrite cst_1. unfold bc. cbn [seq sumR]. rewrite gam2_0, gam2_1. field.
      + cbn [pred]. rewrite Fv by lia. rewrite (cst_rec v (S (S n))) by lia. cbn [pred]. simpl pow. ring. }
  assert (Eq : forall t : R, is_derive (fun t => exp (ck v * t) ^ n * cst v n) t (INR n * ck v * cst v n * exp (ck v * t) ^ n)).
  { intro s. eapply is_derive_val.
    - apply (is_derive_ext_loc_all (fun t => cst v n * exp (INR n * (ck v * t)))); [intro; rewrite exp_pow_mul; ring|].
      apply is_derive_Rscal, is_derive_Rexp, is_derive_Rscal, is_derive_lin.
    - cbv beta. rewrite exp_pow_mul. ring. }
  assert (Z0 : Efin ps (fun x => W (cva v x) 0 n) = exp (ck v * 0) ^ n * cst v n).
  { rewrite Rmult_0_r, exp_0, pow1, Rmult_1_l. rewrite <- Hps by lia. unfold Efin. apply sumR_ext. intros p _. now rewrite W_0. }
  exact (derive_same _ _ _ D Eq Z0 t).
Qed.

(** ** the expansion of W *)
Lemma Wf_sum a sg n T : (0 <= n)%Z -> Wf a sg (Z.to_nat n) T
  = sumR (fun i1 => sumR (fun i2 => IZR (mcomb n i1) * IZR (mcomb (n - i1) i2) * (pw a (n - i1 - i2) * pw sg i1 * T (Z.to_nat i1) (Z.to_nat i2)))
      (range 0 (n - i1 + 1))) (range 0 (n + 1)).
Proof.
  intro Hn. set (tab := fun ns => match ns with [i; j] => T (Z.to_nat i) (Z.to_nat j) | _ => 0 end).
  set (E := Efin (realise (Z.to_nat n) 2 tab)). assert (HE : expectation E) by apply Efin_expectation.
  assert (HT : forall i j, (i <= Z.to_nat n)%nat -> (j <= Z.to_nat n)%nat -> E (fun xs => nth 0 xs 0 ^ i * nth 1 xs 0 ^ j) = T i j).
  { intros i j Hi Hj. transitivity (tab [Z.of_nat i; Z.of_nat j]); [|unfold tab; now rewrite !Nat2Z.id].
    rewrite <- (realise_spec (Z.to_nat n) 2 tab [Z.of_nat i; Z.of_nat j]);
      [|reflexivity|repeat (apply Forall_cons; [lia|]); apply Forall_nil].
    unfold E, Efin. apply sumR_ext. intros [r xs] Hin. cbn [fst snd]. f_equal.
    pose proof (realise_len _ _ _ _ _ Hin) as Hl. destruct xs as [|x [|y [|? ?]]]; try discriminate.
    cbn [powprod nth]. rewrite !Nat2Z.id. ring. }
  rewrite (Wf_E a sg E (fun xs => nth 0 xs 0) (fun xs => nth 1 xs 0) HE (Z.to_nat n) T 0 0).
  2: { intros i j Hij. rewrite <- HT by lia. apply (E_ext E HE). intro w. now rewrite !Nat.add_0_r. }
  rewrite (E_ext E HE _ (fun w => sumR (fun i1 => sumR (fun i2 => (IZR (mcomb n i1) * IZR (mcomb (n - i1) i2) * (pw a (n - i1 - i2) * pw sg i1)) *
     (nth 0 w 0 ^ Z.to_nat i1 * nth 1 w 0 ^ Z.to_nat i2)) (range 0 (n - i1 + 1))) (range 0 (n + 1)))).
  - rewrite (E_sumR E HE). apply sumR_ext. intros i Hi. apply in_range in Hi. rewrite (E_sumR E HE). apply sumR_ext.
    intros j Hj. apply in_range in Hj. rewrite (E_scal E HE), HT by lia. ring.
  - intro w. replace (a + sg * nth 0 w 0 + nth 1 w 0) with (sg * nth 0 w 0 + (nth 1 w 0 + a)) by ring.
    rewrite pow_O, pow_O, !Rmult_1_l.
    rewrite <- pw_Zpos by lia. rewrite <- binomial_pw by lia. apply sumR_ext. intros i Hi. apply in_range in Hi.
    rewrite <- binomial_pw by lia. rewrite <- !sumR_scal. apply sumR_ext. intros j Hj. apply in_range in Hj.
    rewrite <- !pw_Zpos by lia. rewrite !pw_mult by lia. ring.
Qed.

Lemma W_n0 v t : W v t 0 = 1.
Proof.
  assert (D : forall t : R, is_derive (fun t => W v t 0) t 0).
  { intro s. eapply is_derive_val; [apply W_derive|]. cbv beta. rewrite bc_0, gam2_0. cbn [INR]. field. }
  rewrite (derive_same (fun t => W v t 0) (fun _ => 1) (fun _ => 0) D); [reflexivity| |].
  - intro s. apply (is_derive_const (V := R_NormedModule)).
  - rewrite W_0. reflexivity.
Qed.
Lemma W_n1 v t : W v t 1 = ca v.
Proof.
  assert (D : forall t : R, is_derive (fun t => W v t 1) t 0).
  { intro s. eapply is_derive_val; [apply W_derive|]. cbv beta. unfold bc. cbn [seq sumR pred INR]. rewrite gam2_0, gam2_1. field. }
  rewrite (derive_same (fun t => W v t 1) (fun _ => ca v) (fun _ => 0) D); [reflexivity| |].
  - intro s. apply (is_derive_const (V := R_NormedModule)).
  - rewrite W_0. ring.
Qed.

(** with a random initial value *)
Lemma Wf_joint {Om} (E : (Om -> R) -> R) (A X Y : Om -> R) sg : expectation E -> forall n (T : R -> nat -> nat -> R) p q d,
  (forall c i j, (c + i + j <= n)%nat -> E (fun w => A w ^ (c + d) * (X w ^ (i + p) * Y w ^ (j + q))) = E (fun w => A w ^ (c + d) * T (A w) i j)) ->
  E (fun w => A w ^ d * Wf (A w) sg n (T (A w))) = E (fun w => A w ^ d * (X w ^ p * Y w ^ q * (A w + sg * X w + Y w) ^ n)).
Proof.
  intro HE. induction n as [|n IH]; intros T p q d h; cbn [Wf].
  - transitivity (E (fun w => A w ^ (0 + d) * (X w ^ (0 + p) * Y w ^ (0 + q)))).
    + rewrite h by lia. reflexivity.
    + apply (E_ext E HE). intro w. simpl. ring.
  - transitivity (E (fun w => A w ^ S d * Wf (A w) sg n (T (A w))) + sg * E (fun w => A w ^ d * Wf (A w) sg n (fun i => T (A w) (S i)))
        + E (fun w => A w ^ d * Wf (A w) sg n (fun i j => T (A w) i (S j)))).
    { rewrite <- (E_scal E HE), <- !(E_plus E HE). apply (E_ext E HE). intro w. simpl. ring. }
    rewrite (IH T p q (S d)).
    2: { intros c i j Hij. replace (c + S d)%nat with (S c + d)%nat by lia. apply h. lia. }
    rewrite (IH (fun a i => T a (S i)) (S p) q d).
    2: { intros c i j Hij. rewrite <- h by lia. apply (E_ext E HE). intro w. do 3 f_equal. lia. }
    rewrite (IH (fun a i j => T a i (S j)) p (S q) d).
    2: { intros c i j Hij. rewrite <- h by lia. apply (E_ext E HE). intro w. do 3 f_equal. lia. }
    rewrite <- (E_scal E HE), <- !(E_plus E HE). apply (E_ext E HE). intro w. simpl. ring.
Qed.
