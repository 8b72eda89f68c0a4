(** Sequences under binomial convolution, over a commutative ring and with three indices:
    a commutative ring with three commuting derivations (the index shifts). *)
From Coq Require Import Reals Lra Ring FunctionalExtensionality.
From Coquelicot Require Import Coquelicot.
From Verif.Proof Require Export Calc CppProofs VolterraFacts.
Local Open Scope R_scope.

Section Seq.
Context {A : Type} (a0 a1 : A) (add mul sub : A -> A -> A) (opp : A -> A).
Definition sq0 : nat -> A := fun _ => a0.
Definition sq1 : nat -> A := fun n => match n with O => a1 | _ => a0 end.
Definition sqadd (f g : nat -> A) : nat -> A := fun n => add (f n) (g n).
Definition sqsub (f g : nat -> A) : nat -> A := fun n => sub (f n) (g n).
Definition sqopp (f : nat -> A) : nat -> A := fun n => opp (f n).
Definition sqD (f : nat -> A) : nat -> A := fun n => f (S n).
Fixpoint cv (n : nat) (f g : nat -> A) : A :=
  match n with
  | O => mul (f O) (g O)
  | S m => add (cv m (sqD f) g) (cv m f (sqD g))
  end.
Definition sqmul (f g : nat -> A) : nat -> A := fun n => cv n f g.

Lemma sqD_mul f g : sqD (sqmul f g) = sqadd (sqmul (sqD f) g) (sqmul f (sqD g)).
Proof. reflexivity. Qed.

Section Ring.
Context (rt : ring_theory a0 a1 add mul sub opp eq).
Add Ring Aring : rt.

Lemma cv_add_l n : forall f f' g, cv n (sqadd f f') g = add (cv n f g) (cv n f' g).
Proof.
  induction n as [|n IH]; intros f f' g; cbn [cv]; [unfold sqadd; ring|].
  change (sqD (sqadd f f')) with (sqadd (sqD f) (sqD f')). rewrite !IH. ring.
Qed.
Lemma cv_comm n : forall f g, cv n f g = cv n g f.
Proof.
  induction n as [|n IH]; intros f g; cbn [cv]; [ring|]. rewrite (IH (sqD f) g), (IH f (sqD g)). ring.
Qed.
Lemma cv_add_r n f g g' : cv n f (sqadd g g') = add (cv n f g) (cv n f g').
Proof. rewrite cv_comm, cv_add_l. now rewrite !(cv_comm n f). Qed.
Lemma cv_0_l n : forall g, cv n sq0 g = a0.
Proof.
  induction n as [|n IH]; intro g; cbn [cv]; [unfold sq0; ring|]. change (sqD sq0) with sq0. rewrite !IH. ring.
Qed.
Lemma cv_1_l n : forall g, cv n sq1 g = g n.
Proof.
  induction n as [|n IH]; intro g; cbn [cv]; [unfold sq1; ring|].
  change (sqD sq1) with sq0. rewrite cv_0_l, IH. unfold sqD. ring.
Qed.
Lemma cv_assoc n : forall f g h, cv n f (sqmul g h) = cv n (sqmul f g) h.
Proof.
  induction n as [|n IH]; intros f g h; cbn [cv]; [unfold sqmul; cbn [cv]; ring|].
  rewrite !sqD_mul, cv_add_l, cv_add_r, !IH. ring.
Qed.
Lemma sq_ring : ring_theory sq0 sq1 sqadd sqmul sqsub sqopp eq.
Proof.
  constructor; intros; apply functional_extensionality; intro n; unfold sqadd, sqsub, sqopp, sqmul, sq0; try ring.
  - apply cv_1_l.
  - apply cv_comm.
  - apply cv_assoc.
  - apply cv_add_l.
Qed.

(** a derivation of A acts pointwise *)
Lemma cv_deriv (d : A -> A) : (forall x y, d (add x y) = add (d x) (d y)) ->
  (forall x y, d (mul x y) = add (mul (d x) y) (mul x (d y))) ->
  forall n f g, d (cv n f g) = add (cv n (fun k => d (f k)) g) (cv n f (fun k => d (g k))).
Proof.
  intros da dm. induction n as [|n IH]; intros f g; cbn [cv]; [apply dm|].
  rewrite da, !IH. change (sqD (fun k => d (f k))) with (fun k => d (sqD f k)).
  change (sqD (fun k => d (g k))) with (fun k => d (sqD g k)). ring.
Qed.
End Ring.

(** explicit form under an additive map to R *)
Lemma cv_sum (ph : A -> R) : (forall x y, ph (add x y) = ph x + ph y) -> forall n f g,
  ph (cv n f g) = sumR (fun k => IZR (combN n k) * ph (mul (f k) (g (n - k)%nat))) (seq 0 (S n)).
Proof.
  intro pa. induction n as [|n IH]; intros f g; [simpl; ring|]. cbn [cv].
  rewrite pa, !IH. rewrite (pascal_sum n (fun k => ph (mul (f k) (g (S n - k)%nat)))).
  rewrite <- sumR_plus. apply sumR_ext. intros k Hk. apply in_seq in Hk. unfold sqD.
  replace (S n - k)%nat with (S (n - k)) by lia. simpl (S n - S k)%nat. ring.
Qed.
End Seq.

(** ** three indices *)
Definition S1 := nat -> R.
Definition S2 := nat -> S1.
Definition S3 := nat -> S2.
Definition s1_rt := sq_ring _ _ _ _ _ _ RTheory.
Definition s2_rt := sq_ring _ _ _ _ _ _ s1_rt.
Definition s3_rt0 := sq_ring _ _ _ _ _ _ s2_rt.

Definition mul1 : S1 -> S1 -> S1 := sqmul Rplus Rmult.
Definition add1 : S1 -> S1 -> S1 := sqadd Rplus.
Definition mul2 : S2 -> S2 -> S2 := sqmul add1 mul1.
Definition add2 : S2 -> S2 -> S2 := sqadd add1.
Definition s3_0 : S3 := fun _ _ _ => 0.
Definition s3_1 : S3 := sq1 (sq0 (sq0 0)) (sq1 (sq0 0) (sq1 0 1)).
Definition s3add : S3 -> S3 -> S3 := sqadd add2.
Definition s3mul : S3 -> S3 -> S3 := sqmul add2 mul2.
Definition s3opp (f : S3) : S3 := fun i j l => - f i j l.
Definition s3sub : S3 -> S3 -> S3 := fun f g i j l => f i j l - g i j l.
Lemma s3_rt : ring_theory s3_0 s3_1 s3add s3mul s3sub s3opp eq.
Proof. exact s3_rt0. Qed.
Add Ring S3ring : s3_rt.

Definition D1 (f : S3) : S3 := fun i j l => f (S i) j l.
Definition D2 (f : S3) : S3 := fun i j l => f i (S j) l.
Definition D3 (f : S3) : S3 := fun i j l => f i j (S l).

Lemma D1_mul f g : D1 (s3mul f g) = s3add (s3mul (D1 f) g) (s3mul f (D1 g)).
Proof. reflexivity. Qed.
Lemma D2_mul f g : D2 (s3mul f g) = s3add (s3mul (D2 f) g) (s3mul f (D2 g)).
Proof.
  apply functional_extensionality; intro i.
  exact (cv_deriv _ _ _ _ _ _ s2_rt (fun h : S2 => (fun j => h (S j)) : S2)
    (fun _ _ => eq_refl) (fun _ _ => eq_refl) i f g).
Qed.
Lemma D3_mul f g : D3 (s3mul f g) = s3add (s3mul (D3 f) g) (s3mul f (D3 g)).
Proof.
  apply functional_extensionality; intro i.
  apply (cv_deriv _ _ _ _ _ _ s2_rt (fun h : S2 => (fun j l => h j (S l)) : S2) (fun _ _ => eq_refl)).
  intros x y. apply functional_extensionality; intro j.
  exact (cv_deriv _ _ _ _ _ _ s1_rt (fun h : S1 => (fun l => h (S l)) : S1)
    (fun _ _ => eq_refl) (fun _ _ => eq_refl) j x y).
Qed.
Lemma D1_add f g : D1 (s3add f g) = s3add (D1 f) (D1 g).
Proof. reflexivity. Qed.
Lemma D2_add f g : D2 (s3add f g) = s3add (D2 f) (D2 g).
Proof. reflexivity. Qed.
Lemma D3_add f g : D3 (s3add f g) = s3add (D3 f) (D3 g).
Proof. reflexivity. Qed.

Lemma s3mul_0 f g : s3mul f g O O O = f O O O * g O O O.
Proof. reflexivity. Qed.
Lemma s3mul_sum f g i j l : s3mul f g i j l =
  sumR (fun a => IZR (combN i a) * sumR (fun b => IZR (combN j b) * sumR (fun c => IZR (combN l c) *
    (f a b c * g (i - a)%nat (j - b)%nat (l - c)%nat)) (seq 0 (S l))) (seq 0 (S j))) (seq 0 (S i)).
Proof.
  unfold s3mul, sqmul. rewrite (cv_sum add2 mul2 (fun h : S2 => h j l)) by reflexivity.
  apply sumR_ext. intros a _. f_equal.
  unfold mul2, sqmul. rewrite (cv_sum add1 mul1 (fun h : S1 => h l)) by reflexivity.
  apply sumR_ext. intros b _. f_equal.
  unfold mul1, sqmul. apply (cv_sum Rplus Rmult (fun x => x)). reflexivity.
Qed.
Lemma s3_ext (f g : S3) : (forall i j l, f i j l = g i j l) -> f = g.
Proof. intro h. do 3 (apply functional_extensionality; intro). apply h. Qed.
(** only the lower indices matter *)
Lemma s3mul_ext f f' g g' i j l :
  (forall a b c, (a <= i)%nat -> (b <= j)%nat -> (c <= l)%nat -> f a b c = f' a b c) ->
  (forall a b c, (a <= i)%nat -> (b <= j)%nat -> (c <= l)%nat -> g a b c = g' a b c) ->
  s3mul f g i j l = s3mul f' g' i j l.
Proof.
  intros h1 h2. rewrite !s3mul_sum.
  apply sumR_ext; intros a Ha; apply in_seq in Ha; f_equal.
  apply sumR_ext; intros b Hb; apply in_seq in Hb; f_equal.
  apply sumR_ext; intros c Hc; apply in_seq in Hc; f_equal.
  rewrite h1, h2 by lia. reflexivity.
Qed.

Lemma s3mul_derive (f g : R -> S3) (f' g' : S3) (t : R) i j l :
  (forall a b c, (a <= i)%nat -> (b <= j)%nat -> (c <= l)%nat -> is_derive (fun t => f t a b c) t (f' a b c)) ->
  (forall a b c, (a <= i)%nat -> (b <= j)%nat -> (c <= l)%nat -> is_derive (fun t => g t a b c) t (g' a b c)) ->
  is_derive (fun t => s3mul (f t) (g t) i j l) t (s3add (s3mul f' (g t)) (s3mul (f t) g') i j l).
Proof.
  intros h1 h2.
  apply (is_derive_ext (fun t => sumR (fun a => IZR (combN i a) * sumR (fun b => IZR (combN j b) * sumR (fun c => IZR (combN l c) *
    (f t a b c * g t (i - a)%nat (j - b)%nat (l - c)%nat)) (seq 0 (S l))) (seq 0 (S j))) (seq 0 (S i)))).
  { intro u. symmetry. apply s3mul_sum. }
  change (s3add (s3mul f' (g t)) (s3mul (f t) g') i j l) with (s3mul f' (g t) i j l + s3mul (f t) g' i j l).
  rewrite !s3mul_sum, <- sumR_plus.
  apply (is_derive_sumR (fun a t => IZR (combN i a) * sumR (fun b => IZR (combN j b) * sumR (fun c => IZR (combN l c) *
    (f t a b c * g t (i - a)%nat (j - b)%nat (l - c)%nat)) (seq 0 (S l))) (seq 0 (S j)))).
  intros a Ha; apply in_seq in Ha. rewrite <- Rmult_plus_distr_l. apply is_derive_Rscal. rewrite <- sumR_plus.
  apply (is_derive_sumR (fun b t => IZR (combN j b) * sumR (fun c => IZR (combN l c) *
    (f t a b c * g t (i - a)%nat (j - b)%nat (l - c)%nat)) (seq 0 (S l)))).
  intros b Hb; apply in_seq in Hb. rewrite <- Rmult_plus_distr_l. apply is_derive_Rscal. rewrite <- sumR_plus.
  apply (is_derive_sumR (fun c t => IZR (combN l c) * (f t a b c * g t (i - a)%nat (j - b)%nat (l - c)%nat))).
  intros c Hc; apply in_seq in Hc. rewrite <- Rmult_plus_distr_l. apply is_derive_Rscal.
  eapply is_derive_val; [apply is_derive_Rmult; [apply h1; lia|apply h2; lia]|]. cbv beta. ring.
Qed.
Lemma s3mul_cont (f g : R -> S3) (t : R) i j l :
  (forall a b c, (a <= i)%nat -> (b <= j)%nat -> (c <= l)%nat -> continuous (fun t => f t a b c) t) ->
  (forall a b c, (a <= i)%nat -> (b <= j)%nat -> (c <= l)%nat -> continuous (fun t => g t a b c) t) ->
  continuous (fun t => s3mul (f t) (g t) i j l) t.
Proof.
  intros h1 h2.
  apply (continuous_ext (fun t => sumR (fun a => IZR (combN i a) * sumR (fun b => IZR (combN j b) * sumR (fun c => IZR (combN l c) *
    (f t a b c * g t (i - a)%nat (j - b)%nat (l - c)%nat)) (seq 0 (S l))) (seq 0 (S j))) (seq 0 (S i)))).
  { intro u. symmetry. apply s3mul_sum. }
  apply (continuous_sumR (fun a t => IZR (combN i a) * sumR (fun b => IZR (combN j b) * sumR (fun c => IZR (combN l c) *
    (f t a b c * g t (i - a)%nat (j - b)%nat (l - c)%nat)) (seq 0 (S l))) (seq 0 (S j)))).
  intros a Ha; apply in_seq in Ha. apply continuous_Rmult; [apply continuous_Rconst|].
  apply (continuous_sumR (fun b t => IZR (combN j b) * sumR (fun c => IZR (combN l c) *
    (f t a b c * g t (i - a)%nat (j - b)%nat (l - c)%nat)) (seq 0 (S l)))).
  intros b Hb; apply in_seq in Hb. apply continuous_Rmult; [apply continuous_Rconst|].
  apply (continuous_sumR (fun c t => IZR (combN l c) * (f t a b c * g t (i - a)%nat (j - b)%nat (l - c)%nat))).
  intros c Hc; apply in_seq in Hc. apply continuous_Rmult; [apply continuous_Rconst|].
  apply continuous_Rmult; [apply h1; lia|apply h2; lia].
Qed.

(** ** the exponential of a sequence K: m with m(0) = 1 and D_i m = (D_i K) m *)
Section Exp.
Variable K : S3.
Definition N1 (f : S3) : S3 := s3add (s3mul (D1 K) f) (D1 f).
Definition N2 (f : S3) : S3 := s3add (s3mul (D2 K) f) (D2 f).
Definition N3 (f : S3) : S3 := s3add (s3mul (D3 K) f) (D3 f).
Lemma N1_mul f g : N1 (s3mul f g) = s3add (s3mul (D1 f) g) (s3mul f (N1 g)).
Proof. unfold N1. rewrite D1_mul. ring. Qed.
Lemma N2_mul f g : N2 (s3mul f g) = s3add (s3mul (D2 f) g) (s3mul f (N2 g)).
Proof. unfold N2. rewrite D2_mul. ring. Qed.
Lemma N3_mul f g : N3 (s3mul f g) = s3add (s3mul (D3 f) g) (s3mul f (N3 g)).
Proof. unfold N3. rewrite D3_mul. ring. Qed.
Lemma N1_add f g : N1 (s3add f g) = s3add (N1 f) (N1 g).
Proof. unfold N1. rewrite D1_add. ring. Qed.
Lemma N2_add f g : N2 (s3add f g) = s3add (N2 f) (N2 g).
Proof. unfold N2. rewrite D2_add. ring. Qed.
Lemma N3_add f g : N3 (s3add f g) = s3add (N3 f) (N3 g).
Proof. unfold N3. rewrite D3_add. ring. Qed.
Lemma N12 f : N1 (N2 f) = N2 (N1 f).
Proof.
  unfold N1, N2. rewrite ?D1_add, ?D1_mul, ?D2_add, ?D2_mul.
  change (D2 (D1 f)) with (D1 (D2 f)). change (D2 (D1 K)) with (D1 (D2 K)). ring.
Qed.
Lemma N13 f : N1 (N3 f) = N3 (N1 f).
Proof.
  unfold N1, N3. rewrite ?D1_add, ?D1_mul, ?D3_add, ?D3_mul.
  change (D3 (D1 f)) with (D1 (D3 f)). change (D3 (D1 K)) with (D1 (D3 K)). ring.
Qed.
Lemma N23 f : N2 (N3 f) = N3 (N2 f).
Proof.
  unfold N2, N3. rewrite ?D2_add, ?D2_mul, ?D3_add, ?D3_mul.
  change (D3 (D2 f)) with (D2 (D3 f)). change (D3 (D2 K)) with (D2 (D3 K)). ring.
Qed.

Fixpoint itr {T} (n : nat) (f : T -> T) (x : T) : T := match n with O => x | S m => f (itr m f x) end.
(** the order in which the code differentiates *)
Definition Nall (i j l : nat) (f : S3) : S3 := itr j N2 (itr i N1 (itr l N3 f)).
Definition Phi (f : S3) : S3 := fun i j l => Nall i j l f O O O.

Lemma iter_comm {T} (f g : T -> T) : (forall x, f (g x) = g (f x)) -> forall n x, f (itr n g x) = itr n g (f x).
Proof. intros h n x. induction n as [|n IH]; [reflexivity|]. cbn [itr]. now rewrite h, IH. Qed.
Lemma iter_S {T} (f : T -> T) n x : itr (S n) f x = itr n f (f x).
Proof. now rewrite <- (iter_comm f f). Qed.
Lemma iter_add (f : S3 -> S3) : (forall x y, f (s3add x y) = s3add (f x) (f y)) ->
  forall n x y, itr n f (s3add x y) = s3add (itr n f x) (itr n f y).
Proof. intros h n x y. induction n as [|n IH]; [reflexivity|]. simpl. now rewrite IH, h. Qed.

Lemma Phi_add f g : Phi (s3add f g) = s3add (Phi f) (Phi g).
Proof.
  apply s3_ext. intros i j l. unfold Phi, Nall.
  rewrite (iter_add N3 N3_add), (iter_add N1 N1_add), (iter_add N2 N2_add). reflexivity.
Qed.
Lemma D2_Phi f : D2 (Phi f) = Phi (N2 f).
Proof.
  apply s3_ext. intros i j l. unfold D2, Phi, Nall. rewrite iter_S.
  rewrite (iter_comm N2 N1) by (intro; now rewrite N12). rewrite (iter_comm N2 N3) by (intro; now rewrite N23). reflexivity.
Qed.
Lemma D1_Phi f : D1 (Phi f) = Phi (N1 f).
Proof.
  apply s3_ext. intros i j l. unfold D1, Phi, Nall. rewrite iter_S.
  rewrite (iter_comm N1 N3) by (intro; now rewrite N13). reflexivity.
Qed.
Lemma D3_Phi f : D3 (Phi f) = Phi (N3 f).
Proof. apply s3_ext. intros i j l. unfold D3, Phi, Nall. now rewrite iter_S. Qed.
Lemma Phi_mul f g : Phi (s3mul f g) = s3mul f (Phi g).
Proof.
  apply s3_ext. intros i j l.
  enough (W : forall N i j l f g, (i + j + l <= N)%nat -> Phi (s3mul f g) i j l = s3mul f (Phi g) i j l) by (now apply (W _ i j l f g (le_n _))).
  clear. induction N as [|N IH]; intros i j l f g Hn.
  - destruct i, j, l; try lia. reflexivity.
  - destruct i as [|i]; [destruct j as [|j]; [destruct l as [|l]; [reflexivity|]|]|].
    + change (D3 (Phi (s3mul f g)) 0%nat 0%nat l = D3 (s3mul f (Phi g)) 0%nat 0%nat l).
      rewrite D3_Phi, N3_mul, Phi_add, D3_mul, D3_Phi.
      change (Phi (s3mul (D3 f) g) 0%nat 0%nat l + Phi (s3mul f (N3 g)) 0%nat 0%nat l =
        s3mul (D3 f) (Phi g) 0%nat 0%nat l + s3mul f (Phi (N3 g)) 0%nat 0%nat l).
      rewrite !IH by lia. reflexivity.
    + change (D2 (Phi (s3mul f g)) 0%nat j l = D2 (s3mul f (Phi g)) 0%nat j l).
      rewrite D2_Phi, N2_mul, Phi_add, D2_mul, D2_Phi.
      change (Phi (s3mul (D2 f) g) 0%nat j l + Phi (s3mul f (N2 g)) 0%nat j l =
        s3mul (D2 f) (Phi g) 0%nat j l + s3mul f (Phi (N2 g)) 0%nat j l).
      rewrite !IH by lia. reflexivity.
    + change (D1 (Phi (s3mul f g)) i j l = D1 (s3mul f (Phi g)) i j l).
      rewrite D1_Phi, N1_mul, Phi_add, D1_mul, D1_Phi.
      change (Phi (s3mul (D1 f) g) i j l + Phi (s3mul f (N1 g)) i j l =
        s3mul (D1 f) (Phi g) i j l + s3mul f (Phi (N1 g)) i j l).
      rewrite !IH by lia. reflexivity.
Qed.

Definition sexp : S3 := Phi s3_1.
Lemma sexp_0 : sexp O O O = 1.
Proof. reflexivity. Qed.
Lemma N1_one : N1 s3_1 = s3mul (D1 K) s3_1.
Proof. unfold N1. change (D1 s3_1) with s3_0. ring. Qed.
Lemma N2_one : N2 s3_1 = s3mul (D2 K) s3_1.
Proof. unfold N2. replace (D2 s3_1) with s3_0 by (apply s3_ext; intros [|i] [|j] [|l]; reflexivity). ring. Qed.
Lemma N3_one : N3 s3_1 = s3mul (D3 K) s3_1.
Proof. unfold N3. replace (D3 s3_1) with s3_0 by (apply s3_ext; intros [|i] [|j] [|l]; reflexivity). ring. Qed.
Lemma sexp_D1 : D1 sexp = s3mul (D1 K) sexp.
Proof. unfold sexp. now rewrite D1_Phi, N1_one, Phi_mul. Qed.
Lemma sexp_D2 : D2 sexp = s3mul (D2 K) sexp.
Proof. unfold sexp. now rewrite D2_Phi, N2_one, Phi_mul. Qed.
Lemma sexp_D3 : D3 sexp = s3mul (D3 K) sexp.
Proof. unfold sexp. now rewrite D3_Phi, N3_one, Phi_mul. Qed.
End Exp.

(** ** parameter dependence of the exponential *)
Lemma sexp_derive (K : R -> S3) (ga : S3) (t : R) : ga O O O = 0 ->
  (forall i j l, (0 < i + j + l)%nat -> is_derive (fun u => K u i j l) t (ga i j l)) ->
  forall i j l, is_derive (fun u => sexp (K u) i j l) t (s3mul ga (sexp (K t)) i j l).
Proof.
  intros g0 hk.
  enough (W : forall N i j l, (i + j + l <= N)%nat -> is_derive (fun u => sexp (K u) i j l) t (s3mul ga (sexp (K t)) i j l))
    by (intros i j l; now apply (W (i + j + l)%nat)).
  induction N as [|N IH]; intros i j l Hn.
  - replace i with O by lia. replace j with O by lia. replace l with O by lia.
    apply (is_derive_ext (fun _ => 1)); [reflexivity|]. rewrite s3mul_0, g0, Rmult_0_l. apply is_derive_Rconst.
  - assert (G : forall (D : S3 -> S3), (forall u, D (sexp (K u)) = s3mul (D (K u)) (sexp (K u))) ->
      (forall f g, D (s3mul f g) = s3add (s3mul (D f) g) (s3mul f (D g))) ->
      forall i' j' l', (i' + j' + l' <= N)%nat ->
      (forall a b c, (a <= i')%nat -> (b <= j')%nat -> (c <= l')%nat -> is_derive (fun u => D (K u) a b c) t (D ga a b c)) ->
      is_derive (fun u => D (sexp (K u)) i' j' l') t (D (s3mul ga (sexp (K t))) i' j' l')).
    { intros D e dm i' j' l' Hl hd.
      apply (is_derive_ext (fun u => s3mul (D (K u)) (sexp (K u)) i' j' l')); [intro u; now rewrite e|].
      eapply is_derive_val.
      - apply (s3mul_derive (fun u => D (K u)) (fun u => sexp (K u)) (D ga) (s3mul ga (sexp (K t))));
          [assumption|intros a b c Ha Hb Hc; apply IH; lia].
      - cbv beta. rewrite dm, e. f_equal.
        replace (s3mul (D (K t)) (s3mul ga (sexp (K t)))) with (s3mul ga (s3mul (D (K t)) (sexp (K t)))) by ring.
        reflexivity. }
    destruct i as [|i]; [destruct j as [|j]; [destruct l as [|l]; [apply IH; lia|]|]|].
    + apply (G D3 (fun u => sexp_D3 (K u)) D3_mul 0%nat 0%nat l); [lia|]. intros a b c _ _ _. apply hk. lia.
    + apply (G D2 (fun u => sexp_D2 (K u)) D2_mul 0%nat j l); [lia|]. intros a b c _ _ _. apply hk. lia.
    + apply (G D1 (fun u => sexp_D1 (K u)) D1_mul i j l); [lia|]. intros a b c _ _ _. apply hk. lia.
Qed.

Lemma sexp_zero (K : S3) : (forall i j l, (0 < i + j + l)%nat -> K i j l = 0) -> sexp K = s3_1.
Proof.
  intro h. apply s3_ext. intros i j l.
  assert (Z1 : D1 (sexp K) = s3_0).
  { rewrite sexp_D1. replace (D1 K) with s3_0 by (apply s3_ext; intros; symmetry; apply h; lia). ring. }
  assert (Z2 : D2 (sexp K) = s3_0).
  { rewrite sexp_D2. replace (D2 K) with s3_0 by (apply s3_ext; intros; symmetry; apply h; lia). ring. }
  assert (Z3 : D3 (sexp K) = s3_0).
  { rewrite sexp_D3. replace (D3 K) with s3_0 by (apply s3_ext; intros; symmetry; apply h; lia). ring. }
  destruct i as [|i]; [destruct j as [|j]; [destruct l as [|l]|]|].
  - reflexivity.
  - change (D3 (sexp K) 0%nat 0%nat l = 0). now rewrite Z3.
  - change (D2 (sexp K) 0%nat j l = 0). now rewrite Z2.
  - change (D1 (sexp K) i j l = 0). now rewrite Z1.
Qed.
(** the exponential is determined by its equations *)
Lemma sexp_unique (K w : S3) : w O O O = 1 ->
  D1 w = s3mul (D1 K) w -> D2 w = s3mul (D2 K) w -> D3 w = s3mul (D3 K) w -> w = sexp K.
Proof.
  intros w0 w1 w2 w3. apply s3_ext. intros i j l.
  enough (W : forall N i j l, (i + j + l <= N)%nat -> w i j l = sexp K i j l) by (now apply (W (i + j + l)%nat)).
  clear i j l. induction N as [|N IH]; intros i j l Hn.
  - destruct i, j, l; try lia. exact w0.
  - destruct i as [|i]; [destruct j as [|j]; [destruct l as [|l]; [exact w0|]|]|].
    + change (D3 w 0%nat 0%nat l = D3 (sexp K) 0%nat 0%nat l). rewrite w3, sexp_D3.
      apply s3mul_ext; intros; [reflexivity|apply IH; lia].
    + change (D2 w 0%nat j l = D2 (sexp K) 0%nat j l). rewrite w2, sexp_D2.
      apply s3mul_ext; intros; [reflexivity|apply IH; lia].
    + change (D1 w i j l = D1 (sexp K) i j l). rewrite w1, sexp_D1.
      apply s3mul_ext; intros; [reflexivity|apply IH; lia].
Qed.
