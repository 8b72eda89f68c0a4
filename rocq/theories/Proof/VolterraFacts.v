(** Existence and uniqueness for triangular systems of integral equations. *)
From Coq Require Import Reals Lra.
From Coquelicot Require Import Coquelicot.
From Verif.Spec Require Export Volterra.
From Verif.Proof Require Export Calc.
Local Open Scope R_scope.

Lemma continuous_sumR {A} (f : A -> R -> R) (l : list A) (x : R) :
  (forall a, In a l -> continuous (f a) x) -> continuous (fun t => sumR (fun a => f a t) l) x.
Proof.
  induction l as [|a r IH]; intro Hc; simpl.
  - apply continuous_const.
  - apply (continuous_plus (f a) (fun t => sumR (fun a => f a t) r)); [apply Hc; now left|].
    apply IH. intros; apply Hc; now right.
Qed.

Lemma continuous_Rmult (f g : R -> R) (x : R) :
  continuous f x -> continuous g x -> continuous (fun t => f t * g t) x.
Proof. intros. now apply (continuous_mult f g). Qed.
Lemma continuous_Rplus (f g : R -> R) (x : R) :
  continuous f x -> continuous g x -> continuous (fun t => f t + g t) x.
Proof. intros. now apply (continuous_plus f g). Qed.
Lemma continuous_Rminus (f g : R -> R) (x : R) :
  continuous f x -> continuous g x -> continuous (fun t => f t - g t) x.
Proof. intros. now apply (continuous_minus f g). Qed.
Lemma continuous_Rconst (c x : R) : continuous (fun _ : R => c) x.
Proof. apply continuous_const. Qed.
Lemma continuous_Rid (x : R) : continuous (fun t : R => t) x.
Proof. apply continuous_id. Qed.
Lemma continuous_of_derive (f : R -> R) (x l : R) : is_derive f x l -> continuous f x.
Proof. intro h. apply (ex_derive_continuous f). now exists l. Qed.
Lemma continuous_Rexp (f : R -> R) (x : R) : continuous f x -> continuous (fun t => exp (f t)) x.
Proof.
  intro h. apply (continuous_comp f exp); [assumption|].
  apply (continuous_of_derive exp _ (exp (f x))), is_derive_exp.
Qed.
Lemma continuous_ext_all (f g : R -> R) (x : R) :
  (forall t, f t = g t) -> continuous f x -> continuous g x.
Proof. intros E. now apply continuous_ext. Qed.
Lemma is_RInt_uniq (f : R -> R) (a b x y : R) : is_RInt f a b x -> is_RInt f a b y -> x = y.
Proof.
  intros h1 h2. pose proof (is_RInt_unique (V := R_CompleteNormedModule) f a b x h1).
  pose proof (is_RInt_unique (V := R_CompleteNormedModule) f a b y h2). congruence.
Qed.
(** primitive of a continuous function *)
Lemma is_derive_RInt0 (f : R -> R) : (forall t, continuous f t) ->
  forall t, is_derive (fun t => RInt f 0 t) t (f t).
Proof.
  intros Hc t. apply (is_derive_RInt f (fun t => RInt f 0 t) 0); [|apply Hc].
  apply filter_forall. intro u. apply (RInt_correct f), (ex_RInt_continuous f). intros; apply Hc.
Qed.

Section V.
Context {I : Type} (dom : I -> Prop) (sys : I -> list ((R -> R) * I)) (init : I -> R)
  (ord : I -> nat).
Hypothesis tri : forall i, dom i -> forall c j, In (c, j) (sys i) -> dom j /\ (ord j < ord i)%nat.

(** A differentiable function with the right initial value and the right
    derivative is the solution. *)
Lemma vsol_step M i (phi D : R -> R) : vsol dom sys init M -> dom i ->
  phi 0 = init i ->
  (forall t, is_derive phi t (D t)) -> (forall t, continuous D t) ->
  (forall t, 0 <= t -> D t = lin_rhs sys M i t) ->
  forall t, 0 <= t -> M i t = phi t.
Proof.
  intros HM Hi H0 Hd Hc HD t Ht.
  pose proof (HM i Hi t Ht) as h1.
  pose proof (RInt_of_derive phi D 0 t Hd Hc) as h2.
  assert (h3 : is_RInt (lin_rhs sys M i) 0 t (phi t - phi 0)).
  { apply (is_RInt_ext D); [|exact h2]. intros x Hx. rewrite Rmin_left in Hx by assumption.
    apply HD. lra. }
  pose proof (is_RInt_uniq _ _ _ _ _ h1 h3). lra.
Qed.

Lemma vsol_unique M N : vsol dom sys init M -> vsol dom sys init N ->
  forall i, dom i -> forall t, 0 <= t -> M i t = N i t.
Proof.
  intros HM HN.
  assert (W : forall n i, (ord i < n)%nat -> dom i -> forall t, 0 <= t -> M i t = N i t).
  { induction n as [|n IH]; intros i Hn Hi t Ht; [lia|].
    pose proof (HM i Hi t Ht) as h1. pose proof (HN i Hi t Ht) as h2.
    assert (h3 : is_RInt (lin_rhs sys M i) 0 t (N i t - init i)).
    { apply (is_RInt_ext (lin_rhs sys N i)); [|exact h2].
      intros x Hx. rewrite Rmin_left in Hx by assumption.
      apply sumR_ext. intros [c j] Hin. simpl. destruct (tri i Hi c j Hin) as [g1 g2].
      f_equal. symmetry. apply IH; [lia|assumption|lra]. }
    pose proof (is_RInt_uniq _ _ _ _ _ h1 h3). lra. }
  intros i Hi. apply (W (S (ord i))); [lia|assumption].
Qed.

Hypothesis cont : forall i c j, In (c, j) (sys i) -> forall t, continuous c t.

Fixpoint vbuild (n : nat) (i : I) (t : R) : R :=
  match n with
  | O => 0
  | S m => init i + RInt (lin_rhs sys (vbuild m) i) 0 t
  end.

Lemma vbuild_cont n : forall i t, continuous (vbuild n i) t.
Proof.
  induction n as [|n IH]; intros i t; simpl.
  - apply continuous_Rconst.
  - apply continuous_Rplus; [apply continuous_Rconst|].
    apply (continuous_of_derive (fun t => RInt (lin_rhs sys (vbuild n) i) 0 t) t (lin_rhs sys (vbuild n) i t)).
    apply is_derive_RInt0. intro u. unfold lin_rhs.
    apply (continuous_sumR (fun cj u => fst cj u * vbuild n (snd cj) u)).
    intros [c j] Hin. simpl. apply continuous_Rmult; [now apply (cont i c j)|apply IH].
Qed.

Lemma vbuild_stable n : forall m i t, dom i -> (ord i < n)%nat -> (ord i < m)%nat ->
  vbuild n i t = vbuild m i t.
Proof.
  induction n as [|n IH]; intros m i t Hi Hn Hm; [lia|].
  destruct m as [|m]; [lia|]. simpl. f_equal. apply RInt_ext. intros x _.
  apply sumR_ext. intros [c j] Hin. simpl. destruct (tri i Hi c j Hin) as [g1 g2].
  f_equal. apply IH; [assumption|lia|lia].
Qed.

Definition vmin (i : I) : R -> R := vbuild (S (ord i)) i.

Lemma vsol_exists : vsol dom sys init vmin.
Proof.
  intros i Hi t _. unfold vmin. simpl.
  set (L := lin_rhs sys (fun j => vbuild (S (ord j)) j) i).
  apply (is_RInt_ext (lin_rhs sys (vbuild (ord i)) i)).
  - intros x _. unfold L. apply sumR_ext. intros [c j] Hin. simpl.
    destruct (tri i Hi c j Hin) as [g1 g2]. f_equal.
    apply (vbuild_stable (ord i) (S (ord j))); [assumption|lia|lia].
  - set (f := lin_rhs sys (vbuild (ord i)) i).
    assert (Er : forall x y : R, x + y - x = y) by (intros; ring). rewrite Er.
    apply (RInt_correct f), (ex_RInt_continuous f). intros z _. unfold f, lin_rhs.
    apply (continuous_sumR (fun cj u => fst cj u * vbuild (ord i) (snd cj) u)).
    intros [c j] Hin. simpl. apply continuous_Rmult; [now apply (cont i c j)|apply vbuild_cont].
Qed.

Lemma vmin_0 i : vmin i 0 = init i.
Proof.
  unfold vmin. cbn [vbuild]. rewrite (RInt_point (V := R_CompleteNormedModule)).
  change (@zero R_CompleteNormedModule) with 0. ring.
Qed.
Lemma vmin_derive i : dom i -> forall t : R, is_derive (vmin i) t (lin_rhs sys vmin i t).
Proof.
  intros Hi t. unfold vmin at 1. cbn [vbuild]. 
  apply (is_derive_val _ _ (0 + lin_rhs sys (vbuild (ord i)) i t)).
  - apply is_derive_Rplus; [apply is_derive_Rconst|]. apply is_derive_RInt0. intro u. unfold lin_rhs.
    apply (continuous_sumR (fun cj u => fst cj u * vbuild (ord i) (snd cj) u)).
    intros [c j] Hin. simpl. apply continuous_Rmult; [now apply (cont i c j)|apply vbuild_cont].
  - rewrite Rplus_0_l. unfold lin_rhs. apply sumR_ext. intros [c j] Hin. cbn [fst snd].
    destruct (tri i Hi c j Hin) as [g1 g2]. f_equal. apply (vbuild_stable (ord i) (S (ord j))); [assumption|lia|lia].
Qed.

Lemma vsol_deriv_solves (phi : I -> R -> R) :
  (forall i, dom i -> phi i 0 = init i) ->
  (forall i, dom i -> forall t, is_derive (phi i) t (lin_rhs sys phi i t)) ->
  vsol dom sys init phi.
Proof.
  intros H0 Hd i Hi t Ht. rewrite <- (H0 i Hi).
  apply (RInt_of_derive (phi i)); [now apply Hd|].
  intro u. apply (continuous_sumR (fun cj u => fst cj u * phi (snd cj) u)).
  intros [c j] Hin. simpl. apply continuous_Rmult; [now apply (cont i c j)|].
  destruct (tri i Hi c j Hin) as [g1 _]. eapply continuous_of_derive, Hd, g1.
Qed.
End V.

(** a solution whose ingredients are continuous satisfies the differential equation *)
Lemma vsol_derive {I : Type} (dom : I -> Prop) (sys : I -> list ((R -> R) * I)) (init : I -> R) M i :
  vsol dom sys init M -> dom i ->
  (forall c j, In (c, j) (sys i) -> forall t, continuous c t /\ continuous (M j) t) ->
  forall t : R, 0 < t -> is_derive (M i) t (lin_rhs sys M i t).
Proof.
  intros HM Hi Hc t Ht.
  assert (Cr : forall u, continuous (lin_rhs sys M i) u).
  { intro u. apply (continuous_sumR (fun cj u => fst cj u * M (snd cj) u)).
    intros [c j] Hin. simpl. destruct (Hc c j Hin u). now apply continuous_Rmult. }
  apply (is_derive_ext_loc (fun u => init i + RInt (lin_rhs sys M i) 0 u)).
  - exists (mkposreal t Ht). intros u Hu.
    assert (Hu0 : 0 <= u).
    { unfold ball in Hu; simpl in Hu. unfold AbsRing_ball, minus, plus, opp, abs in Hu; simpl in Hu.
      apply Rabs_def2 in Hu. lra. }
    pose proof (is_RInt_unique (V := R_CompleteNormedModule) _ _ _ _ (HM i Hi u Hu0)) as E.
    assert (Er : forall x y : R, x + (y - x) = y) by (intros; ring).
    rewrite E. apply Er.
  - eapply is_derive_val; [apply is_derive_Rplus; [apply is_derive_Rconst|apply is_derive_RInt0, Cr]|]. ring.
Qed.
