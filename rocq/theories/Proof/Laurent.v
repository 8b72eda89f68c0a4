(** Laurent monomials are linearly independent as functions on [1, oo)^m. *)
From Coq Require Import Reals Lra.
From Verif.Proof Require Export MonTac.
Local Open Scope R_scope.

(** doubles the i-th entry *)
Fixpoint dbl (i : nat) (xs : list R) : list R :=
  match i, xs with
  | _, [] => []
  | O, x :: xr => 2 * x :: xr
  | S i, x :: xr => x :: dbl i xr
  end.
Lemma dbl_length xs : forall i, length (dbl i xs) = length xs.
Proof. induction xs as [|x xs IH]; intros [|i]; simpl; auto. Qed.
Lemma dbl_ge1 xs : forall i, Forall (fun x => 1 <= x) xs -> Forall (fun x => 1 <= x) (dbl i xs).
Proof.
  induction xs as [|x xs IH]; intros [|i] h; simpl; auto; inversion h; subst; constructor; auto; lra.
Qed.
Lemma monx_dbl xs : forall i ks, Forall (fun x => 1 <= x) xs -> length ks = length xs -> (i < length xs)%nat ->
  monx (dbl i xs) ks = pw 2 (nth i ks 0%Z) * monx xs ks.
Proof.
  induction xs as [|x xs IH]; intros i [|k ks] h1 h2 h3; try discriminate; try (simpl in h3; lia).
  inversion h1; subst. destruct i as [|i]; cbn [dbl monx nth].
  - rewrite pw_mult_nz by lra. ring.
  - rewrite IH; [ring|assumption|now injection h2|simpl in h3; lia].
Qed.
Lemma monx_pos xs : forall ks, Forall (fun x => 1 <= x) xs -> 0 < monx xs ks.
Proof.
  induction xs as [|x xs IH]; intros [|k ks] h; simpl; try lra. inversion h; subst.
  apply Rmult_lt_0_compat; [|now apply IH]. apply powerRZ_lt. lra.
Qed.
Lemma pw2_inj a b : pw 2 a = pw 2 b -> a = b.
Proof.
  assert (H : forall a b, (a < b)%Z -> pw 2 a = pw 2 b -> False).
  { clear. intros a b h e. replace b with (a + (b - a))%Z in e by lia. rewrite pow_lemma_pw in e by (left; lra).
    assert (P : 0 < pw 2 a) by (apply powerRZ_lt; lra).
    assert (Q : pw 2 (b - a) = 1) by (apply (Rmult_eq_reg_l (pw 2 a)); lra).
    rewrite pw_Zpos in Q by lia. assert (1 < 2 ^ Z.to_nat (b - a)); [|lra]. apply Rlt_pow_R1; [lra|lia]. }
  intro e. destruct (Z.lt_trichotomy a b) as [h|[h|h]]; [exfalso; eauto|assumption|exfalso; symmetry in e; eauto].
Qed.
Lemma keys_differ m : forall k k' : list Z, length k = m -> length k' = m -> k <> k' ->
  exists i, (i < m)%nat /\ nth i k 0%Z <> nth i k' 0%Z.
Proof.
  induction m as [|m IH]; intros [|x k] [|y k'] h h' ne; try discriminate; [congruence|].
  destruct (Z.eq_dec x y) as [->|n].
  - destruct (IH k k') as (i & h1 & h2); [now injection h|now injection h'|congruence|].
    exists (S i). split; [lia|exact h2].
  - exists 0%nat. split; [lia|exact n].
Qed.

Definition lval (l : list (list Z * R)) (xs : list R) : R := sumR (fun kc => snd kc * monx xs (fst kc)) l.

Lemma laurent_aux m : forall n (l : list (list Z * R)), (length l <= n)%nat -> NoDup (map fst l) ->
  (forall k c, In (k, c) l -> length k = m) ->
  (forall xs, length xs = m -> Forall (fun x => 1 <= x) xs -> lval l xs = 0) ->
  forall k c, In (k, c) l -> c = 0.
Proof.
  induction n as [|n IH]; intros l Hl Hu Hm Hv k c Hin.
  { destruct l; [destruct Hin|simpl in Hl; lia]. }
  destruct l as [|[k0 c0] [|[k1 c1] l]]; [destruct Hin| |].
  - destruct Hin as [e|[]]. injection e as -> ->.
    specialize (Hv (repeat 1 m) (repeat_length _ _)). unfold lval in Hv. cbn [sumR fst snd] in Hv.
    assert (F : Forall (fun x => 1 <= x) (repeat 1 m)) by (apply Forall_forall; intros x Hx; apply repeat_spec in Hx; lra).
    specialize (Hv F). pose proof (monx_pos (repeat 1 m) k F). apply (Rmult_eq_reg_r (monx (repeat 1 m) k)); lra.
  - pose proof (Hm k0 c0 (or_introl eq_refl)) as L0. pose proof (Hm k1 c1 (or_intror (or_introl eq_refl))) as L1.
    assert (ne : k0 <> k1).
    { intros ->. simpl in Hu. inversion Hu; subst. apply H1. now left. }
    destruct (keys_differ m k0 k1 L0 L1 ne) as (i & Hi & Hne).
    assert (Z0 : c0 = 0).
    { set (f := fun kc : list Z * R => (fst kc, snd kc * (pw 2 (nth i (fst kc) 0%Z) - pw 2 (nth i k1 0%Z)))).
      assert (Q : snd (f (k0, c0)) = 0).
      { apply (IH (map f ((k0, c0) :: l))) with (k := k0).
        - rewrite map_length. simpl in *. lia.
        - rewrite map_map. cbn [map fst f]. inversion Hu as [|? ? a b]; subst. inversion b as [|? ? a' b']; subst.
          simpl in a. constructor.
          + intro h. apply a. right. exact h.
          + exact b'.
        - intros k' c' h. apply in_map_iff in h. destruct h as ([k2 c2] & e & h). injection e as <- <-. cbn [fst].
          apply (Hm k2 c2). destruct h as [h|h]; [left; exact h|right; right; exact h].
        - intros xs Lx Fx.
          pose proof (Hv xs Lx Fx) as V. pose proof (Hv (dbl i xs) ltac:(now rewrite dbl_length) (dbl_ge1 xs i Fx)) as V2.
          assert (E : lval (map f ((k0, c0) :: (k1, c1) :: l)) xs = lval ((k0, c0) :: (k1, c1) :: l) (dbl i xs) - pw 2 (nth i k1 0%Z) * lval ((k0, c0) :: (k1, c1) :: l) xs).
          { unfold lval. rewrite sumR_map, <- sumR_scal, <- sumR_minus. apply sumR_ext. intros [k2 c2] h. cbn [fst snd f].
            rewrite monx_dbl; [ring|assumption|rewrite Lx; eapply Hm; exact h|now rewrite Lx]. }
          rewrite V, V2 in E. unfold lval in E |- *. cbn [map sumR fst snd f] in E |- *. rewrite Rminus_eq_0 in E. lra.
        - left. reflexivity. }
      cbn [f fst snd] in Q. apply Rmult_integral in Q. destruct Q as [Q|Q]; [exact Q|]. exfalso. apply Hne, pw2_inj. lra. }
    destruct Hin as [e|Hin]; [congruence|].
    apply (IH ((k1, c1) :: l)) with (k := k).
    + simpl in *. lia.
    + now inversion Hu.
    + intros k' c' h. apply (Hm k' c'). now right.
    + intros xs Lx Fx. specialize (Hv xs Lx Fx). unfold lval in *. cbn [sumR fst snd] in *. subst c0. lra.
    + exact Hin.
Qed.

(** in terms of stored polynomials, with an extra real factor g on every item *)
Theorem laurent m (g : list Z -> R) (l : list (list Z * Q)) : uniq l -> allk (fun k => length k = m) l ->
  (forall xs, length xs = m -> Forall (fun x => 1 <= x) xs -> sumR (fun kv => Q2R (snd kv) * g (fst kv) * monx xs (fst kv)) l = 0) ->
  forall k v, In (k, v) l -> Q2R v * g k = 0.
Proof.
  intros Hu Ha Hv k v Hin.
  apply (laurent_aux m (length l) (map (fun kv => (fst kv, Q2R (snd kv) * g (fst kv))) l)) with (k := k).
  - now rewrite map_length.
  - now rewrite map_map.
  - intros k' c' h. apply in_map_iff in h. destruct h as ([k2 c2] & e & h). injection e as <- <-. exact (allk_in _ _ k2 c2 Ha h).
  - intros xs Lx Fx. unfold lval. rewrite sumR_map. now apply Hv.
  - apply in_map_iff. exists (k, v). auto.
Qed.
Corollary laurent0 m (l : list (list Z * Q)) : uniq l -> allk (fun k => length k = m) l ->
  (forall xs, length xs = m -> Forall (fun x => 1 <= x) xs -> eval (monx xs) l = 0) ->
  forall k v, In (k, v) l -> (v == 0)%Q.
Proof.
  intros Hu Ha Hv k v Hin. apply eqR_Qeq. rewrite RMicromega.Q2R_0.
  rewrite <- (Rmult_1_r (Q2R v)). apply (laurent m (fun _ => 1) l Hu Ha) with (k := k); [|exact Hin].
  intros xs Lx Fx. rewrite <- (Hv xs Lx Fx), sumR_eval. apply sumR_ext. intros; ring.
Qed.
