(** Calculus facts (Coquelicot). *)
From Coq Require Import Reals Lra.
From Coquelicot Require Import Coquelicot.
From Verif.Proof Require Export SumFacts.
Local Open Scope R_scope.

Lemma is_derive_ext_loc_all (f g : R -> R) (x l : R) :
  (forall t, f t = g t) -> is_derive f x l -> is_derive g x l.
Proof. intros E. apply is_derive_ext. exact E. Qed.

Lemma is_derive_val (f : R -> R) (x l l' : R) : is_derive f x l -> l = l' -> is_derive f x l'.
Proof. intros h <-. exact h. Qed.

Lemma is_derive_Rplus (f g : R -> R) (x a b : R) :
  is_derive f x a -> is_derive g x b -> is_derive (fun t => f t + g t) x (a + b).
Proof. intros. now apply (is_derive_plus f g). Qed.
Lemma is_derive_Rminus (f g : R -> R) (x a b : R) :
  is_derive f x a -> is_derive g x b -> is_derive (fun t => f t - g t) x (a - b).
Proof. intros. now apply (is_derive_minus f g). Qed.
Lemma is_derive_Rmult (f g : R -> R) (x a b : R) :
  is_derive f x a -> is_derive g x b -> is_derive (fun t => f t * g t) x (a * g x + f x * b).
Proof. intros. apply (is_derive_mult f g); auto. intros; apply Rmult_comm. Qed.
Lemma is_derive_Rscal (f : R -> R) (c x a : R) :
  is_derive f x a -> is_derive (fun t => c * f t) x (c * a).
Proof. intros. now apply (is_derive_scal f). Qed.
Lemma is_derive_Rscal_r (f : R -> R) (c x a : R) :
  is_derive f x a -> is_derive (fun t => f t * c) x (a * c).
Proof.
  intro h. apply (is_derive_ext_loc_all (fun t => c * f t)); [intro; ring|].
  eapply is_derive_val; [apply is_derive_Rscal, h|ring].
Qed.
Lemma is_derive_Rconst (c x : R) : is_derive (fun _ => c) x 0.
Proof. apply (is_derive_const c x). Qed.
Lemma is_derive_Rid (x : R) : is_derive (fun t => t) x 1.
Proof. apply (is_derive_id x). Qed.
Lemma is_derive_Rpow (f : R -> R) n (x a : R) :
  is_derive f x a -> is_derive (fun t => f t ^ n) x (INR n * a * f x ^ pred n).
Proof. intro h. now apply is_derive_pow. Qed.
Lemma is_derive_Rcomp (f g : R -> R) (x a b : R) :
  is_derive f (g x) a -> is_derive g x b -> is_derive (fun t => f (g t)) x (a * b).
Proof.
  intros h1 h2. eapply is_derive_val; [apply (is_derive_comp f g x a b h1 h2)|].
  unfold scal; simpl; unfold mult; simpl. ring.
Qed.
Lemma is_derive_Rexp (f : R -> R) (x a : R) :
  is_derive f x a -> is_derive (fun t => exp (f t)) x (a * exp (f x)).
Proof.
  intro h. eapply is_derive_val; [apply (is_derive_Rcomp exp f); [apply is_derive_exp|exact h]|ring].
Qed.
Lemma is_derive_lin (c x : R) : is_derive (fun t => c * t) x c.
Proof. eapply is_derive_val; [apply is_derive_Rscal, is_derive_Rid|ring]. Qed.

(** integer powers *)
Lemma is_derive_pw (f : R -> R) n (x a : R) :
  is_derive f x a -> f x <> 0 \/ (0 <= n)%Z ->
  is_derive (fun t => pw (f t) n) x (IZR n * a * pw (f x) (n - 1)).
Proof.
  intros h Hn. destruct (Z.eq_dec n 0) as [->|N0].
  { eapply is_derive_val; [apply (is_derive_Rconst 1)|]. ring. }
  destruct (Z_le_dec 0 n) as [Hp|Hneg].
  - apply (is_derive_ext_loc_all (fun t => f t ^ Z.to_nat n)).
    { intro. now rewrite pw_Zpos. }
    eapply is_derive_val; [apply is_derive_Rpow, h|].
    rewrite (pw_Zpos _ (n - 1)) by lia. replace (pred (Z.to_nat n)) with (Z.to_nat (n - 1)) by lia.
    rewrite INR_IZR_INZ, Z2Nat.id by assumption. reflexivity.
  - destruct Hn as [Hx|]; [|contradiction].
    set (m := Z.to_nat (- n)). assert (En : n = (- Z.of_nat m)%Z) by lia.
    apply (is_derive_ext_loc_all (fun t => / f t ^ m)).
    { intro t. unfold pw. rewrite En. destruct m; [lia|]. simpl Z.of_nat. simpl Z.opp. cbn [powerRZ].
      now rewrite SuccNat2Pos.id_succ. }
    eapply is_derive_val.
    + apply is_derive_inv; [apply is_derive_Rpow, h|]. now apply pow_nonzero.
    + unfold pw. replace (n - 1)%Z with (- (Z.of_nat (S m)))%Z by lia.
      rewrite powerRZ_neg', <- pow_powerRZ.
      rewrite En, opp_IZR, <- INR_IZR_INZ. destruct m; [lia|].
      simpl pred. simpl pow. field. split; [now apply pow_nonzero|assumption].
Qed.

(** derivative of a polynomial whose monomials depend on t *)
Lemma is_derive_eval {K} (mon : R -> K -> R) (mon' : K -> R) (x : R) (l : list (K * Q)) :
  (forall k v, In (k, v) l -> is_derive (fun t => mon t k) x (mon' k)) ->
  is_derive (fun t => eval (mon t) l) x (eval mon' l).
Proof.
  induction l as [|[k v] r IH]; intro Hd; simpl.
  - apply is_derive_Rconst.
  - apply is_derive_Rplus.
    + apply is_derive_Rscal. eapply Hd. now left.
    + apply IH. intros; eapply Hd; right; eauto.
Qed.

Lemma is_derive_sumR {A} (f : A -> R -> R) (f' : A -> R) (x : R) (l : list A) :
  (forall a, In a l -> is_derive (f a) x (f' a)) ->
  is_derive (fun t => sumR (fun a => f a t) l) x (sumR f' l).
Proof.
  induction l as [|a r IH]; intro Hd; simpl.
  - apply is_derive_Rconst.
  - apply is_derive_Rplus; [apply Hd; now left|]. apply IH. intros; apply Hd; now right.
Qed.

Lemma is_derive_uniq (f : R -> R) (x a b : R) : is_derive f x a -> is_derive f x b -> a = b.
Proof. intros h1 h2. apply is_derive_unique in h1, h2. congruence. Qed.

(** two functions with the same derivative everywhere and the same value at 0 agree *)
Lemma derive_same (f g f' : R -> R) :
  (forall t, is_derive f t (f' t)) -> (forall t, is_derive g t (f' t)) -> f 0 = g 0 ->
  forall t, f t = g t.
Proof.
  intros hf hg h0 t.
  assert (hd : forall u, is_derive (fun u => f u - g u) u 0).
  { intro u. eapply is_derive_val; [apply is_derive_Rminus; [apply hf|apply hg]|ring]. }
  destruct (MVT_gen (fun u => f u - g u) 0 t (fun _ => 0)) as [c [_ E]].
  - intros u _. apply hd.
  - intros u _. apply continuity_pt_filterlim, (ex_derive_continuous (fun u => f u - g u)).
    exists 0. apply hd.
  - simpl in E. lra.
Qed.

(** integral of a derivative *)
Lemma RInt_of_derive (F f : R -> R) a b :
  (forall t, is_derive F t (f t)) -> (forall t, continuous f t) ->
  is_RInt f a b (F b - F a).
Proof.
  intros h1 h2. apply (is_RInt_derive F f); intros; auto.
Qed.
