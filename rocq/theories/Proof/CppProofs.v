(** Proofs about cpp_mom.py (C11, C17, C18). *)
From Coq Require Import Reals Lra.
From Coquelicot Require Import Coquelicot.
From Verif.Model Require Export CppMom.
From Verif.Proof Require Export Calc KeyInv.
Local Open Scope R_scope.


(** ** Normal moments *)
Definition monN (x y : R) (k : list Z) : R := pw x (nthZ k 0) * pw y (nthZ k 1).
Definition dmonN (x y : R) (k : list Z) : R :=
  IZR (nthZ k 0) * pw x (nthZ k 0 - 1) * pw y (nthZ k 1).
Definition nn2 (l : list (list Z * Q)) : Prop :=
  forall k, In k (keys l) -> length k = 2%nat /\ (0 <= nthZ k 0)%Z /\ (0 <= nthZ k 1)%Z.

Lemma nn2_add_kv l k v : nn2 l -> length k = 2%nat -> (0 <= nthZ k 0)%Z -> (0 <= nthZ k 1)%Z ->
  nn2 (add_kv k v l).
Proof. intros Hl h1 h2 h3 k' Hk'. apply keys_add_kv_in in Hk'. destruct Hk' as [->|h]; auto. Qed.

Lemma dmgf_spec (p : Poly (list Z)) : nn2 (items p) ->
  nn2 (items (dmgf p)) /\
  forall x y, eval (monN x y) (items (dmgf p))
              = x * eval (monN x y) (items p) + y * eval (dmonN x y) (items p).
Proof.
  intro Hp. unfold dmgf; cbn [items].
  set (f := fun a kv => _).
  assert (G : forall l a, nn2 a -> nn2 l ->
    nn2 (fold_left f l a) /\ forall x y, eval (monN x y) (fold_left f l a)
      = eval (monN x y) a + x * eval (monN x y) l + y * eval (dmonN x y) l).
  { induction l as [|[k v] l IH]; intros a Ha Hl; cbn [fold_left].
    - split; [assumption|]. intros; simpl; lra.
    - destruct (Hl k (or_introl eq_refl)) as (h1 & h2 & h3).
      assert (Hf : nn2 (f a (k, v)) /\ forall x y, eval (monN x y) (f a (k, v)) =
         eval (monN x y) a + Q2R v * (x * monN x y k + y * dmonN x y k)).
      { unfold f. cbn [fst snd].
        assert (h4 : nn2 (add_kv [(nthZ k 0 + 1)%Z; nthZ k 1] v a)).
        { apply nn2_add_kv; auto; unfold nthZ at 1; simpl; auto. unfold nthZ in *; lia. }
        assert (E1 : forall x y, monN x y [(nthZ k 0 + 1)%Z; nthZ k 1] = x * monN x y k).
        { intros x y. unfold monN at 1. change (nthZ [(nthZ k 0 + 1)%Z; nthZ k 1] 0) with (nthZ k 0 + 1)%Z.
          change (nthZ [(nthZ k 0 + 1)%Z; nthZ k 1] 1) with (nthZ k 1).
          rewrite pw_succ by (right; assumption). unfold monN. ring. }
        destruct (Z.ltb_spec 0 (nthZ k 0)).
        - split.
          + apply nn2_add_kv; auto; unfold nthZ at 1; simpl; unfold nthZ in *; lia.
          + intros x y. rewrite !eval_add_kv, E1, Q2R_mul, Q2R_qz.
            unfold monN at 3, dmonN.
            change (nthZ [(nthZ k 0 - 1)%Z; (nthZ k 1 + 1)%Z] 0) with (nthZ k 0 - 1)%Z.
            change (nthZ [(nthZ k 0 - 1)%Z; (nthZ k 1 + 1)%Z] 1) with (nthZ k 1 + 1)%Z.
            rewrite pw_succ by (right; assumption). ring.
        - assert (E0 : nthZ k 0 = 0%Z) by lia.
          split; [assumption|]. intros x y. rewrite eval_add_kv, E1. unfold dmonN. rewrite E0. lra. }
      destruct Hf as [f1 f2].
      destruct (IH (f a (k, v)) f1) as [g1 g2]; [intros k' Hk'; apply Hl; now right|].
      split; [assumption|]. intros x y. rewrite g2, f2. simpl. lra. }
  destruct (G (items p) []) as [g1 g2]; [intros ? []|assumption|].
  split; [assumption|]. intros x y. rewrite g2. simpl. lra.
Qed.

Lemma iter_dmgf_S m : forall p, iter_dmgf (S m) p = dmgf (iter_dmgf m p).
Proof. induction m as [|m IH]; intro p; [reflexivity|]. simpl in *. now rewrite IH. Qed.

(** n-th normal moment polynomial *)
Definition mn (n : nat) : Poly (list Z) :=
  match n with
  | O => mkPoly [([0; 0]%Z, 1%Q)] kf_norm
  | S m => iter_dmgf m (mkPoly [([1; 0]%Z, 1%Q)] kf_norm)
  end.

Lemma mnorm_mn n : mnorm (Z.of_nat n) = Ok (mn n).
Proof.
  unfold mnorm. destruct (Z.ltb_spec (Z.of_nat n) 0); [lia|].
  destruct (Z.eqb_spec (Z.of_nat n) 0); [replace n with O by lia; reflexivity|].
  destruct (Z.eqb_spec (Z.of_nat n) 1); [replace n with 1%nat by lia; reflexivity|].
  destruct n as [|n]; [lia|]. replace (Z.to_nat (Z.of_nat (S n) - 1)) with n by lia. reflexivity.
Qed.

Lemma mn_keyfor n : keyfor (mn n) = kf_norm.
Proof. destruct n as [|n]; [reflexivity|]. simpl. destruct n; [reflexivity|]. now rewrite iter_dmgf_S. Qed.

Lemma mn_nn2 n : nn2 (items (mn n)).
Proof.
  destruct n as [|n].
  - intros k [<-|[]]. cbn. lia.
  - unfold mn. induction n as [|n IH].
    + intros k [<-|[]]. cbn. lia.
    + rewrite iter_dmgf_S. now apply dmgf_spec.
Qed.

Ltac evs := cbn [eval items mn iter_dmgf fst snd]; rewrite ?Q2R_1;
  cbn [nthZ nth]; rewrite ?pw_0, ?pw_1.

Definition V (n : nat) (x y : R) : R := eval (monN x y) (items (mn n)).
Definition DV (n : nat) (x y : R) : R := eval (dmonN x y) (items (mn n)).

Lemma V_0 x y : V 0 x y = 1.
Proof. unfold V. evs. unfold monN, nthZ. evs. lra. Qed.
Lemma V_1 x y : V 1 x y = x.
Proof. unfold V. evs. unfold monN, nthZ. evs. lra. Qed.

Lemma V_S n x y : V (S n) x y = x * V n x y + y * DV n x y.
Proof.
  destruct n as [|n].
  - rewrite V_0, V_1. unfold DV. evs. unfold dmonN, nthZ. evs. lra.
  - unfold V, DV. change (mn (S (S n))) with (iter_dmgf (S n) (mkPoly [([1; 0]%Z, 1%Q)] kf_norm)).
    rewrite iter_dmgf_S. apply dmgf_spec. apply (mn_nn2 (S n)).
Qed.

Lemma V_derive n x y : is_derive (fun x => V n x y) x (DV n x y).
Proof.
  apply is_derive_eval. intros k v Hk. apply in_keys, mn_nn2 in Hk. destruct Hk as (_ & h & _).
  unfold monN, dmonN. apply is_derive_Rscal_r.
  eapply is_derive_val; [apply (is_derive_pw (fun x => x)); [apply is_derive_Rid|right; assumption]|].
  ring.
Qed.

Lemma DV_S n x y : DV (S n) x y = INR (S n) * V n x y.
Proof.
  revert x. induction n as [|n IH]; intro x.
  - unfold DV. evs. unfold dmonN, nthZ. evs. rewrite V_0. simpl. lra.
  - apply (is_derive_uniq (fun x => V (S (S n)) x y) x); [apply V_derive|].
    apply (is_derive_ext_loc_all (fun x => x * V (S n) x y + y * (INR (S n) * V n x y))).
    { intro t. rewrite (V_S (S n)), IH. reflexivity. }
    eapply is_derive_val.
    + apply is_derive_Rplus.
      * apply is_derive_Rmult; [apply is_derive_Rid|apply V_derive].
      * apply is_derive_Rscal, is_derive_Rscal, V_derive.
    + rewrite IH. rewrite (V_S n). rewrite (S_INR (S n)). ring.
Qed.

(** Stein recurrence *)
Lemma V_stein n x y : V (S (S n)) x y = x * V (S n) x y + INR (S n) * y * V n x y.
Proof. rewrite (V_S (S n)), DV_S. ring. Qed.

(** ** The MGF functions *)
Section CPP.
Context (L mu s2 : R).

Definition G (n : nat) (s : R) : R := exp (mu * s + s2 / 2 * s ^ 2) * V n (mu + s2 * s) s2.

Lemma G_derive n s : is_derive (G n) s (G (S n) s).
Proof.
  unfold G. eapply is_derive_val.
  - apply is_derive_Rmult.
    + apply is_derive_Rexp. apply is_derive_Rplus; [apply is_derive_lin|].
      apply is_derive_Rscal. apply (is_derive_Rpow (fun t => t)). apply is_derive_Rid.
    + apply (is_derive_Rcomp (fun x => V n x s2) (fun s => mu + s2 * s)); [apply V_derive|].
      apply is_derive_Rplus; [apply is_derive_Rconst|apply is_derive_lin].
  - rewrite (V_S n). simpl. field.
Qed.

Lemma G_at0 n : G n 0 = V n mu s2.
Proof.
  unfold G. replace (mu * 0 + s2 / 2 * 0 ^ 2) with 0 by (simpl; lra). rewrite exp_0.
  replace (mu + s2 * 0) with mu by lra. lra.
Qed.

Definition prodG (s : R) (ps : list (Z * Z)) : R :=
  prodR (fun nm => G (Z.to_nat (fst nm)) s ^ Z.to_nat (snd nm)) ps.
Fixpoint dprodG (s : R) (ps : list (Z * Z)) : R :=
  match ps with
  | [] => 0
  | (n, m) :: r =>
      IZR m * G (Z.to_nat n) s ^ Z.to_nat (m - 1) * G (Z.to_nat (n + 1)) s * prodG s r
      + G (Z.to_nat n) s ^ Z.to_nat m * dprodG s r
  end.
Definition wfps (ps : list (Z * Z)) : Prop := Forall (fun nm => 1 <= fst nm /\ 1 <= snd nm)%Z ps.

Lemma prodG_derive (s : R) ps : wfps ps -> is_derive (fun s => prodG s ps) s (dprodG s ps).
Proof.
  induction ps as [|[n m] r IH]; intro Hw; simpl.
  - apply (is_derive_Rconst 1).
  - inversion Hw as [|? ? [h1 h2] Hr]; subst; simpl in *.
    eapply is_derive_val.
    + apply (is_derive_Rmult (fun s => G (Z.to_nat n) s ^ Z.to_nat m) (fun s => prodG s r)).
      * apply is_derive_Rpow, G_derive.
      * apply IH, Hr.
    + fold (prodG s r). replace (S (Z.to_nat n)) with (Z.to_nat (n + 1)) by lia.
      replace (pred (Z.to_nat m)) with (Z.to_nat (m - 1)) by lia.
      rewrite INR_IZR_INZ, Z2Nat.id by lia. ring.
Qed.

Definition monC (s : R) (k : ckey) : R := pw L (fst k) * prodG s (snd k).
Definition dmonC (s : R) (k : ckey) : R := pw L (fst k) * dprodG s (snd k).
Definition wfck (k : ckey) : Prop := (0 <= fst k)%Z /\ snd k <> [] /\ wfps (snd k).
Definition wfC (l : list (ckey * Q)) : Prop := forall k, In k (keys l) -> wfck k.

Lemma prodG_app s p q : prodG s (p ++ q) = prodG s p * prodG s q.
Proof.
  induction p as [|a p IH]; unfold prodG in *; simpl; [lra|]. rewrite IH. lra.
Qed.

Lemma d1_times_key_spec k : wfck k ->
  returns (d1_times_key k) (fun k' => wfck k' /\ forall s, monC s k' = L * G 1 s * monC s k).
Proof.
  destruct k as [i ps]. intros (h1 & h2 & h3). simpl in *. unfold d1_times_key. simpl.
  destruct ps as [|[n m] r]; [contradiction|]. inversion h3 as [|? ? [h4 h5] Hr]; subst; simpl in *.
  destruct (Z.eqb_spec n 1) as [->|Hn]; simpl.
  - split.
    + split; [simpl; lia|]. split; [discriminate|]. simpl. constructor; [simpl; lia|assumption].
    + intro s. unfold monC, prodG. simpl. rewrite pw_succ by (right; lia).
      replace (Z.to_nat (m + 1)) with (S (Z.to_nat m)) by lia.
      simpl. change (Pos.to_nat 1) with 1%nat. ring.
  - split.
    + split; [simpl; lia|]. split; [discriminate|]. simpl. constructor; [simpl; lia|].
      constructor; [simpl; lia|assumption].
    + intro s. unfold monC, prodG. simpl. rewrite pw_succ by (right; lia).
      change (Pos.to_nat 1) with 1%nat. simpl. ring.
Qed.

Lemma dterm_key_spec i pre n m post : (0 <= i)%Z -> wfps pre -> (1 <= n)%Z -> (1 <= m)%Z -> wfps post ->
  wfck (dterm_key i pre n m post) /\
  forall s, monC s (dterm_key i pre n m post)
    = pw L i * prodG s pre * (G (Z.to_nat n) s ^ Z.to_nat (m - 1) * G (Z.to_nat (n + 1)) s * prodG s post).
Proof.
  intros Hi Hpre Hn Hm Hpost. unfold dterm_key.
  set (mid := if (m - 1 =? 0)%Z then [] else [(n, (m - 1)%Z)]).
  assert (M : wfps mid /\ forall s, prodG s mid = G (Z.to_nat n) s ^ Z.to_nat (m - 1)).
  { unfold mid. destruct (Z.eqb_spec (m - 1) 0) as [E|N].
    - split; [constructor|]. intro s. rewrite E. reflexivity.
    - split; [constructor; [simpl; lia|constructor]|]. intro s. unfold prodG. simpl. ring. }
  set (nxt := match post with [] => [((n + 1)%Z, 1%Z)] | (nn, mn) :: r =>
               if (nn =? n + 1)%Z then (nn, (mn + 1)%Z) :: r else ((n + 1)%Z, 1%Z) :: post end).
  assert (X : wfps nxt /\ nxt <> [] /\ forall s, prodG s nxt = G (Z.to_nat (n + 1)) s * prodG s post).
  { unfold nxt. destruct post as [|[nn mm] r].
    - split; [constructor; [simpl; lia|constructor]|]. split; [discriminate|].
      intro s. unfold prodG. simpl. change (Pos.to_nat 1) with 1%nat. simpl. ring.
    - inversion Hpost as [|? ? [h1 h2] Hr]; subst; simpl in *.
      destruct (Z.eqb_spec nn (n + 1)) as [->|N].
      + split; [constructor; [simpl; lia|assumption]|]. split; [discriminate|].
        intro s. unfold prodG. simpl. replace (Z.to_nat (mm + 1)) with (S (Z.to_nat mm)) by lia.
        simpl. ring.
      + split; [constructor; [simpl; lia|assumption]|]. split; [discriminate|].
        intro s. unfold prodG. simpl. change (Pos.to_nat 1) with 1%nat. simpl. ring. }
  destruct M as [m1 m2], X as (x1 & x2 & x3). split.
  - split; [assumption|]. simpl. split.
    + intro E. apply app_eq_nil in E. destruct E as [_ E]. apply app_eq_nil in E. tauto.
    + apply Forall_app. split; [assumption|]. apply Forall_app. split; assumption.
  - intro s. unfold monC. simpl. rewrite !prodG_app, m2, x3. ring.
Qed.

Lemma wfC_add_kv k v l : wfC l -> wfck k -> wfC (add_kv k v l).
Proof. intros Hl Hk k' Hk'. apply keys_add_kv_in in Hk'. destruct Hk' as [->|h]; auto. Qed.

Lemma dterm_loop_spec i c : (0 <= i)%Z -> forall post pre a, wfps pre -> wfps post -> wfC a ->
  wfC (dterm_loop i c pre post a) /\
  forall s, eval (monC s) (dterm_loop i c pre post a)
    = eval (monC s) a + Q2R c * pw L i * prodG s pre * dprodG s post.
Proof.
  intro Hi. induction post as [|[n m] r IH]; intros pre a Hpre Hpost Ha; cbn [dterm_loop].
  - split; [assumption|]. intro; simpl; lra.
  - inversion Hpost as [|? ? [h1 h2] Hr]; subst; simpl in h1, h2.
    destruct (dterm_key_spec i pre n m r Hi Hpre h1 h2 Hr) as [k1 k2].
    destruct (IH (pre ++ [(n, m)]) (add_kv (dterm_key i pre n m r) (qmul c (qz m)) a)) as [g1 g2].
    + apply Forall_app. split; [assumption|]. constructor; [simpl; lia|constructor].
    + assumption.
    + now apply wfC_add_kv.
    + split; [assumption|]. intro s. rewrite g2, eval_add_kv, k2, Q2R_mul, Q2R_qz, prodG_app.
      cbn [dprodG]. unfold prodG at 4. simpl. ring.
Qed.

Lemma dmgf_cpp_spec (p : Poly ckey) : wfC (items p) ->
  returns (dmgf_cpp p) (fun q => wfC (items q) /\
    forall s, eval (monC s) (items q) =
      L * G 1 s * eval (monC s) (items p) + eval (dmonC s) (items p)).
Proof.
  intro Hp. unfold dmgf_cpp.
  eapply returns_bind.
  - apply (foldM_sum _ wfC (fun s a => eval (monC s) a)
             (fun s kv => Q2R (snd kv) * (L * G 1 s * monC s (fst kv)))).
    + intros [k v] Hin a Ha. apply in_keys in Hin. simpl.
      eapply returns_bind; [apply d1_times_key_spec, Hp, Hin|].
      intros k' [h1 h2]. simpl. split; [now apply wfC_add_kv|].
      intro s. rewrite eval_add_kv, h2. lra.
    + intros ? [].
  - intros a [h1 h2]. cbn [fst snd] in h2.
    eapply returns_weaken.
    + apply (foldM_sum _ (fun s => wfC (items s) /\ keyfor s = []) (fun s a => eval (monC s) (items a))
             (fun s kv => Q2R (snd kv) * dmonC s (fst kv))).
      * intros [k v] Hin q [Hq Hkf]. apply in_keys, Hp in Hin. cbn [fst snd].
        destruct Hin as (h3 & h4 & h5).
        destruct (dterm_loop_spec (fst k) v h3 (snd k) [] []) as [g1 g2];
          [constructor|assumption|intros ? []|].
        unfold merge, is_exact_type. rewrite Hkf. simpl.
        split; [split; [|reflexivity]|].
        -- intros k' Hk'. apply keys_rm_zero_in, keys_add_all_in in Hk'. destruct Hk'; auto.
        -- intro s. rewrite eval_rm_zero, eval_add_all, g2. unfold prodG, dmonC. simpl. lra.
      * simpl. auto.
    + intros q [[h3 h4] h5]. split; [assumption|]. intro s. rewrite h5. cbn [items]. rewrite h2.
      rewrite !sumR_eval. simpl. rewrite <- (sumR_scal (L * G 1 s)).
      rewrite Rplus_0_l. f_equal. apply sumR_ext. intros; ring.
Qed.

Definition P1 : Poly ckey :=
  mkPoly [((1%Z, [(1%Z, 1%Z)]), 1%Q)] ["(lambda h)^{i} M^{(n_1)m_1}(s) ... M^{(n_l)m_l}(s)"%string].

Lemma iter_cpp_S m : forall p, iter_dmgf_cpp (S m) p = let! q := iter_dmgf_cpp m p in dmgf_cpp q.
Proof.
  induction m as [|m IH]; intro p.
  - simpl. destruct (dmgf_cpp p); reflexivity.
  - simpl. simpl in IH. destruct (dmgf_cpp p) as [q|]; [|reflexivity]. simpl. apply IH.
Qed.

Lemma iter_cpp_ok m : returns (iter_dmgf_cpp m P1) (fun q => wfC (items q)).
Proof.
  induction m as [|m IH].
  - simpl. intros k [<-|[]]. split; [simpl; lia|]. split; [discriminate|].
    constructor; [simpl; lia|constructor].
  - rewrite iter_cpp_S. eapply returns_bind; [exact IH|]. intros q Hq.
    eapply returns_weaken; [apply dmgf_cpp_spec, Hq|]. intros r [h _]; exact h.
Qed.

(** value of the n-th derivative divided by the MGF *)
Definition mm (n : nat) (s : R) : R :=
  match n with
  | O => 1
  | S m => match iter_dmgf_cpp m P1 with Ok q => eval (monC s) (items q) | Err _ => 0 end
  end.

Lemma mm_1 s : mm 1 s = L * G 1 s.
Proof.
  unfold mm. cbn [iter_dmgf_cpp P1 items eval]. rewrite Q2R_1. unfold monC, prodG. simpl.
  unfold pw. simpl. change (Pos.to_nat 1) with 1%nat. simpl. ring.
Qed.

Lemma mm_derive n s : is_derive (mm n) s (mm (S n) s - L * G 1 s * mm n s).
Proof.
  destruct n as [|n].
  - rewrite mm_1. unfold mm at 1 2. eapply is_derive_val; [apply is_derive_Rconst|ring].
  - pose proof (iter_cpp_ok n) as Hok. apply returns_inv in Hok. destruct Hok as (q & Eq & Hq).
    unfold mm at 2. rewrite iter_cpp_S, Eq. simpl bind.
    destruct (returns_inv _ _ (dmgf_cpp_spec q Hq)) as (q' & Eq' & _ & Hv). rewrite Eq', Hv.
    unfold mm. rewrite Eq.
    eapply is_derive_val; [apply (is_derive_eval monC (dmonC s))|ring].
    intros k v Hin. apply in_keys, Hq in Hin. destruct Hin as (h1 & h2 & h3).
    unfold monC, dmonC. apply is_derive_Rscal. now apply prodG_derive.
Qed.

Definition Fm (s : R) : R := exp (L * (exp (mu * s + s2 / 2 * s ^ 2) - 1)).

Lemma Fm_derive s : is_derive Fm s (L * G 1 s * Fm s).
Proof.
  unfold Fm. eapply is_derive_val.
  - apply is_derive_Rexp, is_derive_Rscal. apply is_derive_Rminus; [|apply is_derive_Rconst].
    apply (is_derive_ext_loc_all (G 0)); [|apply G_derive].
    intro t. unfold G. rewrite V_0. ring.
  - simpl. ring.
Qed.

Lemma mgf_derivative n : forall s, Derive_n Fm n s = Fm s * mm n s.
Proof.
  induction n as [|n IH]; intro s.
  - simpl. ring.
  - simpl Derive_n. rewrite (Derive_ext _ (fun s => Fm s * mm n s) s IH).
    apply is_derive_unique. eapply is_derive_val.
    + apply is_derive_Rmult; [apply Fm_derive|apply mm_derive].
    + ring.
Qed.

Lemma Fm_0 : Fm 0 = 1.
Proof.
  unfold Fm. replace (mu * 0 + s2 / 2 * 0 ^ 2) with 0 by (simpl; lra).
  rewrite exp_0. replace (L * (1 - 1)) with 0 by lra. apply exp_0.
Qed.

(** recurrence *)
Lemma pascal_sum n (a : nat -> R) :
  sumR (fun k => IZR (combN (S n) k) * a k) (seq 0 (S (S n)))
  = sumR (fun k => IZR (combN n k) * (a k + a (S k))) (seq 0 (S n)).
Proof.
  change (seq 0 (S (S n))) with (0%nat :: seq 1 (S n)). cbn [sumR].
  rewrite <- (seq_shift (S n) 0), sumR_map.
  rewrite (sumR_ext _ (fun k => IZR (combN n k) * a (S k) + IZR (combN n (S k)) * a (S k)))
    by (intros; rewrite combN_S, plus_IZR; ring).
  rewrite sumR_plus.
  assert (E : sumR (fun k => IZR (combN n (S k)) * a (S k)) (seq 0 (S n)) + a 0%nat
            = sumR (fun k => IZR (combN n k) * a k) (seq 0 (S n))).
  { assert (A : seq 0 (S n) = 0%nat :: map S (seq 0 n)) by (rewrite seq_shift; reflexivity).
    assert (B : seq 0 (S n) = seq 0 n ++ [n]) by (rewrite seq_S; reflexivity).
    rewrite A at 2. rewrite B, sumR_app. cbn [sumR]. rewrite (combN_gt n (S n)) by lia.
    rewrite sumR_map, combN_0. lra. }
  rewrite (sumR_ext (fun k => IZR (combN n k) * (a k + a (S k)))
             (fun k => IZR (combN n k) * a k + IZR (combN n k) * a (S k)) (seq 0 (S n)))
    by (intros; ring).
  rewrite sumR_plus, <- E, combN_0. lra.
Qed.

Lemma mm_rec n : forall s, mm (S n) s =
  L * sumR (fun k => IZR (combN n k) * (G (S k) s * mm (n - k) s)) (seq 0 (S n)).
Proof.
  induction n as [|n IH]; intro s.
  - rewrite mm_1. cbn [seq sumR combN]. simpl. lra.
  - pose proof (mm_derive (S n) s) as D.
    assert (D2 : is_derive (mm (S n)) s (L * sumR (fun k => IZR (combN n k) *
       (G (S (S k)) s * mm (n - k) s + G (S k) s * (mm (S (n - k)) s - L * G 1 s * mm (n - k) s)))
       (seq 0 (S n)))).
    { apply (is_derive_ext_loc_all (fun s => L * sumR (fun k => IZR (combN n k) * (G (S k) s * mm (n - k) s)) (seq 0 (S n)))).
      - intro t. now rewrite IH.
      - apply is_derive_Rscal. apply (is_derive_sumR (fun k s => IZR (combN n k) * (G (S k) s * mm (n - k) s))).
        intros k _. apply is_derive_Rscal. apply is_derive_Rmult; [apply G_derive|apply mm_derive]. }
    pose proof (is_derive_uniq _ _ _ _ D D2) as E.
    assert (E' : mm (S (S n)) s = L * G 1 s * mm (S n) s + L * sumR (fun k => IZR (combN n k) *
       (G (S (S k)) s * mm (n - k) s + G (S k) s * (mm (S (n - k)) s - L * G 1 s * mm (n - k) s)))
       (seq 0 (S n))) by lra.
    rewrite E'.
    rewrite (pascal_sum n (fun k => G (S k) s * mm (S n - k) s)).
    rewrite (sumR_ext _ (fun k => IZR (combN n k) * (G (S k) s * mm (S n - k) s + G (S (S k)) s * mm (S n - S k) s)
        - L * G 1 s * (IZR (combN n k) * (G (S k) s * mm (n - k) s)))).
    + rewrite sumR_minus, sumR_scal. rewrite (IH s). ring.
    + intros k Hk. apply in_seq in Hk. simpl (S n - S k)%nat.
      replace (S n - k)%nat with (S (n - k)) by lia. ring.
Qed.
End CPP.

(** ** decode *)
Lemma klen_nn2 l : nn2 l -> klen 2 l.
Proof. intros h. apply klen_keys. intros k Hk. now apply h. Qed.

Lemma nn2_of_klen_mon : True. Proof. exact I. Qed.

(** nn2 is kept by products *)
Lemma in_mul_items_keys (l1 l2 l : list (list Z * Q)) n : klen n l1 -> klen n l2 ->
  mul_items kadd l1 l2 = Ok l ->
  forall k, In k (keys l) -> exists k1 k2, In k1 (keys l1) /\ In k2 (keys l2) /\ length k = n /\
    forall i, nthZ k i = (nthZ k1 i + nthZ k2 i)%Z.
Proof.
  intros h1 h2 E k Hk.
  rewrite (mul_items_pure kadd kadd_pure) in E.
  2:{ intros. apply kadd_ok. rewrite (h1 _ _ H), (h2 _ _ H0). auto. }
  inversion E; subst. apply keys_add_all_in in Hk. destruct Hk as [[]|Hk].
  apply in_map_iff in Hk. destruct Hk as [[k' v'] [E' Hin]]. simpl in E'. subst k'.
  apply in_flat_map in Hin. destruct Hin as [[k1 v1] [g1 g2]].
  apply in_map_iff in g2. destruct g2 as [[k2 v2] [E' g2]]. simpl in E'. inversion E'; subst.
  exists k1, k2. split; [now apply in_keys in g1|]. split; [now apply in_keys in g2|].
  split.
  - rewrite kadd_pure_length; rewrite (h1 _ _ g1), ?(h2 _ _ g2); auto.
  - intro i. apply kadd_pure_nth. rewrite (h1 _ _ g1), (h2 _ _ g2); auto.
Qed.

Lemma pmul_nn2 (p q : Poly (list Z)) : keyfor p = keyfor q -> nn2 (items p) -> nn2 (items q) ->
  returns (pmul p q) (fun r => keyfor r = keyfor p /\ nn2 (items r) /\ uniq (items r) /\
    forall x y, eval (monN x y) (items r) = eval (monN x y) (items p) * eval (monN x y) (items q)).
Proof.
  intros Hk Hp Hq. pose proof (klen_nn2 _ Hp) as lp. pose proof (klen_nn2 _ Hq) as lq.
  unfold pmul, pmul_gen. apply is_exact_type_iff in Hk. rewrite Hk.
  assert (E := mul_items_pure kadd kadd_pure (items p) (items q)).
  match type of E with ?A -> _ => assert (Ha : A) end.
  { intros. apply kadd_ok. rewrite (lp _ _ H), (lq _ _ H0). auto. }
  specialize (E Ha). rewrite E. simpl. split; [reflexivity|]. split.
  - intros k Hin. apply keys_rm_zero_in in Hin.
    destruct (in_mul_items_keys _ _ _ 2 lp lq E k Hin) as (k1 & k2 & h1 & h2 & h3 & h4).
    apply Hp in h1. apply Hq in h2. rewrite !h4. lia.
  - split; [apply uniq_rm_zero, uniq_add_all, uniq_nil|].
    intros x y. rewrite eval_rm_zero, eval_add_all.
    rewrite (eval_prod (monN x y) (monN x y) (monN x y) kadd_pure qmul _ _ 1).
    + simpl; lra.
    + intros k1 v1 k2 v2 h1 h2. rewrite Q2R_mul. unfold monN.
      rewrite !kadd_pure_nth by (rewrite (lp _ _ h1), (lq _ _ h2); auto).
      apply in_keys, Hp in h1. apply in_keys, Hq in h2.
      rewrite !pow_lemma_pw by (right; lia). ring.
Qed.

Lemma pow_loop_nn2 (p : Poly (list Z)) : nn2 (items p) ->
  forall m acc, keyfor acc = keyfor p -> nn2 (items acc) ->
  returns (pow_loop kadd m acc p) (fun r => keyfor r = keyfor p /\ nn2 (items r) /\
    forall x y, eval (monN x y) (items r) = eval (monN x y) (items acc) * eval (monN x y) (items p) ^ m).
Proof.
  intros Hp. induction m as [|m IH]; intros acc Hk Ha; simpl.
  - repeat split; auto; try (now apply Ha). intros; lra.
  - eapply returns_bind; [apply (pmul_nn2 acc p Hk Ha Hp)|].
    intros a (h1 & h2 & h3 & h4). simpl.
    eapply returns_weaken; [apply IH; auto; congruence|].
    intros r (g1 & g2 & g3). split; [assumption|]. split; [assumption|].
    intros x y. rewrite g3, h4. ring.
Qed.

Lemma ppow_nn2 (p : Poly (list Z)) m : nn2 (items p) -> (1 <= m)%Z ->
  returns (ppow p m) (fun r => keyfor r = keyfor p /\ nn2 (items r) /\
    forall x y, eval (monN x y) (items r) = eval (monN x y) (items p) ^ Z.to_nat m).
Proof.
  intros Hp Hm. unfold ppow, ppow_gen. destruct (Z.leb_spec m 0) as [h|_]; [lia|].
  eapply returns_weaken; [apply pow_loop_nn2; auto|].
  intros r (g1 & g2 & g3). split; [assumption|]. split; [assumption|]. intros x y. rewrite g3.
  replace (Z.to_nat m) with (S (Z.to_nat (m - 1))) by lia. reflexivity.
Qed.

Lemma decode_key_spec ps : wfps ps ->
  returns (decode_key ps) (fun r => keyfor r = kf_norm /\ nn2 (items r) /\
    forall x y, eval (monN x y) (items r) = prodR (fun nm => V (Z.to_nat (fst nm)) x y ^ Z.to_nat (snd nm)) ps).
Proof.
  unfold decode_key.
  assert (G : forall ps acc, wfps ps -> keyfor acc = kf_norm -> nn2 (items acc) ->
    returns (foldM (fun pol1 nm => let! q := mnorm (fst nm) in let! qm := ppow q (snd nm) in pmul pol1 qm) ps acc)
      (fun r => keyfor r = kf_norm /\ nn2 (items r) /\
       forall x y, eval (monN x y) (items r) = eval (monN x y) (items acc) *
          prodR (fun nm => V (Z.to_nat (fst nm)) x y ^ Z.to_nat (snd nm)) ps)).
  { induction ps0 as [|[n m] r IH]; intros acc Hw Hk Ha; simpl.
    - repeat split; auto; try now apply Ha. intros; lra.
    - inversion Hw as [|? ? [h1 h2] Hr]; subst; simpl in *.
      replace n with (Z.of_nat (Z.to_nat n)) at 1 by lia. rewrite mnorm_mn. simpl.
      pose proof (ppow_nn2 (mn (Z.to_nat n)) m (mn_nn2 _) h2) as P.
      destruct (ppow (mn (Z.to_nat n)) m) as [qm|]; [|contradiction].
      simpl in P. destruct P as (p1 & p2 & p3). rewrite mn_keyfor in p1. simpl.
      pose proof (pmul_nn2 acc qm ltac:(congruence) Ha p2) as M.
      destruct (pmul acc qm) as [acc'|]; [|contradiction]. simpl in M.
      destruct M as (m1 & m2 & m3 & m4).
      eapply returns_weaken; [apply IH; auto; congruence|].
      intros z (z1 & z2 & z3). split; [assumption|]. split; [assumption|].
      intros x y. rewrite z3, m4, p3. unfold V. ring. }
  intro Hw. eapply returns_weaken; [apply G; auto; intros k [<-|[]]; cbn; lia|].
  intros z (z1 & z2 & z3). split; [assumption|]. split; [assumption|].
  intros x y. rewrite z3. simpl. unfold monN. cbn. rewrite Q2R_1. lra.
Qed.

(** keys of length 3, non-negative *)
Definition nn3 (l : list (list Z * Q)) : Prop :=
  forall k, In k (keys l) -> length k = 3%nat /\ (0 <= nthZ k 0)%Z /\ (0 <= nthZ k 1)%Z /\ (0 <= nthZ k 2)%Z.
Definition mon3 (a b c : R) (k : list Z) : R := pw a (nthZ k 0) * pw b (nthZ k 1) * pw c (nthZ k 2).

Lemma nn3_add_kv l a b c v : nn3 l -> (0 <= a)%Z -> (0 <= b)%Z -> (0 <= c)%Z -> nn3 (add_kv [a; b; c] v l).
Proof.
  intros Hl h1 h2 h3 k' Hk'. apply keys_add_kv_in in Hk'. destruct Hk' as [->|h]; auto.
Qed.

Lemma prodR_ext {A} (f g : A -> R) l : (forall x, f x = g x) -> prodR f l = prodR g l.
Proof. intro E. induction l; simpl; [reflexivity|]. now rewrite E, IHl. Qed.

Lemma decode_spec (p : Poly ckey) : wfC (items p) ->
  returns (decode p) (fun r => keyfor r = kf_cpp2 /\ nn3 (items r) /\ uniq (items r) /\
    forall L mu s2, eval (mon3 L mu s2) (items r) = eval (monC L mu s2 0) (items p)).
Proof.
  intro Hp. unfold decode. eapply returns_bind.
  - apply (foldM_sum _ (fun a => nn3 a /\ uniq a) (fun (t : R * R * R) a => eval (mon3 (fst (fst t)) (snd (fst t)) (snd t)) a)
       (fun t kv => Q2R (snd kv) * monC (fst (fst t)) (snd (fst t)) (snd t) 0 (fst kv))).
    + intros [[i ps] v] Hin a [Ha Hu]. apply in_keys, Hp in Hin. destruct Hin as (h1 & h2 & h3).
      simpl in h1, h2, h3. cbn [fst snd].
      eapply returns_bind; [apply decode_key_spec, h3|].
      intros q (q1 & q2 & q3). simpl.
      assert (GG : forall l a, nn2 l -> nn3 a -> uniq a ->
         let r := fold_left (fun a kv1 => add_kv [i; nthZ (fst kv1) 0; nthZ (fst kv1) 1] (qmul v (snd kv1)) a) l a in
         nn3 r /\ uniq r /\ forall L x y, eval (mon3 L x y) r = eval (mon3 L x y) a + Q2R v * pw L i * eval (monN x y) l).
      { clear q q1 q2 q3 a Ha Hu. induction l as [|[k w] l IH]; intros a Hl Ha Hu; cbn [fold_left].
        - split; [assumption|]. split; [assumption|]. intros; simpl; lra.
        - destruct (Hl k (or_introl eq_refl)) as (e1 & e2 & e3).
          cbn [fst snd].
          destruct (IH (add_kv [i; nthZ k 0; nthZ k 1] (qmul v w) a)) as (g1 & g2 & g3).
          + intros k' Hk'; apply Hl; now right.
          + now apply nn3_add_kv.
          + now apply uniq_add_kv.
          + split; [assumption|]. split; [assumption|]. intros L x y. rewrite g3, eval_add_kv, Q2R_mul.
            cbn [eval]. unfold mon3 at 2.
            change (nthZ [i; nthZ k 0; nthZ k 1] 0) with i.
            change (nthZ [i; nthZ k 0; nthZ k 1] 1) with (nthZ k 0).
            change (nthZ [i; nthZ k 0; nthZ k 1] 2) with (nthZ k 1). unfold monN. ring. }
      destruct (GG (items q) a q2 Ha Hu) as (g1 & g2 & g3). split; [auto|].
      intros [[L mu] s2]. cbn [fst snd]. rewrite g3, q3. unfold monC, prodG. cbn [fst snd].
      rewrite (prodR_ext (fun nm => G mu s2 (Z.to_nat (fst nm)) 0 ^ Z.to_nat (snd nm))
                         (fun nm => V (Z.to_nat (fst nm)) mu s2 ^ Z.to_nat (snd nm)))
        by (intro; now rewrite G_at0). ring.
    + split; [intros ? []|constructor].
  - intros a [[h1 h2] h3]. simpl. split; [reflexivity|]. split.
    + intros k Hk. apply keys_rm_zero_in in Hk. auto.
    + split; [now apply uniq_rm_zero|]. intros L mu s2. rewrite eval_rm_zero.
      specialize (h3 (L, mu, s2)). cbn [fst snd] in h3. rewrite h3. simpl. rewrite sumR_eval. lra.
Qed.

Lemma mcpp_original_spec (n : nat) :
  returns (mcpp_original (Z.of_nat n)) (fun r => keyfor r = kf_cpp2 /\ nn3 (items r) /\ uniq (items r) /\
    forall L mu s2, eval (mon3 L mu s2) (items r) = mm L mu s2 n 0).
Proof.
  unfold mcpp_original. destruct (Z.ltb_spec (Z.of_nat n) 0); [lia|].
  destruct (Z.eqb_spec (Z.of_nat n) 0).
  { replace n with O by lia. cbn [returns]. split; [reflexivity|]. split; [|split].
    - intros k [<-|[]]. cbn. lia.
    - constructor; [intros []|constructor].
    - intros. evs. unfold mon3, nthZ. evs. unfold mm. lra. }
  destruct (Z.eqb_spec (Z.of_nat n) 1).
  { replace n with 1%nat by lia. cbn [returns]. split; [reflexivity|]. split; [|split].
    - intros k [<-|[]]. cbn. lia.
    - constructor; [intros []|constructor].
    - intros. rewrite mm_1, G_at0, V_1. evs. unfold mon3, nthZ. evs. lra. }
  destruct n as [|n]; [lia|]. replace (Z.to_nat (Z.of_nat (S n) - 1)) with n by lia.
  fold P1. destruct (returns_inv _ _ (iter_cpp_ok 0 0 0 n)) as (q & Eq & Hq).
  rewrite Eq. simpl bind. eapply returns_weaken; [apply decode_spec, Hq|].
  intros r (h1 & h2 & h3 & h4). repeat (split; [assumption|]). intros.
  rewrite h4. unfold mm. now rewrite Eq.
Qed.

Lemma sgn1_pow k : IZR (sgn1 (Z.of_nat k)) = (-1) ^ k.
Proof.
  induction k as [|k IH]; [reflexivity|]. simpl pow. rewrite <- IH. unfold sgn1.
  rewrite Nat2Z.inj_succ, Z.even_succ, <- Z.negb_even. destruct (Z.even (Z.of_nat k)); simpl; lra.
Qed.

Lemma pw_sq x n : (0 <= n)%Z -> pw x (2 * n) = pw (x ^ 2) n.
Proof.
  intro Hn. rewrite !pw_Zpos by lia. replace (Z.to_nat (2 * n)) with (2 * Z.to_nat n)%nat by lia.
  now rewrite pow_mult.
Qed.

Lemma mcpp_spec (n : nat) :
  returns (mcpp (Z.of_nat n)) (fun r => keyfor r = kf_cpp /\ nn3 (items r) /\ uniq (items r) /\
    forall L mu s, eval (mon3 L mu s) (items r) = mm L mu (s ^ 2) n 0).
Proof.
  unfold mcpp. eapply returns_bind; [apply mcpp_original_spec|].
  intros p (h1 & h2 & h3 & h4). cbn [returns items keyfor]. split; [reflexivity|]. split; [|split].
  - intros k Hk. apply keys_add_all_in in Hk. destruct Hk as [[]|Hk].
    apply in_map_iff in Hk. destruct Hk as [[k' v'] [E Hin]]. simpl in E. subst k'.
    apply in_map_iff in Hin. destruct Hin as [[k1 v1] [E Hin]]. simpl in E. inversion E; subst.
    apply in_keys, h2 in Hin. cbn. unfold nthZ in *. destruct (nth 2 k1 0%Z); lia.
  - apply uniq_add_all, uniq_nil.
  - intros L mu s. rewrite eval_add_all, <- h4, eval_map. cbn [eval]. rewrite Rplus_0_l.
    clear -h2. assert (nn3 (items p)) by assumption. clear h2.
    induction (items p) as [|[k v] l IH]; cbn [fold_right eval fst snd]; [reflexivity|].
    cbn [fst snd] in IH. rewrite IH by (intros k' Hk'; apply H; now right).
    destruct (H k (or_introl eq_refl)) as (e1 & e2 & e3 & e4).
    assert (E : mon3 L mu s [nthZ k 0; nthZ k 1; (2 * nthZ k 2)%Z] = mon3 L mu (s ^ 2) k).
    { unfold mon3. change (nthZ [nthZ k 0; nthZ k 1; (2 * nthZ k 2)%Z] 2) with (2 * nthZ k 2)%Z.
      rewrite pw_sq by assumption. reflexivity. }
    rewrite <- E. reflexivity.
Qed.

Lemma cmcpp_spec (n : nat) :
  returns (cmcpp (Z.of_nat n)) (fun r => keyfor r = kf_cpp /\ nn3 (items r) /\ uniq (items r) /\
    forall L mu s, eval (mon3 L mu s) (items r) =
      sumR (fun i => IZR (combN n i) * (mm L mu (s ^ 2) i 0 * (- (L * mu)) ^ (n - i))) (seq 0 (S n))).
Proof.
  unfold cmcpp. destruct (Z.ltb_spec (Z.of_nat n) 0); [lia|].
  eapply returns_bind.
  - apply (foldM_sum _ (fun a => nn3 a /\ uniq a)
       (fun (t : R * R * R) a => eval (mon3 (fst (fst t)) (snd (fst t)) (snd t)) a)
       (fun t i => IZR (combN n (Z.to_nat i)) *
          (mm (fst (fst t)) (snd (fst t)) (snd t ^ 2) (Z.to_nat i) 0 *
           (- (fst (fst t) * snd (fst t))) ^ (n - Z.to_nat i)))).
    + intros i Hi a [Ha Hu]. apply in_range in Hi.
      replace i with (Z.of_nat (Z.to_nat i)) at 1 by lia.
      pose proof (mcpp_spec (Z.to_nat i)) as M.
      destruct (mcpp (Z.of_nat (Z.to_nat i))) as [q|]; [|contradiction].
      simpl in M. destruct M as (q1 & q2 & q3 & q4). simpl.
      split; [split|].
      * intros k Hk. apply keys_add_all_in in Hk. destruct Hk as [Hk|Hk]; [now apply Ha|].
        apply in_map_iff in Hk. destruct Hk as [[k' v'] [E Hin]]. simpl in E. subst k'.
        apply in_map_iff in Hin. destruct Hin as [[k1 v1] [E Hin]]. simpl in E. inversion E; subst.
        apply in_keys, q2 in Hin. cbn. unfold nthZ in *. lia.
      * now apply uniq_add_all.
      * intros [[L mu] s]. cbn [fst snd]. rewrite eval_add_all, <- q4. f_equal.
        assert (nn3 (items q)) by assumption. clear q1 q2 q3 q4.
        induction (items q) as [|[k v] l IH]; [simpl; lra|].
        cbn [map eval fst snd]. rewrite IH by (intros k' Hk'; apply H0; now right).
        destruct (H0 k (or_introl eq_refl)) as (e1 & e2 & e3 & e4).
        unfold mon3 at 1.
        change (nthZ [(nthZ k 0 + Z.of_nat n - i)%Z; (nthZ k 1 + Z.of_nat n - i)%Z; nthZ k 2] 0) with (nthZ k 0 + Z.of_nat n - i)%Z.
        change (nthZ [(nthZ k 0 + Z.of_nat n - i)%Z; (nthZ k 1 + Z.of_nat n - i)%Z; nthZ k 2] 1) with (nthZ k 1 + Z.of_nat n - i)%Z.
        change (nthZ [(nthZ k 0 + Z.of_nat n - i)%Z; (nthZ k 1 + Z.of_nat n - i)%Z; nthZ k 2] 2) with (nthZ k 2).
        replace (nthZ k 0 + Z.of_nat n - i)%Z with (nthZ k 0 + (Z.of_nat n - i))%Z by lia.
        replace (nthZ k 1 + Z.of_nat n - i)%Z with (nthZ k 1 + (Z.of_nat n - i))%Z by lia.
        rewrite !pow_lemma_pw by (right; lia).
        rewrite !(pw_Zpos _ (Z.of_nat n - i)) by lia.
        rewrite Q2R_mul, Q2R_qz, mult_IZR.
        unfold mcomb. rewrite Nat2Z.id.
        replace (Z.to_nat (Z.of_nat n - i)) with (n - Z.to_nat i)%nat by lia.
        assert (Es : (- (L * mu)) ^ (n - Z.to_nat i) =
            IZR (sgn1 (Z.of_nat n - i)) * (L ^ (n - Z.to_nat i) * mu ^ (n - Z.to_nat i))).
        { replace (- (L * mu)) with ((-1) * (L * mu)) by lra. rewrite !Rpow_mult_distr. f_equal.
          replace (n - Z.to_nat i)%nat with (Z.to_nat (Z.of_nat n - i)) by lia.
          rewrite <- sgn1_pow. do 2 f_equal. lia. }
        rewrite Es. unfold mon3. ring.
    + split; [intros ? []|constructor].
  - intros a [[h1 h2] h3]. cbn [returns items keyfor]. split; [reflexivity|]. split; [|split].
    + intros k Hk. apply keys_rm_zero_in in Hk. auto.
    + now apply uniq_rm_zero.
    + intros L mu s. rewrite eval_rm_zero. specialize (h3 (L, mu, s)). cbn [fst snd] in h3.
      rewrite h3. cbn [eval]. rewrite Rplus_0_l. unfold range.
      replace (Z.to_nat (Z.of_nat n + 1 - 0)) with (S n) by lia.
      rewrite sumR_map. apply sumR_ext. intros i _. now rewrite Z.add_0_l, Nat2Z.id.
Qed.
