(** The tree of derivatives of exp(L (M(s) - 1)) built by cpp_mom.py's dmgf_cpp, for any
    family G of successive derivatives on an open set D (used for the exponential jumps of
    mdl_srjd, where M is not defined on the whole line). *)
From Coq Require Import Reals Lra.
From Coquelicot Require Import Coquelicot.
From Verif.Proof Require Export CppProofs.
Local Open Scope R_scope.

Section TREE.
Context (L : R) (G : nat -> R -> R) (D : R -> Prop).
Hypothesis Dopen : forall s, D s -> locally s D.
Hypothesis G_derive : forall n (s : R), D s -> is_derive (G (S n)) s (G (S (S n)) s).

Definition gprodG (s : R) (ps : list (Z * Z)) : R :=
  prodR (fun nm => G (Z.to_nat (fst nm)) s ^ Z.to_nat (snd nm)) ps.
Fixpoint gdprodG (s : R) (ps : list (Z * Z)) : R :=
  match ps with
  | [] => 0
  | (n, m) :: r =>
      IZR m * G (Z.to_nat n) s ^ Z.to_nat (m - 1) * G (Z.to_nat (n + 1)) s * gprodG s r
      + G (Z.to_nat n) s ^ Z.to_nat m * gdprodG s r
  end.
Fixpoint msum (ps : list (Z * Z)) : Z := match ps with [] => 0%Z | nm :: r => (snd nm + msum r)%Z end.
Lemma msum_app p q : msum (p ++ q) = (msum p + msum q)%Z.
Proof. induction p as [|a p IH]; simpl; [reflexivity|]. rewrite IH. lia. Qed.

Lemma gprodG_derive (s : R) ps : D s -> wfps ps -> is_derive (fun s => gprodG s ps) s (gdprodG s ps).
Proof.
  intro Ds. induction ps as [|[n m] r IH]; intro Hw; simpl.
  - apply (is_derive_Rconst 1).
  - inversion Hw as [|? ? [h1 h2] Hr]; subst; simpl in *.
    eapply is_derive_val.
    + apply (is_derive_Rmult (fun s => G (Z.to_nat n) s ^ Z.to_nat m) (fun s => gprodG s r)).
      * replace (Z.to_nat n) with (S (Z.to_nat (n - 1))) by lia. apply is_derive_Rpow, G_derive, Ds.
      * apply IH, Hr.
    + fold (gprodG s r). replace (S (S (Z.to_nat (n - 1)))) with (Z.to_nat (n + 1)) by lia.
      replace (S (Z.to_nat (n - 1))) with (Z.to_nat n) by lia.
      replace (pred (Z.to_nat m)) with (Z.to_nat (m - 1)) by lia.
      rewrite INR_IZR_INZ, Z2Nat.id by lia. ring.
Qed.

Definition gmonC (s : R) (k : ckey) : R := pw L (fst k) * gprodG s (snd k).
Definition gdmonC (s : R) (k : ckey) : R := pw L (fst k) * gdprodG s (snd k).
Definition gwfck (k : ckey) : Prop := (0 <= fst k)%Z /\ snd k <> [] /\ wfps (snd k) /\ fst k = msum (snd k).
Definition gwfC (l : list (ckey * Q)) : Prop := forall k, In k (keys l) -> gwfck k.

Lemma gprodG_app s p q : gprodG s (p ++ q) = gprodG s p * gprodG s q.
Proof.
  induction p as [|a p IH]; unfold gprodG in *; simpl; [lra|]. rewrite IH. lra.
Qed.

Lemma gd1_times_key_spec k : gwfck k ->
  returns (d1_times_key k) (fun k' => gwfck k' /\ forall s, gmonC s k' = L * G 1 s * gmonC s k).
Proof.
  destruct k as [i ps]. intros (h1 & h2 & h3 & hm). simpl in *. unfold d1_times_key. simpl.
  destruct ps as [|[n m] r]; [contradiction|]. inversion h3 as [|? ? [h4 h5] Hr]; subst; simpl in *.
  destruct (Z.eqb_spec n 1) as [->|Hn]; simpl.
  - split.
    + split; [simpl; lia|]. split; [discriminate|]. split; [|cbn [msum snd fst]; lia]. constructor; [simpl; lia|assumption].
    + intro s. unfold gmonC, gprodG. simpl. rewrite pw_succ by (right; lia).
      replace (Z.to_nat (m + 1)) with (S (Z.to_nat m)) by lia.
      simpl. change (Pos.to_nat 1) with 1%nat. ring.
  - split.
    + split; [simpl; lia|]. split; [discriminate|]. split; [|cbn [msum snd fst]; lia]. constructor; [simpl; lia|].
      constructor; [simpl; lia|assumption].
    + intro s. unfold gmonC, gprodG. simpl. rewrite pw_succ by (right; lia).
      change (Pos.to_nat 1) with 1%nat. simpl. ring.
Qed.

Lemma gdterm_key_spec i pre n m post : (0 <= i)%Z -> wfps pre -> (1 <= n)%Z -> (1 <= m)%Z -> wfps post ->
  i = (msum pre + m + msum post)%Z ->
  gwfck (dterm_key i pre n m post) /\
  forall s, gmonC s (dterm_key i pre n m post)
    = pw L i * gprodG s pre * (G (Z.to_nat n) s ^ Z.to_nat (m - 1) * G (Z.to_nat (n + 1)) s * gprodG s post).
Proof.
  intros Hi Hpre Hn Hm Hpost His. unfold dterm_key.
  set (mid := if (m - 1 =? 0)%Z then [] else [(n, (m - 1)%Z)]).
  assert (M : wfps mid /\ msum mid = (m - 1)%Z /\ forall s, gprodG s mid = G (Z.to_nat n) s ^ Z.to_nat (m - 1)).
  { unfold mid. destruct (Z.eqb_spec (m - 1) 0) as [E|N].
    - split; [constructor|]. split; [simpl; lia|]. intro s. rewrite E. reflexivity.
    - split; [constructor; [simpl; lia|constructor]|]. split; [simpl; lia|]. intro s. unfold gprodG. simpl. ring. }
  set (nxt := match post with [] => [((n + 1)%Z, 1%Z)] | (nn, mn) :: r =>
               if (nn =? n + 1)%Z then (nn, (mn + 1)%Z) :: r else ((n + 1)%Z, 1%Z) :: post end).
  assert (X : wfps nxt /\ msum nxt = (1 + msum post)%Z /\ nxt <> [] /\ forall s, gprodG s nxt = G (Z.to_nat (n + 1)) s * gprodG s post).
  { unfold nxt. destruct post as [|[nn gmm] r].
    - split; [constructor; [simpl; lia|constructor]|]. split; [cbn [msum snd fst]; lia|]. split; [discriminate|].
      intro s. unfold gprodG. simpl. change (Pos.to_nat 1) with 1%nat. simpl. ring.
    - inversion Hpost as [|? ? [h1 h2] Hr]; subst; cbn [fst snd] in h1, h2.
      destruct (Z.eqb_spec nn (n + 1)) as [->|N].
      + split; [constructor; [simpl; lia|assumption]|]. split; [cbn [msum snd fst]; lia|]. split; [discriminate|].
        intro s. unfold gprodG. simpl. replace (Z.to_nat (gmm + 1)) with (S (Z.to_nat gmm)) by lia.
        simpl. ring.
      + split; [constructor; [simpl; lia|assumption]|]. split; [cbn [msum snd fst]; lia|]. split; [discriminate|].
        intro s. unfold gprodG. simpl. change (Pos.to_nat 1) with 1%nat. simpl. ring. }
  destruct M as (m1 & mm1 & m2), X as (x1 & mx1 & x2 & x3). split.
  - split; [assumption|]. simpl. split.
    + intro E. apply app_eq_nil in E. destruct E as [_ E]. apply app_eq_nil in E. tauto.
    + split; [|rewrite !msum_app, mm1, mx1; lia].
      apply Forall_app. split; [assumption|]. apply Forall_app. split; assumption.
  - intro s. unfold gmonC. simpl. rewrite !gprodG_app, m2, x3. ring.
Qed.

Lemma gwfC_add_kv k v l : gwfC l -> gwfck k -> gwfC (add_kv k v l).
Proof. intros Hl Hk k' Hk'. apply keys_add_kv_in in Hk'. destruct Hk' as [->|h]; auto. Qed.

Lemma gdterm_loop_spec i c : (0 <= i)%Z -> forall post pre a, wfps pre -> wfps post -> gwfC a ->
  i = (msum pre + msum post)%Z ->
  gwfC (dterm_loop i c pre post a) /\
  forall s, eval (gmonC s) (dterm_loop i c pre post a)
    = eval (gmonC s) a + Q2R c * pw L i * gprodG s pre * gdprodG s post.
Proof.
  intro Hi. induction post as [|[n m] r IH]; intros pre a Hpre Hpost Ha His; cbn [dterm_loop].
  - split; [assumption|]. intro; simpl; lra.
  - destruct (Forall_inv Hpost) as [h1 h2]. pose proof (Forall_inv_tail Hpost) as Hr. simpl in h1, h2.
    destruct (gdterm_key_spec i pre n m r Hi Hpre h1 h2 Hr) as [k1 k2]; [cbn [msum snd] in His; lia|].
    destruct (IH (pre ++ [(n, m)]) (add_kv (dterm_key i pre n m r) (qmul c (qz m)) a)) as [g1 g2].
    + apply Forall_app. split; [assumption|]. constructor; [simpl; lia|constructor].
    + assumption.
    + now apply gwfC_add_kv.
    + rewrite msum_app. cbn [msum snd] in *. lia.
    + split; [assumption|]. intro s. rewrite g2, eval_add_kv, k2, Q2R_mul, Q2R_qz, gprodG_app.
      cbn [gdprodG]. unfold gprodG at 4. simpl. ring.
Qed.

Lemma gdmgf_cpp_spec (p : Poly ckey) : gwfC (items p) ->
  returns (dmgf_cpp p) (fun q => gwfC (items q) /\
    forall s, eval (gmonC s) (items q) =
      L * G 1 s * eval (gmonC s) (items p) + eval (gdmonC s) (items p)).
Proof.
  intro Hp. unfold dmgf_cpp.
  eapply returns_bind.
  - apply (foldM_sum _ gwfC (fun s a => eval (gmonC s) a)
             (fun s kv => Q2R (snd kv) * (L * G 1 s * gmonC s (fst kv)))).
    + intros [k v] Hin a Ha. apply in_keys in Hin. simpl.
      eapply returns_bind; [apply gd1_times_key_spec, Hp, Hin|].
      intros k' [h1 h2]. simpl. split; [now apply gwfC_add_kv|].
      intro s. rewrite eval_add_kv, h2. lra.
    + intros ? [].
  - intros a [h1 h2]. cbn [fst snd] in h2.
    eapply returns_weaken.
    + apply (foldM_sum _ (fun s => gwfC (items s) /\ keyfor s = []) (fun s a => eval (gmonC s) (items a))
             (fun s kv => Q2R (snd kv) * gdmonC s (fst kv))).
      * intros [k v] Hin q [Hq Hkf]. apply in_keys, Hp in Hin. cbn [fst snd].
        destruct Hin as (h3 & h4 & h5 & h6).
        destruct (gdterm_loop_spec (fst k) v h3 (snd k) [] []) as [g1 g2];
          [constructor|assumption|intros ? []|cbn [msum]; lia|].
        unfold merge, is_exact_type. rewrite Hkf. simpl.
        split; [split; [|reflexivity]|].
        -- intros k' Hk'. apply keys_rm_zero_in, keys_add_all_in in Hk'. destruct Hk'; auto.
        -- intro s. rewrite eval_rm_zero, eval_add_all, g2. unfold gprodG, gdmonC. simpl. lra.
      * simpl. auto.
    + intros q [[h3 h4] h5]. split; [assumption|]. intro s. rewrite h5. cbn [items]. rewrite h2.
      rewrite !sumR_eval. simpl. rewrite <- (sumR_scal (L * G 1 s)).
      rewrite Rplus_0_l. f_equal. apply sumR_ext. intros; ring.
Qed.

Lemma giter_cpp_ok m : returns (iter_dmgf_cpp m P1) (fun q => gwfC (items q)).
Proof.
  induction m as [|m IH].
  - simpl. intros k [<-|[]]. split; [simpl; lia|]. split; [discriminate|].
    split; [|reflexivity]. constructor; [simpl; lia|constructor].
  - rewrite iter_cpp_S. eapply returns_bind; [exact IH|]. intros q Hq.
    eapply returns_weaken; [apply gdmgf_cpp_spec, Hq|]. intros r [h _]; exact h.
Qed.

(** value of the n-th derivative divided by the MGF *)
Definition gmm (n : nat) (s : R) : R :=
  match n with
  | O => 1
  | S m => match iter_dmgf_cpp m P1 with Ok q => eval (gmonC s) (items q) | Err _ => 0 end
  end.

Lemma gmm_1 s : gmm 1 s = L * G 1 s.
Proof.
  unfold gmm. cbn [iter_dmgf_cpp P1 items eval]. rewrite Q2R_1. unfold gmonC, gprodG. simpl.
  unfold pw. simpl. change (Pos.to_nat 1) with 1%nat. simpl. ring.
Qed.

Lemma gmm_derive n (s : R) : D s -> is_derive (gmm n) s (gmm (S n) s - L * G 1 s * gmm n s).
Proof.
  intro Ds. destruct n as [|n].
  - rewrite gmm_1. unfold gmm at 1 2. eapply is_derive_val; [apply is_derive_Rconst|ring].
  - pose proof (giter_cpp_ok n) as Hok. apply returns_inv in Hok. destruct Hok as (q & Eq & Hq).
    unfold gmm at 2. rewrite iter_cpp_S, Eq. simpl bind.
    destruct (returns_inv _ _ (gdmgf_cpp_spec q Hq)) as (q' & Eq' & _ & Hv). rewrite Eq', Hv.
    unfold gmm. rewrite Eq.
    eapply is_derive_val; [apply (is_derive_eval gmonC (gdmonC s))|ring].
    intros k v Hin. apply in_keys, Hq in Hin. destruct Hin as (h1 & h2 & h3 & h4).
    unfold gmonC, gdmonC. apply is_derive_Rscal. now apply gprodG_derive.
Qed.

Lemma gmgf_derivative (F : R -> R) (HF : forall s : R, D s -> is_derive F s (L * G 1 s * F s)) n :
  forall s : R, D s -> Derive_n F n s = F s * gmm n s.
Proof.
  induction n as [|n IH]; intros s Ds.
  - simpl. ring.
  - simpl Derive_n. rewrite (Derive_ext_loc _ (fun s => F s * gmm n s) s).
    + apply is_derive_unique. eapply is_derive_val.
      * apply is_derive_Rmult; [now apply HF|now apply gmm_derive].
      * ring.
    + apply (filter_imp D); [|now apply Dopen]. exact IH.
Qed.

Lemma gmm_rec n : forall s, D s -> gmm (S n) s =
  L * sumR (fun k => IZR (combN n k) * (G (S k) s * gmm (n - k) s)) (seq 0 (S n)).
Proof.
  induction n as [|n IH]; intros s Ds.
  - rewrite gmm_1. cbn [seq sumR combN]. simpl. lra.
  - pose proof (gmm_derive (S n) s Ds) as D1.
    assert (D2 : is_derive (gmm (S n)) s (L * sumR (fun k => IZR (combN n k) *
       (G (S (S k)) s * gmm (n - k) s + G (S k) s * (gmm (S (n - k)) s - L * G 1 s * gmm (n - k) s)))
       (seq 0 (S n)))).
    { apply (is_derive_ext_loc (fun s => L * sumR (fun k => IZR (combN n k) * (G (S k) s * gmm (n - k) s)) (seq 0 (S n)))).
      - apply (filter_imp D); [|now apply Dopen]. intros t Dt. now rewrite IH.
      - apply is_derive_Rscal. apply (is_derive_sumR (fun k s => IZR (combN n k) * (G (S k) s * gmm (n - k) s))).
        intros k _. apply is_derive_Rscal. apply is_derive_Rmult; [now apply G_derive|now apply gmm_derive]. }
    pose proof (is_derive_uniq _ _ _ _ D1 D2) as E.
    assert (E' : gmm (S (S n)) s = L * G 1 s * gmm (S n) s + L * sumR (fun k => IZR (combN n k) *
       (G (S (S k)) s * gmm (n - k) s + G (S k) s * (gmm (S (n - k)) s - L * G 1 s * gmm (n - k) s)))
       (seq 0 (S n))) by lra.
    rewrite E'.
    rewrite (pascal_sum n (fun k => G (S k) s * gmm (S n - k) s)).
    rewrite (sumR_ext _ (fun k => IZR (combN n k) * (G (S k) s * gmm (S n - k) s + G (S (S k)) s * gmm (S n - S k) s)
        - L * G 1 s * (IZR (combN n k) * (G (S k) s * gmm (n - k) s)))).
    + rewrite sumR_minus, sumR_scal. rewrite (IH s Ds). ring.
    + intros k Hk. apply in_seq in Hk. simpl (S n - S k)%nat.
      replace (S n - k)%nat with (S (n - k)) by lia. ring.
Qed.
End TREE.
