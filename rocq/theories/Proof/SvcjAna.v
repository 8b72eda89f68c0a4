(** Variation of constants for the moment equations of mdl_svcj. *)
From Coq Require Import Reals Lra.
From Coquelicot Require Import Coquelicot.
From Verif.Spec Require Export Svcj.
From Verif.Proof Require Export SvcjMgf.
From Verif.Proof Require Import SrjdIezProofs.
From Verif.Props Require PropsCpp.
Local Open Scope R_scope.

Record cjv := mkCj { wk : R; wkn : wk <> 0; wa : R; wb : R; wsg : R; wlam : R; wmv : R; wms : R; wss : R }.
Definition csys6 (v : cjv) := cj_sys (wk v) (wa v) (wb v) (wsg v) (wlam v) (wmv v) (wms v) (wss v).
Definition cord6 (i : cj_idx) : nat := let '(n1, n2, n3, n4, n5, n6) := i in Z.to_nat (n1 + n2 + n3 + n4 + n5 + n6).
Definition jm6 (v : cjv) (s t : R) : S3 := jmom (jvals (wk v) (wlam v) (wmv v) (wms v) (wss v) s t).
Definition jg6 (v : cjv) (t : R) : S3 := jgam (wk v) (wlam v) (wmv v) (wms v) (wss v) t.

Lemma brackets_in n1 n2 n3 c w a1 a2 a3 : (0 <= n1)%Z -> (0 <= n2)%Z -> (0 <= n3)%Z ->
  In (c, w, (a1, a2, a3)) (cj_brackets n1 n2 n3) ->
  (0 <= a1 /\ 0 <= a2 /\ 0 <= a3 /\ a1 + a2 + a3 + 2 = n1 + n2 + n3)%Z.
Proof.
  intros h1 h2 h3 H. unfold cj_brackets in H.
  apply in_app_or in H. destruct H as [H|H].
  { destruct (Z.leb_spec 2 n1); [|destruct H]. destruct H as [H|[]]. inversion H; subst. lia. }
  apply in_app_or in H. destruct H as [H|H].
  { destruct (Z.leb_spec 2 n2); [|destruct H]. destruct H as [H|[]]. inversion H; subst. lia. }
  apply in_app_or in H. destruct H as [H|H].
  { destruct (Z.leb_spec 1 n1); [|destruct H]. destruct (Z.leb_spec 1 n2); [|destruct H]. destruct H as [H|[]]. inversion H; subst. lia. }
  destruct (Z.leb_spec 2 n3); [|destruct H]. destruct H as [H|[]]. inversion H; subst. lia.
Qed.

Lemma csys6_tri v : forall i, cj_dom i -> forall c j, In (c, j) (csys6 v i) -> cj_dom j /\ (cord6 j < cord6 i)%nat.
Proof.
  intros [[[[[n1 n2] n3] n4] n5] n6] (h1 & h2 & h3 & h4 & h5 & h6) c j Hin. unfold csys6, cj_sys in Hin.
  apply in_app_or in Hin. destruct Hin as [Hin|Hin].
  - apply in_flat_map in Hin. destruct Hin as ([[c0 w] [[a1 a2] a3]] & Hb & Hin).
    apply brackets_in in Hb; try assumption.
    repeat (destruct Hin as [Hin|Hin]; [inversion Hin; subst; unfold cj_dom, cord6; lia|]). destruct Hin.
  - apply in_flat_map in Hin. destruct Hin as (i4 & H4 & Hin). apply in_range in H4.
    apply in_flat_map in Hin. destruct Hin as (i5 & H5 & Hin). apply in_range in H5.
    apply in_flat_map in Hin. destruct Hin as (i6 & H6 & Hin). apply in_range in H6.
    destruct (Z.eqb_spec (i4 + i5 + i6) 0); [destruct Hin|]. destruct Hin as [Hin|[]]. inversion Hin; subst.
    unfold cj_dom, cord6. lia.
Qed.
Lemma exp_cont6 k (w : nat) (s : R) : continuous (fun s => exp (k * s) ^ w) s.
Proof. apply (ex_derive_continuous (V := R_NormedModule)); auto_derive; trivial. Qed.
Lemma expn_cont6 k (s : R) : continuous (fun s => exp (- (k * s))) s.
Proof. apply (ex_derive_continuous (V := R_NormedModule)); auto_derive; trivial. Qed.
Lemma csys6_cont v : forall i c j, In (c, j) (csys6 v i) -> forall t, continuous c t.
Proof.
  intros [[[[[n1 n2] n3] n4] n5] n6] c j Hin t. unfold csys6, cj_sys in Hin.
  apply in_app_or in Hin. destruct Hin as [Hin|Hin].
  - apply in_flat_map in Hin. destruct Hin as ([[c0 w] [[a1 a2] a3]] & Hb & Hin).
    assert (C0 : continuous (fun s => c0 * exp (wk v * s) ^ w) t)
      by (apply continuous_Rmult; [apply continuous_Rconst|apply exp_cont6]).
    repeat (destruct Hin as [Hin|Hin]; [inversion Hin; subst; apply continuous_Rmult; [exact C0|]|]); [| | |destruct Hin].
    + apply continuous_Rplus; [|apply continuous_Rconst]. apply continuous_Rmult; [apply expn_cont6|apply continuous_Rconst].
    + apply continuous_Rmult; [apply continuous_Rconst|apply expn_cont6].
    + apply expn_cont6.
  - apply in_flat_map in Hin. destruct Hin as (i4 & H4 & Hin).
    apply in_flat_map in Hin. destruct Hin as (i5 & H5 & Hin).
    apply in_flat_map in Hin. destruct Hin as (i6 & H6 & Hin).
    destruct (Z.eqb_spec (i4 + i5 + i6) 0); [destruct Hin|]. destruct Hin as [Hin|[]]. inversion Hin; subst.
    apply continuous_Rmult; [apply continuous_Rconst|]. apply continuous_Rmult; [apply continuous_Rconst|].
    apply continuous_Rmult; [|apply continuous_Rconst]. apply continuous_Rmult; [apply continuous_Rconst|apply exp_cont6].
Qed.

Definition JM6 (v : cjv) : cj_idx -> R -> R := vmin (csys6 v) cj_init cord6.
Definition six (n : Z * Z * Z) (i j l : nat) : cj_idx :=
  let '(n1, n2, n3) := n in (n1, n2, n3, Z.of_nat i, Z.of_nat j, Z.of_nat l).
Definition dom3 (n : Z * Z * Z) : Prop := let '(n1, n2, n3) := n in (0 <= n1 /\ 0 <= n2 /\ 0 <= n3)%Z.
Lemma six_dom n i j l : dom3 n -> cj_dom (six n i j l).
Proof. destruct n as [[n1 n2] n3]. unfold dom3, six, cj_dom. lia. Qed.
Definition inc1 (n : Z * Z * Z) : Z * Z * Z := let '(n1, n2, n3) := n in (n1 + 1, n2, n3)%Z.
Definition Ms6 (v : cjv) (n : Z * Z * Z) (t : R) : S3 := fun i j l => JM6 v (six n i j l) t.

(** the diffusion part of the right hand side *)
Definition hb (M : cj_idx -> R -> R) (v : cjv) (s : R) (b : R * nat * (Z * Z * Z)) (i j l : nat) : R :=
  let '(c, w, a) := b in
  c * exp (wk v * s) ^ w * ((exp (- (wk v * s)) * wa v + wb v) * M (six a i j l) s
    + wsg v * exp (- (wk v * s)) * M (six (inc1 a) i j l) s + exp (- (wk v * s)) * M (six a (S i) j l) s).
Definition brk (n : Z * Z * Z) := let '(n1, n2, n3) := n in cj_brackets n1 n2 n3.
Definition hs6 (M : cj_idx -> R -> R) (v : cjv) (n : Z * Z * Z) (s : R) : S3 := fun i j l =>
  sumR (fun b => hb M v s b i j l) (brk n).

Lemma sumR_flat {A B} (f : B -> R) (g : A -> list B) l : sumR f (flat_map g l) = sumR (fun x => sumR f (g x)) l.
Proof. induction l as [|x r IH]; [reflexivity|]. cbn [flat_map sumR]. now rewrite sumR_app, IH. Qed.

Lemma lin_rhs_split6 v M n i j l t : lin_rhs (csys6 v) M (six n i j l) t
  = hs6 M v n t i j l + s3mul (jg6 v t) (fun a b c => M (six n a b c) t) i j l.
Proof.
  destruct n as [[n1 n2] n3]. unfold lin_rhs, csys6, cj_sys, six. rewrite sumR_app. f_equal.
  - rewrite sumR_flat. unfold hs6. apply sumR_ext. intros [[c w] [[a1 a2] a3]] _. cbn [sumR fst snd].
    unfold hb, six, inc1. replace (Z.of_nat (S i)) with (Z.of_nat i + 1)%Z by lia. ring.
  - rewrite s3mul_sum. rewrite sumR_flat, sumR_range0s by lia. rewrite (Nat2Z.id i). apply sumR_ext. intros a Ha. apply in_seq in Ha.
    rewrite sumR_flat, sumR_range0s by lia. rewrite (Nat2Z.id j), <- sumR_scal. apply sumR_ext. intros b Hb. apply in_seq in Hb.
    rewrite sumR_flat, sumR_range0s by lia. rewrite (Nat2Z.id l), <- !sumR_scal. apply sumR_ext. intros c Hc. apply in_seq in Hc.
    unfold jg6, jgam. destruct (Z.eqb_spec (Z.of_nat a + Z.of_nat b + Z.of_nat c) 0) as [E|N].
    + replace (a + b + c)%nat with O by lia. cbn [sumR]. ring.
    + destruct (a + b + c)%nat eqn:X; [lia|]. cbn [sumR fst snd]. unfold fact, mcomb. rewrite !Nat2Z.id, !mult_IZR.
      replace (Z.to_nat (Z.of_nat a + Z.of_nat b)) with (a + b)%nat by lia.
      rewrite PropsCpp.normal_derive_n, G_at0.
      replace (Z.of_nat (i - a)) with (Z.of_nat i - Z.of_nat a)%Z by lia.
      replace (Z.of_nat (j - b)) with (Z.of_nat j - Z.of_nat b)%Z by lia.
      replace (Z.of_nat (l - c)) with (Z.of_nat l - Z.of_nat c)%Z by lia. ring.
Qed.

Lemma JM6_derive v i : cj_dom i -> forall t : R, is_derive (JM6 v i) t (lin_rhs (csys6 v) (JM6 v) i t).
Proof. intros Hi t. exact (vmin_derive cj_dom (csys6 v) cj_init cord6 (csys6_tri v) (csys6_cont v) i Hi t). Qed.
Lemma JM6_cont v i (t : R) : cj_dom i -> continuous (JM6 v i) t.
Proof. intro h. eapply continuous_of_derive. now apply JM6_derive. Qed.
Lemma Ms6_derive v n i j l (t : R) : dom3 n ->
  is_derive (fun t => Ms6 v n t i j l) t (s3add (hs6 (JM6 v) v n t) (s3mul (jg6 v t) (Ms6 v n t)) i j l).
Proof.
  intro Hn. eapply is_derive_val; [apply (JM6_derive v (six n i j l)), six_dom, Hn|]. apply lin_rhs_split6.
Qed.
Lemma brk_dom n : dom3 n -> forall c w a, In (c, w, a) (brk n) -> dom3 a.
Proof.
  destruct n as [[n1 n2] n3]. intros (h1 & h2 & h3) c w [[a1 a2] a3] H. apply brackets_in in H; try assumption. cbn. lia.
Qed.
Lemma inc1_dom n : dom3 n -> dom3 (inc1 n).
Proof. destruct n as [[n1 n2] n3]. unfold dom3, inc1. lia. Qed.
Lemma hb_cont v b i j l (s : R) : dom3 (snd b) -> continuous (fun s => hb (JM6 v) v s b i j l) s.
Proof.
  destruct b as [[c w] a]. cbn [snd]. intro Ha. unfold hb.
  apply continuous_Rmult; [apply continuous_Rmult; [apply continuous_Rconst|apply exp_cont6]|].
  apply continuous_Rplus; [apply continuous_Rplus|].
  - apply continuous_Rmult; [|apply JM6_cont; now apply six_dom].
    apply continuous_Rplus; [|apply continuous_Rconst]. apply continuous_Rmult; [apply expn_cont6|apply continuous_Rconst].
  - apply continuous_Rmult; [|apply JM6_cont; apply six_dom; now apply inc1_dom].
    apply continuous_Rmult; [apply continuous_Rconst|apply expn_cont6].
  - apply continuous_Rmult; [apply expn_cont6|apply JM6_cont; now apply six_dom].
Qed.
Lemma hs6_cont v n i j l (s : R) : dom3 n -> continuous (fun s => hs6 (JM6 v) v n s i j l) s.
Proof.
  intro Hn. unfold hs6. apply (continuous_sumR (fun b s => hb (JM6 v) v s b i j l)).
  intros [[c w] a] Hb. apply hb_cont. exact (brk_dom n Hn c w a Hb).
Qed.
Lemma jm6_s v (s t : R) i j l : is_derive (fun s => jm6 v s t i j l) s (s3opp (s3mul (jg6 v s) (jm6 v s t)) i j l).
Proof. apply jmom_s. apply wkn. Qed.
Lemma jm6_cont v (s t : R) i j l : continuous (fun s => jm6 v s t i j l) s.
Proof. eapply continuous_of_derive, jm6_s. Qed.
Lemma jm6_ss v t : jm6 v t t = s3_1.
Proof. apply jmom_ss. Qed.

(** variation of constants *)
Lemma var_const6 v n i j l t : dom3 n ->
  is_RInt (fun s => s3mul (jm6 v s t) (hs6 (JM6 v) v n s) i j l) 0 t
    (Ms6 v n t i j l - s3mul (jm6 v 0 t) (Ms6 v n 0) i j l).
Proof.
  intro Hn.
  replace (Ms6 v n t i j l) with (s3mul (jm6 v t t) (Ms6 v n t) i j l)
    by (rewrite jm6_ss; replace (s3mul s3_1 (Ms6 v n t)) with (Ms6 v n t) by ring; reflexivity).
  apply (RInt_of_derive (fun s => s3mul (jm6 v s t) (Ms6 v n s) i j l)).
  - intro s. eapply is_derive_val.
    + apply (s3mul_derive (fun s => jm6 v s t) (fun s => Ms6 v n s) (s3opp (s3mul (jg6 v s) (jm6 v s t)))
        (s3add (hs6 (JM6 v) v n s) (s3mul (jg6 v s) (Ms6 v n s)))).
      * intros a b c _ _ _. apply jm6_s.
      * intros a b c _ _ _. now apply Ms6_derive.
    + match goal with |- ?f i j l = ?g i j l => replace f with g by ring; reflexivity end.
  - intro s. apply s3mul_cont; intros; [apply jm6_cont|now apply hs6_cont].
Qed.

Lemma Ms6_0 v n : dom3 n -> Ms6 v n 0 = match n with (0, 0, 0)%Z => s3_1 | _ => s3_0 end.
Proof.
  destruct n as [[n1 n2] n3]. intros (h1 & h2 & h3). apply s3_ext. intros i j l. unfold Ms6, JM6. rewrite vmin_0. unfold cj_init, six.
  destruct n1; [destruct n2; [destruct n3; [|reflexivity|reflexivity]|reflexivity|reflexivity]|reflexivity|reflexivity].
  destruct i, j, l; reflexivity.
Qed.
Lemma Ms6_pos v n i j l t : dom3 n -> n <> (0, 0, 0)%Z ->
  is_RInt (fun s => s3mul (jm6 v s t) (hs6 (JM6 v) v n s) i j l) 0 t (Ms6 v n t i j l).
Proof.
  intros Hn N. pose proof (var_const6 v n i j l t Hn) as V.
  rewrite Ms6_0 in V by assumption.
  replace (match n with (0, 0, 0)%Z => s3_1 | _ => s3_0 end) with s3_0 in V.
  - replace (s3mul (jm6 v 0 t) s3_0) with s3_0 in V by ring. unfold s3_0 at 1 in V. now rewrite Rminus_0_r in V.
  - destruct n as [[n1 n2] n3]. destruct n1; [destruct n2; [destruct n3; [congruence|reflexivity|reflexivity]|reflexivity|reflexivity]|reflexivity|reflexivity].
Qed.
Lemma Ms6_z v t : Ms6 v (0, 0, 0)%Z t = jm6 v 0 t.
Proof.
  apply s3_ext. intros i j l. pose proof (var_const6 v (0, 0, 0)%Z i j l t ltac:(cbn; lia)) as V.
  rewrite Ms6_0 in V by (cbn; lia).
  assert (E : forall s, hs6 (JM6 v) v (0, 0, 0)%Z s = s3_0) by (intro s; apply s3_ext; intros; reflexivity).
  assert (W : is_RInt (fun _ => 0) 0 t (Ms6 v (0, 0, 0)%Z t i j l - s3mul (jm6 v 0 t) s3_1 i j l)).
  { eapply is_RInt_ext; [|exact V]. intros s _. cbv beta. rewrite E. replace (s3mul (jm6 v s t) s3_0) with s3_0 by ring. reflexivity. }
  apply (is_RInt_unique (V := R_CompleteNormedModule)) in W. rewrite RInt_const in W.
  unfold scal in W; simpl in W; unfold mult in W; simpl in W. rewrite Rmult_0_r in W.
  replace (s3mul (jm6 v 0 t) s3_1) with (jm6 v 0 t) in W by ring. lra.
Qed.
