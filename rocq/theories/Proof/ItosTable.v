(** The memo table of moment_IEI_IEII (itos_mom.py:564-702). *)
From Coq Require Import Reals Lra.
From Coquelicot Require Import Coquelicot.
From Verif.Proof Require Export ItosProofs.
Local Open Scope R_scope.

Definition Gs (i : ito2_idx) (q : Poly skey) : Prop := sok i q /\ (gdom i -> sGood i q).
Definition Gtab (lo hi : Z) (C : S_cache) : Prop :=
  forall i, ito2_dom i -> (lo <= ord5 i <= hi)%Z -> exists q, cget i C = Ok q /\ Gs i q.

Lemma gdom_dom i : gdom i -> ito2_dom i.
Proof. destruct i as ((((a & b) & c) & d) & e). intros [h _]. exact h. Qed.

Lemma Gs_remove_zero i q : Gs i q -> Gs i (remove_zero q).
Proof.
  intros [(h1 & h2 & h3) h]. split.
  - split; [assumption|]. unfold remove_zero; cbn [items]. split; [now apply uniq_rm_zero|now apply allk_rm_zero].
  - intro Hi. apply Goodr_remove_zero. auto.
Qed.

Lemma recursive_s_Gs a b c d e C : ito2_dom (a, b, c, d, e) -> (2 <= a + b + c + d + e)%Z ->
  Gtab (a + b + c + d + e - 2) (a + b + c + d + e - 1) C -> returns (recursive_s a b c d e C) (Gs (a, b, c, d, e)).
Proof.
  intros Hi Ho HC.
  assert (H1 : returns (recursive_s a b c d e C) (sok (a, b, c, d, e))).
  { apply recursive_s_sh; [exact Hi|]. intros j Hj Hoj. destruct (HC j Hj Hoj) as (q & e1 & e2 & _). eauto. }
  assert (H2 : gdom (a, b, c, d, e) -> returns (recursive_s a b c d e C) (sGood (a, b, c, d, e))).
  { intro Hg. apply recursive_s_val; [exact Hg|exact Ho|]. intros j Hj Hoj.
    destruct (HC j (gdom_dom j Hj) Hoj) as (q & e1 & _ & e2). eauto. }
  destruct (recursive_s a b c d e C) as [q|]; [|exact H1]. split; [exact H1|exact H2].
Qed.

(** ** the initial table *)
Fixpoint nodupk {K} `{Key K} (l : list K) : bool :=
  match l with [] => true | x :: r => negb (existsb (keqb x) r) && nodupk r end.
Lemma nodupk_spec {K} `{Key K} (l : list K) : nodupk l = true -> NoDup l.
Proof.
  induction l as [|x r IH]; cbn [nodupk]; [constructor|]. rewrite andb_true_iff, negb_true_iff.
  intros [h1 h2]. constructor; [|auto]. intro Hin.
  assert (E : existsb (keqb x) r = true) by (apply existsb_exists; exists x; split; [assumption|now apply keqb_spec]).
  congruence.
Qed.
Definition S_tab : S_cache := match S_init with Ok C => C | Err _ => [] end.
Lemma S_init_ok : S_init = Ok S_tab.
Proof. reflexivity. Qed.

Lemma sP_swf i k : sP i k -> swf (x4 i) (x6 i) (ord5 i) k.
Proof. intros [h _]. exact h. Qed.
Lemma wfr_sok i q : wfr kf_s sP sS i q -> sok i q.
Proof. intros (h1 & h2 & h3 & _). split; [assumption|]. split; [assumption|]. eapply allk_weaken; [exact h3|apply sP_swf]. Qed.

Lemma wfr_S0 i : wfr kf_s sP sS i S_0.
Proof. apply wfr_nil. Qed.

Ltac domcases i Hi Ho :=
  destruct i as ((((a & b) & c) & d) & e); destruct Hi as (h1 & h2 & h3 & h4 & h5);
  unfold ord5 in Ho.

Ltac shape1 := unfold sP, swf, dok, jok, nonemp, nthZ; cbn;
  repeat match goal with
  | |- _ /\ _ => split
  | |- _ :: _ <> [] => discriminate
  | |- Forall _ _ => repeat (apply Forall_cons; [cbn; lia|]); apply Forall_nil
  | |- True => exact Logic.I
  | |- _ => lia
  end.

Lemma Gtab_01 : Gtab 0 1 S_tab.
Proof.
  intros i Hi Ho. domcases i Hi Ho.
  assert (Hc : In (a, b, c, d, e) [(0,0,0,0,0); (1,0,0,0,0); (0,1,0,0,0); (0,0,1,0,0); (0,0,0,1,0); (0,0,0,0,1)]%Z).
  { assert ((a = 0 \/ a = 1) /\ (b = 0 \/ b = 1) /\ (c = 0 \/ c = 1) /\ (d = 0 \/ d = 1) /\ (e = 0 \/ e = 1))%Z
      as ([-> | ->] & [-> | ->] & [-> | ->] & [-> | ->] & [-> | ->]) by lia; simpl; try lia; tauto. }
  destruct Hc as [E|[E|[E|[E|[E|[E|[]]]]]]]; inversion E; subst.
  1: { exists S_1. split; [reflexivity|].
    assert (W : wfr kf_s sP sS (0, 0, 0, 0, 0)%Z S_1).
    { split; [reflexivity|]. split; [apply nodupk_spec; reflexivity|]. split; [|intros k v _ _; exact Logic.I].
      intros k [<-|[]]. shape1. }
    split; [now apply wfr_sok|]. intro Hg. apply Goodr_const; [exact W|exact Hg|reflexivity|].
    intros p t _. cbn [eval items S_1 smon denv monx]. unfold Q2R; cbn [Qnum Qden]. cbn [powerRZ].
    replace ((0 * qk1 p + 0 * qk2 p) * qs0 p) with 0 by ring. replace ((0 * qk1 p + 0 * qk2 p) * t) with 0 by ring.
    rewrite exp_0, !pw_0. cbn [ito2_init]. field. }
  all: exists S_0; split; [reflexivity|]; split; [apply wfr_sok, wfr_S0|]; intro Hg;
    (apply Goodr_const; [apply wfr_S0|exact Hg|reflexivity|intros p t _; reflexivity]).
Qed.

Lemma Gs_order2 i q r : ito2_dom i -> ord5 i = 2%Z -> wfr kf_s sP sS i q ->
  (let '(a, b, c, d, e) := i in recursive_s a b c d e S_tab) = Ok r ->
  (forall p t, sok2 p -> eval (smon p t) (items q) = eval (smon p t) (items r)) -> Gs i q.
Proof.
  destruct i as ((((a & b) & c) & d) & e). intros Hi Ho W Er Ev. unfold ord5 in Ho.
  split; [now apply wfr_sok|]. intro Hg.
  pose proof (recursive_s_Gs a b c d e S_tab Hi ltac:(lia)) as h.
  replace (a + b + c + d + e - 2)%Z with 0%Z in h by lia. replace (a + b + c + d + e - 1)%Z with 1%Z in h by lia.
  specialize (h Gtab_01). rewrite Er in h. destruct h as [_ h].
  split; [exact W|]. intros p M Hp HM t Ht. rewrite (Ev p t Hp). now apply (h Hg).
Qed.

Ltac wfr2 := split; [reflexivity|]; split; [apply nodupk_spec; reflexivity|]; split; [|intros k v _ _; exact Logic.I];
  intros k Hk; cbn in Hk; repeat (destruct Hk as [<-|Hk]; [shape1|]); destruct Hk.
Ltac evord2 p t Hp := try reflexivity;
  match goal with |- eval _ ?l0 = eval _ ?l =>
    let l' := eval cbn in l in change l with l'; let l0' := eval cbn in l0 in change l0 with l0' end;
  cbn [eval smon denv fst snd]; unfold Q2R; cbn [Qnum Qden];
  destruct Hp as [Hk1 Hk2]; cbn [powerRZ]; rewrite ?pow_1; cbn [Pos.to_nat Pos.iter_op pow Init.Nat.add];
  repeat match goal with |- context [exp ?x] => generalize (exp x); intro end;
  repeat match goal with |- context [monx ?x ?y] => generalize (monx x y); intro end;
  field; repeat split; first [assumption | let h := fresh in intro h; solve [apply Hk1; lra | apply Hk2; lra]].
Ltac ord2 S := exists S; split; [reflexivity|]; eapply Gs_order2; [unfold ito2_dom; lia|reflexivity|try (apply wfr_S0); try wfr2|reflexivity|
  intros p t Hp; evord2 p t Hp].

Lemma Gtab_init : Gtab 0 2 S_tab.
Proof.
  intros i Hi Ho. destruct (Z_le_dec (ord5 i) 1) as [Hl|Hg]; [apply Gtab_01; [assumption|lia]|].
  assert (Ho2 : ord5 i = 2%Z) by lia. clear Ho Hg. domcases i Hi Ho2.
  assert (Hc : In (a, b, c, d, e) [(2,0,0,0,0); (1,1,0,0,0); (0,2,0,0,0); (1,0,1,0,0); (1,0,0,1,0); (1,0,0,0,1);
      (0,1,1,0,0); (0,1,0,1,0); (0,1,0,0,1); (0,0,2,0,0); (0,0,1,1,0); (0,0,0,2,0); (0,0,1,0,1); (0,0,0,1,1); (0,0,0,0,2)]%Z).
  { assert ((a = 0 \/ a = 1 \/ a = 2) /\ (b = 0 \/ b = 1 \/ b = 2) /\ (c = 0 \/ c = 1 \/ c = 2) /\ (d = 0 \/ d = 1 \/ d = 2))%Z
      as ([-> | [-> | ->]] & [-> | [-> | ->]] & [-> | [-> | ->]] & [-> | [-> | ->]]) by lia;
      try lia; (assert (e = 0 \/ e = 1 \/ e = 2)%Z as [-> | [-> | ->]] by lia); try lia; simpl; tauto. }
  repeat (destruct Hc as [E|Hc]; [inversion E; subst a b c d e; clear E|]); [..|destruct Hc].
  - ord2 S_20000.
  - ord2 S_11000.
  - ord2 S_02000.
  - ord2 S_0.
  - ord2 S_0.
  - ord2 S_0.
  - ord2 S_0.
  - ord2 S_0.
  - ord2 S_0.
  - ord2 S_00200.
  - ord2 S_00110.
  - ord2 S_00020.
  - ord2 S_0.
  - ord2 S_0.
  - eexists; split; [reflexivity|]; eapply Gs_order2; [unfold ito2_dom; lia|reflexivity|wfr2|reflexivity|
      intros p t Hp; evord2 p t Hp].
Qed.

(** ** the loop over the orders *)
Definition s_body (C : S_cache) (ns : list Z) : res S_cache :=
  match ns with
  | [i4; i5; i6; i7; i8] =>
      let! poly := recursive_s i4 i5 i6 i7 i8 C in Ok (cset (i4, i5, i6, i7, i8) (remove_zero poly) C)
  | _ => Err IndexError
  end.
Lemma S_round_rcomp C n : S_round C n = foldM s_body (rcomp 4 n) C.
Proof. transitivity (nest 4 n [] s_body C); [reflexivity|]. now rewrite nest_rcomp. Qed.

Lemma rcomp4_in n ns : (0 <= n)%Z -> In ns (rcomp 4 n) -> exists a b c d e, ns = [a; b; c; d; e] /\
  ito2_dom (a, b, c, d, e) /\ (a + b + c + d + e = n)%Z.
Proof.
  intros Hn Hin. apply in_rcomp in Hin; [|assumption]. destruct Hin as (h1 & h2 & h3).
  destruct ns as [|a [|b [|c [|d [|e [|? ?]]]]]]; try discriminate.
  repeat match goal with H : Forall _ (_ :: _) |- _ => inversion H; clear H; subst end.
  exists a, b, c, d, e. repeat split; try assumption; cbn in *; lia.
Qed.

Lemma S_round_sp C n : (3 <= n)%Z -> Gtab 0 (n - 1) C -> returns (S_round C n) (Gtab 0 n).
Proof.
  intros Hn HC. rewrite S_round_rcomp.
  set (P := fun (ns : list Z) (C : S_cache) => match ns with
    | [a; b; c; d; e] => exists q, cget (a, b, c, d, e) C = Ok q /\ Gs (a, b, c, d, e) q | _ => True end).
  eapply returns_weaken.
  { apply (foldM_visit _ (Gtab 0 (n - 1)) P); [|exact HC].
    intros ns Hin C' HC'. destruct (rcomp4_in n ns ltac:(lia) Hin) as (a & b & c & d & e & -> & Hd & Hs).
    cbn [s_body]. eapply returns_bind.
    - apply recursive_s_Gs; [exact Hd|lia|]. intros j Hj Ho. apply HC'; [exact Hj|]. split; [|lia].
      destruct j as ((((j1 & j2) & j3) & j4) & j5). destruct Hj as (? & ? & ? & ? & ?). unfold ord5. lia.
    - intros q Gq. cbn [returns]. apply Gs_remove_zero in Gq. split; [|split].
      + intros k Hk Ho. destruct (HC' k Hk Ho) as (q' & e1 & e2). exists q'. split; [|assumption].
        rewrite cget_cset_other; [assumption|]. intros <-. unfold ord5 in Ho. lia.
      + eexists. split; [apply cget_cset_same|assumption].
      + intros ns' V. destruct ns' as [|a' [|b' [|c' [|d' [|e' [|? ?]]]]]]; try exact Logic.I.
        destruct V as (q' & e1 & e2). cbn [P].
        destruct (keqb (a, b, c, d, e) (a', b', c', d', e')) eqn:Ek.
        * apply keqb_spec in Ek. rewrite <- Ek. eexists. split; [apply cget_cset_same|assumption].
        * exists q'. split; [|assumption]. rewrite cget_cset_other; [assumption|].
          intro E. apply keqb_spec in E. congruence. }
  intros C' [HC' HP] i Hi Ho. destruct (Z.eq_dec (ord5 i) n) as [E|N]; [|apply HC'; [assumption|lia]].
  destruct i as ((((a & b) & c) & d) & e). unfold ord5 in E. destruct Hi as (h1 & h2 & h3 & h4 & h5).
  apply (HP [a; b; c; d; e]). apply in_rcomp; [lia|]. split; [reflexivity|]. split; [repeat (apply Forall_cons; [assumption|]); apply Forall_nil|cbn; lia].
Qed.

Lemma S_rounds m : forall n C, (3 <= n)%Z -> Gtab 0 (n - 1) C ->
  returns (foldM S_round (range n (n + Z.of_nat m)) C) (Gtab 0 (n + Z.of_nat m - 1)).
Proof.
  induction m as [|m IH]; intros n C Hn HC.
  - rewrite range_nil by lia. cbn [foldM returns]. now rewrite Z.add_0_r.
  - rewrite range_cons by lia. cbn [foldM].
    pose proof (S_round_sp C n Hn HC) as h. destruct (S_round C n) as [C'|]; [|exact h]. cbn [returns] in h.
    replace (n + Z.of_nat (S m))%Z with (n + 1 + Z.of_nat m)%Z by lia. apply IH; [lia|].
    replace (n + 1 - 1)%Z with n by lia. exact h.
Qed.

Theorem moment_IEI_IEII_spec a b c d e : ito2_dom (a, b, c, d, e) ->
  returns (moment_IEI_IEII a b c d e) (Gs (a, b, c, d, e)).
Proof.
  intros Hi. pose proof Hi as (h1 & h2 & h3 & h4 & h5). unfold moment_IEI_IEII.
  set (n := (a + b + c + d + e)%Z). destruct (Z.ltb_spec n 0); [unfold n in *; lia|].
  rewrite S_init_ok. cbn [bind]. destruct (Z.leb_spec n 2) as [Hl|Hg].
  - destruct (Gtab_init (a, b, c, d, e) Hi) as (q & e1 & e2); [unfold ord5; fold n; lia|]. rewrite e1. exact e2.
  - assert (HC : returns (if (3 <? n)%Z then foldM S_round (range 3 n) S_tab else Ok S_tab) (Gtab 0 (n - 1))).
    { destruct (Z.ltb_spec 3 n).
      - pose proof (S_rounds (Z.to_nat (n - 3)) 3 S_tab ltac:(lia) Gtab_init) as h.
        rewrite Z2Nat.id in h by lia. replace (3 + (n - 3))%Z with n in h by lia. exact h.
      - cbn [returns]. replace (n - 1)%Z with 2%Z by lia. exact Gtab_init. }
    eapply returns_bind; [exact HC|]. intros C' HC'. eapply returns_bind.
    + apply recursive_s_Gs; [exact Hi|fold n; lia|]. fold n. intros j Hj Ho. apply HC'; [exact Hj|]. split; [|lia].
      destruct j as ((((j1 & j2) & j3) & j4) & j5). destruct Hj as (? & ? & ? & ? & ?). unfold ord5. lia.
    + intros q Gq. cbn [returns]. now apply Gs_remove_zero.
Qed.

(** ** the system is triangular *)
Lemma in_if {A} (b : bool) (l : list A) x : In x (if b then l else []) -> b = true /\ In x l.
Proof. destruct b; [auto|intros []]. Qed.

(** the indices a system equation refers to *)
Definition refs2 (i j : ito2_idx) : Prop :=
  let '(a, b, c, d, e) := i in
  (2 <= a /\ (j = (a - 2, b, c, d, e) \/ j = (a - 2 + 1, b, c, d, e)))%Z \/
  (2 <= b /\ (j = (a, b - 2, c, d, e) \/ j = (a + 1, b - 2, c, d, e)))%Z \/
  (1 <= a /\ 1 <= b /\ (j = (a - 1, b - 1, c, d, e) \/ j = (a - 1 + 1, b - 1, c, d, e)))%Z \/
  (2 <= c /\ (j = (a, b, c - 2, d, e) \/ j = (a, b, c - 2 + 1, d, e)))%Z \/
  (2 <= d /\ (j = (a, b, c, d - 2, e) \/ j = (a, b, c + 1, d - 2, e)))%Z \/
  (1 <= c /\ 1 <= d /\ (j = (a, b, c - 1, d - 1, e) \/ j = (a, b, c - 1 + 1, d - 1, e)))%Z \/
  (2 <= e /\ (j = (a, b, c, d, e - 2) \/ j = (a + 1, b, c, d, e - 2) \/ j = (a, b, c + 1, d, e - 2)))%Z.

Lemma continuous_exp_lin (k s0 t : R) : continuous (fun s => exp (k * (s0 + s))) t.
Proof.
  apply continuous_Rexp, continuous_Rmult; [apply continuous_Rconst|].
  apply continuous_Rplus; [apply continuous_Rconst|apply continuous_Rid].
Qed.
Lemma vi_terms_sp k s0 v th sg c0 i i1 c j : In (c, j) (vi_terms k s0 v th sg c0 i i1) ->
  (forall t, continuous c0 t) -> (j = i \/ j = i1) /\ forall t, continuous c t.
Proof.
  intros [E|[E|[]]] Hc; inversion E; subst; (split; [auto|]); intro t; apply continuous_Rmult; try apply Hc.
  - apply continuous_Rplus; [|apply continuous_Rconst]. apply continuous_Rmult; [|apply continuous_Rconst].
    apply continuous_Rexp. apply (continuous_ext_all (fun s => - k * s)); [intro; ring|].
    apply continuous_Rmult; [apply continuous_Rconst|apply continuous_Rid].
  - apply continuous_Rmult; [apply continuous_Rconst|].
    apply (continuous_ext_all (fun s => exp (- k * (s0 + s)))); [intro; f_equal; ring|apply continuous_exp_lin].
Qed.
Lemma ito2_refs p i c j : In (c, j) (ito2_sys p i) -> refs2 i j /\ forall t, continuous c t.
Proof.
  destruct i as ((((a & b) & c') & d) & e). unfold ito2_sys. intro Hin.
  repeat (apply in_app_or in Hin; destruct Hin as [Hin|Hin]); apply in_if in Hin; destruct Hin as [Hb Hin];
  rewrite ?andb_true_iff, ?Z.leb_le in Hb;
  repeat (apply in_app_or in Hin; destruct Hin as [Hin|Hin]);
  apply vi_terms_sp in Hin;
  try (intro t; first [apply continuous_Rconst | apply continuous_Rmult; [apply continuous_Rconst|];
     first [apply continuous_exp_lin | apply continuous_Rmult; apply continuous_exp_lin]]);
  destruct Hin as [Hj Hc]; (split; [|exact Hc]); unfold refs2; destruct Hj as [-> | ->]; intuition auto.
Qed.
Lemma refs2_dom i j : ito2_dom i -> refs2 i j -> ito2_dom j /\ (ord5 j < ord5 i)%Z.
Proof.
  destruct i as ((((a & b) & c) & d) & e). intros (h1 & h2 & h3 & h4 & h5) H. unfold refs2 in H.
  repeat (destruct H as [H|H]); repeat match goal with h : _ /\ _ |- _ => destruct h | h : _ \/ _ |- _ => destruct h end;
    subst j; unfold ito2_dom, ord5; lia.
Qed.
Lemma refs2_gdom i j : gdom i -> refs2 i j -> gdom j.
Proof.
  destruct i as ((((a & b) & c) & d) & e). intros ((h1 & h2 & h3 & h4 & h5) & Hg) H. unfold refs2 in H.
  repeat (destruct H as [H|H]); repeat match goal with h : _ /\ _ |- _ => destruct h | h : _ = _ \/ _ |- _ => destruct h end;
    subst j; unfold gdom, ito2_dom; lia.
Qed.
Lemma ito2_tri p i : ito2_dom i -> forall c j, In (c, j) (ito2_sys p i) ->
  ito2_dom j /\ (Z.to_nat (ord5 j) < Z.to_nat (ord5 i))%nat.
Proof.
  intros Hi c j Hin. apply ito2_refs in Hin. destruct Hin as [R _]. destruct (refs2_dom i j Hi R) as [Hj Ho].
  split; [assumption|]. destruct j as ((((j1 & j2) & j3) & j4) & j5), Hj as (? & ? & ? & ? & ?).
  unfold ord5 in *. lia.
Qed.
Lemma ito2_cont p i c j : In (c, j) (ito2_sys p i) -> forall t, continuous c t.
Proof. intro Hin. now apply ito2_refs in Hin. Qed.

(** ** what moment_IEI_IEII(2,1,0,0,0) leaves out *)
Lemma moment_21 : returns (moment_IEI_IEII 2 1 0 0 0) (fun q => forall p M, sok2 p -> ito2_moments p M ->
  forall t, 0 <= t -> is_RInt (fun s => 2 * qsg1 p * M (2, 0, 0, 0, 0)%Z s) 0 t
    (M (2, 1, 0, 0, 0)%Z t - eval (smon p t) (items q))).
Proof.
  unfold moment_IEI_IEII. rewrite S_init_ok. cbn [bind Z.add Z.ltb Z.leb Z.compare Pos.compare Pos.compare_cont Pos.add Pos.succ].
  change (recursive_s 2 1 0 0 0 S_tab) with
    (branch_s S_tab (Frac 2 2) (mkPoly [] kf_s) 1 1 2 (0, 1, 0, 0, 0)%Z (1, 1, 0, 0, 0)%Z).
  destruct (Gtab_init (0, 1, 0, 0, 0)%Z) as (q & e1 & _ & g1); [unfold ito2_dom; lia|unfold ord5; lia|].
  destruct (Gtab_init (1, 1, 0, 0, 0)%Z) as (q' & e2 & _ & g2); [unfold ito2_dom; lia|unfold ord5; lia|].
  eapply returns_bind.
  { apply (branch_s_val S_tab (Frac 2 2) (mkPoly [] kf_s) 1 1 2 (2, 1, 0, 0, 0)%Z (0, 1, 0, 0, 0)%Z (1, 1, 0, 0, 0)%Z
      (fun _ => []) q q'); try assumption.
    - apply Accr_nil.
    - apply g1. unfold gdom, ito2_dom. lia.
    - apply g2. unfold gdom, ito2_dom. lia.
    - now left.
    - jcs.
    - jcs.
    - reflexivity.
    - reflexivity.
    - reflexivity.
    - reflexivity.
    - reflexivity.
    - unfold ord5; lia.
    - unfold ord5; lia. }
  intros r [_ [D HD]]. cbn [returns remove_zero items]. intros p M Hp HM t Ht. rewrite eval_rm_zero.
  destruct (HD p Hp) as (d0 & d1 & d2 & d3). clear HD.
  assert (HG : vsol gdom (ito2_sys p) ito2_init M) by (intros i Hi; apply HM, gdom_dom, Hi).
  pose proof (HM (2, 1, 0, 0, 0)%Z ltac:(unfold ito2_dom; lia) t Ht) as HI. cbn [ito2_init] in HI. rewrite Rminus_0_r in HI.
  assert (HR : is_RInt (D p) 0 t (eval (smon p t) (items r))).
  { replace (eval (smon p t) (items r)) with (eval (smon p t) (items r) - eval (smon p 0) (items r)) by (rewrite d0; ring).
    now apply (RInt_of_derive (fun t => eval (smon p t) (items r)) (D p)). }
  eapply is_RInt_ext; [|apply (is_RInt_minus _ _ _ _ _ _ HI HR)].
  intros s Hs. rewrite Rmin_left in Hs by assumption. unfold minus, plus, opp; simpl.
  rewrite (d3 M HG s) by lra. cbn [app]. unfold lin_rhs, tsum, ito2_sys.
  cbn [Z.leb Z.compare Pos.compare Pos.compare_cont andb app v1_terms v2_terms vi_terms sumR fst snd Z.sub Z.add Z.opp Z.mul Z.pos_sub Z.double Pos.pred_double Pos.add Pos.mul Pos.succ].
  unfold gs, facv, kf2. cbn [Z.eqb Z.add Pos.eqb].
  assert (Z1 : M (1, 0, 0, 0, 0)%Z s = 0).
  { destruct (Gtab_init (1, 0, 0, 0, 0)%Z) as (z & e3 & _ & g3); [unfold ito2_dom; lia|unfold ord5; lia|].
    inversion e3; subst z. destruct g3 as [_ g3]; [unfold gdom, ito2_dom; lia|]. rewrite (g3 p M Hp HG s) by lra. reflexivity. }
  assert (Z2 : M (0, 1, 0, 0, 0)%Z s = 0).
  { destruct (Gtab_init (0, 1, 0, 0, 0)%Z) as (z & e3 & _ & g3); [unfold ito2_dom; lia|unfold ord5; lia|].
    inversion e3; subst z. destruct g3 as [_ g3]; [unfold gdom, ito2_dom; lia|]. rewrite (g3 p M Hp HG s) by lra. reflexivity. }
  rewrite Z1, Z2, Q2R_Frac by lia. rewrite exp_m1', !exp_Ropp. field. split; apply exp_neq0.
Qed.

(** E[IE1^2] is positive *)
Lemma IE2_pos p M : ito2_moments p M -> 0 < qk1 p -> 0 < qv1 p -> 0 <= qth1 p -> forall t, 0 < t ->
  0 < M (2, 0, 0, 0, 0)%Z t.
Proof.
  intros HM Hk Hv Hth t Ht.
  assert (Z0 : forall s, 0 <= s -> M (0, 0, 0, 0, 0)%Z s = 1).
  { intros s Hs. pose proof (HM (0, 0, 0, 0, 0)%Z ltac:(unfold ito2_dom; lia) s Hs) as h.
    pose proof (is_RInt_const 0 s 0) as h'. unfold scal in h'; simpl in h'. unfold mult in h'; simpl in h'. rewrite Rmult_0_r in h'.
    cbn [ito2_init] in h. pose proof (is_RInt_uniq _ _ _ _ _ h h'). lra. }
  assert (Z1 : forall s, 0 <= s -> M (1, 0, 0, 0, 0)%Z s = 0).
  { intros s Hs. pose proof (HM (1, 0, 0, 0, 0)%Z ltac:(unfold ito2_dom; lia) s Hs) as h.
    pose proof (is_RInt_const 0 s 0) as h'. unfold scal in h'; simpl in h'. unfold mult in h'; simpl in h'. rewrite Rmult_0_r in h'.
    cbn [ito2_init] in h. pose proof (is_RInt_uniq _ _ _ _ _ h h'). lra. }
  pose proof (HM (2, 0, 0, 0, 0)%Z ltac:(unfold ito2_dom; lia) t (Rlt_le _ _ Ht)) as h. cbn [ito2_init] in h. rewrite Rminus_0_r in h.
  set (g := fun s => exp (qk1 p * (qs0 p + s)) * exp (qk1 p * (qs0 p + s)) * (exp (- (qk1 p * s)) * (qv1 p - qth1 p) + qth1 p)).
  assert (h2 : is_RInt g 0 t (M (2, 0, 0, 0, 0)%Z t)).
  { eapply is_RInt_ext; [|exact h]. intros s Hs. rewrite Rmin_left in Hs by lra. unfold lin_rhs, ito2_sys.
    cbn [Z.leb Z.compare Pos.compare Pos.compare_cont andb app v1_terms v2_terms vi_terms sumR fst snd Z.sub Z.add Z.opp Z.mul Z.pos_sub Z.double Pos.pred_double Pos.add Pos.mul Pos.succ].
    rewrite Z0, Z1 by lra. unfold g. match goal with |- ?a = ?b => change (@eq R a b) end. field. }
  rewrite <- (is_RInt_unique _ _ _ _ h2). apply RInt_gt_0; [assumption| |].
  - intros s Hs. unfold g. apply Rmult_lt_0_compat; [apply Rmult_lt_0_compat; apply exp_pos|].
    assert (e1 : 0 < exp (- (qk1 p * s))) by apply exp_pos.
    assert (e2 : exp (- (qk1 p * s)) <= 1).
    { rewrite <- exp_0. destruct (Rle_lt_or_eq_dec 0 (qk1 p * s)) as [L|L]; [apply Rmult_le_pos; lra| |].
      - left. apply exp_increasing. lra.
      - right. f_equal. lra. }
    assert (0 < exp (- (qk1 p * s)) * qv1 p) by now apply Rmult_lt_0_compat.
    assert (0 <= (1 - exp (- (qk1 p * s))) * qth1 p) by (apply Rmult_le_pos; lra). lra.
  - intros s Hs. unfold g. apply continuous_Rmult; [apply continuous_Rmult; apply continuous_exp_lin|].
    apply continuous_Rplus; [|apply continuous_Rconst]. apply continuous_Rmult; [|apply continuous_Rconst].
    apply continuous_Rexp. apply (continuous_ext_all (fun s => - qk1 p * s)); [intro; ring|].
    apply continuous_Rmult; [apply continuous_Rconst|apply continuous_Rid].
Qed.

(** the value computed by moment_IEI_IEII for index i and elapsed time t *)
Definition itos_val (p : par2) (i : ito2_idx) (t : R) : R :=
  let '(a, b, c, d, e) := i in
  match moment_IEI_IEII a b c d e with Ok q => eval (smon p t) (items q) | Err _ => 0 end.
