(** The exact simulator of the square-root model given its jumps: what a run returns, and the moments of its rows. *)
From Coq Require Import Reals Lra Lia List ZArith.
From Verif.Proof Require Import SumFacts ExpectFacts DecodeProofs EulerProofs EulerSv.
From Verif.Spec Require Import JumpPath Chi2.
From Verif.Model Require Import Euler.
From Verif.Proof Require Import Chi2Mom Umbral SrjdExact.
Import ListNotations.
Local Open Scope R_scope.

Section Run.
Context (k th sg : R) (Hk : k <> 0) (Hkt : 0 < k * th) (Hs : sg <> 0).
Definition cz (tau : R) : R := sg ^ 2 * (1 - exp (- k * tau)) / (4 * k).
Definition dz : R := 4 * th * k / sg ^ 2.
Lemma sg2_pos : 0 < sg ^ 2.
Proof. pose proof (pow2_ge_0 sg). pose proof (pow_nonzero sg 2 Hs). lra. Qed.
Lemma dz_pos : 0 < dz.
Proof. unfold dz. pose proof sg2_pos. apply Rdiv_lt_0_compat; [lra|assumption]. Qed.
Lemma cz_pos tau : 0 < tau -> 0 < cz tau.
Proof.
  intro Ht. unfold cz. pose proof sg2_pos as h.
  replace (sg ^ 2 * (1 - exp (- k * tau)) / (4 * k)) with (sg ^ 2 / 4 * ((1 - exp (- k * tau)) / k)) by (field; exact Hk).
  apply Rmult_lt_0_compat; [lra|]. destruct (Rdichotomy _ _ Hk) as [Hn|Hp].
  - assert (exp 0 < exp (- k * tau)) by (apply exp_increasing; nra). rewrite exp_0 in H.
    replace ((1 - exp (- k * tau)) / k) with ((exp (- k * tau) - 1) / (- k)) by (field; exact Hk). apply Rdiv_lt_0_compat; lra.
  - assert (exp (- k * tau) < exp 0) by (apply exp_increasing; nra). rewrite exp_0 in H. apply Rdiv_lt_0_compat; lra.
Qed.
(** one exact step over tau *)
Definition xstep (X : nat -> R -> R -> R) (c : nat) (tau v : R) : R := cz tau * X c dz (v * exp (- k * tau) / cz tau).
Lemma xstep_pos X c tau v : (forall c d l, 0 <= X c d l) -> 0 < tau -> 0 <= xstep X c tau v.
Proof. intros HX Ht. unfold xstep. apply Rmult_le_pos; [left; now apply cz_pos|apply HX]. Qed.
Lemma rSRD_ok W v tau c : 0 <= v -> 0 < tau -> rSRD W v tau k th sg c = Ok (xstep (wchi W) c tau v, S c).
Proof.
  intros Hv Ht. unfold rSRD. pose proof sg2_pos. pose proof (cz_pos tau Ht) as Hc. pose proof dz_pos as Hd.
  rewrite (rbind_lift _ dz) by (apply pydiv_ok; lra). rewrite (rbind_lift _ (cz tau)) by (apply pydiv_ok; lra).
  rewrite (rbind_lift _ (v * exp (- k * tau) / cz tau)) by (apply pydiv_ok; lra).
  assert (Hl : 0 <= v * exp (- k * tau) / cz tau).
  { apply Rmult_le_pos; [apply Rmult_le_pos; [exact Hv|left; apply exp_pos]|left; now apply Rinv_0_lt_compat]. }
  unfold rbind at 1, ncx2. destruct (Rle_dec dz 0); [lra|]. destruct (Rlt_dec (v * exp (- k * tau) / cz tau) 0); [lra|]. reflexivity.
Qed.

(** the steps to the jumps, from time t and value v *)
Fixpoint xjumps (X : nat -> R -> R -> R) (c : nat) (t v : R) (zs : path) : R :=
  match zs with [] => v | (s, J) :: r => xjumps X (S c) s (xstep X c (s - t) v + J) r end.
Definition xrow (X : nat -> R -> R -> R) (v0 T : R) (z : path) (c : nat) : R :=
  if Rlt_dec 0 (T - last (map fst z) 0) then xstep X (c + length z) (T - last (map fst z) 0) (xjumps X c 0 v0 z) else xjumps X c 0 v0 z.
Definition xdraws (T : R) (z : path) : nat := length z + if Rlt_dec 0 (T - last (map fst z) 0) then 1 else 0.

Lemma xjumps_pos X (HX : forall c d l, 0 <= X c d l) zs : forall c t v, strictly t zs -> 0 <= v -> 0 <= xjumps X c t v zs.
Proof.
  induction zs as [|[s J] r IH]; intros c t v Hz Hv; [exact Hv|]. cbn [xjumps]. cbn [strictly fst snd] in Hz. destruct Hz as (h1 & h2 & h3).
  apply IH; [exact h3|]. assert (0 <= xstep X c (s - t) v) by (apply xstep_pos; [exact HX|lra]). lra.
Qed.
Lemma diffs_ok zs : forall t, exists l, diffs (length zs) t (map fst zs) = Ok l /\
  forall W (HX : forall c d l, 0 <= wchi W c d l) v c, strictly t zs -> 0 <= v ->
    foldR (fun v0 p => let@ x := rSRD W v0 (fst p) k th sg in rret (x + snd p)) (combine l (map snd zs)) v c
    = Ok (xjumps (wchi W) c t v zs, (c + length zs)%nat).
Proof.
  induction zs as [|[s J] r IH]; intro t.
  - exists []. split; [reflexivity|]. intros. cbn. unfold rret. do 2 f_equal. lia.
  - destruct (IH s) as (l & e & H). exists (s - t :: l). split.
    + cbn [length map fst diffs]. rewrite e. reflexivity.
    + intros W HX v c Hz Hv. cbn [map snd combine foldR fst xjumps length]. cbn [strictly fst snd] in Hz. destruct Hz as (h1 & h2 & h3).
      pose proof (rSRD_ok W v (s - t) c Hv ltac:(lra)) as e1.
      rewrite (rbind_ok _ _ c (xstep (wchi W) c (s - t) v + J) (S c)) by (rewrite (rbind_ok _ _ _ _ _ e1); reflexivity).
      rewrite H; [do 2 f_equal; lia|exact HX|exact h3|]. pose proof (xstep_pos (wchi W) c (s - t) v HX ltac:(lra)). lra.
Qed.
Lemma rSRJD_ok W (HX : forall c d l, 0 <= wchi W c d l) v0 T z N c : (0 <= N)%Z -> 0 <= v0 -> 0 < T -> strictly 0 z ->
  rSRJD W v0 k th sg T (map snd z) (map fst z) N c
  = Ok (map (fun i => xrow (wchi W) v0 T z (c + xdraws T z * i)) (seq 0 (Z.to_nat N)), (c + xdraws T z * Z.to_nat N)%nat).
Proof.
  intros HN Hv HT Hz. unfold rSRJD. replace (N <? 0)%Z with false by (symmetry; apply Z.ltb_ge; lia).
  destruct z as [|[s J] r].
  - cbn [map]. apply rows_unit. intros _ c'. rewrite (rbind_ok _ _ _ _ _ (rSRD_ok W v0 T c' Hv HT)). unfold xrow, xdraws, rret. cbn [map last length xjumps].
    rewrite Rminus_0_r. destruct (Rlt_dec 0 T); [|lra]. do 2 f_equal; [|lia]. rewrite Nat.add_0_r. reflexivity.
  - set (z := (s, J) :: r) in *. change (map snd z) with (J :: map snd r) at 1. cbv iota. rewrite map_length.
    destruct (diffs_ok z 0) as (l & e & H). rewrite (rbind_lift _ l _ c e).
    apply rows_unit. intros _ c'. rewrite (rbind_ok _ _ _ _ _ (H W HX v0 c' Hz Hv)).
    pose proof (xjumps_pos (wchi W) HX z c' 0 v0 Hz Hv) as Hp. unfold xrow, xdraws.
    destruct (Rlt_dec 0 (T - last (map fst z) 0)) as [h|h].
    + rewrite (rbind_ok _ _ _ _ _ (rSRD_ok W _ _ (c' + length z) Hp h)). unfold rret. do 2 f_equal. lia.
    + unfold rbind, rret. cbn [bind fst snd]. do 2 f_equal. lia.
Qed.

(** ** moments *)
Context {Om : Type} (E : (Om -> R) -> R) (X : nat -> Om -> R -> R -> R) (C L : nat) (HD : ncx2_draws E X C L).
Let HE := nc_E E X C L HD.
Lemma known_le c c' f : (c <= c')%nat -> known X c f -> known X c' f.
Proof. intros Hc Hf w w' H. apply Hf. intros i d l Hi. apply H. lia. Qed.
Lemma known_step c c' tau v : (c < c')%nat -> known X c v -> known X c' (fun w => xstep (fun c => X c w) c tau (v w)).
Proof.
  intros Hc Hv w w' H. unfold xstep. rewrite (Hv w w') by (intros; apply H; lia). f_equal. apply H. exact Hc.
Qed.
Lemma step_moment c t s v g n : (c < C)%nat -> (n <= L)%nat -> t < s -> (forall w, 0 <= v w) -> known X c v -> known X c g ->
  E (fun w => g w * (exp (k * s) * xstep (fun c => X c w) c (s - t) (v w)) ^ n)
  = pr (xz k th sg) (qz k sg t s) n (fun j => E (fun w => g w * (exp (k * t) * v w) ^ j)).
Proof.
  intros Hc Hn Hts Hv Kv Kg. pose proof (cz_pos (s - t) ltac:(lra)) as Hcz. set (q := cz (s - t)) in *.
  set (l := fun w => v w * exp (- k * (s - t)) / q).
  transitivity ((exp (k * s) * q) ^ n * E (fun w => g w * ncmom dz (l w) n)).
  { rewrite <- (nc_mom E X C L HD c n dz l g Hc Hn dz_pos).
    - rewrite <- (E_scal E HE). apply (E_ext E HE). intro w. unfold xstep. fold q. fold (l w). rewrite !Rpow_mult_distr. ring.
    - intro w. unfold l. apply Rmult_le_pos; [apply Rmult_le_pos; [apply Hv|left; apply exp_pos]|left; now apply Rinv_0_lt_compat].
    - intros w w' H. unfold l. now rewrite (Kv w w' H).
    - exact Kg. }
  unfold pr. transitivity ((exp (k * s) * q) ^ n * E (fun w => sumR (fun j => (cf (dz / 2) n j * 2 ^ (n - j)) * (g w * l w ^ j)) (seq 0 (S n)))).
  { f_equal. apply (E_ext E HE). intro w. rewrite ncmom_closed, <- sumR_scal. apply sumR_ext. intros. ring. }
  rewrite (E_sumR E HE (fun j w => (cf (dz / 2) n j * 2 ^ (n - j)) * (g w * l w ^ j))), <- sumR_scal. apply sumR_ext. intros j Hj. apply in_seq in Hj.
  rewrite (E_scal E HE (cf (dz / 2) n j * 2 ^ (n - j)) (fun w => g w * l w ^ j)).
  replace (dz / 2) with (xz k th sg) by (unfold dz, xz; field; exact Hs).
  replace ((exp (k * s) * q) ^ n) with ((exp (k * s) * q) ^ (n - j) * (exp (k * s) * q) ^ j) by (rewrite <- pow_add; f_equal; lia).
  replace (qz k sg t s) with (2 * (exp (k * s) * q)).
  2: { unfold qz, q, cz. replace (- k * (s - t)) with (k * t + - (k * s)) by ring. rewrite exp_plus, exp_Ropp. pose proof (exp_pos (k * s)). field. split; lra. }
  replace (E (fun w => g w * (exp (k * t) * v w) ^ j)) with ((exp (k * s) * q) ^ j * E (fun w => g w * l w ^ j)).
  - rewrite (Rpow_mult_distr 2). ring.
  - rewrite <- (E_scal E HE). apply (E_ext E HE). intro w.
    replace (exp (k * t) * v w) with ((exp (k * s) * q) * l w); [rewrite !Rpow_mult_distr; ring|].
    unfold l. replace (- k * (s - t)) with (k * t + - (k * s)) by ring. rewrite exp_plus, exp_Ropp. pose proof (exp_pos (k * s)). field. split; lra.
Qed.
Lemma jumps_moment T zs : forall c t v g n, (c + length zs < C)%nat -> (n <= L)%nat -> strictly t zs -> (forall sj, In sj zs -> fst sj <= T) -> t <= T ->
  (forall w, 0 <= v w) -> known X c v -> known X c g ->
  E (fun w => g w * (exp (k * T) * (let l := last (map fst zs) t in
       if Rlt_dec 0 (T - l) then xstep (fun c => X c w) (c + length zs) (T - l) (xjumps (fun c => X c w) c t (v w) zs)
       else xjumps (fun c => X c w) c t (v w) zs)) ^ n)
  = emom k th sg t (fun j => E (fun w => g w * (exp (k * t) * v w) ^ j)) zs T n.
Proof.
  induction zs as [|[s J] r IH]; intros c t v g n Hc Hn Hz HT HtT Hv Kv Kg; cbn [emom].
  - cbn [map last length xjumps] in *. cbv zeta. destruct (Rlt_dec 0 (T - t)) as [h|h].
    + rewrite Nat.add_0_r in *. apply step_moment; try assumption. lra.
    + assert (T = t) by lra. subst T. replace (qz k sg t t) with 0 by (unfold qz; field; exact Hk). now rewrite pr_0.
  - cbn [strictly fst snd] in Hz. destruct Hz as (h1 & h2 & h3). cbn [length] in Hc.
    assert (Hs' : s <= T) by (apply (HT (s, J)); now left).
    pose proof (IH (S c) s (fun w => xstep (fun c => X c w) c (s - t) (v w) + J) g n ltac:(lia) Hn h3 (fun sj Hin => HT sj (or_intror Hin)) Hs') as G.
    rewrite (emom_ext k th sg r T n s (fun n => bt n (exp (k * s) * J) (fun j => pr (xz k th sg) (qz k sg t s) j (fun j => E (fun w => g w * (exp (k * t) * v w) ^ j))))
      (fun j => E (fun w => g w * (exp (k * s) * (xstep (fun c => X c w) c (s - t) (v w) + J)) ^ j))).
    + rewrite <- G; clear G.
      * apply (E_ext E HE). intro w. do 3 f_equal. cbv zeta. cbn [xjumps length map fst].
        replace (last (s :: map fst r) t) with (last (map fst r) s).
        2: { destruct r as [|a r]; [reflexivity|]. cbn [map]. clear.
             assert (e : forall (l : list R) x d d', last (x :: l) d = last (x :: l) d').
             { induction l as [|y l IHl]; intros x d d'; [reflexivity|]. exact (IHl y d d'). }
             change (last (s :: fst a :: map fst r) t) with (last (fst a :: map fst r) t). apply e. }
        replace (c + S (length r))%nat with (S c + length r)%nat by lia. reflexivity.
      * intro w. pose proof (xstep_pos (fun c => X c w) c (s - t) (v w) (fun c d l => nc_pos E X C L HD c w d l) ltac:(lra)). lra.
      * intros w w' H. f_equal. exact (known_step c (S c) (s - t) v ltac:(lia) Kv w w' H).
      * apply (known_le c); [lia|exact Kg].
    + intros j Hj. transitivity (bt j (exp (k * s) * J) (fun i => E (fun w => g w * (exp (k * s) * xstep (fun c => X c w) c (s - t) (v w)) ^ i))).
      * apply bt_ext. intros i Hi. symmetry. apply step_moment; try assumption; try lia.
      * rewrite <- (bt_E E HE). apply (E_ext E HE). intro w. do 2 f_equal. ring.
Qed.
Lemma known_jumps zs : forall c t v, known X c v -> known X (c + length zs) (fun w => xjumps (fun c => X c w) c t (v w) zs).
Proof.
  induction zs as [|[s J] r IH]; intros c t v Kv; cbn [xjumps length]; [now rewrite Nat.add_0_r|].
  replace (c + S (length r))%nat with (S c + length r)%nat by lia. apply (IH (S c) s (fun w => xstep (fun c => X c w) c (s - t) (v w) + J)).
  intros w w' H. f_equal. exact (known_step c (S c) (s - t) v ltac:(lia) Kv w w' H).
Qed.
Lemma known_row v0 T z c : known X (c + xdraws T z) (fun w => xrow (fun c => X c w) v0 T z c).
Proof.
  unfold xrow, xdraws. destruct (Rlt_dec 0 (T - last (map fst z) 0)).
  - apply (known_step (c + length z)); [lia|]. apply known_jumps. now intros w w' _.
  - rewrite Nat.add_0_r. apply known_jumps. now intros w w' _.
Qed.
Theorem row_moment v0 T z c g n : (c + length z < C)%nat -> (n <= L)%nat -> strictly 0 z -> (forall sj, In sj z -> fst sj <= T) -> 0 <= T -> 0 <= v0 -> known X c g ->
  E (fun w => g w * (exp (k * T) * xrow (fun c => X c w) v0 T z c) ^ n) = E g * emom k th sg 0 (fun j => v0 ^ j) z T n.
Proof.
  intros Hc Hn Hz HT H0 Hv Kg. unfold xrow.
  etransitivity; [exact (jumps_moment T z c 0 (fun _ => v0) g n Hc Hn Hz HT H0 (fun _ => Hv) ltac:(now intros w w' _) Kg)|].
  rewrite <- emom_scal. apply emom_ext. intros j _. rewrite Rmult_0_r, exp_0, Rmult_1_l.
  rewrite Rmult_comm, <- (E_scal E HE). apply (E_ext E HE). intro w. ring.
Qed.
End Run.
