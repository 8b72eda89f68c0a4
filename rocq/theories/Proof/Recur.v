(** Recursions that build the solution of a system of integral equations (Spec/Volterra.v)
    out of term-by-term integrals of polynomials kept in a memo table. *)
From Coq Require Import Reals Lra.
From Coquelicot Require Import Coquelicot.
From Verif.Proof Require Export IntEt VolterraFacts CacheFacts MonTac.
Local Open Scope R_scope.

Section Recur.
Context {K : Type} `{Key K} {Par I : Type}.
Variables (ok : Par -> Prop) (p0 : Par) (mon : Par -> R -> K -> R) (kf : list string).
(** shape of the keys, and of the keys with non-zero coefficient *)
Variables (P S : I -> K -> Prop).
Hypothesis ok0 : ok p0.
Hypothesis cont : forall i k, P i k -> forall p, ok p -> forall t, continuous (fun t => mon p t k) t.

Definition wfr (i : I) (q : Poly K) : Prop :=
  keyfor q = kf /\ uniq (items q) /\ allk (P i) (items q) /\ supp (S i) (items q).

Lemma wfr_nil i : wfr i (mkPoly [] kf).
Proof. split; [reflexivity|]. split; [apply uniq_nil|]. split; [apply allk_nil|apply supp_nil]. Qed.

Lemma wfr_merge i (p q : Poly K) : wfr i p -> wfr i q ->
  returns (merge p q) (fun r => wfr i r /\ forall mon, eval mon (items r) = eval mon (items p) + eval mon (items q)).
Proof.
  intros (h1 & h2 & h3 & h4) (g1 & g2 & g3 & g4). unfold merge.
  replace (is_exact_type p q) with true by (symmetry; apply is_exact_type_iff; congruence).
  cbn [returns]. unfold wfr; cbn [items keyfor]. split; [split; [|split; [|split]]|].
  - assumption.
  - now apply uniq_rm_zero, uniq_add_all.
  - now apply allk_rm_zero, allk_add_all.
  - now apply supp_rm_zero, supp_add_all.
  - intro m. now rewrite eval_rm_zero, eval_add_all.
Qed.

Lemma wfr_remove_zero i q : wfr i q -> wfr i (remove_zero q).
Proof.
  intros (h1 & h2 & h3 & h4). unfold remove_zero, wfr; cbn [items keyfor].
  split; [assumption|]. split; [now apply uniq_rm_zero|]. split; [now apply allk_rm_zero|now apply supp_rm_zero].
Qed.

Lemma eval_cont i l : allk (P i) l -> forall p, ok p -> forall t, continuous (fun t => eval (mon p t) l) t.
Proof.
  intros A p Hp t. apply (continuous_ext_all (fun t => sumR (fun kv => Q2R (snd kv) * mon p t (fst kv)) l));
    [intro; symmetry; apply sumR_eval|].
  apply (continuous_sumR (fun kv t => Q2R (snd kv) * mon p t (fst kv))). intros [k v] Hin. cbn [fst snd].
  apply continuous_Rmult; [apply continuous_Rconst|]. apply (cont i); [|assumption]. exact (allk_in _ _ k v A Hin).
Qed.

(** [f] integrates: value 0 at 0 and derivative [g] times the argument *)
Definition iop (f : Poly K -> res (Poly K)) (i j : I) (g : Par -> R -> R) : Prop :=
  forall q, wfr j q -> returns (f q) (fun r => wfr i r /\ forall p, ok p ->
    eval (mon p 0) (items r) = 0 /\
    forall t : R, is_derive (fun t => eval (mon p t) (items r)) t (g p t * eval (mon p t) (items q))).

(** ** solutions of a system *)
Variables (dom : I -> Prop) (sys : Par -> I -> list ((R -> R) * I)) (init : I -> R).

Definition Goodr (i : I) (q : Poly K) : Prop :=
  wfr i q /\ forall p M, ok p -> vsol dom (sys p) init M ->
    forall t, 0 <= t -> M i t = eval (mon p t) (items q).

Lemma Goodr_remove_zero i q : Goodr i q -> Goodr i (remove_zero q).
Proof.
  intros [W V]. split; [now apply wfr_remove_zero|]. intros p M Hp HM t Ht.
  unfold remove_zero; cbn [items]. rewrite eval_rm_zero. now apply V.
Qed.

Definition tsum (l : list ((R -> R) * I)) (M : I -> R -> R) (t : R) : R :=
  sumR (fun cj => fst cj t * M (snd cj) t) l.

(** a partial sum of the recursion, whose derivative is given by the terms [T] *)
Definition Accr (i : I) (T : Par -> list ((R -> R) * I)) (q : Poly K) : Prop :=
  wfr i q /\ exists D : Par -> R -> R, forall p, ok p ->
    eval (mon p 0) (items q) = 0 /\
    (forall t : R, is_derive (fun t => eval (mon p t) (items q)) t (D p t)) /\
    (forall t : R, continuous (D p) t) /\
    forall M, vsol dom (sys p) init M -> forall t, 0 <= t -> D p t = tsum (T p) M t.

Lemma Accr_nil i : Accr i (fun _ => []) (mkPoly [] kf).
Proof.
  split; [apply wfr_nil|]. exists (fun _ _ => 0). intros p _. cbn [items eval]. split; [reflexivity|].
  split; [intro t; apply is_derive_Rconst|]. split; [intro t; apply continuous_Rconst|]. reflexivity.
Qed.
Lemma Accr_ext i T T' q : (forall p M t, ok p -> tsum (T p) M t = tsum (T' p) M t) -> Accr i T q -> Accr i T' q.
Proof.
  intros E [W [D h]]. split; [assumption|]. exists D. intros p Hp.
  destruct (h p Hp) as (a1 & a2 & a3 & a4). do 3 (split; [assumption|]).
  intros M HM t Ht. rewrite <- E by assumption. auto.
Qed.

Lemma acc_merge f i j g T poly q : Accr i T poly -> Goodr j q -> iop f i j g ->
  (forall p, ok p -> forall t, continuous (g p) t) ->
  returns (let! r := f q in merge poly r) (Accr i (fun p => T p ++ [(g p, j)])).
Proof.
  intros [W1 [D h1]] [W2 V2] Hf Hg. eapply returns_bind; [apply (Hf q W2)|]. intros r [Wr Er].
  eapply returns_weaken; [apply (wfr_merge i poly r W1 Wr)|].
  intros r' [W' Ev]. split; [assumption|]. exists (fun p t => D p t + g p t * eval (mon p t) (items q)). intros p Hp.
  destruct (h1 p Hp) as (a1 & a2 & a3 & a4). destruct (Er p Hp) as (b1 & b2). split; [|split; [|split]].
  - rewrite Ev, a1, b1. ring.
  - intro t. eapply is_derive_ext_loc_all; [intro u; symmetry; apply Ev|]. apply is_derive_Rplus; [apply a2|apply b2].
  - intro t. apply continuous_Rplus; [apply a3|]. apply continuous_Rmult; [now apply Hg|].
    apply (eval_cont j); [|assumption]. apply W2.
  - intros M HM t Ht. rewrite (a4 M HM t Ht), <- (V2 p M Hp HM t Ht). unfold tsum. rewrite sumR_app. cbn [sumR fst snd]. ring.
Qed.

(** the finished sum is the solution *)
Lemma Goodr_of_Accr i q : Accr i (fun p => sys p i) q -> dom i -> init i = 0 -> Goodr i q.
Proof.
  intros [W [D h]] Hi H0. split; [assumption|]. intros p M Hp HM t Ht. destruct (h p Hp) as (h1 & h2 & h3 & h4).
  apply (vsol_step dom (sys p) init M i (fun t => eval (mon p t) (items q)) (D p)); try assumption.
  - now rewrite H0.
  - intros u Hu. now apply h4.
Qed.

(** constants *)
Lemma Goodr_const i q : wfr i q -> dom i -> (forall p, ok p -> sys p i = []) ->
  (forall p t, ok p -> eval (mon p t) (items q) = init i) -> Goodr i q.
Proof.
  intros W Hi Hs Hv. split; [assumption|]. intros p M Hp HM t Ht.
  apply (vsol_step dom (sys p) init M i (fun t => eval (mon p t) (items q)) (fun _ => 0)); auto.
  - intro u. eapply is_derive_ext_loc_all; [intro w; symmetry; now apply Hv|apply is_derive_Rconst].
  - intro u. apply continuous_Rconst.
  - intros u Hu. unfold lin_rhs. now rewrite Hs.
Qed.

(** the same polynomial up to the order of the terms *)
Lemma Goodr_same i q r : Goodr i r -> wfr i q ->
  (forall mon, eval mon (items q) = eval mon (items r)) -> Goodr i q.
Proof. intros [_ V] W E. split; [assumption|]. intros p M Hp HM t Ht. rewrite E. now apply V. Qed.

(** all indices of orders lo..hi are in the table, with correct polynomials *)
Variable ord : I -> Z.
Definition tab `{Key I} (lo hi : Z) (C : list (I * Poly K)) : Prop :=
  forall i, dom i -> (lo <= ord i <= hi)%Z -> exists q, cget i C = Ok q /\ Goodr i q.
End Recur.

(** ** term-by-term integration *)
Section IntPoly.
Context {K K2 : Type} `{Key K} `{Key K2} {Par : Type}.
Variables (ok : Par -> Prop) (p0 : Par) (mon : Par -> R -> K -> R) (mon2 : Par -> R -> K2 -> R).
Hypothesis ok0 : ok p0.
Variables (Pj Sj Pi Si : K -> Prop) (P2 : K2 -> Prop).
Variables (isub : K -> res (Poly K2)) (mk : K -> K2 -> K) (val : K -> Q -> K2 -> Q -> Q).
Variables (h : Par -> K -> R -> R) (B : Par -> K -> R) (g : Par -> R -> R).
Hypothesis Hsub : forall k, Pj k -> returns (isub k) (fun sub => allk P2 (items sub) /\ forall p, ok p ->
  eval (mon2 p 0) (items sub) = 0 /\ forall t : R, is_derive (fun t => eval (mon2 p t) (items sub)) t (h p k t)).
Hypothesis HP : forall k1 k2, Pj k1 -> P2 k2 -> Pi (mk k1 k2).
Hypothesis HS : forall k1 v1 k2 v2, Sj k1 -> Pj k1 -> P2 k2 -> ~ (val k1 v1 k2 v2 == 0)%Q -> Si (mk k1 k2).
Hypothesis Hval0 : forall k1 v1 k2 v2, ~ (val k1 v1 k2 v2 == 0)%Q -> ~ (v1 == 0)%Q.
Hypothesis Hterm : forall p t k1 v1 k2 v2, ok p -> Pj k1 -> P2 k2 ->
  Q2R (val k1 v1 k2 v2) * mon p t (mk k1 k2) = Q2R v1 * B p k1 * (Q2R v2 * mon2 p t k2).
Hypothesis Hg : forall p t k, ok p -> Pj k -> B p k * h p k t = g p t * mon p t k.

Definition ip_loop (l : list (K * Q)) (a : list (K * Q)) : res (list (K * Q)) :=
  foldM (fun a kv1 => let! sub := isub (fst kv1) in
    Ok (fold_left (fun a kv2 => add_kv (mk (fst kv1) (fst kv2)) (val (fst kv1) (snd kv1) (fst kv2) (snd kv2)) a) (items sub) a)) l a.

Let sv (p : Par) (k : K) (t : R) : R := match isub k with Ok r => eval (mon2 p t) (items r) | Err _ => 0 end.

Lemma ip_loop_sp l : allk Pj l -> supp Sj l ->
  returns (ip_loop l []) (fun a => uniq a /\ allk Pi a /\ supp Si a /\ forall p, ok p ->
    eval (mon p 0) a = 0 /\ forall t : R, is_derive (fun t => eval (mon p t) a) t (g p t * eval (mon p t) l)).
Proof.
  intros A Sl. unfold ip_loop. set (f := fun a kv1 => _).
  assert (L : forall p, ok p -> returns (foldM f l [])
    (fun a => (uniq a /\ allk Pi a /\ supp Si a) /\ forall t, eval (mon p t) a = eval (mon p t) [] +
      sumR (fun kv1 => Q2R (snd kv1) * B p (fst kv1) * sv p (fst kv1) t) l)).
  { intros p Hp.
    apply (foldM_sum f (fun a => uniq a /\ allk Pi a /\ supp Si a) (fun t a => eval (mon p t) a)
      (fun t kv1 => Q2R (snd kv1) * B p (fst kv1) * sv p (fst kv1) t)).
    - intros [k1 v1] Hin a (U & Wa & Sa). unfold f. cbn [fst snd].
      assert (W1 : Pj k1) by now apply (allk_in Pj _ k1 v1 A).
      unfold sv. pose proof (Hsub k1 W1) as he. destruct (isub k1) as [sub|]; [|destruct he].
      destruct he as (Ws & _). cbn [bind returns]. split; [split; [|split]|].
      + now apply (uniq_fold_add (fun kv2 => mk k1 (fst kv2)) (fun kv2 => val k1 v1 (fst kv2) (snd kv2))).
      + apply (allk_fold_add Pi (fun kv2 => mk k1 (fst kv2)) (fun kv2 => val k1 v1 (fst kv2) (snd kv2))); [assumption|].
        intros [k2 v2] H2. cbn [fst snd]. apply HP; [assumption|]. exact (allk_in P2 _ k2 v2 Ws H2).
      + apply (supp_fold_add Si (fun kv2 => mk k1 (fst kv2)) (fun kv2 => val k1 v1 (fst kv2) (snd kv2))); [assumption|].
        intros [k2 v2] H2 Hnz. cbn [fst snd] in *. apply (HS k1 v1 k2 v2); [|assumption|exact (allk_in P2 _ k2 v2 Ws H2)|assumption].
        apply (Sl k1 v1 Hin). eauto.
      + intro t. rewrite (eval_fold_add (mon p t) (fun kv2 => mk k1 (fst kv2)) (fun kv2 => val k1 v1 (fst kv2) (snd kv2))).
        f_equal. rewrite sumR_eval, <- sumR_scal. apply sumR_ext. intros [k2 v2] H2. cbn [fst snd].
        apply Hterm; [assumption|assumption|]. exact (allk_in P2 _ k2 v2 Ws H2).
    - split; [apply uniq_nil|]. split; [apply allk_nil|apply supp_nil]. }
  assert (L' := returns_forall _ ok _ p0 ok0 L). clear L.
  eapply returns_weaken; [exact L'|]. intros a hh. clear L'.
  destruct (hh p0 ok0) as [(U & Wa & Sa) _].
  split; [assumption|]. split; [assumption|]. split; [assumption|].
  intros p Hp. destruct (hh p Hp) as [_ E].
  assert (HV : forall k1 v1, In (k1, v1) l -> sv p k1 0 = 0 /\ forall t : R, is_derive (sv p k1) t (h p k1 t)).
  { intros k1 v1 Hin. assert (W1 : Pj k1) by now apply (allk_in Pj _ k1 v1 A).
    unfold sv. pose proof (Hsub k1 W1) as he. destruct (isub k1) as [sub|]; [|destruct he].
    destruct he as (_ & he). now apply he. }
  split.
  - rewrite E. cbn [eval]. rewrite sumR_0; [ring|]. intros [k1 v1] Hin. cbn [fst snd].
    destruct (HV k1 v1 Hin) as [e0 _]. rewrite e0. ring.
  - intro t. eapply is_derive_ext_loc_all; [intro u; symmetry; rewrite E; cbn [eval]; rewrite Rplus_0_l; reflexivity|].
    eapply is_derive_val.
    + apply (is_derive_sumR (fun kv1 t => Q2R (snd kv1) * B p (fst kv1) * sv p (fst kv1) t)
        (fun kv1 => Q2R (snd kv1) * B p (fst kv1) * h p (fst kv1) t)).
      intros [k1 v1] Hin. cbn [fst snd]. apply is_derive_Rscal. exact (proj2 (HV k1 v1 Hin) t).
    + rewrite sumR_eval, <- sumR_scal. apply sumR_ext. intros [k1 v1] Hin. cbn [fst snd].
      assert (W1 : Pj k1) by now apply (allk_in Pj _ k1 v1 A).
      rewrite Rmult_assoc, (Hg p t k1 Hp W1). ring.
Qed.
End IntPoly.
