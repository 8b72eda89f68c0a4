(** The recursion of ito_cond_mom.py computes the moments given the jump path. *)
From Coq Require Import Reals Lra.
From Coquelicot Require Import Coquelicot.
From Verif.Proof Require Export ItoCondInt CacheFacts.
Local Open Scope R_scope.

Definition wfJ (i : zidx) (q : Poly jkey) : Prop :=
  keyfor q = kf_jIEII /\ uniq (items q) /\ allk jkey_ok (items q) /\
  supp (fun _ => Z.even (snd i) = true) (items q).

Definition jsol (p : zpar) (z : path) (M : zidx -> R -> R) : Prop :=
  zpk p <> 0 /\ jumps_ok z /\ cond_moments p z M.
Definition trusted (b : bool) (i : zidx) : Prop := b = true -> snd (fst i) = 0%Z /\ snd i = 0%Z.

Definition GoodJ (b : bool) (i : zidx) (q : Poly jkey) : Prop :=
  wfJ i q /\ (trusted b i -> allk (jok b) (items q) /\
    forall p z M, jsol p z M -> forall t, 0 <= t -> eval (jmon p z t) (items q) = M i t).

Notation integrand := (zpar -> path -> (zidx -> R -> R) -> R -> R).
Definition PartJ (b : bool) (i : zidx) (F : integrand) (q : Poly jkey) : Prop :=
  wfJ i q /\ (trusted b i -> allk (jok b) (items q) /\
    forall p z M, jsol p z M -> forall t, 0 <= t -> is_RInt (F p z M) 0 t (eval (jmon p z t) (items q))).

Lemma PartJ_ext b i F G q : PartJ b i F q ->
  (forall p z M, jsol p z M -> forall s, 0 <= s -> F p z M s = G p z M s) -> PartJ b i G q.
Proof.
  intros [W h] E. split; [assumption|]. intro T. destruct (h T) as [h1 h2]. split; [assumption|].
  intros p z M HM t Ht. apply (is_RInt_ext (F p z M)); [|now apply h2].
  intros s Hs. rewrite Rmin_left in Hs by assumption. apply E; [assumption|lra].
Qed.

Lemma PartJ_start b i : PartJ b i (fun _ _ _ _ => 0) (mkPoly [] kf_jIEII).
Proof.
  split.
  - split; [reflexivity|]. split; [apply uniq_nil|]. split; [apply allk_nil|apply supp_nil].
  - intros _. split; [apply allk_nil|]. intros p z M _ t _. cbn [items eval].
    pose proof (is_RInt_const (V := R_NormedModule) 0 t 0) as h0. unfold scal in h0. simpl in h0.
    unfold mult in h0. simpl in h0. rewrite Rmult_0_r in h0. exact h0.
Qed.

Lemma PartJ_merge b i F G (X : res (Poly jkey)) poly : PartJ b i F poly -> returns X (PartJ b i G) ->
  returns (let! r := X in merge poly r) (PartJ b i (fun p z M s => F p z M s + G p z M s)).
Proof.
  intros [(a1 & a2 & a3 & a4) h] HX. eapply returns_bind; [exact HX|]. intros r [(b1 & b2 & b3 & b4) g].
  unfold merge. replace (is_exact_type poly r) with true by (symmetry; apply is_exact_type_iff; congruence).
  cbn [returns]. split.
  - split; [assumption|]. cbn [items]. split; [now apply uniq_rm_zero, uniq_add_all|].
    split; [now apply allk_rm_zero, allk_add_all|now apply supp_rm_zero, supp_add_all].
  - intro T. destruct (h T) as [h1 h2]. destruct (g T) as [g1 g2]. cbn [items].
    split; [now apply allk_rm_zero, allk_add_all|]. intros p z M HM t Ht.
    rewrite eval_rm_zero, eval_add_all. apply is_RInt_Rplus; [now apply h2|now apply g2].
Qed.

Lemma PartJ_step {B} b i F G (X : res (Poly jkey)) poly (K : Poly jkey -> res B) (Post : B -> Prop) :
  PartJ b i F poly -> returns X (PartJ b i G) ->
  (forall poly', PartJ b i (fun p z M s => F p z M s + G p z M s) poly' -> returns (K poly') Post) ->
  returns (let! r := X in let! poly' := merge poly r in K poly') Post.
Proof.
  intros h1 h2 h3. pose proof (PartJ_merge b i F G X poly h1 h2) as h.
  destruct X as [r|]; [|exact h]. cbn [bind] in *. eapply returns_bind; [exact h|exact h3].
Qed.

Section Rec.
Context (b : bool) (iez : Q -> Z -> Poly jkey -> res (Poly jkey)).
Hypothesis Htot : forall c m poly (Pc : Prop), allk jkey_ok (items poly) -> supp (fun _ => Pc) (items poly) ->
  returns (iez c m poly) (fun r => keyfor r = keyfor poly /\ uniq (items r) /\ allk jkey_ok (items r) /\
    supp (fun _ => Pc) (items r)).
Hypothesis Hright : forall c m poly, allk (jok b) (items poly) -> (b = true -> (1 <= m)%Z) ->
  returns (iez c m poly) (fun r => allk (jok b) (items r) /\
    forall p z t, zpk p <> 0 -> jumps_ok z -> 0 <= t ->
      is_RInt (fun s => Q2R c * exp (IZR m * (zpk p * s)) * IEZ_path (zpk p) z s * eval (jmon p z s) (items poly)) 0 t
        (eval (jmon p z t) (items r))).

Lemma allk_jok_false l : allk jkey_ok l -> allk (jok false) l.
Proof. intro h. eapply allk_weaken; [exact h|]. intros k Hk. split; [assumption|discriminate]. Qed.

Lemma jint_total c tp m poly (Pc : Prop) : allk jkey_ok (items poly) -> supp (fun _ => Pc) (items poly) ->
  returns (jint_e_poly c tp m poly) (fun r => keyfor r = keyfor poly /\ uniq (items r) /\ allk jkey_ok (items r) /\
    supp (fun _ => Pc) (items r)).
Proof.
  intros W S. rewrite jint_gint.
  pose proof (gint_spec false _ _ (fun l => l) (fun _ _ _ => 1) c m (inc_ok_tp tp) (fun _ h => h)
    (fun k z s lopq _ => eq_sym (Rmult_1_l _)) ltac:(discriminate) poly (allk_jok_false _ W)) as h.
  destruct (returns_inv _ _ h) as (r & E & h1 & h2 & h3 & _). rewrite E. cbn [returns].
  split; [assumption|]. split; [assumption|]. split; [|exact (gint_supp _ _ c m poly Pc S r E)].
  eapply allk_weaken; [exact h3|]. now intros k [Hk _].
Qed.
Lemma jint_right c tp m poly : allk (jok b) (items poly) -> (b = true -> (1 <= m)%Z) ->
  returns (jint_e_poly c tp m poly) (fun r => allk (jok b) (items r) /\
    forall p z t, zpk p <> 0 -> jumps_ok z -> 0 <= t ->
      is_RInt (fun s => Q2R c * tfac tp p * exp (IZR m * (zpk p * s)) * eval (jmon p z s) (items poly)) 0 t
        (eval (jmon p z t) (items r))).
Proof.
  intros W Hb. rewrite jint_gint.
  pose proof (gint_spec b _ _ (fun l => l) (fun _ _ _ => 1) c m (inc_ok_tp tp) (fun _ h => h)
    (fun k z s lopq _ => eq_sym (Rmult_1_l _)) Hb poly W) as h.
  eapply returns_weaken; [exact h|]. intros r (_ & _ & h3 & h4). split; [assumption|].
  intros p z t Hp Hz Ht. eapply is_RInt_ext; [|now apply h4]. intros s _. cbv beta.
  match goal with |- ?x = ?y => change (@eq R x y) end. ring.
Qed.

(** one integral of a table entry *)
Lemma jint_part c tp m i j q  :
  wfJ j q -> Z.even (snd i) = Z.even (snd j) ->
  (trusted b i -> GoodJ b j q /\ trusted b j /\ (b = true -> (1 <= m)%Z)) ->
  returns (jint_e_poly c tp m q) (PartJ b i (fun p z M s => Q2R c * tfac tp p * exp (IZR m * (zpk p * s)) * M j s)).
Proof.
  intros (w1 & w2 & w3 & w4) Ev H.
  pose proof (jint_total c tp m q _ w3 w4) as h1.
  destruct (returns_inv _ _ h1) as (r & E & r1 & r2 & r3 & r4). rewrite E. cbn [returns]. split.
  - split; [congruence|]. split; [assumption|]. split; [assumption|]. now rewrite Ev.
  - intro T. destruct (H T) as ((_ & G) & Tj & Hb). destruct (G Tj) as [g1 g2].
    pose proof (jint_right c tp m q g1 Hb) as h2. rewrite E in h2. cbn [returns] in h2. destruct h2 as [h2 h3].
    split; [assumption|]. intros p z M HM t Ht. destruct HM as (hp & hz & hM).
    apply (is_RInt_ext (fun s => Q2R c * tfac tp p * exp (IZR m * (zpk p * s)) * eval (jmon p z s) (items q)));
      [|now apply h3].
    intros s Hs. rewrite Rmin_left in Hs by assumption. rewrite (g2 p z M); [reflexivity|now repeat split|lra].
Qed.
Lemma iez_part c m i j q :
  wfJ j q -> Z.even (snd i) = Z.even (snd j) ->
  (trusted b i -> GoodJ b j q /\ trusted b j /\ (b = true -> (1 <= m)%Z)) ->
  returns (iez c m q) (PartJ b i (fun p z M s => Q2R c * exp (IZR m * (zpk p * s)) * IEZ_path (zpk p) z s * M j s)).
Proof.
  intros (w1 & w2 & w3 & w4) Ev H.
  pose proof (Htot c m q _ w3 w4) as h1.
  destruct (returns_inv _ _ h1) as (r & E & r1 & r2 & r3 & r4). rewrite E. cbn [returns]. split.
  - split; [congruence|]. split; [assumption|]. split; [assumption|]. now rewrite Ev.
  - intro T. destruct (H T) as ((_ & G) & Tj & Hb). destruct (G Tj) as [g1 g2].
    pose proof (Hright c m q g1 Hb) as h2. rewrite E in h2. cbn [returns] in h2. destruct h2 as [h2 h3].
    split; [assumption|]. intros p z M HM t Ht. destruct HM as (hp & hz & hM).
    apply (is_RInt_ext (fun s => Q2R c * exp (IZR m * (zpk p * s)) * IEZ_path (zpk p) z s * eval (jmon p z s) (items q)));
      [|now apply h3].
    intros s Hs. rewrite Rmin_left in Hs by assumption. rewrite (g2 p z M); [reflexivity|now repeat split|lra].
Qed.

Definition tsum (T : list ((R -> R) * zidx)) (M : zidx -> R -> R) (s : R) : R :=
  sumR (fun cj => fst cj s * M (snd cj) s) T.

Lemma jbranch_spec C c poly e i a' b' d' F q q' :
  PartJ b i F poly -> Z.even (snd i) = Z.even d' ->
  cget (a', b', d') C = Ok q -> GoodJ b (a', b', d') q ->
  cget (a' + 1, b', d')%Z C = Ok q' -> GoodJ b (a' + 1, b', d')%Z q' ->
  (trusted b i -> trusted b (a', b', d') /\ (b = true -> e = 2%Z)) ->
  returns (jbranch iez C c poly (e - 1) e (a', b', d') (a' + 1, b', d')%Z)
    (PartJ b i (fun p z M s => F p z M s +
       tsum (vz_terms p z (fun s => Q2R c * exp (IZR e * (zpk p * s))) (a', b', d')) M s)).
Proof.
  intros HP Ev Eq Gq Eq' Gq' HT. unfold jbranch. rewrite Eq, Eq'. cbn [bind].
  assert (T1 : trusted b i -> GoodJ b (a', b', d') q /\ trusted b (a', b', d') /\ (b = true -> (1 <= e - 1)%Z)).
  { intro T. destruct (HT T) as [h1 h2]. split; [assumption|]. split; [assumption|]. intro B. specialize (h2 B). lia. }
  assert (T2 : trusted b i -> GoodJ b (a', b', d') q /\ trusted b (a', b', d') /\ (b = true -> (1 <= e)%Z)).
  { intro T. destruct (HT T) as [h1 h2]. split; [assumption|]. split; [assumption|]. intro B. specialize (h2 B). lia. }
  assert (T3 : trusted b i -> GoodJ b (a' + 1, b', d')%Z q' /\ trusted b (a' + 1, b', d')%Z /\ (b = true -> (1 <= e - 1)%Z)).
  { intro T. destruct (HT T) as [h1 h2]. split; [assumption|]. split; [exact h1|]. intro B. specialize (h2 B). lia. }
  cbn [snd fst] in Ev.
  eapply (PartJ_step b i); [exact HP|apply (jint_part c 1 (e - 1) i (a', b', d') q); [apply Gq|exact Ev|exact T1]|].
  intros p1 H1.
  eapply (PartJ_step b i); [exact H1|apply (jint_part c 2 e i (a', b', d') q); [apply Gq|exact Ev|exact T2]|].
  intros p2 H2.
  eapply (PartJ_step b i); [exact H2|apply (jint_part c 3 (e - 1) i (a' + 1, b', d')%Z q'); [apply Gq'|exact Ev|exact T3]|].
  intros p3 H3.
  eapply returns_weaken; [eapply (PartJ_merge b i); [exact H3|apply (iez_part c (e - 1) i (a', b', d') q); [apply Gq|exact Ev|exact T1]]|].
  intros r HR. eapply PartJ_ext; [exact HR|]. intros p z M _ s _. cbv beta.
  unfold tsum, vz_terms, v_given, tfac. cbn [sumR fst snd Z.eqb Pos.eqb].
  replace (IZR (e - 1) * (zpk p * s)) with (IZR e * (zpk p * s) + - (zpk p * s)) by (rewrite minus_IZR; ring).
  rewrite exp_plus. ring.
Qed.

(** all indices of orders lo..hi are in the table *)
Definition CInvJ (lo hi : Z) (C : jcache) : Prop :=
  forall i, zdom i -> (lo <= ord3 i <= hi)%Z -> exists q, cget i C = Ok q /\ GoodJ b i q.

Lemma exp_0m x : exp (0 * x) = 1.
Proof. rewrite Rmult_0_l. apply exp_0. Qed.
Lemma exp_1m x : exp (1 * x) = exp x.
Proof. f_equal. ring. Qed.
Lemma exp_2m x : exp (2 * x) = exp x * exp x.
Proof. rewrite <- exp_plus. f_equal. ring. Qed.

Lemma cond_init_0 i : ord3 i <> 0%Z -> cond_init i = 0.
Proof. destruct i as [[[| |] [| |]] [| |]]; try reflexivity. intro h. now contradiction h. Qed.

Lemma tsum_app T1 T2 M s : tsum (T1 ++ T2) M s = tsum T1 M s + tsum T2 M s.
Proof. apply sumR_app. Qed.

Lemma jrecursive_spec a1 b1 d1 C : zdom (a1, b1, d1) -> (1 <= a1 + b1 + d1)%Z ->
  CInvJ (a1 + b1 + d1 - 2) (a1 + b1 + d1 - 1) C ->
  returns (jrecursive_IEII_with iez a1 b1 d1 C) (GoodJ b (a1, b1, d1)).
Proof.
  intros (h1 & h2 & h3) Hord HC. unfold jrecursive_IEII_with.
  replace (0 <=? a1)%Z with true by (symmetry; apply Z.leb_le; lia).
  replace (0 <=? b1)%Z with true by (symmetry; apply Z.leb_le; lia).
  replace (0 <=? d1)%Z with true by (symmetry; apply Z.leb_le; lia).
  rewrite !andb_true_r, !andb_true_l.
  assert (HQ : forall i, zdom i -> (a1 + b1 + d1 - 2 <= ord3 i <= a1 + b1 + d1 - 1)%Z -> exists q, cget i C = Ok q /\ GoodJ b i q)
    by exact HC.
  set (i := (a1, b1, d1)).
  set (E1 := fun (p : zpar) (z : path) => if (2 <=? a1)%Z then vz_terms p z (fun s => IZR (a1 * (a1 - 1)) / 2 * (exp (zpk p * s) * exp (zpk p * s))) (a1 - 2, b1, d1)%Z else []).
  set (E2 := fun (p : zpar) (z : path) => if (2 <=? b1)%Z then vz_terms p z (fun _ => IZR (b1 * (b1 - 1)) / 2) (a1, b1 - 2, d1)%Z else []).
  set (E3 := fun (p : zpar) (z : path) => if ((1 <=? a1) && (1 <=? b1))%Z then vz_terms p z (fun s => IZR (a1 * b1) * exp (zpk p * s)) (a1 - 1, b1 - 1, d1)%Z else []).
  set (E4 := fun (p : zpar) (z : path) => if (2 <=? d1)%Z then vz_terms p z (fun _ => IZR (d1 * (d1 - 1)) / 2) (a1, b1, d1 - 2)%Z else []).
  assert (Hlin : forall p z M s, lin_rhs (cond_sys p z) M i s =
    tsum (E1 p z) M s + tsum (E2 p z) M s + tsum (E3 p z) M s + tsum (E4 p z) M s).
  { intros p z M s.
    change (lin_rhs (cond_sys p z) M i s) with (tsum (E1 p z ++ E2 p z ++ E3 p z ++ E4 p z) M s).
    rewrite !tsum_app. ring. }
  eapply returns_bind.
  { instantiate (1 := PartJ b i (fun p z M s => tsum (E1 p z) M s)).
    unfold E1. destruct (Z.leb_spec 2 a1) as [Ha|Ha]; [|apply PartJ_start].
    destruct (HQ (a1 - 2, b1, d1)%Z) as (q & e1 & G1); [unfold zdom; lia|unfold ord3; simpl; lia|].
    destruct (HQ (a1 - 2 + 1, b1, d1)%Z) as (q' & e2 & G2); [unfold zdom; lia|unfold ord3; simpl; lia|].
    replace (a1 - 1)%Z with (a1 - 2 + 1)%Z at 2 by lia.
    eapply returns_weaken; [apply (jbranch_spec C _ _ 2 i (a1 - 2) b1 d1 (fun _ _ _ _ => 0) q q'); try assumption;
      [apply PartJ_start|reflexivity|]|].
    { intro T. split; [exact T|reflexivity]. }
    intros r HR. eapply PartJ_ext; [exact HR|]. intros p z M _ s _. unfold tsum, vz_terms. cbn [sumR fst snd].
    rewrite exp_2m, Q2R_Frac by lia. ring. }
  intros q1 A1. eapply returns_bind.
  { instantiate (1 := PartJ b i (fun p z M s => tsum (E1 p z) M s + tsum (E2 p z) M s)).
    destruct (Z.leb_spec 2 b1) as [Hb|Hb].
    2: { cbn [returns]. eapply PartJ_ext; [exact A1|]. intros p z M _ s _. unfold E2.
         destruct (Z.leb_spec 2 b1); [lia|]. unfold tsum at 3. cbn [sumR]. ring. }
    destruct (HQ (a1, b1 - 2, d1)%Z) as (q & e1 & G1); [unfold zdom; lia|unfold ord3; simpl; lia|].
    destruct (HQ (a1 + 1, b1 - 2, d1)%Z) as (q' & e2 & G2); [unfold zdom; lia|unfold ord3; simpl; lia|].
    eapply returns_weaken; [apply (jbranch_spec C _ _ 0 i a1 (b1 - 2) d1 _ q q' A1); try assumption; [reflexivity|]|].
    { intro T. destruct b; [|split; [intro B; discriminate|discriminate]].
      destruct (T eq_refl) as [t1 _]. cbn [fst snd i] in t1. lia. }
    intros r HR. eapply PartJ_ext; [exact HR|]. intros p z M _ s _. f_equal. unfold E2.
    destruct (Z.leb_spec 2 b1); [|lia]. unfold tsum, vz_terms. cbn [sumR fst snd].
    rewrite exp_0m, Q2R_Frac by lia. ring. }
  intros q2 A2. eapply returns_bind.
  { instantiate (1 := PartJ b i (fun p z M s => tsum (E1 p z) M s + tsum (E2 p z) M s + tsum (E3 p z) M s)).
    destruct ((1 <=? a1) && (1 <=? b1))%Z eqn:Eab.
    2: { cbn [returns]. eapply PartJ_ext; [exact A2|]. intros p z M _ s _. unfold E3.
         rewrite ?Eab. unfold tsum at 5. cbn [sumR]. ring. }
    assert (Hab := Eab). apply andb_prop in Hab. destruct Hab as [Ha Hb]. apply Z.leb_le in Ha, Hb.
    destruct (HQ (a1 - 1, b1 - 1, d1)%Z) as (q & e1 & G1); [unfold zdom; lia|unfold ord3; simpl; lia|].
    destruct (HQ (a1 - 1 + 1, b1 - 1, d1)%Z) as (q' & e2 & G2); [unfold zdom; lia|unfold ord3; simpl; lia|].
    replace (a1, b1 - 1, d1)%Z with (a1 - 1 + 1, b1 - 1, d1)%Z by (repeat f_equal; lia).
    eapply returns_weaken; [apply (jbranch_spec C _ _ 1 i (a1 - 1) (b1 - 1) d1 _ q q' A2); try assumption; [reflexivity|]|].
    { intro T. destruct b; [|split; [intro B; discriminate|discriminate]].
      destruct (T eq_refl) as [t1 _]. cbn [fst snd i] in t1. lia. }
    intros r HR. eapply PartJ_ext; [exact HR|]. intros p z M _ s _. f_equal. unfold E3. rewrite ?Eab.
    unfold tsum, vz_terms. cbn [sumR fst snd].
    rewrite exp_1m, Q2R_Frac by lia. field. }
  intros q3 A3.
  assert (A4 : returns (if (2 <=? d1)%Z then jbranch iez C (Frac (d1 * (d1 - 1)) 2) q3 (-1) 0 (a1, b1, d1 - 2)%Z (a1 + 1, b1, d1 - 2)%Z else Ok q3)
    (PartJ b i (fun p z M s => lin_rhs (cond_sys p z) M i s))).
  { destruct (Z.leb_spec 2 d1) as [Hd|Hd].
    2: { cbn [returns]. eapply PartJ_ext; [exact A3|]. intros p z M _ s _.
         rewrite Hlin. unfold E4. destruct (Z.leb_spec 2 d1); [lia|]. unfold tsum at 7. cbn [sumR]. ring. }
    destruct (HQ (a1, b1, d1 - 2)%Z) as (q & e1 & G1); [unfold zdom; lia|unfold ord3; simpl; lia|].
    destruct (HQ (a1 + 1, b1, d1 - 2)%Z) as (q' & e2 & G2); [unfold zdom; lia|unfold ord3; simpl; lia|].
    eapply returns_weaken; [apply (jbranch_spec C _ _ 0 i a1 b1 (d1 - 2) _ q q' A3); try assumption|].
    { cbn [i snd]. rewrite Z.even_sub. now destruct (Z.even d1). }
    { intro T. destruct b; [|split; [intro B; discriminate|discriminate]].
      destruct (T eq_refl) as [_ t1]. cbn [fst snd i] in t1. lia. }
    intros r HR. eapply PartJ_ext; [exact HR|]. intros p z M _ s _.
    rewrite Hlin. f_equal. unfold E4. destruct (Z.leb_spec 2 d1); [|lia]. unfold tsum, vz_terms. cbn [sumR fst snd].
    rewrite exp_0m, Q2R_Frac by lia. ring. }
  eapply returns_weaken; [exact A4|]. intros r [W h]. split; [assumption|]. intro T. destruct (h T) as [g1 g2].
  split; [assumption|]. intros p z M HM t Ht. pose proof (g2 p z M HM t Ht) as i1.
  destruct HM as (_ & _ & HM). pose proof (HM i ltac:(unfold i, zdom; lia) t Ht) as i2.
  pose proof (is_RInt_uniq _ _ _ _ _ i1 i2) as E. rewrite E, cond_init_0; [ring|]. unfold i, ord3; simpl; lia.
Qed.

(** ** the loop over the orders *)
Lemma GoodJ_remove_zero i q : GoodJ b i q -> GoodJ b i (remove_zero q).
Proof.
  intros [(w1 & w2 & w3 & w4) h]. unfold remove_zero. split; [|intro T; destruct (h T) as [g1 g2]]; cbn [items keyfor].
  - split; [assumption|]. cbn [items]. split; [now apply uniq_rm_zero|].
    split; [now apply allk_rm_zero|now apply supp_rm_zero].
  - split; [now apply allk_rm_zero|]. intros p z M HM t Ht. rewrite eval_rm_zero. now apply g2.
Qed.

Lemma jround_spec C n : (3 <= n)%Z -> CInvJ (n - 2) (n - 1) C ->
  returns (jround_with iez C n) (CInvJ (n - 1) n).
Proof.
  intros Hn HC. unfold jround_with.
  set (P := fun (ij : Z * Z) (C : jcache) => exists q,
    cget (fst ij, snd ij, n - fst ij - snd ij)%Z C = Ok q /\ GoodJ b (fst ij, snd ij, n - fst ij - snd ij)%Z q).
  eapply returns_bind.
  { rewrite (foldM_nested (fun C i j => let! poly := jrecursive_IEII_with iez i j (n - i - j) C in
      Ok (cset (i, j, n - i - j)%Z (remove_zero poly) C)) (fun i => range_down (n - i))).
    apply (foldM_visit _ (CInvJ (n - 2) (n - 1)) P); [|exact HC].
    intros [i j] Hin C' HC'. apply in_flat_map in Hin. destruct Hin as (i' & Hi & Hj).
    apply in_map_iff in Hj. destruct Hj as (j' & E & Hj). inversion E; subst i' j'; clear E.
    apply in_range_down in Hi, Hj. cbn [fst snd].
    eapply returns_bind.
    - apply (jrecursive_spec i j (n - i - j) C'); [unfold zdom; lia|lia|].
      replace (i + j + (n - i - j))%Z with n by lia. exact HC'.
    - intros q Gq. cbn [returns]. apply GoodJ_remove_zero in Gq. split; [|split].
      + intros k Hk Ho. destruct (HC' k Hk Ho) as (q' & e1 & e2). exists q'. split; [|assumption].
        rewrite cget_cset_other; [assumption|]. intros <-. unfold ord3 in Ho; cbn [fst snd] in Ho. lia.
      + unfold P; cbn [fst snd]. eexists. split; [apply cget_cset_same|assumption].
      + intros [i1 j1] (q' & e1 & e2); cbn [fst snd] in *. unfold P; cbn [fst snd].
        destruct (keqb (i, j, n - i - j)%Z (i1, j1, n - i1 - j1)%Z) eqn:Ek.
        * apply keqb_spec in Ek. rewrite <- Ek. eexists. split; [apply cget_cset_same|assumption].
        * exists q'. split; [|assumption]. rewrite cget_cset_other; [assumption|].
          intro E. apply keqb_spec in E. congruence. }
  intros C' [HC' HP]. cbn [returns]. intros i Hi Ho.
  rewrite cget_cdel by (apply Z.eqb_neq; lia).
  destruct (Z.eq_dec (ord3 i) n) as [E|N]; [|apply HC'; [assumption|lia]].
  destruct i as [[a1 b1] d1]. unfold ord3 in E; cbn [fst snd] in E. destruct Hi as (h1 & h2 & h3).
  destruct (HP (a1, b1)) as (q & e1 & e2).
  - apply in_flat_map. exists a1. split; [apply in_range_down; lia|]. apply in_map.
    apply in_range_down. lia.
  - cbn [fst snd] in *. replace (n - a1 - b1)%Z with d1 in * by lia. eauto.
Qed.

Lemma jrounds m : forall n C, (3 <= n)%Z -> CInvJ (n - 2) (n - 1) C ->
  returns (foldM (jround_with iez) (range n (n + Z.of_nat m)) C)
    (CInvJ (n + Z.of_nat m - 2) (n + Z.of_nat m - 1)).
Proof.
  induction m as [|m IH]; intros n C Hn HC.
  - rewrite range_nil by lia. cbn [foldM returns]. now rewrite Z.add_0_r.
  - rewrite range_cons by lia. cbn [foldM].
    pose proof (jround_spec C n Hn HC) as h.
    destruct (jround_with iez C n) as [C'|]; [|exact h]. cbn [returns] in h.
    replace (n + Z.of_nat (S m))%Z with (n + 1 + Z.of_nat m)%Z by lia. apply IH; [lia|].
    replace (n + 1 - 2)%Z with (n - 1)%Z by lia. replace (n + 1 - 1)%Z with n by lia. exact h.
Qed.

Lemma jmoment_spec a1 b1 d1 : CInvJ 0 2 jinit -> (0 <= a1)%Z -> (0 <= b1)%Z -> (0 <= d1)%Z ->
  returns (jmoment_IEII_with iez a1 b1 d1) (GoodJ b (a1, b1, d1)).
Proof.
  intros H0 Ha Hb Hd. unfold jmoment_IEII_with.
  destruct (Z.ltb_spec (a1 + b1 + d1) 0); [lia|].
  destruct (Z.leb_spec (a1 + b1 + d1) 2) as [Hl|Hg].
  - destruct (H0 (a1, b1, d1)) as (q & e1 & e2); [unfold zdom; lia|unfold ord3; simpl; lia|].
    rewrite e1. exact e2.
  - assert (HC : returns (if (3 <? a1 + b1 + d1)%Z then foldM (jround_with iez) (range 3 (a1 + b1 + d1)) jinit else Ok jinit)
      (CInvJ (a1 + b1 + d1 - 2) (a1 + b1 + d1 - 1))).
    { assert (H3 : CInvJ (3 - 2) (3 - 1) jinit).
      { intros i Hi Ho. apply H0; [assumption|lia]. }
      destruct (Z.ltb_spec 3 (a1 + b1 + d1)).
      - pose proof (jrounds (Z.to_nat (a1 + b1 + d1 - 3)) 3 jinit ltac:(lia) H3) as h.
        rewrite Z2Nat.id in h by lia. replace (3 + (a1 + b1 + d1 - 3))%Z with (a1 + b1 + d1)%Z in h by lia. exact h.
      - cbn [returns]. replace (a1 + b1 + d1)%Z with 3%Z by lia. exact H3. }
    eapply returns_bind; [exact HC|]. intros C' HC'.
    eapply returns_bind.
    + apply (jrecursive_spec a1 b1 d1 C'); [unfold zdom; lia|lia|exact HC'].
    + intros q Gq. cbn [returns]. now apply GoodJ_remove_zero.
Qed.
End Rec.
