(** Proofs about mdl_svcj/cond_mom.py and cond_cmom.py (C38). *)
From Coq Require Import Reals Lra.
From Coquelicot Require Import Coquelicot.
From Verif.Model Require Export SvcjMom.
From Verif.Proof Require Import ItoProofs DpolyProofs SrjdCondProofs SrjdIezProofs.
From Verif.Proof Require Export SvcjCondTable.
Import Verif.Model.SvcjCond Verif.Proof.SvcjAna Verif.Proof.SvcjCondProofs Verif.Model.SvcjMom.
Local Open Scope R_scope.

(** ** ascending nested loops *)
Fixpoint ucomp (m : nat) (l : Z) : list (list Z) :=
  match m with
  | O => [[l]]
  | S m' => flat_map (fun n => map (cons n) (ucomp m' (l - n))) (range 0 (l + 1))
  end.
Lemma nestu_ucomp {S} m : forall l acc (body : S -> list Z -> res S) s,
  nestu m l acc body s = foldM (fun s ns => body s (acc ++ ns)) (ucomp m l) s.
Proof.
  induction m as [|m IH]; intros l acc body s; cbn [nestu ucomp].
  - cbn [foldM]. now destruct (body s (acc ++ [l])).
  - rewrite foldM_flat_map. apply foldM_ext. intros n _ s'. rewrite IH, foldM_map.
    apply foldM_ext. intros ns _ s2. now rewrite <- app_assoc.
Qed.
Lemma in_ucomp m : forall l, (0 <= l)%Z -> forall t,
  In t (ucomp m l) <-> length t = S m /\ Forall (fun x => 0 <= x)%Z t /\ sumZ t = l.
Proof.
  induction m as [|m IH]; intros l Hl t; cbn [ucomp].
  - split.
    + intros [<-|[]]. split; [reflexivity|]. split; [repeat constructor; assumption|]. simpl; lia.
    + intros (h1 & h2 & h3). destruct t as [|x [|y t]]; try discriminate. simpl in h3. left. f_equal. lia.
  - rewrite in_flat_map. split.
    + intros (n & Hn & Ht). apply in_range in Hn. apply in_map_iff in Ht. destruct Ht as (t' & <- & Ht).
      apply IH in Ht; [|lia]. destruct Ht as (h1 & h2 & h3). split; [simpl; lia|]. split; [constructor; [lia|assumption]|].
      simpl. lia.
    + intros (h1 & h2 & h3). destruct t as [|x t]; [discriminate|]. apply Forall_cons_iff in h2. destruct h2 as [g1 g2].
      assert (0 <= sumZ t)%Z by (clear -g2; induction g2; simpl; lia). subst l.
      simpl in Hl. exists x. split; [apply in_range; simpl; lia|]. apply in_map. apply IH; [simpl; lia|].
      split; [simpl in h1; lia|]. split; [assumption|]. simpl. lia.
Qed.
Lemma NoDup_ucomp m : forall l, NoDup (ucomp m l).
Proof.
  induction m as [|m IH]; intro l; cbn [ucomp]; [repeat constructor; simpl; tauto|].
  apply NoDup_flat_map.
  - apply NoDup_range.
  - intros x _. apply NoDup_map_inj; [|apply IH]. intros; congruence.
  - intros x y b _ _ Hx Hy. apply in_map_iff in Hx, Hy. destruct Hx as (u & <- & _), Hy as (w & E & _). congruence.
Qed.
Lemma multinomial_ucomp xs m l : (0 <= l)%Z -> length xs = S m ->
  sumR (fun t => IZR (cmb l t) * powprod xs t) (ucomp m l) = sumR (fun x => x) xs ^ Z.to_nat l.
Proof.
  intros Hl Hx. apply multinomial_any; [assumption|apply NoDup_ucomp|]. rewrite Hx. now apply in_ucomp.
Qed.
Lemma adds_nestu {S T} (wf : S -> Prop) (val : T -> S -> R) m l (body : S -> list Z -> res S) g :
  (0 <= l)%Z ->
  (forall ns, length ns = Datatypes.S m -> Forall (fun x => 0 <= x)%Z ns -> sumZ ns = l ->
     adds wf val (fun s => body s ns) (g ns)) ->
  adds wf val (nestu m l [] body) (fun t => sumR (fun ns => g ns t) (ucomp m l)).
Proof.
  intros Hl h s Hs. rewrite nestu_ucomp. simpl app.
  apply (adds_foldM wf val (fun s ns => body s ns)); [|assumption].
  intros ns Hns. apply in_ucomp in Hns; [|assumption]. destruct Hns as (h1 & h2 & h3). now apply h.
Qed.
Lemma E_multinomial_u {Om} (E : (Om -> R) -> R) (HE : expectation E) (xs : Om -> list R) m l :
  (0 <= l)%Z -> (forall w, length (xs w) = S m) ->
  E (fun w => sumR (fun x => x) (xs w) ^ Z.to_nat l)
  = sumR (fun ns => IZR (cmb l ns) * E (fun w => powprod (xs w) ns)) (ucomp m l).
Proof.
  intros Hl Hx.
  rewrite (E_ext E HE _ (fun w => sumR (fun ns => IZR (cmb l ns) * powprod (xs w) ns) (ucomp m l)))
    by (intro w; symmetry; now apply multinomial_ucomp).
  rewrite (E_sumR E HE). apply sumR_ext. intros ns _. apply (E_scal E HE).
Qed.
Lemma comp8 ns l : length ns = 8%nat -> Forall (fun x => 0 <= x)%Z ns -> sumZ ns = l ->
  exists a b c d e f g h, ns = [a; b; c; d; e; f; g; h] /\ (0 <= a)%Z /\ (0 <= b)%Z /\ (0 <= c)%Z /\ (0 <= d)%Z /\
    (0 <= e)%Z /\ (0 <= f)%Z /\ (0 <= g)%Z /\ (0 <= h)%Z /\ l = (a + b + c + d + e + f + g + h)%Z.
Proof.
  intros h1 h2 h3. destruct ns as [|a [|b [|c [|d [|e [|f [|g [|h [|? ?]]]]]]]]]; try discriminate.
  repeat match goal with H : Forall _ (_ :: _) |- _ => inversion H; clear H; subst end.
  exists a, b, c, d, e, f, g, h. simpl in *. repeat split; try assumption; lia.
Qed.

(** ** formal values of the 13 symbols *)
Record x13 := mkX { xe : R; xen : xe <> 0; xt : R; xi : R; xmu : R; xa : R; xth : R; xsg : R; xrho : R;
  xlam : R; xmv : R; xrj : R; xms : R; xss : R }.
Definition vals13 (x : x13) : list R :=
  [xe x; xt x; xi x; xmu x; xa x; xth x; xsg x; xrho x; xlam x; xmv x; xrj x; xms x; xss x].
Definition mon13 (x : x13) : list Z -> R := monx (vals13 x).
Definition v10 (x : x13) : list R := [xe x; xt x; xi x; xa x; xth x; xsg x; xlam x; xmv x; xms x; xss x].
(** an even power of sqrt(1-rho^2) *)
Definition rr (x : x13) (n : Z) : R := pw (1 - xrho x * xrho x) (n / 2).
Definition mon14 (x : x13) (k : list Z) : R := mon13 x (dropat 8 k) * rr x (nthZ k 8).

Definition s13 := [false; true; true; true; true; true; true; true; true; true; true; true; true].
Definition s14 := [false; true; true; true; true; true; true; true; true; true; true; true; true; true].
Definition P13 (d : Z) (k : list Z) : Prop := wfs s13 k /\ (nthZ k 4 <= d)%Z.
Definition P14 (d n : Z) (k : list Z) : Prop := wfs s14 k /\ (2 * nthZ k 4 <= d)%Z /\ nthZ k 8 = n.
Definition P14e (d : Z) (k : list Z) : Prop := wfs s14 k /\ (nthZ k 4 <= d)%Z /\ Z.even (nthZ k 8) = true.

Lemma sum4_prod {A} (f1 f2 f3 f4 : A -> R) l1 l2 l3 l4 :
  sumR (fun i1 => sumR (fun i2 => sumR (fun i3 => sumR (fun i4 => f1 i1 * (f2 i2 * (f3 i3 * f4 i4))) l4) l3) l2) l1
  = sumR f1 l1 * (sumR f2 l2 * (sumR f3 l3 * sumR f4 l4)).
Proof.
  rewrite <- sumR_scal_r. apply sumR_ext. intros i1 _. rewrite <- sumR_scal_r, <- sumR_scal. apply sumR_ext. intros i2 _.
  rewrite <- sumR_scal_r, <- !sumR_scal. apply sumR_ext. intros i3 _. rewrite <- !sumR_scal. apply sumR_ext. intros i4 _. reflexivity.
Qed.

(** the coefficients of the return *)
Definition A1 x := xsg x * xi x / 2 * / xe x.
Definition A2 x := - (xsg x * xi x / 2) + xrho x.
Definition A4 x := xi x / 2 * / xe x.
Definition A5 x := - (xi x / 2) + xrj x.
Definition A7 x := (- (xth x / 2) + xmu x) * xt x.
Definition A8 x := (- (1) + / xe x) * (xa x * xi x / 2).
Definition bval x n1 n2 n3 n4 n5 n7 n8 : R :=
  pw (A1 x) n1 * (pw (A2 x) n2 * (rr x n3 * (pw (A4 x) n4 * (pw (A5 x) n5 * (pw (A7 x) n7 * pw (A8 x) n8))))).

Lemma b_n_spec n1 n2 n3 n4 n5 n6 n7 n8 : (0 <= n1)%Z -> (0 <= n2)%Z -> (0 <= n3)%Z -> (0 <= n4)%Z -> (0 <= n5)%Z ->
  (0 <= n7)%Z -> (0 <= n8)%Z ->
  returns (svcj_b_n n1 n2 n3 n4 n5 n6 n7 n8) (fun q => wfp (P14 (2 * n8) n3) kf14 q /\
    forall x, evp mon14 x q = bval x n1 n2 n3 n4 n5 n7 n8).
Proof.
  intros h1 h2 h3 h4 h5 h7 h8. unfold svcj_b_n.
  pose (f1 := fun x i => IZR (mcomb n2 i) * (pw (- (xsg x * xi x / 2)) i * pw (xrho x) (n2 - i))).
  pose (f2 := fun x i => IZR (mcomb n5 i) * (pw (- (xi x / 2)) i * pw (xrj x) (n5 - i))).
  pose (f3 := fun x i => IZR (mcomb n7 i) * (pw (- (xth x / 2)) i * pw (xmu x) (n7 - i))).
  pose (f4 := fun x i => IZR (mcomb n8 i) * (pw (- (1)) i * pw (/ xe x) (n8 - i))).
  pose (g := fun x => pw (A1 x) n1 * rr x n3 * pw (A4 x) n4 * pw (xt x) n7 * pw (xa x * xi x / 2) n8).
  eapply returns_weaken.
  - apply (adds_run (P14 (2 * n8) n3) mon14 _ (fun x => sumR (fun i1 => sumR (fun i2 => sumR (fun i3 => sumR (fun i4 =>
      g x * (f1 x i1 * (f2 x i2 * (f3 x i3 * f4 x i4)))) (range 0 (n8 + 1))) (range 0 (n7 + 1))) (range 0 (n5 + 1))) (range 0 (n2 + 1)))).
    apply (adds_foldM _ _ _ (fun i1 x => sumR (fun i2 => sumR (fun i3 => sumR (fun i4 =>
      g x * (f1 x i1 * (f2 x i2 * (f3 x i3 * f4 x i4)))) (range 0 (n8 + 1))) (range 0 (n7 + 1))) (range 0 (n5 + 1)))).
    intros i1 Hi1.
    apply (adds_foldM _ _ _ (fun i2 x => sumR (fun i3 => sumR (fun i4 =>
      g x * (f1 x i1 * (f2 x i2 * (f3 x i3 * f4 x i4)))) (range 0 (n8 + 1))) (range 0 (n7 + 1)))).
    intros i2 Hi2.
    apply (adds_foldM _ _ _ (fun i3 x => sumR (fun i4 => g x * (f1 x i1 * (f2 x i2 * (f3 x i3 * f4 x i4)))) (range 0 (n8 + 1)))).
    intros i3 Hi3.
    apply (adds_foldM _ _ _ (fun i4 x => g x * (f1 x i1 * (f2 x i2 * (f3 x i3 * f4 x i4))))).
    intros i4 Hi4. apply in_range in Hi1, Hi2, Hi3, Hi4.
    rewrite !math_comb_ok by lia. cbn [bind]. cbv zeta.
    eapply adds_ext; [apply adds_kv|].
    + unfold P14, s14, nthZ. cbn [wfs nth]. repeat split; lia.
    + intro x. cbv beta. unfold mon14, mon13, vals13, dropat, nthZ. cbn [firstn skipn app monx nth].
      rewrite Q2R_mul, Q2R_qz, Q2R_Frac2 by lia. rewrite sgn1_pw by lia. rewrite !mult_IZR.
      unfold g, f1, f2, f3, f4, A1, A4. rewrite pw_inv_neg.
      replace (n1 + n4 + n8 - i4)%Z with (n1 + n4 + (n8 - i4))%Z by lia.
      assert (hd : forall a b, a / b = a * / b) by (intros; reflexivity). rewrite !hd.
      assert (Hn := inv_neq0 _ (xen x)).
      rewrite !(pow_lemma_pw _ (_ + _) _) by (right; split; lia).
      pws. pwx. ring.
  - intros r (h & hu & ha & hv). split; [split; auto|]. intro x. unfold evp. rewrite hv.
    transitivity (g x * (sumR (f1 x) (range 0 (n2 + 1)) * (sumR (f2 x) (range 0 (n5 + 1)) * (sumR (f3 x) (range 0 (n7 + 1)) * sumR (f4 x) (range 0 (n8 + 1)))))).
    + rewrite <- sum4_prod. rewrite <- sumR_scal. apply sumR_ext. intros i1 _. rewrite <- sumR_scal. apply sumR_ext. intros i2 _.
      rewrite <- sumR_scal. apply sumR_ext. intros i3 _. now rewrite <- sumR_scal.
    + unfold f1, f2, f3, f4. rewrite !binomial_pw by assumption. unfold g, bval, A2, A5, A7, A8. rewrite !(pw_mult (_ + _)) by assumption. ring.
Qed.

(** ** enlarge *)
Definition big (k : list Z) : list Z :=
  [nthZ k 0; nthZ k 1; nthZ k 2; 0; nthZ k 3; nthZ k 4; nthZ k 5; 0; 0; nthZ k 6; nthZ k 7; 0; nthZ k 8; nthZ k 9]%Z.
Lemma enlarge_spec d q : wfp (P10 d) kf_ieii6 q ->
  returns (enlarge q kf14) (fun r => wfp (P14 d 0) kf14 r /\ (zp q -> zp r) /\
    forall x, evp mon14 x r = eval (monx (v10 x)) (items q)).
Proof.
  intros (h1 & h2 & h3). unfold enlarge. rewrite h1.
  replace (indexes kf_ieii6 kf14) with (Ok [0; 1; 2; 4; 5; 6; 9; 10; 12; 13]%nat) by (vm_compute; reflexivity).
  cbn [bind returns]. set (idx := [0; 1; 2; 4; 5; 6; 9; 10; 12; 13]%nat).
  assert (pl : forall k, P10 d k -> place idx k (map (fun _ => 0%Z) kf14) = big k).
  { intros k [W _]. unfold s10 in W. wfs_destruct. reflexivity. }
  pose proof (adds_fold (P14 d 0) mon14 (fun kv : list Z * Q => place idx (fst kv) (map (fun _ => 0%Z) kf14)) (fun kv => snd kv) (items q)) as A.
  assert (Pk : forall x, In x (items q) -> P14 d 0 (place idx (fst x) (map (fun _ => 0%Z) kf14))).
  { intros [k v] Hin. cbn [fst]. pose proof (allk_in _ _ _ _ h3 Hin) as [W D]. rewrite pl by (split; assumption).
    unfold s10 in W. wfs_destruct. unfold P14, big, s14, nthZ in *. cbn [wfs nth] in *. repeat split; try assumption; lia. }
  specialize (A Pk [] (wfl_nil _)). cbn [returns] in A. destruct A as ((U & W) & E).
  split; [split; [reflexivity|split; assumption]|]. split.
  - intro Z0. apply (zl_fold (fun kv : list Z * Q => place idx (fst kv) (map (fun _ => 0%Z) kf14)) (fun kv => snd kv)); [|apply zl_nil].
    intros [k v] Hin. exact (Z0 k v Hin).
  - intro x. specialize (E x). unfold ev in E. unfold evp. cbn [items]. rewrite E. cbn [eval]. rewrite Rplus_0_l.
    rewrite (sumR_eval (monx (v10 x))). apply sumR_ext. intros [k v] Hin. cbn [fst snd].
    pose proof (allk_in _ _ _ _ h3 Hin) as Wk. rewrite pl by assumption. f_equal. destruct Wk as [Wk _]. unfold s10 in Wk. wfs_destruct.
    unfold mon14, mon13, vals13, v10, big, dropat, nthZ, rr. cbn [firstn skipn app monx nth]. change (0 / 2)%Z with 0%Z. rewrite !pw_0. ring.
Qed.

(** ** products *)
Lemma zl_mul {K} `{Key K} ka (l1 l2 : list (K * Q)) : zl l2 -> post (mul_items ka l1 l2) zl.
Proof.
  intro Z2. unfold mul_items. apply (post_foldM _ zl); [apply zl_nil|]. intros s [k1 v1] _ Hs. cbn [fst snd].
  apply (post_foldM _ zl); [assumption|]. intros s2 [k2 v2] Hin Hs2. cbn [fst snd].
  eapply post_bind; [apply post_any|]. intros k _. cbn [post]. apply zl_add; [|assumption].
  rewrite Q2R_mul, (Z2 k2 v2 Hin). ring.
Qed.
Lemma rm_zero_zl {K} (l : list (K * Q)) : zl l -> rm_zero l = [].
Proof.
  induction l as [|[k v] l IH]; intro h; [reflexivity|]. unfold rm_zero in *. cbn [filter snd].
  assert (e : Q2R v = 0) by (apply (h k); now left).
  assert (qzero v = true). { unfold qzero. apply Qeq_bool_iff. apply eqR_Qeq. now rewrite e, Q2R_0. }
  rewrite H. cbn [negb]. apply IH. intros k2 v2 Hin. apply (h k2). now right.
Qed.
Lemma pmul_zp (p q : Poly (list Z)) : zp q -> post (pmul p q) (fun r => items r = []).
Proof.
  intro Z2. unfold pmul, pmul_gen. destruct (is_exact_type p q); [|exact Logic.I].
  eapply post_bind; [now apply zl_mul|]. intros l Hl. cbn [post items]. now apply rm_zero_zl.
Qed.

(** ** the body of the loops *)
Definition m6val (x : x13) (n1 n2 n3 n4 n5 n6 : Z) : R :=
  match moment_ieii6 n1 n2 n3 n4 n5 n6 with Ok q => eval (monx (v10 x)) (items q) | Err _ => 0 end.
Definition tval (n : Z) (ns : list Z) (x : x13) : R :=
  match ns with
  | [n1; n2; n3; n4; n5; n6; n7; n8] => IZR (cmb n ns) * (bval x n1 n2 n3 n4 n5 n7 n8 * m6val x n1 n2 n3 n4 n5 n6)
  | _ => 0
  end.

Lemma P14_prod d1 d2 n k1 k2 : P14 d1 n k1 -> P14 d2 0 k2 ->
  (length k1 <= length k2)%nat /\ P14 (d1 + d2) n (kadd_pure k1 k2) /\ forall x, mon14 x (kadd_pure k1 k2) = mon14 x k1 * mon14 x k2.
Proof.
  intros (w1 & d1' & e1) (w2 & d2' & e2). unfold s14 in w1, w2. wfs_destruct. unfold nthZ in *. cbn [nth] in *. subst.
  split; [cbn [length]; lia|]. split.
  - unfold P14, s14, kadd_pure, kv_at, nthZ. cbn [wfs nth]. keyred. repeat split; lia.
  - intro y. unfold mon14, mon13, vals13, dropat, nthZ, rr. keyred. cbn [firstn skipn app monx nth].
    assert (Hn := xen y). change (0 / 2)%Z with 0%Z. rewrite Z.add_0_r. pws. ring.
Qed.

Lemma body_spec n ns : length ns = 8%nat -> Forall (fun x => 0 <= x)%Z ns -> sumZ ns = n ->
  adds (wfp (P14e n) kf14) (evp mon14) (fun s => svcj_body n s ns) (tval n ns).
Proof.
  intros hl hf hs. destruct (comp8 ns n hl hf hs) as (n1 & n2 & n3 & n4 & n5 & n6 & n7 & n8 & -> & h1 & h2 & h3 & h4 & h5 & h6 & h7 & h8 & en).
  unfold svcj_body. rewrite (comp_comb _ n hf hs). cbn [bind].
  eapply adds_bind; [apply (b_n_spec n1 n2 n3 n4 n5 n6 n7 n8); assumption|]. intros pol1 ((b1 & b2 & b3) & bv).
  assert (D : cj_dom (n1, n2, n3, n4, n5, n6)) by (unfold cj_dom; lia).
  destruct (returns_inv _ _ (moment_ieii6_spec _ _ _ _ _ _ D)) as (q & Eq & (Wq & _) & Z3).
  unfold tval, m6val. rewrite Eq. cbn [bind].
  eapply adds_bind; [rewrite b1; apply (enlarge_spec _ q Wq)|]. intros pol2 ((e1 & e2 & e3) & ez & ev2).
  assert (PM := pmul_sp (P14 (2 * n8) n3) (P14 (deg6 (n1, n2, n3, n4, n5, n6)) 0) (P14 (2 * n8 + deg6 (n1, n2, n3, n4, n5, n6)) n3)
    mon14 mon14 mon14 kf14 pol1 pol2 b1 e1 b3 e3 (P14_prod _ _ _)).
  assert (PZ : post (pmul pol1 pol2) (fun r => Z.odd n3 = true -> items r = [])).
  { destruct (Z.odd n3) eqn:O.
    - pose proof (pmul_zp pol1 pol2 (ez (Z3 eq_refl))) as H. destruct (pmul pol1 pol2); cbn [post] in *; auto.
    - destruct (pmul pol1 pol2); cbn [post]; [discriminate|exact Logic.I]. }
  eapply adds_bind; [exact (post_returns _ _ _ PM PZ)|]. cbv beta. intros r ((Wr & Vr) & Zr).
  assert (We : wfp (P14e n) kf14 r).
  { destruct Wr as (r1 & r2 & r3). split; [assumption|]. split; [assumption|]. intros k Hk.
    destruct (r3 k Hk) as (k1 & k2 & k3). split; [assumption|]. split.
    - unfold deg6 in k2. lia.
    - rewrite k3. destruct (Z.even n3) eqn:Ev; [reflexivity|]. exfalso. rewrite (Zr ltac:(rewrite <- Z.negb_even, Ev; reflexivity)) in Hk. destruct Hk. }
  destruct (rmul_sp (P14e n) mon14 kf14 (qz (cmb n [n1; n2; n3; n4; n5; n6; n7; n8])) r We) as [(g1 & g2 & g3) gv].
  eapply adds_ext; [apply (adds_merge (P14e n) mon14 kf14 _ g1 g3)|].
  intro x. cbv beta. specialize (gv x). unfold evp in gv. rewrite gv, Q2R_qz. f_equal. specialize (Vr x). unfold evp in Vr. rewrite Vr.
  f_equal; [apply bv|apply ev2].
Qed.

(** ** expand_sqrt *)
Lemma expand_spec n q : (0 <= n)%Z -> wfp (P14e n) kf14 q ->
  returns (svcj_expand_sqrt q) (fun r => wfp (P13 n) kf13 r /\ forall x, evp mon13 x r = evp mon14 x q).
Proof.
  intros Hn (h1 & h2 & h3). unfold svcj_expand_sqrt. eapply returns_weaken.
  - apply (adds_run (P13 n) mon13 _ (fun x => sumR (fun kv => Q2R (snd kv) * mon14 x (fst kv)) (items q))).
    apply (adds_foldM _ _ _ (fun kv x => Q2R (snd kv) * mon14 x (fst kv))).
    intros [k v] Hin. cbn [fst snd]. destruct (allk_in _ _ _ _ h3 Hin) as (W & D & Ev).
    cbv zeta. apply Z.even_spec in Ev. destruct Ev as [m Em]. rewrite Em.
    rewrite (Z.mul_comm 2 m), Z.mod_mul, Z.div_mul by lia. cbn [negb Z.eqb].
    assert (Hm : (0 <= m)%Z). { unfold s14 in W. wfs_destruct. unfold nthZ in Em. cbn [nth] in Em. lia. }
    eapply adds_ext.
    + apply (adds_foldM _ _ _ (fun i x => Q2R (qmul (qz (sgn1 i * mcomb m i)) v) * mon13 x (dropat 8 (addat 7 (2 * i) k)))).
      intros i Hi. apply in_range in Hi. rewrite math_comb_ok by lia. cbn [bind]. apply adds_kv.
      unfold s14 in W. wfs_destruct. unfold P13, s13, dropat, nthZ in *. cbn [firstn skipn app wfs addat nth] in *. repeat split; try assumption; lia.
    + intro x. cbv beta. unfold mon14, rr. rewrite Em, (Z.mul_comm 2 m), Z.div_mul by lia.
      replace (1 - xrho x * xrho x) with (- (xrho x * xrho x) + 1) by ring. rewrite <- binomial_pw by assumption.
      rewrite <- !sumR_scal. apply sumR_ext. intros i Hi. apply in_range in Hi. rewrite Q2R_mul, Q2R_qz, mult_IZR, sgn1_pw by lia.
      unfold s14 in W. wfs_destruct. unfold mon13, vals13, dropat. cbn [firstn skipn app addat monx].
      pws. pwx. rewrite ?Rinv_1. ring.
  - intros r (g1 & g2 & g3 & g4). split; [split; auto|]. intro x. unfold evp. rewrite g4. now rewrite (sumR_eval (mon14 x)).
Qed.

Definition mval (n : Z) (x : x13) : R := sumR (fun ns => tval n ns x) (ucomp 7 n).
Definition GoodY (n : Z) (q : Poly (list Z)) : Prop := wfp (P13 n) kf13 q /\ forall x, evp mon13 x q = if (n =? 0)%Z then 1 else mval n x.
Lemma one_good d : (0 <= d)%Z -> wfp (P13 d) kf13 svcj_one /\ forall x, evp mon13 x svcj_one = 1.
Proof.
  intro Hd. split.
  - unfold svcj_one. apply wfp_single. unfold P13, s13, nthZ. cbn [wfs nth]. repeat split; lia.
  - intro x. unfold evp, svcj_one, mon13, vals13. cbn [items eval fst snd monx]. rewrite Q2R_1, !pw_0. ring.
Qed.
Lemma moment_y_spec n : (0 <= n)%Z -> returns (svcj_moment_y n) (GoodY n).
Proof.
  intro Hn. unfold svcj_moment_y, GoodY. destruct (Z.ltb_spec n 0); [lia|]. destruct (Z.eqb_spec n 0).
  - cbn [returns]. now apply one_good.
  - eapply returns_bind.
    + apply (adds_nestu (wfp (P14e n) kf14) (evp mon14) 7 n (svcj_body n) (tval n)); [assumption|intros ns a b c; now apply body_spec|apply wfp_nil].
    + intros p (Wp & Vp). eapply returns_weaken; [now apply (expand_spec n)|]. intros r (Wr & Vr). split; [assumption|].
      intro x. rewrite Vr, Vp. unfold evp. cbn [items eval]. unfold mval. ring.
Qed.

(** ** central moments from moments *)
Definition Q13 (k : list Z) : Prop := wfs s13 k.
Lemma Q13_add k1 k2 : Q13 k1 -> Q13 k2 -> (length k1 <= length k2)%nat /\ Q13 (kadd_pure k1 k2) /\
  forall x, mon13 x (kadd_pure k1 k2) = mon13 x k1 * mon13 x k2.
Proof.
  intros w1 w2. unfold Q13, s13 in w1, w2. wfs_destruct. split; [cbn [length]; lia|]. split.
  - unfold Q13, s13, kadd_pure. cbn [wfs]. keyred. repeat split; lia.
  - intro y. unfold mon13, vals13. keyred. cbn [monx]. assert (Hn := xen y). pws. ring.
Qed.
Definition cval (mv : Z -> x13 -> R) (n : Z) (x : x13) : R :=
  sumR (fun i => IZR (mcomb n i) * pw (-1) i * pw (mv 1%Z x) i * mv (n - i)%Z x) (range 0 (n + 1)).
Lemma central_spec mom one mean kf mv n : (0 <= n)%Z ->
  (forall m, (0 <= m <= n)%Z -> returns (mom m) (fun q => wfp Q13 kf q /\ forall x, evp mon13 x q = mv m x)) ->
  (wfp Q13 kf one /\ forall x, evp mon13 x one = 1) -> (wfp Q13 kf mean /\ forall x, evp mon13 x mean = mv 1%Z x) ->
  returns (central_loop mom one mean kf n) (fun q => wfp Q13 kf q /\ forall x, evp mon13 x q = cval mv n x).
Proof.
  intros Hn Hmom [W1 E1] [Wm Em]. unfold central_loop. eapply returns_weaken.
  - apply (adds_foldM (wfp Q13 kf) (evp mon13) _ (fun i x => IZR (mcomb n i) * pw (-1) i * pw (mv 1%Z x) i * mv (n - i)%Z x)); [|apply wfp_nil].
    intros i Hi. apply in_range in Hi. rewrite math_comb_ok by lia. cbn [bind].
    assert (B : returns (if (i =? 0)%Z then Ok one else ppow mean i)
      (fun r => wfp Q13 kf r /\ forall x, evp mon13 x r = mv 1%Z x ^ Z.to_nat i)).
    { destruct (Z.eqb_spec i 0) as [->|i0].
      - cbn [returns]. split; [assumption|]. intro; rewrite E1; reflexivity.
      - eapply returns_weaken; [apply (ppow_gr (fun _ => Q13) mon13 kf 0%Z mean i); [|exact Wm|lia]|].
        + intros _ _. apply Q13_add.
        + intros r [h1 h2]. split; [exact h1|]. intro v. rewrite h2, Em. reflexivity. }
    eapply adds_bind; [exact B|]. intros pol1 [W E].
    eapply adds_bind; [apply (Hmom (n - i)%Z); lia|]. intros q [Wq Eq].
    eapply adds_bind; [apply (pmul_sp Q13 Q13 Q13 mon13 mon13 mon13 kf pol1 q);
      [apply W|apply Wq|apply W|apply Wq|apply Q13_add]|]. intros pq [Wpq Epq].
    destruct (rmul_sp Q13 mon13 kf (qz (mcomb n i * sgn1 i)) pq Wpq) as [Wr Er].
    eapply adds_ext; [apply (adds_merge Q13 mon13 kf); [apply Wr|apply Wr]|].
    intro v. cbv beta. change (eval (mon13 v) (items (rmul (qz (mcomb n i * sgn1 i)) pq)))
      with (evp mon13 v (rmul (qz (mcomb n i * sgn1 i)) pq)). rewrite Er, Epq, E, Eq, Q2R_qz, mult_IZR, sgn1_pw, (pw_Zpos (mv _ _)) by lia. ring.
  - intros p [W E]. split; [assumption|]. intro v. rewrite E. unfold evp at 1; cbn [items eval]. unfold cval. ring.
Qed.
(** for any linear functional with the moments [mv] this is the central moment *)
Lemma cval_E {Om} (E : (Om -> R) -> R) (HE : expectation E) (Y : Om -> R) mv n x : (0 <= n)%Z ->
  (forall m, (0 <= m <= n)%Z -> E (fun w => Y w ^ Z.to_nat m) = mv m x) ->
  cval mv n x = E (fun w => (Y w - mv 1%Z x) ^ Z.to_nat n).
Proof.
  intros Hn h. rewrite (E_ext E HE _ (fun w => sumR (fun i => (IZR (mcomb n i) * pw (-1) i * pw (mv 1%Z x) i) * Y w ^ Z.to_nat (n - i)) (range 0 (n + 1)))).
  - rewrite (E_sumR E HE). apply sumR_ext. intros i Hi. apply in_range in Hi. rewrite (E_scal E HE), h by lia. reflexivity.
  - intro w. replace (Y w - mv 1%Z x) with (- mv 1%Z x + Y w) by ring. rewrite <- pw_Zpos, <- binomial_pw by lia.
    apply sumR_ext. intros i Hi. apply in_range in Hi. rewrite pw_opp, (pw_Zpos (Y w)) by lia. ring.
Qed.
Definition mvalue (n : Z) (x : x13) : R := if (n =? 0)%Z then 1 else mval n x.
Lemma P13_Q13 d kf p : wfp (P13 d) kf p -> wfp Q13 kf p.
Proof. intros (a & b & c). split; [assumption|]. split; [assumption|]. intros k Hk. apply (c k Hk). Qed.
Lemma cmoment_y_spec n : (0 <= n)%Z ->
  returns (svcj_cmoment_y n) (fun q => wfp Q13 kf13 q /\ forall x, evp mon13 x q = if (n =? 0)%Z then 1 else cval mvalue n x).
Proof.
  intro Hn. unfold svcj_cmoment_y. eapply returns_bind; [apply (moment_y_spec 1); lia|]. intros mean [Wm Vm].
  destruct (one_good 0 ltac:(lia)) as [W1 V1]. apply P13_Q13 in W1, Wm.
  destruct (Z.ltb_spec n 0); [lia|]. destruct (Z.eqb_spec n 0).
  - cbn [returns]. split; assumption.
  - apply central_spec; [assumption| |split; assumption|split; assumption].
    intros m Hm. eapply returns_weaken; [apply (moment_y_spec m); lia|]. intros q [Wq Vq]. split; [now apply P13_Q13 in Wq|exact Vq].
Qed.
