(** Properties C25-C26: itos_mom.py. *)
From Coq Require Import Reals Lra.
From Coquelicot Require Import Coquelicot.
From Verif.Spec Require Import Names.
From Verif.Proof Require Import ItosTable.
Local Open Scope R_scope.

(** ** C25 *)
(** value of a monomial of int_et: (n1k1+n2k2)^{-i} e^{(ak1+bk2)t} t^j *)
Definition et2mon (k1 k2 t : R) (k : Z * Z * Z * ((Z * Z) * Z)) : R :=
  let '((n1, n2, i), ((a, b), j)) := k in
  powerRZ (/ (IZR n1 * k1 + IZR n2 * k2)) i * exp ((IZR a * k1 + IZR b * k2) * t) * powerRZ t j.

(** missing: n1 + n2 = 0 with n1 <> 0, see the next theorem *)
Theorem C25_int_et_partial : forall (n1 n2 m : Z), (0 <= m)%Z ->
  exists p, int_et2 n1 n2 m = Ok p /\ keyfor p = nm_et2 /\
    forall k1 k2 t, (n1 = 0 /\ n2 = 0)%Z \/ ((n1 + n2)%Z <> 0%Z /\ IZR n1 * k1 + IZR n2 * k2 <> 0) ->
      is_RInt (fun s => exp ((IZR n1 * k1 + IZR n2 * k2) * s) * s ^ Z.to_nat m) 0 t
        (eval (et2mon k1 k2 t) (items p)).
Proof.
  intros n1 n2 m Hm. pose proof (int_et2_spec n1 n2 m Hm) as h. apply returns_inv in h.
  destruct h as (p & Ep & h1 & h2 & _ & h3). exists p. split; [assumption|]. split; [assumption|].
  intros k1 k2 t Hk. destruct (h3 k1 k2 Hk) as [z d].
  apply (is_RInt_ext (fun s => exp ((IZR n1 * k1 + IZR n2 * k2) * s) * pw s m)).
  { intros s _. now rewrite pw_Zpos by assumption. }
  change (et2mon k1 k2 t) with (emon k1 k2 t). 
  replace (eval (emon k1 k2 t) (items p)) with (eval (emon k1 k2 t) (items p) - eval (emon k1 k2 0) (items p)) by (rewrite z; ring).
  apply (RInt_of_derive (fun t => eval (emon k1 k2 t) (items p))); [exact d|].
  intro s. apply continuous_Rmult.
  - apply continuous_Rexp, continuous_Rmult; [apply continuous_Rconst|apply continuous_Rid].
  - eapply continuous_of_derive, (is_derive_pw (fun t => t)); [apply is_derive_Rid|now right].
Qed.

(** int_et takes n1 + n2 = 0 for n1 = n2 = 0: it returns the integral of s^m *)
Theorem C25_opposite : forall (n1 m : Z), (0 <= m)%Z ->
  exists p, int_et2 n1 (- n1) m = Ok p /\ forall k1 k2 t,
    eval (et2mon k1 k2 t) (items p) = / (IZR m + 1) * t ^ Z.to_nat (m + 1).
Proof.
  intros n1 m Hm. unfold int_et2. destruct (Z.ltb_spec m 0); [lia|]. rewrite Z.add_opp_diag_r, Z.eqb_refl. cbn [andb negb].
  assert (E0 : forall k1 k2, 0 * k1 + 0 * k2 = 0) by (intros; ring).
  destruct (Z.eqb_spec m 0) as [->|Hm0]; cbn [andb negb]; eexists; (split; [reflexivity|]); intros k1 k2 t;
    cbn [items]; rewrite eval_add_kv; cbn [eval et2mon].
  - rewrite E0, Rmult_0_l, exp_0. unfold Q2R. simpl. field.
  - rewrite Q2R_Frac by lia. rewrite E0, Rmult_0_l, exp_0, plus_IZR. cbn [powerRZ].
    replace (powerRZ t (m + 1)) with (t ^ Z.to_nat (m + 1)) by (symmetry; apply pw_Zpos; lia).
    field. rewrite <- plus_IZR. apply not_0_IZR. lia.
Qed.
Theorem C25_int_et_refuted : exists n1 n2 m : Z, (0 <= m)%Z /\
  exists p, int_et2 n1 n2 m = Ok p /\
    forall k1 k2 t, 0 < t -> IZR n1 * k1 + IZR n2 * k2 <> 0 ->
      ~ is_RInt (fun s => exp ((IZR n1 * k1 + IZR n2 * k2) * s) * s ^ Z.to_nat m) 0 t
        (eval (et2mon k1 k2 t) (items p)).
Proof.
  exists 1%Z, (-1)%Z, 0%Z. split; [lia|]. destruct (C25_opposite 1 0 (Z.le_refl 0)) as (p & E & V).
  exists p. split; [exact E|]. intros k1 k2 t Ht Hn HI. rewrite V in HI. clear V E.
  set (n := IZR 1 * k1 + IZR (-1) * k2) in *.
  assert (HI2 : is_RInt (fun s => exp (n * s) * s ^ Z.to_nat 0) 0 t (exp (n * t) / n - exp (n * 0) / n)).
  { apply (RInt_of_derive (fun t => exp (n * t) / n)).
    - intro s. eapply is_derive_val; [apply (is_derive_Rscal_r (fun u => exp (n * u)) (/ n)), is_derive_Rexp, (is_derive_lin n)|].
      simpl. field. exact Hn.
    - intro s. apply continuous_Rmult; [apply continuous_Rexp, continuous_Rmult; [apply continuous_Rconst|apply continuous_Rid]|].
      apply continuous_Rconst. }
  pose proof (is_RInt_uniq _ _ _ _ _ HI HI2) as E. rewrite Rmult_0_r, exp_0 in E.
  replace (/ (IZR 0 + 1) * t ^ Z.to_nat (0 + 1)) with t in E by (simpl; field).
  assert (E' : exp (n * t) = 1 + n * t).
  { apply (f_equal (fun x => x * n)) in E. unfold Rdiv in E. rewrite Rmult_minus_distr_r, !Rmult_assoc, Rinv_l in E by assumption. lra. }
  pose proof (exp_ineq1 (n * t) (Rmult_integral_contrapositive_currified _ _ Hn (Rgt_not_eq _ _ Ht))). lra.
Qed.
Theorem C25_negative : forall n1 n2 m, (m < 0)%Z -> int_et2 n1 n2 m = Err ValueError.
Proof. intros n1 n2 m Hm. unfold int_et2. destruct (Z.ltb_spec m 0); [reflexivity|lia]. Qed.
Example C25_example : int_et2 2 1 1 = Ok (mkPoly
   [((2, 1, 1, ((2, 1), 1)), 1%Q); ((2, 1, 2, ((2, 1), 0)), (-1)%Q); ((2, 1, 2, ((0, 0), 0)), 1%Q)]%Z nm_et2) /\
  IZR 2 * 1 + IZR 1 * 3 <> 0.
Proof. split; [reflexivity|simpl; lra]. Qed.

(** ** C26 *)
(** no exception for non-negative orders; all keys carry the exponents n4, n6 of e^{k1(n-1)h}, e^{k2(n-1)h} *)
Theorem C26_never_raises : forall a b c d e : Z,
  (0 <= a)%Z -> (0 <= b)%Z -> (0 <= c)%Z -> (0 <= d)%Z -> (0 <= e)%Z ->
  exists q, moment_IEI_IEII a b c d e = Ok q /\ keyfor q = nm_itos /\
    forall k v, In (k, v) (items q) ->
      let '(t0, (n46, (_, x))) := k in
      n46 = (a, c) /\ t0 <> [] /\ (forall f, In f t0 -> (0 <= snd f)%Z) /\ length x = 7%nat /\ Forall (fun z => (0 <= z)%Z) x.
Proof.
  intros a b c d e ha hb hc hd he. pose proof (moment_IEI_IEII_spec a b c d e) as h.
  apply returns_inv in h; [|unfold ito2_dom; auto]. destruct h as (q & E & (h1 & h2 & h3) & _).
  exists q. split; [assumption|]. split; [assumption|]. intros k v Hin. pose proof (allk_in _ _ k v h3 Hin) as W.
  destruct k as (t0 & ((a' & b') & (j & y))). destruct W as ((W1 & W2) & -> & -> & W & _). split; [reflexivity|].
  split; [assumption|]. split; [now apply Forall_forall|].
  wfs_destruct. split; [reflexivity|]. repeat (apply Forall_cons; [assumption|]). apply Forall_nil.
Qed.
Theorem C26_negative_total : forall a b c d e : Z, (a + b + c + d + e < 0)%Z -> moment_IEI_IEII a b c d e = Err NameError.
Proof. intros. unfold moment_IEI_IEII. destruct (Z.ltb_spec (a + b + c + d + e) 0); [reflexivity|lia]. Qed.

(** the documented equations determine the moments *)
Theorem C26_solution_exists : forall p : par2, exists M, ito2_moments p M.
Proof.
  intro p. eexists. apply (vsol_exists ito2_dom (ito2_sys p) ito2_init (fun i => Z.to_nat (ord5 i)) (ito2_tri p) (ito2_cont p)).
Qed.
Theorem C26_unique : forall (p : par2) M N, ito2_moments p M -> ito2_moments p N ->
  forall i, ito2_dom i -> forall t, 0 <= t -> M i t = N i t.
Proof.
  intros p M N. apply (vsol_unique ito2_dom (ito2_sys p) ito2_init (fun i => Z.to_nat (ord5 i)) (ito2_tri p)).
Qed.

(** the index vectors for which the value is right: total order at most 3 without a mixed third power of
    one factor, or powers of one IEi alone times at most one other factor *)
Definition itos_good (i : ito2_idx) : Prop :=
  let '(a, b, c, d, e) := i in
  (0 <= a /\ 0 <= b /\ 0 <= c /\ 0 <= d /\ 0 <= e)%Z /\
  ((a + b + c + d + e <= 3 /\ (a + b <= 2 \/ a = 0 \/ b = 0) /\ (c + d <= 2 \/ c = 0 \/ d = 0))
   \/ (b = 0 /\ c + d + e <= 1) \/ (d = 0 /\ a + b + e <= 1))%Z.

Lemma itos_good_gdom i : itos_good i <-> gdom i.
Proof. destruct i as ((((a & b) & c) & d) & e). unfold itos_good, gdom, ito2_dom. tauto. Qed.

(** missing: all other index vectors; the equation fails there, see C26_refuted *)
Theorem C26_moments_partial : forall a b c d e : Z, itos_good (a, b, c, d, e) ->
  exists q, moment_IEI_IEII a b c d e = Ok q /\ keyfor q = nm_itos /\
    forall (p : par2) M, qk1 p <> 0 -> qk2 p <> 0 -> ito2_moments p M ->
      forall t, 0 <= t -> eval (smon p t) (items q) = M (a, b, c, d, e) t.
Proof.
  intros a b c d e G. pose proof (moment_IEI_IEII_spec a b c d e) as h.
  apply returns_inv in h; [|apply G]. destruct h as (q & E & (h1 & _) & h). exists q. split; [assumption|]. split; [assumption|].
  intros p M Hk1 Hk2 HM t Ht. apply itos_good_gdom in G. destruct (h G) as [_ V]. symmetry. apply V; [now split| |assumption].
  intros i Hi. apply HM, gdom_dom, Hi.
Qed.

(** on these indices the values themselves satisfy the documented recursive equation *)
Theorem C26_recursion_partial : forall p : par2, qk1 p <> 0 -> qk2 p <> 0 ->
  forall i, itos_good i -> forall t, 0 <= t ->
    is_RInt (lin_rhs (ito2_sys p) (itos_val p) i) 0 t (itos_val p i t - ito2_init i).
Proof.
  intros p Hk1 Hk2 i Hi t Ht. destruct (C26_solution_exists p) as [M HM].
  assert (E : forall j, itos_good j -> forall s, 0 <= s -> M j s = itos_val p j s).
  { intros ((((a & b) & c) & d) & e) Hj s Hs. unfold itos_val.
    destruct (C26_moments_partial a b c d e Hj) as (q & -> & _ & V). symmetry. now apply V. }
  rewrite <- (E i Hi t Ht). eapply is_RInt_ext; [|apply HM; [apply gdom_dom, itos_good_gdom; exact Hi|assumption]].
  intros s Hs. rewrite Rmin_left in Hs by assumption. apply sumR_ext. intros [c j] Hin. cbn [fst snd]. f_equal.
  apply E; [|lra]. apply ito2_refs in Hin. apply itos_good_gdom. apply itos_good_gdom in Hi. exact (refs2_gdom i j Hi (proj1 Hin)).
Qed.

(** moment_IEI_IEII(2,1,0,0,0) lacks the contribution n4 n5 sigma1 int E[IE1^2] ds of the pair (IE1, I1) *)
Theorem C26_missing_term : exists q, moment_IEI_IEII 2 1 0 0 0 = Ok q /\
  forall (p : par2) M, qk1 p <> 0 -> qk2 p <> 0 -> ito2_moments p M -> forall t, 0 <= t ->
    is_RInt (fun s => 2 * qsg1 p * M (2, 0, 0, 0, 0)%Z s) 0 t (M (2, 1, 0, 0, 0)%Z t - eval (smon p t) (items q)).
Proof.
  pose proof moment_21 as h. apply returns_inv in h. destruct h as (q & E & V). exists q. split; [exact E|].
  intros p M h1 h2. apply V. now split.
Qed.
Theorem C26_refuted : exists a b c d e : Z, ito2_dom (a, b, c, d, e) /\
  exists q, moment_IEI_IEII a b c d e = Ok q /\
    forall (p : par2) M t, 0 < qk1 p -> qk2 p <> 0 -> 0 < qv1 p -> 0 <= qth1 p -> 0 < qsg1 p -> 0 < t ->
      ito2_moments p M -> eval (smon p t) (items q) <> M (a, b, c, d, e) t.
Proof.
  exists 2%Z, 1%Z, 0%Z, 0%Z, 0%Z. split; [unfold ito2_dom; lia|].
  destruct C26_missing_term as (q & E & V). exists q. split; [exact E|].
  intros p M t Hk1 Hk2 Hv Hth Hsg Ht HM Eq. pose proof (V p M ltac:(lra) Hk2 HM t (Rlt_le _ _ Ht)) as h.
  rewrite Eq, Rminus_eq_0 in h.
  pose proof (moment_IEI_IEII_spec 2 0 0 0 0 ltac:(unfold ito2_dom; lia)) as hs. apply returns_inv in hs.
  destruct hs as (q2 & _ & _ & hs). destruct hs as [(_ & _ & W & _) hs]; [unfold gdom, ito2_dom; lia|].
  assert (V3 : forall s, 0 <= s -> eval (smon p s) (items q2) = M (2, 0, 0, 0, 0)%Z s).
  { intros s Hs. symmetry. apply hs; [split; lra| |assumption]. intros i Hi. apply HM, gdom_dom, Hi. }
  assert (h2 : is_RInt (fun s => 2 * qsg1 p * eval (smon p s) (items q2)) 0 t 0).
  { eapply is_RInt_ext; [|exact h]. intros s Hs. rewrite Rmin_left in Hs by lra. cbn beta. rewrite V3 by lra. reflexivity. }
  assert (P : 0 < RInt (fun s => 2 * qsg1 p * eval (smon p s) (items q2)) 0 t).
  { apply RInt_gt_0; [assumption| |].
    - intros s Hs. rewrite V3 by lra. apply Rmult_lt_0_compat; [lra|]. apply (IE2_pos p M HM); assumption || lra.
    - intros s _. apply continuous_Rmult; [apply continuous_Rconst|].
      apply (eval_cont sok2 smon sP sP_cont _ _ W p). split; lra. }
  rewrite (is_RInt_unique _ _ _ _ h2) in P. lra.
Qed.

Theorem C26_recursion_refuted : exists p : par2, qk1 p <> 0 /\ qk2 p <> 0 /\ ~ ito2_moments p (itos_val p).
Proof.
  exists (mkPar2 1 1 0 1 1 1 1 1 1). cbn [qk1 qk2]. split; [lra|]. split; [lra|]. intro HM.
  destruct C26_refuted as (a & b & c & d & e & _ & q & E & V).
  refine (V _ _ 1 _ _ _ _ _ _ HM _); cbn [qk1 qk2 qv1 qth1 qsg1]; try lra. unfold itos_val. now rewrite E.
Qed.

(** int_mIEI_IEII multiplies by e^{m ki s} (calendar time s0 + s) and integrates: for every polynomial
    whose keys carry the exponents (a, b) of e^{k1 s0}, e^{k2 s0} *)
Theorem C26_int_mIEI_IEII : forall (i m a b : Z) (p : par2) (n : ito2_idx) (C : S_cache) (q : Poly skey),
  (i = 1 \/ i = 2)%Z -> cget n C = Ok q ->
  (forall k v, In (k, v) (items q) -> let '(t0, (ab, ((j1, j2), x))) := k in
     t0 <> [] /\ (forall f, In f t0 -> (0 <= snd f)%Z) /\ ab = (a, b) /\ length x = 7%nat /\ Forall (fun z => (0 <= z)%Z) x /\
     let n1 := if (i =? 1)%Z then (j1 + m)%Z else j1 in let n2 := if (i =? 1)%Z then j2 else (j2 + m)%Z in
     ((n1 = 0 /\ n2 = 0)%Z \/ ((n1 + n2)%Z <> 0%Z /\ IZR n1 * qk1 p + IZR n2 * qk2 p <> 0))) ->
  exists r, int_mIEI_IEII i m n C = Ok r /\ forall t, 0 <= t ->
    is_RInt (fun s => exp (IZR m * ((if (i =? 1)%Z then qk1 p else qk2 p) * (qs0 p + s))) * eval (smon p s) (items q)) 0 t
      (eval (smon p t) (items r)).
Proof.
  intros i m a b p n C q Hi EC Hq. unfold int_mIEI_IEII. rewrite EC. cbn [bind].
  set (L := fold_right Z.max 0%Z (map (fun kv : skey * Q => let '(_, (_, (_, x))) := fst kv in (nthZ x 1 + nthZ x 4)%Z) (items q))).
  pose proof (int_ms_val (fun p' => p' = p) p i m a b L (fun _ _ => True) (fun _ _ => True) q eq_refl) as h.
  assert (A : forall k v, In (k, v) (items q) -> swf a b L k).
  { intros k v Hin. pose proof (Hq k v Hin) as Hk. destruct k as (t0 & (ab & ((j1 & j2) & x))).
    destruct Hk as (h1 & h2 & -> & h4 & h5 & _). split; [split; [assumption|now apply Forall_forall]|].
    do 2 (split; [reflexivity|]). split.
    - destruct x as [|y0 [|y1 [|y2 [|y3 [|y4 [|y5 [|y6 [|? ?]]]]]]]]; try discriminate.
      repeat match goal with h : Forall _ (_ :: _) |- _ => inversion h; clear h; subst end. cbn [wfs]. repeat split; assumption.
    - unfold L. clear -Hin. induction (items q) as [|[k' v'] r IH]; [destruct Hin|]. cbn [map fold_right fst].
      destruct Hin as [E|Hin]; [inversion E; subst; lia|]. specialize (IH Hin). lia. }
  eapply returns_inv in h; cycle 1.
  - intros k Hk. apply in_map_iff in Hk. destruct Hk as ((k' & v) & E & Hin). cbn [fst] in E; subst k'.
    split; [exact (A k v Hin)|]. split; [destruct k as (? & (? & ((? & ?) & ?))); exact Logic.I|].
    intros p' ->. pose proof (Hq k v Hin) as Hk. destruct k as (t0 & (ab & ((j1 & j2) & x))).
    destruct Hk as (_ & _ & _ & _ & _ & Hk). unfold snice, et2_ok, e4, e6.
    destruct (Z.eqb_spec i 1); [replace (j2 + 0)%Z with j2 by lia|replace (j1 + 0)%Z with j1 by lia]; exact Hk.
  - intros; split; exact Logic.I.
  - destruct h as (r & E & _ & _ & _ & V). exists r. split; [exact E|]. intros t Ht.
    destruct (V p eq_refl) as [z d].
    replace (eval (smon p t) (items r)) with (eval (smon p t) (items r) - eval (smon p 0) (items r)) by (rewrite z; ring).
    apply (RInt_of_derive (fun t => eval (smon p t) (items r))); [exact d|].
    intro s. apply continuous_Rmult.
    + apply continuous_Rexp, continuous_Rmult; [apply continuous_Rconst|]. apply continuous_Rmult; [apply continuous_Rconst|].
      apply continuous_Rplus; [apply continuous_Rconst|apply continuous_Rid].
    + apply (eval_cont (fun _ => True) smon (fun _ : unit => swf a b L) (fun _ k W p _ => smon_cont a b L k W p) tt); [|exact Logic.I].
      intros k Hk. apply in_map_iff in Hk. destruct Hk as ((k' & v) & E2 & Hin). cbn [fst] in E2; subst k'. exact (A k v Hin).
Qed.

Example C26_example : itos_good (1, 0, 2, 0, 0)%Z /\ itos_good (5, 0, 0, 1, 0)%Z /\
  match moment_IEI_IEII 1 1 0 0 1 with Ok q => items q = [] | Err _ => False end /\
  match moment_IEI_IEII 3 0 0 0 0 with Ok q => length (items q) = 10%nat | Err _ => False end.
Proof. split; [unfold itos_good; lia|]. split; [unfold itos_good; lia|]. split; reflexivity. Qed.

Print Assumptions C25_int_et_partial. Print Assumptions C25_int_et_refuted. Print Assumptions C25_opposite.
Print Assumptions C26_never_raises. Print Assumptions C26_moments_partial. Print Assumptions C26_recursion_partial.
Print Assumptions C26_refuted. Print Assumptions C26_recursion_refuted. Print Assumptions C26_missing_term. Print Assumptions C26_int_mIEI_IEII.
