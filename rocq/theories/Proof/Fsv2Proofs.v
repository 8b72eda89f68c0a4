(** Proofs about mdl_2fsv: moments, central moments, covariances. *)
From Coq Require Import Reals Lra.
From Verif.Spec Require Export Fsv2.
From Verif.Model Require Export Fsv2.
From Verif.Proof Require Export MonTac ItoProofs ItosTable Fsv1Proofs.
Local Open Scope R_scope.

(** ** the generic product loop *)
Section Gloop.
Context {K1 K2 K3 : Type} `{Key K1} `{Key K3} {T : Type}.
Variables (P1 : K1 -> Prop) (P2 : K1 -> K2 -> Prop) (P3 : K3 -> Prop).
Variables (mon3 : T -> K3 -> R) (rest : T -> K1 -> R) (m2 : T -> K1 -> K2 -> R) (S : T -> K1 -> R).
Variables (sub : K1 -> res (Poly K2)) (mk : K1 -> K2 -> res K3).
Hypothesis Hsub : forall k1, P1 k1 -> returns (sub k1) (fun q => allk (P2 k1) (items q) /\
  forall t, eval (m2 t k1) (items q) = S t k1).
Hypothesis Hmk : forall k1 k2, P1 k1 -> P2 k1 k2 -> returns (mk k1 k2) (fun k => P3 k /\
  forall t, mon3 t k = rest t k1 * m2 t k1 k2).

Lemma gloop_adds (c : R) (cf : Q -> Q -> Q) (l : list (K1 * Q)) :
  (forall v1 v2, Q2R (cf v1 v2) = c * Q2R v1 * Q2R v2) -> allk P1 l ->
  adds (wfl P3) (ev mon3) (gloop sub mk cf l)
    (fun t => c * eval (fun k => rest t k * S t k) l).
Proof.
  intros Hc A. unfold gloop. eapply adds_ext.
  - apply (adds_foldM (wfl P3) (ev mon3) _ (fun kv t => c * (Q2R (snd kv) * (rest t (fst kv) * S t (fst kv))))).
    intros [k1 v1] Hin. cbn [fst snd]. pose proof (allk_in P1 l k1 v1 A Hin) as H1.
    eapply adds_bind; [apply (Hsub k1 H1)|]. intros q [Aq Eq]. eapply adds_ext.
    + apply (adds_foldM (wfl P3) (ev mon3) _ (fun kv2 t => Q2R (cf v1 (snd kv2)) * (rest t k1 * m2 t k1 (fst kv2)))).
      intros [k2 v2] Hin2. cbn [fst snd]. pose proof (allk_in _ _ k2 v2 Aq Hin2) as H2.
      eapply adds_bind; [apply (Hmk k1 k2 H1 H2)|]. intros k [Pk Ek].
      eapply adds_ext; [apply (adds_kv P3 mon3); exact Pk|]. intro t. cbv beta. rewrite Ek. reflexivity.
    + intro t. cbv beta. rewrite <- Eq, sumR_eval. rewrite <- !sumR_scal. apply sumR_ext. intros [k2 v2] _. cbn [fst snd].
      rewrite Hc. ring.
  - intro t. cbv beta. rewrite sumR_scal. f_equal. now rewrite sumR_eval.
Qed.
Lemma gpoly_sp kf (p : Poly K1) : allk P1 (items p) ->
  returns (gpoly sub mk kf p) (fun r => wfp P3 kf r /\
    forall t, evp mon3 t r = eval (fun k => rest t k * S t k) (items p)).
Proof.
  intro A. unfold gpoly. eapply returns_weaken.
  - apply (adds_run P3 mon3 (gloop sub mk qmul (items p)) (fun t => 1 * eval (fun k => rest t k * S t k) (items p))).
    apply gloop_adds; [|exact A]. intros. rewrite Q2R_mul. ring.
  - intros r (h1 & h2 & h3 & h4). split; [split; auto|]. intro t. unfold evp. rewrite h4. ring.
Qed.
End Gloop.

Lemma eval_scal_r {K} (f : K -> R) (c : R) (l : list (K * Q)) : eval (fun k => f k * c) l = eval f l * c.
Proof. rewrite !sumR_eval, <- sumR_scal_r. apply sumR_ext. intros [k v] _. cbn [fst snd]. ring. Qed.

(** ** products of denominators *)
Lemma tt_mul_sp d2 : forall d1, dok d1 -> Forall (fun f : Z * Z * Z => (0 <= snd f)%Z) d2 ->
  returns (tt_mul d1 d2) (fun d => dok d /\ forall k1 k2, denv k1 k2 d = denv k1 k2 d1 * denv k1 k2 d2).
Proof.
  induction d2 as [|[[n1 n2] i] d2 IH]; intros d1 H1 H2; unfold tt_mul; cbn [foldM].
  - cbn [returns]. split; [assumption|]. intros. cbn [denv]. ring.
  - apply Forall_cons_iff in H2. destruct H2 as [Hi H2]. cbn [snd] in Hi.
    destruct (tmul_sp n1 n2 i d1 Hi H1) as (E1 & D1 & V1). rewrite E1. cbn [bind].
    eapply returns_weaken; [apply (IH _ D1 H2)|]. intros d [Dd Vd]. split; [assumption|].
    intros. rewrite Vd, V1. cbn [denv]. unfold pw. ring.
Qed.

(** ** compositions with 7 and 8 parts *)
Lemma comp7 ns l : length ns = 7%nat -> Forall (fun x => 0 <= x)%Z ns -> sumZ ns = l ->
  exists a b c d e g i, ns = [a; b; c; d; e; g; i] /\ ((0 <= a /\ 0 <= b /\ 0 <= c /\ 0 <= d /\ 0 <= e /\ 0 <= g /\ 0 <= i) /\
    l = a + b + c + d + e + g + i)%Z.
Proof.
  intros h1 h2 h3. do 7 (destruct ns as [|? ns]; [discriminate|]). destruct ns; [|discriminate].
  repeat match goal with H : Forall _ (_ :: _) |- _ => apply Forall_cons_iff in H; destruct H end.
  do 7 eexists. split; [reflexivity|]. cbn [sumZ] in h3. repeat split; try assumption. simpl in h3. lia.
Qed.
Lemma comp8 ns l : length ns = 8%nat -> Forall (fun x => 0 <= x)%Z ns -> sumZ ns = l ->
  exists a b c d e g i j, ns = [a; b; c; d; e; g; i; j] /\ ((0 <= a /\ 0 <= b /\ 0 <= c /\ 0 <= d /\ 0 <= e /\ 0 <= g /\ 0 <= i /\ 0 <= j) /\
    l = a + b + c + d + e + g + i + j)%Z.
Proof.
  intros h1 h2 h3. do 8 (destruct ns as [|? ns]; [discriminate|]). destruct ns; [|discriminate].
  repeat match goal with H : Forall _ (_ :: _) |- _ => apply Forall_cons_iff in H; destruct H end.
  do 8 eexists. split; [reflexivity|]. repeat split; try assumption. simpl in h3. lia.
Qed.

(** ** shape of the keys: t0 never empty with exponents >= 0, the rest as given *)
Definition fwf (s : list bool) (B : list Z -> Prop) (k : fkey) : Prop :=
  let '(d, (_, x)) := k in dok d /\ wfs s x /\ B x.
Definition T5 := [true; true; true; true; true].
Definition T6 := [true; true; true; true; true; true].
Definition T7 := [true; true; true; true; true; true; true].
Definition T8 := [true; true; true; true; true; true; true; true].
Definition T9 := [true; true; true; true; true; true; true; true; true].
Definition T10 := [true; true; true; true; true; true; true; true; true; true].
Definition noB (_ : list Z) : Prop := True.
Definition P_ve2 (L : Z) : fkey -> Prop := fwf T7 (fun x => (nthZ x 1 + nthZ x 4 <= L)%Z).
Definition P_10 (L : Z) : fkey -> Prop := fwf T8 (fun x => (nthZ x 2 + nthZ x 5 <= L)%Z).
Definition P_f6 : fkey -> Prop := fwf T6 noB.
Definition P_f5 : fkey -> Prop := fwf T5 noB.

Ltac fwf_split := cbn [wfs T5 T6 T7 T8 T9 T10]; repeat split; try lia.

Section Fsv2.
Variables (k1 k2 h mu th1 sg1 th2 sg2 : R).
Hypothesis Hk1 : k1 <> 0.
Hypothesis Hk2 : k2 <> 0.
Let e1 := exp (- (k1 * h)).
Let e2 := exp (- (k2 * h)).
Let fm := fmon k1 k2 h.

Definition mon_ve2 (v : R * R) : fkey -> R := fm [h; fst v; th1; sg1; snd v; th2; sg2].
Definition mon_10 (v : R * R) : fkey -> R := fm [h; mu; fst v; th1; sg1; snd v; th2; sg2].
Definition mon_f6 (_ : unit) : fkey -> R := fm [h; mu; th1; sg1; th2; sg2].
Definition mon_f5 (_ : unit) : fkey -> R := fm [h; th1; sg1; th2; sg2].

(** ** vvee_IEI_IEII *)
Definition W2 (s0 v1 v2 : R) (i : ito2_idx) : R := itos_val (mkPar2 k1 k2 s0 v1 th1 sg1 v2 th2 sg2) i h.

Lemma vvee_sp n2 n3 a b c d e : (0 <= n2)%Z -> (0 <= n3)%Z -> ito2_dom (a, b, c, d, e) ->
  returns (vvee n2 n3 a b c d e) (fun r => wfp (P_ve2 (n2 + n3 + a + b + c + d + e)) kf2_ve r /\
    forall s0 v, evp mon_ve2 v r = pw (fst v) n2 * pw (snd v) n3 * (pw (exp (- (k1 * (s0 + h)))) a *
       pw (exp (- (k2 * (s0 + h)))) c * W2 s0 (fst v) (snd v) (a, b, c, d, e))).
Proof.
  intros H2 H3 Hd. unfold vvee. pose proof (moment_IEI_IEII_spec a b c d e Hd) as S.
  unfold W2, itos_val. destruct (moment_IEI_IEII a b c d e) as [q|]; [|destruct S]. cbn [returns] in S.
  destruct S as [(q1 & q2 & q3) _]. cbn [bind returns]. cbn [x4 x6 ord5] in q3.
  set (mk := fun kv : skey * Q => let '(d0, (_, (j1, j2, x))) := fst kv in
     (d0, ((a - j1, c - j2), [nthZ x 0; nthZ x 1 + n2; nthZ x 2; nthZ x 3; nthZ x 4 + n3; nthZ x 5; nthZ x 6]))%Z).
  replace (fold_left _ (items q) []) with (fold_left (fun s kv => add_kv (mk kv) (snd kv) s) (items q) []).
  2: { clear q1 q2 q3. generalize (@nil (fkey * Q)). induction (items q) as [|[(d0 & (t1 & ((j1 & j2) & x))) v] r IH]; intro s; [reflexivity|]. cbn [fold_left]. apply IH. }
  destruct Hd as (h1 & h2 & h3 & h4 & h5).
  split.
  - split; [reflexivity|]. cbn [items]. split; [apply uniq_fold_add, uniq_nil|].
    apply allk_fold_add; [apply allk_nil|].
    intros [(d0 & ((a' & b') & ((j1 & j2) & x))) v] Hin. unfold mk. cbn [fst snd].
    destruct (allk_in _ _ _ _ q3 Hin) as (w1 & _ & _ & w2 & w3). wfs_destruct. unfold nthZ in *; cbn [nth] in *.
    split; [assumption|]. split; [fwf_split|]. unfold nthZ; cbn [nth]. lia.
  - intros s0 v. unfold evp. cbn [items]. rewrite (eval_fold_add (mon_ve2 v) mk snd). cbn [eval].
    rewrite Rplus_0_l, sumR_eval, <- !sumR_scal. apply sumR_ext.
    intros [(d0 & ((a' & b') & ((j1 & j2) & x))) u] Hin. unfold mk. cbn [fst snd].
    destruct (allk_in _ _ _ _ q3 Hin) as (w1 & -> & -> & w2 & w3). wfs_destruct. unfold nthZ in *; cbn [nth] in *.
    unfold mon_ve2, fm, fmon, smon. cbn [qk1 qk2 qs0 qv1 qth1 qsg1 qv2 qth2 qsg2 monx].
    replace (exp (- ((IZR (a - j1) * k1 + IZR (c - j2) * k2) * h))) with
      (pw (exp (- (k1 * (s0 + h)))) a * pw (exp (- (k2 * (s0 + h)))) c *
       (exp ((IZR a * k1 + IZR c * k2) * s0) * exp ((IZR j1 * k1 + IZR j2 * k2) * h))).
    2: { rewrite !pw_exp, <- !exp_plus. f_equal. rewrite !minus_IZR. ring. }
    pws. ring.
Qed.

(** ** b_n of cmom.py and mom.py *)
Definition B1 : R := - ((1 - e1) * (/ 2 * / k1)).
Definition B2 : R := - ((1 - e2) * (/ 2 * / k2)).
Definition D1 : R := sg1 * (/ 2 * / k1).
Definition D2 : R := sg2 * (/ 2 * / k2).
(** value of the coefficient of v1^n2 v2^n3 IE1^n4 I1^n5 IE2^n6 I2^n7 *)
Definition bval (a : R) (n1 n2 n3 n4 n5 n6 n7 : Z) : R :=
  pw a n1 * pw B1 n2 * pw B2 n3 * (pw D1 n4 * pw (- D1) n5) * (pw D2 n6 * pw (- D2) n7).
Definition xs_c1 : list R := [th1 * (/ 2 * / k1); - (e1 * (th1 * (/ 2 * / k1))); th2 * (/ 2 * / k2); - (e2 * (th2 * (/ 2 * / k2)))].
Definition C1 : R := sumR (fun x => x) xs_c1.
Definition xs_a1 : list R := xs_c1 ++ [- (th1 * (h * / 2)); - (th2 * (h * / 2)); mu * h].
Definition A1' : R := sumR (fun x => x) xs_a1.
Definition mon_cb2 (_ : unit) : list Z -> R := monx [e1; / k1; th1; sg1; e2; / k2; th2; sg2].
Definition mon_b2 (_ : unit) : list Z -> R := monx [e1; / k1; th1; sg1; e2; / k2; th2; sg2; h; mu].

Lemma combN_diag n : combN n n = 1%Z.
Proof.
  assert (G : forall m j, (m < j)%nat -> combN m j = 0%Z).
  { induction m as [|m IH]; intros [|j] Hj; try lia; [reflexivity|]. cbn [combN]. rewrite !IH by lia. reflexivity. }
  induction n as [|n IH]; [reflexivity|]. cbn [combN]. rewrite IH, G by lia. reflexivity.
Qed.
Lemma mcomb_diag n : mcomb n n = 1%Z.
Proof. apply combN_diag. Qed.

Lemma cb2_n_sp n1 n2 n3 n4 n5 n6 n7 : (0 <= n1)%Z -> (0 <= n2)%Z -> (0 <= n3)%Z -> (0 <= n4)%Z -> (0 <= n5)%Z -> (0 <= n6)%Z -> (0 <= n7)%Z ->
  returns (cb2_n n1 n2 n3 n4 n5 n6 n7) (fun r => wfp (wfs T8) kf2_cb r /\ forall t, evp mon_cb2 t r = bval C1 n1 n2 n3 n4 n5 n6 n7).
Proof.
  intros h1 h2 h3 h4 h5 h6 h7. unfold cb2_n. eapply returns_weaken.
  - eapply (adds_run (wfs T8) mon_cb2).
    apply (adds_nest (wfl (wfs T8)) (ev mon_cb2) 3 n1 _ (fun ns _ =>
       IZR (cmb n1 ns) * monx xs_c1 ns * (pw B1 n2 * pw B2 n3 * (pw D1 n4 * pw (- D1) n5) * (pw D2 n6 * pw (- D2) n7)))); [assumption|].
    intros ns l1 l2 l3. destruct (comp4 ns n1 l1 l2 l3) as (i1 & i2 & i3 & i4 & -> & q1 & q2 & q3 & q4 & qs).
    cbn [on4].
    set (C := IZR (cmb n1 [i1; i2; i3; i4]) * monx xs_c1 [i1; i2; i3; i4] * (pw (- (/ 2 * / k1)) n2 * pw (- (/ 2 * / k2)) n3 *
       (pw D1 n4 * pw (- D1) n5) * (pw D2 n6 * pw (- D2) n7))).
    eapply adds_ext.
    + apply (adds_foldM (wfl (wfs T8)) (ev mon_cb2) _ (fun j t => sumR (fun q => C *
          (IZR (mcomb n2 j) * (pw (- e1) j * pw 1 (n2 - j))) * (IZR (mcomb n3 q) * (pw (- e2) q * pw 1 (n3 - q)))) (range 0 (n3 + 1)))).
      intros j Hj. apply in_range in Hj.
      apply (adds_foldM (wfl (wfs T8)) (ev mon_cb2) _ (fun q t => C *
          (IZR (mcomb n2 j) * (pw (- e1) j * pw 1 (n2 - j))) * (IZR (mcomb n3 q) * (pw (- e2) q * pw 1 (n3 - q))))).
      intros q Hq. apply in_range in Hq. cbv zeta.
      rewrite !math_comb_ok by lia. cbn [bind].
      eapply adds_ext; [apply (adds_kv (wfs T8) mon_cb2); fwf_split|].
      intro t. cbv beta. unfold mon_cb2, C, xs_c1, D1, D2. cbn [monx cmb]. rewrite Q2R_Frac2 by lia.
      replace (n1 - i1 - i2 - i3)%Z with i4 by lia. rewrite mcomb_diag, Z.mul_1_r.
      rewrite !mult_IZR, sgn1_pw by lia. replace (pw (/ 2) (n1 + n2 + n3 + n4 + n5 + n6 + n7)) with (pw (/ 2) (i1 + i2 + i3 + i4 + n2 + n3 + n4 + n5 + n6 + n7)) by (f_equal; lia).
      pwx. pws. ring.
    + intro t. cbv beta.
      rewrite (sumR_ext _ (fun j => C * pw (1 - e2) n3 * (IZR (mcomb n2 j) * (pw (- e1) j * pw 1 (n2 - j))))).
      * rewrite sumR_scal, binomial_pw by lia. unfold C, B1, B2.
        replace (- e1 + 1) with (1 - e1) by ring. pwx. ring.
      * intros j Hj. rewrite sumR_scal, binomial_pw by lia. replace (- e2 + 1) with (1 - e2) by ring. ring.
  - intros r (g1 & g2 & g3 & g4). split; [split; auto|]. intro t. unfold evp. rewrite g4.
    rewrite sumR_scal_r, multinomial_pw by (try reflexivity; lia). unfold bval, C1. ring.
Qed.

Lemma b2_n_sp n1 n2 n3 n4 n5 n6 n7 : (0 <= n1)%Z -> (0 <= n2)%Z -> (0 <= n3)%Z -> (0 <= n4)%Z -> (0 <= n5)%Z -> (0 <= n6)%Z -> (0 <= n7)%Z ->
  returns (b2_n n1 n2 n3 n4 n5 n6 n7) (fun r => wfp (wfs T10) kf2_b r /\ forall t, evp mon_b2 t r = bval A1' n1 n2 n3 n4 n5 n6 n7).
Proof.
  intros h1 h2 h3 h4 h5 h6 h7. unfold b2_n. eapply returns_weaken.
  - eapply (adds_run (wfs T10) mon_b2).
    apply (adds_nest (wfl (wfs T10)) (ev mon_b2) 6 n1 _ (fun ns _ =>
       IZR (cmb n1 ns) * monx xs_a1 ns * (pw B1 n2 * pw B2 n3 * (pw D1 n4 * pw (- D1) n5) * (pw D2 n6 * pw (- D2) n7)))); [assumption|].
    intros ns l1 l2 l3. destruct (comp7 ns n1 l1 l2 l3) as (i1 & i2 & i3 & i4 & i5 & i6 & i7 & -> & (q1 & q2 & q3 & q4 & q5 & q6 & q7) & qs).
    cbn [on7].
    set (C := IZR (cmb n1 [i1; i2; i3; i4; i5; i6; i7]) * monx xs_a1 [i1; i2; i3; i4; i5; i6; i7] * (pw (- (/ 2 * / k1)) n2 * pw (- (/ 2 * / k2)) n3 *
       (pw D1 n4 * pw (- D1) n5) * (pw D2 n6 * pw (- D2) n7))).
    eapply adds_ext.
    + apply (adds_foldM (wfl (wfs T10)) (ev mon_b2) _ (fun j t => sumR (fun q => C *
          (IZR (mcomb n2 j) * (pw (- e1) j * pw 1 (n2 - j))) * (IZR (mcomb n3 q) * (pw (- e2) q * pw 1 (n3 - q)))) (range 0 (n3 + 1)))).
      intros j Hj. apply in_range in Hj.
      apply (adds_foldM (wfl (wfs T10)) (ev mon_b2) _ (fun q t => C *
          (IZR (mcomb n2 j) * (pw (- e1) j * pw 1 (n2 - j))) * (IZR (mcomb n3 q) * (pw (- e2) q * pw 1 (n3 - q))))).
      intros q Hq. apply in_range in Hq. cbv zeta.
      rewrite (comp_comb _ n1 l2 l3), !math_comb_ok by lia. cbn [bind].
      eapply adds_ext; [apply (adds_kv (wfs T10) mon_b2); fwf_split|].
      intro t. cbv beta. unfold C. set (c := cmb n1 _). unfold mon_b2, xs_a1, xs_c1, D1, D2. cbn [monx app].
      replace (n1 - i7)%Z with (i1 + i2 + i3 + i4 + i5 + i6)%Z by lia. rewrite Q2R_Frac2 by lia.
      rewrite !mult_IZR, sgn1_pw by lia. clearbody c. pwx. pws. ring.
    + intro t. cbv beta.
      rewrite (sumR_ext _ (fun j => C * pw (1 - e2) n3 * (IZR (mcomb n2 j) * (pw (- e1) j * pw 1 (n2 - j))))).
      * rewrite sumR_scal, binomial_pw by lia. unfold C, B1, B2.
        replace (- e1 + 1) with (1 - e1) by ring. pwx. ring.
      * intros j Hj. rewrite sumR_scal, binomial_pw by lia. replace (- e2 + 1) with (1 - e2) by ring. ring.
  - intros r (g1 & g2 & g3 & g4). split; [split; auto|]. intro t. unfold evp. rewrite g4.
    rewrite sumR_scal_r, multinomial_pw by (try reflexivity; lia). unfold bval, A1'. ring.
Qed.

(** ** products of keys *)
Lemma den10 : IZR 1 * k1 + IZR 0 * k2 = k1.
Proof. ring. Qed.
Lemma den01 : IZR 0 * k1 + IZR 1 * k2 = k2.
Proof. ring. Qed.
Lemma exp_t1 a b n m : exp (- ((IZR (a + n) * k1 + IZR (b + m) * k2) * h))
  = exp (- ((IZR a * k1 + IZR b * k2) * h)) * (pw e1 n * pw e2 m).
Proof. unfold e1, e2. rewrite !pw_exp, <- !exp_plus. f_equal. rewrite !plus_IZR. ring. Qed.

Lemma b_key_sp mk d a b x k : dok d -> (0 <= nthZ k 1)%Z -> (0 <= nthZ k 5)%Z ->
  returns (b_key mk (d, ((a, b), x)) k) (fun r => exists d', r = (d', ((a + nthZ k 0, b + nthZ k 4)%Z, mk x k)) /\ dok d' /\ forall xs, fm xs r = denv k1 k2 d * exp (- ((IZR a * k1 + IZR b * k2) * h)) *
      (pw e1 (nthZ k 0) * pw (/ k1) (nthZ k 1) * pw e2 (nthZ k 4) * pw (/ k2) (nthZ k 5)) * monx xs (mk x k)).
Proof.
  intros Hd H1 H5. unfold b_key.
  destruct (tmul_sp 1 0 (nthZ k 1) d H1 Hd) as (E1 & G1 & V1). rewrite E1. cbn [bind].
  destruct (tmul_sp 0 1 (nthZ k 5) _ H5 G1) as (E2 & G2 & V2). rewrite E2. cbn [bind returns].
  eexists. split; [reflexivity|]. split; [exact G2|]. intro xs. unfold fm, fmon. rewrite V2, V1, den10, den01, exp_t1. ring.
Qed.
Lemma v_key_sp1 mk d t1 x k : dok d -> (0 <= nthZ k 1)%Z ->
  returns (v_key 1 0 mk (d, (t1, x)) k) (fun r => exists d', r = (d', (t1, mk x (nthZ k 0) (nthZ k 1))) /\ dok d' /\ forall xs, fm xs r = denv k1 k2 d * exp (- ((IZR (fst t1) * k1 + IZR (snd t1) * k2) * h)) * pw (/ k1) (nthZ k 1) *
      monx xs (mk x (nthZ k 0) (nthZ k 1))).
Proof.
  intros Hd H1. unfold v_key. destruct (tmul_sp 1 0 (nthZ k 1) d H1 Hd) as (E1 & G1 & V1). rewrite E1. cbn [bind returns].
  eexists. split; [reflexivity|]. split; [exact G1|]. intro xs. destruct t1 as [a b]. unfold fm, fmon. cbn [fst snd]. rewrite V1, den10. ring.
Qed.
Lemma v_key_sp2 mk d t1 x k : dok d -> (0 <= nthZ k 1)%Z ->
  returns (v_key 0 1 mk (d, (t1, x)) k) (fun r => exists d', r = (d', (t1, mk x (nthZ k 0) (nthZ k 1))) /\ dok d' /\ forall xs, fm xs r = denv k1 k2 d * exp (- ((IZR (fst t1) * k1 + IZR (snd t1) * k2) * h)) * pw (/ k2) (nthZ k 1) *
      monx xs (mk x (nthZ k 0) (nthZ k 1))).
Proof.
  intros Hd H1. unfold v_key. destruct (tmul_sp 0 1 (nthZ k 1) d H1 Hd) as (E1 & G1 & V1). rewrite E1. cbn [bind returns].
  eexists. split; [reflexivity|]. split; [exact G1|]. intro xs. destruct t1 as [a b]. unfold fm, fmon. cbn [fst snd]. rewrite V1, den01. ring.
Qed.
Lemma p_key_sp mk d1 a1 b1 x1 d2 a2 b2 x2 : dok d1 -> dok d2 ->
  returns (p_key mk (d1, ((a1, b1), x1)) (d2, ((a2, b2), x2))) (fun r => exists d', r = (d', ((a1 + a2, b1 + b2)%Z, mk x1 x2)) /\ dok d' /\ forall xs, fm xs r = denv k1 k2 d1 * exp (- ((IZR a1 * k1 + IZR b1 * k2) * h)) *
      (denv k1 k2 d2 * exp (- ((IZR a2 * k1 + IZR b2 * k2) * h))) * monx xs (mk x1 x2)).
Proof.
  intros H1 H2. unfold p_key. eapply returns_bind; [apply (tt_mul_sp d2 d1 H1); apply H2|].
  intros d' [Dd Vd]. cbn [returns]. eexists. split; [reflexivity|]. split; [exact Dd|]. intro xs.
  unfold fm, fmon. rewrite Vd. replace (exp (- ((IZR (a1 + a2) * k1 + IZR (b1 + b2) * k2) * h))) with
    (exp (- ((IZR a1 * k1 + IZR b1 * k2) * h)) * exp (- ((IZR a2 * k1 + IZR b2 * k2) * h))).
  2: { rewrite <- exp_plus. f_equal. rewrite !plus_IZR. ring. }
  ring.
Qed.

(** ** moment_comb *)
Variables (s0 : R).
Let E01 := exp (- (k1 * (s0 + h))).
Let E02 := exp (- (k2 * (s0 + h))).

(** value of one combination, given v1 and v2 *)
Definition gterm2 (a1 : R) (l : Z) (ns : list Z) (v : R * R) : R :=
  match ns with
  | [n1; n2; n3; n4; n5; n6; n7; n8] => IZR (cmb l ns) * bval a1 n1 n2 n3 n4 n5 n6 n7 *
      (pw (fst v) n2 * pw (snd v) n3 * (pw E01 n4 * pw E02 n6 * W2 s0 (fst v) (snd v) (n4, n5, n6, n7, n8)))
  | _ => 0
  end.

Lemma moment_comb2_sp ns l : length ns = 8%nat -> Forall (fun x => 0 <= x)%Z ns -> sumZ ns = l ->
  returns (on8 (moment_comb2 l) ns) (fun r => wfp (P_10 l) kf2_10 r /\ forall v, evp mon_10 v r = gterm2 A1' l ns v).
Proof.
  intros l1 l2 l3. destruct (comp8 ns l l1 l2 l3) as (n1 & n2 & n3 & n4 & n5 & n6 & n7 & n8 & -> & (q1 & q2 & q3 & q4 & q5 & q6 & q7 & q8) & qs).
  cbn [on8]. unfold moment_comb2.
  eapply returns_bind; [apply (vvee_sp n2 n3 n4 n5 n6 n7 n8); [assumption|assumption|repeat split; assumption]|]. intros p [(p1 & p2 & p3) Ep].
  eapply returns_bind; [apply (b2_n_sp n1 n2 n3 n4 n5 n6 n7); assumption|]. intros b [(b1 & b2 & b3) Eb].
  eapply returns_bind.
  { apply (gpoly_sp (P_ve2 (n2 + n3 + n4 + n5 + n6 + n7 + n8)) (fun _ => wfs T10) (P_10 l) mon_10 mon_ve2 (fun _ _ => mon_b2 tt) (fun _ _ => evp mon_b2 tt b)); [| |exact p3].
    - intros k _. cbn [returns]. split; [exact b3|]. intros _. reflexivity.
    - intros (d & ((u & w) & x)) k (w1 & w2 & w3) Wk. 
      assert (H1 : (0 <= nthZ k 1)%Z) by (unfold T10 in Wk; wfs_destruct; unfold nthZ; cbn [nth]; assumption).
      assert (H5 : (0 <= nthZ k 5)%Z) by (unfold T10 in Wk; wfs_destruct; unfold nthZ; cbn [nth]; assumption).
      eapply returns_weaken; [apply (b_key_sp _ d u w x k w1 H1 H5)|]. intros r (d' & -> & Dd & V).
      unfold T7, T10 in *. wfs_destruct. unfold nthZ in *; cbn [nth] in *. split.
      + split; [exact Dd|]. split; [fwf_split|]. unfold nthZ; cbn [nth]. lia.
      + intro v. unfold mon_10. rewrite V. unfold mon_ve2, fm, fmon, mon_b2. cbn [monx]. pws. ring. }
  intros r [Wr Er]. rewrite (comp_comb _ l l2 l3). cbn [bind returns].
  destruct (rmul_sp (P_10 l) mon_10 kf2_10 (qz (cmb l [n1; n2; n3; n4; n5; n6; n7; n8])) r Wr) as [W' E'].
  split; [exact W'|]. intro v. rewrite E', Er.
  replace (eval _ (items p)) with (evp mon_ve2 v p * evp mon_b2 tt b) by (symmetry; apply (eval_scal_r (mon_ve2 v))).
  rewrite Eb, Q2R_qz, (Ep s0 v). unfold gterm2. fold E01 E02. ring.
Qed.

Lemma cmoment_comb2_sp ns l : length ns = 8%nat -> Forall (fun x => 0 <= x)%Z ns -> sumZ ns = l ->
  returns (on8 (cmoment_comb2 l) ns) (fun r => wfp (P_ve2 l) kf2_ve r /\ forall v, evp mon_ve2 v r = gterm2 C1 l ns v).
Proof.
  intros l1 l2 l3. destruct (comp8 ns l l1 l2 l3) as (n1 & n2 & n3 & n4 & n5 & n6 & n7 & n8 & -> & (q1 & q2 & q3 & q4 & q5 & q6 & q7 & q8) & qs).
  cbn [on8]. unfold cmoment_comb2.
  eapply returns_bind; [apply (vvee_sp n2 n3 n4 n5 n6 n7 n8); [assumption|assumption|repeat split; assumption]|]. intros p [(p1 & p2 & p3) Ep].
  eapply returns_bind; [apply (cb2_n_sp n1 n2 n3 n4 n5 n6 n7); assumption|]. intros b [(b1 & b2 & b3) Eb].
  eapply returns_bind.
  { apply (gpoly_sp (P_ve2 (n2 + n3 + n4 + n5 + n6 + n7 + n8)) (fun _ => wfs T8) (P_ve2 l) mon_ve2 mon_ve2 (fun _ _ => mon_cb2 tt) (fun _ _ => evp mon_cb2 tt b)); [| |exact p3].
    - intros k _. cbn [returns]. split; [exact b3|]. intros _. reflexivity.
    - intros (d & ((u & w) & x)) k (w1 & w2 & w3) Wk. 
      assert (H1 : (0 <= nthZ k 1)%Z) by (unfold T8 in Wk; wfs_destruct; unfold nthZ; cbn [nth]; assumption).
      assert (H5 : (0 <= nthZ k 5)%Z) by (unfold T8 in Wk; wfs_destruct; unfold nthZ; cbn [nth]; assumption).
      eapply returns_weaken; [apply (b_key_sp _ d u w x k w1 H1 H5)|]. intros r (d' & -> & Dd & V).
      unfold T7, T8 in *. wfs_destruct. unfold nthZ in *; cbn [nth] in *. split.
      + split; [exact Dd|]. split; [fwf_split|]. unfold nthZ; cbn [nth]. lia.
      + intro v. unfold mon_ve2 at 1. rewrite V. unfold mon_ve2, fm, fmon, mon_cb2. cbn [monx]. pws. ring. }
  intros r [Wr Er]. rewrite (comp_comb _ l l2 l3). cbn [bind returns].
  destruct (rmul_sp (P_ve2 l) mon_ve2 kf2_ve (qz (cmb l [n1; n2; n3; n4; n5; n6; n7; n8])) r Wr) as [W' E'].
  split; [exact W'|]. intro v. rewrite E', Er.
  replace (eval _ (items p)) with (evp mon_ve2 v p * evp mon_cb2 tt b) by (symmetry; apply (eval_scal_r (mon_ve2 v))).
  rewrite Eb, Q2R_qz, (Ep s0 v). unfold gterm2. fold E01 E02. ring.
Qed.

(** ** sub_v *)
Let gm1 n := gmom th1 (sg1 ^ 2 / k1) (Z.to_nat n).
Let gm2 n := gmom th2 (sg2 ^ 2 / k2) (Z.to_nat n).
(** the value of a polynomial after replacing the powers of v1, v2 by their moments *)
Definition smom (i1 i2 : nat) (mon : R * R -> fkey -> R) (k : fkey) : R :=
  mon (1, 1) k * (gm1 (nthZ (snd (snd k)) i1) * gm2 (nthZ (snd (snd k)) i2)).

Lemma moment_v_gm n th x : (0 <= n)%Z -> returns (moment_v n) (fun q => allk (wfs [true; true]) (items q) /\ eval (monx [th; x]) (items q) = gmom th x (Z.to_nat n)).
Proof.
  intro Hn. eapply returns_weaken; [apply (moment_v_spec n Hn)|]. intros q (_ & h2 & _ & h4). split; [|apply h4].
  eapply allk_weaken; [exact h2|]. intros k (w0 & w1 & w2). destruct k as [|a [|b [|? ?]]]; try discriminate.
  unfold nthZ in *; cbn [nth] in *. repeat split; assumption.
Qed.

Lemma sub_v2_sp L p : allk (P_10 L) (items p) ->
  returns (sub_v2 p) (fun r => wfp P_f6 kf2_8 r /\ evp mon_f6 tt r = eval (smom 2 5 mon_10) (items p)).
Proof.
  intro A. unfold sub_v2. eapply returns_bind.
  { apply (gpoly_sp (P_10 L) (fun _ => wfs [true; true]) (fwf T7 noB)
      (fun _ : unit => fun k => fm [h; mu; th1; sg1; 1; th2; sg2] k * gm2 (nthZ (snd (snd k)) 4))
      (fun _ k => mon_10 (1, 1) k * gm2 (nthZ (snd (snd k)) 5))
      (fun _ _ => monx [th1; sg1 ^ 2 / k1]) (fun _ k => gm1 (nthZ (snd (snd k)) 2))); [| |exact A].
    - intros (d & (t1 & x)) (w1 & w2 & w3). cbn [fst snd].
      eapply returns_weaken; [apply (moment_v_gm _ th1 (sg1 ^ 2 / k1)); unfold T8 in *; wfs_destruct; unfold nthZ; cbn [nth]; assumption|].
      intros q [g1 g2]. split; [exact g1|]. intros _. exact g2.
    - intros (d & (t1 & x)) k (w1 & w2 & w3) Wk.
      assert (H1 : (0 <= nthZ k 1)%Z) by (wfs_destruct; unfold nthZ; cbn [nth]; assumption).
      eapply returns_weaken; [apply (v_key_sp1 _ d t1 x k w1 H1)|]. intros r (d' & -> & Dd & V). rewrite V.
      unfold T8 in *. wfs_destruct. unfold nthZ in *; cbn [nth fst snd] in *. split.
      + split; [exact Dd|]. split; [fwf_split|exact Logic.I].
      + intros _. destruct t1 as [u w]. unfold mon_10, fm, fmon. cbn [monx fst snd]. rewrite !pw_one. pws.
        replace (sg1 ^ 2 / k1) with (sg1 * sg1 * / k1) by (simpl; unfold Rdiv; ring). pwx. ring. }
  intros q [(q1 & q2 & q3) Eq]. eapply returns_weaken.
  - apply (gpoly_sp (fwf T7 noB) (fun _ => wfs [true; true]) P_f6 mon_f6
      (fun _ => fm [h; mu; th1; sg1; 1; th2; sg2])
      (fun _ _ => monx [th2; sg2 ^ 2 / k2]) (fun _ k => gm2 (nthZ (snd (snd k)) 4))); [| |exact q3].
    + intros (d & (t1 & x)) (w1 & w2 & w3). cbn [fst snd].
      eapply returns_weaken; [apply (moment_v_gm _ th2 (sg2 ^ 2 / k2)); unfold T7 in *; wfs_destruct; unfold nthZ; cbn [nth]; assumption|].
      intros r [g1 g2]. split; [exact g1|]. intros _. exact g2.
    + intros (d & (t1 & x)) k (w1 & w2 & w3) Wk.
      assert (H1 : (0 <= nthZ k 1)%Z) by (wfs_destruct; unfold nthZ; cbn [nth]; assumption).
      eapply returns_weaken; [apply (v_key_sp2 _ d t1 x k w1 H1)|]. intros r (d' & -> & Dd & V).
      unfold mon_f6. rewrite V. unfold T7 in *. wfs_destruct. unfold nthZ in *; cbn [nth fst snd] in *. split.
      * split; [exact Dd|]. split; [fwf_split|exact Logic.I].
      * intros _. destruct t1 as [u w]. unfold fm, fmon. cbn [monx fst snd]. rewrite !pw_one. pws.
        replace (sg2 ^ 2 / k2) with (sg2 * sg2 * / k2) by (simpl; unfold Rdiv; ring). pwx. ring.
  - intros r [Wr Er]. split; [exact Wr|]. rewrite Er. specialize (Eq tt). unfold evp in Eq. rewrite Eq.
    apply eval_ext_in. intros k v _. unfold smom. ring.
Qed.

Lemma csub_v2_sp L p : allk (P_ve2 L) (items p) ->
  returns (csub_v2 p) (fun r => wfp P_f5 kf2_7 r /\ evp mon_f5 tt r = eval (smom 1 4 mon_ve2) (items p)).
Proof.
  intro A. unfold csub_v2. eapply returns_bind.
  { apply (gpoly_sp (P_ve2 L) (fun _ => wfs [true; true]) (fwf T6 noB)
      (fun _ : unit => fun k => fm [h; th1; sg1; 1; th2; sg2] k * gm2 (nthZ (snd (snd k)) 3))
      (fun _ k => mon_ve2 (1, 1) k * gm2 (nthZ (snd (snd k)) 4))
      (fun _ _ => monx [th1; sg1 ^ 2 / k1]) (fun _ k => gm1 (nthZ (snd (snd k)) 1))); [| |exact A].
    - intros (d & (t1 & x)) (w1 & w2 & w3). cbn [fst snd].
      eapply returns_weaken; [apply (moment_v_gm _ th1 (sg1 ^ 2 / k1)); unfold T7 in *; wfs_destruct; unfold nthZ; cbn [nth]; assumption|].
      intros q [g1 g2]. split; [exact g1|]. intros _. exact g2.
    - intros (d & (t1 & x)) k (w1 & w2 & w3) Wk.
      assert (H1 : (0 <= nthZ k 1)%Z) by (wfs_destruct; unfold nthZ; cbn [nth]; assumption).
      eapply returns_weaken; [apply (v_key_sp1 _ d t1 x k w1 H1)|]. intros r (d' & -> & Dd & V). rewrite V.
      unfold T7 in *. wfs_destruct. unfold nthZ in *; cbn [nth fst snd] in *. split.
      + split; [exact Dd|]. split; [fwf_split|exact Logic.I].
      + intros _. destruct t1 as [u w]. unfold mon_ve2, fm, fmon. cbn [monx fst snd]. rewrite !pw_one. pws.
        replace (sg1 ^ 2 / k1) with (sg1 * sg1 * / k1) by (simpl; unfold Rdiv; ring). pwx. ring. }
  intros q [(q1 & q2 & q3) Eq]. eapply returns_weaken.
  - apply (gpoly_sp (fwf T6 noB) (fun _ => wfs [true; true]) P_f5 mon_f5
      (fun _ => fm [h; th1; sg1; 1; th2; sg2])
      (fun _ _ => monx [th2; sg2 ^ 2 / k2]) (fun _ k => gm2 (nthZ (snd (snd k)) 3))); [| |exact q3].
    + intros (d & (t1 & x)) (w1 & w2 & w3). cbn [fst snd].
      eapply returns_weaken; [apply (moment_v_gm _ th2 (sg2 ^ 2 / k2)); unfold T6 in *; wfs_destruct; unfold nthZ; cbn [nth]; assumption|].
      intros r [g1 g2]. split; [exact g1|]. intros _. exact g2.
    + intros (d & (t1 & x)) k (w1 & w2 & w3) Wk.
      assert (H1 : (0 <= nthZ k 1)%Z) by (wfs_destruct; unfold nthZ; cbn [nth]; assumption).
      eapply returns_weaken; [apply (v_key_sp2 _ d t1 x k w1 H1)|]. intros r (d' & -> & Dd & V).
      unfold mon_f5. rewrite V. unfold T6 in *. wfs_destruct. unfold nthZ in *; cbn [nth fst snd] in *. split.
      * split; [exact Dd|]. split; [fwf_split|exact Logic.I].
      * intros _. destruct t1 as [u w]. unfold fm, fmon. cbn [monx fst snd]. rewrite !pw_one. pws.
        replace (sg2 ^ 2 / k2) with (sg2 * sg2 * / k2) by (simpl; unfold Rdiv; ring). pwx. ring.
  - intros r [Wr Er]. split; [exact Wr|]. rewrite Er. specialize (Eq tt). unfold evp in Eq. rewrite Eq.
    apply eval_ext_in. intros k v _. unfold smom. ring.
Qed.

(** ** moment_y and cmoment_y *)
Lemma moment_y2_sp l : (0 <= l)%Z ->
  returns (moment_y2 l) (fun r => wfp P_f6 kf2_8 r /\ nonzero (items r) /\ exists p, allk (P_10 l) (items p) /\ evp mon_f6 tt r = eval (smom 2 5 mon_10) (items p) /\ forall v, evp mon_10 v p = sumR (fun ns => gterm2 A1' l ns v) (rcomp 7 l)).
Proof.
  intro Hl. unfold moment_y2. eapply returns_bind.
  - apply (adds_nest (wfp (P_10 l) kf2_10) (evp mon_10) 7 l _ (gterm2 A1' l)); [lia| |apply wfp_nil].
    intros ns l1 l2 l3. eapply adds_bind; [apply (moment_comb2_sp ns l l1 l2 l3)|].
    intros q [(g1 & g2 & g3) Eq]. eapply adds_ext; [apply (adds_merge (P_10 l) mon_10 kf2_10 q g1 g3)|].
    intro v. apply Eq.
  - intros p ((g1 & g2 & g3) & Ep). eapply returns_bind; [apply (sub_v2_sp l p g3)|]. intros r [Wr Er].
    cbn [returns]. destruct (remove_zero_sp P_f6 mon_f6 kf2_8 r Wr) as (W' & N' & E').
    split; [exact W'|]. split; [exact N'|]. exists p. split; [exact g3|]. split; [now rewrite E'|].
    intro v. rewrite Ep. unfold evp at 1. cbn [items eval]. ring.
Qed.
Lemma cmoment_y2_sp l : (0 <= l)%Z ->
  returns (cmoment_y2 l) (fun r => wfp P_f5 kf2_7 r /\ nonzero (items r) /\ exists p, allk (P_ve2 l) (items p) /\ evp mon_f5 tt r = eval (smom 1 4 mon_ve2) (items p) /\ forall v, evp mon_ve2 v p = sumR (fun ns => gterm2 C1 l ns v) (rcomp 7 l)).
Proof.
  intro Hl. unfold cmoment_y2. eapply returns_bind.
  - apply (adds_nest (wfp (P_ve2 l) kf2_ve) (evp mon_ve2) 7 l _ (gterm2 C1 l)); [lia| |apply wfp_nil].
    intros ns l1 l2 l3. eapply adds_bind; [apply (cmoment_comb2_sp ns l l1 l2 l3)|].
    intros q [(g1 & g2 & g3) Eq]. eapply adds_ext; [apply (adds_merge (P_ve2 l) mon_ve2 kf2_ve q g1 g3)|].
    intro v. apply Eq.
  - intros p ((g1 & g2 & g3) & Ep). eapply returns_bind; [apply (csub_v2_sp l p g3)|]. intros r [Wr Er].
    cbn [returns]. destruct (remove_zero_sp P_f5 mon_f5 kf2_7 r Wr) as (W' & N' & E').
    split; [exact W'|]. split; [exact N'|]. exists p. split; [exact g3|]. split; [now rewrite E'|].
    intro v. rewrite Ep. unfold evp at 1. cbn [items eval]. ring.
Qed.

(** ** cov.py *)
Notation X4 := ((R * R) * (R * R))%type.
(** (e^{-k1 nh} eI_{1,n}, v_{1,n-1}), (e^{-k2 nh} eI_{2,n}, v_{2,n-1}) *)
Definition mon_eIv2 (xv : X4) : fkey -> R :=
  fm [fst (fst xv); fst (snd xv); h; snd (fst xv); th1; sg1; snd (snd xv); th2; sg2].
Definition P_eIv2 (L : Z) : fkey -> Prop := fwf T9 (fun x => (nthZ x 0 + nthZ x 1 + nthZ x 3 + nthZ x 6 <= L)%Z).
Definition vn1 (xv : X4) : R := vnext k1 h th1 sg1 (fst xv).
Definition vn2 (xv : X4) : R := vnext k2 h th2 sg2 (snd xv).
Let E11 := exp (- (k1 * (s0 + h + h))).
Let E12 := exp (- (k2 * (s0 + h + h))).

Lemma vvee_vn_sp n2 n3 a b c d e : (0 <= n2)%Z -> (0 <= n3)%Z -> ito2_dom (a, b, c, d, e) ->
  returns (vvee_vn n2 n3 a b c d e) (fun r => wfp (P_eIv2 (n2 + n3 + a + b + c + d + e)) kf2_eIv r /\
    forall xv, evp mon_eIv2 xv r = pw (vn1 xv) n2 * pw (vn2 xv) n3 * (pw E11 a * pw E12 c * W2 (s0 + h) (vn1 xv) (vn2 xv) (a, b, c, d, e))).
Proof.
  intros H2 H3 Hd. unfold vvee_vn.
  eapply returns_bind; [apply (vvee_sp n2 n3 a b c d e H2 H3 Hd)|]. intros p [(p1 & p2 & p3) Ep].
  set (L := (n2 + n3 + a + b + c + d + e)%Z) in *.
  eapply returns_bind.
  { apply (gpoly_sp (P_ve2 L) (fun k => P_vn (nthZ (snd (snd k)) 1)) (fwf T9 (fun x => nthZ x 1 = 0%Z /\ (nthZ x 0 + nthZ x 3 + nthZ x 6 <= L)%Z))
      (fun xv : X4 => fm [fst (fst xv); 1; h; snd (fst xv); th1; sg1; vn2 xv; th2; sg2])
      (fun xv => mon_ve2 (1, vn2 xv)) (fun xv _ => mon_vn k1 h th1 sg1 (fst xv)) (fun xv k => pw (vn1 xv) (nthZ (snd (snd k)) 1))); [| |exact p3].
    - intros (d0 & (t1 & x)) (w1 & w2 & w3). cbn [fst snd].
      eapply returns_weaken; [apply (exp_vn_sp k1 h th1 sg1); unfold T7 in *; wfs_destruct; unfold nthZ; cbn [nth]; assumption|].
      intros q [(_ & _ & g1) g2]. split; [exact g1|]. intro xv. apply g2.
    - intros (d0 & ((u & w) & x)) k (w1 & w2 & w3) [Wk Bk]. cbn [returns]. cbn [fst snd] in Bk.
      unfold T7 in *. wfs_destruct. unfold nthZ in *; cbn [nth fst snd] in *. split.
      + split; [exact w1|]. split; [fwf_split|]. unfold nthZ; cbn [nth]. split; [reflexivity|lia].
      + intro xv. unfold mon_ve2, fm, fmon, mon_vn. fold e1.
        replace w with (w + 0)%Z at 1 by lia. rewrite exp_t1. cbn [monx fst snd]. rewrite !pw_one. pws. ring. }
  intros q [(q1 & q2 & q3) Eq]. eapply returns_weaken.
  - apply (gpoly_sp (fwf T9 (fun x => nthZ x 1 = 0%Z /\ (nthZ x 0 + nthZ x 3 + nthZ x 6 <= L)%Z)) (fun k => P_vn (nthZ (snd (snd k)) 6)) (P_eIv2 L) mon_eIv2
      (fun xv : X4 => fm [fst (fst xv); 1; h; snd (fst xv); th1; sg1; 1; th2; sg2])
      (fun xv _ => mon_vn k2 h th2 sg2 (snd xv)) (fun xv k => pw (vn2 xv) (nthZ (snd (snd k)) 6))); [| |exact q3].
    + intros (d0 & (t1 & x)) (w1 & w2 & w3 & w4). cbn [fst snd].
      eapply returns_weaken; [apply (exp_vn_sp k2 h th2 sg2); unfold T9 in *; wfs_destruct; unfold nthZ; cbn [nth]; assumption|].
      intros r [(_ & _ & g1) g2]. split; [exact g1|]. intro xv. apply g2.
    + intros (d0 & ((u & w) & x)) k (w1 & w2 & w3 & w4) [Wk Bk]. cbn [returns]. cbn [fst snd] in Bk.
      unfold T9 in *. wfs_destruct. unfold nthZ in *; cbn [nth fst snd] in *. split.
      * split; [exact w1|]. split; [fwf_split|]. unfold nthZ; cbn [nth]. lia.
      * intro xv. unfold mon_eIv2, fm, fmon, mon_vn. fold e2.
        replace u with (u + 0)%Z at 1 by lia. rewrite exp_t1. cbn [monx fst snd]. rewrite !pw_one. pws. ring.
  - intros r [Wr Er]. split; [exact Wr|]. intro xv. rewrite Er.
    transitivity (evp (fun xv : X4 => fm [fst (fst xv); 1; h; snd (fst xv); th1; sg1; vn2 xv; th2; sg2]) xv q).
    { unfold evp. apply eval_ext_in. intros (d0 & ((u & w) & x)) v Hin. destruct (allk_in _ _ _ _ q3 Hin) as (w1 & w2 & w3 & w4).
      unfold T9 in *. wfs_destruct. unfold nthZ in *; cbn [nth fst snd] in *. unfold fm, fmon. cbn [monx]. rewrite !pw_one. ring. }
    rewrite Eq. transitivity (evp mon_ve2 (vn1 xv, vn2 xv) p).
    { unfold evp. apply eval_ext_in. intros (d0 & ((u & w) & x)) v Hin. destruct (allk_in _ _ _ _ p3 Hin) as (w1 & w2 & w3).
      unfold T7 in *. wfs_destruct. unfold nthZ in *; cbn [nth fst snd] in *. unfold mon_ve2, fm, fmon. cbn [monx fst snd]. rewrite !pw_one. ring. }
    rewrite (Ep (s0 + h) (vn1 xv, vn2 xv)). reflexivity.
Qed.

(** the polynomial of one outer combination *)
Definition qn (ns : list Z) : Poly fkey :=
  match ns with
  | [n1; n2; n3; n4; n5; n6; n7; n8] => match vvee_vn n2 n3 n4 n5 n6 n7 n8 with Ok q => q | Err _ => mkPoly [] [] end
  | _ => mkPoly [] []
  end.
(** value given v1, v2 of one inner combination *)
Definition inner2 (q : Poly fkey) (l1 : Z) (ms : list Z) (v : R * R) : R :=
  match ms with
  | [m1; m2; m3; m4; m5; m6; m7; m8] => IZR (cmb l1 ms) * bval A1' m1 m2 m3 m4 m5 m6 m7
     * eval (fun k => mon_eIv2 ((1, 1), (1, 1)) k *
         let x := snd (snd k) in
         (pw (fst v) (m2 + nthZ x 3) * pw (snd v) (m3 + nthZ x 6) * (pw E01 (m4 + nthZ x 0) * pw E02 (m6 + nthZ x 1) *
           W2 s0 (fst v) (snd v) (m4 + nthZ x 0, m5, m6 + nthZ x 1, m7, m8)%Z))) (items q)
  | _ => 0
  end.

Lemma b10_sp L n1 n2 n3 n4 n5 n6 n7 p : (0 <= n1)%Z -> (0 <= n2)%Z -> (0 <= n3)%Z -> (0 <= n4)%Z -> (0 <= n5)%Z -> (0 <= n6)%Z -> (0 <= n7)%Z ->
  allk (P_10 L) (items p) ->
  returns (let! b := b2_n n1 n2 n3 n4 n5 n6 n7 in gpoly (fun _ => Ok b) b10_key kf2_10 p)
    (fun r => wfp (P_10 L) kf2_10 r /\ forall v, evp mon_10 v r = evp mon_10 v p * bval A1' n1 n2 n3 n4 n5 n6 n7).
Proof.
  intros h1 h2 h3 h4 h5 h6 h7 A.
  eapply returns_bind; [apply (b2_n_sp n1 n2 n3 n4 n5 n6 n7); assumption|]. intros b [(b1 & b2 & b3) Eb].
  eapply returns_weaken.
  - apply (gpoly_sp (P_10 L) (fun _ => wfs T10) (P_10 L) mon_10 mon_10 (fun _ _ => mon_b2 tt) (fun _ _ => evp mon_b2 tt b)); [| |exact A].
    + intros k _. cbn [returns]. split; [exact b3|]. intros _. reflexivity.
    + intros (d & ((u & w) & x)) k (w1 & w2 & w3) Wk. unfold b10_key.
      assert (H1 : (0 <= nthZ k 1)%Z) by (unfold T10 in Wk; wfs_destruct; unfold nthZ; cbn [nth]; assumption).
      assert (H5 : (0 <= nthZ k 5)%Z) by (unfold T10 in Wk; wfs_destruct; unfold nthZ; cbn [nth]; assumption).
      eapply returns_weaken; [apply (b_key_sp _ d u w x k w1 H1 H5)|]. intros r (d' & -> & Dd & V).
      unfold T8, T10 in *. wfs_destruct. unfold nthZ in *; cbn [nth] in *. split.
      * split; [exact Dd|]. split; [fwf_split|]. unfold nthZ; cbn [nth]. lia.
      * intro v. unfold mon_10. rewrite V. unfold fm, fmon, mon_b2. cbn [monx]. pws. ring.
  - intros r [Wr Er]. split; [exact Wr|]. intro v. rewrite Er, <- (Eb tt). apply (eval_scal_r (mon_10 v)).
Qed.

Lemma moment_inner_comb2_sp N q ms l1 : allk (P_eIv2 N) (items q) ->
  length ms = 8%nat -> Forall (fun x => 0 <= x)%Z ms -> sumZ ms = l1 ->
  returns (on8 (moment_inner_comb2 q l1) ms) (fun r => wfp (P_10 (l1 + N)) kf2_10 r /\
    forall v, evp mon_10 v r = inner2 q l1 ms v).
Proof.
  intros Aq g1 g2 g3.
  destruct (comp8 ms l1 g1 g2 g3) as (m1 & m2 & m3 & m4 & m5 & m6 & m7 & m8 & -> & (q1 & q2 & q3 & q4 & q5 & q6 & q7 & q8) & qs).
  cbn [on8]. unfold moment_inner_comb2.
  eapply returns_bind.
  { apply (gpoly_sp (P_eIv2 N) (fun k => let x := snd (snd k) in
      P_ve2 (m2 + nthZ x 3 + (m3 + nthZ x 6) + (m4 + nthZ x 0) + m5 + (m6 + nthZ x 1) + m7 + m8)) (P_10 (l1 + N))
      mon_10 (fun _ => mon_eIv2 ((1, 1), (1, 1))) (fun v _ => mon_ve2 v)
      (fun v k => let x := snd (snd k) in
         (pw (fst v) (m2 + nthZ x 3) * pw (snd v) (m3 + nthZ x 6) * (pw E01 (m4 + nthZ x 0) * pw E02 (m6 + nthZ x 1) *
           W2 s0 (fst v) (snd v) (m4 + nthZ x 0, m5, m6 + nthZ x 1, m7, m8)%Z)))); [| |exact Aq].
    - intros (d & (t1 & x)) (w1 & w2 & w3). cbn [fst snd]. cbv zeta.
      eapply returns_weaken; [apply vvee_sp; unfold T9 in *; wfs_destruct; unfold ito2_dom, nthZ; cbn [nth]; repeat split; lia|].
      intros r [(r1 & r2 & r3) Er]. split; [exact r3|]. intro v. apply (Er s0 v).
    - intros (d & ((u & w) & x)) (d2 & ((u2 & w0) & x2)) (w1 & w2 & w3) (y1 & y2 & y3).
      eapply returns_weaken; [apply (p_key_sp _ d u w x d2 u2 w0 x2 w1 y1)|]. intros r (d' & -> & Dd & V).
      cbn [fst snd] in y3. unfold T9, T7 in *. wfs_destruct. unfold nthZ in *; cbn [nth] in *. split.
      + split; [exact Dd|]. split; [fwf_split|]. unfold nthZ; cbn [nth]. lia.
      + intro v. unfold mon_10. rewrite V. unfold mon_eIv2, mon_ve2, fm, fmon. cbn [monx fst snd]. rewrite !pw_one. pws. ring. }
  intros p [(p1 & p2 & p3) Ep].
  pose proof (b10_sp (l1 + N) m1 m2 m3 m4 m5 m6 m7 p q1 q2 q3 q4 q5 q6 q7 p3) as B.
  destruct (b2_n m1 m2 m3 m4 m5 m6 m7) as [b|]; [|destruct B]. cbn [bind] in B |- *.
  eapply returns_bind; [exact B|]. intros r [Wr Er]. rewrite (comp_comb _ l1 g2 g3). cbn [bind returns].
  destruct (rmul_sp _ mon_10 kf2_10 (qz (cmb l1 [m1; m2; m3; m4; m5; m6; m7; m8])) r Wr) as [W' E'].
  split; [exact W'|]. intro v. rewrite E', Er, Ep, Q2R_qz. unfold inner2. ring.
Qed.

Definition outer2 (l1 l2 : Z) (ns : list Z) (v : R * R) : R :=
  match ns with
  | [n1; n2; n3; n4; n5; n6; n7; n8] => IZR (cmb l2 ns) * bval A1' n1 n2 n3 n4 n5 n6 n7
     * sumR (fun ms => inner2 (qn ns) l1 ms v) (rcomp 7 l1)
  | _ => 0
  end.

Lemma moment_outer_comb2_sp ns l1 l2 : (0 <= l1)%Z ->
  length ns = 8%nat -> Forall (fun x => 0 <= x)%Z ns -> sumZ ns = l2 ->
  returns (on8 (moment_outer_comb2 l1 l2) ns) (fun r => wfp (P_10 (l1 + l2)) kf2_10 r /\
    forall v, evp mon_10 v r = outer2 l1 l2 ns v).
Proof.
  intros Hl1 g1 g2 g3.
  destruct (comp8 ns l2 g1 g2 g3) as (n1 & n2 & n3 & n4 & n5 & n6 & n7 & n8 & -> & (q1 & q2 & q3 & q4 & q5 & q6 & q7 & q8) & qs).
  cbn [on8]. unfold moment_outer_comb2, outer2, qn.
  pose proof (vvee_vn_sp n2 n3 n4 n5 n6 n7 n8 q2 q3 ltac:(repeat split; assumption)) as Hq.
  destruct (vvee_vn n2 n3 n4 n5 n6 n7 n8) as [q|]; [|destruct Hq]. cbn [bind returns] in Hq |- *.
  destruct Hq as [Wq _]. set (N := (n2 + n3 + n4 + n5 + n6 + n7 + n8)%Z) in *.
  eapply returns_bind.
  { apply (adds_nest (wfp (P_10 (l1 + l2)) kf2_10) (evp mon_10) 7 l1 _ (inner2 q l1)); [assumption| |apply wfp_nil].
    intros ms u1 u2 u3. eapply adds_bind; [apply (moment_inner_comb2_sp N q ms l1 ltac:(apply Wq) u1 u2 u3)|].
    intros r [(w1 & w2 & w3) Er]. eapply adds_ext.
    + apply (adds_merge (P_10 (l1 + l2)) mon_10 kf2_10 r w1). eapply allk_weaken; [exact w3|].
      intros (d & (t1 & x)) (a1 & a2 & a3). split; [assumption|]. split; [assumption|]. lia.
    + intro v. apply Er. }
  intros p [(p1 & p2 & p3) Ep].
  pose proof (b10_sp (l1 + l2) n1 n2 n3 n4 n5 n6 n7 p q1 q2 q3 q4 q5 q6 q7 p3) as B.
  destruct (b2_n n1 n2 n3 n4 n5 n6 n7) as [b|]; [|destruct B]. cbn [bind] in B |- *.
  eapply returns_bind; [exact B|]. intros r [Wr Er]. rewrite (comp_comb _ l2 g2 g3). cbn [bind returns].
  destruct (rmul_sp _ mon_10 kf2_10 (qz (cmb l2 [n1; n2; n3; n4; n5; n6; n7; n8])) r Wr) as [W' E'].
  split; [exact W'|]. intro v. rewrite E', Er, Ep, Q2R_qz. unfold evp. cbn [items eval]. ring.
Qed.

Lemma moment_yy2_sp l1 l2 : (0 <= l1)%Z -> (0 <= l2)%Z ->
  returns (moment_yy2 l1 l2) (fun r => wfp P_f6 kf2_8 r /\ nonzero (items r) /\ exists p, allk (P_10 (l1 + l2)) (items p) /\
    evp mon_f6 tt r = eval (smom 2 5 mon_10) (items p) /\
    forall v, evp mon_10 v p = sumR (fun ns => outer2 l1 l2 ns v) (rcomp 7 l2)).
Proof.
  intros Hl1 Hl2. unfold moment_yy2. eapply returns_bind.
  - apply (adds_nest (wfp (P_10 (l1 + l2)) kf2_10) (evp mon_10) 7 l2 _ (outer2 l1 l2)); [assumption| |apply wfp_nil].
    intros ns u1 u2 u3. eapply adds_bind; [apply (moment_outer_comb2_sp ns l1 l2 Hl1 u1 u2 u3)|].
    intros r [(w1 & w2 & w3) Er]. eapply adds_ext; [apply (adds_merge (P_10 (l1 + l2)) mon_10 kf2_10 r w1 w3)|].
    intro v. apply Er.
  - intros p ((g1 & g2 & g3) & Ep). eapply returns_bind; [apply (sub_v2_sp (l1 + l2) p g3)|]. intros r [Wr Er].
    cbn [returns]. destruct (remove_zero_sp P_f6 mon_f6 kf2_8 r Wr) as (W' & N' & E').
    split; [exact W'|]. split; [exact N'|]. exists p. split; [exact g3|]. split; [now rewrite E'|].
    intro v. rewrite Ep. unfold evp at 1. cbn [items eval]. ring.
Qed.

(** ** expectations *)
Section Exp2.
Context {Om : Type} (E : (Om -> R) -> R) (HE : expectation E) (V1 V2 : Om -> R) (L : Z).
Hypothesis HV : forall m n, (0 <= m)%Z -> (0 <= n)%Z -> (m + n <= L)%Z ->
  E (fun w => V1 w ^ Z.to_nat m * V2 w ^ Z.to_nat n) = gm1 m * gm2 n.
Variables (IE1 I1 IE2 I2 Is : Om -> R).
Hypothesis HT : forall m n a b c d e, (0 <= m)%Z -> (0 <= n)%Z -> ito2_dom (a, b, c, d, e) -> (m + n + a + b + c + d + e <= L)%Z ->
  E (fun w => V1 w ^ Z.to_nat m * V2 w ^ Z.to_nat n * (IE1 w ^ Z.to_nat a * I1 w ^ Z.to_nat b * IE2 w ^ Z.to_nat c * I2 w ^ Z.to_nat d * Is w ^ Z.to_nat e))
  = E (fun w => V1 w ^ Z.to_nat m * V2 w ^ Z.to_nat n * W2 s0 (V1 w) (V2 w) (a, b, c, d, e)).
Local Notation VV w := (V1 w, V2 w).

Lemma E_mon_10 p : allk (P_10 L) (items p) -> E (fun w => evp mon_10 (VV w) p) = eval (smom 2 5 mon_10) (items p).
Proof.
  intro A. unfold evp. rewrite (E_ext E HE _ (fun w => sumR (fun kv => Q2R (snd kv) * mon_10 (VV w) (fst kv)) (items p)))
    by (intro w; now rewrite sumR_eval).
  rewrite (E_sumR E HE), sumR_eval. apply sumR_ext. intros [(d & ((u & z) & x)) v] Hin. cbn [fst snd].
  destruct (allk_in _ _ _ _ A Hin) as (w1 & w2 & w3). unfold T8 in *. wfs_destruct. unfold nthZ in *; cbn [nth] in *.
  rewrite (E_scal E HE). f_equal. unfold smom, nthZ. cbn [nth fst snd]. rewrite <- HV by lia. rewrite <- (E_scal E HE).
  apply (E_ext E HE). intro w. unfold mon_10, fm, fmon. cbn [monx fst snd]. rewrite !pw_one, <- !pw_Zpos by lia. ring.
Qed.
Lemma E_mon_ve2 p : allk (P_ve2 L) (items p) -> E (fun w => evp mon_ve2 (VV w) p) = eval (smom 1 4 mon_ve2) (items p).
Proof.
  intro A. unfold evp. rewrite (E_ext E HE _ (fun w => sumR (fun kv => Q2R (snd kv) * mon_ve2 (VV w) (fst kv)) (items p)))
    by (intro w; now rewrite sumR_eval).
  rewrite (E_sumR E HE), sumR_eval. apply sumR_ext. intros [(d & ((u & z) & x)) v] Hin. cbn [fst snd].
  destruct (allk_in _ _ _ _ A Hin) as (w1 & w2 & w3). unfold T7 in *. wfs_destruct. unfold nthZ in *; cbn [nth] in *.
  rewrite (E_scal E HE). f_equal. unfold smom, nthZ. cbn [nth fst snd]. rewrite <- HV by lia. rewrite <- (E_scal E HE).
  apply (E_ext E HE). intro w. unfold mon_ve2, fm, fmon. cbn [monx fst snd]. rewrite !pw_one, <- !pw_Zpos by lia. ring.
Qed.

Definition xs2 (a1 : R) (w : Om) : list R :=
  [a1; B1 * V1 w; B2 * V2 w; D1 * (E01 * IE1 w); - D1 * I1 w; D2 * (E02 * IE2 w); - D2 * I2 w; Is w].

Lemma gterm2_E a1 l ns : (0 <= l <= L)%Z -> length ns = 8%nat -> Forall (fun x => 0 <= x)%Z ns -> sumZ ns = l ->
  E (fun w => gterm2 a1 l ns (VV w)) = IZR (cmb l ns) * E (fun w => powprod (xs2 a1 w) ns).
Proof.
  intros Hl l1 l2 l3. rewrite <- (E_scal E HE).
  destruct (comp8 ns l l1 l2 l3) as (n1 & n2 & n3 & n4 & n5 & n6 & n7 & n8 & -> & (q1 & q2 & q3 & q4 & q5 & q6 & q7 & q8) & qs).
  set (C := IZR (cmb l [n1; n2; n3; n4; n5; n6; n7; n8]) * bval a1 n1 n2 n3 n4 n5 n6 n7 * (pw E01 n4 * pw E02 n6)).
  rewrite (E_ext E HE _ (fun w => C * (V1 w ^ Z.to_nat n2 * V2 w ^ Z.to_nat n3 * W2 s0 (V1 w) (V2 w) (n4, n5, n6, n7, n8)))).
  2: { intro w. unfold gterm2, C. cbn [fst snd]. rewrite <- !pw_Zpos by lia. ring. }
  rewrite (E_scal E HE), <- HT, <- (E_scal E HE) by (try (repeat split; assumption); lia). apply (E_ext E HE). intro w.
  unfold xs2. rewrite powprod_monx by assumption. cbn [monx]. rewrite <- !pw_Zpos by lia. unfold C, bval. pwx. ring.
Qed.
Lemma gsum2_E a1 l : (0 <= l <= L)%Z ->
  E (fun w => sumR (fun ns => gterm2 a1 l ns (VV w)) (rcomp 7 l)) = E (fun w => sumR (fun x => x) (xs2 a1 w) ^ Z.to_nat l).
Proof.
  intro Hl. symmetry. rewrite (E_multinomial E HE (xs2 a1) 7 l) by (try reflexivity; lia).
  rewrite (E_sumR E HE). apply sumR_ext. intros ns Hns. apply in_rcomp in Hns; [|lia]. destruct Hns as (l1 & l2 & l3).
  symmetry. now apply gterm2_E.
Qed.
Lemma moment_y2_E l : (0 <= l <= L)%Z ->
  returns (moment_y2 l) (fun r => wfp P_f6 kf2_8 r /\ evp mon_f6 tt r = E (fun w => sumR (fun x => x) (xs2 A1' w) ^ Z.to_nat l)).
Proof.
  intro Hl. eapply returns_weaken; [apply (moment_y2_sp l); lia|]. intros r (Wr & _ & p & Ap & Er & Ep). split; [exact Wr|].
  rewrite Er, <- E_mon_10, <- gsum2_E by (first [assumption|eapply allk_weaken; [exact Ap|]; intros (d & (t1 & x)) (a1 & a2 & a3); split; [assumption|]; split; [assumption|lia]]).
  apply (E_ext E HE). intro w. apply Ep.
Qed.
Lemma cmoment_y2_E l : (0 <= l <= L)%Z ->
  returns (cmoment_y2 l) (fun r => wfp P_f5 kf2_7 r /\ evp mon_f5 tt r = E (fun w => sumR (fun x => x) (xs2 C1 w) ^ Z.to_nat l)).
Proof.
  intro Hl. eapply returns_weaken; [apply (cmoment_y2_sp l); lia|]. intros r (Wr & _ & p & Ap & Er & Ep). split; [exact Wr|].
  rewrite Er, <- E_mon_ve2, <- gsum2_E by (first [assumption|eapply allk_weaken; [exact Ap|]; intros (d & (t1 & x)) (a1 & a2 & a3); split; [assumption|]; split; [assumption|lia]]).
  apply (E_ext E HE). intro w. apply Ep.
Qed.

(** two successive intervals *)
Variables (U1 U2 JE1 J1 JE2 J2 Js : Om -> R).
Hypothesis HU : forall w, U1 w = vn1 ((E01 * IE1 w, V1 w), (E02 * IE2 w, V2 w)) /\ U2 w = vn2 ((E01 * IE1 w, V1 w), (E02 * IE2 w, V2 w)).
Hypothesis HT1 : forall hs m n a b c d e, length hs = 7%nat -> Forall (fun x => 0 <= x)%Z hs ->
  (0 <= m)%Z -> (0 <= n)%Z -> ito2_dom (a, b, c, d, e) -> (fold_right Z.add 0 hs + m + n + a + b + c + d + e <= L)%Z ->
  E (fun w => powprod [V1 w; V2 w; IE1 w; I1 w; IE2 w; I2 w; Is w] hs *
       (U1 w ^ Z.to_nat m * U2 w ^ Z.to_nat n * (JE1 w ^ Z.to_nat a * J1 w ^ Z.to_nat b * JE2 w ^ Z.to_nat c * J2 w ^ Z.to_nat d * Js w ^ Z.to_nat e)))
  = E (fun w => powprod [V1 w; V2 w; IE1 w; I1 w; IE2 w; I2 w; Is w] hs *
       (U1 w ^ Z.to_nat m * U2 w ^ Z.to_nat n * W2 (s0 + h) (U1 w) (U2 w) (a, b, c, d, e))).

Definition xs3 (w : Om) : list R :=
  [A1'; B1 * U1 w; B2 * U2 w; D1 * (E11 * JE1 w); - D1 * J1 w; D2 * (E12 * JE2 w); - D2 * J2 w; Js w].

Lemma inner2_E ns l1 l2 ms : (0 <= l1)%Z -> (0 <= l2)%Z -> (l1 + l2 <= L)%Z ->
  length ns = 8%nat -> Forall (fun x => 0 <= x)%Z ns -> sumZ ns = l2 ->
  length ms = 8%nat -> Forall (fun x => 0 <= x)%Z ms -> sumZ ms = l1 ->
  match ns with
  | [n1; n2; n3; n4; n5; n6; n7; n8] => bval A1' n1 n2 n3 n4 n5 n6 n7
  | _ => 0
  end * E (fun w => inner2 (qn ns) l1 ms (VV w))
  = IZR (cmb l1 ms) * E (fun w => powprod (xs2 A1' w) ms * powprod (xs3 w) ns).
Proof.
  intros Hl1 Hl2 HL u1 u2 u3 w1 w2 w3.
  destruct (comp8 ns l2 u1 u2 u3) as (n1 & n2 & n3 & n4 & n5 & n6 & n7 & n8 & -> & (q1 & q2 & q3 & q4 & q5 & q6 & q7 & q8) & qs).
  destruct (comp8 ms l1 w1 w2 w3) as (m1 & m2 & m3 & m4 & m5 & m6 & m7 & m8 & -> & (r1 & r2 & r3 & r4 & r5 & r6 & r7 & r8) & rs).
  unfold qn. pose proof (vvee_vn_sp n2 n3 n4 n5 n6 n7 n8 q2 q3 ltac:(repeat split; assumption)) as Hq.
  destruct (vvee_vn n2 n3 n4 n5 n6 n7 n8) as [q|]; [|destruct Hq]. cbn [returns] in Hq. destruct Hq as [(p1 & p2 & p3) Eq].
  set (C := IZR (cmb l1 [m1; m2; m3; m4; m5; m6; m7; m8]) * bval A1' m1 m2 m3 m4 m5 m6 m7).
  set (D := bval A1' n1 n2 n3 n4 n5 n6 n7).
  set (xv w := ((E01 * IE1 w, V1 w), (E02 * IE2 w, V2 w))).
  set (H0 w := pw (V1 w) m2 * pw (V2 w) m3 * (pw (E01 * IE1 w) m4 * pw (I1 w) m5 * pw (E02 * IE2 w) m6 * pw (I2 w) m7 * pw (Is w) m8)).
  assert (H1 : E (fun w => inner2 q l1 [m1; m2; m3; m4; m5; m6; m7; m8] (VV w)) = C * E (fun w => H0 w * evp mon_eIv2 (xv w) q)).
  { unfold inner2. fold C. rewrite (E_scal E HE). f_equal. unfold evp.
    rewrite (E_ext E HE (fun w => H0 w * _)
      (fun w => sumR (fun kv => H0 w * (Q2R (snd kv) * mon_eIv2 (xv w) (fst kv))) (items q)))
      by (intro w; rewrite sumR_eval, sumR_scal; reflexivity).
    match goal with |- E (fun w => eval (@?f w) _) = _ =>
      rewrite (E_ext E HE _ (fun w => sumR (fun kv => Q2R (snd kv) * f w (fst kv)) (items q))) by (intro w; now rewrite sumR_eval) end.
    rewrite !(E_sumR E HE). apply sumR_ext. intros [(d & ((u & z) & x)) v] Hin. cbn [fst snd].
    destruct (allk_in _ _ _ _ p3 Hin) as (y1 & y2 & y3). unfold T9 in *. wfs_destruct. unfold nthZ in *; cbn [nth] in *.
    match goal with |- E (fun w => _ * (?F * (pw _ (m2 + ?a) * pw _ (m3 + ?b) * (pw E01 ?c * pw E02 ?g * _)))) = _ =>
      rewrite (E_ext E HE _ (fun w => (Q2R v * F * (pw E01 c * pw E02 g)) *
         (V1 w ^ Z.to_nat (m2 + a) * V2 w ^ Z.to_nat (m3 + b) * W2 s0 (V1 w) (V2 w) (c, m5, g, m7, m8))))
        by (intro w; rewrite <- !pw_Zpos by lia; ring) end.
    rewrite (E_scal E HE), <- HT, <- (E_scal E HE) by (try (repeat split; lia); lia). apply (E_ext E HE). intro w.
    unfold H0, xv. rewrite <- !pw_Zpos by lia. unfold mon_eIv2, fm, fmon. cbn [monx fst snd]. rewrite !pw_one. pwx. pws. ring. }
  rewrite H1.
  rewrite (E_ext E HE _ (fun w => pw E01 m4 * pw E02 m6 * (pw E11 n4 * pw E12 n6) * (powprod [V1 w; V2 w; IE1 w; I1 w; IE2 w; I2 w; Is w] [m2; m3; m4; m5; m6; m7; m8] *
     (U1 w ^ Z.to_nat n2 * U2 w ^ Z.to_nat n3 * W2 (s0 + h) (U1 w) (U2 w) (n4, n5, n6, n7, n8))))).
  2: { intro w. rewrite Eq. unfold xv. destruct (HU w) as [<- <-].
       rewrite powprod_monx by (repeat constructor; assumption). unfold H0. cbn [monx].
       rewrite <- !pw_Zpos by lia. pwx. ring. }
  rewrite (E_scal E HE), <- HT1 by (try reflexivity; try (repeat constructor; assumption); try (repeat split; assumption); cbn [fold_right]; lia).
  rewrite <- !(E_scal E HE). apply (E_ext E HE). intro w.
  unfold xs2, xs3. rewrite !powprod_monx by (try assumption; repeat constructor; assumption). cbn [monx].
  rewrite <- !pw_Zpos by lia. unfold C, D, bval. pwx. ring.
Qed.

Lemma outer2_E ns l1 l2 : (0 <= l1)%Z -> (0 <= l2)%Z -> (l1 + l2 <= L)%Z ->
  length ns = 8%nat -> Forall (fun x => 0 <= x)%Z ns -> sumZ ns = l2 ->
  E (fun w => outer2 l1 l2 ns (VV w)) = IZR (cmb l2 ns) *
    sumR (fun ms => IZR (cmb l1 ms) * E (fun w => powprod (xs2 A1' w) ms * powprod (xs3 w) ns)) (rcomp 7 l1).
Proof.
  intros Hl1 Hl2 HL u1 u2 u3.
  rewrite (sumR_ext _ (fun ms => match ns with
    | [n1; n2; n3; n4; n5; n6; n7; n8] => bval A1' n1 n2 n3 n4 n5 n6 n7
    | _ => 0 end * E (fun w => inner2 (qn ns) l1 ms (VV w)))).
  2: { intros ms Hms. apply in_rcomp in Hms; [|lia]. destruct Hms as (w1 & w2 & w3). symmetry.
       now apply (inner2_E ns l1 l2 ms). }
  rewrite sumR_scal, <- (E_sumR E HE), <- !(E_scal E HE).
  apply (E_ext E HE). intro w. destruct (comp8 ns l2 u1 u2 u3) as (n1 & n2 & n3 & n4 & n5 & n6 & n7 & n8 & -> & _).
  unfold outer2. ring.
Qed.

Lemma moment_yy2_E l1 l2 : (0 <= l1)%Z -> (0 <= l2)%Z -> (l1 + l2 <= L)%Z ->
  returns (moment_yy2 l1 l2) (fun r => wfp P_f6 kf2_8 r /\ evp mon_f6 tt r =
    E (fun w => sumR (fun x => x) (xs2 A1' w) ^ Z.to_nat l1 * sumR (fun x => x) (xs3 w) ^ Z.to_nat l2)).
Proof.
  intros Hl1 Hl2 HL. eapply returns_weaken; [apply (moment_yy2_sp l1 l2); lia|]. intros r (Wr & _ & p & Ap & Er & Ep). split; [exact Wr|].
  rewrite Er, <- E_mon_10 by (eapply allk_weaken; [exact Ap|]; intros (d & (t1 & x)) (a1 & a2 & a3); split; [assumption|]; split; [assumption|lia]).
  rewrite (E_ext E HE _ (fun w => sumR (fun ns => outer2 l1 l2 ns (VV w)) (rcomp 7 l2))) by (intro w; apply Ep).
  rewrite (E_sumR E HE).
  rewrite (sumR_ext _ (fun ns => IZR (cmb l2 ns) *
    sumR (fun ms => IZR (cmb l1 ms) * E (fun w => powprod (xs2 A1' w) ms * powprod (xs3 w) ns)) (rcomp 7 l1))).
  2: { intros ns Hns. apply in_rcomp in Hns; [|lia]. destruct Hns as (u1 & u2 & u3). now apply outer2_E. }
  symmetry. rewrite (E_ext E HE _ (fun w => sumR (fun ns => IZR (cmb l2 ns) * sumR (fun ms => IZR (cmb l1 ms) *
     (powprod (xs2 A1' w) ms * powprod (xs3 w) ns)) (rcomp 7 l1)) (rcomp 7 l2))).
  2: { intro w. rewrite <- (multinomial_rcomp (xs2 A1' w) 7 l1), <- (multinomial_rcomp (xs3 w) 7 l2) by (try reflexivity; assumption).
       rewrite Rmult_comm, <- sumR_scal_r. apply sumR_ext. intros ns _.
       rewrite Rmult_assoc, <- sumR_scal. f_equal. apply sumR_ext. intros ms _. ring. }
  rewrite (E_sumR E HE). apply sumR_ext. intros ns _. rewrite (E_scal E HE), (E_sumR E HE). f_equal.
  apply sumR_ext. intros ms _. now rewrite (E_scal E HE).
Qed.
End Exp2.
End Fsv2.
