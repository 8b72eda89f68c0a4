(** Proofs about mdl_svcj/cond_ieii_ieziziz_mom.py: the recursion and the table (C37). *)
From Coq Require Import Reals Lra.
From Coquelicot Require Import Coquelicot.
From Verif.Proof Require Import ItoProofs SrjdCondProofs.
From Verif.Proof Require Export SvcjCondProofs.
Import Verif.Model.SvcjCond Verif.Proof.SvcjAna Verif.Proof.SvcjIezProofs Verif.Proof.SvcjCondProofs.
Local Open Scope R_scope.

(** ** the jump moments are positive at positive values, so their polynomials are not empty *)
Lemma sumR_pos {A} (f : A -> R) x l : (forall y, In y (x :: l) -> 0 < f y) -> 0 < sumR f (x :: l).
Proof.
  revert x. induction l as [|z l IH]; intros x h.
  - cbn [sumR]. rewrite Rplus_0_r. apply h. now left.
  - change (sumR f (x :: z :: l)) with (f x + sumR f (z :: l)). apply Rplus_lt_0_compat; [apply h; now left|].
    apply IH. intros; apply h; now right.
Qed.
Lemma combN_pos n : forall k, (k <= n)%nat -> (0 < combN n k)%Z.
Proof.
  induction n as [|n IH]; intros [|k] h; try lia; [rewrite combN_0; lia..|]. rewrite combN_S.
  pose proof (IH k ltac:(lia)). pose proof (combN_nonneg n (S k)). lia.
Qed.
Lemma s3mul_pos f g i j l :
  (forall a b c, (a <= i)%nat -> (b <= j)%nat -> (c <= l)%nat -> 0 < f a b c) ->
  (forall a b c, (a <= i)%nat -> (b <= j)%nat -> (c <= l)%nat -> 0 < g a b c) -> 0 < s3mul f g i j l.
Proof.
  intros h1 h2. rewrite s3mul_sum.
  assert (C : forall n k, (k <= n)%nat -> 0 < IZR (combN n k)) by (intros; apply IZR_lt; now apply combN_pos).
  apply sumR_pos. intros a Ha. apply (in_seq (S i) 0) in Ha. apply Rmult_lt_0_compat; [apply C; lia|].
  apply sumR_pos. intros b Hb. apply (in_seq (S j) 0) in Hb. apply Rmult_lt_0_compat; [apply C; lia|].
  apply sumR_pos. intros c Hc. apply (in_seq (S l) 0) in Hc. apply Rmult_lt_0_compat; [apply C; lia|].
  apply Rmult_lt_0_compat; [apply h1|apply h2]; lia.
Qed.
Lemma sexp_pos K : (forall i j l, (0 < i + j + l)%nat -> 0 < K i j l) -> forall i j l, 0 < sexp K i j l.
Proof.
  intro h. assert (G : forall N i j l, (i + j + l <= N)%nat -> 0 < sexp K i j l).
  { induction N as [|N IH]; intros i j l Hn.
    - destruct i, j, l; try lia. rewrite sexp_0. lra.
    - destruct i as [|i]; [destruct j as [|j]; [destruct l as [|l]; [rewrite sexp_0; lra|]|]|].
      + change (0 < D3 (sexp K) 0%nat 0%nat l). rewrite sexp_D3. apply s3mul_pos; intros; [apply h; lia|apply IH; lia].
      + change (0 < D2 (sexp K) 0%nat j l). rewrite sexp_D2. apply s3mul_pos; intros; [apply h; lia|apply IH; lia].
      + change (0 < D1 (sexp K) i j l). rewrite sexp_D1. apply s3mul_pos; intros; [apply h; lia|apply IH; lia]. }
  intros i j l. now apply (G (i + j + l)%nat).
Qed.
Lemma V_pos n : 0 < V n 1 1.
Proof.
  enough (G : 0 < V n 1 1 /\ 0 < V (S n) 1 1) by apply G. induction n as [|n [h1 h2]].
  - rewrite V_0, V_1. lra.
  - split; [assumption|]. rewrite V_stein.
    assert (0 < INR (S n)) by (apply lt_0_INR; lia). nra.
Qed.
Definition v1 : cjv := mkCj 1 R1_neq_R0 1 1 1 1 1 1 1.
Lemma jm6_pos i j l : 0 < jm6 v1 0 1 i j l.
Proof.
  apply sexp_pos. intros a b c _. unfold jcum, ejv. cbn [jvals q_l q_v q_m q_g v1 wk wlam wmv wms wss].
  rewrite !pow1. assert (0 < V c 1 1) by apply V_pos.
  assert (0 < IZR (factN (a + b))).
  { apply IZR_lt. induction (a + b)%nat as [|m IH]; [simpl; lia|]. rewrite factN_S. lia. }
  assert (0 < tker (jvals 1 1 1 1 1 0 1) a).
  { unfold tker. destruct a as [|a]; cbn [jvals q_d q_i q_t q_s]; [lra|].
    assert (0 < INR (S a)) by (apply lt_0_INR; lia).
    assert (E : exp (1 * 0) ^ S a < exp (1 * 1) ^ S a).
    { rewrite !exp_pow. apply exp_increasing. nra. }
    rewrite Rinv_1, Rmult_1_l. apply Rmult_lt_0_compat; [now apply Rinv_0_lt_compat|lra]. }
  repeat (apply Rmult_lt_0_compat; try assumption); lra.
Qed.

(** ** key_times_poly *)
Definition kt9 (v : cjv) (t : R) (k : list Z) : R :=
  pw (exp (wk v * t)) (nthZ k 0) * pw t (nthZ k 1) * pw (/ wk v) (nthZ k 4) * pw (wlam v) (nthZ k 5)
  * pw (wmv v) (nthZ k 6) * pw (wms v) (nthZ k 7) * pw (wss v) (nthZ k 8).
Lemma mon9_split v s t k : P9 k -> mon9 (v, s, t) k = kt9 v t k * (exp (IZR (nthZ k 2) * (wk v * s)) * pw s (nthZ k 3)).
Proof.
  intro h. unfold P9, s9 in h. wfs_destruct. unfold mon9, kt9, nthZ. cbn [monx nth]. rewrite <- pw_exp. ring.
Qed.
Lemma key_times6_spec k p e : P9 k -> wfp (P10 e) kf_ieii6 p -> wfp (P10 e) kf_ieii6 (svcj_key_times_poly k p) /\
  forall v t, evp mon10 (v, t) (svcj_key_times_poly k p) = kt9 v t k * evp mon10 (v, t) p.
Proof.
  intros Hk (_ & U & A). unfold P9, s9 in Hk. wfs_destruct.
  set (k0 := [x; x0; x1; x2; x3; x4; x5; x6; x7]).
  set (f := fun kv : list Z * Q => let key := fst kv in
    [nthZ key 0 + nthZ k0 0; nthZ key 1 + nthZ k0 1; nthZ key 2 + nthZ k0 4; nthZ key 3; nthZ key 4;
            nthZ key 5; nthZ key 6 + nthZ k0 5; nthZ key 7 + nthZ k0 6; nthZ key 8 + nthZ k0 7;
            nthZ key 9 + nthZ k0 8]%Z).
  assert (Hf : forall kv, In kv (items p) -> P10 e (f kv)).
  { intros [key y] Hin. destruct (allk_in (P10 e) _ key y A Hin) as [Hkey Hd]. unfold s10 in Hkey. wfs_destruct. subst f k0.
    unfold P10, s10, nthZ in *. cbn [fst nth wfs] in *. lia. }
  pose proof (adds_fold (P10 e) mon10 f snd (items p) Hf [] (wfl_nil (P10 e))) as [W E]. split.
  - split; [reflexivity|exact W].
  - intros v t. specialize (E (v, t)). unfold ev in E. cbn [eval] in E. rewrite Rplus_0_l in E.
    unfold evp, svcj_key_times_poly; cbn [items]. etransitivity; [exact E|].
    rewrite sumR_eval, <- sumR_scal. apply sumR_ext. intros [key y] Hin.
    destruct (allk_in (P10 e) _ key y A Hin) as [Hkey _]. unfold s10 in Hkey. wfs_destruct. subst f k0.
    pose proof (wkn v) as Hc.
    unfold mon10, i6vals, kt9, nthZ; cbn [fst snd nth monx]. pws. ring.
Qed.

(** ** one branch *)
Definition has6 (T : cache6) (i : cj_idx) : Prop := exists d, cget i T = Ok d /\ Good6 i d.
Definition sixz (n : Z * Z * Z) (i1 i2 i3 : Z) : cj_idx := let '(n1, n2, n3) := n in (n1, n2, n3, i1, i2, i3).

Lemma exp_w (w : nat) x : exp (IZR (Z.of_nat w - 1) * x) = exp x ^ w * exp (- x).
Proof. rewrite exp_pow, <- exp_plus. f_equal. rewrite minus_IZR, <- INR_IZR_INZ. ring. Qed.

Lemma branch_spec T k c m (w : nat) a1 a2 a3 i1 i2 i3 D : P9 k -> dom3 (a1, a2, a3) -> (0 <= i1)%Z -> (0 <= i2)%Z -> (0 <= i3)%Z ->
  m = (Z.of_nat w - 1)%Z -> (a1 + a2 + a3 + 2 <= D)%Z ->
  has6 T (a1, a2, a3, i1, i2, i3) -> has6 T (a1 + 1, a2, a3, i1, i2, i3)%Z -> has6 T (a1, a2, a3, i1 + 1, i2, i3)%Z ->
  adds (wfp (P10 D) kf_ieii6) (evp mon10) (svcj_branch T k c m a1 a2 a3 i1 i2 i3)
    (fun x => RInt (fun s => mon9 (fst x, s, snd x) k *
       hb (JM6 (fst x)) (fst x) s (Q2R c, w, (a1, a2, a3)) (Z.to_nat i1) (Z.to_nat i2) (Z.to_nat i3)) 0 (snd x)).
Proof.
  intros Hk (p1 & p2 & p3) hi1 hi2 hi3 Hm HD (d1 & e1 & g1) (d2 & e2 & g2) (d3 & e3 & g3) poly Hp. unfold svcj_branch.
  rewrite e1, e2, e3. cbn [bind].
  assert (H3 : (0 <= nthZ k 3)%Z) by (clear -Hk; unfold P9, s9 in Hk; wfs_destruct; exact hx2).
  eapply returns_bind; [apply (int_e_good6 c 1 (nthZ k 2 + m)%Z (nthZ k 3) (a1, a2, a3, i1, i2, i3) d1 D); [lia|lia|cbn [deg6 Z.eqb Pos.eqb]; lia|exact g1]|]. intros q1 [W1 E1].
  eapply returns_bind; [apply (int_e_good6 c 2 (nthZ k 2 + (m + 1))%Z (nthZ k 3) (a1, a2, a3, i1, i2, i3) d1 D); [lia|lia|cbn [deg6 Z.eqb Pos.eqb]; lia|exact g1]|]. intros q2 [W2 E2].
  eapply returns_bind; [apply (padd_sp (P10 D) mon10 kf_ieii6 q1 q2 W1 W2)|]. intros r2 [V2 F2].
  eapply returns_bind; [apply (int_e_good6 c 3 (nthZ k 2 + m)%Z (nthZ k 3) (a1 + 1, a2, a3, i1, i2, i3)%Z d2 D); [lia|lia|cbn [deg6 Z.eqb Pos.eqb]; lia|exact g2]|]. intros q3 [W3 E3].
  eapply returns_bind; [apply (padd_sp (P10 D) mon10 kf_ieii6 r2 q3 V2 W3)|]. intros r3 [V3 F3].
  eapply returns_bind; [apply (int_e_good6 c 4 (nthZ k 2 + m)%Z (nthZ k 3) (a1, a2, a3, i1 + 1, i2, i3)%Z d3 D); [lia|lia|cbn [deg6 Z.eqb Pos.eqb]; lia|exact g3]|]. intros q4 [W4 E4].
  eapply returns_bind; [apply (padd_sp (P10 D) mon10 kf_ieii6 r3 q4 V3 W4)|]. intros r4 [V4 F4].
  destruct (key_times6_spec k r4 D Hk V4) as [W5 E5].
  eapply returns_weaken; [exact (padd_sp (P10 D) mon10 kf_ieii6 poly _ Hp W5)|]. intros r [V F]. split; [assumption|].
  intros [v t]. rewrite F, E5. f_equal. cbn [fst snd].
  rewrite F4, F3, F2, E1, E2, E3, E4.
  assert (C : forall c tp m1 i s, cj_dom i -> continuous (fun s => ter6 c tp m1 (nthZ k 3) i v s) s) by (intros; now apply ter6_cont).
  assert (D1 : cj_dom (a1, a2, a3, i1, i2, i3)) by (unfold cj_dom; lia).
  assert (D2 : cj_dom (a1 + 1, a2, a3, i1, i2, i3)%Z) by (unfold cj_dom; lia).
  assert (D3 : cj_dom (a1, a2, a3, i1 + 1, i2, i3)%Z) by (unfold cj_dom; lia).
  set (t1 := ter6 (Q2R c) 1 _ _ _ v). set (t2 := ter6 (Q2R c) 2 _ _ _ v). set (t3 := ter6 (Q2R c) 3 _ _ _ v). set (t4 := ter6 (Q2R c) 4 _ _ _ v).
  assert (C1 : forall s, continuous t1 s) by (intro; now apply C). assert (C2 : forall s, continuous t2 s) by (intro; now apply C).
  assert (C3 : forall s, continuous t3 s) by (intro; now apply C). assert (C4 : forall s, continuous t4 s) by (intro; now apply C).
  rewrite <- (RInt_Rplus t1 t2) by assumption.
  rewrite <- (RInt_Rplus (fun s => t1 s + t2 s) t3) by (intro; first [apply C3|apply continuous_Rplus; [apply C1|apply C2]]).
  rewrite <- (RInt_Rplus (fun s => t1 s + t2 s + t3 s) t4)
    by (intro; first [apply C4|apply continuous_Rplus; [apply continuous_Rplus; [apply C1|apply C2]|apply C3]]).
  rewrite <- RInt_Rscal by (intro; apply continuous_Rplus; [apply continuous_Rplus; [apply continuous_Rplus; [apply C1|apply C2]|apply C3]|apply C4]).
  apply RInt_ext_all. intro s. rewrite mon9_split by assumption. unfold t1, t2, t3, t4, ter6, fac6, hb, inc1, six. cbn [Z.eqb Pos.eqb].
  rewrite !Z2Nat.id by lia. replace (Z.of_nat (S (Z.to_nat i1))) with (i1 + 1)%Z by lia.
  subst m. replace (Z.of_nat w - 1 + 1)%Z with (Z.of_nat w) by lia.
  rewrite !plus_IZR, !Rmult_plus_distr_r, !exp_plus, exp_w.
  replace (exp (IZR (Z.of_nat w) * (wk v * s))) with (exp (wk v * s) ^ w) by (rewrite exp_pow, INR_IZR_INZ; reflexivity).
  ring.
Qed.

Lemma adds_seq {S T} (wf : S -> Prop) (val : T -> S -> R) f g G1 G2 : adds wf val f G1 -> adds wf val g G2 ->
  adds wf val (fun s => let! x := f s in g x) (fun t => G1 t + G2 t).
Proof.
  intros h1 h2 s Hs. eapply returns_bind; [apply h1, Hs|]. intros a [Wa Ea].
  eapply returns_weaken; [apply h2, Wa|]. intros b [Wb Eb]. split; [assumption|]. intro t. rewrite Eb, Ea. ring.
Qed.
Lemma adds_ok {S T} (wf : S -> Prop) (val : T -> S -> R) : adds wf val (fun s => Ok s) (fun _ => 0).
Proof. intros s Hs. cbn [returns]. split; [assumption|]. intro; ring. Qed.

Definition full6 (T : cache6) (n : Z) : Prop :=
  forall n1 n2 n3 n4 n5 n6, cj_dom (n1, n2, n3, n4, n5, n6) -> (n1 + n2 + n3 + n4 + n5 + n6 < n)%Z -> has6 T (n1, n2, n3, n4, n5, n6).

Definition hbs (v : cjv) (s : R) (l : list (R * nat * (Z * Z * Z))) (i1 i2 i3 : Z) : R :=
  sumR (fun b => hb (JM6 v) v s b (Z.to_nat i1) (Z.to_nat i2) (Z.to_nat i3)) l.

Lemma mon9_cont v t k (s : R) : P9 k -> continuous (fun s => mon9 (v, s, t) k) s.
Proof.
  intro h. apply (continuous_ext_all (fun s => kt9 v t k * (exp (IZR (nthZ k 2) * (wk v * s)) * s ^ Z.to_nat (nthZ k 3)))).
  { intro x. rewrite mon9_split by assumption. rewrite pw_Zpos; [reflexivity|]. unfold P9, s9 in h. wfs_destruct. exact hx2. }
  apply (ex_derive_continuous (V := R_NormedModule)). auto_derive. trivial.
Qed.

(** a branch with its condition *)
Lemma cond_branch T k x bino (b : bool) c cr m (w : nat) a1 a2 a3 i1 i2 i3 D : P9 k -> (0 <= i1)%Z -> (0 <= i2)%Z -> (0 <= i3)%Z ->
  m = (Z.of_nat w - 1)%Z -> Q2R c = IZR bino * cr * Q2R x ->
  (b = true -> dom3 (a1, a2, a3) /\ (a1 + a2 + a3 + 2 <= D)%Z /\ full6 T (a1 + a2 + a3 + i1 + i2 + i3 + 2)) ->
  adds (wfp (P10 D) kf_ieii6) (evp mon10) (fun poly => if b then svcj_branch T k c m a1 a2 a3 i1 i2 i3 poly else Ok poly)
    (fun y => RInt (fun s => IZR bino * Q2R x * mon9 (fst y, s, snd y) k *
      hbs (fst y) s (if b then [(cr, w, (a1, a2, a3))] else []) i1 i2 i3) 0 (snd y)).
Proof.
  intros Hk h1 h2 h3 Hm Hc Hb. destruct b.
  - destruct (Hb eq_refl) as (Hd & HD & HT). pose proof Hd as (p1 & p2 & p3). eapply adds_ext.
    + apply (branch_spec T k c m w a1 a2 a3 i1 i2 i3 D); try assumption; apply HT; unfold cj_dom; lia.
    + intros [v t]. cbn [fst snd]. apply RInt_ext_all. intro s. unfold hbs. cbn [sumR]. unfold hb. rewrite Hc. ring.
  - eapply adds_ext; [apply adds_ok|]. intros [v t]. cbn [fst snd]. symmetry.
    rewrite (RInt_ext_all _ (fun _ => 0)) by (intro; unfold hbs; cbn [sumR]; ring).
    rewrite RInt_const. unfold scal; simpl; unfold mult; simpl. ring.
Qed.

Lemma hbs_cont v l i1 i2 i3 (s : R) : (forall b, In b l -> dom3 (snd b)) -> continuous (fun s => hbs v s l i1 i2 i3) s.
Proof.
  intro h. unfold hbs. apply (continuous_sumR (fun b s => hb (JM6 v) v s b (Z.to_nat i1) (Z.to_nat i2) (Z.to_nat i3))).
  intros b Hb. apply hb_cont. now apply h.
Qed.
Lemma item_cont v t k x bino l i1 i2 i3 (s : R) : P9 k -> (forall b, In b l -> dom3 (snd b)) ->
  continuous (fun s => IZR bino * Q2R x * mon9 (v, s, t) k * hbs v s l i1 i2 i3) s.
Proof.
  intros Hk h. apply continuous_Rmult; [|now apply hbs_cont]. apply continuous_Rmult; [apply continuous_Rconst|now apply mon9_cont].
Qed.

Lemma Q2R_half6 n : Q2R (Frac (n * (n - 1)) 2) = IZR (n * (n - 1)) / 2.
Proof. rewrite Q2R_Frac by lia. reflexivity. Qed.

Lemma item_spec T bino n1 n2 n3 i1 i2 i3 k x : dom3 (n1, n2, n3) -> (0 <= i1)%Z -> (0 <= i2)%Z -> (0 <= i3)%Z ->
  full6 T (n1 + n2 + n3 + i1 + i2 + i3) -> P9 k ->
  adds (wfp (P10 (n1 + n2 + n3)) kf_ieii6) (evp mon10) (fun poly => svcj_item T bino n1 n2 n3 i1 i2 i3 poly (k, x))
    (fun y => RInt (fun s => IZR bino * Q2R x * mon9 (fst y, s, snd y) k * hbs (fst y) s (cj_brackets n1 n2 n3) i1 i2 i3) 0 (snd y)).
Proof.
  intros (p1 & p2 & p3) h1 h2 h3 HT Hk. unfold svcj_item. cbn [fst snd]. cbv zeta.
  replace (0 <=? n1)%Z with true by (symmetry; apply Z.leb_le; assumption).
  replace (0 <=? n2)%Z with true by (symmetry; apply Z.leb_le; assumption).
  replace (0 <=? n3)%Z with true by (symmetry; apply Z.leb_le; assumption).
  rewrite !Bool.andb_true_r. cbn [andb].
  assert (FT : forall m, (m <= n1 + n2 + n3 + i1 + i2 + i3)%Z -> full6 T m).
  { intros m Hm j1 j2 j3 j4 j5 j6 Hd Hl. apply HT; [assumption|lia]. }
  set (b1 := (2 <=? n1)%Z). set (b2 := (2 <=? n2)%Z). set (b3 := ((1 <=? n1) && (1 <=? n2))%Z). set (b4 := (2 <=? n3)%Z).
  assert (B1 : b1 = true -> (2 <= n1)%Z) by (unfold b1; intro h; now apply Z.leb_le).
  assert (B2 : b2 = true -> (2 <= n2)%Z) by (unfold b2; intro h; now apply Z.leb_le).
  assert (B3 : b3 = true -> (1 <= n1 /\ 1 <= n2)%Z) by (unfold b3; intro h; apply andb_prop in h; destruct h as [u w]; apply Z.leb_le in u, w; now split).
  assert (B4 : b4 = true -> (2 <= n3)%Z) by (unfold b4; intro h; now apply Z.leb_le).
  eapply adds_ext.
  - eapply adds_seq; [|eapply adds_seq; [|eapply adds_seq]].
    + apply (cond_branch T k x bino b1 _ (IZR (n1 * (n1 - 1)) / 2) 1 2 (n1 - 2) n2 n3 i1 i2 i3); try assumption; [lia| |].
      * rewrite !Q2R_mul, Q2R_qz, Q2R_half6. ring.
      * intro hb. apply B1 in hb. split; [unfold dom3; lia|]. split; [lia|]. apply FT. lia.
    + apply (cond_branch T k x bino b2 _ (IZR (n2 * (n2 - 1)) / 2) (-1) 0 n1 (n2 - 2) n3 i1 i2 i3); try assumption; [lia| |].
      * rewrite !Q2R_mul, Q2R_qz, Q2R_half6. ring.
      * intro hb. apply B2 in hb. split; [unfold dom3; lia|]. split; [lia|]. apply FT. lia.
    + apply (cond_branch T k x bino b3 _ (IZR (n1 * n2)) 0 1 (n1 - 1) (n2 - 1) n3 i1 i2 i3); try assumption; [lia| |].
      * rewrite !Q2R_mul, Q2R_qz, !mult_IZR. ring.
      * intro hb. apply B3 in hb. split; [unfold dom3; lia|]. split; [lia|]. apply FT. lia.
    + apply (cond_branch T k x bino b4 _ (IZR (n3 * (n3 - 1)) / 2) (-1) 0 n1 n2 (n3 - 2) i1 i2 i3); try assumption; [lia| |].
      * rewrite !Q2R_mul, Q2R_qz, Q2R_half6. ring.
      * intro hb. apply B4 in hb. split; [unfold dom3; lia|]. split; [lia|]. apply FT. lia.
  - intros [v t]. cbv beta. cbn [fst snd]. unfold cj_brackets. fold b1 b2 b3 b4.
    set (l1 := if b1 then _ else _). set (l2 := if b2 then _ else _). set (l3 := if b3 then _ else _). set (l4 := if b4 then _ else _).
    assert (S1 : forall b, In b l1 -> dom3 (snd b)).
    { subst l1. intros b Hb. destruct b1; [|destruct Hb]. specialize (B1 eq_refl). destruct Hb as [<-|[]]. cbn [snd dom3]. lia. }
    assert (S2 : forall b, In b l2 -> dom3 (snd b)).
    { subst l2. intros b Hb. destruct b2; [|destruct Hb]. specialize (B2 eq_refl). destruct Hb as [<-|[]]. cbn [snd dom3]. lia. }
    assert (S3 : forall b, In b l3 -> dom3 (snd b)).
    { subst l3. intros b Hb. destruct b3; [|destruct Hb]. specialize (B3 eq_refl). destruct Hb as [<-|[]]. cbn [snd dom3]. lia. }
    assert (S4 : forall b, In b l4 -> dom3 (snd b)).
    { subst l4. intros b Hb. destruct b4; [|destruct Hb]. specialize (B4 eq_refl). destruct Hb as [<-|[]]. cbn [snd dom3]. lia. }
    rewrite <- !RInt_Rplus.
    + apply RInt_ext_all. intro s. unfold hbs. rewrite !sumR_app. ring.
    + intro s. now apply item_cont.
    + intro s. apply continuous_Rplus; [now apply item_cont|]. apply continuous_Rplus; now apply item_cont.
    + intro s. now apply item_cont.
    + intro s. apply continuous_Rplus; now apply item_cont.
    + intro s. now apply item_cont.
    + intro s. now apply item_cont.
Qed.

(** ** the recursion *)
Lemma to_good6 z n4 n5 n6 : (0 <= n4)%Z -> (0 <= n5)%Z -> (0 <= n6)%Z -> wfp P_j kf_ieziziz z ->
  (forall v, evp mon_j v z = jmom v (Z.to_nat n4) (Z.to_nat n5) (Z.to_nat n6)) ->
  Good6 (0, 0, 0, n4, n5, n6)%Z (ieziziz_to_ieii z).
Proof.
  intros h4 h5 h6 (_ & U & A) E.
  set (f := fun kv : list Z * Q => [nthZ (fst kv) 0; nthZ (fst kv) 2; nthZ (fst kv) 3; 0; 0; 0; nthZ (fst kv) 4; nthZ (fst kv) 5; nthZ (fst kv) 6; nthZ (fst kv) 7]%Z).
  assert (Hf : forall kv, In kv (items z) -> P10 0 (f kv)).
  { intros [k x] Hin. pose proof (allk_in P_j _ k x A Hin) as Hk. unfold P_j, s8t in Hk. wfs_destruct.
    unfold f, P10, s10, nthZ. cbn [fst nth wfs]. lia. }
  pose proof (adds_fold (P10 0) mon10 f snd (items z) Hf [] (wfl_nil (P10 0))) as [W F].
  split; [split; [reflexivity|exact W]|]. intros v t. specialize (F (v, t)). unfold ev in F. cbn [eval] in F. rewrite Rplus_0_l in F.
  transitivity (evp mon_j (jvals (wk v) (wlam v) (wmv v) (wms v) (wss v) 0 t) z).
  - etransitivity; [exact F|]. unfold evp. rewrite sumR_eval. apply sumR_ext. intros [k x] Hin.
    pose proof (allk_in P_j _ k x A Hin) as Hk. unfold P_j, s8t in Hk. wfs_destruct. cbn [snd]. f_equal.
    unfold f, mon10, i6vals, mon_j, jvl, nthZ. cbn [fst snd nth monx jvals q_t q_s q_d q_i q_l q_v q_m q_g].
    rewrite !pw_0, Rmult_0_r, exp_0, pw_one, Rminus_0_r. ring.
  - rewrite E. change (jm6 v 0 t (Z.to_nat n4) (Z.to_nat n5) (Z.to_nat n6) = JM6 v (0, 0, 0, n4, n5, n6)%Z t).
    rewrite <- Ms6_z. unfold Ms6, six. now rewrite !Z2Nat.id.
Qed.

Lemma s3mul_z f g n4 n5 n6 : (0 <= n4)%Z -> (0 <= n5)%Z -> (0 <= n6)%Z ->
  s3mul f g (Z.to_nat n4) (Z.to_nat n5) (Z.to_nat n6) =
  sumR (fun i1 => sumR (fun i2 => sumR (fun i3 => IZR (mcomb n4 i1 * mcomb n5 i2 * mcomb n6 i3) *
    (f (Z.to_nat (n4 - i1)) (Z.to_nat (n5 - i2)) (Z.to_nat (n6 - i3)) * g (Z.to_nat i1) (Z.to_nat i2) (Z.to_nat i3)))
    (range 0 (n6 + 1))) (range 0 (n5 + 1))) (range 0 (n4 + 1)).
Proof.
  intros h4 h5 h6. replace (s3mul f g) with (s3mul g f) by ring. rewrite s3mul_sum.
  rewrite sumR_range0s by assumption. apply sumR_ext. intros a Ha. apply in_seq in Ha.
  rewrite sumR_range0s by assumption. rewrite <- sumR_scal. apply sumR_ext. intros b Hb. apply in_seq in Hb.
  rewrite sumR_range0s by assumption. rewrite <- !sumR_scal. apply sumR_ext. intros c Hc. apply in_seq in Hc.
  unfold mcomb. rewrite !mult_IZR, !Nat2Z.id.
  replace (Z.to_nat (n4 - Z.of_nat a)) with (Z.to_nat n4 - a)%nat by lia.
  replace (Z.to_nat (n5 - Z.of_nat b)) with (Z.to_nat n5 - b)%nat by lia.
  replace (Z.to_nat (n6 - Z.of_nat c)) with (Z.to_nat n6 - c)%nat by lia. ring.
Qed.

Lemma rec6_spec n1 n2 n3 n4 n5 n6 T : cj_dom (n1, n2, n3, n4, n5, n6) -> full6 T (n1 + n2 + n3 + n4 + n5 + n6) ->
  returns (recursive_ieii6 n1 n2 n3 n4 n5 n6 T) (Good6 (n1, n2, n3, n4, n5, n6)).
Proof.
  intros (p1 & p2 & p3 & p4 & p5 & p6) HT. unfold recursive_ieii6.
  destruct ((n1 =? 0)%Z && (n2 =? 0)%Z && (n3 =? 0)%Z) eqn:E0.
  { apply andb_prop in E0. destruct E0 as [E0 e3]. apply andb_prop in E0. destruct E0 as [e1 e2]. apply Z.eqb_eq in e1, e2, e3. subst.
    eapply returns_bind; [apply moment_ieziziz_spec; assumption|]. intros z [Wz Ez]. cbn [returns]. now apply to_good6. }
  assert (N : (n1, n2, n3) <> (0, 0, 0)%Z).
  { intro e. inversion e; subst. discriminate E0. }
  assert (Hd : dom3 (n1, n2, n3)) by (unfold dom3; lia).
  set (h := fun v s i1 i2 i3 => hs6 (JM6 v) v (n1, n2, n3) s (Z.to_nat i1) (Z.to_nat i2) (Z.to_nat i3)).
  assert (CC : forall v t i1 i2 i3 (s : R), continuous (fun s => IZR (mcomb n4 i1 * mcomb n5 i2 * mcomb n6 i3) *
      (jm6 v s t (Z.to_nat (n4 - i1)) (Z.to_nat (n5 - i2)) (Z.to_nat (n6 - i3)) * h v s i1 i2 i3)) s).
  { intros. apply continuous_Rmult; [apply continuous_Rconst|]. apply continuous_Rmult; [apply jm6_cont|]. unfold h. apply hs6_cont. exact Hd. }
  match goal with |- returns (foldM ?f ?l ?s0) _ =>
    assert (A : adds (wfp (P10 (n1 + n2 + n3)) kf_ieii6) (evp mon10) (foldM f l)
      (fun y => RInt (fun s => s3mul (jm6 (fst y) s (snd y)) (hs6 (JM6 (fst y)) (fst y) (n1, n2, n3) s) (Z.to_nat n4) (Z.to_nat n5) (Z.to_nat n6)) 0 (snd y))) end.
  { eapply adds_ext.
    - apply (adds_foldM _ _ _ (fun i1 y => RInt (fun s => sumR (fun i2 => sumR (fun i3 => IZR (mcomb n4 i1 * mcomb n5 i2 * mcomb n6 i3) *
        (jm6 (fst y) s (snd y) (Z.to_nat (n4 - i1)) (Z.to_nat (n5 - i2)) (Z.to_nat (n6 - i3)) * h (fst y) s i1 i2 i3)) (range 0 (n6 + 1))) (range 0 (n5 + 1))) 0 (snd y))).
      intros i1 Hi1. apply in_range in Hi1. eapply adds_ext.
      + apply (adds_foldM _ _ _ (fun i2 y => RInt (fun s => sumR (fun i3 => IZR (mcomb n4 i1 * mcomb n5 i2 * mcomb n6 i3) *
          (jm6 (fst y) s (snd y) (Z.to_nat (n4 - i1)) (Z.to_nat (n5 - i2)) (Z.to_nat (n6 - i3)) * h (fst y) s i1 i2 i3)) (range 0 (n6 + 1))) 0 (snd y))).
        intros i2 Hi2. apply in_range in Hi2. eapply adds_ext.
        * apply (adds_foldM _ _ _ (fun i3 y => RInt (fun s => IZR (mcomb n4 i1 * mcomb n5 i2 * mcomb n6 i3) *
            (jm6 (fst y) s (snd y) (Z.to_nat (n4 - i1)) (Z.to_nat (n5 - i2)) (Z.to_nat (n6 - i3)) * h (fst y) s i1 i2 i3)) 0 (snd y))).
          intros i3 Hi3. apply in_range in Hi3.
          rewrite !math_comb_ok by lia. cbn [bind].
          apply (adds_bind _ _ _ _ (fun z poly => let! pol1 := expand_ieziziz z in
            match items pol1 with [] => Err BareException | _ => foldM (svcj_item T _ n1 n2 n3 i1 i2 i3) (items pol1) poly end) _
            (moment_ieziziz_spec (n4 - i1) (n5 - i2) (n6 - i3) ltac:(lia) ltac:(lia) ltac:(lia))).
          intros z [Wz Ez].
          apply (adds_bind _ _ _ _ (fun pol1 poly => match items pol1 with [] => Err BareException | _ => foldM (svcj_item T _ n1 n2 n3 i1 i2 i3) (items pol1) poly end) _
            (expand_spec z _ Wz Ez)). intros pol1 [(_ & U1 & A1) E1].
          destruct (items pol1) as [|kv0 r0] eqn:Ei.
          { exfalso. specialize (E1 v1 0 1). unfold evp in E1. rewrite Ei in E1. cbn [eval] in E1.
            pose proof (jm6_pos (Z.to_nat (n4 - i1)) (Z.to_nat (n5 - i2)) (Z.to_nat (n6 - i3))) as P. unfold jm6 in P. lra. }
          rewrite <- Ei. rewrite <- Ei in A1, U1. eapply adds_ext.
          -- apply (adds_foldM _ _ _ (fun kv y => RInt (fun s => IZR (mcomb n4 i1 * mcomb n5 i2 * mcomb n6 i3) * Q2R (snd kv) * mon9 (fst y, s, snd y) (fst kv)
               * hbs (fst y) s (cj_brackets n1 n2 n3) i1 i2 i3) 0 (snd y))).
             intros [k x] Hin. apply item_spec; try assumption; try lia.
             ++ intros j1 j2 j3 j4 j5 j6 Hj Hl. apply HT; [assumption|lia].
             ++ exact (allk_in P9 _ k x A1 Hin).
          -- intros [v t]. cbv beta. cbn [fst snd]. rewrite <- RInt_sumR.
             ++ apply RInt_ext_all. intro s. unfold jm6. rewrite <- E1. unfold evp. rewrite (sumR_eval (mon9 (v, s, t))).
                rewrite (Rmult_comm (sumR _ _) (h v s i1 i2 i3)), <- !sumR_scal. apply sumR_ext. intros kv _. unfold h, hs6, hbs, brk. ring.
             ++ intros [k x] Hin s. cbn [fst snd]. apply item_cont; [exact (allk_in P9 _ k x A1 Hin)|].
                intros [[c w] a] Hb. exact (brk_dom (n1, n2, n3) Hd c w a Hb).
        * intros [v t]. cbv beta. cbn [fst snd]. symmetry. apply (RInt_sumR (fun i3 s => _)). intros; apply CC.
      + intros [v t]. cbv beta. cbn [fst snd]. symmetry. apply (RInt_sumR (fun i2 s => _)). intros i2 _ s.
        apply (continuous_sumR (fun i3 s => _)). intros; apply CC.
    - intros [v t]. cbv beta. cbn [fst snd]. symmetry.
      erewrite RInt_ext_all; [|intro s; apply s3mul_z; assumption].
      apply (RInt_sumR (fun i1 s => _)). intros i1 _ s.
      apply (continuous_sumR (fun i2 s => _)). intros i2 _. apply (continuous_sumR (fun i3 s => _)). intros; apply CC. }
  eapply returns_weaken; [apply A, wfp_nil|]. intros p [W E]. split; [exact W|]. intros v t. rewrite E.
  unfold evp at 1; cbn [items eval fst snd]. rewrite Rplus_0_l. apply RInt_eq.
  replace (JM6 v (n1, n2, n3, n4, n5, n6) t) with (Ms6 v (n1, n2, n3) t (Z.to_nat n4) (Z.to_nat n5) (Z.to_nat n6))
    by (unfold Ms6, six; now rewrite !Z2Nat.id).
  now apply Ms6_pos.
Qed.
