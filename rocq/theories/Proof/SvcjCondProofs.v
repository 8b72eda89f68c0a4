(** Proofs about mdl_svcj/cond_ieii_ieziziz_mom.py (C37). *)
From Coq Require Import Reals Lra.
From Coquelicot Require Import Coquelicot.
From Verif.Model Require Export SvcjCond.
From Verif.Proof Require Import ItoProofs SrjdCondProofs.
From Verif.Proof Require Export SvcjIezTable SvcjAna.
Import Verif.Model.SvcjCond Verif.Proof.SvcjAna Verif.Proof.SvcjIezProofs.
Local Open Scope R_scope.

(** ** keys *)
Definition s10 : list bool := [false; true; true; true; true; true; true; true; true; true].
(** all exponents but the first are non-negative, and that of v_0 - theta is at most d/2 *)
Definition P10 (d : Z) (k : list Z) : Prop := wfs s10 k /\ (2 * nthZ k 3 <= d)%Z.
Notation CT6 := (cjv * R)%type.
Definition i6vals (w : CT6) : list R := let v := fst w in
  [exp (wk v * snd w); snd w; / wk v; wa v; wb v; wsg v; wlam v; wmv v; wms v; wss v].
Definition mon10 (w : CT6) : list Z -> R := monx (i6vals w).
Definition fac6 (tp : Z) (v : cjv) : R :=
  if (tp =? 1)%Z then wa v else if (tp =? 2)%Z then wb v else if (tp =? 3)%Z then wsg v else 1.
(** the part of a monomial that does not depend on t *)
Definition rest10 (v : cjv) (k : list Z) : R :=
  monx [/ wk v; wa v; wb v; wsg v; wlam v; wmv v; wms v; wss v] (tl (tl k)).

Lemma mon10_split v t k : wfs s10 k -> mon10 (v, t) k = exp (IZR (nthZ k 0) * (wk v * t)) * pw t (nthZ k 1) * rest10 v k.
Proof. intro h. unfold s10 in h. wfs_destruct. unfold mon10, i6vals, rest10, nthZ. cbn [fst snd monx tl nth]. rewrite <- pw_exp. ring. Qed.

Lemma ies_key_P10 tp k K d d' : P10 d k -> etk K -> (1 <= tp <= 4)%Z -> (d + (if tp =? 1 then 2 else 0) <= d')%Z ->
  P10 d' (ies_key tp k K).
Proof.
  intros [Hk Hd] (h0 & h1 & h2) Ht Hdd. destruct K as [|a [|b [|c [|? ?]]]]; try discriminate h0.
  unfold nthZ in h1, h2; cbn [nth] in h1, h2. unfold s10 in *. wfs_destruct. unfold nthZ in Hd; cbn [nth] in Hd.
  assert (E : (tp = 1 \/ tp = 2 \/ tp = 3 \/ tp = 4)%Z) by lia.
  destruct E as [->|[->|[->| ->]]]; cbn [Z.eqb Pos.eqb] in Hdd; unfold P10, s10, ies_key, nthZ;
    cbn [fst snd tl nth skipn app addat Z.leb Z.eqb andb Z.compare Pos.compare Pos.compare_cont Pos.eqb];
    change (Z.to_nat (1 + 2)) with 3%nat; change (Z.to_nat (2 + 2)) with 4%nat; change (Z.to_nat (3 + 2)) with 5%nat;
    cbn [addat wfs nth]; lia.
Qed.
Lemma ies_key_mon tp k K v t : wfs s10 k -> etk K -> (1 <= tp <= 4)%Z ->
  mon10 (v, t) (ies_key tp k K) = etmon (wk v) t K * (fac6 tp v * rest10 v k).
Proof.
  intros Hk (h0 & h1 & h2) Ht. destruct K as [|a [|b [|c [|? ?]]]]; try discriminate h0.
  unfold nthZ in h1, h2; cbn [nth] in h1, h2. unfold s10 in *. wfs_destruct. pose proof (wkn v) as Hc.
  assert (E : (tp = 1 \/ tp = 2 \/ tp = 3 \/ tp = 4)%Z) by lia.
  destruct E as [->|[->|[->| ->]]]; unfold ies_key, mon10, i6vals, etmon, rest10, fac6, nthZ;
    cbn [fst snd tl nth skipn app addat monx Z.leb Z.eqb andb Z.compare Pos.compare Pos.compare_cont Pos.eqb];
    change (Z.to_nat (1 + 2)) with 3%nat; change (Z.to_nat (2 + 2)) with 4%nat; change (Z.to_nat (3 + 2)) with 5%nat;
    cbn [addat monx]; pws; ring.
Qed.

Lemma mon10_cont v k (s : R) : wfs s10 k -> continuous (fun s => mon10 (v, s) k) s.
Proof.
  intro h. apply (continuous_ext_all (fun s => exp (IZR (nthZ k 0) * (wk v * s)) * s ^ Z.to_nat (nthZ k 1) * rest10 v k)).
  { intro x. rewrite mon10_split by assumption. rewrite pw_Zpos; [reflexivity|]. unfold s10 in h. wfs_destruct. exact hx0. }
  apply (ex_derive_continuous (V := R_NormedModule)). auto_derive. trivial.
Qed.

Lemma int_e_s_poly_spec c tp m1 m2 d e e' : (1 <= tp <= 4)%Z -> (0 <= m2)%Z -> allk (P10 e) (items d) ->
  (e + (if tp =? 1 then 2 else 0) <= e')%Z ->
  returns (int_e_s_poly c tp m1 m2 d) (fun q => wfp (P10 e') kf_ieii6 q /\ forall v t,
    evp mon10 (v, t) q = RInt (fun s => Q2R c * (fac6 tp v * (exp (IZR m1 * (wk v * s)) * pw s m2 * evp mon10 (v, s) d))) 0 t).
Proof.
  intros Ht Hm Hd He. unfold int_e_s_poly.
  set (G := fun (kv : list Z * Q) (w : CT6) =>
    Q2R c * Q2R (snd kv) * (fac6 tp (fst w) * rest10 (fst w) (fst kv)) * etv (nthZ (fst kv) 0 + m1) (nthZ (fst kv) 1 + m2) (wk (fst w)) (snd w)).
  match goal with |- returns (bind (foldM ?f _ _) _) _ => set (F := f) end.
  assert (A : adds (wfl (P10 e')) (ev mon10) (foldM F (items d)) (fun w => sumR (fun kv => G kv w) (items d))).
  { apply adds_foldM. intros [k x] Hin. unfold F; cbn [fst snd]. cbv zeta.
    pose proof (allk_in (P10 e) _ k x Hd Hin) as Hk.
    assert (H1 : (0 <= nthZ k 1)%Z) by (destruct Hk as [Hk _]; clear -Hk; unfold s10 in Hk; wfs_destruct; exact hx0).
    pose proof (int_et_spec (nthZ k 0 + m1) (nthZ k 1 + m2) ltac:(lia)) as I.
    destruct (int_et (nthZ k 0 + m1) (nthZ k 1 + m2)) as [r|] eqn:Er; [|destruct I]. destruct I as (_ & Ar & _). cbn [bind].
    eapply adds_ext.
    - apply (adds_fold (P10 e') mon10 (fun KV : list Z * Q => ies_key tp k (fst KV)) (fun KV => qmul (qmul c x) (snd KV))).
      intros [K y] HK. cbn [fst]. apply (ies_key_P10 tp k K e e'); try assumption. apply Ar. now apply (in_keys _ _ _) in HK.
    - intros [v t]. unfold G, etv; cbn [fst snd]. rewrite Er. rewrite (sumR_eval (etmon (wk v) t)), <- sumR_scal.
      apply sumR_ext. intros [K y] HK. cbn [fst snd]. rewrite !Q2R_mul, ies_key_mon.
      + ring.
      + apply Hk.
      + apply Ar. now apply (in_keys _ _ _) in HK.
      + assumption. }
  eapply returns_bind; [apply A, wfl_nil|]. intros a ((U & AL) & E). cbn [returns].
  split; [now split|]. intros v t. unfold evp; cbn [items]. specialize (E (v, t)). unfold ev in E. rewrite E.
  cbn [eval]. rewrite Rplus_0_l. symmetry. apply RInt_eq.
  assert (N1 : forall k x, In (k, x) (items d) -> (0 <= nthZ k 1 + m2)%Z /\ wfs s10 k).
  { intros k x Hin. destruct (allk_in (P10 e) _ k x Hd Hin) as [Hk _]. split; [|assumption].
    clear -Hk Hm. unfold s10 in Hk. wfs_destruct. unfold nthZ; cbn [nth]. lia. }
  replace (sumR (fun kv => G kv (v, t)) (items d))
    with (sumR (fun kv => G kv (v, t)) (items d) - sumR (fun kv => G kv (v, 0)) (items d)).
  2: { rewrite (sumR_0 (fun kv => G kv (v, 0))); [ring|]. intros [k x] Hin. unfold G; cbn [fst snd].
       rewrite (proj1 (etv_spec _ _ _ (proj1 (N1 k x Hin)) (wkn v))). ring. }
  apply (RInt_of_derive (fun t => sumR (fun kv => G kv (v, t)) (items d))).
  - intro s. eapply is_derive_val.
    + apply (is_derive_sumR (fun kv t => G kv (v, t)) (fun kv => Q2R c * (fac6 tp v * (exp (IZR m1 * (wk v * s)) * pw s m2 * (Q2R (snd kv) * mon10 (v, s) (fst kv)))))).
      intros [k x] Hin. destruct (N1 k x Hin) as [H1 Hk].
      unfold G; cbn [fst snd]. eapply is_derive_val.
      * apply is_derive_Rscal. apply (proj2 (etv_spec _ _ _ H1 (wkn v))).
      * cbv beta. rewrite mon10_split by assumption. rewrite plus_IZR, Rmult_plus_distr_r, exp_plus.
        assert (H1' : (0 <= nthZ k 1)%Z) by (clear -Hk; unfold s10 in Hk; wfs_destruct; exact hx0).
        rewrite (pow_lemma_pw s) by (right; lia). ring.
    + rewrite !sumR_scal. rewrite (sumR_eval (mon10 (v, s))). reflexivity.
  - intro s. apply continuous_Rmult; [apply continuous_Rconst|]. apply continuous_Rmult; [apply continuous_Rconst|].
    apply continuous_Rmult.
    + apply (continuous_ext_all (fun s => exp (IZR m1 * (wk v * s)) * s ^ Z.to_nat m2)); [intro; now rewrite pw_Zpos by assumption|].
      apply (ex_derive_continuous (V := R_NormedModule)). auto_derive. trivial.
    + apply (continuous_ext_all (fun s => sumR (fun kv => Q2R (snd kv) * mon10 (v, s) (fst kv)) (items d))); [intro; symmetry; apply sumR_eval|].
      apply (continuous_sumR (fun kv s => Q2R (snd kv) * mon10 (v, s) (fst kv))).
      intros [k x] Hin. cbn [fst snd]. apply continuous_Rmult; [apply continuous_Rconst|]. apply mon10_cont. exact (proj2 (N1 k x Hin)).
Qed.

(** ** polynomials that represent a moment *)
Definition deg6 (i : cj_idx) : Z := let '(n1, n2, n3, _, _, _) := i in (n1 + n2 + n3)%Z.
Definition Good6 (i : cj_idx) (p : Poly (list Z)) : Prop :=
  wfp (P10 (deg6 i)) kf_ieii6 p /\ forall v t, evp mon10 (v, t) p = JM6 v i t.

(** the integrand of one call of int_e_s_poly *)
Definition ter6 (c : R) (tp m1 m2 : Z) (i : cj_idx) (v : cjv) (s : R) : R :=
  c * (fac6 tp v * (exp (IZR m1 * (wk v * s)) * pw s m2 * JM6 v i s)).
Lemma ter6_cont c tp m1 m2 i v (s : R) : (0 <= m2)%Z -> cj_dom i -> continuous (ter6 c tp m1 m2 i v) s.
Proof.
  intros hm h. unfold ter6. apply continuous_Rmult; [apply continuous_Rconst|].
  apply continuous_Rmult; [apply continuous_Rconst|]. apply continuous_Rmult; [|now apply JM6_cont].
  apply (continuous_ext_all (fun s => exp (IZR m1 * (wk v * s)) * s ^ Z.to_nat m2)); [intro; now rewrite pw_Zpos by assumption|].
  apply (ex_derive_continuous (V := R_NormedModule)). auto_derive. trivial.
Qed.
Lemma int_e_good6 c tp m1 m2 i d e : (1 <= tp <= 4)%Z -> (0 <= m2)%Z -> (deg6 i + (if tp =? 1 then 2 else 0) <= e)%Z -> Good6 i d ->
  returns (int_e_s_poly c tp m1 m2 d) (fun q => wfp (P10 e) kf_ieii6 q /\ forall v t,
    evp mon10 (v, t) q = RInt (ter6 (Q2R c) tp m1 m2 i v) 0 t).
Proof.
  intros h1 h2 h0 ((_ & _ & g2) & g3). eapply returns_weaken; [now apply (int_e_s_poly_spec c tp m1 m2 d (deg6 i) e)|].
  intros q [W E]. split; [assumption|]. intros v t. rewrite E. apply RInt_ext_all. intro s. unfold ter6. now rewrite g3.
Qed.

(** ** expand_ieziziz *)
Definition s9 : list bool := [true; true; true; true; true; true; true; true; true].
Definition P9 : list Z -> Prop := wfs s9.
Definition mon9 (w : cjv * R * R) : list Z -> R := let '(v, s, t) := w in
  monx [exp (wk v * t); t; exp (wk v * s); s; / wk v; wlam v; wmv v; wms v; wss v].

Lemma monx_cons x xs k ks : monx (x :: xs) (k :: ks) = pw x k * monx xs ks.
Proof. reflexivity. Qed.

Lemma expand_spec z (F : jv -> R) : wfp P_j kf_ieziziz z -> (forall v, evp mon_j v z = F v) ->
  returns (expand_ieziziz z) (fun p => wfp P9 kf_ex9 p /\
    forall v s t, evp mon9 (v, s, t) p = F (jvals (wk v) (wlam v) (wmv v) (wms v) (wss v) s t)).
Proof.
  intros (_ & U & A) E. unfold expand_ieziziz.
  match goal with |- returns (bind (foldM ?f _ _) _) _ => set (B := f) end.
  assert (W : adds (wfl P9) (ev mon9) (foldM B (items z)) (fun w => let '(v, s, t) := w in
    sumR (fun kv => Q2R (snd kv) * mon_j (jvals (wk v) (wlam v) (wmv v) (wms v) (wss v) s t) (fst kv)) (items z))).
  { eapply adds_ext.
    - apply (adds_foldM _ _ _ (fun kv w => let '(v, s, t) := w in Q2R (snd kv) * mon_j (jvals (wk v) (wlam v) (wmv v) (wms v) (wss v) s t) (fst kv))).
      intros [k x] Hin. unfold B; cbn [fst snd]. cbv zeta.
      pose proof (allk_in P_j _ k x A Hin) as Hk. unfold P_j, s8t in Hk. wfs_destruct.
      change (nthZ [x0; x1; x2; x3; x4; x5; x6; x7] 2) with x2.
      change (nthZ [x0; x1; x2; x3; x4; x5; x6; x7] 0) with x0.
      change (nthZ [x0; x1; x2; x3; x4; x5; x6; x7] 1) with x1.
      cbn [skipn app].
      eapply adds_ext.
      + apply (adds_foldM _ _ _ (fun i w => Q2R (qmul (qz (mcomb x2 i * sgn1 (x2 - i))) x) * mon9 w [x0; i; x1; (x2 - i)%Z; x3; x4; x5; x6; x7])).
        intros i Hi. apply in_range in Hi. rewrite math_comb_ok by lia. cbn [bind].
        apply (adds_kv P9 mon9). unfold P9, s9. cbn [wfs]. lia.
      + intros [[v s] t]. cbv beta.
        unfold mon9, mon_j, jvl. cbn [jvals q_t q_s q_d q_i q_l q_v q_m q_g]. cbn [monx].
        set (r1 := pw (/ wk v) x3 * _).
        replace (pw (t - s) x2) with (sumR (fun i => IZR (mcomb x2 i) * (pw t i * pw (- s) (x2 - i))) (range 0 (x2 + 1))).
        * rewrite (Rmult_comm (sumR _ _) r1), <- (sumR_scal r1), <- !sumR_scal. apply sumR_ext. intros i Hi. apply in_range in Hi.
          rewrite Q2R_mul, Q2R_qz, mult_IZR, sgn1_pw by lia.
          replace (pw (- s) (x2 - i)) with (pw (-1) (x2 - i) * pw s (x2 - i)) by (rewrite <- pw_mult by lia; f_equal; ring).
          ring.
        * rewrite sumR_range0s by assumption. rewrite (pw_Zpos (t - s)) by lia.
          replace (t - s) with (t + - s) by ring. rewrite binom_seq. apply sumR_ext. intros i Hi. apply in_seq in Hi.
          unfold mcomb. rewrite Nat2Z.id, !pw_Zpos, Nat2Z.id by lia.
          replace (Z.to_nat (x2 - Z.of_nat i)) with (Z.to_nat x2 - i)%nat by lia. ring.
    - intros [[v s] t]. reflexivity. }
  eapply returns_bind; [apply W, wfl_nil|]. intros a ((Ua & Aa) & Ea). cbn [returns].
  split; [now split|]. intros v s t. unfold evp; cbn [items]. specialize (Ea (v, s, t)). unfold ev in Ea. rewrite Ea.
  cbn [eval]. rewrite Rplus_0_l, <- sumR_eval. apply (E (jvals (wk v) (wlam v) (wmv v) (wms v) (wss v) s t)).
Qed.
