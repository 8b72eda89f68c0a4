(** C44: the SVCJ moments given the jumps of the variance, as expectations. *)
From Coq Require Import Reals Lra.
From Coquelicot Require Import Coquelicot.
From Verif.Spec Require Import SvcjPath.
From Verif.Model Require Import SvcjCond2.
From Verif.Proof Require Import BinConv.
From Verif.Proof Require Export SvcjCond2Proofs.
Import Verif.Model.Svvj Verif.Model.SvcjCond2.
Local Open Scope R_scope.

(** ** the entry of order n *)
Section N.
Context {K2 K T : Type} `{Key K}.
Variables (m : nat) (kf1 kf : list string) (jm : Z -> res (Poly K2)) (key : svkey -> K2 -> K) (cs : list (Poly svkey)) (n : Z).
Variables (P2 : K2 -> Prop) (P3 : K -> Prop) (mon1 : T -> svkey -> R) (mon2 : T -> K2 -> R) (mon3 : T -> K -> R) (b : T -> Z -> R).
Hypothesis Hcs : tabok m 3 kf1 0 n cs.
Hypothesis Hjm : forall i, (0 <= i <= n)%Z -> returns (jm i) (fun r => allk P2 (items r) /\ forall t, eval (mon2 t) (items r) = b t i).
Hypothesis Hkey : forall k1 k2, svok m 3 k1 -> P2 k2 -> P3 (key k1 k2) /\ forall t, mon3 t (key k1 k2) = mon1 t k1 * mon2 t k2.

Lemma cj_n_sp : returns (cj_n jm key kf cs n) (fun r => wfp P3 kf r /\ forall t,
  evp mon3 t r = sumR (fun i => IZR (mcomb n i) * (tabv (mon1 t) cs i * b t (n - i)%Z)) (range_down n)).
Proof.
  unfold cj_n. eapply returns_bind.
  - apply (adds_foldM (wfl P3) (ev mon3) _ (fun i t => IZR (mcomb n i) * (tabv (mon1 t) cs i * b t (n - i)%Z))); [|apply wfl_nil].
    intros i Hi. apply in_range_down in Hi. rewrite math_comb_ok by lia. cbn [bind].
    destruct (Hcs i ltac:(lia)) as (q & Eq & Kq & Uq & Aq). rewrite (getp_nth _ _ _ Eq). cbn [bind].
    eapply adds_bind; [apply Hjm; lia|]. intros r [Ar Vr]. intros a Wa. cbn [returns].
    destruct (fold2_sp P3 mon3 (fun (kv1 : svkey * Q) (kv2 : K2 * Q) => key (fst kv1) (fst kv2))
      (fun kv1 kv2 => qmul (qmul (qz (mcomb n i)) (snd kv1)) (snd kv2)) (fun _ => items r) (items q) a Wa) as [W V1].
    { intros [k1 v1] [k2 v2] h1 h2. cbn [fst]. apply Hkey; [exact (allk_in _ _ k1 v1 Aq h1)|exact (allk_in _ _ k2 v2 Ar h2)]. }
    cbv zeta in *. split; [exact W|]. intro t. rewrite V1. f_equal. unfold tabv. rewrite Eq. rewrite <- Vr.
    rewrite (sumR_eval (mon1 t)), (sumR_eval (mon2 t)). rewrite <- sumR_scal_r, <- sumR_scal. apply sumR_ext. intros [k1 v1] h1.
    rewrite <- !sumR_scal. apply sumR_ext. intros [k2 v2] h2. cbn [fst snd].
    destruct (Hkey k1 k2 (allk_in _ _ k1 v1 Aq h1) (allk_in _ _ k2 v2 Ar h2)) as [_ e]. rewrite e, !Q2R_mul, Q2R_qz. ring.
  - intros a [[U A] V]. cbn [returns].
    destruct (remove_zero_sp P3 mon3 kf (mkPoly a kf) (conj eq_refl (conj U A))) as (W & _ & E). split; [exact W|].
    intro t. rewrite E. unfold evp. cbn [items]. specialize (V t). unfold ev in V. rewrite V. cbn [eval]. ring.
Qed.
End N.

(** ** the lists *)
Lemma PJ_jprod mus rhoJ sgs : forall z al pre, length al = length z ->
  PJ (mus, rhoJ, sgs, pre ++ map snd z) (length pre) al = jprod mus rhoJ sgs z al.
Proof.
  induction z as [|sj z IH]; intros [|a al] pre Hl; try discriminate; [reflexivity|]. cbn [map PJ jprod].
  rewrite app_nth2, Nat.sub_diag by lia. cbn [nth]. rewrite nmom_V. unfold NM, jmean. f_equal.
  replace (pre ++ snd sj :: map snd z) with ((pre ++ [snd sj]) ++ map snd z) by (rewrite <- app_assoc; reflexivity).
  replace (S (length pre)) with (length (pre ++ [snd sj])) by (rewrite app_length; cbn; lia). apply IH. now injection Hl.
Qed.
Definition bJ (mus rhoJ sgs : R) (z : path) (m : Z) : R :=
  sumR (fun al => IZR (cmb m al) * jprod mus rhoJ sgs z al) (wcomp (length z) m).
Lemma izval_bJ mus rhoJ sgs z m : izval (mus, rhoJ, sgs, map snd z) (length z) m = bJ mus rhoJ sgs z m.
Proof.
  unfold izval, bJ. apply sumR_ext. intros al Hal. apply in_wcomp in Hal. f_equal. apply (PJ_jprod mus rhoJ sgs z al []). apply Hal.
Qed.

Lemma PC_1 s al : Forall (fun x => 0 <= x)%Z al -> sumZ al = 1%Z -> PC s al = 0.
Proof.
  induction al as [|a al IH]; intros h1 h2; [discriminate|].
  apply Forall_cons_iff in h1. destruct h1 as [h1 h3]. pose proof (sumZ_nonneg al h3). change (a + sumZ al = 1)%Z in h2. cbn [PC].
  assert (a = 0 \/ a = 1)%Z as [-> | ->] by lia.
  - rewrite IH; [ring|exact h3|lia].
  - change (Z.to_nat 1) with 1%nat. rewrite V_1. ring.
Qed.

Section T.
Context (iez : Q -> Z -> Poly jkey -> res (Poly jkey)).
Hypothesis HJ : forall i, zdom i -> returns (Jm iez i) (wfJ i).
Variable nJ : nat.

Lemma cj_ckey_sp k1 k2 : svok 6 3 k1 -> P1s k2 -> svok 6 4 (cj_ckey k1 k2) /\ forall t : svpar * path * R,
  (let '(p, z, s) := t in svmon (zvals (svz p) (svh p)) (sv3 p ++ [s]) p z (cj_ckey k1 k2))
  = (let '(p, z, s) := t in cmon_sv p z k1) * (let '(p, z, s) := t in mon1s s k2).
Proof.
  intros (h1 & h2 & h3 & h4 & h5 & h6) H2. unfold P1s in H2. destruct k1 as [[k lopq] x]. cbn [fst snd] in *.
  destruct x as [|x1 [|x2 [|x3 [|? ?]]]]; try discriminate. wfs_destruct. unfold cj_ckey. cbn [fst snd app]. split.
  - split; [exact h1|]. split; [exact h2|]. split; [exact h3|]. split; [reflexivity|]. split; [|exact h6].
    apply (Forall_app _ [x1; x2; x3] [_]). split; [exact h5|]. apply Forall_cons; [assumption|apply Forall_nil].
  - intros [[p z] s]. unfold cmon_sv, svmon, sv3, mon1s. cbn [fst snd app monx]. ring.
Qed.
Definition ct : Type := (svpar * path * R)%type.

Lemma cj_cmoments_tab l : returns (cj_cmoments_with iez l nJ) (fun cs => length cs = Z.to_nat (Z.max 1 l + 1) /\
  tabok 6 4 (kf_sv ++ kf_sgs) 0 (Z.max 1 l) cs /\ forall n, (0 <= n <= Z.max 1 l)%Z -> forall p z s,
    tabv (svmon (zvals (svz p) (svh p)) (sv3 p ++ [s]) p z) cs n = convv (fun i => Cv iez i p z) (cizval s nJ) n).
Proof.
  unfold cj_cmoments_with. eapply returns_bind; [apply (sv_cmoments_tab iez HJ)|]. intros cs (Hl & Ht & Hv).
  destruct (Ht 0%Z ltac:(lia)) as (q0 & E0 & K0 & _). rewrite (getp_nth _ _ _ E0). cbn [bind]. rewrite K0. cbv zeta. unfold kf_cjc.
  assert (W0 : forall x : Q, wfp (svok 6 4) (kf_sv ++ kf_sgs) (mkPoly [(jk [0;0;0;0;0;0]%Z [] [], [0;0;0;0]%Z, x)] (kf_sv ++ kf_sgs))).
  { intro x. split; [reflexivity|]. split; [constructor; [intros []|constructor]|]. intros k [<-|[]].
    split; [reflexivity|]. split; [|split; [now repeat split|]].
    - intros [|[|[|[|[|[|[|i]]]]]]] _; cbn; lia.
    - split; [reflexivity|]. split; [repeat (apply Forall_cons; [cbn; lia|]); apply Forall_nil|reflexivity]. }
  assert (c0 : forall s, cizval s nJ 0 = 1) by (intro s; unfold cizval; rewrite wcomp_0; cbn [sumR]; rewrite cmb_0, PC_0; ring).
  eapply returns_weaken.
  - apply (build_list (cj_n (fun m => cmoment_IZs m nJ) cj_ckey (kf_sv ++ kf_sgs) cs) (fun n r => wfp (svok 6 4) (kf_sv ++ kf_sgs) r /\ forall p z s,
      eval (svmon (zvals (svz p) (svh p)) (sv3 p ++ [s]) p z) (items r) = convv (fun i => Cv iez i p z) (cizval s nJ) n) 2 (l + 1)).
    + intros n Hn. eapply returns_weaken.
      * apply (cj_n_sp (T := ct) 6 kf_sv (kf_sv ++ kf_sgs) (fun m => cmoment_IZs m nJ) cj_ckey cs n P1s (svok 6 4)
          (fun t => let '(p, z, s) := t in cmon_sv p z) (fun t => let '(p, z, s) := t in mon1s s)
          (fun t => let '(p, z, s) := t in svmon (zvals (svz p) (svh p)) (sv3 p ++ [s]) p z) (fun t => let '(p, z, s) := t in cizval s nJ)).
        -- intros i Hi. apply Ht. lia.
        -- intros i Hi. eapply returns_weaken; [apply cmoment_IZs_sp; lia|]. intros r [(K & U & A) Vr]. split; [exact A|].
           intros [[p z] s]. apply Vr.
        -- intros k1 k2 h1 h2. destruct (cj_ckey_sp k1 k2 h1 h2) as [e1 e2]. split; [exact e1|]. intros [[p z] s]. exact (e2 (p, z, s)).
      * intros r [Wr Vr]. split; [exact Wr|]. intros p z s. specialize (Vr (p, z, s)). cbv beta iota in Vr. etransitivity; [exact Vr|].
        rewrite sumR_range_down by lia. apply sumR_ext. intros i Hi. apply in_range in Hi. cbv beta. rewrite Hv by lia. reflexivity.
    + reflexivity.
    + lia.
    + intros n Hn. assert (n = 0 \/ n = 1)%Z as [-> | ->] by lia.
      * eexists. split; [reflexivity|]. split; [apply W0|]. intros p z s. rewrite convv_0, Cv_0, c0.
        cbn [items eval]. unfold svmon, zvals, sv3, jk, fZ_path, fZ_sum. cbn [fst snd monx app]. rewrite !pw_0. unfold Q2R; cbn. field.
      * eexists. split; [reflexivity|]. split; [apply W0|]. intros p z s. rewrite convv_1, Cv_1, Cv_0.
        replace (cizval s nJ 1) with 0; [cbn [items eval]; unfold Q2R; cbn; ring|].
        unfold cizval. symmetry. apply sumR_0. intros al Hal. apply in_wcomp in Hal. destruct Hal as (_ & h1 & h2). rewrite PC_1 by assumption. ring.
  - intros ms [h1 h2]. split; [rewrite h1; lia|]. split.
    + intros n Hn. destruct (h2 n ltac:(lia)) as (q & Eq & Wq & _). now exists q.
    + intros n Hn p z s. destruct (h2 n ltac:(lia)) as (q & Eq & _ & Vq). unfold tabv. rewrite Eq. apply Vq.
Qed.

Lemma cj_mkey_sp k1 k2 : svok 8 3 k1 -> Piz nJ k2 -> cjok nJ (cj_mkey k1 k2) /\ forall p z mus rhoJ sgs,
  cjmon (sv8 p) (sv3 p ++ [mus; rhoJ; sgs]) p z (cj_mkey k1 k2) = mon_sv p z k1 * monI (mus, rhoJ, sgs, map snd z) k2.
Proof.
  intros (h1 & h2 & h3 & h4 & h5 & h6) (H2 & H3 & H4). destruct k1 as [[k lopq] x]. destruct k2 as [k2 js]. cbn [fst snd] in *.
  destruct x as [|x1 [|x2 [|x3 [|? ?]]]]; try discriminate. wfs_destruct. unfold cj_mkey. cbn [fst snd app]. split.
  - split.
    + cbn [fst]. split; [exact h1|]. split; [exact h2|]. split; [exact h3|]. split; [reflexivity|]. split; [|exact h6].
      apply (Forall_app _ [x1; x2; x3] [_; _; _]). split; [exact h5|]. repeat (apply Forall_cons; [assumption|]). apply Forall_nil.
    + exists js. split; [reflexivity|]. now split.
  - intros. unfold cjmon, mon_sv, svmon, sv3, monI. cbn [fst snd app monx]. ring.
Qed.
Definition cjt : Type := (svpar * path * R * R * R)%type.

(** the n-th entry: the key of order 0 has no component J_{1:n} *)
Definition cj_kok (n : Z) (k : cjkey) : Prop := if (n =? 0)%Z then svok 8 4 (fst k) /\ snd k = None else cjok nJ k.
Lemma cj_moments_tab l : returns (cj_moments_with iez l nJ) (fun cs => length cs = Z.to_nat (Z.max 0 l + 1) /\
  forall n, (0 <= n <= Z.max 0 l)%Z -> exists q, nth_error cs (Z.to_nat n) = Some q /\ wfp (cj_kok n) (kf_mom kf_sv ++ kf_izs) q /\
    forall p z mus rhoJ sgs, length z = nJ ->
      eval (cjmon (sv8 p) (sv3 p ++ [mus; rhoJ; sgs]) p z) (items q) = convv (fun i => Mv iez i p z) (bJ mus rhoJ sgs z) n).
Proof.
  unfold cj_moments_with. eapply returns_bind; [apply (sv_moments_tab iez HJ)|]. intros cs (Hl & Ht & Hv).
  destruct (Ht 0%Z ltac:(lia)) as (q0 & E0 & K0 & _). rewrite (getp_nth _ _ _ E0). cbn [bind]. rewrite K0. cbv zeta. unfold kf_cjm.
  eapply returns_weaken.
  - apply (build_list (cj_n (fun m => moment_IZs m nJ) cj_mkey (kf_mom kf_sv ++ kf_izs) cs) (fun n r => wfp (cj_kok n) (kf_mom kf_sv ++ kf_izs) r /\
      forall p z mus rhoJ sgs, length z = nJ ->
      eval (cjmon (sv8 p) (sv3 p ++ [mus; rhoJ; sgs]) p z) (items r) = convv (fun i => Mv iez i p z) (bJ mus rhoJ sgs z) n) 1 (l + 1)).
    + intros n Hn. eapply returns_weaken.
      * apply (cj_n_sp (T := cjt) 8 (kf_mom kf_sv) (kf_mom kf_sv ++ kf_izs) (fun m => moment_IZs m nJ) cj_mkey cs n (Piz nJ) (cjok nJ)
          (fun t => let '(p, z, mus, rhoJ, sgs) := t in mon_sv p z) (fun t => let '(p, z, mus, rhoJ, sgs) := t in monI (mus, rhoJ, sgs, map snd z))
          (fun t => let '(p, z, mus, rhoJ, sgs) := t in cjmon (sv8 p) (sv3 p ++ [mus; rhoJ; sgs]) p z)
          (fun t => let '(p, z, mus, rhoJ, sgs) := t in izval (mus, rhoJ, sgs, map snd z) nJ)).
        -- intros i Hi. apply Ht. lia.
        -- intros i Hi. eapply returns_weaken; [apply moment_IZs_sp; lia|]. intros r [(K & U & A) Vr]. split; [exact A|].
           intros [[[[p z] mus] rhoJ] sgs]. apply Vr.
        -- intros k1 k2 h1 h2. destruct (cj_mkey_sp k1 k2 h1 h2) as [e1 e2]. split; [exact e1|]. intros [[[[p z] mus] rhoJ] sgs]. apply e2.
      * intros r [Wr Vr]. split; [unfold cj_kok; replace (n =? 0)%Z with false by (symmetry; apply Z.eqb_neq; lia); exact Wr|].
        intros p z mus rhoJ sgs Hz. specialize (Vr (p, z, mus, rhoJ, sgs)). cbv beta iota in Vr. etransitivity; [exact Vr|].
        rewrite sumR_range_down by lia. apply sumR_ext. intros i Hi. apply in_range in Hi. cbv beta. rewrite Hv by lia.
        rewrite <- Hz, izval_bJ. reflexivity.
    + reflexivity.
    + lia.
    + intros n Hn. assert (n = 0)%Z as -> by lia. eexists. split; [reflexivity|]. split.
      * split; [reflexivity|]. split; [constructor; [intros []|constructor]|]. intros k [<-|[]]. split; [|reflexivity]. cbn [fst].
        split; [reflexivity|]. split; [|split; [now repeat split|]].
        -- intros [|[|[|[|[|[|[|[|[|i]]]]]]]]] _; cbn; lia.
        -- split; [reflexivity|]. split; [repeat (apply Forall_cons; [cbn; lia|]); apply Forall_nil|reflexivity].
      * intros p z mus rhoJ sgs Hz. rewrite convv_0. unfold bJ. rewrite wcomp_0. cbn [sumR].
        rewrite <- (PJ_jprod mus rhoJ sgs z _ []) by (apply repeat_length). rewrite PJ_0, cmb_0.
        unfold Mv. change (rcomp 4 0) with [[0; 0; 0; 0; 0]%Z]. cbn [sumR nth]. rewrite Cv_0.
        cbn [items eval]. unfold cjmon, svmon, sv8, sv3, sva, fZ_path, fZ_sum. cbn [fst snd monx app]. rewrite !pw_0.
        change (cmb 0 [0; 0; 0; 0; 0]%Z) with 1%Z. unfold Q2R; cbn. field.
  - intros ms [h1 h2]. split; [rewrite h1; lia|]. intros n Hn. apply h2. lia.
Qed.
End T.

(** ** expectations *)
Definition evX {Om} (Xs : list (Om -> R)) (w : Om) : list R := map (fun X => X w) Xs.
Definition sumX {Om} (Xs : list (Om -> R)) (w : Om) : R := sumR (fun x => x) (evX Xs w).
Lemma sumX_pow {Om} (Xs : list (Om -> R)) w j : (0 <= j)%Z ->
  sumX Xs w ^ Z.to_nat j = sumR (fun al => IZR (cmb j al) * powprod (evX Xs w) al) (wcomp (length Xs) j).
Proof.
  intro Hj. symmetry. apply multinomial_any; [assumption|apply NoDup_wcomp|]. intro t. unfold evX. rewrite map_length. apply in_wcomp.
Qed.

Section Cen.
Variables (mus rhoJ sgs : R) (Om : Type) (E : (Om -> R) -> R).
Hypothesis HE : expectation E.
Definition cenX (z : path) (Xs : list (Om -> R)) : list (Om -> R) :=
  map (fun Xj => fun w => fst Xj w - jmean mus rhoJ (snd Xj)) (combine Xs z).
Lemma cen_prod : forall z Xs W c (n : Z), length Xs = length z ->
  (forall al, length al = length z -> Forall (fun a => 0 <= a)%Z al -> (sumZ al <= n)%Z ->
     E (fun w => W w * powprod (evX Xs w) al) = c * jprod mus rhoJ sgs z al) ->
  forall bl, length bl = length z -> Forall (fun a => 0 <= a)%Z bl -> (sumZ bl <= n)%Z ->
    E (fun w => W w * powprod (evX (cenX z Xs) w) bl) = c * PC sgs bl.
Proof.
  induction z as [|sj z IH]; intros [|X Xs] W c n Hl H [|b bl] Hb Hn Hs; try discriminate.
  - exact (H [] eq_refl (Forall_nil _) Hs).
  - apply Forall_cons_iff in Hn. destruct Hn as [Hb0 Hn]. pose proof (sumZ_nonneg bl Hn) as Sb.
    assert (Hs' : (b + sumZ bl <= n)%Z) by exact Hs. injection Hl as Hl. injection Hb as Hb.
    set (m := jmean mus rhoJ sj).
    assert (F : forall i, (0 <= i <= b)%Z -> E (fun w => (W w * X w ^ Z.to_nat i) * powprod (evX (cenX z Xs) w) bl) = (c * nmom m sgs i) * PC sgs bl).
    { intros i Hi. apply (IH Xs (fun w => W w * X w ^ Z.to_nat i) (c * nmom m sgs i) (n - i)%Z Hl); [|exact Hb|exact Hn|lia].
      intros al Hal Han Has. pose proof (H (i :: al) ltac:(cbn [length]; congruence) ltac:(apply Forall_cons; [lia|exact Han])) as h.
      cbn [jprod] in h. rewrite <- Rmult_assoc in h. fold m in h. rewrite <- h; [|change (sumZ (i :: al)) with (i + sumZ al)%Z; lia].
      apply (E_ext E HE). intro w. unfold evX. cbn [map powprod]. ring. }
    set (cf i := IZR (mcomb b i) * (- m) ^ Z.to_nat (b - i)).
    rewrite (E_ext E HE _ (fun w => sumR (fun i => cf i * ((W w * X w ^ Z.to_nat i) * powprod (evX (cenX z Xs) w) bl)) (range 0 (b + 1)))).
    2: { intro w. unfold evX, cenX. cbn [combine map powprod fst snd]. fold m.
         replace (X w - m) with (X w + - m) by ring. rewrite (binomial_range (X w) (- m) b) by lia.
         rewrite <- Rmult_assoc, (Rmult_comm (W w)), Rmult_assoc, <- sumR_scal_r. apply sumR_ext. intros i _. unfold cf, evX, cenX. ring. }
    rewrite (E_sumR E HE (fun i w => cf i * ((W w * X w ^ Z.to_nat i) * powprod (evX (cenX z Xs) w) bl))).
    rewrite (sumR_ext _ (fun i => (c * PC sgs bl) * (cf i * nmom m sgs i))).
    2: { intros i Hi. apply in_range in Hi. rewrite (E_scal E HE), F by lia. ring. }
    rewrite sumR_scal. cbn [PC]. rewrite <- (V_shift m). unfold bc.
    rewrite (sumR_ext (fun k => _) (fun k => cf (Z.of_nat k) * nmom m sgs (Z.of_nat k)) (seq 0 (S (Z.to_nat b)))).
    + unfold range. rewrite Z.sub_0_r. replace (Z.to_nat (b + 1)) with (S (Z.to_nat b)) by lia. rewrite sumR_map.
      rewrite (sumR_ext (fun x => cf (0 + Z.of_nat x)%Z * nmom m sgs (0 + Z.of_nat x)%Z) (fun k => cf (Z.of_nat k) * nmom m sgs (Z.of_nat k)))
        by (intros; reflexivity). ring.
    + intros k Hk. apply in_seq in Hk. unfold cf, epow, mcomb. rewrite nmom_V, Nat2Z.id.
      replace (Z.to_nat (b - Z.of_nat k)) with (Z.to_nat b - k)%nat by lia. ring.
Qed.
Lemma sum_cenX z Xs w : length Xs = length z -> sumX (cenX z Xs) w = sumX Xs w - jumps_mean mus rhoJ z.
Proof.
  unfold sumX, jumps_mean, cenX, evX. revert Xs. induction z as [|sj z IH]; intros [|X Xs] Hl; try discriminate; [cbn; ring|].
  cbn [combine map sumR fst snd]. rewrite IH by now injection Hl. ring.
Qed.
End Cen.

Section E.
Context (iez : Q -> Z -> Poly jkey -> res (Poly jkey)).
Variables (L : Z) (p : svpar) (z : path) (Om : Type) (E : (Om -> R) -> R) (IE I Is : Om -> R).
Hypothesis (Hk : svk p <> 0) (HE : expectation E).
Hypothesis HT : joint3 E (fun i => Jv iez i (svz p) z (svh p)) L IE I Is.
Variables (mus rhoJ sgs : R) (Xs : list (Om -> R)).
Hypothesis HX : price_jumps mus rhoJ sgs E p z L IE I Is Xs.
Let Y (w : Om) : R := sv_ret p z (IE w) (I w) (Is w).

Lemma YS i j : (0 <= i)%Z -> (0 <= j)%Z -> (i + j <= L)%Z ->
  E (fun w => Y w ^ Z.to_nat i * sumX Xs w ^ Z.to_nat j) = E (fun w => Y w ^ Z.to_nat i) * bJ mus rhoJ sgs z j.
Proof.
  intros Hi Hj Hij. destruct HX as [Hl Hx].
  rewrite (E_ext E HE _ (fun w => sumR (fun al => IZR (cmb j al) * (Y w ^ Z.to_nat i * powprod (evX Xs w) al)) (wcomp (length z) j))).
  2: { intro w. rewrite sumX_pow, Hl by assumption. rewrite <- sumR_scal. apply sumR_ext. intros; ring. }
  rewrite (E_sumR E HE (fun al w => IZR (cmb j al) * (Y w ^ Z.to_nat i * powprod (evX Xs w) al))).
  unfold bJ. rewrite <- sumR_scal. apply sumR_ext. intros al Hal. apply in_wcomp in Hal. destruct Hal as (h1 & h2 & h3).
  rewrite (E_scal E HE). unfold evX, Y. rewrite Hx by (try assumption; fold (sumZ al); unfold sumZ in *; lia). ring.
Qed.
Lemma S_mom j : (0 <= j <= L)%Z -> E (fun w => sumX Xs w ^ Z.to_nat j) = bJ mus rhoJ sgs z j.
Proof.
  intro Hj. pose proof (YS 0 j ltac:(lia) ltac:(lia) ltac:(lia)) as h. change (Z.to_nat 0) with 0%nat in h.
  rewrite (E_ext E HE (fun w => Y w ^ 0) (fun _ => 1)), (sv_E_one iez L p z Om E IE I Is HE HT ltac:(lia)), Rmult_1_l in h by reflexivity.
  rewrite <- h. apply (E_ext E HE). intro w. simpl. ring.
Qed.
Hypothesis HL : (0 <= L)%Z.
Lemma S_indep : indep E (Z.to_nat L) Y (sumX Xs).
Proof.
  intros i j Hij. pose proof (YS (Z.of_nat i) (Z.of_nat j) ltac:(lia) ltac:(lia) ltac:(lia)) as h.
  pose proof (S_mom (Z.of_nat j) ltac:(lia)) as h'. rewrite !Nat2Z.id in *. rewrite h, h'. reflexivity.
Qed.
Lemma S_cen j : (0 <= j <= L)%Z -> E (fun w => (sumX Xs w - jumps_mean mus rhoJ z) ^ Z.to_nat j) = cizval sgs (length z) j.
Proof.
  intro Hj. destruct HX as [Hl Hx].
  rewrite (E_ext E HE _ (fun w => sumR (fun al => IZR (cmb j al) * (1 * powprod (evX (cenX mus rhoJ Om z Xs) w) al)) (wcomp (length z) j))).
  2: { intro w. rewrite <- (sum_cenX mus rhoJ Om z Xs w Hl). rewrite sumX_pow by lia. unfold cenX at 2. rewrite map_length, combine_length, Hl, Nat.min_id.
       apply sumR_ext. intros; ring. }
  rewrite (E_sumR E HE (fun al w => IZR (cmb j al) * (1 * powprod (evX (cenX mus rhoJ Om z Xs) w) al))).
  unfold cizval. apply sumR_ext. intros al Hal. apply in_wcomp in Hal. destruct Hal as (h1 & h2 & h3).
  rewrite (E_scal E HE). f_equal. rewrite (cen_prod mus rhoJ sgs Om E HE z Xs (fun _ => 1) 1 L Hl); [ring| |exact h1|exact h2|lia].
  intros bl b1 b2 b3. pose proof (Hx 0%Z bl ltac:(lia) b1 b2 ltac:(unfold sumZ in b3; lia)) as h. change (Z.to_nat 0) with 0%nat in h.
  rewrite (E_ext E HE (fun w => sv_ret p z (IE w) (I w) (Is w) ^ 0) (fun _ => 1)) in h by reflexivity.
  rewrite (sv_E_one iez L p z Om E IE I Is HE HT HL) in h. rewrite <- h. apply (E_ext E HE). intro w. unfold evX. simpl. ring.
Qed.
Lemma cj_c n : (0 <= n <= L)%Z -> convv (fun i => Cv iez i p z) (cizval sgs (length z)) n
  = E (fun w => (Y w + sumX Xs w - (sv_mean p z + jumps_mean mus rhoJ z)) ^ Z.to_nat n).
Proof.
  intro Hn. unfold convv.
  rewrite (E_ext E HE _ (fun w => ((Y w - sv_mean p z) + (sumX Xs w - jumps_mean mus rhoJ z)) ^ Z.to_nat n)) by (intro w; f_equal; ring).
  rewrite <- (conv_E E HE (fun w => Y w - sv_mean p z) (fun w => sumX Xs w - jumps_mean mus rhoJ z) (Z.to_nat L) n ltac:(lia) ltac:(lia)
    (indep_shift E HE (Z.to_nat L) _ _ _ _ S_indep)).
  apply sumR_ext. intros i Hi. apply in_range in Hi. f_equal. rewrite S_cen by lia. f_equal. apply (Cv_cen iez L p z Om E IE I Is Hk HE HT). lia.
Qed.
Lemma cj_mE n : (0 <= n <= L)%Z -> convv (fun i => Mv iez i p z) (bJ mus rhoJ sgs z) n = E (fun w => (Y w + sumX Xs w) ^ Z.to_nat n).
Proof.
  intro Hn. unfold convv. rewrite <- (conv_E E HE Y (sumX Xs) (Z.to_nat L) n ltac:(lia) ltac:(lia) S_indep).
  apply sumR_ext. intros i Hi. apply in_range in Hi. f_equal. rewrite S_mom by lia. f_equal. apply (Mv_E iez L p z Om E IE I Is Hk HE HT). lia.
Qed.
Lemma cj_mean : (1 <= L)%Z -> E (fun w => Y w + sumX Xs w) = sv_mean p z + jumps_mean mus rhoJ z.
Proof.
  intro H1. pose proof (S_cen 1 ltac:(lia)) as h. change (Z.to_nat 1) with 1%nat in h.
  assert (c1 : cizval sgs (length z) 1 = 0).
  { unfold cizval. apply sumR_0. intros al Hal. apply in_wcomp in Hal. destruct Hal as (_ & h1 & h2). rewrite PC_1 by assumption. ring. }
  rewrite c1 in h. rewrite (E_ext E HE _ (fun w => sumX Xs w + (- jumps_mean mus rhoJ z) * 1)) in h by (intro w; ring).
  rewrite (E_plus E HE), (E_scal E HE), (sv_E_one iez L p z Om E IE I Is HE HT HL) in h.
  rewrite (E_plus E HE). unfold Y at 1. rewrite (sv_E_mean iez L p z Om E IE I Is Hk HE HT H1). lra.
Qed.
End E.
