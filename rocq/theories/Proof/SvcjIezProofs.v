(** Proofs about mdl_svcj/ieziziz_mom.py: decode and moment_ieziziz (C36). *)
From Coq Require Import Reals Lra Ring FunctionalExtensionality.
From Coquelicot Require Import Coquelicot.
From Verif.Proof Require Export SvcjTree.
Import Verif.Model.SvcjIez.
Local Open Scope R_scope.

(** powers with graded keys and graded values *)
Lemma ppow_gr2 {T} (P : Z -> list Z -> Prop) (mon : Z -> T -> list Z -> R) kf a (p : Poly (list Z)) m :
  (forall x y k1 k2, P x k1 -> P y k2 -> (length k1 <= length k2)%nat /\ P (x + y)%Z (kadd_pure k1 k2) /\
     forall t, mon (x + y)%Z t (kadd_pure k1 k2) = mon x t k1 * mon y t k2) ->
  wfp (P a) kf p -> (1 <= m)%Z ->
  returns (ppow p m) (fun r => wfp (P (m * a)%Z) kf r /\ forall t, evp (mon (m * a)%Z) t r = evp (mon a) t p ^ Z.to_nat m).
Proof.
  intros h Hp Hm. unfold ppow, ppow_gen. destruct (Z.leb_spec m 0) as [x|_]; [lia|].
  assert (K : forall n acc j, wfp (P (j * a)%Z) kf acc ->
    returns (pow_loop kadd n acc p) (fun r => wfp (P ((j + Z.of_nat n) * a)%Z) kf r /\
      forall t, evp (mon ((j + Z.of_nat n) * a)%Z) t r = evp (mon (j * a)%Z) t acc * evp (mon a) t p ^ n)).
  { induction n as [|n IH]; intros acc j Ha; cbn [pow_loop].
    - cbn [returns]. replace (j + Z.of_nat 0)%Z with j by lia. split; [assumption|]. intro; simpl; ring.
    - eapply returns_bind.
      + apply (pmul_sp (P (j * a)%Z) (P a) (P (j * a + a)%Z) (mon (j * a)%Z) (mon a) (mon (j * a + a)%Z) kf acc p);
          [apply Ha|apply Hp|apply Ha|apply Hp|].
        intros; now apply h.
      + intros r [Hr Er]. replace (j * a + a)%Z with ((j + 1) * a)%Z in * by ring.
        eapply returns_weaken; [apply (IH r (j + 1)%Z Hr)|]. intros r' [h1 h2].
        replace (j + 1 + Z.of_nat n)%Z with (j + Z.of_nat (S n))%Z in * by lia.
        split; [assumption|]. intro t. rewrite h2, Er. simpl. ring. }
  eapply returns_weaken; [apply (K (Z.to_nat (m - 1)) p 1%Z); now replace (1 * a)%Z with a by ring|].
  intros r [h1 h2]. replace (1 + Z.of_nat (Z.to_nat (m - 1)))%Z with m in * by lia.
  split; [assumption|]. intro t. rewrite h2. replace (1 * a)%Z with a by ring.
  replace (Z.to_nat m) with (S (Z.to_nat (m - 1))) by lia. reflexivity.
Qed.

(** ** values of the symbols *)
Record jv := mkJv { q_t : R; q_s : R; q_d : R; q_i : R; q_l : R; q_v : R; q_m : R; q_g : R }.
Definition jvl (v : jv) : list R := [q_t v; q_s v; q_d v; q_i v; q_l v; q_v v; q_m v; q_g v].

(** joint moments of (e^{ku}J, J, J* ) integrated over (s,t) *)
Definition tker (v : jv) (a : nat) : R :=
  match a with O => q_d v | S _ => q_i v * / INR a * (q_t v ^ a - q_s v ^ a) end.
Definition ejv (v : jv) (a b c : nat) : R :=
  IZR (factN (a + b)) * q_v v ^ (a + b) * tker v a * V c (q_m v) (q_g v ^ 2).
(** cumulants *)
Definition jcum (v : jv) : S3 := fun a b c => q_l v * ejv v a b c.
Definition jmom (v : jv) : S3 := sexp (jcum v).

Definition s8 : list bool := [true; true; false; true; true; true; true; true].
Definition P_ej3 (g : Z) (k : list Z) : Prop := wfs s8 k /\ (- g <= nthZ k 2 <= 0)%Z.
Definition mon_ej3 (g : Z) (v : jv) (k : list Z) : R := monx (jvl v) (addat 2 g k).

Lemma P_ej3_add x y k1 k2 : P_ej3 x k1 -> P_ej3 y k2 -> (length k1 <= length k2)%nat /\ P_ej3 (x + y)%Z (kadd_pure k1 k2) /\
  forall t, mon_ej3 (x + y)%Z t (kadd_pure k1 k2) = mon_ej3 x t k1 * mon_ej3 y t k2.
Proof.
  intros [h1 e1] [h2 e2]. unfold s8 in *. wfs_destruct. unfold nthZ in e1, e2; cbn [nth] in e1, e2.
  split; [simpl; lia|]. split.
  - keyred. split; [simpl; lia|]. unfold nthZ; simpl. lia.
  - intro v. unfold mon_ej3, jvl. keyred. cbn [monx].
    match goal with |- context [pw (q_d v) (?a + ?b + (x + y))%Z] =>
      replace (a + b + (x + y))%Z with ((a + x) + (b + y))%Z by lia; rewrite (pow_lemma_pw (q_d v) (a + x) (b + y)) by (right; lia);
      generalize (pw (q_d v) (a + x)) (pw (q_d v) (b + y)); intros u1 u2 end.
    pws. ring.
Qed.

Lemma V_keys n : forall k, In k (keys (items (mn n))) -> length k = 2%nat /\ (0 <= nthZ k 0)%Z /\ (0 <= nthZ k 1)%Z.
Proof. exact (mn_nn2 n). Qed.

Lemma factN_S n : factN (S n) = (Z.of_nat (S n) * factN n)%Z.
Proof. reflexivity. Qed.
Lemma ejj_spec n1 n2 : (0 <= n1)%Z -> (0 <= n2)%Z ->
  (forall k w, In (k, w) (ejj n1 n2) -> wfs [true; true; false; true; true; true] k /\ (-1 <= nthZ k 2 <= 0)%Z) /\
  forall v, eval (fun k => monx (jvl v) (addat 2 1%Z k)) (ejj n1 n2)
    = IZR (factN (Z.to_nat n1 + Z.to_nat n2)) * q_v v ^ (Z.to_nat n1 + Z.to_nat n2) * tker v (Z.to_nat n1).
Proof.
  intros H1 H2. unfold ejj.
  destruct (Z.leb_spec 1 n1) as [L1|L1]; destruct (Z.eqb_spec n2 0) as [E2|E2]; cbn [andb].
  - subst n2. split.
    + intros k w Hk. apply in_keys in Hk. apply keys_add_kv_in in Hk. destruct Hk as [->|Hk];
        [|apply keys_add_kv_in in Hk; destruct Hk as [->|[]]]; (split; [simpl; lia|unfold nthZ; simpl; lia]).
    + intro v. rewrite !eval_add_kv. cbn [eval]. rewrite Q2R_neg, !Q2R_qz. unfold jvl. match goal with |- _ = ?r => set (rr := r) end. keyred. cbn [monx]. subst rr.
      rewrite !pw_0, !pw_1. replace (Z.to_nat n1) with (S (Z.to_nat (n1 - 1))) by lia.
      rewrite !pw_Zpos by lia. replace (Z.to_nat n1) with (S (Z.to_nat (n1 - 1))) by lia.
      change (Z.to_nat 0) with O. rewrite !Nat.add_0_r. unfold tker, fact. rewrite factN_S, mult_IZR, <- INR_IZR_INZ.
      assert (INR (S (Z.to_nat (n1 - 1))) <> 0) by (apply not_0_INR; lia).
      change (pw (q_d v) (-1 + 1)%Z) with 1. field. assumption.
  - destruct (Z.leb_spec 1 n2) as [L2|L2]; [|lia]. cbn [andb]. split.
    + intros k w Hk. apply in_keys in Hk. apply keys_add_kv_in in Hk. destruct Hk as [->|Hk];
        [|apply keys_add_kv_in in Hk; destruct Hk as [->|[]]]; (split; [simpl; lia|unfold nthZ; simpl; lia]).
    + intro v. rewrite !eval_add_kv. cbn [eval]. rewrite Q2R_neg, !Q2R_Frac by lia. unfold jvl. match goal with |- _ = ?r => set (rr := r) end. keyred. cbn [monx]. subst rr.
      rewrite !pw_0, !pw_1. rewrite !pw_Zpos by lia. replace (Z.to_nat (n1 + n2)) with (Z.to_nat n1 + Z.to_nat n2)%nat by lia.
      unfold fact. replace (Z.to_nat (n1 + n2)) with (Z.to_nat n1 + Z.to_nat n2)%nat by lia.
      replace (tker v (Z.to_nat n1)) with (q_i v * / IZR n1 * (q_t v ^ Z.to_nat n1 - q_s v ^ Z.to_nat n1)).
      2:{ replace (Z.to_nat n1) with (S (Z.to_nat (n1 - 1))) by lia. unfold tker. rewrite INR_IZR_INZ. repeat f_equal. lia. }
      change (pw (q_d v) (-1 + 1)%Z) with 1. field. apply IZR_neq. lia.
  - subst n2. replace n1 with 0%Z by lia. cbn [Z.eqb Z.leb Z.compare andb]. split.
    + intros k w Hk. apply in_keys in Hk. apply keys_add_kv_in in Hk. destruct Hk as [->|[]]. split; [simpl; lia|unfold nthZ; simpl; lia].
    + intro v. rewrite !eval_add_kv. cbn [eval]. rewrite Q2R_1. unfold jvl. match goal with |- _ = ?r => set (rr := r) end. keyred. cbn [monx]. subst rr.
      rewrite !pw_0. change (0 + 1)%Z with 1%Z. rewrite pw_1. unfold tker. simpl. ring.
  - replace n1 with 0%Z by lia. destruct (Z.leb_spec 1 n2) as [L2|L2]; [|lia]. cbn [Z.eqb andb]. split.
    + intros k w Hk. apply in_keys in Hk. apply keys_add_kv_in in Hk. destruct Hk as [->|[]]. split; [simpl; lia|unfold nthZ; simpl; lia].
    + intro v. rewrite !eval_add_kv. cbn [eval]. rewrite Q2R_qz. unfold jvl. match goal with |- _ = ?r => set (rr := r) end. keyred. cbn [monx]. subst rr.
      rewrite !pw_0. change (0 + 1)%Z with 1%Z. rewrite pw_1. change (Z.to_nat 0 + Z.to_nat n2)%nat with (Z.to_nat n2).
      unfold tker, fact. change (Z.to_nat 0) with O. cbv iota. rewrite pw_Zpos by lia. ring.
Qed.


Lemma monx_app xs ys k1 k2 : length xs = length k1 -> monx (xs ++ ys) (k1 ++ k2) = monx xs k1 * monx ys k2.
Proof.
  revert k1. induction xs as [|x xs IH]; intros [|k k1] h; try discriminate h; cbn [app monx]; [ring|].
  rewrite IH by (now injection h). ring.
Qed.

Lemma moment_ejjj_spec n1 n2 n3 : (0 <= n1)%Z -> (0 <= n2)%Z -> (0 <= n3)%Z ->
  returns (moment_ejjj n1 n2 n3) (fun p => wfp (P_ej3 1) kf_ieziziz p /\
    forall v, evp (mon_ej3 1) v p = ejv v (Z.to_nat n1) (Z.to_nat n2) (Z.to_nat n3)).
Proof.
  intros H1 H2 H3. unfold moment_ejjj.
  destruct (Z.ltb_spec n1 0); [lia|]. destruct (Z.ltb_spec n2 0); [lia|]. destruct (Z.ltb_spec n3 0); [lia|]. cbn [orb].
  replace n3 with (Z.of_nat (Z.to_nat n3)) at 1 by lia. rewrite mnorm_mn. cbn [bind returns].
  set (c := Z.to_nat n3). destruct (ejj_spec n1 n2 H1 H2) as [HK HV].
  pose proof (mn_nn2 c) as HN.
  assert (G : forall l a, (forall k w, In (k, w) l -> In (k, w) (ejj n1 n2)) -> wfl (P_ej3 1) a ->
    let r := fold_left (fun a kv => fold_left (fun a KV =>
       add_kv (fst kv ++ [nthZ (fst KV) 0; (2 * nthZ (fst KV) 1)%Z]) (qmul (snd kv) (snd KV)) a) (items (mn c)) a) l a in
    wfl (P_ej3 1) r /\ forall v, ev (mon_ej3 1) v r = ev (mon_ej3 1) v a +
      eval (fun k => monx (jvl v) (addat 2 1%Z k)) l * V c (q_m v) (q_g v ^ 2)).
  { induction l as [|[k w] l IH]; intros a Hl Ha; cbn [fold_left].
    - cbv zeta. split; [assumption|]. intro v. cbn [eval]. ring.
    - destruct (HK k w (Hl k w (or_introl eq_refl))) as [g1 g2]. cbn [fst snd].
      assert (A1 : forall x, In x (items (mn c)) -> P_ej3 1 (k ++ [nthZ (fst x) 0; (2 * nthZ (fst x) 1)%Z])).
      { intros [k' w'] Hk'. apply in_keys, HN in Hk'. destruct Hk' as (_ & h1 & h2). cbn [fst].
        wfs_destruct. unfold nthZ in g2. cbn [nth] in g2. split; [unfold s8; cbn [app wfs]; repeat split; lia|].
        unfold nthZ; cbn [app nth]; lia. }
      pose proof (adds_fold (P_ej3 1) (mon_ej3 1) (fun KV : list Z * Q => k ++ [nthZ (fst KV) 0; (2 * nthZ (fst KV) 1)%Z])
        (fun KV => qmul w (snd KV)) (items (mn c)) A1 a Ha) as B. cbn [returns] in B. destruct B as [B1 B2].
      destruct (IH _ (fun k w h => Hl k w (or_intror h)) B1) as [I1 I2]. split; [exact I1|].
      intro v. rewrite I2, B2. cbn [eval fst snd].
      rewrite Rmult_plus_distr_r, <- Rplus_assoc. f_equal. f_equal.
      unfold V. rewrite (sumR_eval (monN (q_m v) (q_g v ^ 2))), <- sumR_scal. apply sumR_ext. intros [k' w'] Hk'.
      apply in_keys, HN in Hk'. destruct Hk' as (_ & h1 & h2). cbn [fst snd]. rewrite Q2R_mul.
      unfold monN. revert h1 h2. generalize (nthZ k' 0) (nthZ k' 1). intros e0 e1 h1 h2.
      wfs_destruct. unfold mon_ej3, jvl. cbn [app]. keyred. cbn [monx].
      rewrite (pw_mul2 (q_g v)) by lia. replace (q_g v ^ 2) with (q_g v * q_g v) by ring. ring. }
  destruct (G (ejj n1 n2) [] (fun _ _ h => h) (wfl_nil _)) as [[G1 G2] G3]. split.
  - split; [reflexivity|]. split; assumption.
  - intro v. specialize (G3 v). unfold ev in G3. unfold evp. cbn [items]. rewrite G3, HV. cbn [eval]. unfold ejv. subst c. ring.
Qed.

Fixpoint eprod (v : jv) (ps : list (tri * Z)) : R :=
  match ps with
  | [] => 1
  | (t, m) :: r => ejv v (Z.to_nat (fst (fst t))) (Z.to_nat (snd (fst t))) (Z.to_nat (snd t)) ^ Z.to_nat m * eprod v r
  end.

Lemma ejjj_prod_spec ps : wfps3 ps ->
  returns (ejjj_prod ps) (fun p => wfp (P_ej3 (msum3 ps)) kf_ieziziz p /\ forall v, evp (mon_ej3 (msum3 ps)) v p = eprod v ps).
Proof.
  intro Hw. unfold ejjj_prod.
  assert (K : forall ps acc a, wfps3 ps -> wfp (P_ej3 a) kf_ieziziz acc ->
    returns (foldM (fun pol1 nm => let! q := moment_ejjj (fst (fst (fst nm))) (snd (fst (fst nm))) (snd (fst nm)) in
        let! qm := ppow q (snd nm) in pmul pol1 qm) ps acc)
      (fun p => wfp (P_ej3 (a + msum3 ps)%Z) kf_ieziziz p /\
        forall v, evp (mon_ej3 (a + msum3 ps)%Z) v p = evp (mon_ej3 a) v acc * eprod v ps)).
  { clear. induction ps as [|[t m] ps IH]; intros acc a Hw Ha; cbn [foldM msum3].
    - cbn [returns]. rewrite Z.add_0_r. split; [assumption|]. intro. cbn [eprod]. ring.
    - inversion Hw as [|? ? [[(h1 & h2 & h3) _] hm] Hr]; subst. cbn [fst snd] in *.
      assert (S1 : returns (let! q := moment_ejjj (fst (fst t)) (snd (fst t)) (snd t) in let! qm := ppow q m in pmul acc qm)
        (fun p => wfp (P_ej3 (a + m)%Z) kf_ieziziz p /\ forall v, evp (mon_ej3 (a + m)%Z) v p =
           evp (mon_ej3 a) v acc * ejv v (Z.to_nat (fst (fst t))) (Z.to_nat (snd (fst t))) (Z.to_nat (snd t)) ^ Z.to_nat m)).
      { eapply returns_bind; [apply moment_ejjj_spec; assumption|]. intros q [Hq Eq].
        eapply returns_bind; [apply (ppow_gr2 P_ej3 mon_ej3 kf_ieziziz 1%Z q m P_ej3_add Hq hm)|]. intros qm [Hqm Eqm].
        rewrite Z.mul_1_r in *.
        eapply returns_weaken.
        - apply (pmul_sp (P_ej3 a) (P_ej3 m) (P_ej3 (a + m)%Z) (mon_ej3 a) (mon_ej3 m) (mon_ej3 (a + m)%Z) kf_ieziziz acc qm);
            [apply Ha|apply Hqm|apply Ha|apply Hqm|]. intros; now apply P_ej3_add.
        - intros r [h4 h5]. split; [assumption|]. intro v. now rewrite h5, Eqm, Eq. }
      apply returns_inv in S1. destruct S1 as (r & E & Hr1 & Er). rewrite E. cbn [bind].
      eapply returns_weaken; [apply (IH r (a + m)%Z Hr Hr1)|]. intros p [h4 h5].
      replace (a + m + msum3 ps)%Z with (a + (m + msum3 ps))%Z in * by ring. split; [assumption|].
      intro v. rewrite h5, Er. cbn [eprod]. ring. }
  eapply returns_weaken; [apply (K ps _ 0%Z Hw)|].
  - apply wfp_single. split; [unfold s8; cbn [wfs]; lia|unfold nthZ; cbn [nth]; lia].
  - rewrite Z.add_0_l. intros p [h1 h2]. split; [assumption|]. intro v. rewrite h2. unfold evp; cbn [items eval].
    unfold mon_ej3, jvl. keyred. cbn [monx Z.add]. rewrite !pw_0, Q2R_1. ring.
Qed.

(** ** decode *)
Definition s8t : list bool := [true; true; true; true; true; true; true; true].
Definition P_j (k : list Z) : Prop := wfs s8t k.
Definition mon_j (v : jv) (k : list Z) : R := monx (jvl v) k.

Lemma prodS_0 v ps : wfps3 ps -> prodS (jcum v) ps 0%nat 0%nat 0%nat = pw (q_l v) (msum3 ps) * eprod v ps.
Proof.
  induction ps as [|[t m] r IH]; intro Hw; cbn [prodS eprod msum3 snd].
  - rewrite pw_0. unfold s3_1. simpl. ring.
  - inversion Hw as [|? ? [h1 h2] Hr]; subst. cbn [fst snd] in *. rewrite s3mul_0, IH by assumption.
    assert (M : (0 <= msum3 r)%Z).
    { clear -Hr. induction r as [|[t m] r IH]; [cbn; lia|]. inversion Hr as [|? ? [_ h] Hr']; subst. cbn [msum3 snd] in *.
      specialize (IH Hr'). lia. }
    rewrite pow_lemma_pw by (right; lia).
    assert (E : forall n, spow (shft t (jcum v)) n 0%nat 0%nat 0%nat =
      q_l v ^ n * ejv v (Z.to_nat (fst (fst t))) (Z.to_nat (snd (fst t))) (Z.to_nat (snd t)) ^ n).
    { induction n as [|n IHn]; [unfold spow, s3_1; simpl; ring|]. cbn [spow]. rewrite s3mul_0, IHn.
      unfold shft, jcum. cbn [Nat.add]. simpl. ring. }
    rewrite E, (pw_Zpos (q_l v) m) by lia. ring.
Qed.

Lemma decode3_spec (p : Poly tkey) : wfT (items p) ->
  returns (decode3 p) (fun r => wfp P_j kf_ieziziz r /\
    forall v, evp mon_j v r = evS (jcum v) (items p) 0%nat 0%nat 0%nat).
Proof.
  intro Hp. unfold decode3. eapply returns_bind.
  - apply (adds_foldM (wfl P_j) (ev mon_j) _ (fun kv v => Q2R (snd kv) * monT (jcum v) (0, 0, 0)%nat (fst kv))); [|apply wfl_nil].
    intros [[i ps] c] Hin. apply in_keys, Hp in Hin. destruct Hin as [h1 h2]. cbn [fst snd] in *. subst i.
    eapply adds_bind; [apply ejjj_prod_spec, h1|]. intros pol1 [[_ [_ W]] E].
    assert (M : (0 <= msum3 ps)%Z).
    { clear -h1. induction ps as [|[t m] r IH]; [cbn; lia|]. inversion h1 as [|? ? [_ h] Hr']; subst. cbn [msum3 snd] in *.
      specialize (IH Hr'). lia. }
    eapply adds_ext.
    + apply (adds_fold P_j mon_j (fun kv1 => addat 4 (msum3 ps) (addat 2 (msum3 ps) (fst kv1))) (fun kv1 => qmul c (snd kv1))).
      intros [k w] Hk. destruct (allk_in _ _ _ _ W Hk) as [g1 g2]. unfold s8 in g1. wfs_destruct. unfold nthZ in *. cbn [nth] in g2.
      keyred. unfold P_j, s8t. cbn [wfs]. lia.
    + intro v. cbv beta. unfold monT, at3. cbn [fst snd]. rewrite prodS_0 by assumption.
      rewrite <- (E v). unfold evp. rewrite (sumR_eval (mon_ej3 (msum3 ps) v)), <- !sumR_scal. apply sumR_ext. intros [k w] Hk. cbn [fst snd].
      destruct (allk_in _ _ _ _ W Hk) as [g1 g2]. unfold s8 in g1. wfs_destruct. rewrite Q2R_mul.
      unfold mon_j, mon_ej3, jvl. keyred. cbn [monx].
      match goal with |- context [pw (q_l v) (?a + msum3 ps)%Z] => rewrite (pow_lemma_pw (q_l v) a (msum3 ps)) by (right; lia) end. ring.
  - intros a [[Ua Wa] Ea]. cbn [returns]. split.
    + split; [reflexivity|]. cbn [items]. split; [now apply uniq_rm_zero|now apply allk_rm_zero].
    + intro v. unfold evp; cbn [items]. rewrite eval_rm_zero. unfold ev in Ea. rewrite Ea. cbn [eval].
      change (evS (jcum v) (items p) 0%nat 0%nat 0%nat) with (at3 (evS (jcum v) (items p)) (0, 0, 0)%nat).
      rewrite evS_at, (sumR_eval (monT (jcum v) (0, 0, 0)%nat)). ring.
Qed.
