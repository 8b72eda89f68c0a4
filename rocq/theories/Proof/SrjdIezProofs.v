(** Proofs about mdl_srjd/iez_mom.py and iez_cmom.py (C29). *)
From Coq Require Import Reals Lra.
From Coquelicot Require Import Coquelicot.
From Verif.Model Require Export SrjdIez.
From Verif.Spec Require Export Srjd.
From Verif.Proof Require Export MonTac MgfTree.
Local Open Scope R_scope.

Lemma sumR_range0s (f : Z -> R) n : (0 <= n)%Z ->
  sumR f (range 0 (n + 1)) = sumR (fun i => f (Z.of_nat i)) (seq 0 (S (Z.to_nat n))).
Proof.
  intro Hn. unfold range. rewrite sumR_map. replace (Z.to_nat (n + 1 - 0)) with (S (Z.to_nat n)) by lia.
  apply sumR_ext. intros i _. f_equal.
Qed.

(** ** powers with graded keys *)
Lemma ppow_gr {T} (P : Z -> list Z -> Prop) (mon : T -> list Z -> R) kf a (p : Poly (list Z)) m :
  (forall x y k1 k2, P x k1 -> P y k2 -> (length k1 <= length k2)%nat /\ P (x + y)%Z (kadd_pure k1 k2) /\
     forall t, mon t (kadd_pure k1 k2) = mon t k1 * mon t k2) ->
  wfp (P a) kf p -> (1 <= m)%Z ->
  returns (ppow p m) (fun r => wfp (P (m * a)%Z) kf r /\ forall t, evp mon t r = evp mon t p ^ Z.to_nat m).
Proof.
  intros h Hp Hm. unfold ppow, ppow_gen. destruct (Z.leb_spec m 0) as [x|_]; [lia|].
  assert (K : forall n acc j, wfp (P (j * a)%Z) kf acc ->
    returns (pow_loop kadd n acc p) (fun r => wfp (P ((j + Z.of_nat n) * a)%Z) kf r /\
      forall t, evp mon t r = evp mon t acc * evp mon t p ^ n)).
  { induction n as [|n IH]; intros acc j Ha; cbn [pow_loop].
    - cbn [returns]. replace (j + Z.of_nat 0)%Z with j by lia. split; [assumption|]. intro; simpl; ring.
    - eapply returns_bind.
      + apply (pmul_sp (P (j * a)%Z) (P a) (P (j * a + a)%Z) mon mon mon kf acc p); [apply Ha|apply Hp|apply Ha|apply Hp|].
        intros; now apply h.
      + intros r [Hr Er]. replace (j * a + a)%Z with ((j + 1) * a)%Z in Hr by ring.
        eapply returns_weaken; [apply (IH r (j + 1)%Z Hr)|]. intros r' [h1 h2].
        replace (j + 1 + Z.of_nat n)%Z with (j + Z.of_nat (S n))%Z in h1 by lia.
        split; [assumption|]. intro t. rewrite h2, Er. simpl. ring. }
  eapply returns_weaken; [apply (K (Z.to_nat (m - 1)) p 1%Z); now replace (1 * a)%Z with a by ring|].
  intros r [h1 h2]. replace (1 + Z.of_nat (Z.to_nat (m - 1)))%Z with m in h1 by lia.
  split; [assumption|]. intro t. rewrite h2. replace (Z.to_nat m) with (S (Z.to_nat (m - 1))) by lia. reflexivity.
Qed.

Lemma wfp_single {K} `{Key K} (P : K -> Prop) kf k v : P k -> wfp P kf (mkPoly [(k, v)] kf).
Proof.
  intro Pk. split; [reflexivity|]. cbn [items]. split.
  - constructor; [intros []|constructor].
  - intros k' [<-|[]]. assumption.
Qed.

Lemma Q2R_m1 : Q2R (-1)%Q = -1.
Proof. unfold Q2R. simpl. lra. Qed.

(** ** values of the symbols *)
Record iv := mkIv { xt : R; xs : R; xi : R; xl : R; xm : R }.
Definition ivl (v : iv) : list R := [xt v; xs v; xi v; xl v; xm v].

(** derivatives of the (formal) jump transform *)
Definition gj (v : iv) (n : nat) (x : R) : R :=
  match n with
  | O => 0
  | S m => IZR (factN m) * xi v * ((xm v * xt v / (1 - xm v * xt v * x)) ^ n - (xm v * xs v / (1 - xm v * xs v * x)) ^ n)
  end.
Definition gD (v : iv) (x : R) : Prop := 1 - xm v * xt v * x <> 0 /\ 1 - xm v * xs v * x <> 0.

Lemma lin_open a (x : R) : 1 - a * x <> 0 -> locally x (fun y : R => 1 - a * y <> 0).
Proof.
  intro h. assert (C : continuous (fun y : R => 1 - a * y) x).
  { apply (ex_derive_continuous (fun y : R => 1 - a * y)). auto_derive. trivial. }
  apply (C (fun z => z <> 0)). apply (open_neq 0), h.
Qed.
Lemma gD_open v (x : R) : gD v x -> locally x (gD v).
Proof. intros [h1 h2]. apply filter_and; now apply lin_open. Qed.
Lemma gD_0 v : gD v 0.
Proof. unfold gD. split; lra. Qed.
Lemma gj_derive v n (x : R) : gD v x -> is_derive (gj v (S n)) x (gj v (S (S n)) x).
Proof.
  intros [h1 h2]. unfold gj. eapply is_derive_val.
  - apply is_derive_Rscal. apply is_derive_Rminus; apply is_derive_Rpow.
    + instantiate (1 := (xm v * xt v / (1 - xm v * xt v * x)) ^ 2). auto_derive; [exact h1|]. field. exact h1.
    + instantiate (1 := (xm v * xs v / (1 - xm v * xs v * x)) ^ 2). auto_derive; [exact h2|]. field. exact h2.
  - cbn [pred]. change (factN (S n)) with (Z.of_nat (S n) * factN n)%Z.
    rewrite mult_IZR, <- INR_IZR_INZ. generalize (INR (S n)); intro N.
    set (A := xm v * xt v / _). set (B := xm v * xs v / _). simpl. ring.
Qed.

Definition iezm (v : iv) (n : nat) : R := gmm (xl v) (gj v) n 0.
(** cumulants *)
Definition iezk (v : iv) (j : nat) : R := xl v * gj v j 0.
Lemma gj_0 v n : gj v (S n) 0 = IZR (factN n) * xi v * ((xm v * xt v) ^ S n - (xm v * xs v) ^ S n).
Proof.
  unfold gj. replace (xm v * xt v / (1 - xm v * xt v * 0)) with (xm v * xt v) by field.
  replace (xm v * xs v / (1 - xm v * xs v * 0)) with (xm v * xs v) by field. reflexivity.
Qed.
Lemma iezm_0 v : iezm v 0 = 1.
Proof. reflexivity. Qed.
Lemma iezm_S v n : iezm v (S n) = sumR (fun j => IZR (combN n j) * (iezk v (S j) * iezm v (n - j))) (seq 0 (S n)).
Proof.
  unfold iezm. rewrite (gmm_rec (xl v) (gj v) (gD v) (gD_open v) (gj_derive v) n 0 (gD_0 v)), <- sumR_scal.
  apply sumR_ext. intros j _. unfold iezk. ring.
Qed.

(** ** moment_EJ and its products *)
Definition P_ej (a : Z) (k : list Z) : Prop := wfs [true; true; false; true; true] k /\ nthZ k 2 = (- a)%Z.
Definition mon_ej (v : iv) (k : list Z) : R :=
  pw (xt v) (nthZ k 0) * pw (xs v) (nthZ k 1) * pw (xi v) (nthZ k 3) * pw (xm v) (nthZ k 4).

Lemma P_ej_add x y k1 k2 : P_ej x k1 -> P_ej y k2 -> (length k1 <= length k2)%nat /\ P_ej (x + y)%Z (kadd_pure k1 k2) /\
  forall t, mon_ej t (kadd_pure k1 k2) = mon_ej t k1 * mon_ej t k2.
Proof.
  intros [h1 e1] [h2 e2]. wfs_destruct. unfold nthZ in e1, e2; simpl in e1, e2. subst.
  split; [simpl; lia|]. split.
  - keyred. split; [simpl; lia|]. unfold nthZ; simpl. lia.
  - intro v. unfold mon_ej. keyred. pws. ring.
Qed.

Lemma moment_EJ_spec n : (1 <= n)%Z ->
  returns (moment_EJ n) (fun p => wfp (P_ej 1) kf_ej p /\ forall v, evp mon_ej v p = gj v (Z.to_nat n) 0).
Proof.
  intro Hn. unfold moment_EJ. destruct (Z.ltb_spec n 0); [lia|]. destruct (Z.eqb_spec n 0); [lia|].
  cbn [returns]. split.
  - split; [reflexivity|]. cbn [items]. split; [apply uniq_add_kv, uniq_add_kv, uniq_nil|].
    apply allk_add_kv; [apply allk_add_kv; [exact (allk_nil _)|]|]; (split; [simpl; lia|reflexivity]).
  - intro v. unfold evp; cbn [items]. rewrite !eval_add_kv, !Q2R_qz. cbn [eval].
    unfold mon_ej, nthZ. cbn [nth]. rewrite !pw_0, !pw_1, opp_IZR.
    replace (Z.to_nat n) with (S (Z.to_nat (n - 1))) by lia. rewrite gj_0.
    unfold fact. rewrite !pw_Zpos by lia. rewrite !Rpow_mult_distr.
    replace (S (Z.to_nat (n - 1))) with (Z.to_nat n) by lia. ring.
Qed.

Lemma ej_prod_spec ps : wfps ps ->
  returns (ej_prod ps) (fun p => wfp (P_ej (msum ps)) kf_ej p /\ forall v, evp mon_ej v p = gprodG (gj v) 0 ps).
Proof.
  intro Hw. unfold ej_prod.
  assert (K : forall ps acc a, wfps ps -> wfp (P_ej a) kf_ej acc ->
    returns (foldM (fun pol1 nm => let! q := moment_EJ (fst nm) in let! qm := ppow q (snd nm) in pmul pol1 qm) ps acc)
      (fun p => wfp (P_ej (a + msum ps)%Z) kf_ej p /\ forall v, evp mon_ej v p = evp mon_ej v acc * gprodG (gj v) 0 ps)).
  { clear. induction ps as [|[n m] ps IH]; intros acc a Hw Ha; cbn [foldM msum].
    - cbn [returns]. rewrite Z.add_0_r. split; [assumption|]. intro. unfold gprodG. simpl. ring.
    - inversion Hw as [|? ? [h1 h2] Hr]; subst. cbn [fst snd] in *.
      assert (S1 : returns (let! q := moment_EJ n in let! qm := ppow q m in pmul acc qm)
        (fun p => wfp (P_ej (a + m)%Z) kf_ej p /\ forall v, evp mon_ej v p = evp mon_ej v acc * gj v (Z.to_nat n) 0 ^ Z.to_nat m)).
      { eapply returns_bind; [apply moment_EJ_spec, h1|]. intros q [Hq Eq].
        eapply returns_bind; [apply (ppow_gr P_ej mon_ej kf_ej 1%Z q m P_ej_add Hq h2)|]. intros qm [Hqm Eqm].
        eapply returns_weaken.
        - apply (pmul_sp (P_ej a) (P_ej (m * 1)%Z) (P_ej (a + m * 1)%Z) mon_ej mon_ej mon_ej kf_ej acc qm);
            [apply Ha|apply Hqm|apply Ha|apply Hqm|]. intros; now apply P_ej_add.
        - intros r [h3 h4]. rewrite Z.mul_1_r in h3. split; [assumption|]. intro v. now rewrite h4, Eqm, Eq. }
      apply returns_inv in S1. destruct S1 as (r & E & Hr1 & Er). rewrite E.
      eapply returns_weaken; [apply (IH r (a + m)%Z Hr Hr1)|]. intros p [h3 h4].
      replace (a + m + msum ps)%Z with (a + (m + msum ps))%Z in h3 by ring. split; [assumption|].
      intro v. rewrite h4, Er. unfold gprodG. simpl. ring. }
  eapply returns_weaken; [apply (K ps _ 0%Z Hw)|].
  - apply wfp_single. split; [simpl; lia|reflexivity].
  - intros p [h1 h2]. split; [assumption|]. intro v. rewrite h2. unfold evp; cbn [items eval].
    unfold mon_ej. keyred. rewrite !pw_0, Q2R_1. ring.
Qed.

(** ** decode *)
Definition s_iez : list bool := [true; true; true; true; true].
Definition P_iez (k : list Z) : Prop := wfs s_iez k.
Definition mon_iez (v : iv) (k : list Z) : R := monx (ivl v) k.

Definition P_6 (k : list Z) : Prop := wfs [true; true; false; true; true; true] k /\ nthZ k 2 = 0%Z.
Definition mon_6 (v : iv) (k : list Z) : R := monx (ivl v) (dropat 2 k).

Lemma decode_iez_spec (p : Poly ckey) : gwfC (items p) ->
  returns (decode_iez p) (fun r => wfp P_iez kf_iez r /\
    forall v, evp mon_iez v r = eval (gmonC (xl v) (gj v) 0) (items p)).
Proof.
  intro Hp. unfold decode_iez. eapply returns_bind.
  - apply (adds_foldM (wfl P_6) (ev mon_6) _ (fun kv v => Q2R (snd kv) * gmonC (xl v) (gj v) 0 (fst kv))); [|apply wfl_nil].
    intros [[i ps] c] Hin. apply in_keys, Hp in Hin. destruct Hin as (h1 & h2 & h3 & h4). cbn [fst snd] in *.
    eapply adds_bind; [apply ej_prod_spec, h3|]. intros pol1 [[_ [_ W]] E].
    eapply adds_ext.
    + apply (adds_fold P_6 mon_6 (fun kv1 => [nthZ (fst kv1) 0; nthZ (fst kv1) 1; nthZ (fst kv1) 2 + i; nthZ (fst kv1) 3; i; nthZ (fst kv1) 4]%Z)
               (fun kv1 => qmul c (snd kv1))).
      intros [k w] Hk. destruct (allk_in _ _ _ _ W Hk) as [g1 g2]. wfs_destruct. unfold nthZ in *. simpl in *.
      split; [simpl; lia|]. unfold nthZ; simpl. lia.
    + intro v. cbv beta. unfold gmonC. cbn [fst snd].
      rewrite <- (E v). unfold evp. rewrite sumR_eval, <- !sumR_scal. apply sumR_ext. intros [k w] Hk. cbn [fst snd].
      destruct (allk_in _ _ _ _ W Hk) as [g1 g2]. wfs_destruct. rewrite Q2R_mul.
      unfold mon_6, mon_ej, ivl. keyred. cbn [dropat firstn skipn app monx]. ring.
  - intros a [[Ua Wa] Ea].
    assert (Wz : allk P_6 (rm_zero a)) by now apply allk_rm_zero.
    assert (F : forallb (fun kv => (nthZ (fst kv) 2 =? 0)%Z) (rm_zero a) = true).
    { apply forallb_forall. intros [k w] Hk. destruct (allk_in _ _ _ _ Wz Hk) as [_ g]. cbn [fst]. now apply Z.eqb_eq. }
    rewrite F. cbn [returns]. split.
    + split; [reflexivity|]. cbn [items]. split; [apply uniq_add_all, uniq_nil|].
      apply allk_add_all; [exact (allk_nil _)|]. intros k Hk. unfold keys in Hk. rewrite map_map in Hk.
      apply in_map_iff in Hk. destruct Hk as ([k0 w] & <- & Hk). cbn [fst snd].
      destruct (allk_in _ _ _ _ Wz Hk) as [g1 _]. wfs_destruct. unfold P_iez, s_iez. simpl. lia.
    + intro v. unfold evp; cbn [items]. rewrite eval_add_all. cbn [eval].
      assert (E2 : eval (mon_6 v) a = eval (gmonC (xl v) (gj v) 0) (items p)).
      { unfold ev in Ea. rewrite Ea. cbn [eval]. rewrite sumR_eval. ring. }
      rewrite <- E2, <- (eval_rm_zero (mon_6 v) a), (sumR_eval (mon_6 v)), Rplus_0_l, (sumR_eval (mon_iez v)), sumR_map. reflexivity.
Qed.

Lemma dmgf_cpp_kf p q : items p = items q -> dmgf_cpp p = dmgf_cpp q.
Proof. intro E. unfold dmgf_cpp. now rewrite E. Qed.

Lemma moment_IEZ_spec n : (0 <= n)%Z ->
  returns (moment_IEZ n) (fun p => wfp P_iez kf_iez p /\ forall v, evp mon_iez v p = iezm v (Z.to_nat n)).
Proof.
  intro Hn. unfold moment_IEZ. destruct (Z.ltb_spec n 0); [lia|].
  destruct (Z.eqb_spec n 0) as [->|n0].
  { cbn [returns]. split; [apply wfp_single; unfold P_iez, s_iez; simpl; lia|].
    intro v. unfold evp, mon_iez, ivl; cbn [items eval monx]. rewrite !pw_0, Q2R_1.
    change (iezm v (Z.to_nat 0)) with 1. ring. }
  destruct (Z.eqb_spec n 1) as [->|n1].
  { cbn [returns]. split.
    - split; [reflexivity|]. cbn [items]. split.
      + unfold uniq. cbn [map fst]. constructor; [intros [h|[]]; discriminate h|]. constructor; [intros []|constructor].
      + intros k [<-|[<-|[]]]; unfold P_iez, s_iez; simpl; lia.
    - intro v. unfold evp, mon_iez, ivl; cbn [items eval monx]. rewrite !pw_0, !pw_1, Q2R_1, Q2R_m1.
      change (Z.to_nat 1) with 1%nat. unfold iezm. rewrite gmm_1, gj_0. simpl. ring. }
  set (st := mkPoly _ _).
  assert (E : iter_dmgf_cpp (Z.to_nat (n - 1)) st = iter_dmgf_cpp (Z.to_nat (n - 1)) P1).
  { destruct (Z.to_nat (n - 1)) as [|m] eqn:Em; [lia|]. cbn [iter_dmgf_cpp].
    now rewrite (dmgf_cpp_kf st P1 eq_refl). }
  rewrite E. pose proof (giter_cpp_ok 0 (fun _ _ => 0) (Z.to_nat (n - 1))) as Hok.
  apply returns_inv in Hok. destruct Hok as (q & Eq & Hq). rewrite Eq. cbn [bind].
  eapply returns_weaken; [apply decode_iez_spec, Hq|]. intros r [h1 h2]. split; [assumption|].
  intro v. rewrite h2. unfold iezm. replace (Z.to_nat n) with (S (Z.to_nat (n - 1))) by lia.
  unfold gmm. now rewrite Eq.
Qed.

Lemma P_iez_add k1 k2 : P_iez k1 -> P_iez k2 -> (length k1 <= length k2)%nat /\ P_iez (kadd_pure k1 k2) /\
  forall t, mon_iez t (kadd_pure k1 k2) = mon_iez t k1 * mon_iez t k2.
Proof.
  unfold P_iez, s_iez. intros h1 h2. wfs_destruct.
  split; [simpl; lia|]. split.
  - keyred. simpl; lia.
  - intro v. unfold mon_iez, ivl. keyred. cbn [monx]. pws. ring.
Qed.

(** ** central moments *)
Definition ciezm (v : iv) (n : nat) : R :=
  sumR (fun i => IZR (combN n i) * ((- iezm v 1) ^ i * iezm v (n - i))) (seq 0 (S n)).

Lemma cmoment_IEZ_spec n : (0 <= n)%Z ->
  returns (cmoment_IEZ n) (fun p => wfp P_iez kf_iez p /\ forall v, evp mon_iez v p = ciezm v (Z.to_nat n)).
Proof.
  intro Hn. unfold cmoment_IEZ. destruct (Z.ltb_spec n 0); [lia|].
  assert (W1 : wfp P_iez kf_iez (mkPoly [([0; 0; 0; 0; 0]%Z, 1%Q)] kf_iez)).
  { apply wfp_single; unfold P_iez, s_iez; simpl; lia. }
  assert (E1 : forall v, evp mon_iez v (mkPoly [([0; 0; 0; 0; 0]%Z, 1%Q)] kf_iez) = 1).
  { intro v. unfold evp, mon_iez, ivl; cbn [items eval monx]. rewrite !pw_0, Q2R_1. ring. }
  destruct (Z.eqb_spec n 0) as [->|n0].
  { cbn [returns]. split; [assumption|]. intro v. rewrite E1. unfold ciezm. cbn [Z.to_nat seq sumR combN Nat.sub pow]. rewrite iezm_0. ring. }
  destruct (Z.eqb_spec n 1) as [->|n1].
  { cbn [returns]. split; [apply wfp_single; unfold P_iez, s_iez; simpl; lia|].
    intro v. unfold evp, mon_iez, ivl; cbn [items eval monx]. unfold ciezm. change (Z.to_nat 1) with 1%nat.
    cbn [seq sumR combN Nat.sub pow Z.add Pos.add]. rewrite iezm_0. unfold Q2R. simpl. ring. }
  eapply returns_bind; [apply (moment_IEZ_spec 1); lia|]. intros mean [Wm Em].
  eapply returns_weaken.
  - apply (adds_foldM (wfp P_iez kf_iez) (evp mon_iez) _
      (fun i v => IZR (mcomb n i) * ((- iezm v 1) ^ Z.to_nat i * iezm v (Z.to_nat (n - i)))));
      [|apply wfp_nil].
    intros i Hi. apply in_range in Hi.
    assert (B : returns (if (i =? 0)%Z then Ok (mkPoly [([0; 0; 0; 0; 0]%Z, 1%Q)] kf_iez) else ppow mean i)
      (fun r => wfp P_iez kf_iez r /\ forall v, evp mon_iez v r = iezm v 1 ^ Z.to_nat i)).
    { destruct (Z.eqb_spec i 0) as [->|i0].
      - cbn [returns]. split; [assumption|]. intro; rewrite E1; reflexivity.
      - eapply returns_weaken; [apply (ppow_gr (fun _ => P_iez) mon_iez kf_iez 0%Z mean i); [|exact Wm|lia]|].
        + intros _ _. apply P_iez_add.
        + intros r [h1 h2]. split; [exact h1|]. intro v. rewrite h2, Em. reflexivity. }
    eapply adds_bind; [exact B|]. intros pol1 [W E].
    eapply adds_bind; [apply (moment_IEZ_spec (n - i)); lia|]. intros q [Wq Eq].
    eapply adds_bind; [apply (pmul_sp P_iez P_iez P_iez mon_iez mon_iez mon_iez kf_iez pol1 q);
      [apply W|apply Wq|apply W|apply Wq|apply P_iez_add]|]. intros pq [Wpq Epq].
    destruct (rmul_sp P_iez mon_iez kf_iez (qz (sgn1 i * mcomb n i)) pq Wpq) as [Wr Er].
    eapply adds_ext; [apply (adds_merge P_iez mon_iez kf_iez); [apply Wr|apply Wr]|].
    intro v. cbv beta. change (eval (mon_iez v) (items (rmul (qz (sgn1 i * mcomb n i)) pq)))
      with (evp mon_iez v (rmul (qz (sgn1 i * mcomb n i)) pq)). rewrite Er, Epq, E, Eq, Q2R_qz, mult_IZR, sgn1_pw by lia.
    replace (- iezm v 1) with ((-1) * iezm v 1) by ring. rewrite Rpow_mult_distr, pw_Zpos by lia. ring.
  - intros p [W E]. split; [assumption|]. intro v. rewrite E. unfold evp at 1; cbn [items eval].
    unfold ciezm. rewrite Rplus_0_l, sumR_range0s by assumption. apply sumR_ext. intros i Hi. apply in_seq in Hi.
    unfold mcomb. rewrite !Nat2Z.id. replace (Z.to_nat (n - Z.of_nat i)) with (Z.to_nat n - i)%nat by lia. reflexivity.
Qed.

(** ** the moment generating function *)
Definition iezv (k lam mu s t : R) : iv := mkIv (exp (k * t)) (exp (k * s)) (/ k) lam mu.

Section MGF.
Context (k lam mu s t : R) (Hk : k <> 0).
Let a := mu * exp (k * t).
Let b := mu * exp (k * s).
Definition mgf_closed (x : R) : R := exp (lam * / k * (ln (1 - b * x) - ln (1 - a * x))).

(** near 0 all the denominators are positive *)
Definition rad : R := / (1 + Rabs mu * (exp (Rabs k * (Rabs s + Rabs t)))).
Lemma rad_pos : 0 < rad.
Proof.
  unfold rad. apply Rinv_0_lt_compat. pose proof (Rabs_pos mu). pose proof (exp_pos (Rabs k * (Rabs s + Rabs t))).
  assert (0 <= Rabs mu * exp (Rabs k * (Rabs s + Rabs t))) by (apply Rmult_le_pos; lra). lra.
Qed.
Lemma den_pos x u : Rabs x < rad -> Rmin s t <= u <= Rmax s t -> 0 < 1 - mu * exp (k * u) * x.
Proof.
  intros Hx Hu.
  assert (E : exp (k * u) <= exp (Rabs k * (Rabs s + Rabs t))).
  { destruct (Req_dec (k * u) (Rabs k * (Rabs s + Rabs t))) as [->|Ne]; [lra|]. left. apply exp_increasing.
    assert (A : Rabs u <= Rabs s + Rabs t).
    { unfold Rmin, Rmax in Hu. destruct (Rle_dec s t); unfold Rabs; repeat destruct Rcase_abs; lra. }
    assert (k * u <= Rabs k * (Rabs s + Rabs t)); [|lra].
    apply Rle_trans with (Rabs (k * u)); [apply Rle_abs|]. rewrite Rabs_mult. apply Rmult_le_compat_l; [apply Rabs_pos|exact A]. }
  set (M := exp (Rabs k * (Rabs s + Rabs t))) in *.
  assert (B : Rabs (mu * exp (k * u) * x) <= Rabs mu * M * Rabs x).
  { rewrite !Rabs_mult. apply Rmult_le_compat_r; [apply Rabs_pos|]. apply Rmult_le_compat_l; [apply Rabs_pos|].
    rewrite Rabs_pos_eq; [exact E|]. left. apply exp_pos. }
  assert (C : Rabs mu * M * Rabs x < 1).
  { assert (Q : 0 <= Rabs mu * M) by (apply Rmult_le_pos; [apply Rabs_pos|left; apply exp_pos]).
    apply Rle_lt_trans with (Rabs mu * M * rad); [apply Rmult_le_compat_l; lra|].
    unfold rad. fold M. apply Rmult_lt_reg_r with (1 + Rabs mu * M); [lra|].
    rewrite Rmult_assoc, Rinv_l by lra. lra. }
  pose proof (Rle_abs (mu * exp (k * u) * x)). lra.
Qed.

Lemma mgf_iez_closed x : Rabs x < rad -> mgf_iez k lam mu s t x = mgf_closed x.
Proof.
  intro Hx. unfold mgf_iez, mgf_closed. f_equal. rewrite Rmult_assoc. f_equal.
  apply is_RInt_unique.
  replace (/ k * (ln (1 - b * x) - ln (1 - a * x)))
    with (minus (- / k * ln (1 - mu * exp (k * t) * x)) (- / k * ln (1 - mu * exp (k * s) * x)))
    by (unfold minus, plus, opp, a, b; simpl; ring).
  apply (is_RInt_derive (fun u => - / k * ln (1 - mu * exp (k * u) * x))).
  - intros u Hu. pose proof (den_pos x u Hx Hu) as D. auto_derive; [rewrite Rplus_comm; unfold Rminus in D; lra|].
    field. split; [lra|assumption].
  - intros u Hu. pose proof (den_pos x u Hx Hu) as D.
    apply (ex_derive_continuous (fun u => / (1 - mu * (exp (k * u) * x)) - 1)). auto_derive. lra.
Qed.

Lemma mgf_closed_derive (x : R) : Rabs x < rad ->
  is_derive mgf_closed x (lam * gj (iezv k lam mu s t) 1 x * mgf_closed x).
Proof.
  intro Hx. assert (Da := den_pos x t Hx). assert (Db := den_pos x s Hx).
  assert (ha : 0 < 1 - a * x) by (apply Da; unfold Rmin, Rmax; destruct Rle_dec; lra).
  assert (hb : 0 < 1 - b * x) by (apply Db; unfold Rmin, Rmax; destruct Rle_dec; lra).
  unfold mgf_closed. eapply is_derive_val.
  - apply is_derive_Rexp. apply is_derive_Rscal.
    instantiate (1 := - b / (1 - b * x) + a / (1 - a * x)). auto_derive; [lra|]. field. lra.
  - cbv beta. unfold gj, iezv; cbn [xt xs xi xl xm factN]. fold a b. set (e := exp _). field. repeat split; lra.
Qed.

Lemma iez_derive_n n : Derive_n (mgf_iez k lam mu s t) n 0 = iezm (iezv k lam mu s t) n.
Proof.
  rewrite (Derive_n_ext_loc _ mgf_closed).
  2: { exists (mkposreal rad rad_pos). intros y Hy. apply mgf_iez_closed.
       unfold ball in Hy; simpl in Hy; unfold AbsRing_ball, abs, minus, plus, opp in Hy; simpl in Hy.
       rewrite Ropp_0, Rplus_0_r in Hy. exact Hy. }
  assert (Z0 : mgf_closed 0 = 1).
  { unfold mgf_closed. rewrite !Rmult_0_r, !Rminus_0_r, Rminus_diag_eq by reflexivity. rewrite Rmult_0_r. apply exp_0. }
  assert (O : forall x : R, Rabs x < rad -> locally x (fun y => Rabs y < rad)).
  { intros x Hx. assert (h : 0 < rad - Rabs x) by lra. exists (mkposreal _ h). intros y Hy.
    unfold ball in Hy; simpl in Hy; unfold AbsRing_ball, abs, minus, plus, opp in Hy; simpl in Hy.
    pose proof (Rabs_triang (y + - x) x). rewrite Rplus_assoc, Rplus_opp_l, Rplus_0_r in H. lra. }
  rewrite (gmgf_derivative lam (gj (iezv k lam mu s t)) (fun x => Rabs x < rad) O).
  - rewrite Z0. unfold iezm. cbn [iezv xl]. ring.
  - intros m x Hx. apply gj_derive. split; cbn [iezv xm xt xs]; apply Rgt_not_eq;
      (apply (den_pos x); [assumption|]); unfold Rmin, Rmax; destruct Rle_dec; lra.
  - apply mgf_closed_derive.
  - rewrite Rabs_R0. apply rad_pos.
Qed.
End MGF.

Lemma binom_seq x y n : (x + y) ^ n = sumR (fun i => IZR (combN n i) * (x ^ i * y ^ (n - i))) (seq 0 (S n)).
Proof.
  pose proof (binomial_range x y (Z.of_nat n) ltac:(lia)) as E. rewrite Nat2Z.id in E. rewrite E.
  rewrite sumR_range0s by lia. rewrite Nat2Z.id. apply sumR_ext. intros i Hi. apply in_seq in Hi.
  unfold mcomb. rewrite !Nat2Z.id. now replace (Z.to_nat (Z.of_nat n - Z.of_nat i)) with (n - i)%nat by lia.
Qed.

(** central moments are moments of the centred variable *)
Lemma ciezm_E {Om} (E : (Om -> R) -> R) (HE : expectation E) (X : Om -> R) v n :
  (1 <= n)%nat -> (forall i, (i <= n)%nat -> E (fun w => X w ^ i) = iezm v i) ->
  E (fun w => (X w - E X) ^ n) = ciezm v n.
Proof.
  intros Hn h. assert (E1 : E X = iezm v 1).
  { rewrite <- (h 1%nat Hn). apply (E_ext E HE). intro; simpl; ring. }
  rewrite E1.
  rewrite (E_ext E HE _ (fun w => sumR (fun i => IZR (combN n i) * (- iezm v 1) ^ i * X w ^ (n - i)) (seq 0 (S n)))).
  - rewrite (E_sumR E HE). unfold ciezm. apply sumR_ext. intros i _.
    rewrite (E_scal E HE), h by lia. ring.
  - intro w. replace (X w - iezm v 1) with (- iezm v 1 + X w) by ring. rewrite binom_seq.
    apply sumR_ext. intros; ring.
Qed.
