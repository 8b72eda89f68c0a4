(** Proofs about mdl_svcj/mom.py and cmom.py (C38). *)
From Coq Require Import Reals Lra.
From Coquelicot Require Import Coquelicot.
From Verif.Proof Require Import ItoProofs DpolyProofs SrjdIezProofs SrjdStatProofs Realise Laurent.
From Verif.Proof Require Export SvcjMomProofs.
Import Verif.Model.SvcjCond Verif.Proof.SvcjAna Verif.Proof.SvcjCondProofs Verif.Model.SvcjMom Verif.Proof.SvcjMomProofs.
Local Open Scope R_scope.

(** ** moment_v_theta: the fifth symbol of [x13] stands for E[v] *)
Definition mon5x (x : x13) : list Z -> R := monx [xi x; xa x; xsg x; xlam x; xmv x].
Definition sval (x : x13) (n : Z) : R := match stat_cmoment_v n with Ok q => eval (mon5x x) (items q) | Err _ => 0 end.
Definition wval (x : x13) (n : Z) : R :=
  sumR (fun i => IZR (mcomb n i) * (pw (xi x * xlam x * xmv x) i * sval x (n - i)%Z)) (range 0 (n + 1)).
Lemma mvt_spec n : (0 <= n)%Z -> returns (moment_v_theta n) (fun q => wfp P5 kf_stat q /\ forall x, evp mon5x x q = wval x n).
Proof.
  intro Hn. unfold moment_v_theta. eapply returns_weaken.
  - apply (adds_run P5 mon5x _ (fun x => wval x n)). unfold wval.
    apply (adds_foldM _ _ _ (fun i x => IZR (mcomb n i) * (pw (xi x * xlam x * xmv x) i * sval x (n - i)%Z))).
    intros i Hi. apply in_range in Hi. rewrite math_comb_ok by lia. cbn [bind].
    destruct (returns_inv _ _ (stat_cmoment_v_sp (n - i) ltac:(lia))) as (q & Eq & (K & U & A) & _). unfold sval. rewrite Eq. cbn [bind].
    eapply adds_ext; [apply (adds_fold P5 mon5x (fun kv : list Z * Q => addat 4 i (addat 3 i (addat 0 i (fst kv)))) (fun kv => qmul (snd kv) (qz (mcomb n i))))|].
    + intros [k v] Hin. pose proof (allk_in _ _ _ _ A Hin) as Hk. unfold P5 in Hk. wfs_destruct. unfold P5. cbn [fst addat wfs]. repeat split; lia.
    + intro x. cbv beta. rewrite (sumR_eval (mon5x x)). rewrite <- !sumR_scal. apply sumR_ext. intros [k v] Hin. cbn [fst snd].
      pose proof (allk_in _ _ _ _ A Hin) as Hk. unfold P5 in Hk. wfs_destruct. unfold mon5x. cbn [addat monx]. rewrite Q2R_mul, Q2R_qz. pws. pwx. ring.
  - intros r (h1 & h2 & h3 & h4). split; [split; auto|]. exact h4.
Qed.

(** ** mom.moment_y *)
Definition xset (x : x13) (a : R) : x13 :=
  mkX (xe x) (xen x) (xt x) (xi x) (xmu x) a (xth x) (xsg x) (xrho x) (xlam x) (xmv x) (xrj x) (xms x) (xss x).
Definition mon12 (x : x13) (k : list Z) : R := mon13 (xset x 1) k.
Lemma mon13_set x a k : Q13 k -> mon13 (xset x a) k = mon12 x k * pw a (nthZ k 4).
Proof. intro h. unfold Q13, s13 in h. wfs_destruct. unfold mon12, mon13, vals13, nthZ. cbn [monx nth xset xe xt xi xmu xa xth xsg xrho xlam xmv xrj xms xss]. rewrite pw_one. ring. Qed.
Lemma kt_spec coef k p : Q13 k -> wfp P5 kf_stat p ->
  wfp Q13 kf13s (svcj_stat_key_times coef k p) /\
  forall x, evp mon13 x (svcj_stat_key_times coef k p) = Q2R coef * (mon12 x k * evp mon5x x p).
Proof.
  intros Hk (K & U & A). unfold svcj_stat_key_times.
  pose proof (adds_fold Q13 mon13 (fun kv : list Z * Q => let K := fst kv in [nthZ k 0; nthZ k 1; nthZ k 2 + nthZ K 0; nthZ k 3; nthZ K 1; nthZ k 5; nthZ k 6 + nthZ K 2; nthZ k 7;
            nthZ k 8 + nthZ K 3; nthZ k 9 + nthZ K 4; nthZ k 10; nthZ k 11; nthZ k 12]%Z) (fun kv => qmul coef (snd kv)) (items p)) as F.
  assert (PF : forall x, In x (items p) -> Q13 (let K := fst x in [nthZ k 0; nthZ k 1; nthZ k 2 + nthZ K 0; nthZ k 3; nthZ K 1; nthZ k 5; nthZ k 6 + nthZ K 2; nthZ k 7;
            nthZ k 8 + nthZ K 3; nthZ k 9 + nthZ K 4; nthZ k 10; nthZ k 11; nthZ k 12]%Z)).
  { intros [k2 v] Hin. pose proof (allk_in _ _ _ _ A Hin) as Hk2. unfold P5 in Hk2. unfold Q13, s13 in Hk. wfs_destruct.
    unfold Q13, s13, nthZ. cbn [fst wfs nth]. repeat split; lia. }
  specialize (F PF [] (wfl_nil _)). cbn [returns] in F. destruct F as ((FU & FA) & FE).
  split; [split; [reflexivity|split; assumption]|]. intro x. specialize (FE x). unfold ev in FE. unfold evp. cbn [items]. cbv zeta in FE. cbv zeta. rewrite FE.
  cbn [eval]. rewrite Rplus_0_l, (sumR_eval (mon5x x)), <- !sumR_scal. apply sumR_ext. intros [k2 v] Hin. cbn [fst snd].
  pose proof (allk_in _ _ _ _ A Hin) as Hk2. unfold P5 in Hk2. unfold Q13, s13 in Hk. wfs_destruct.
  unfold mon13, mon12, mon13, mon5x, vals13, nthZ. cbn [monx nth xset xe xt xi xmu xa xth xsg xrho xlam xmv xrj xms xss]. rewrite Q2R_mul, pw_one. pws. ring.
Qed.
(** the linear functional a^j -> wval x j, j <= N *)
Definition Fa (N : Z) (x : x13) : (R -> R) -> R := Efin (realise1 (Z.to_nat N) (fun j => wval x (Z.of_nat j))).
Lemma Fa_exp N x : expectation (Fa N x).
Proof. apply Efin_expectation. Qed.
Lemma Fa_pw N x j : (0 <= j <= N)%Z -> Fa N x (fun a => pw a j) = wval x j.
Proof.
  intro Hj. unfold Fa. rewrite (E_ext _ (Efin_expectation _) _ (fun a => a ^ Z.to_nat j)) by (intro; apply pw_Zpos; lia).
  rewrite realise1_spec by lia. now rewrite Z2Nat.id by lia.
Qed.
Lemma stat_value {Om} (E : (Om -> R) -> R) (HE : expectation E) (A : Om -> R) x m p : wfp (P13 m) kf13 p ->
  (forall j, (0 <= j <= m)%Z -> E (fun w => pw (A w) j) = wval x j) ->
  sumR (fun kv => Q2R (snd kv) * (mon12 x (fst kv) * wval x (nthZ (fst kv) 4))) (items p) = E (fun w => evp mon13 (xset x (A w)) p).
Proof.
  intros (_ & _ & Ap) h.
  rewrite (E_ext E HE _ (fun w => sumR (fun kv => (Q2R (snd kv) * mon12 x (fst kv)) * pw (A w) (nthZ (fst kv) 4)) (items p))).
  - rewrite (E_sumR E HE). apply sumR_ext. intros [k v] Hin. cbn [fst snd]. destruct (allk_in _ _ _ _ Ap Hin) as [Wk Dk].
    rewrite (E_scal E HE), h; [ring|]. split; [|assumption]. unfold s13 in Wk. wfs_destruct. unfold nthZ. cbn [nth]. assumption.
  - intro w. unfold evp. rewrite (sumR_eval (mon13 (xset x (A w)))). apply sumR_ext. intros [k v] Hin. cbn [fst snd].
    destruct (allk_in _ _ _ _ Ap Hin) as [Wk _]. rewrite mon13_set by exact Wk. ring.
Qed.
Definition smval (m : Z) (x : x13) : R := Fa m x (fun a => mvalue m (xset x a)).
Lemma stat_moment_y_spec m : (0 <= m)%Z ->
  returns (svcj_stat_moment_y m) (fun q => wfp Q13 kf13s q /\ forall x, evp mon13 x q = smval m x).
Proof.
  intro Hm. unfold svcj_stat_moment_y. eapply returns_bind; [apply (moment_y_spec m Hm)|]. intros p [Wp Vp].
  assert (Ap := proj2 (proj2 Wp)). eapply returns_weaken.
  - apply (adds_foldM (wfp Q13 kf13s) (evp mon13) _ (fun kv x => Q2R (snd kv) * (mon12 x (fst kv) * wval x (nthZ (fst kv) 4)))); [|apply wfp_nil].
    intros [k v] Hin. cbn [fst snd]. destruct (allk_in _ _ _ _ Ap Hin) as [Wk _].
    assert (H4 : (0 <= nthZ k 4)%Z). { unfold s13 in Wk. wfs_destruct. unfold nthZ. cbn [nth]. assumption. }
    eapply adds_bind; [apply (mvt_spec _ H4)|]. intros u [Wu Vu]. destruct (kt_spec v k u Wk Wu) as [Wt Vt].
    eapply adds_ext; [apply (adds_merge Q13 mon13 kf13s); apply Wt|]. intro x. cbv beta.
    change (evp mon13 x (svcj_stat_key_times v k u) = Q2R v * (mon12 x k * wval x (nthZ k 4))). now rewrite Vt, Vu.
  - intros r [Wr Vr]. split; [assumption|]. intro x. rewrite Vr. unfold evp at 1. cbn [items eval]. rewrite Rplus_0_l.
    rewrite (stat_value (Fa m x) (Fa_exp m x) (fun a => a) x m p Wp); [|intros j Hj; now apply Fa_pw].
    unfold smval. apply (E_ext _ (Fa_exp m x)). intro a. apply Vp.
Qed.

(** ** the moments as those of a linear functional *)
Lemma m6val_0 x : m6val x 0 0 0 0 0 0 = 1.
Proof.
  unfold m6val. replace (moment_ieii6 0 0 0 0 0 0) with (Ok svcj_p1) by (vm_compute; reflexivity).
  unfold svcj_p1, v10. cbn [items eval monx fst snd]. rewrite Q2R_1, !pw_0. ring.
Qed.
Lemma mval_0 x : mval 0 x = 1.
Proof.
  unfold mval. replace (ucomp 7 0) with [[0; 0; 0; 0; 0; 0; 0; 0]%Z] by (vm_compute; reflexivity). cbn [sumR]. unfold tval.
  replace (cmb 0 [0; 0; 0; 0; 0; 0; 0; 0]%Z) with 1%Z by (vm_compute; reflexivity). rewrite m6val_0. unfold bval, rr.
  change (0 / 2)%Z with 0%Z. rewrite !pw_0. ring.
Qed.
Lemma mvalue_eq m x : mvalue m x = mval m x.
Proof. unfold mvalue. destruct (Z.eqb_spec m 0) as [->|]; [symmetry; apply mval_0|reflexivity]. Qed.
(** any functional with the joint moments of the six integrals *)
Lemma mval_E {Om} (E : (Om -> R) -> R) (HE : expectation E) (X1 X2 X3 X4 X5 X6 : Om -> R) x m : (0 <= m)%Z ->
  (forall n1 n2 n3 n4 n5 n6, cj_dom (n1, n2, n3, n4, n5, n6) -> (n1 + n2 + n3 + n4 + n5 + n6 <= m)%Z ->
     E (fun w => pw (X1 w) n1 * (pw (X2 w) n2 * (pw (X3 w) n3 * (pw (X4 w) n4 * (pw (X5 w) n5 * pw (X6 w) n6))))) = rr x n3 * m6val x n1 n2 n3 n4 n5 n6) ->
  E (fun w => (A1 x * X1 w + A2 x * X2 w + X3 w + A4 x * X4 w + A5 x * X5 w + X6 w + A7 x + A8 x) ^ Z.to_nat m) = mval m x.
Proof.
  intros Hm h.
  rewrite (E_ext E HE _ (fun w => sumR (fun x => x) [A1 x * X1 w; A2 x * X2 w; X3 w; A4 x * X4 w; A5 x * X5 w; X6 w; A7 x; A8 x] ^ Z.to_nat m))
    by (intro w; f_equal; cbn [sumR]; ring).
  rewrite (E_multinomial_u E HE _ 7 m Hm) by reflexivity. unfold mval. apply sumR_ext. intros ns Hns. apply in_ucomp in Hns; [|assumption].
  destruct Hns as (a1 & a2 & a3). destruct (comp8 ns m a1 a2 a3) as (n1 & n2 & n3 & n4 & n5 & n6 & n7 & n8 & -> & h1 & h2 & h3 & h4 & h5 & h6 & h7 & h8 & en).
  unfold tval. f_equal.
  transitivity (pw (A1 x) n1 * pw (A2 x) n2 * pw (A4 x) n4 * pw (A5 x) n5 * pw (A7 x) n7 * pw (A8 x) n8 *
    E (fun w => pw (X1 w) n1 * (pw (X2 w) n2 * (pw (X3 w) n3 * (pw (X4 w) n4 * (pw (X5 w) n5 * pw (X6 w) n6)))))).
  - rewrite <- (E_scal E HE). apply (E_ext E HE). intro w. rewrite powprod_monx by assumption. cbn [monx]. pwx. ring.
  - rewrite h; [unfold bval; ring|unfold cj_dom; lia|lia].
Qed.

Definition tab6 (y : x13) (ns : list Z) : R :=
  match ns with [n1; n2; n3; n4; n5; n6] => rr y n3 * m6val y n1 n2 n3 n4 n5 n6 | _ => 0 end.
Definition G6 (N : Z) (x : x13) : (R * list R -> R) -> R := Ekern (Fa N x) (fun a => realise (Z.to_nat N) 6 (tab6 (xset x a))).
Definition Sx (x : x13) (w : R * list R) : R :=
  A1 x * nth 0 (snd w) 0 + A2 x * nth 1 (snd w) 0 + nth 2 (snd w) 0 + A4 x * nth 3 (snd w) 0 + A5 x * nth 4 (snd w) 0 + nth 5 (snd w) 0
  - xth x / 2 * xt x + A8 (xset x (fst w)).
Lemma G6_exp N x : expectation (G6 N x).
Proof. apply Ekern_expectation, Fa_exp. Qed.
Lemma G6_inner N y n1 n2 n3 n4 n5 n6 : cj_dom (n1, n2, n3, n4, n5, n6) -> (n1 + n2 + n3 + n4 + n5 + n6 <= N)%Z ->
  Efin (realise (Z.to_nat N) 6 (tab6 y)) (fun X => pw (nth 0 X 0) n1 * (pw (nth 1 X 0) n2 * (pw (nth 2 X 0) n3 * (pw (nth 3 X 0) n4 * (pw (nth 4 X 0) n5 * pw (nth 5 X 0) n6)))))
  = rr y n3 * m6val y n1 n2 n3 n4 n5 n6.
Proof.
  intros D H. unfold cj_dom in D. change (rr y n3 * m6val y n1 n2 n3 n4 n5 n6) with (tab6 y [n1; n2; n3; n4; n5; n6]).
  rewrite <- (realise_spec (Z.to_nat N) 6 (tab6 y) [n1; n2; n3; n4; n5; n6]); [|reflexivity|repeat (apply Forall_cons; [lia|]); apply Forall_nil].
  unfold Efin. apply sumR_ext. intros [r xs] Hin. cbn [fst snd]. f_equal. pose proof (realise_len _ _ _ _ _ Hin) as Hl.
  destruct xs as [|z1 [|z2 [|z3 [|z4 [|z5 [|z6 [|? ?]]]]]]]; try discriminate. cbn [powprod nth]. rewrite !pw_Zpos by lia. ring.
Qed.
Lemma smval_N N m x : (0 <= m <= N)%Z -> smval m x = Fa N x (fun a => mval m (xset x a)).
Proof.
  intro Hm. unfold smval. destruct (returns_inv _ _ (moment_y_spec m ltac:(lia))) as (p & _ & Wp & Vp).
  rewrite (E_ext _ (Fa_exp m x) _ (fun a => evp mon13 (xset x a) p)) by (intro a; symmetry; apply Vp).
  rewrite (E_ext _ (Fa_exp N x) _ (fun a => evp mon13 (xset x a) p)) by (intro a; rewrite <- mvalue_eq; symmetry; apply Vp).
  rewrite <- !(stat_value _ (Fa_exp _ _) (fun a => a) x m p Wp); [reflexivity| |]; intros j Hj; apply Fa_pw; lia.
Qed.
Lemma G6_moment N m x : (0 <= m <= N)%Z -> G6 N x (fun w => (xmu x * xt x + Sx x w) ^ Z.to_nat m) = smval m x.
Proof.
  intro Hm. rewrite (smval_N N) by assumption. unfold G6, Ekern. apply (E_ext _ (Fa_exp N x)). intro a.
  rewrite <- (mval_E (Efin (realise (Z.to_nat N) 6 (tab6 (xset x a)))) (Efin_expectation _) (fun X => nth 0 X 0) (fun X => nth 1 X 0)
    (fun X => nth 2 X 0) (fun X => nth 3 X 0) (fun X => nth 4 X 0) (fun X => nth 5 X 0) (xset x a) m); [|lia|].
  - apply (E_ext _ (Efin_expectation _)). intro X. f_equal. unfold Sx. cbn [fst snd].
    change (A1 (xset x a)) with (A1 x). change (A2 (xset x a)) with (A2 x). change (A4 (xset x a)) with (A4 x). change (A5 (xset x a)) with (A5 x).
    change (A7 (xset x a)) with (A7 x). unfold A7. field.
  - intros. apply G6_inner; [assumption|lia].
Qed.
Lemma sval_0 x : sval x 0 = 1.
Proof.
  unfold sval. replace (stat_cmoment_v 0) with (Ok (mkPoly [([0; 0; 0; 0; 0]%Z, 1%Q)] kf_stat)) by (vm_compute; reflexivity).
  unfold mon5x. cbn [items eval monx fst snd]. rewrite Q2R_1, !pw_0. ring.
Qed.
Lemma wval_0 x : wval x 0 = 1.
Proof. unfold wval. change (range 0 (0 + 1)) with [0%Z]. cbn [sumR]. rewrite Z.sub_diag, sval_0, pw_0. change (mcomb 0 0) with 1%Z. ring. Qed.
Lemma smval_0 x : smval 0 x = 1.
Proof.
  unfold smval. rewrite (E_ext _ (Fa_exp 0 x) _ (fun a => pw a 0)) by (intro; now rewrite pw_0). rewrite Fa_pw by lia. apply wval_0.
Qed.

Definition xmuset (x : x13) (m : R) : x13 :=
  mkX (xe x) (xen x) (xt x) (xi x) m (xa x) (xth x) (xsg x) (xrho x) (xlam x) (xmv x) (xrj x) (xms x) (xss x).
(** the central moment does not depend on mu *)
Lemma cval_central x n : (0 <= n)%Z -> cval smval n x = G6 (n + 1) x (fun w => (Sx x w - G6 (n + 1) x (Sx x)) ^ Z.to_nat n).
Proof.
  intro Hn. rewrite (cval_E (G6 (n + 1) x) (G6_exp _ _) (fun w => xmu x * xt x + Sx x w) smval n x Hn).
  2: { intros m Hm. apply G6_moment. lia. }
  assert (E1 : smval 1 x = xmu x * xt x + G6 (n + 1) x (Sx x)).
  { rewrite <- (G6_moment (n + 1) 1 x) by lia. rewrite (E_ext _ (G6_exp _ _) _ (fun w => (xmu x * xt x) * 1 + Sx x w)) by (intro; simpl; ring).
    rewrite (E_plus _ (G6_exp _ _)), (E_scal _ (G6_exp _ _)). f_equal.
    pose proof (G6_moment (n + 1) 0 x ltac:(lia)) as H0. rewrite smval_0 in H0. cbn [pow Z.to_nat] in H0. rewrite H0. ring. }
  apply (E_ext _ (G6_exp _ _)). intro w. rewrite E1. f_equal. ring.
Qed.
Lemma cval_mu x n m : (0 <= n)%Z -> cval smval n (xmuset x m) = cval smval n x.
Proof. intro Hn. rewrite !cval_central by assumption. reflexivity. Qed.

(** ** cmom.cmoment_y and remove_mu_column *)
Definition csval (n : Z) (x : x13) : R := if (n =? 0)%Z then 1 else cval smval n x.
Lemma cval_1 x : cval smval 1 x = 0.
Proof.
  unfold cval. change (range 0 (1 + 1)) with [0; 1]%Z. cbn [sumR]. change (1 - 0)%Z with 1%Z. change (1 - 1)%Z with 0%Z. rewrite smval_0, !pw_0, !pw_1.
  change (mcomb 1 0) with 1%Z. change (mcomb 1 1) with 1%Z. ring.
Qed.
Lemma single13 c : wfp Q13 kf13s (mkPoly [([0; 0; 0; 0; 0; 0; 0; 0; 0; 0; 0; 0; 0]%Z, c)] kf13s) /\
  forall x, evp mon13 x (mkPoly [([0; 0; 0; 0; 0; 0; 0; 0; 0; 0; 0; 0; 0]%Z, c)] kf13s) = Q2R c.
Proof.
  split.
  - apply wfp_single. unfold Q13, s13. cbn [wfs]. repeat split; lia.
  - intro x. unfold evp, mon13, vals13. cbn [items eval fst snd monx]. rewrite !pw_0. ring.
Qed.
Lemma stat_cmoment_y_spec n : (0 <= n)%Z ->
  returns (svcj_stat_cmoment_y n) (fun q => wfp Q13 kf13s q /\ forall x, evp mon13 x q = csval n x).
Proof.
  intro Hn. unfold svcj_stat_cmoment_y, csval. destruct (Z.ltb_spec n 0); [lia|].
  eapply returns_bind; [apply (stat_moment_y_spec 1); lia|]. intros mean Hmean. cbv beta in Hmean.
  destruct (Z.eqb_spec n 0) as [n0|n0].
  - cbn [returns]. destruct (single13 1%Q) as [a b]. split; [exact a|]. intro x. rewrite <- Q2R_1. exact (b x).
  - destruct (Z.eqb_spec n 1) as [n1|n1].
    + cbn [returns]. destruct (single13 0%Q) as [a b]. split; [exact a|]. intro x. subst n. rewrite cval_1, <- Q2R_0. exact (b x).
    + apply central_spec; [assumption| | |exact Hmean].
      * intros m Hm. apply stat_moment_y_spec. lia.
      * destruct (single13 1%Q) as [a b]. split; [exact a|]. intro x. rewrite <- Q2R_1. exact (b x).
Qed.

Definition s12 := [false; true; true; true; true; true; true; true; true; true; true; true].
Definition v12 (x : x13) : list R := [/ xe x; xt x; xi x; xa x; xth x; xsg x; xrho x; xlam x; xmv x; xrj x; xms x; xss x].
Lemma remove_mu_spec p : wfp Q13 kf13s p -> (forall x m, evp mon13 (xmuset x m) p = evp mon13 x p) ->
  returns (remove_mu_column p) (fun q => wfp (wfs s12) kf12 q /\ forall x, eval (monx (v12 x)) (items q) = evp mon13 x p).
Proof.
  intros Wp Hmu. destruct (remove_zero_sp Q13 mon13 kf13s p Wp) as ((K & U & A) & NZ & V).
  set (r := remove_zero p) in *.
  assert (K3 : forall k v, In (k, v) (items r) -> nthZ k 3 = 0%Z).
  { intros k v Hin.
    assert (L : Q2R v * (pw 2 (nthZ k 3) - 1) = 0).
    { apply (laurent 13 (fun k => pw 2 (nthZ k 3) - 1) (items r)) with (k := k); [exact U| | |exact Hin].
      - intros k' Hk'. exact (wfs_length _ _ (A k' Hk')).
      - intros xs Hl Hx.
        destruct xs as [|e [|t [|i [|mu [|a [|th [|sg [|rho [|lam [|mv [|rj [|ms [|ss [|? ?]]]]]]]]]]]]]]; try discriminate.
        assert (He : e <> 0) by (inversion Hx; lra).
        set (x := mkX e He t i mu a th sg rho lam mv rj ms ss).
        transitivity (evp mon13 (xmuset x (2 * mu)) r - evp mon13 x r); [|rewrite !V, Hmu; ring].
        unfold evp. rewrite !sumR_eval. rewrite <- sumR_minus. apply sumR_ext. intros [k' v'] Hin'. cbn [fst snd].
        pose proof (allk_in _ _ _ _ A Hin') as Hk'. unfold Q13, s13 in Hk'. wfs_destruct. unfold mon13, vals13, x, nthZ.
        cbn [monx nth xmuset xe xt xi xmu xa xth xsg xrho xlam xmv xrj xms xss]. pwx. ring. }
    pose proof (allk_in _ _ _ _ A Hin) as Hk.
    assert (H3 : (0 <= nthZ k 3)%Z). { unfold Q13, s13 in Hk. wfs_destruct. unfold nthZ. cbn [nth]. assumption. }
    apply Rmult_integral in L. destruct L as [L|L].
    - exfalso. pose proof (proj1 (Forall_forall _ _) NZ (k, v) Hin) as Hz. cbn [snd] in Hz. apply Hz. apply eqR_Qeq. now rewrite L, Q2R_0.
    - rewrite pw_Zpos in L by assumption. destruct (Z.eq_dec (nthZ k 3) 0) as [|ne]; [assumption|exfalso].
      assert (1 < 2 ^ Z.to_nat (nthZ k 3)). { apply Rlt_pow_R1; [lra|lia]. } lra. }
  unfold remove_mu_column. fold r. eapply returns_weaken.
  - apply (adds_run (wfs s12) (fun x => monx (v12 x)) _ (fun x => sumR (fun kv => Q2R (snd kv) * mon13 x (fst kv)) (items r))).
    apply (adds_foldM _ _ _ (fun kv x => Q2R (snd kv) * mon13 x (fst kv))). intros [k v] Hin. cbn [fst snd]. cbv zeta.
    pose proof (K3 k v Hin) as H3. rewrite H3. cbn [Z.eqb].
    pose proof (allk_in _ _ _ _ A Hin) as Hk. unfold Q13, s13 in Hk. wfs_destruct. unfold nthZ in *. cbn [nth skipn app] in *. 
    eapply adds_ext; [apply adds_kv|].
    + unfold s12. cbn [wfs]. repeat split; assumption.
    + intro y. cbv beta. unfold v12, mon13, vals13. cbn [monx]. rewrite H3, pw_0, pw_inv_neg, Rinv_inv. ring.
  - intros q (q1 & q2 & q3 & q4). split; [split; auto|]. intro x. rewrite q4, <- V. unfold evp. now rewrite sumR_eval.
Qed.
