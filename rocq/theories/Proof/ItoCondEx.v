(** The moments given the jump path exist and are unique, and values at one path. *)
From Coq Require Import Reals Lra.
From Coquelicot Require Import Coquelicot.
From Verif.Proof Require Export VolterraJump ItoCondTable.
Local Open Scope R_scope.

Lemma cond_tri p z i : zdom i -> forall c j, In (c, j) (cond_sys p z i) ->
  zdom j /\ (Z.to_nat (ord3 j) < Z.to_nat (ord3 i))%nat.
Proof.
  destruct i as [[a b] d]. intros (h1 & h2 & h3) c j Hin.
  unfold cond_sys in Hin. cbv zeta in Hin. rewrite !in_app_iff in Hin.
  destruct Hin as [Hin|[Hin|[Hin|Hin]]].
  - destruct (Z.leb_spec 2 a); [|destruct Hin].
    destruct Hin as [E|[E|[]]]; inversion E; unfold zdom, ord3; simpl; lia.
  - destruct (Z.leb_spec 2 b); [|destruct Hin].
    destruct Hin as [E|[E|[]]]; inversion E; unfold zdom, ord3; simpl; lia.
  - destruct (Z.leb_spec 1 a); [|destruct Hin]. destruct (Z.leb_spec 1 b); [|destruct Hin].
    destruct Hin as [E|[E|[]]]; inversion E; unfold zdom, ord3; simpl; lia.
  - destruct (Z.leb_spec 2 d); [|destruct Hin].
    destruct Hin as [E|[E|[]]]; inversion E; unfold zdom, ord3; simpl; lia.
Qed.

Lemma cont_ks k (t : R) : continuous (fun s => exp (k * s)) t.
Proof. apply continuous_Rexp, continuous_Rmult; [apply continuous_Rconst|apply continuous_Rid]. Qed.
Lemma cont_ks_opp k (t : R) : continuous (fun s => exp (- (k * s))) t.
Proof.
  apply (continuous_ext_all (fun s => exp (- k * s))); [intro s; f_equal; ring|]. apply cont_ks.
Qed.

Lemma IEZ_pcw k z : jumps_ok z -> pcw (IEZ_path k z).
Proof.
  intro Hz. exists (map (fun sj => (fst sj, fun _ : R => exp (k * fst sj) * snd sj)) z). split.
  - intros tg Hin. apply in_map_iff in Hin. destruct Hin as (sj & <- & Hin). cbn [fst snd].
    split; [now apply Rlt_le, Hz|]. intro t. apply continuous_Rconst.
  - intros s Hs. unfold IEZ_path. rewrite sumR_upto, sumR_map. reflexivity.
Qed.
Lemma v_given_pcw p z : jumps_ok z -> pcw (v_given p z).
Proof.
  intro Hz. unfold v_given. apply pcw_plus.
  - apply pcw_cont. intro t. apply continuous_Rplus; [|apply continuous_Rconst].
    apply continuous_Rmult; [apply cont_ks_opp|apply continuous_Rconst].
  - apply (pcw_cmult (fun s => exp (- (zpk p * s)))); [apply cont_ks_opp|now apply IEZ_pcw].
Qed.
Lemma vz_pcw p z c i : jumps_ok z -> (forall t, continuous c t) ->
  forall c' j, In (c', j) (vz_terms p z c i) -> pcw c'.
Proof.
  intros Hz Hc c' j. destruct i as [[a b] d]. intros [E|[E|[]]]; injection E as <- _.
  - apply pcw_cmult; [exact Hc|now apply v_given_pcw].
  - apply pcw_cont. intro t. apply continuous_Rmult; [apply Hc|].
    apply continuous_Rmult; [apply continuous_Rconst|apply cont_ks_opp].
Qed.
Lemma cond_pcw p z : jumps_ok z -> forall i c j, In (c, j) (cond_sys p z i) -> pcw c.
Proof.
  intros Hz [[a b] d] c j Hin. unfold cond_sys in Hin. cbv zeta in Hin. rewrite !in_app_iff in Hin.
  destruct Hin as [Hin|[Hin|[Hin|Hin]]].
  - destruct (2 <=? a)%Z; [|destruct Hin]. eapply vz_pcw; [exact Hz| |exact Hin]. intro t.
    apply continuous_Rmult; [apply continuous_Rconst|]. apply continuous_Rmult; apply cont_ks.
  - destruct (2 <=? b)%Z; [|destruct Hin]. eapply vz_pcw; [exact Hz| |exact Hin]. intro t. apply continuous_Rconst.
  - destruct ((1 <=? a) && (1 <=? b))%Z; [|destruct Hin]. eapply vz_pcw; [exact Hz| |exact Hin]. intro t.
    apply continuous_Rmult; [apply continuous_Rconst|]. apply cont_ks.
  - destruct (2 <=? d)%Z; [|destruct Hin]. eapply vz_pcw; [exact Hz| |exact Hin]. intro t. apply continuous_Rconst.
Qed.

Theorem cond_exists p z : jumps_ok z -> exists M, cond_moments p z M.
Proof.
  intro Hz. eexists.
  apply (jsol_exists zdom (cond_sys p z) cond_init (fun i => Z.to_nat (ord3 i)) (cond_tri p z) (cond_pcw p z Hz)).
Qed.
Theorem cond_unique p z M N : cond_moments p z M -> cond_moments p z N ->
  forall i, zdom i -> forall t, 0 <= t -> M i t = N i t.
Proof. apply (vsol_unique zdom (cond_sys p z) cond_init (fun i => Z.to_nat (ord3 i)) (cond_tri p z)). Qed.

(** one jump of size 1 at time 1, k = ln 2, v_0 - theta = 0, theta = sigma = 1, t = 2 *)
Definition p2 : zpar := mkZpar (ln 2) 1 1 1.
Definition z2 : path := [(1, 1)].
Lemma ln2_nz : ln 2 <> 0.
Proof. pose proof (ln_lt_2). lra. Qed.
Lemma z2_ok : jumps_ok z2.
Proof. intros sj [<-|[]]. cbn [fst]. lra. Qed.
Lemma upto_z2 : upto 2 z2 = z2.
Proof. unfold upto, z2. cbn [filter fst]. destruct (Rle_dec 1 2); [reflexivity|lra]. Qed.
Lemma jmon_2 a b c d e f l o : jmon p2 z2 2 ([a; b; c; d; e; f]%Z, ([l], [o], [], [])) =
  pw 4 a * pw 2 b * pw (/ ln 2) c * pw 0 d * pw 2 l.
Proof.
  unfold jmon, zvals. cbn [fst snd monx zpk zpv zpth zpsg p2]. rewrite upto_z2, fZ_path_zs.
  unfold zs, z2, jw. cbn [sumR zr fst snd].
  replace (exp (ln 2 * 2)) with 4 by (replace (ln 2 * 2) with (ln 2 + ln 2) by ring; rewrite exp_plus, exp_ln by lra; ring).
  replace (exp (IZR l * ln 2 * 1)) with (pw 2 l) by (rewrite Rmult_1_r, <- pw_exp, exp_ln by lra; reflexivity).
  replace (1 - 1) with 0 by ring.
  assert (P1 : forall n, pw 1 n = 1).
  { intro n. rewrite <- exp_0 at 1. rewrite pw_exp, Rmult_0_r. apply exp_0. }
  rewrite !P1. ring.
Qed.
Lemma jmon_2_nil a b c d e f : jmon p2 z2 2 ([a; b; c; d; e; f]%Z, ([], [], [], [])) =
  pw 4 a * pw 2 b * pw (/ ln 2) c * pw 0 d.
Proof.
  unfold jmon, zvals. cbn [fst snd monx zpk zpv zpth zpsg p2]. rewrite upto_z2, fZ_path_zs. unfold zs.
  replace (exp (ln 2 * 2)) with 4 by (replace (ln 2 * 2) with (ln 2 + ln 2) by ring; rewrite exp_plus, exp_ln by lra; ring).
  replace (1 - 1) with 0 by ring.
  assert (P1 : forall n, pw 1 n = 1).
  { intro n. rewrite <- exp_0 at 1. rewrite pw_exp, Rmult_0_r. apply exp_0. }
  rewrite !P1. ring.
Qed.

Definition pdiff (a b : res (Poly jkey)) : res (Poly jkey) := let! x := a in let! y := b in psub x y.
Lemma pdiff_val mon a b r : uniq (items a) -> uniq (items b) -> pdiff (Ok a) (Ok b) = Ok r ->
  eval mon (items a) - eval mon (items b) = eval mon (items r).
Proof.
  intros Ha Hb. unfold pdiff. cbn [bind]. unfold psub. intro E.
  destruct (is_exact_type a b); [|discriminate]. injection E as <-. cbn [items].
  destruct (sub_all_spec (items a) (items b) Ha Hb) as [_ h]. now rewrite eval_rm_zero, h.
Qed.

Lemma q6 : Q2R 6 = 6. Proof. unfold Q2R; simpl; lra. Qed.
Lemma qm6 : Q2R (-6) = -6. Proof. unfold Q2R; simpl; lra. Qed.

(** order 4: the code and the corrected code differ *)
Lemma code_040 q q' : jmoment_IEII 0 4 0 = Ok q -> jmoment_IEII_with iez_fixed 0 4 0 = Ok q' ->
  uniq (items q) -> uniq (items q') ->
  eval (jmon p2 z2 2) (items q) <> eval (jmon p2 z2 2) (items q').
Proof.
  intros E1 E2 U1 U2 H.
  assert (E : pdiff (Ok q) (Ok q') = pdiff (jmoment_IEII 0 4 0) (jmoment_IEII_with iez_fixed 0 4 0)) by now rewrite E1, E2.
  clear E1 E2. vm_compute (pdiff (jmoment_IEII 0 4 0) (jmoment_IEII_with iez_fixed 0 4 0)) in E.
  pose proof (pdiff_val (jmon p2 z2 2) _ _ _ U1 U2 E) as D. rewrite H in D. clear E.
  cbn [items eval] in D. rewrite !jmon_2 in D. unfold pw in D. cbn [powerRZ] in D.
  change (Pos.to_nat 1) with 1%nat in D. change (Pos.to_nat 2) with 2%nat in D. cbn [pow] in D.
  rewrite q6, qm6 in D.
  assert (L : / ln 2 * (/ ln 2 * 1) <> 0).
  { apply Rmult_integral_contrapositive. split; [apply Rinv_neq_0_compat, ln2_nz|].
    rewrite Rmult_1_r. apply Rinv_neq_0_compat, ln2_nz. }
  apply L. set (x := / ln 2 * (/ ln 2 * 1)) in *. lra.
Qed.
