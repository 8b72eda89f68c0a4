(** rSVVJ, rSVIJ, rSVCJ in terms of the scheme of EulerGrid.v. *)
From Coq Require Import Reals Lra.
From Verif.Spec Require Import Svvj SvcjPath Euler.
From Verif.Model Require Import Euler.
From Verif.Proof Require Import SumFacts ExpectFacts DecodeProofs EulerProofs EulerMart EulerGrid.
Local Open Scope R_scope.

Lemma eIZ_ok T z : forall t0, ordered t0 z -> eIZ T (map snd z) (map fst z) = Ok (IZ_path z T).
Proof.
  induction z as [|[s J] z IH]; intros t0 H; [reflexivity|]. cbn [map eIZ ordered fst snd] in *. destruct H as (a & b & c).
  unfold IZ_path, upto. cbn [filter fst]. destruct (Rle_dec s T) as [Hs|Hs].
  - rewrite (IH s c). reflexivity.
  - fold (upto T z). unfold upto. rewrite (upto_ordered T z s c) by lra. reflexivity.
Qed.
Lemma eIEZ_ok T k z : forall t0, ordered t0 z -> eIEZ T (map snd z) (map fst z) k = Ok (IEZ_path k z T).
Proof.
  induction z as [|[s J] z IH]; intros t0 H; [reflexivity|]. cbn [map eIEZ ordered fst snd] in *. destruct H as (a & b & c).
  unfold IEZ_path, upto. cbn [filter fst]. destruct (Rle_dec s T) as [Hs|Hs].
  - rewrite (IH s c). reflexivity.
  - rewrite (upto_ordered T z s c) by lra. reflexivity.
Qed.
Lemma sv_linear p z ie i is : svk p <> 0 ->
  sv_ret p z ie i is = sv_mean p z + exp (- (svk p * svh p)) * ie * (zpsg (svz p) / (2 * svk p)) + (svrho p - zpsg (svz p) / (2 * svk p)) * i + sqrt (1 - svrho p ^ 2) * is.
Proof. intro Hk. unfold sv_ret, sv_intv, v_path, v_given, sv_mean, sv_beta. unfold svk in *. field. assumption. Qed.

Lemma it_unit d i : forall c, it (fun (_ : unit) c => (tt, (c + d)%nat)) tt c i = (tt, (c + d * i)%nat).
Proof. induction i as [|i IH]; intro c; [unfold it; cbn; f_equal; lia|]. rewrite it_S, IH. cbn [fst snd]. f_equal. lia. Qed.
Lemma rows_unit (f : unit -> rnd (R * unit)) (y : nat -> R) d : (forall s c, f s c = Ok ((y c, tt), (c + d)%nat)) ->
  forall n c, rowsR f n tt c = Ok (map (fun i => y (c + d * i)%nat) (seq 0 n), (c + d * n)%nat).
Proof.
  intros H n c. rewrite (rowsR_ok f (fun _ => True) (fun _ c => y c) (fun _ c => (tt, (c + d)%nat))); [|intros s c' _; split; [apply H|exact I]|exact I].
  rewrite it_unit. cbn [snd]. do 2 f_equal. apply map_ext. intro i. now rewrite it_unit.
Qed.

Section Sv.
Context (W : world) (v0 mu k th sg rho T : R) (z : path) (n : Z).
Context (Hn : (0 < n)%Z) (HT : 0 < T) (Hk : k <> 0) (Hr : rho ^ 2 <= 1) (Hv : 0 <= v0) (Hz : ordered 0 z).
Let p := mkSv (mkZpar k v0 th sg) mu rho T.
Let steps := rsteps T n z.
Definition Yv (c : nat) : R := let '(_, IE, I1, I2) := grun k th sg (wnorm W) c 0 v0 0 0 0 (rsteps T n z) in sv_ret (mkSv (mkZpar k v0 th sg) mu rho T) z IE I1 I2.
Lemma rSVVJ_ok N c : (0 <= N)%Z ->
  rSVVJ W v0 mu k th sg rho T (map snd z) (map fst z) N n c
  = Ok (map (fun i => Yv (c + 2 * length steps * i)) (seq 0 (Z.to_nat N)), (c + 2 * length steps * Z.to_nat N)%nat).
Proof.
  intro HN. unfold rSVVJ. destruct (Z.ltb_spec N 0); [lia|]. assert (K2 : 2 * k <> 0) by lra.
  rewrite (rbind_lift _ ((1 - exp (- k * T)) / (2 * k))) by now apply pydiv_ok.
  rewrite (rbind_lift _ (IEZ_path k z T)) by now apply (eIEZ_ok _ _ _ 0).
  rewrite (rbind_lift _ (exp (- k * T) * IEZ_path k z T / (2 * k))) by now apply pydiv_ok.
  rewrite (rbind_lift _ (IZ_path z T)) by now apply (eIZ_ok _ _ 0).
  rewrite (rbind_lift _ (IZ_path z T / (2 * k))) by now apply pydiv_ok.
  apply (rows_unit _ Yv (2 * length steps)). intros s c'. pose proof (rIEII_ok W v0 k th sg T z n c' Hn HT Hv Hz) as e. unfold Yv.
  destruct (grun k th sg (wnorm W) c' 0 v0 0 0 0 (rsteps T n z)) as [[[v IE] I1] I2].
  rewrite (rbind_ok _ _ _ _ _ e). rewrite (rbind_lift _ (exp (- k * T) * IE * sg / (2 * k))) by now apply pydiv_ok.
  rewrite (rbind_lift _ (sg / (2 * k))) by now apply pydiv_ok. rewrite (rbind_lift _ (sqrt (1 - rho ^ 2))) by (apply msqrt_ok; lra).
  unfold rret. do 3 f_equal. rewrite sv_linear by exact Hk. unfold sv_mean, sv_beta, svk. cbn [svz svmu svrho svh zpk zpv zpth zpsg].
  replace (- k * T) with (- (k * T)) by ring. field. assumption.
Qed.

Context (mus sgs : R) (Hs : 0 <= sgs).
Lemma add_jumps rhoJ zs : forall a c,
  foldR (fun a J => let@ x := normal W (mus + rhoJ * J) sgs in rret (a + x)) (map snd zs) a c
  = Ok (a + sumR (fun j => (mus + rhoJ * snd (nth j zs (0, 0))) + sgs * wnorm W (c + j)) (seq 0 (length zs)), (c + length zs)%nat).
Proof.
  induction zs as [|sj zs IH]; intros a c; cbn [map foldR length].
  - unfold rret. cbn [seq sumR]. now rewrite Rplus_0_r, Nat.add_0_r.
  - unfold rbind at 1. unfold rbind at 1. rewrite (normal_ok W (mus + rhoJ * snd sj) sgs c Hs). cbn [bind rret fst snd]. rewrite IH.
    cbn [seq sumR nth]. rewrite <- seq_shift, sumR_map, Nat.add_0_r, Nat.add_succ_r. f_equal. f_equal. cbn [nth].
    rewrite (sumR_ext (fun x => mus + rhoJ * snd (nth x zs (0, 0)) + sgs * wnorm W (c + S x)) (fun x => mus + rhoJ * snd (nth x zs (0, 0)) + sgs * wnorm W (S c + x)));
      [ring|]. intros j _. now rewrite Nat.add_succ_r.
Qed.
Lemma vadd_map (f g : nat -> R) l : vadd (map f l) (map g l) = map (fun i => f i + g i) l.
Proof. unfold vadd. induction l as [|x l IH]; [reflexivity|]. cbn [map combine fst snd]. now rewrite IH. Qed.
Lemma rSVCJ_ok rhoJ N c : (0 <= N)%Z -> let c1 := (c + 2 * length steps * Z.to_nat N)%nat in
  rSVCJ W v0 mu k th sg rho T (map snd z) (map fst z) mus sgs rhoJ N n c
  = Ok (map (fun i => Yv (c + 2 * length steps * i) +
         sumR (fun j => (mus + rhoJ * snd (nth j z (0, 0))) + sgs * wnorm W (c1 + length z * i + j)) (seq 0 (length z))) (seq 0 (Z.to_nat N)),
        (c1 + length z * Z.to_nat N)%nat).
Proof.
  intros HN c1. unfold rSVCJ. rewrite (rbind_ok _ _ _ _ _ (rSVVJ_ok N c HN)). fold c1.
  erewrite rbind_ok; [|apply (rows_unit _ (fun c => sumR (fun j => (mus + rhoJ * snd (nth j z (0, 0))) + sgs * wnorm W (c + j)) (seq 0 (length z))) (length z));
    intros s c'; rewrite (rbind_ok _ _ _ _ _ (add_jumps rhoJ z 0 c')); unfold rret; now rewrite Rplus_0_l].
  unfold rret. now rewrite vadd_map.
Qed.
Lemma sum_normals_ok m c : sum_normals W mus sgs m c = Ok (nsum mus sgs (fun l => wnorm W (c + l)) (Z.to_nat m), (c + Z.to_nat m)%nat).
Proof. unfold sum_normals. destruct (Rlt_dec sgs 0); [lra|]. rewrite add_normals_ok by assumption. now rewrite Rplus_0_l. Qed.
Definition nxi (lam : R) (_ : unit) (c : nat) : unit * nat := (tt, (S c + npois W c (lam * T))%nat).
Lemma rSVIJ_ok lam N c : (0 <= N)%Z -> 0 <= lam -> let c1 := (c + 2 * length steps * Z.to_nat N)%nat in
  rSVIJ W v0 mu k th sg rho T (map snd z) (map fst z) lam mus sgs N n c
  = Ok (map (fun i => Yv (c + 2 * length steps * i) +
         nsum mus sgs (fun l => wnorm W (S (snd (it (nxi lam) tt c1 i)) + l)) (npois W (snd (it (nxi lam) tt c1 i)) (lam * T))) (seq 0 (Z.to_nat N)),
        snd (it (nxi lam) tt c1 (Z.to_nat N))).
Proof.
  intros HN Hl c1. unfold rSVIJ. rewrite (rbind_ok _ _ _ _ _ (rSVVJ_ok N c HN)). fold c1.
  erewrite rbind_ok; [|apply (rowsR_ok _ (fun _ => True) (fun _ c => nsum mus sgs (fun l => wnorm W (S c + l)) (npois W c (lam * T))) (nxi lam)); [|exact I];
    intros s c' _; split; [|exact I]; unfold rbind at 1; unfold poisson; destruct (Rlt_dec (lam * T) 0); [nra|]; cbn [bind fst snd];
    rewrite (rbind_ok _ _ _ _ _ (sum_normals_ok _ (S c'))); unfold rret; reflexivity].
  erewrite map_ext; [rewrite vadd_map; reflexivity|].
  intro i; now destruct (fst (it (nxi lam) tt c1 i)).
Qed.
End Sv.

(** more draws added to a sum *)
Lemma more_draws {Om} (E : (Om -> R) -> R) Z C (HW : white E Z C) (s : R) c1 m (M : Om -> R) : (c1 + m <= C)%nat -> before Z c1 M ->
  E (fun w => M w + sumR (fun j => s * Z (c1 + j)%nat w) (seq 0 m)) = E M /\
  E (fun w => (M w + sumR (fun j => s * Z (c1 + j)%nat w) (seq 0 m)) ^ 2) = E (fun w => M w ^ 2) + INR m * s ^ 2.
Proof.
  assert (HE := wh_E E Z C HW). intros HC HM. induction m as [|m IH].
  - cbn [seq sumR INR]. split; [apply (E_ext E HE); intro; ring|]. rewrite Rmult_0_l, Rplus_0_r. apply (E_ext E HE); intro; ring.
  - destruct IH as [I1 I2]; [lia|]. set (A := fun w => M w + sumR (fun j => s * Z (c1 + j)%nat w) (seq 0 m)) in *.
    assert (BA : before Z (c1 + m) A).
    { apply (before_2 Z _ M (fun w => sumR (fun j => s * Z (c1 + j)%nat w) (seq 0 m)) Rplus); [apply (before_le Z c1); [lia|exact HM]|].
      apply (before_sum Z _ (fun j w => s * Z (c1 + j)%nat w)). intros j Hj. apply (before_1 Z _ (Z (c1 + j)%nat) (fun x => s * x)). apply before_draw. lia. }
    assert (e : forall w, M w + sumR (fun j => s * Z (c1 + j)%nat w) (seq 0 (S m)) = A w + s * Z (c1 + m)%nat w) by (intro w; rewrite sumR_S; unfold A; ring).
    split.
    + transitivity (E A + s * E (fun w => 1 * Z (c1 + m)%nat w)).
      { rewrite <- (E_scal E HE), <- (E_plus E HE). apply (E_ext E HE). intro w. rewrite e. ring. }
      rewrite (wh_mean E Z C HW (c1 + m) (fun _ => 1)); [|lia|intros ? ? _; reflexivity]. rewrite I1. ring.
    + transitivity (E (fun w => A w ^ 2) + (E (fun w => (2 * s * A w) * Z (c1 + m)%nat w) + E (fun w => (s ^ 2 * 1) * Z (c1 + m)%nat w ^ 2))).
      { rewrite <- !(E_plus E HE). apply (E_ext E HE). intro w. rewrite e. ring. }
      rewrite (wh_mean E Z C HW (c1 + m) (fun w => 2 * s * A w)); [|lia|now apply (before_1 Z _ A (fun x => 2 * s * x))].
      rewrite (wh_var E Z C HW (c1 + m) (fun _ => s ^ 2 * 1)); [|lia|intros ? ? _; reflexivity].
      unfold A in *. rewrite I2, (E_scal E HE), (wh_1 E Z C HW), S_INR. ring.
Qed.
Lemma before_gnoise {Om} (Z : nat -> Om -> R) g b k th sg steps : forall c t (v : Om -> R), before Z c v ->
  before Z (c + 2 * length steps) (fun w => gnoise g b k th sg (fun i => Z i w) c t (v w) steps).
Proof.
  induction steps as [|s steps IH]; intros c t v Bv; cbn [gnoise length]; [intros ? ? _; reflexivity|].
  apply (before_2 Z _ (fun w => sqrt (v w) * (g t * (sqrt (fst s - t) * Z c w) + b * (sqrt (fst s - t) * Z (S c) w)))
    (fun w => gnoise g b k th sg (fun i => Z i w) (S (S c)) (fst s) (tstep k th sg (fst s - t) (sqrt (fst s - t) * Z c w) (v w) + jump_of s) steps) Rplus).
  - intros w w' Hw. assert (e1 : v w = v w') by (apply Bv; intros; apply Hw; lia). assert (e2 : Z c w = Z c w') by (apply Hw; lia).
    assert (e3 : Z (S c) w = Z (S c) w') by (apply Hw; lia). now rewrite e1, e2, e3.
  - replace (c + 2 * S (length steps))%nat with (S (S c) + 2 * length steps)%nat by lia.
    apply (IH (S (S c)) (fst s) (fun w => tstep k th sg (fst s - t) (sqrt (fst s - t) * Z c w) (v w) + jump_of s)).
    apply (before_2 Z _ (Z c) v (fun x y => tstep k th sg (fst s - t) (sqrt (fst s - t) * x) y + jump_of s)); [apply before_draw; lia|].
    apply (before_le Z c); [lia|exact Bv].
Qed.
Lemma grun_ext k th sg z z' steps : forall c t v a b d, (forall i, z i = z' i) -> grun k th sg z c t v a b d steps = grun k th sg z' c t v a b d steps.
Proof. induction steps as [|s steps IH]; intros; [reflexivity|]. cbn [grun]. now rewrite !H, (IH _ _ _ _ _ _ H). Qed.

(** Yv as mean plus noise *)
Definition gw (k sg rho T s : R) : R := rho - sg / (2 * k) * (1 - exp (- (k * (T - s)))).
Lemma gnoise_ext g g' b k th sg z steps : forall c t v, (forall s, g s = g' s) -> gnoise g b k th sg z c t v steps = gnoise g' b k th sg z c t v steps.
Proof. induction steps as [|s steps IH]; intros; [reflexivity|]. cbn [gnoise]. now rewrite H, (IH _ _ _ H). Qed.
Lemma eint_ext f f' k th sg z steps : forall c t v, (forall s, f s = f' s) -> eint f k th sg z c t v steps = eint f' k th sg z c t v steps.
Proof. induction steps as [|s steps IH]; intros; [reflexivity|]. cbn [eint]. now rewrite H, (IH _ _ _ H). Qed.
Lemma Yv_noise W v0 mu k th sg rho T z n c : k <> 0 ->
  Yv W v0 mu k th sg rho T z n c = sv_mean (mkSv (mkZpar k v0 th sg) mu rho T) z
    + gnoise (gw k sg rho T) (sqrt (1 - rho ^ 2)) k th sg (wnorm W) c 0 v0 (rsteps T n z).
Proof.
  intro Hk. unfold Yv. pose proof (grun_noise (exp (- (k * T)) * (sg / (2 * k))) (rho - sg / (2 * k)) (sqrt (1 - rho ^ 2)) k th sg (wnorm W) (rsteps T n z) c 0 v0 0 0 0) as e.
  destruct (grun k th sg (wnorm W) c 0 v0 0 0 0 (rsteps T n z)) as [[[v IE] I1] I2].
  rewrite sv_linear by exact Hk. unfold svk. cbn [svz svmu svrho svh zpk zpv zpth zpsg].
  rewrite (gnoise_ext (gw k sg rho T) (fun s => exp (- (k * T)) * (sg / (2 * k)) * exp (k * s) + (rho - sg / (2 * k)))).
  - lra.
  - intro s. unfold gw. replace (- (k * (T - s))) with (- (k * T) + k * s) by ring. rewrite exp_plus. ring.
Qed.
