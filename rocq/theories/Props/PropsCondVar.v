(** Property C65: variance of the return given the initial variance, as the Ito isometry has it. *)
From Coq Require Import Reals Lra.
From Coquelicot Require Import Coquelicot.
From Verif.Spec Require Import Sums Srjd JumpPath SrjdPath Svcj.
From Verif.Model Require Import Decode CondCmom1 Scalar.
From Verif.Proof Require Import KeyInv MonTac SrjdIezProofs SrjdCondProofs SrjdCondV SvcjIezProofs SvcjIezTable SvcjMomProofs SvcjStatProofs DecodeProofs.
From Verif.Props Require Import PropsSrjd PropsSrjdCond PropsSrjdCond2 PropsSrjdStat PropsSvcj PropsSvcjCond PropsSvcjMom PropsDecode PropsClosed PropsClosedJ.
Local Open Scope R_scope.

(** E v_s given v_0 when the variance reverts to [m] at rate [k] *)
Definition ev (k m v0 s : R) : R := m + (v0 - m) * exp (- (k * s)).
(** weight of the variance Brownian motion at s in half the integrated variance up to h, per unit of sigma_v *)
Definition wt (k h s : R) : R := (1 - exp (- (k * (h - s)))) / (2 * k).
(** diffusion part: y - E[y|v_0] = int sqrt v_s ((rho - sigma wt_s) dW^v_s + sqrt(1-rho^2) dW_s) *)
Definition diffu (k m v0 sg rho h s : R) : R := ev k m v0 s * ((rho - sg * wt k h s) ^ 2 + (1 - rho ^ 2)).

Definition dvar (k m v0 sg rho h : R) : R :=
  let e := exp (- (k * h)) in let b := (1 - e) / k in let a := sg / (2 * k) in
  m * (h * (1 - 2 * rho * a + a ^ 2) + b * (2 * rho * a - 2 * a ^ 2) + a ^ 2 * ((1 - e ^ 2) / (2 * k)))
  + (v0 - m) * (b * (1 - 2 * rho * a + a ^ 2) + h * e * (2 * rho * a - 2 * a ^ 2) + a ^ 2 * (e * b)).

Definition adiff (k m v0 sg rho h s : R) : R :=
  let e := exp (- (k * h)) in let a := sg / (2 * k) in let x := exp (k * s) in let y := exp (- (k * s)) in
  m * (s * (1 - 2 * rho * a + a ^ 2) + (e * x / k) * (2 * rho * a - 2 * a ^ 2) + a ^ 2 * (e ^ 2 * x ^ 2 / (2 * k)))
  + (v0 - m) * (- y / k * (1 - 2 * rho * a + a ^ 2) + s * e * (2 * rho * a - 2 * a ^ 2) + a ^ 2 * (e ^ 2 * x / k)).

Lemma exp_split k h s : exp (- (k * (h - s))) = exp (- (k * h)) * exp (k * s).
Proof. rewrite <- exp_plus. f_equal. ring. Qed.

Lemma dvar_int k m v0 sg rho h : k <> 0 -> is_RInt (diffu k m v0 sg rho h) 0 h (dvar k m v0 sg rho h).
Proof.
  intro Hk.
  replace (dvar k m v0 sg rho h) with (minus (adiff k m v0 sg rho h h) (adiff k m v0 sg rho h 0)).
  2:{ unfold minus, plus, opp; cbn. unfold adiff, dvar. rewrite Rmult_0_r, Ropp_0, exp_0.
      set (e := exp (- (k * h))). assert (e0 : e <> 0) by (unfold e; apply Rgt_not_eq, exp_pos).
      replace (exp (k * h)) with (/ e) by (unfold e; rewrite exp_Ropp, Rinv_inv; reflexivity). field. tauto. }
  apply (is_RInt_derive (adiff k m v0 sg rho h)).
  - intros s _. unfold adiff, diffu, ev, wt. auto_derive; [trivial|]. rewrite exp_split.
    replace (exp (k * s)) with (/ exp (- (k * s))) by (rewrite exp_Ropp, Rinv_inv; reflexivity).
    set (e := exp (- (k * h))). assert (y0 : exp (- (k * s)) <> 0) by apply Rgt_not_eq, exp_pos. set (y := exp (- (k * s))) in *. field. tauto.
  - intros s _. apply (ex_derive_continuous (diffu k m v0 sg rho h)). unfold diffu, ev, wt. auto_derive. trivial.
Qed.

(** ** 1FSV given v_0 *)
Theorem C65_1fsv : forall par : string -> R, let k := par "k"%string in let h := par "h"%string in
  let th := par "theta"%string in let sg := par "sigma_v"%string in let rho := par "rho"%string in let v0 := par "v0"%string in
  k <> 0 -> cond_cm 2 par = Ok (RInt (diffu k th v0 sg rho h) 0 h).
Proof.
  intros par k h th sg rho v0 Hk. rewrite (is_RInt_unique _ _ _ _ (dvar_int k th v0 sg rho h Hk)).
  unfold cond_cm. set (c := cmoments_y_to 2). vm_compute in c. subst c. cbn [bind map last].
  match goal with |- context [c1_simplify ?q 2] => set (c := c1_simplify q 2) end. vm_compute in c. subst c. cbn [bind].
  match goal with |- Ok ?a = Ok ?b => cut (a = b); [intros ->; reflexivity|] end. unfold poly2num_c1. open_keys. fold k h th sg rho v0. numbers. unfold dvar. field. exact Hk.
Qed.

(** law of total variance: E[y|v_0] moves by - bt/2 per unit of v_0, and v_0 has the stationary variance theta sigma^2 / 2k *)
Theorem C65_total_1fsv : forall par : string -> R, let k := par "k"%string in let h := par "h"%string in
  let th := par "theta"%string in let sg := par "sigma_v"%string in
  k <> 0 -> -1 <= par "rho"%string <= 1 -> par "v0"%string = th ->
  exists c, cond_cm 2 par = Ok c /\ cm_1fsv 2 par = Ok (c + (bt k h / 2) ^ 2 * (th * sg ^ 2 / (2 * k))).
Proof.
  intros par k h th sg Hk Hr Hv. eexists. split; [exact (C65_1fsv par Hk)|].
  rewrite (proj1 (proj2 (C64_1fsv par Hk Hr))). fold k h th sg. set (rho := par "rho"%string).
  rewrite (is_RInt_unique _ _ _ _ (dvar_int k th (par "v0"%string) sg rho h Hk)), Hv.
  match goal with |- Ok ?a = Ok ?b => cut (a = b); [intros ->; reflexivity|] end.
  unfold dvar, var1, bt. field. exact Hk.
Qed.

Lemma ev_pos k m v0 s : 0 <= k -> 0 <= s -> 0 < m -> 0 <= v0 -> 0 <= ev k m v0 s /\ (0 < k * s -> 0 < ev k m v0 s).
Proof.
  intros Hk Hs Hm Hv. unfold ev. set (x := exp (- (k * s))). assert (x0 : 0 < x) by apply exp_pos.
  assert (x1 : x <= 1). { unfold x. rewrite <- exp_0. destruct (Rle_lt_or_eq_dec 0 (k * s) ltac:(nra)) as [H|H]; [left; apply exp_increasing; lra|right; rewrite <- H; f_equal; lra]. }
  split; [nra|]. intro H. assert (x < 1) by (unfold x; rewrite <- exp_0; apply exp_increasing; lra). nra.
Qed.

(** ** SVCJ given v_0: the jumps bring in lambda int E (X - wt_s J)^2 ds *)
Definition jmpv (p : svcj) (rhoJ h s : R) : R :=
  jlam p * (jm2 p rhoJ - 2 * wt (Svcj.jk p) h s * jmx p rhoJ + wt (Svcj.jk p) h s ^ 2 * (2 * jmv p ^ 2)).
Definition jvar (p : svcj) (rhoJ h : R) : R :=
  let k := Svcj.jk p in let e := exp (- (k * h)) in let b := (1 - e) / k in
  jlam p * (h * jm2 p rhoJ - (h - b) / k * jmx p rhoJ + (h - 2 * b + (1 - e ^ 2) / (2 * k)) / (2 * k ^ 2) * jmv p ^ 2).
Lemma jvar_int p rhoJ h : Svcj.jk p <> 0 -> is_RInt (jmpv p rhoJ h) 0 h (jvar p rhoJ h).
Proof.
  intro Hk. unfold jmpv, jvar. set (k := Svcj.jk p) in *. set (A := jm2 p rhoJ). set (B := jmx p rhoJ). set (D := jmv p). set (L := jlam p).
  set (e := exp (- (k * h))). assert (e0 : e <> 0) by (unfold e; apply Rgt_not_eq, exp_pos).
  set (F := fun s => L * (s * A - (s - e * exp (k * s) / k) / k * B + (s - 2 * (e * exp (k * s) / k) + e ^ 2 * exp (k * s) ^ 2 / (2 * k)) / (2 * k ^ 2) * D ^ 2)).
  match goal with |- is_RInt _ _ _ ?v => replace v with (minus (F h) (F 0)) end.
  2:{ unfold minus, plus, opp; cbn. unfold F. rewrite Rmult_0_r, exp_0.
      replace (exp (k * h)) with (/ e) by (unfold e; rewrite exp_Ropp, Rinv_inv; reflexivity). field. tauto. }
  apply (is_RInt_derive F).
  - intros s _. unfold F, wt. auto_derive; [trivial|]. rewrite exp_split. fold e. set (x := exp (k * s)). field. tauto.
  - intros s _. apply (ex_derive_continuous (fun s => L * (A - 2 * wt k h s * B + wt k h s ^ 2 * (2 * D ^ 2)))). unfold wt. auto_derive. trivial.
Qed.

Theorem C65_svcj : forall par p mu rho rhoJ h, Svcj.jk p <> 0 -> svcj_dict par p h -> ret_dict par mu rho rhoJ ->
  svcj_cond_m_y 1 par = Ok (mu * h - RInt (ev (Svcj.jk p) (jvmean p) (jv0 p)) 0 h / 2 + jlam p * h * jm1 p rhoJ) /\
  svcj_cond_cm_y 2 par = Ok (RInt (diffu (Svcj.jk p) (jvmean p) (jv0 p) (jsg p) rho h) 0 h + RInt (jmpv p rhoJ h) 0 h).
Proof.
  intros par p mu rho rhoJ h Hk (h1 & h2 & h3 & h4 & h5 & h6 & h7 & h8 & h9) (r1 & r2 & r3).
  assert (EV : forall q, allk (wfs s13) (items q) ->
    p2n_svcj_cond q par = Ok (eval (monx (svcj_vals p mu rho rhoJ h (jv0 p - jth p))) (items q))).
  { intros q A. destruct p. apply p2n_svcj_cond_eval; [assumption| |exact A]. repeat constructor; assumption. }
  rewrite (is_RInt_unique _ _ _ _ (jvar_int p rhoJ h Hk)), (is_RInt_unique _ _ _ _ (dvar_int (Svcj.jk p) (jvmean p) (jv0 p) (jsg p) rho h Hk)).
  assert (IV : RInt (ev (Svcj.jk p) (jvmean p) (jv0 p)) 0 h = jvmean p * h + (jv0 p - jvmean p) * bt (Svcj.jk p) h).
  { set (F := fun s => jvmean p * s - (jv0 p - jvmean p) * (exp (- (Svcj.jk p * s)) / Svcj.jk p)).
    transitivity (minus (F h) (F 0)).
    - apply is_RInt_unique. apply (is_RInt_derive F).
      + intros s _. unfold F, ev. auto_derive; [trivial|]. field. exact Hk.
      + intros s _. apply (ex_derive_continuous (ev (Svcj.jk p) (jvmean p) (jv0 p))). unfold ev. auto_derive. trivial.
    - unfold minus, plus, opp; cbn. unfold F, bt. replace (Svcj.jk p * 0) with 0 by ring. rewrite Ropp_0, exp_0. field. exact Hk. }
  rewrite IV. set (e := exp (- (Svcj.jk p * h))).
  assert (He : exp (Svcj.jk p * h) = / e) by (unfold e; rewrite exp_Ropp, Rinv_inv; reflexivity). assert (e0 : e <> 0) by (unfold e; apply Rgt_not_eq, exp_pos).
  split.
  - destruct (returns_inv _ _ (moment_y_spec 1 ltac:(lia))) as (q & Eq & W & _). apply P13_Q13 in W.
    unfold svcj_cond_m_y, scal. rewrite Eq. cbn [bind]. rewrite (EV q (proj2 (proj2 W))). f_equal. clear W.
    vm_compute in Eq. injection Eq as <-. unfold svcj_vals. rewrite He. nums. unfold jvmean, jm1, bt. fold e. field. tauto.
  - destruct (returns_inv _ _ (cmoment_y_spec 2 ltac:(lia))) as (q & Eq & W & _).
    unfold svcj_cond_cm_y, scal. rewrite Eq. cbn [bind]. rewrite (EV q (proj2 (proj2 W))). f_equal. clear W.
    vm_compute in Eq. injection Eq as <-. unfold svcj_vals. rewrite He. nums. unfold dvar, jvar, jvmean, jm2, jmx. fold e. field. tauto.
Qed.

Theorem C65_total_svcj : forall par p mu rho rhoJ h, Svcj.jk p <> 0 -> jv0 p = jvmean p -> svcj_dict par p h -> ret_dict par mu rho rhoJ ->
  exists c, svcj_cond_cm_y 2 par = Ok c /\ svcj_cm_y 2 par = Ok (c + (bt (Svcj.jk p) h / 2) ^ 2 * jvvar p).
Proof.
  intros par p mu rho rhoJ h Hk Hv H1 H2. eexists. split; [exact (proj2 (C65_svcj par p mu rho rhoJ h Hk H1 H2))|].
  rewrite (proj2 (C64_svcj par p mu rho rhoJ h Hk H1 H2)).
  rewrite (is_RInt_unique _ _ _ _ (jvar_int p rhoJ h Hk)), (is_RInt_unique _ _ _ _ (dvar_int (Svcj.jk p) (jvmean p) (jv0 p) (jsg p) rho h Hk)), Hv.
  match goal with |- Ok ?a = Ok ?b => cut (a = b); [intros ->; reflexivity|] end.
  unfold dvar, jvar, var_svcj, jvvar, bt. field. exact Hk.
Qed.


(** ** Positive conditional variances *)
Lemma diffu_pos k m v0 sg rho h : 0 < k -> 0 < h -> 0 < m -> 0 <= v0 -> -1 < rho < 1 -> 0 < RInt (diffu k m v0 sg rho h) 0 h.
Proof.
  intros Hk Hh Hm Hv Hr. apply RInt_gt_0; [assumption| |].
  - intros s Hs. unfold diffu. apply Rmult_lt_0_compat; [|pose proof (pow2_ge_0 (rho - sg * wt k h s)); nra].
    apply (proj2 (ev_pos k m v0 s ltac:(lra) ltac:(lra) Hm Hv)). apply Rmult_lt_0_compat; lra.
  - intros s _. apply (ex_derive_continuous (diffu k m v0 sg rho h)). unfold diffu, ev, wt. auto_derive. trivial.
Qed.
Lemma jmpv_pos p rhoJ h : 0 <= h -> 0 <= jlam p -> Svcj.jk p <> 0 -> 0 <= RInt (jmpv p rhoJ h) 0 h.
Proof.
  intros Hh Hl Hk. apply RInt_ge_0; [assumption|eexists; now apply jvar_int|]. intros s _. unfold jmpv. set (w := wt (Svcj.jk p) h s). apply Rmult_le_pos; [assumption|].
  replace (jm2 p rhoJ - 2 * w * jmx p rhoJ + w ^ 2 * (2 * jmv p ^ 2)) with ((jms p + (rhoJ - w) * jmv p) ^ 2 + ((rhoJ - w) * jmv p) ^ 2 + jss p ^ 2) by (unfold jm2, jmx; ring).
  pose proof (pow2_ge_0 (jms p + (rhoJ - w) * jmv p)). pose proof (pow2_ge_0 ((rhoJ - w) * jmv p)). pose proof (pow2_ge_0 (jss p)). lra.
Qed.
Theorem C65_positive_1fsv : forall par, 0 < par "k"%string -> 0 < par "theta"%string -> 0 < par "h"%string -> 0 <= par "v0"%string -> -1 < par "rho"%string < 1 ->
  exists v, cond_cm 2 par = Ok v /\ 0 < v.
Proof. intros par Hk Ht Hh Hv Hr. eexists. split; [exact (C65_1fsv par (Rgt_not_eq _ _ Hk))|]. now apply diffu_pos. Qed.
Theorem C65_positive_svcj : forall par p mu rho rhoJ h, 0 < Svcj.jk p -> 0 < h -> 0 < jth p -> 0 <= jv0 p -> 0 <= jlam p -> 0 <= jmv p -> -1 < rho < 1 ->
  svcj_dict par p h -> ret_dict par mu rho rhoJ -> exists v, svcj_cond_cm_y 2 par = Ok v /\ 0 < v.
Proof.
  intros par p mu rho rhoJ h Hk Hh Ht Hv Hl Hm Hr H1 H2. eexists. split; [exact (proj2 (C65_svcj par p mu rho rhoJ h (Rgt_not_eq _ _ Hk) H1 H2))|]. cbv beta.
  assert (M : 0 < jvmean p).
  { unfold jvmean. assert (0 <= jlam p * jmv p / Svcj.jk p); [|lra]. apply Rmult_le_pos; [now apply Rmult_le_pos|left; now apply Rinv_0_lt_compat]. }
  apply Rplus_lt_le_0_compat; [now apply diffu_pos|]. apply jmpv_pos; lra.
Qed.
(** k = 2, h = 3, v_0 = 1, all other parameters 1/4 *)
Example C65_example : let par s := (if String.eqb s "v0" then 1 else if String.eqb s "k" then 2 else if String.eqb s "h" then 3 else 1/4)%string in
  let p := mkSvcj 2 1 (1/4) (1/4) (1/4) (1/4) (1/4) (1/4) in let dic s := Some (par s) in
  svcj_dict dic p 3 /\ ret_dict dic (1/4) (1/4) (1/4) /\ (exists v, cond_cm 2 par = Ok v /\ 0 < v) /\ (exists v, svcj_cond_cm_y 2 dic = Ok v /\ 0 < v).
Proof.
  set (par := fun s => _). cbv zeta. set (p := mkSvcj _ _ _ _ _ _ _ _). set (dic := fun s => Some (par s)).
  assert (h1 : svcj_dict dic p 3) by (repeat split; reflexivity). assert (h2 : ret_dict dic (1/4) (1/4) (1/4)) by (repeat split; reflexivity).
  split; [exact h1|]. split; [exact h2|]. split.
  - apply C65_positive_1fsv; cbn; lra.
  - exact (C65_positive_svcj dic p (1/4) (1/4) (1/4) 3 ltac:(cbn; lra) ltac:(lra) ltac:(cbn; lra) ltac:(cbn; lra) ltac:(cbn; lra) ltac:(cbn; lra) ltac:(lra) h1 h2).
Qed.
