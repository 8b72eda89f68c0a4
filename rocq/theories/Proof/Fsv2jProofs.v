(** Shapes of the two-factor polynomials, cov_yy and the convolutions of mdl_2fsvj (C28). *)
From Coq Require Import Reals Lra.
From Coquelicot Require Import Coquelicot.
From Verif.Spec Require Export Fsv2 Cpp.
From Verif.Model Require Export Fsv2.
From Verif.Proof Require Export MonTac ItoProofs ItosTable Fsv1Proofs Fsv2Proofs ConvProofs.
Local Open Scope R_scope.

(** ** shapes *)
Lemma moment_y2_shape l : (0 <= l)%Z -> returns (moment_y2 l) (wfp P_f6 kf2_8).
Proof.
  intro Hl. eapply returns_weaken; [apply (moment_y2_sp 1 1 1 0 0 0 0 0 R1_neq_R0 R1_neq_R0 0 l Hl)|].
  intros r (W & _). exact W.
Qed.
Lemma cmoment_y2_shape l : (0 <= l)%Z -> returns (cmoment_y2 l) (wfp P_f5 kf2_7).
Proof.
  intro Hl. eapply returns_weaken; [apply (cmoment_y2_sp 1 1 1 0 0 0 0 R1_neq_R0 R1_neq_R0 0 l Hl)|].
  intros r (W & _). exact W.
Qed.
Lemma moment_yy2_shape l1 l2 : (0 <= l1)%Z -> (0 <= l2)%Z -> returns (moment_yy2 l1 l2) (wfp P_f6 kf2_8).
Proof.
  intros H1 H2. eapply returns_weaken; [apply (moment_yy2_sp 1 1 1 0 0 0 0 0 R1_neq_R0 R1_neq_R0 0 l1 l2 H1 H2)|].
  intros r (W & _). exact W.
Qed.

(** ** values at all parameters *)
Definition F6 (k1 k2 h mu th1 sg1 th2 sg2 : R) (_ : unit) : fkey -> R := fmon k1 k2 h [h; mu; th1; sg1; th2; sg2].
Definition F5 (k1 k2 h th1 sg1 th2 sg2 : R) (_ : unit) : fkey -> R := fmon k1 k2 h [h; th1; sg1; th2; sg2].
Definition F9 (k1 k2 h mu th1 sg1 th2 sg2 lam muj sj : R) (_ : unit) : fkey -> R :=
  fmon k1 k2 h [h; mu; th1; sg1; th2; sg2; lam; muj; sj].
Definition F8 (k1 k2 h th1 sg1 th2 sg2 lam muj sj : R) (_ : unit) : fkey -> R :=
  fmon k1 k2 h [h; th1; sg1; th2; sg2; lam; muj; sj].
Definition P_f9 : fkey -> Prop := fwf T9 noB.
Definition P_f8 : fkey -> Prop := fwf T8 noB.

Section Values.
Variables (k1 k2 h mu th1 sg1 th2 sg2 lam muj sj : R).
Local Notation f6 := (F6 k1 k2 h mu th1 sg1 th2 sg2).
Local Notation f5 := (F5 k1 k2 h th1 sg1 th2 sg2).
Local Notation f9 := (F9 k1 k2 h mu th1 sg1 th2 sg2 lam muj sj).
Local Notation f8 := (F8 k1 k2 h th1 sg1 th2 sg2 lam muj sj).
Local Notation mj := (mon_j (lam * h) muj sj).

(** product of the polynomials of one model *)
Lemma prod6_sp a b : wfp P_f6 kf2_8 a -> wfp P_f6 kf2_8 b ->
  returns (gpoly (fun _ => Ok b) (p_key (add_n 6)) kf2_8 a) (fun r => wfp P_f6 kf2_8 r /\ evp f6 tt r = evp f6 tt a * evp f6 tt b).
Proof.
  intros (a1 & a2 & a3) (b1 & b2 & b3). eapply returns_weaken.
  - apply (gpoly_sp P_f6 (fun _ => P_f6) P_f6 f6 f6 (fun _ _ => f6 tt) (fun _ _ => evp f6 tt b)); [| |exact a3].
    + intros k _. cbn [returns]. split; [exact b3|]. reflexivity.
    + intros (d & ((u & w) & x)) (d2 & ((u2 & w0) & x2)) (w1 & w2 & w3) (y1 & y2 & y3).
      eapply returns_weaken; [apply (p_key_sp k1 k2 h _ d u w x d2 u2 w0 x2 w1 y1)|]. intros r (d' & -> & Dd & V).
      unfold T6, T9 in *. wfs_destruct. unfold add_n. cbn [map seq]. unfold nthZ in *; cbn [nth] in *. split.
      * split; [exact Dd|]. split; [fwf_split|exact Logic.I].
      * intros []. unfold F6. rewrite V. unfold add_n, nthZ. cbn [map seq nth]. unfold fmon. cbn [monx]. pws. ring.
  - intros r [W E]. split; [exact W|]. rewrite E. apply (eval_scal_r (f6 tt)).
Qed.
Lemma prod9_sp a b : wfp P_f9 kf2_11 a -> wfp P_f9 kf2_11 b ->
  returns (gpoly (fun _ => Ok b) (p_key (add_n 9)) kf2_11 a) (fun r => wfp P_f9 kf2_11 r /\ evp f9 tt r = evp f9 tt a * evp f9 tt b).
Proof.
  intros (a1 & a2 & a3) (b1 & b2 & b3). eapply returns_weaken.
  - apply (gpoly_sp P_f9 (fun _ => P_f9) P_f9 f9 f9 (fun _ _ => f9 tt) (fun _ _ => evp f9 tt b)); [| |exact a3].
    + intros k _. cbn [returns]. split; [exact b3|]. reflexivity.
    + intros (d & ((u & w) & x)) (d2 & ((u2 & w0) & x2)) (w1 & w2 & w3) (y1 & y2 & y3).
      eapply returns_weaken; [apply (p_key_sp k1 k2 h _ d u w x d2 u2 w0 x2 w1 y1)|]. intros r (d' & -> & Dd & V).
      unfold T6, T9 in *. wfs_destruct. unfold add_n. cbn [map seq]. unfold nthZ in *; cbn [nth] in *. split.
      * split; [exact Dd|]. split; [fwf_split|exact Logic.I].
      * intros []. unfold F9. rewrite V. unfold add_n, nthZ. cbn [map seq nth]. unfold fmon. cbn [monx]. pws. ring.
  - intros r [W E]. split; [exact W|]. rewrite E. apply (eval_scal_r (f9 tt)).
Qed.

Lemma cov_yy2_sp l1 l2 m a b : (0 <= l1)%Z -> (0 <= l2)%Z ->
  moment_yy2 l1 l2 = Ok m -> moment_y2 l1 = Ok a -> moment_y2 l2 = Ok b ->
  returns (cov_yy2 l1 l2) (fun c => wfp P_f6 kf2_8 c /\ nonzero (items c) /\ evp f6 tt c = evp f6 tt m - evp f6 tt a * evp f6 tt b).
Proof.
  intros H1 H2 Em Ea Eb. unfold cov_yy2. rewrite Em, Ea, Eb. cbn [bind].
  pose proof (moment_yy2_shape l1 l2 H1 H2) as Wm. rewrite Em in Wm. cbn [returns] in Wm.
  pose proof (moment_y2_shape l1 H1) as Wa. rewrite Ea in Wa. cbn [returns] in Wa.
  pose proof (moment_y2_shape l2 H2) as Wb. rewrite Eb in Wb. cbn [returns] in Wb.
  eapply returns_bind; [apply (prod6_sp a b Wa Wb)|]. intros ab [Wab Eab].
  eapply returns_bind; [apply (psub_sp P_f6 f6 kf2_8 m ab Wm Wab)|]. intros r [Wr Er]. cbn [returns].
  destruct (remove_zero_sp P_f6 f6 kf2_8 r Wr) as (W' & N' & E'). split; [exact W'|]. split; [exact N'|]. now rewrite E', Er, Eab.
Qed.

(** ** the jump convolutions *)
Lemma j_val_Q c v1 v2 : Q2R (j_val c v1 v2) = IZR c * Q2R v1 * Q2R v2.
Proof. unfold j_val. rewrite !Q2R_mul, Q2R_qz. reflexivity. Qed.

Lemma jterm6 c p q : wfp P_f6 kf2_8 p -> allk P_3 (items q) ->
  adds (wfl P_f9) (ev f9) (gloop (fun _ => Ok q) (j_key 5) (j_val c) (items p)) (fun _ => IZR c * (evp f6 tt p * evp mj tt q)).
Proof.
  intros (p1 & p2 & p3) Aq. eapply adds_ext.
  - apply (gloop_adds P_f6 (fun _ => P_3) P_f9 f9 (fun _ => f6 tt) (fun _ _ => mj tt) (fun _ _ => evp mj tt q)); [| |apply (j_val_Q c)|exact p3].
    + intros k _. cbn [returns]. split; [exact Aq|]. reflexivity.
    + intros (d & ((u & w) & x)) k (w1 & w2 & w3) Wk. unfold j_key. cbn [returns].
      unfold T6, P_3 in *. wfs_destruct. unfold nthZ. cbn [map seq nth app] in *. split.
      * split; [exact w1|]. split; [fwf_split|exact Logic.I].
      * intros []. unfold F9, F6, mon_j, fmon. cbn [monx]. pwx. pws. ring.
  - intros []. cbv beta. rewrite (eval_scal_r (f6 tt)). reflexivity.
Qed.
Lemma jterm5 c p q : wfp P_f5 kf2_7 p -> allk P_3 (items q) ->
  adds (wfl P_f8) (ev f8) (gloop (fun _ => Ok q) (j_key 4) (j_val c) (items p)) (fun _ => IZR c * (evp f5 tt p * evp mj tt q)).
Proof.
  intros (p1 & p2 & p3) Aq. eapply adds_ext.
  - apply (gloop_adds P_f5 (fun _ => P_3) P_f8 f8 (fun _ => f5 tt) (fun _ _ => mj tt) (fun _ _ => evp mj tt q)); [| |apply (j_val_Q c)|exact p3].
    + intros k _. cbn [returns]. split; [exact Aq|]. reflexivity.
    + intros (d & ((u & w) & x)) k (w1 & w2 & w3) Wk. unfold j_key. cbn [returns].
      unfold T5, P_3 in *. wfs_destruct. unfold nthZ. cbn [map seq nth app] in *. split.
      * split; [exact w1|]. split; [fwf_split|exact Logic.I].
      * intros []. unfold F8, F5, mon_j, fmon. cbn [monx]. pwx. pws. ring.
  - intros []. cbv beta. rewrite (eval_scal_r (f5 tt)). reflexivity.
Qed.

(** the value of a result, 0 for an error *)
Definition vof {K} (f : unit -> K -> R) (r : res (Poly K)) : R := match r with Ok q => evp f tt q | Err _ => 0 end.

Lemma jmoment_y2_sp l : (0 <= l)%Z ->
  returns (jmoment_y2 l) (fun r => wfp P_f9 kf2_11 r /\ nonzero (items r) /\
    evp f9 tt r = sumR (fun i => IZR (mcomb l i) * (vof f6 (moment_y2 i) * vof mj (mcpp (l - i)))) (range_down l)).
Proof.
  intro Hl. unfold jmoment_y2. eapply returns_bind.
  - apply (adds_foldM (wfl P_f9) (ev f9) _ (fun i _ => IZR (mcomb l i) * (vof f6 (moment_y2 i) * vof mj (mcpp (l - i))))); [|apply wfl_nil].
    intros i Hi. apply in_range_down in Hi.
    pose proof (moment_y2_shape i ltac:(lia)) as A. pose proof (mcpp_sp (lam * h) muj sj (l - i) ltac:(lia)) as B.
    destruct (moment_y2 i) as [p|]; [|destruct A]. destruct (mcpp (l - i)) as [q|]; [|destruct B]. cbn [bind returns vof] in *.
    rewrite math_comb_ok by lia. cbn [bind]. apply jterm6; [exact A|]. apply B.
  - intros a [Wa Ea]. cbn [returns].
    assert (W : wfp P_f9 kf2_11 (mkPoly a kf2_11)) by (destruct Wa; split; [reflexivity|split; assumption]).
    destruct (remove_zero_sp P_f9 f9 kf2_11 _ W) as (W' & N' & E').
    split; [exact W'|]. split; [exact N'|]. rewrite E'. unfold evp. cbn [items]. change (eval (f9 tt) a) with (ev f9 tt a). rewrite Ea.
    unfold ev. cbn [eval]. ring.
Qed.
Lemma jcmoment_y2_sp l : (0 <= l)%Z ->
  returns (jcmoment_y2 l) (fun r => wfp P_f8 kf2_c10 r /\ nonzero (items r) /\
    evp f8 tt r = sumR (fun i => IZR (mcomb l i) * (vof f5 (cmoment_y2 i) * vof mj (cmcpp (l - i)))) (range_down l)).
Proof.
  intro Hl. unfold jcmoment_y2. eapply returns_bind.
  - apply (adds_foldM (wfl P_f8) (ev f8) _ (fun i _ => IZR (mcomb l i) * (vof f5 (cmoment_y2 i) * vof mj (cmcpp (l - i))))); [|apply wfl_nil].
    intros i Hi. apply in_range_down in Hi.
    pose proof (cmoment_y2_shape i ltac:(lia)) as A.
    assert (B : returns (cmcpp (l - i)) (fun r => allk P_3 (items r))).
    { rewrite <- (Z2Nat.id (l - i)) by lia. eapply returns_weaken; [apply cmcpp_spec|]. intros r (h1 & h2 & _). now apply nn3_P_3. }
    destruct (cmoment_y2 i) as [p|]; [|destruct A]. destruct (cmcpp (l - i)) as [q|]; [|destruct B]. cbn [bind returns vof] in *.
    rewrite math_comb_ok by lia. cbn [bind]. apply jterm5; [exact A|]. apply B.
  - intros a [Wa Ea]. cbn [returns].
    assert (W : wfp P_f8 kf2_c10 (mkPoly a kf2_c10)) by (destruct Wa; split; [reflexivity|split; assumption]).
    destruct (remove_zero_sp P_f8 f8 kf2_c10 _ W) as (W' & N' & E').
    split; [exact W'|]. split; [exact N'|]. rewrite E'. unfold evp. cbn [items]. change (eval (f8 tt) a) with (ev f8 tt a). rewrite Ea.
    unfold ev. cbn [eval]. ring.
Qed.
Lemma jmoment_yy2_sp l1 l2 : (0 <= l1)%Z -> (0 <= l2)%Z ->
  returns (jmoment_yy2 l1 l2) (fun r => wfp P_f9 kf2_11 r /\ nonzero (items r) /\
    evp f9 tt r = sumR (fun i => sumR (fun j => IZR (mcomb l1 i * mcomb l2 j) *
      (vof f6 (moment_yy2 i j) * (vof mj (mcpp (l1 - i)) * vof mj (mcpp (l2 - j))))) (range_down l2)) (range_down l1)).
Proof.
  intros Hl1 Hl2. unfold jmoment_yy2. eapply returns_bind.
  - apply (adds_foldM (wfl P_f9) (ev f9) _ (fun i _ => sumR (fun j => IZR (mcomb l1 i * mcomb l2 j) *
      (vof f6 (moment_yy2 i j) * (vof mj (mcpp (l1 - i)) * vof mj (mcpp (l2 - j))))) (range_down l2))); [|apply wfl_nil].
    intros i Hi. apply in_range_down in Hi.
    apply (adds_foldM (wfl P_f9) (ev f9) _ (fun j _ => IZR (mcomb l1 i * mcomb l2 j) *
      (vof f6 (moment_yy2 i j) * (vof mj (mcpp (l1 - i)) * vof mj (mcpp (l2 - j)))))).
    intros j Hj. apply in_range_down in Hj.
    pose proof (moment_yy2_shape i j ltac:(lia) ltac:(lia)) as A.
    pose proof (mcpp_sp (lam * h) muj sj (l1 - i) ltac:(lia)) as B. pose proof (mcpp_sp (lam * h) muj sj (l2 - j) ltac:(lia)) as C.
    destruct (moment_yy2 i j) as [p|]; [|destruct A]. destruct (mcpp (l1 - i)) as [q|]; [|destruct B].
    destruct (mcpp (l2 - j)) as [q'|]; [|destruct C]. cbn [bind returns vof] in *.
    destruct B as [Wq _]. destruct C as [Wq' _].
    pose proof (pmul_sp P_3 P_3 P_3 mj mj mj kf_cpp q q') as D.
    specialize (D ltac:(apply Wq) ltac:(apply Wq') ltac:(apply Wq) ltac:(apply Wq')).
    eapply adds_bind; [apply D|].
    + intros u v Hu Hv. unfold P_3 in *. wfs_destruct. keyred. split; [cbn [length]; lia|]. split.
      * cbn [wfs]; repeat split; lia.
      * intros []. unfold mon_j. cbn [monx]. pws. ring.
    + intros qq [Wqq Eqq]. rewrite !math_comb_ok by lia. cbn [bind]. eapply adds_ext; [apply jterm6; [exact A|apply Wqq]|].
      intros []. cbv beta. rewrite Eqq. reflexivity.
  - intros a [Wa Ea]. cbn [returns].
    assert (W : wfp P_f9 kf2_11 (mkPoly a kf2_11)) by (destruct Wa; split; [reflexivity|split; assumption]).
    destruct (remove_zero_sp P_f9 f9 kf2_11 _ W) as (W' & N' & E').
    split; [exact W'|]. split; [exact N'|]. rewrite E'. unfold evp. cbn [items]. change (eval (f9 tt) a) with (ev f9 tt a). rewrite Ea.
    unfold ev. cbn [eval]. ring.
Qed.
Lemma jcov_yy2_sp l1 l2 : (0 <= l1)%Z -> (0 <= l2)%Z ->
  returns (jcov_yy2 l1 l2) (fun c => wfp P_f9 kf2_11 c /\ nonzero (items c) /\
    evp f9 tt c = vof f9 (jmoment_yy2 l1 l2) - vof f9 (jmoment_y2 l1) * vof f9 (jmoment_y2 l2)).
Proof.
  intros H1 H2. unfold jcov_yy2.
  pose proof (jmoment_y2_sp l1 H1) as Wa. pose proof (jmoment_y2_sp l2 H2) as Wb. pose proof (jmoment_yy2_sp l1 l2 H1 H2) as Wm.
  destruct (jmoment_y2 l1) as [a|]; [|destruct Wa]. destruct (jmoment_y2 l2) as [b|]; [|destruct Wb].
  destruct (jmoment_yy2 l1 l2) as [m|]; [|destruct Wm]. cbn [bind returns vof] in *.
  destruct Wa as [Wa _]. destruct Wb as [Wb _]. destruct Wm as [Wm _].
  eapply returns_bind; [apply (prod9_sp a b Wa Wb)|]. intros ab [Wab Eab].
  eapply returns_bind; [apply (psub_sp P_f9 f9 kf2_11 m ab Wm Wab)|]. intros r [Wr Er]. cbn [returns].
  destruct (remove_zero_sp P_f9 f9 kf2_11 r Wr) as (W' & N' & E'). split; [exact W'|]. split; [exact N'|]. now rewrite E', Er, Eab.
Qed.
End Values.
