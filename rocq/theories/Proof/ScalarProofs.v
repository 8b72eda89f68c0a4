(** Shape of the polynomials of the one- and two-factor models, whatever the parameters. *)
From Coq Require Import Reals Lra.
From Coquelicot Require Import Coquelicot.
From Verif.Spec Require Import Fsv1 Cpp Params.
From Verif.Model Require Import Scalar.
From Verif.Proof Require Import ItoProofs Realise Stationary Fsv1Proofs ConvProofs Fsv2Proofs Fsv2jProofs DpolyProofs Dpoly2Proofs.
From Verif.Props Require Import Props1fsv Props1fsvj.
Import Verif.Model.Fsv1 Verif.Model.Fsv1j.
Local Open Scope R_scope.

Local Notation p0 := (mkF 1 1 0 0 0 0).
Lemma hyps0 L : (0 <= L)%Z -> exists (Om : Type) (E : (Om -> R) -> R) (V IE I Is IE1 I1 Is1 : Om -> R),
  cov_hyps E p0 L 0 V IE I Is IE1 I1 Is1.
Proof. intro HL. apply C21_hypotheses_hold; cbn; [lra|lra|exact HL]. Qed.

Lemma moment_y_wf l : (0 <= l)%Z -> returns (moment_y l) (wfp P_8 kf_8).
Proof.
  intro Hl. destruct (hyps0 l Hl) as (Om & E & V & IE & I & Is & IE1 & I1 & Is1 & HE & HV & HT & _).
  eapply returns_weaken; [apply (moment_y_ret p0 E l 0 V IE I Is l); cbn; try assumption; try lra; lia|]. intros r [W _]. exact W.
Qed.
Lemma cmoment_y_wf l : (0 <= l)%Z -> returns (cmoment_y l) (wfp P_c7 kf_c7).
Proof.
  intro Hl. destruct (hyps0 l Hl) as (Om & E & V & IE & I & Is & IE1 & I1 & Is1 & HE & HV & HT & _).
  eapply returns_weaken; [apply (cmoment_y_ret p0 E l 0 V IE I Is l); cbn; try assumption; try lra; lia|]. intros r [W _]. exact W.
Qed.
Lemma moment_yy_wf l1 l2 : (0 <= l1)%Z -> (0 <= l2)%Z -> returns (moment_yy l1 l2) (wfp P_8 kf_8).
Proof.
  intros H1 H2. destruct (hyps0 (l1 + l2) ltac:(lia)) as (Om & E & V & IE & I & Is & IE1 & I1 & Is1 & H).
  eapply returns_weaken; [apply (moment_yy_ret p0 E (l1 + l2) 0 V IE I Is IE1 I1 Is1 l1 l2); cbn; try assumption; try lra; lia|].
  intros r [W _]. exact W.
Qed.

(** the combination of a moment of order l1 and one of order l2, as in the cov_yy functions *)
Definition zm : unit -> list Z -> R := fun _ _ => 0.
Lemma cov_wf (P : list Z -> Prop) kf (a b c : res (Poly (list Z))) :
  (forall k1 k2, P k1 -> P k2 -> (length k1 <= length k2)%nat /\ P (kadd_pure k1 k2)) ->
  returns a (wfp P kf) -> returns b (wfp P kf) -> returns c (wfp P kf) ->
  returns (let! a := a in let! b := b in let! c := c in let! bc := pmul b c in let! r := psub a bc in Ok (remove_zero r)) (wfp P kf).
Proof.
  intros HP Ha Hb Hc. eapply returns_bind; [exact Ha|]. intros x Wx. eapply returns_bind; [exact Hb|]. intros y Wy.
  eapply returns_bind; [exact Hc|]. intros z Wz.
  eapply returns_bind; [apply (pmul_sp P P P zm zm zm kf y z); [apply Wy|apply Wz|apply Wy|apply Wz|]|].
  { intros k1 k2 h1 h2. destruct (HP k1 k2 h1 h2) as [u1 u2]. split; [exact u1|]. split; [exact u2|]. intro. unfold zm. ring. }
  intros yz [Wyz _]. eapply returns_bind; [apply (psub_sp P zm kf x yz Wx Wyz)|]. intros r [Wr _].
  cbn [returns]. apply (remove_zero_sp P zm kf r Wr).
Qed.
Lemma cov_yy_wf l1 l2 : (0 <= l1)%Z -> (0 <= l2)%Z -> returns (cov_yy l1 l2) (wfp P_8 kf_8).
Proof.
  intros H1 H2. apply cov_wf; [|now apply moment_yy_wf|now apply moment_y_wf|now apply moment_y_wf].
  intros k1 k2 h1 h2. unfold P_8 in *. wfs_destruct. keyred. split; [cbn [length]; lia|]. cbn [wfs]; repeat split; lia.
Qed.

Lemma wfz {P} {kf} (r : res (Poly (list Z))) : returns r (wfp P kf) -> returns r (fun q => wfp P kf q /\ evp zm tt q = 0).
Proof.
  intro h. eapply returns_weaken; [exact h|]. intros q W. split; [exact W|]. unfold evp. rewrite sumR_eval.
  transitivity (sumR (fun _ : list Z * Q => 0) (items q)); [apply sumR_ext; intros [? ?] _; unfold zm; cbn; ring|].
  induction (items q) as [|x r' IH]; [reflexivity|]. cbn [sumR]. rewrite IH. ring.
Qed.
Lemma mcpp_wf n : (0 <= n)%Z -> returns (mcpp n) (wfp P_3 kf_cpp).
Proof. intro Hn. eapply returns_weaken; [apply (mcpp_sp 0 0 0 n Hn)|]. intros r [W _]. exact W. Qed.
Lemma cmcpp_wf n : (0 <= n)%Z -> returns (cmcpp n) (wfp P_3 kf_cpp).
Proof.
  intro Hn. rewrite <- (Z2Nat.id n) by lia. eapply returns_weaken; [apply cmcpp_spec|].
  intros r (h1 & h2 & h3 & _). split; [|split]; [assumption..|]. now apply nn3_P_3.
Qed.
Ltac zkey := let k1 := fresh in let k2 := fresh in let h1 := fresh in let h2 := fresh in
  intros k1 k2 h1 h2; unfold P_j11, P_j10, P_8, P_c7, P_3 in *; wfs_destruct; keyred;
  first [split; [cbn [wfs]; repeat split; lia|intro; unfold zm; ring]
        |split; [cbn [length]; lia|]; split; [cbn [wfs]; repeat split; lia|intro; unfold zm; ring]].
Lemma jmoment_y_wf l : (0 <= l)%Z -> returns (jmoment_y l) (wfp P_j11 kf_j11).
Proof.
  intro Hl. eapply returns_weaken.
  - apply (conv_sp P_8 P_3 P_j11 zm zm zm [0;1;2;3;4;5;6;7;-1;-1;-1]%Z [-1;0;-1;-1;-1;-1;-1;-1;0;1;2]%Z kf_8 kf_cpp kf_j11 eq_refl
      ltac:(zkey) moment_y mcpp (fun _ => 0) (fun _ => 0) l Hl).
    + intros i Hi. apply wfz, moment_y_wf. lia.
    + intros i Hi. apply wfz, mcpp_wf. lia.
  - intros r [W _]. exact W.
Qed.
Lemma jcmoment_y_wf l : (0 <= l)%Z -> returns (jcmoment_y l) (wfp P_j10 kf_j10).
Proof.
  intro Hl. eapply returns_weaken.
  - apply (conv_sp P_c7 P_3 P_j10 zm zm zm [0;1;2;3;4;5;6;-1;-1;-1]%Z [-1;0;-1;-1;-1;-1;-1;0;1;2]%Z kf_c7 kf_cpp kf_j10 eq_refl
      ltac:(zkey) cmoment_y cmcpp (fun _ => 0) (fun _ => 0) l Hl).
    + intros i Hi. apply wfz, cmoment_y_wf. lia.
    + intros i Hi. apply wfz, cmcpp_wf. lia.
  - intros r [W _]. exact W.
Qed.
Lemma jmoment_yy_wf l1 l2 : (0 <= l1)%Z -> (0 <= l2)%Z -> returns (jmoment_yy l1 l2) (wfp P_j11 kf_j11).
Proof.
  intros H1 H2. eapply returns_weaken.
  - apply (conv2_sp P_8 P_3 P_j11 zm zm zm [0;1;2;3;4;5;6;7;-1;-1;-1]%Z [-1;0;-1;-1;-1;-1;-1;-1;0;1;2]%Z kf_8 kf_cpp kf_j11 eq_refl
      ltac:(zkey) ltac:(zkey) moment_yy mcpp (fun _ _ => 0) (fun _ => 0) l1 l2 H1 H2).
    + intros i j Hi Hj. apply wfz, moment_yy_wf; lia.
    + intros i Hi. apply wfz, mcpp_wf. lia.
  - intros r [W _]. exact W.
Qed.
Lemma jcov_yy_wf l1 l2 : (0 <= l1)%Z -> (0 <= l2)%Z -> returns (jcov_yy l1 l2) (wfp P_j11 kf_j11).
Proof.
  intros H1 H2. apply cov_wf; [|now apply jmoment_yy_wf|now apply jmoment_y_wf|now apply jmoment_y_wf].
  intros k1 k2 h1 h2. unfold P_j11 in *. wfs_destruct. keyred. split; [cbn [length]; lia|]. cbn [wfs]; repeat split; lia.
Qed.

(** keys with non-negative exponents fit any values *)
Lemma wfs_fits s : forall vals k, length vals = length s -> wfs s k -> Forall2 (fun v (b : bool) => b = false -> v <> 0) vals s ->
  Forall2 (fun v n => v <> 0 \/ (0 <= n)%Z) vals k.
Proof.
  induction s as [|b s IH]; intros [|v vals] [|x k] Hl Hk Hv; try discriminate; try destruct Hk as [hx Hk]; try destruct Hk; [constructor|].
  inversion Hv as [|? ? ? ? h1 h2]; subst. constructor; [|apply IH; [now injection Hl|assumption|assumption]].
  destruct b; [right; exact hx|left; now apply h1].
Qed.
Lemma fits_of s vals l : length vals = length s -> Forall2 (fun v (b : bool) => b = false -> v <> 0) vals s ->
  allk (wfs s) l -> fits vals l.
Proof. intros h1 h2 A k c Hin. apply (wfs_fits s); [exact h1|exact (allk_in _ _ k c A Hin)|exact h2]. Qed.
Lemma fits2_of s B par vals l : length vals = length s -> Forall (fun b => b = true) s ->
  allk (fwf s B) l -> (forall t0 t1 x c, In ((t0, (t1, x)), c) l -> dens_ok par t0) -> fits2 par vals l.
Proof.
  intros h1 h2 A D t0 t1 x c Hin. split; [exact (D t0 t1 x c Hin)|].
  pose proof (allk_in _ _ _ c A Hin) as W. destruct W as (_ & W & _). apply (wfs_fits s); [exact h1|exact W|].
  clear - h1 h2. revert vals h1. induction h2 as [|b s -> h2 IH]; intros [|v vals] Hl; try discriminate; constructor; [discriminate|].
  apply IH. now injection Hl.
Qed.
