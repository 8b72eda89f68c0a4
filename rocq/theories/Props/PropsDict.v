(** Property C54: what the scalar functions of the one- and two-factor models do with a parameter
    dict that lacks a name or puts a zero in a denominator. *)
From Coq Require Import Reals Lra.
From Coquelicot Require Import Coquelicot.
From Verif.Spec Require Import Params Dict Returns1.
From Verif.Proof Require Import ItoProofs Fsv1Proofs ConvProofs Fsv2Proofs Fsv2jProofs DpolyProofs Dpoly2Proofs ScalarProofs ScalarDProofs EvenKeys Parity Parity3.
From Verif.Proof Require Import CondCmom1Proofs.
From Verif.Props Require Import PropsCond1 Props1fsv Props1fsvj PropsDpoly PropsDpoly2 PropsScalar.
From Verif.Model Require Import ScalarD.
Import Verif.Model.Fsv1 Verif.Model.Fsv1j Verif.Model.Scalar Verif.Model.CondCmom1.
Local Open Scope R_scope.

Definition any (q : string -> R) : Prop := True.

(** ** the polynomials *)
Definition wf_m1 (K : list Z) : Prop := wfs [false; true; true; true; true; true; true; true] K /\ evk 7 K.
Lemma spec_m1 P : allk wf_m1 (items P) ->
  dict_spec ns_m1 corr (p2n_m1 P) (undef_poly neg_k (Ok P)) (fun q => Ok (poly2num_m1 P q)).
Proof.
  intro W. assert (E : allk (evk 7) (items P)) by (apply (allk_weaken _ _ _ W); intros K h; exact (proj2 h)).
  apply (spec_poly P p2n_m1 poly2num_m1 ns_m1 f_m1 e1); [intros par s; now apply p2n_m1_key|intros; now apply p2n_m1_nf|intros; now apply num_m1|].
  intros q _. apply (allk_weaken _ _ _ W). intros K h. apply bad_m1, h.
Qed.
Definition wf_cm1 (K : list Z) : Prop := wfs [false; true; true; true; true; true; true] K /\ evk 6 K.
Lemma spec_cm1 P : allk wf_cm1 (items P) ->
  dict_spec ns_cm1 corr (p2n_cm1 P) (undef_poly neg_k (Ok P)) (fun q => Ok (poly2num_cm1 P q)).
Proof.
  intro W. assert (E : allk (evk 6) (items P)) by (apply (allk_weaken _ _ _ W); intros K h; exact (proj2 h)).
  apply (spec_poly P p2n_cm1 poly2num_cm1 ns_cm1 f_cm1 e1); [intros par s; now apply p2n_cm1_key|intros; now apply p2n_cm1_nf|intros; now apply num_cm1|].
  intros q _. apply (allk_weaken _ _ _ W). intros K h. apply bad_cm1, h.
Qed.
Definition wf_mj (K : list Z) : Prop := wfs [false; true; true; true; true; true; true; true; true; true; true] K /\ evk 7 K.
Lemma spec_mj P : allk wf_mj (items P) ->
  dict_spec ns_mj corr (p2n_mj P) (undef_poly neg_k (Ok P)) (fun q => Ok (poly2num_mj P q)).
Proof.
  intro W. assert (E : allk (evk 7) (items P)) by (apply (allk_weaken _ _ _ W); intros K h; exact (proj2 h)).
  apply (spec_poly P p2n_mj poly2num_mj ns_mj f_mj e1); [intros par s; now apply p2n_mj_key|intros; now apply p2n_mj_nf|intros; now apply num_mj|].
  intros q _. apply (allk_weaken _ _ _ W). intros K h. apply bad_mj, h.
Qed.
Definition wf_cmj (K : list Z) : Prop := wfs [false; true; true; true; true; true; true; true; true; true] K /\ evk 6 K.
Lemma spec_cmj P : allk wf_cmj (items P) ->
  dict_spec ns_cmj corr (p2n_cmj P) (undef_poly neg_k (Ok P)) (fun q => Ok (poly2num_cmj P q)).
Proof.
  intro W. assert (E : allk (evk 6) (items P)) by (apply (allk_weaken _ _ _ W); intros K h; exact (proj2 h)).
  apply (spec_poly P p2n_cmj poly2num_cmj ns_cmj f_cmj e1); [intros par s; now apply p2n_cmj_key|intros; now apply p2n_cmj_nf|intros; now apply num_cmj|].
  intros q _. apply (allk_weaken _ _ _ W). intros K h. apply bad_cmj, h.
Qed.
Lemma spec2_m P : allk (wfx T6) (items P) -> dict_spec ns2_m any (p2n2_m P) (undef_poly zero_den (Ok P)) (fun q => Ok (poly2num2_m P q)).
Proof.
  intro W. apply (spec_poly P p2n2_m poly2num2_m ns2_m (fun q => f2 q (x2_m q)) e2); [intros par s; now apply p2n2_m_key|intros; now apply p2n2_m_nf|intros; apply num2_m|].
  intros q _. apply (allk_weaken _ _ _ W). intros K. apply bad2_m.
Qed.
Lemma spec2_cm P : allk (wfx T5) (items P) -> dict_spec ns2_cm any (p2n2_cm P) (undef_poly zero_den (Ok P)) (fun q => Ok (poly2num2_cm P q)).
Proof.
  intro W. apply (spec_poly P p2n2_cm poly2num2_cm ns2_cm (fun q => f2 q (x2_cm q)) e2); [intros par s; now apply p2n2_cm_key|intros; now apply p2n2_cm_nf|intros; apply num2_cm|].
  intros q _. apply (allk_weaken _ _ _ W). intros K. apply bad2_cm.
Qed.
Lemma spec2_mj P : allk (wfx T9) (items P) -> dict_spec ns2_mj any (p2n2_mj P) (undef_poly zero_den (Ok P)) (fun q => Ok (poly2num2_mj P q)).
Proof.
  intro W. apply (spec_poly P p2n2_mj poly2num2_mj ns2_mj (fun q => f2 q (x2_mj q)) e2); [intros par s; now apply p2n2_mj_key|intros; now apply p2n2_mj_nf|intros; apply num2_mj|].
  intros q _. apply (allk_weaken _ _ _ W). intros K. apply bad2_mj.
Qed.
Lemma spec2_cmj P : allk (wfx T8) (items P) -> dict_spec ns2_cmj any (p2n2_cmj P) (undef_poly zero_den (Ok P)) (fun q => Ok (poly2num2_cmj P q)).
Proof.
  intro W. apply (spec_poly P p2n2_cmj poly2num2_cmj ns2_cmj (fun q => f2 q (x2_cmj q)) e2); [intros par s; now apply p2n2_cmj_key|intros; now apply p2n2_cmj_nf|intros; apply num2_cmj|].
  intros q _. apply (allk_weaken _ _ _ W). intros K. apply bad2_cmj.
Qed.

(** ** their derivatives *)
Local Notation n1 := ["k"; "mu"; "theta"; "sigma_v"; "rho"]%string.
Local Notation nj := ["k"; "mu"; "theta"; "sigma_v"; "rho"; "lambda"; "mu_j"; "sigma_j"]%string.
Local Notation n2 := ["k1"; "k2"; "mu"; "theta1"; "sigma_v1"; "theta2"; "sigma_v2"]%string.
Local Notation n2j := ["k1"; "k2"; "mu"; "theta1"; "sigma_v1"; "theta2"; "sigma_v2"; "lambda"; "mu_j"; "sigma_j"]%string.
Ltac d_even := match goal with A : allk _ (items ?p) |- allk _ (items (d_loop _ _ ?p)) => apply (d_loop_allk _ _ _ _ p) with (2 := A);
    let r := fresh "r" in let K := fresh "K" in let Hi := fresh "Hi" in let W := fresh "W" in let Ev := fresh "Ev" in let Hne := fresh "Hne" in
    intros r K Hi [W Ev] Hne; wfs_destruct; unfold evk, nthZ in Ev; cbn [nth] in Ev; cbn [In r_k r_rho r_plain] in Hi;
    repeat (destruct Hi as [<-|Hi]; [cbn [fst snd] in *; unfold nthZ in *; cbn [nth addat] in *; split;
      [cbn [wfs]; repeat split; try assumption; Z.div_mod_to_equations; lia|unfold evk, nthZ; cbn [nth addat]; Z.div_mod_to_equations; lia]|]); destruct Hi end.
Ltac d_sh := first [d_even|exact (allk_nil _)].
Lemma d_m1 P wrt : In wrt n1 -> allk wf_m1 (items P) -> exists D, dpoly_m1 P wrt = Ok D /\ allk wf_m1 (items D).
Proof. intros Hw W. casek; (eexists; split; [reflexivity|]); d_sh. Qed.
Lemma d_cm1 P wrt : In wrt n1 -> allk wf_cm1 (items P) -> exists D, dpoly_cm1 P wrt = Ok D /\ allk wf_cm1 (items D).
Proof. intros Hw W. casek; (eexists; split; [reflexivity|]); d_sh. Qed.
Lemma d_mj P wrt : In wrt nj -> allk wf_mj (items P) -> exists D, dpoly_mj P wrt = Ok D /\ allk wf_mj (items D).
Proof. intros Hw W. casek; (eexists; split; [reflexivity|]); d_sh. Qed.
Lemma d_cmj P wrt : In wrt nj -> allk wf_cmj (items P) -> exists D, dpoly_cmj P wrt = Ok D /\ allk wf_cmj (items D).
Proof. intros Hw W. casek; (eexists; split; [reflexivity|]); d_sh. Qed.
Ltac go2' L := (eexists; split; [unfold dpoly2_m, dpoly2_cm, dpoly2_mj, dpoly2_cmj; cbn [String.eqb Ascii.eqb Bool.eqb orb]; go2|]);
  cbn [items];
  repeat first [exact L|exact (allk_nil _)|apply ed_items_allk; [|exact L|]];
  let k := fresh in let e := fresh in let Hk := fresh in let Hin := fresh in intros k e Hk Hin;
  match type of Hk with wfx ?s _ => let E := fresh in assert (E := e_wfx s ltac:(repeat constructor) ltac:(cbn; lia));
    first [eapply (proj1 E); [|exact Hk|exact Hin]; cbn; lia|exact (proj1 (proj2 E) _ k e Hk Hin)|exact (proj2 (proj2 E) _ k e Hk Hin)] end.
Lemma d2_m P wrt : In wrt n2 -> allk (wfx T6) (items P) -> exists D, dpoly2_m P wrt = Ok D /\ allk (wfx T6) (items D).
Proof. intros Hw W. casek2; go2' W. Qed.
Lemma d2_cm P wrt : In wrt n2 -> allk (wfx T5) (items P) -> exists D, dpoly2_cm P wrt = Ok D /\ allk (wfx T5) (items D).
Proof. intros Hw W. casek2; go2' W. Qed.
Lemma d2_mj P wrt : In wrt n2j -> allk (wfx T9) (items P) -> exists D, dpoly2_mj P wrt = Ok D /\ allk (wfx T9) (items D).
Proof. intros Hw W. casek2; go2' W. Qed.
Lemma d2_cmj P wrt : In wrt n2j -> allk (wfx T8) (items P) -> exists D, dpoly2_cmj P wrt = Ok D /\ allk (wfx T8) (items D).
Proof. intros Hw W. casek2; go2' W. Qed.

(** ** C54: the one-factor models *)
Lemma wf_even (r : res (Poly (list Z))) (S V W : list Z -> Prop) kf : returns r (wfp S kf) -> oks r (allp V) -> (forall k, S k -> V k -> W k) ->
  exists P, r = Ok P /\ allk W (items P).
Proof.
  intros H1 H2 H. destruct (returns_inv _ _ H1) as (P & -> & _ & _ & A). exists P. split; [reflexivity|]. cbn [oks] in H2.
  intros k Hk. apply H; [apply A, Hk|apply H2, Hk].
Qed.
Ltac wfe := intros k Hs Hv; split; [exact Hs|]; hom2s; unfold evk, nthZ; cbn [nth]; Z.div_mod_to_equations; lia.
Lemma moment_y_wfe l : (0 <= l)%Z -> exists P, moment_y l = Ok P /\ allk wf_m1 (items P).
Proof. intros. eapply wf_even; [now apply moment_y_wf|apply moment_y_even|wfe]. Qed.
Lemma cmoment_y_wfe l : (0 <= l)%Z -> exists P, cmoment_y l = Ok P /\ allk wf_cm1 (items P).
Proof. intros. eapply wf_even; [now apply cmoment_y_wf|apply cmoment_y_even|wfe]. Qed.
Lemma cov_yy_wfe l1 l2 : (0 <= l1)%Z -> (0 <= l2)%Z -> exists P, cov_yy l1 l2 = Ok P /\ allk wf_m1 (items P).
Proof. intros. eapply wf_even; [now apply cov_yy_wf|apply cov_yy_even|wfe]. Qed.
Lemma jmoment_y_wfe l : (0 <= l)%Z -> exists P, jmoment_y l = Ok P /\ allk wf_mj (items P).
Proof. intros. eapply wf_even; [now apply jmoment_y_wf|apply jmoment_y_even|wfe]. Qed.
Lemma jcmoment_y_wfe l : (0 <= l)%Z -> exists P, jcmoment_y l = Ok P /\ allk wf_cmj (items P).
Proof. intros. eapply wf_even; [now apply jcmoment_y_wf|apply jcmoment_y_even|wfe]. Qed.
Lemma jcov_yy_wfe l1 l2 : (0 <= l1)%Z -> (0 <= l2)%Z -> exists P, jcov_yy l1 l2 = Ok P /\ allk wf_mj (items P).
Proof. intros. eapply wf_even; [now apply jcov_yy_wf|apply jcov_yy_even|wfe]. Qed.
Ltac sc W := first [apply spec_m1|apply spec_cm1|apply spec_mj|apply spec_cmj|apply spec2_m|apply spec2_cm|apply spec2_mj|apply spec2_cmj]; first [exact W|apply W|exact (fwf_wfx _ _ _ (proj2 (proj2 W)))].
Theorem C54_1fsv : forall l l1 l2, (0 <= l)%Z -> (0 <= l1)%Z -> (0 <= l2)%Z ->
  dict_spec ns_m1 corr (m_1fsv_d l) (undef_poly neg_k (moment_y l)) (m_1fsv l) /\
  dict_spec ns_cm1 corr (cm_1fsv_d l) (undef_poly neg_k (cmoment_y l)) (cm_1fsv l) /\
  dict_spec ns_m1 corr (cov_1fsv_d l1 l2) (undef_poly neg_k (cov_yy l1 l2)) (cov_1fsv l1 l2).
Proof.
  intros l l1 l2 Hl H1 H2. split; [|split].
  - destruct (moment_y_wfe l Hl) as (P & E & W). apply (spec_scal _ P _ _ _ _ _ E). sc W.
  - destruct (cmoment_y_wfe l Hl) as (P & E & W). apply (spec_scal _ P _ _ _ _ _ E). sc W.
  - destruct (cov_yy_wfe l1 l2 H1 H2) as (P & E & W). apply (spec_scal _ P _ _ _ _ _ E). sc W.
Qed.
Theorem C54_1fsvj : forall l l1 l2, (0 <= l)%Z -> (0 <= l1)%Z -> (0 <= l2)%Z ->
  dict_spec ns_mj corr (m_1fsvj_d l) (undef_poly neg_k (jmoment_y l)) (m_1fsvj l) /\
  dict_spec ns_cmj corr (cm_1fsvj_d l) (undef_poly neg_k (jcmoment_y l)) (cm_1fsvj l) /\
  dict_spec ns_mj corr (cov_1fsvj_d l1 l2) (undef_poly neg_k (jcov_yy l1 l2)) (cov_1fsvj l1 l2).
Proof.
  intros l l1 l2 Hl H1 H2. split; [|split].
  - destruct (jmoment_y_wfe l Hl) as (P & E & W). apply (spec_scal _ P _ _ _ _ _ E). sc W.
  - destruct (jcmoment_y_wfe l Hl) as (P & E & W). apply (spec_scal _ P _ _ _ _ _ E). sc W.
  - destruct (jcov_yy_wfe l1 l2 H1 H2) as (P & E & W). apply (spec_scal _ P _ _ _ _ _ E). sc W.
Qed.
(** the derivatives, in the known directions *)
Theorem C54_1fsv_derivatives : forall wrt l l1 l2, In wrt n1 -> (0 <= l)%Z -> (0 <= l1)%Z -> (0 <= l2)%Z ->
  dict_spec ns_m1 corr (fun par => dm_1fsv_d l par wrt) (undef_poly neg_k (let! m := moment_y l in dpoly_m1 m wrt)) (fun q => dm_1fsv l q wrt) /\
  dict_spec ns_cm1 corr (fun par => dcm_1fsv_d l par wrt) (undef_poly neg_k (let! m := cmoment_y l in dpoly_cm1 m wrt)) (fun q => dcm_1fsv l q wrt) /\
  dict_spec ns_m1 corr (fun par => dcov_1fsv_d l1 l2 par wrt) (undef_poly neg_k (let! m := cov_yy l1 l2 in dpoly_m1 m wrt)) (fun q => dcov_1fsv l1 l2 q wrt).
Proof.
  intros wrt l l1 l2 Hw Hl H1 H2. split; [|split].
  - destruct (moment_y_wfe l Hl) as (P & E & W). destruct (d_m1 P wrt Hw W) as (D & ED & WD).
    apply (spec_dscal _ P D _ _ _ _ _ _ _ E ED). sc WD.
  - destruct (cmoment_y_wfe l Hl) as (P & E & W). destruct (d_cm1 P wrt Hw W) as (D & ED & WD).
    apply (spec_dscal _ P D _ _ _ _ _ _ _ E ED). sc WD.
  - destruct (cov_yy_wfe l1 l2 H1 H2) as (P & E & W). destruct (d_m1 P wrt Hw W) as (D & ED & WD).
    apply (spec_dscal _ P D _ _ _ _ _ _ _ E ED). sc WD.
Qed.
Theorem C54_1fsvj_derivatives : forall wrt l l1 l2, In wrt nj -> (0 <= l)%Z -> (0 <= l1)%Z -> (0 <= l2)%Z ->
  dict_spec ns_mj corr (fun par => dm_1fsvj_d l par wrt) (undef_poly neg_k (let! m := jmoment_y l in dpoly_mj m wrt)) (fun q => dm_1fsvj l q wrt) /\
  dict_spec ns_cmj corr (fun par => dcm_1fsvj_d l par wrt) (undef_poly neg_k (let! m := jcmoment_y l in dpoly_cmj m wrt)) (fun q => dcm_1fsvj l q wrt) /\
  dict_spec ns_mj corr (fun par => dcov_1fsvj_d l1 l2 par wrt) (undef_poly neg_k (let! m := jcov_yy l1 l2 in dpoly_mj m wrt)) (fun q => dcov_1fsvj l1 l2 q wrt).
Proof.
  intros wrt l l1 l2 Hw Hl H1 H2. split; [|split].
  - destruct (jmoment_y_wfe l Hl) as (P & E & W). destruct (d_mj P wrt Hw W) as (D & ED & WD).
    apply (spec_dscal _ P D _ _ _ _ _ _ _ E ED). sc WD.
  - destruct (jcmoment_y_wfe l Hl) as (P & E & W). destruct (d_cmj P wrt Hw W) as (D & ED & WD).
    apply (spec_dscal _ P D _ _ _ _ _ _ _ E ED). sc WD.
  - destruct (jcov_yy_wfe l1 l2 H1 H2) as (P & E & W). destruct (d_mj P wrt Hw W) as (D & ED & WD).
    apply (spec_dscal _ P D _ _ _ _ _ _ _ E ED). sc WD.
Qed.

(** ** the two-factor models *)
Lemma cov_yy2_wf l1 l2 : (0 <= l1)%Z -> (0 <= l2)%Z -> returns (cov_yy2 l1 l2) (wfp P_f6 kf2_8).
Proof.
  intros H1 H2. destruct (returns_inv _ _ (moment_yy2_shape l1 l2 H1 H2)) as (m & Em & _).
  destruct (returns_inv _ _ (moment_y2_shape l1 H1)) as (a & Ea & _).
  destruct (returns_inv _ _ (moment_y2_shape l2 H2)) as (b & Eb & _).
  eapply returns_weaken; [apply (cov_yy2_sp 1 1 1 0 0 0 0 0 l1 l2 m a b H1 H2 Em Ea Eb)|]. intros r (W & _). exact W.
Qed.
Theorem C54_2fsv : forall l l1 l2, (0 <= l)%Z -> (0 <= l1)%Z -> (0 <= l2)%Z ->
  dict_spec ns2_m any (m_2fsv_d l) (undef_poly zero_den (moment_y2 l)) (m_2fsv l) /\
  dict_spec ns2_cm any (cm_2fsv_d l) (undef_poly zero_den (cmoment_y2 l)) (cm_2fsv l) /\
  dict_spec ns2_m any (cov_2fsv_d l1 l2) (undef_poly zero_den (cov_yy2 l1 l2)) (cov_2fsv l1 l2).
Proof.
  intros l l1 l2 Hl H1 H2. split; [|split].
  - destruct (returns_inv _ _ (moment_y2_shape l Hl)) as (P & E & W). apply (spec_scal _ P _ _ _ _ _ E). sc W.
  - destruct (returns_inv _ _ (cmoment_y2_shape l Hl)) as (P & E & W). apply (spec_scal _ P _ _ _ _ _ E). sc W.
  - destruct (returns_inv _ _ (cov_yy2_wf l1 l2 H1 H2)) as (P & E & W). apply (spec_scal _ P _ _ _ _ _ E). sc W.
Qed.
Theorem C54_2fsvj : forall l l1 l2, (0 <= l)%Z -> (0 <= l1)%Z -> (0 <= l2)%Z ->
  dict_spec ns2_mj any (m_2fsvj_d l) (undef_poly zero_den (jmoment_y2 l)) (m_2fsvj l) /\
  dict_spec ns2_cmj any (cm_2fsvj_d l) (undef_poly zero_den (jcmoment_y2 l)) (cm_2fsvj l) /\
  dict_spec ns2_mj any (cov_2fsvj_d l1 l2) (undef_poly zero_den (jcov_yy2 l1 l2)) (cov_2fsvj l1 l2).
Proof.
  intros l l1 l2 Hl H1 H2. split; [|split].
  - destruct (returns_inv _ _ (jmoment_y2_sp 1 1 1 0 0 0 0 0 0 0 0 l Hl)) as (P & E & W & _). apply (spec_scal _ P _ _ _ _ _ E). sc W.
  - destruct (returns_inv _ _ (jcmoment_y2_sp 1 1 1 0 0 0 0 0 0 0 l Hl)) as (P & E & W & _). apply (spec_scal _ P _ _ _ _ _ E). sc W.
  - destruct (returns_inv _ _ (jcov_yy2_sp 1 1 1 0 0 0 0 0 0 0 0 l1 l2 H1 H2)) as (P & E & W & _). apply (spec_scal _ P _ _ _ _ _ E). sc W.
Qed.
Theorem C54_2fsv_derivatives : forall wrt l l1 l2, In wrt n2 -> (0 <= l)%Z -> (0 <= l1)%Z -> (0 <= l2)%Z ->
  dict_spec ns2_m any (fun par => dm_2fsv_d l par wrt) (undef_poly zero_den (let! m := moment_y2 l in dpoly2_m m wrt)) (fun q => dm_2fsv l q wrt) /\
  dict_spec ns2_cm any (fun par => dcm_2fsv_d l par wrt) (undef_poly zero_den (let! m := cmoment_y2 l in dpoly2_cm m wrt)) (fun q => dcm_2fsv l q wrt) /\
  dict_spec ns2_m any (fun par => dcov_2fsv_d l1 l2 par wrt) (undef_poly zero_den (let! m := cov_yy2 l1 l2 in dpoly2_m m wrt)) (fun q => dcov_2fsv l1 l2 q wrt).
Proof.
  intros wrt l l1 l2 Hw Hl H1 H2. split; [|split].
  - destruct (returns_inv _ _ (moment_y2_shape l Hl)) as (P & E & W). destruct (d2_m P wrt Hw (fwf_wfx _ _ _ (proj2 (proj2 W)))) as (D & ED & WD).
    apply (spec_dscal _ P D _ _ _ _ _ _ _ E ED). sc WD.
  - destruct (returns_inv _ _ (cmoment_y2_shape l Hl)) as (P & E & W). destruct (d2_cm P wrt Hw (fwf_wfx _ _ _ (proj2 (proj2 W)))) as (D & ED & WD).
    apply (spec_dscal _ P D _ _ _ _ _ _ _ E ED). sc WD.
  - destruct (returns_inv _ _ (cov_yy2_wf l1 l2 H1 H2)) as (P & E & W). destruct (d2_m P wrt Hw (fwf_wfx _ _ _ (proj2 (proj2 W)))) as (D & ED & WD).
    apply (spec_dscal _ P D _ _ _ _ _ _ _ E ED). sc WD.
Qed.
Theorem C54_2fsvj_derivatives : forall wrt l l1 l2, In wrt n2j -> (0 <= l)%Z -> (0 <= l1)%Z -> (0 <= l2)%Z ->
  dict_spec ns2_mj any (fun par => dm_2fsvj_d l par wrt) (undef_poly zero_den (let! m := jmoment_y2 l in dpoly2_mj m wrt)) (fun q => dm_2fsvj l q wrt) /\
  dict_spec ns2_cmj any (fun par => dcm_2fsvj_d l par wrt) (undef_poly zero_den (let! m := jcmoment_y2 l in dpoly2_cmj m wrt)) (fun q => dcm_2fsvj l q wrt) /\
  dict_spec ns2_mj any (fun par => dcov_2fsvj_d l1 l2 par wrt) (undef_poly zero_den (let! m := jcov_yy2 l1 l2 in dpoly2_mj m wrt)) (fun q => dcov_2fsvj l1 l2 q wrt).
Proof.
  intros wrt l l1 l2 Hw Hl H1 H2. split; [|split].
  - destruct (returns_inv _ _ (jmoment_y2_sp 1 1 1 0 0 0 0 0 0 0 0 l Hl)) as (P & E & W & _). destruct (d2_mj P wrt Hw (fwf_wfx _ _ _ (proj2 (proj2 W)))) as (D & ED & WD).
    apply (spec_dscal _ P D _ _ _ _ _ _ _ E ED). sc WD.
  - destruct (returns_inv _ _ (jcmoment_y2_sp 1 1 1 0 0 0 0 0 0 0 l Hl)) as (P & E & W & _). destruct (d2_cmj P wrt Hw (fwf_wfx _ _ _ (proj2 (proj2 W)))) as (D & ED & WD).
    apply (spec_dscal _ P D _ _ _ _ _ _ _ E ED). sc WD.
  - destruct (returns_inv _ _ (jcov_yy2_sp 1 1 1 0 0 0 0 0 0 0 0 l1 l2 H1 H2)) as (P & E & W & _). destruct (d2_mj P wrt Hw (fwf_wfx _ _ _ (proj2 (proj2 W)))) as (D & ED & WD).
    apply (spec_dscal _ P D _ _ _ _ _ _ _ E ED). sc WD.
Qed.

(** ** names the derivative does not know, whatever the dict *)
Lemma dscal_err {K} (poly : res (Poly K)) dp p2n (par : string -> option R) wrt q e : poly = Ok q -> dp q wrt = Err e -> dscal poly dp p2n par wrt = Err e.
Proof. intros -> E. unfold dscal. cbn [bind]. now rewrite E. Qed.
Theorem C54_unknown_name : forall (par : string -> option R) (wrt : string) (l l1 l2 : Z), (0 <= l)%Z -> (0 <= l1)%Z -> (0 <= l2)%Z ->
  (~ In wrt n1 -> dm_1fsv_d l par wrt = Err ValueError /\ dcm_1fsv_d l par wrt = Err ValueError /\ dcov_1fsv_d l1 l2 par wrt = Err ValueError) /\
  (~ In wrt nj -> dm_1fsvj_d l par wrt = Err ValueError /\ dcm_1fsvj_d l par wrt = Err ValueError /\ dcov_1fsvj_d l1 l2 par wrt = Err ValueError) /\
  (~ In wrt n2 -> dm_2fsv_d l par wrt = Err ValueError /\ dcm_2fsv_d l par wrt = Err ValueError /\ dcov_2fsv_d l1 l2 par wrt = Err ValueError) /\
  (~ In wrt n2j -> dm_2fsvj_d l par wrt = Err ValueError /\ dcm_2fsvj_d l par wrt = Err ValueError /\ dcov_2fsvj_d l1 l2 par wrt = Err ValueError).
Proof.
  intros par wrt l l1 l2 Hl H1 H2. split; [|split; [|split]]; intro Hn; (split; [|split]).
  - destruct (returns_inv _ _ (moment_y_wf l Hl)) as (q & Eq & _). exact (dscal_err _ _ _ _ _ q _ Eq (proj1 (proj1 (C22_unknown_name q wrt) Hn))).
  - destruct (returns_inv _ _ (cmoment_y_wf l Hl)) as (q & Eq & _). exact (dscal_err _ _ _ _ _ q _ Eq (proj2 (proj1 (C22_unknown_name q wrt) Hn))).
  - destruct (returns_inv _ _ (cov_yy_wf l1 l2 H1 H2)) as (q & Eq & _). exact (dscal_err _ _ _ _ _ q _ Eq (proj1 (proj1 (C22_unknown_name q wrt) Hn))).
  - destruct (returns_inv _ _ (jmoment_y_wf l Hl)) as (q & Eq & _). exact (dscal_err _ _ _ _ _ q _ Eq (proj1 (proj2 (C22_unknown_name q wrt) Hn))).
  - destruct (returns_inv _ _ (jcmoment_y_wf l Hl)) as (q & Eq & _). exact (dscal_err _ _ _ _ _ q _ Eq (proj2 (proj2 (C22_unknown_name q wrt) Hn))).
  - destruct (returns_inv _ _ (jcov_yy_wf l1 l2 H1 H2)) as (q & Eq & _). exact (dscal_err _ _ _ _ _ q _ Eq (proj1 (proj2 (C22_unknown_name q wrt) Hn))).
  - destruct (returns_inv _ _ (moment_y2_shape l Hl)) as (q & Eq & _). exact (dscal_err _ _ _ _ _ q _ Eq (proj1 (proj1 (C27_unknown_name q wrt) Hn))).
  - destruct (returns_inv _ _ (cmoment_y2_shape l Hl)) as (q & Eq & _). exact (dscal_err _ _ _ _ _ q _ Eq (proj2 (proj1 (C27_unknown_name q wrt) Hn))).
  - destruct (returns_inv _ _ (cov_yy2_wf l1 l2 H1 H2)) as (q & Eq & _). exact (dscal_err _ _ _ _ _ q _ Eq (proj1 (proj1 (C27_unknown_name q wrt) Hn))).
  - destruct (returns_inv _ _ (jmoment_y2_sp 1 1 1 0 0 0 0 0 0 0 0 l Hl)) as (q & Eq & _). exact (dscal_err _ _ _ _ _ q _ Eq (proj1 (proj1 (proj2 (C27_unknown_name q wrt)) Hn))).
  - destruct (returns_inv _ _ (jcmoment_y2_sp 1 1 1 0 0 0 0 0 0 0 l Hl)) as (q & Eq & _). exact (dscal_err _ _ _ _ _ q _ Eq (proj2 (proj1 (proj2 (C27_unknown_name q wrt)) Hn))).
  - destruct (returns_inv _ _ (jcov_yy2_sp 1 1 1 0 0 0 0 0 0 0 0 l1 l2 H1 H2)) as (q & Eq & _). exact (dscal_err _ _ _ _ _ q _ Eq (proj1 (proj1 (proj2 (C27_unknown_name q wrt)) Hn))).
Qed.

(** ** the conditional central moments of the one-factor model; an interval of length h <> 0 *)
Definition has_length (q : string -> R) : Prop := q "h"%string <> 0.
(** the polynomial that cond_cm evaluates *)
Definition cond_poly (l : Z) : res (Poly (list Z)) :=
  let! cs := cmoments_y_to l in match last (map Some cs) None with Some c => c1_simplify c 2 | None => Err IndexError end.
Lemma bad_c1 q K : has_length q -> wfs [false; false; false; true; true; true; true] K -> (Exists badp (f_c1 q K) <-> neg_k q K).
Proof.
  intros Hh W. wfs_destruct. unfold f_c1, f_hk, neg_k, nthZ. cbn [nth nth_error app]. split.
  - intro H. inversion H as [? ? [h1 h2]|? ? h]; subst; cbn [fst snd] in *; [contradiction|]. inversion h as [? ? [h1 h2]|? ? h']; subst; cbn [fst snd] in *.
    + split; [exact h1|]. eexists. split; [reflexivity|lia].
    + exfalso. revert h'. apply ok_not_bad. repeat (constructor; [right; cbn [snd]; assumption|]). constructor.
  - intros [h1 (n & [= <-] & h2)]. right. left. split; cbn [fst snd]; [exact h1|lia].
Qed.
Theorem C54_cond_cm : forall l,
  dict_spec ns_c1 has_length (cond_cm_d l) (undef_poly neg_k (cond_poly l)) (cond_cm l).
Proof.
  intro l. destruct (C24_cmoments_y_to l) as (cs & Ecs & Hcs & Hn). destruct (Hn (Z.max 1 l) ltac:(lia)) as (q & Eq & K & A & _).
  assert (El : last (map Some cs) None = Some q).
  { destruct (nth_error_split _ _ Eq) as (l1 & l2 & -> & Hl1). rewrite app_length in Hcs. cbn [length] in Hcs.
    destruct l2; [|cbn [length] in Hcs; lia]. rewrite map_app. cbn [map]. now rewrite last_last. }
  assert (A' : allk s9ok (items q)).
  { intros k Hk'. unfold keys in Hk'. apply in_map_iff in Hk'. destruct Hk' as ([k' v] & <- & Hin). exact (proj1 (Forall_forall _ _) A _ Hin). }
  destruct (simp2_sp q A') as (r & Er & K' & U & W & V').
  assert (Ep : cond_poly l = Ok r). { unfold cond_poly. rewrite Ecs. cbn [bind]. rewrite El. exact Er. }
  rewrite Ep. apply (spec_ext _ _ (p2n_c1 r) _ (undef_poly neg_k (Ok r)) _ (fun q => Ok (poly2num_c1 r q))).
  - intro par. unfold cond_cm_d. rewrite Ecs. cbn [bind]. rewrite El. unfold c1_simplify. cbn [Z.eqb Pos.eqb]. now rewrite Er.
  - reflexivity.
  - intro x. unfold cond_cm. rewrite Ecs. cbn [bind]. rewrite El. unfold c1_simplify. cbn [Z.eqb Pos.eqb]. now rewrite Er.
  - apply (spec_poly r p2n_c1 poly2num_c1 ns_c1 f_c1 e1); [intros par s; now apply p2n_c1_key|intros; now apply p2n_c1_nf|intros; apply num_c1|].
    intros x S. apply (allk_weaken _ _ _ W). intros k. now apply bad_c1.
Qed.

(** ** the two ways to be undefined need a zero *)
Theorem C54_k_nonzero : forall (p : res (Poly (list Z))) q, q "k"%string <> 0 -> ~ undef_poly neg_k p q.
Proof. intros p q Hk (r & k & c & _ & _ & h & _). contradiction. Qed.

(** At k = 0 the first moment of the one-factor model is still computed, the second one raises;
    the central moments work without mu, the moments do not. *)
Definition q0 (s : string) : R := if String.eqb s "k" then 0 else if String.eqb s "rho" then 0 else 1.
Definition at0 (s : string) : option R := Some (q0 s).
Example C54_m1_at_k0 : m_1fsv_d 1 at0 = m_1fsv 1 q0.
Proof.
  destruct (C54_1fsv 1 1 1 ltac:(lia) ltac:(lia) ltac:(lia)) as ((_ & H) & _).
  destruct (H at0 q0) as (_ & H2); [intros s _; reflexivity|unfold corr, q0; cbn; lra|]. apply H2.
  intros (r & k & c & E & Hin & _ & n & En & Hn). set (m := moment_y 1) in E. vm_compute in m. subst m. injection E as <-. cbn [items In] in Hin.
  repeat (destruct Hin as [Hin|Hin]; [injection Hin as <- <-; cbn [nth_error] in En; injection En as <-; lia|]). contradiction.
Qed.
Example C54_m2_at_k0 : m_1fsv_d 2 at0 = Err ZeroDivisionError.
Proof.
  destruct (C54_1fsv 2 1 1 ltac:(lia) ltac:(lia) ltac:(lia)) as ((_ & H) & _).
  destruct (H at0 q0) as (H1 & _); [intros s _; reflexivity|unfold corr, q0; cbn; lra|]. apply H1.
  set (m := moment_y 2). vm_compute in m. subst m.
  assert (K : forall (P : list Z * Q -> Prop) l, Exists P l -> exists k c, In (k, c) l /\ P (k, c)).
  { intros P l HE. apply Exists_exists in HE. destruct HE as ([k c] & h1 & h2). eauto. }
  match goal with |- undef_poly _ (Ok ?r) _ => destruct (K (fun kc => neg_k q0 (fst kc)) (items r)) as (k & c & h1 & h2); [|exists r, k, c; auto] end.
  cbn [items]. unfold neg_k. cbn [fst].
  repeat first [left; split; [reflexivity|eexists; split; [reflexivity|lia]]|right].
Qed.
(** without mu *)
Definition no_mu (s : string) : option R := if String.eqb s "mu" then None else Some (if String.eqb s "rho" then 0 else 1).
Example C54_no_mu : m_1fsv_d 3 no_mu = Err KeyError /\ cm_1fsv_d 3 no_mu = cm_1fsv 3 (fun s => if String.eqb s "rho" then 0 else 1).
Proof.
  destruct (C54_1fsv 3 1 1 ltac:(lia) ltac:(lia) ltac:(lia)) as ((H1 & _) & (_ & H2) & _). split.
  - apply (H1 no_mu "mu"%string); [cbn; tauto|reflexivity].
  - destruct (H2 no_mu (fun s => if String.eqb s "rho" then 0 else 1)) as (_ & H3).
    + intros s Hs. cbn [In] in Hs. repeat (destruct Hs as [<-|Hs]; [reflexivity|]). contradiction.
    + unfold corr. cbn. lra.
    + apply H3. apply C54_k_nonzero. cbn. lra.
Qed.
(** two factors, k1 = 0: the mean has no denominator, the variance has one *)
Definition q20 (s : string) : R := if String.eqb s "k1" then 0 else 1.
Example C54_2fsv_at_k0 : m_2fsv_d 1 (fun s => Some (q20 s)) = m_2fsv 1 q20 /\ cm_2fsv_d 2 (fun s => Some (q20 s)) = Err ZeroDivisionError.
Proof.
  destruct (C54_2fsv 1 1 1 ltac:(lia) ltac:(lia) ltac:(lia)) as ((_ & H) & _).
  destruct (C54_2fsv 2 1 1 ltac:(lia) ltac:(lia) ltac:(lia)) as (_ & (_ & H') & _). split.
  - destruct (H (fun s => Some (q20 s)) q20) as (_ & H2); [intros s _; reflexivity|exact I|]. apply H2.
    intros (r & k & c & E & Hin & a & b & e & Hd & He & Hz). set (m := moment_y2 1) in E. vm_compute in m. subst m. injection E as <-. cbn [items In] in Hin.
    repeat (destruct Hin as [Hin|Hin]; [injection Hin as <- <-; cbn [fst In] in Hd;
      repeat (destruct Hd as [Hd|Hd]; [injection Hd as <- <- <-; first [lia|cbn in Hz; lra]|]); contradiction|]). contradiction.
  - destruct (H' (fun s => Some (q20 s)) q20) as (H1 & _); [intros s _; reflexivity|exact I|]. apply H1.
    set (m := cmoment_y2 2). vm_compute in m. subst m.
    assert (K : forall (P : fkey * Q -> Prop) l, Exists P l -> exists k c, In (k, c) l /\ P (k, c)).
    { intros P l HE. apply Exists_exists in HE. destruct HE as ([k c] & h1 & h2). eauto. }
    match goal with |- undef_poly _ (Ok ?r) _ => destruct (K (fun kc => zero_den q20 (fst kc)) (items r)) as (k & c & h1 & h2); [|exists r, k, c; auto] end.
    cbn [items]. unfold zero_den. cbn [fst].
    repeat first [left; eexists _, _, _; split; [left; reflexivity|split; [lia|unfold q20; cbn; lra]]|right].
Qed.
