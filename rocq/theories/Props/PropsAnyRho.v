(** C58: the functions of the one-factor models at every rho: no complex number arises, an error
    only comes from a missing name or a negative power of k = 0, and the derivative functions are
    the derivatives, also for |rho| >= 1. *)
From Coq Require Import Reals Lra.
From Coquelicot Require Import Coquelicot.
From Verif.Spec Require Import Params Dict AnyRho Returns1.
From Verif.Proof Require Import ItoProofs KeyInv MonTac SumFacts DpolyProofs DecodeProofs ScalarProofs ScalarDProofs AnyRhoProofs EvenKeys.
From Verif.Props Require Import PropsDpoly PropsDict.
From Verif.Model Require Import ScalarD.
Import Verif.Model.Fsv1 Verif.Model.Fsv1j Verif.Model.Scalar.
Local Open Scope R_scope.

Local Notation n1 := ["k"; "mu"; "theta"; "sigma_v"; "rho"]%string.
Local Notation nj := ["k"; "mu"; "theta"; "sigma_v"; "rho"; "lambda"; "mu_j"; "sigma_j"]%string.

(** ** the polynomials *)
Lemma any_m1 P : allk wf_m1 (items P) ->
  dict_spec ns_m1 any (p2n_m1 P) (undef_poly neg_k (Ok P)) (fun q => Ok (eval (val8 q) (items P))).
Proof.
  intro W. assert (E : allk (evk 7) (items P)) by (apply (allk_weaken _ _ _ W); intros K h; exact (proj2 h)).
  apply (spec_poly P p2n_m1 (fun P q => eval (val8 q) (items P)) ns_m1 f_m1 e1); [intros par s; now apply p2n_m1_key|intros; now apply p2n_m1_nf| |].
  - intros q _. apply eval_ext_in. intros k c Hin. symmetry. apply nf_val8. exact (proj1 (allk_in _ _ k c W Hin)).
  - intros q _. apply (allk_weaken _ _ _ W). intros K h. apply bad_m1, h.
Qed.
Lemma any_cm1 P : allk wf_cm1 (items P) ->
  dict_spec ns_cm1 any (p2n_cm1 P) (undef_poly neg_k (Ok P)) (fun q => Ok (eval (val7 q) (items P))).
Proof.
  intro W. assert (E : allk (evk 6) (items P)) by (apply (allk_weaken _ _ _ W); intros K h; exact (proj2 h)).
  apply (spec_poly P p2n_cm1 (fun P q => eval (val7 q) (items P)) ns_cm1 f_cm1 e1); [intros par s; now apply p2n_cm1_key|intros; now apply p2n_cm1_nf| |].
  - intros q _. apply eval_ext_in. intros k c Hin. symmetry. apply nf_val7. exact (proj1 (allk_in _ _ k c W Hin)).
  - intros q _. apply (allk_weaken _ _ _ W). intros K h. apply bad_cm1, h.
Qed.
Lemma any_mj P : allk wf_mj (items P) ->
  dict_spec ns_mj any (p2n_mj P) (undef_poly neg_k (Ok P)) (fun q => Ok (eval (val11 q) (items P))).
Proof.
  intro W. assert (E : allk (evk 7) (items P)) by (apply (allk_weaken _ _ _ W); intros K h; exact (proj2 h)).
  apply (spec_poly P p2n_mj (fun P q => eval (val11 q) (items P)) ns_mj f_mj e1); [intros par s; now apply p2n_mj_key|intros; now apply p2n_mj_nf| |].
  - intros q _. apply eval_ext_in. intros k c Hin. symmetry. apply nf_val11. exact (proj1 (allk_in _ _ k c W Hin)).
  - intros q _. apply (allk_weaken _ _ _ W). intros K h. apply bad_mj, h.
Qed.
Lemma any_cmj P : allk wf_cmj (items P) ->
  dict_spec ns_cmj any (p2n_cmj P) (undef_poly neg_k (Ok P)) (fun q => Ok (eval (val10 q) (items P))).
Proof.
  intro W. assert (E : allk (evk 6) (items P)) by (apply (allk_weaken _ _ _ W); intros K h; exact (proj2 h)).
  apply (spec_poly P p2n_cmj (fun P q => eval (val10 q) (items P)) ns_cmj f_cmj e1); [intros par s; now apply p2n_cmj_key|intros; now apply p2n_cmj_nf| |].
  - intros q _. apply eval_ext_in. intros k c Hin. symmetry. apply nf_val10. exact (proj1 (allk_in _ _ k c W Hin)).
  - intros q _. apply (allk_weaken _ _ _ W). intros K h. apply bad_cmj, h.
Qed.

(** ** derivatives *)
Lemma eval_half (val : (string -> R) -> list Z -> R) w j (S : list Z -> Prop) P : (forall q k, S k -> val q k = monx (w q) (half j k)) -> allk S (items P) ->
  forall q, eval (val q) (items P) = eval (monx (w q)) (items (pmap (half j) P)).
Proof. intros H A q. rewrite eval_pmap. apply eval_ext_in. intros k c Hin. apply H. exact (allk_in _ _ k c A Hin). Qed.
Lemma half_derive (val : (string -> R) -> list Z -> R) w j (S : list Z -> Prop) P rules rules' kf q wrt :
  (forall q k, S k -> val q k = monx (w q) (half j k)) -> allk S (items P) -> allk S (items (d_loop rules kf P)) ->
  allk (fun k => Forall2 (fun r r' : rule => fst r k = fst r' (half j k) /\ half j (snd r k) = snd r' (half j k)) rules rules') (items P) ->
  is_derive (fun x => eval (monx (w (upd q wrt x))) (items (pmap (half j) P))) (q wrt) (eval (monx (w q)) (items (d_loop rules' kf (pmap (half j) P)))) ->
  is_derive (fun x => eval (val (upd q wrt x)) (items P)) (q wrt) (eval (val q) (items (d_loop rules kf P))).
Proof.
  intros H A A' C D. eapply derive_switch; [intro t; now apply (eval_half val w j S P H A)| |exact D].
  rewrite <- (d_loop_half (half j) _ rules rules' kf kf P C). symmetry. apply eval_ext_in. intros k c Hin. apply H. exact (allk_in _ _ k c A' Hin).
Qed.
Lemma pmap_in f p k c : In (k, c) (items (pmap f p)) -> exists k0, k = f k0 /\ In (k0, c) (items p).
Proof. cbn [pmap items]. intro H. apply in_map_iff in H. destruct H as ([k0 c0] & [= <- <-] & Hin). eauto. Qed.
Ltac comm W := apply (allk_weaken _ _ _ W); let K := fresh "K" in let X := fresh "X" in let Ev := fresh "Ev" in
  intros K [X Ev]; wfs_destruct; unfold evk, nthZ in Ev; cbn [nth] in Ev;
  repeat (constructor; [unfold half, nthZ; cbn [fst snd nth firstn skipn app addat]; split; [Z.div_mod_to_equations; lia|repeat (f_equal; try (Z.div_mod_to_equations; lia))]|]); constructor.
Ltac fit Hk W := let k := fresh "k" in let c := fresh "c" in let Hin := fresh "Hin" in intros k c Hin;
  let k0 := fresh "k0" in let Hin0 := fresh "Hin0" in destruct (pmap_in _ _ _ _ Hin) as (k0 & -> & Hin0);
  let X := fresh "X" in destruct (allk_in _ _ k0 c W Hin0) as [X _]; clear Hin Hin0; wfs_destruct;
  unfold half, nthZ, w11, w10, w8, w7, v_jump; cbn [nth firstn skipn app];
  repeat (constructor; [first [right; assumption|right; apply Z.div_pos; [assumption|lia]|left; apply exp_neq0|left; now apply Rinv_neq_0_compat]|]); constructor.
Ltac fit2 Hk W := let k := fresh "k" in let c := fresh "c" in let Hin := fresh "Hin" in intros k c Hin;
  let k0 := fresh "k0" in let Hin0 := fresh "Hin0" in destruct (pmap_in _ _ _ _ Hin) as (k0 & -> & Hin0);
  let X := fresh "X" in destruct (allk_in _ _ k0 c W Hin0) as [X _]; clear Hin Hin0; wfs_destruct;
  unfold half, nthZ, w11, w10, w8, w7, v_jump; cbn [nth firstn skipn app length]; split;
  [repeat (constructor; [first [right; assumption|left; apply exp_neq0|left; now apply Rinv_neq_0_compat]|]); constructor
  |eexists _, _, _; split; [reflexivity|split; [assumption|split; [apply Z.div_pos; [assumption|lia]|]]];
   repeat (constructor; [right; assumption|]); constructor].
Ltac dd val w j L W := match goal with |- is_derive _ _ (eval _ (items (d_loop ?rules ?kf ?P))) =>
  let rules' := match rules with r_rho ?a ?b => constr:(r_rho2 a b) | _ => rules end in
  let S := match type of W with allk ?S _ => S end in
  apply (half_derive val w j S P rules rules' kf);
  [intros ? ? [? _]; now apply L|exact W|d_even|comm W|] end.
Lemma der_m1 P wrt q : In wrt n1 -> q "k"%string <> 0 -> allk wf_m1 (items P) ->
  exists D, dpoly_m1 P wrt = Ok D /\ is_derive (fun x => eval (val8 (upd q wrt x)) (items P)) (q wrt) (eval (val8 q) (items D)).
Proof.
  intros Hw Hk W. casek; (eexists; split; [reflexivity|]).
  - dd val8 w8 7%nat val8_monx W. exact (k_derive q Hk (skipn 3 (w8 q)) kf_m1 (pmap (half 7) P) ltac:(fit Hk W)).
  - dd val8 w8 7%nat val8_monx W. exact (plain_derive (w8 q) 3 kf_m1 (pmap (half 7) P) ltac:(cbn; lia) ltac:(fit Hk W)).
  - dd val8 w8 7%nat val8_monx W. exact (plain_derive (w8 q) 4 kf_m1 (pmap (half 7) P) ltac:(cbn; lia) ltac:(fit Hk W)).
  - dd val8 w8 7%nat val8_monx W. exact (plain_derive (w8 q) 5 kf_m1 (pmap (half 7) P) ltac:(cbn; lia) ltac:(fit Hk W)).
  - dd val8 w8 7%nat val8_monx W. exact (rho2_derive (q "rho"%string) (firstn 6 (w8 q)) [] kf_m1 (pmap (half 7) P) ltac:(fit2 Hk W)).
Qed.
Lemma der_cm1 P wrt q : In wrt n1 -> q "k"%string <> 0 -> allk wf_cm1 (items P) ->
  exists D, dpoly_cm1 P wrt = Ok D /\ is_derive (fun x => eval (val7 (upd q wrt x)) (items P)) (q wrt) (eval (val7 q) (items D)).
Proof.
  intros Hw Hk W. casek; (eexists; split; [reflexivity|]).
  - dd val7 w7 6%nat val7_monx W. exact (k_derive q Hk (skipn 3 (w7 q)) kf_cm1 (pmap (half 6) P) ltac:(fit Hk W)).
  - eapply derive_switch; [| |exact (is_derive_Rconst (eval (val7 q) (items P)) (q "mu"%string))]; [intro; reflexivity|reflexivity].
  - dd val7 w7 6%nat val7_monx W. exact (plain_derive (w7 q) 3 kf_cm1 (pmap (half 6) P) ltac:(cbn; lia) ltac:(fit Hk W)).
  - dd val7 w7 6%nat val7_monx W. exact (plain_derive (w7 q) 4 kf_cm1 (pmap (half 6) P) ltac:(cbn; lia) ltac:(fit Hk W)).
  - dd val7 w7 6%nat val7_monx W. exact (rho2_derive (q "rho"%string) (firstn 5 (w7 q)) [] kf_cm1 (pmap (half 6) P) ltac:(fit2 Hk W)).
Qed.
Lemma der_mj P wrt q : In wrt nj -> q "k"%string <> 0 -> allk wf_mj (items P) ->
  exists D, dpoly_mj P wrt = Ok D /\ is_derive (fun x => eval (val11 (upd q wrt x)) (items P)) (q wrt) (eval (val11 q) (items D)).
Proof.
  intros Hw Hk W. casek; (eexists; split; [reflexivity|]).
  - dd val11 w11 7%nat val11_monx W. exact (k_derive q Hk (skipn 3 (w11 q)) kf_mj (pmap (half 7) P) ltac:(fit Hk W)).
  - dd val11 w11 7%nat val11_monx W. exact (plain_derive (w11 q) 3 kf_mj (pmap (half 7) P) ltac:(cbn; lia) ltac:(fit Hk W)).
  - dd val11 w11 7%nat val11_monx W. exact (plain_derive (w11 q) 4 kf_mj (pmap (half 7) P) ltac:(cbn; lia) ltac:(fit Hk W)).
  - dd val11 w11 7%nat val11_monx W. exact (plain_derive (w11 q) 5 kf_mj (pmap (half 7) P) ltac:(cbn; lia) ltac:(fit Hk W)).
  - dd val11 w11 7%nat val11_monx W. exact (rho2_derive (q "rho"%string) (firstn 6 (w11 q)) (v_jump q) kf_mj (pmap (half 7) P) ltac:(fit2 Hk W)).
  - dd val11 w11 7%nat val11_monx W. exact (plain_derive (w11 q) 8 kf_mj (pmap (half 7) P) ltac:(cbn; lia) ltac:(fit Hk W)).
  - dd val11 w11 7%nat val11_monx W. exact (plain_derive (w11 q) 9 kf_mj (pmap (half 7) P) ltac:(cbn; lia) ltac:(fit Hk W)).
  - dd val11 w11 7%nat val11_monx W. exact (plain_derive (w11 q) 10 kf_mj (pmap (half 7) P) ltac:(cbn; lia) ltac:(fit Hk W)).
Qed.
Lemma der_cmj P wrt q : In wrt nj -> q "k"%string <> 0 -> allk wf_cmj (items P) ->
  exists D, dpoly_cmj P wrt = Ok D /\ is_derive (fun x => eval (val10 (upd q wrt x)) (items P)) (q wrt) (eval (val10 q) (items D)).
Proof.
  intros Hw Hk W. casek; (eexists; split; [reflexivity|]).
  - dd val10 w10 6%nat val10_monx W. exact (k_derive q Hk (skipn 3 (w10 q)) kf_cmj (pmap (half 6) P) ltac:(fit Hk W)).
  - eapply derive_switch; [| |exact (is_derive_Rconst (eval (val10 q) (items P)) (q "mu"%string))]; [intro; reflexivity|reflexivity].
  - dd val10 w10 6%nat val10_monx W. exact (plain_derive (w10 q) 3 kf_cmj (pmap (half 6) P) ltac:(cbn; lia) ltac:(fit Hk W)).
  - dd val10 w10 6%nat val10_monx W. exact (plain_derive (w10 q) 4 kf_cmj (pmap (half 6) P) ltac:(cbn; lia) ltac:(fit Hk W)).
  - dd val10 w10 6%nat val10_monx W. exact (rho2_derive (q "rho"%string) (firstn 5 (w10 q)) (v_jump q) kf_cmj (pmap (half 6) P) ltac:(fit2 Hk W)).
  - dd val10 w10 6%nat val10_monx W. exact (plain_derive (w10 q) 7 kf_cmj (pmap (half 6) P) ltac:(cbn; lia) ltac:(fit Hk W)).
  - dd val10 w10 6%nat val10_monx W. exact (plain_derive (w10 q) 8 kf_cmj (pmap (half 6) P) ltac:(cbn; lia) ltac:(fit Hk W)).
  - dd val10 w10 6%nat val10_monx W. exact (plain_derive (w10 q) 9 kf_cmj (pmap (half 6) P) ltac:(cbn; lia) ltac:(fit Hk W)).
Qed.

(** ** C58: errors and values *)
Lemma any_scal (poly : res (Poly (list Z))) P (p2nD : Poly (list Z) -> dict -> res R) (val : (string -> R) -> list Z -> R) ns : poly = Ok P ->
  dict_spec ns any (p2nD P) (undef_poly neg_k (Ok P)) (fun q => Ok (eval (val q) (items P))) ->
  dict_spec ns any (scal poly p2nD) (undef_poly neg_k poly) (fun q => let! p := poly in Ok (eval (val q) (items p))).
Proof. intros ->. apply spec_ext; reflexivity. Qed.
Lemma any_dscal (poly : res (Poly (list Z))) M P (dp : Poly (list Z) -> string -> res (Poly (list Z))) (p2nD : Poly (list Z) -> dict -> res R)
    (val : (string -> R) -> list Z -> R) ns wrt : poly = Ok M -> dp M wrt = Ok P ->
  dict_spec ns any (p2nD P) (undef_poly neg_k (Ok P)) (fun q => Ok (eval (val q) (items P))) ->
  dict_spec ns any (fun par => dscal poly dp p2nD par wrt) (undef_poly neg_k (let! m := poly in dp m wrt))
    (fun q => let! m := poly in let! d := dp m wrt in Ok (eval (val q) (items d))).
Proof. intros -> E. unfold dscal. cbn [bind]. rewrite E. apply spec_ext; reflexivity. Qed.
Theorem C58_1fsv : forall l l1 l2, (0 <= l)%Z -> (0 <= l1)%Z -> (0 <= l2)%Z ->
  dict_spec ns_m1 any (m_1fsv_d l) (undef_poly neg_k (moment_y l))
    (fun q => let! p := moment_y l in Ok (eval (val8 q) (items p))) /\
  dict_spec ns_cm1 any (cm_1fsv_d l) (undef_poly neg_k (cmoment_y l))
    (fun q => let! p := cmoment_y l in Ok (eval (val7 q) (items p))) /\
  dict_spec ns_m1 any (cov_1fsv_d l1 l2) (undef_poly neg_k (cov_yy l1 l2))
    (fun q => let! p := cov_yy l1 l2 in Ok (eval (val8 q) (items p))).
Proof.
  intros l l1 l2 Hl H1 H2. split; [|split].
  - destruct (moment_y_wfe l Hl) as (P & E & W). exact (any_scal _ P _ _ _ E (any_m1 P W)).
  - destruct (cmoment_y_wfe l Hl) as (P & E & W). exact (any_scal _ P _ _ _ E (any_cm1 P W)).
  - destruct (cov_yy_wfe l1 l2 H1 H2) as (P & E & W). exact (any_scal _ P _ _ _ E (any_m1 P W)).
Qed.
Theorem C58_1fsv_derivatives : forall wrt l l1 l2, In wrt n1 -> (0 <= l)%Z -> (0 <= l1)%Z -> (0 <= l2)%Z ->
  dict_spec ns_m1 any (fun par => dm_1fsv_d l par wrt) (undef_poly neg_k (let! m := moment_y l in dpoly_m1 m wrt))
    (fun q => let! m := moment_y l in let! d := dpoly_m1 m wrt in Ok (eval (val8 q) (items d))) /\
  dict_spec ns_cm1 any (fun par => dcm_1fsv_d l par wrt) (undef_poly neg_k (let! m := cmoment_y l in dpoly_cm1 m wrt))
    (fun q => let! m := cmoment_y l in let! d := dpoly_cm1 m wrt in Ok (eval (val7 q) (items d))) /\
  dict_spec ns_m1 any (fun par => dcov_1fsv_d l1 l2 par wrt) (undef_poly neg_k (let! m := cov_yy l1 l2 in dpoly_m1 m wrt))
    (fun q => let! m := cov_yy l1 l2 in let! d := dpoly_m1 m wrt in Ok (eval (val8 q) (items d))).
Proof.
  intros wrt l l1 l2 Hw Hl H1 H2. split; [|split].
  - destruct (moment_y_wfe l Hl) as (P & E & W). destruct (d_m1 P wrt Hw W) as (D & ED & WD). exact (any_dscal _ P D _ _ _ _ _ E ED (any_m1 D WD)).
  - destruct (cmoment_y_wfe l Hl) as (P & E & W). destruct (d_cm1 P wrt Hw W) as (D & ED & WD). exact (any_dscal _ P D _ _ _ _ _ E ED (any_cm1 D WD)).
  - destruct (cov_yy_wfe l1 l2 H1 H2) as (P & E & W). destruct (d_m1 P wrt Hw W) as (D & ED & WD). exact (any_dscal _ P D _ _ _ _ _ E ED (any_m1 D WD)).
Qed.
Theorem C58_1fsvj : forall l l1 l2, (0 <= l)%Z -> (0 <= l1)%Z -> (0 <= l2)%Z ->
  dict_spec ns_mj any (m_1fsvj_d l) (undef_poly neg_k (jmoment_y l))
    (fun q => let! p := jmoment_y l in Ok (eval (val11 q) (items p))) /\
  dict_spec ns_cmj any (cm_1fsvj_d l) (undef_poly neg_k (jcmoment_y l))
    (fun q => let! p := jcmoment_y l in Ok (eval (val10 q) (items p))) /\
  dict_spec ns_mj any (cov_1fsvj_d l1 l2) (undef_poly neg_k (jcov_yy l1 l2))
    (fun q => let! p := jcov_yy l1 l2 in Ok (eval (val11 q) (items p))).
Proof.
  intros l l1 l2 Hl H1 H2. split; [|split].
  - destruct (jmoment_y_wfe l Hl) as (P & E & W). exact (any_scal _ P _ _ _ E (any_mj P W)).
  - destruct (jcmoment_y_wfe l Hl) as (P & E & W). exact (any_scal _ P _ _ _ E (any_cmj P W)).
  - destruct (jcov_yy_wfe l1 l2 H1 H2) as (P & E & W). exact (any_scal _ P _ _ _ E (any_mj P W)).
Qed.
Theorem C58_1fsvj_derivatives : forall wrt l l1 l2, In wrt nj -> (0 <= l)%Z -> (0 <= l1)%Z -> (0 <= l2)%Z ->
  dict_spec ns_mj any (fun par => dm_1fsvj_d l par wrt) (undef_poly neg_k (let! m := jmoment_y l in dpoly_mj m wrt))
    (fun q => let! m := jmoment_y l in let! d := dpoly_mj m wrt in Ok (eval (val11 q) (items d))) /\
  dict_spec ns_cmj any (fun par => dcm_1fsvj_d l par wrt) (undef_poly neg_k (let! m := jcmoment_y l in dpoly_cmj m wrt))
    (fun q => let! m := jcmoment_y l in let! d := dpoly_cmj m wrt in Ok (eval (val10 q) (items d))) /\
  dict_spec ns_mj any (fun par => dcov_1fsvj_d l1 l2 par wrt) (undef_poly neg_k (let! m := jcov_yy l1 l2 in dpoly_mj m wrt))
    (fun q => let! m := jcov_yy l1 l2 in let! d := dpoly_mj m wrt in Ok (eval (val11 q) (items d))).
Proof.
  intros wrt l l1 l2 Hw Hl H1 H2. split; [|split].
  - destruct (jmoment_y_wfe l Hl) as (P & E & W). destruct (d_mj P wrt Hw W) as (D & ED & WD). exact (any_dscal _ P D _ _ _ _ _ E ED (any_mj D WD)).
  - destruct (jcmoment_y_wfe l Hl) as (P & E & W). destruct (d_cmj P wrt Hw W) as (D & ED & WD). exact (any_dscal _ P D _ _ _ _ _ E ED (any_cmj D WD)).
  - destruct (jcov_yy_wfe l1 l2 H1 H2) as (P & E & W). destruct (d_mj P wrt Hw W) as (D & ED & WD). exact (any_dscal _ P D _ _ _ _ _ E ED (any_mj D WD)).
Qed.

(** ** C58: the derivative functions return the derivative *)
(** [f] is defined at all dicts that differ from [q] in [wrt] with k <> 0, and [d] is its derivative at [q] *)
Definition derives (f : (string -> option R) -> res R) (wrt : string) (q : string -> R) (r : res R) : Prop :=
  exists F d, (forall x, upd q wrt x "k"%string <> 0 -> f (full (upd q wrt x)) = Ok (F x)) /\ is_derive F (q wrt) d /\ r = Ok d.
Lemma derives_sp (poly : res (Poly (list Z))) P (dp : Poly (list Z) -> string -> res (Poly (list Z))) (p2nD : Poly (list Z) -> dict -> res R)
    (val : (string -> R) -> list Z -> R) ns wrt q (S : list Z -> Prop) : poly = Ok P -> allk S (items P) ->
  (forall P, allk S (items P) -> dict_spec ns any (p2nD P) (undef_poly neg_k (Ok P)) (fun q => Ok (eval (val q) (items P)))) ->
  (exists D, dp P wrt = Ok D /\ allk S (items D)) ->
  (exists D, dp P wrt = Ok D /\ is_derive (fun x => eval (val (upd q wrt x)) (items P)) (q wrt) (eval (val q) (items D))) ->
  q "k"%string <> 0 -> derives (scal poly p2nD) wrt q (dscal poly dp p2nD (full q) wrt).
Proof.
  intros -> W H (D & ED & WD) (D' & ED' & Hd) Hk. assert (D' = D) by congruence. subst D'.
  assert (G : forall P' q', allk S (items P') -> q' "k"%string <> 0 -> p2nD P' (full q') = Ok (eval (val q') (items P'))).
  { intros P' q' W' Hk'. destruct (H P' W') as (_ & H2). destruct (H2 (full q') q') as (_ & H3); [intros s _; reflexivity|exact Logic.I|].
    apply H3. intros (r & k & c & _ & _ & h & _). contradiction. }
  exists (fun x => eval (val (upd q wrt x)) (items P)), (eval (val q) (items D)). split; [|split; [exact Hd|]].
  - intros x Hx. unfold scal. cbn [bind]. now apply G.
  - unfold dscal. cbn [bind]. rewrite ED. cbn [bind]. now apply G.
Qed.
Theorem C58_1fsv_is_derivative : forall wrt l l1 l2 q, In wrt n1 -> (0 <= l)%Z -> (0 <= l1)%Z -> (0 <= l2)%Z -> q "k"%string <> 0 ->
  derives (m_1fsv_d l) wrt q (dm_1fsv_d l (full q) wrt) /\
  derives (cm_1fsv_d l) wrt q (dcm_1fsv_d l (full q) wrt) /\
  derives (cov_1fsv_d l1 l2) wrt q (dcov_1fsv_d l1 l2 (full q) wrt).
Proof.
  intros wrt l l1 l2 q Hw Hl H1 H2 Hk. split; [|split].
  - destruct (moment_y_wfe l Hl) as (P & E & W). exact (derives_sp _ P dpoly_m1 p2n_m1 val8 ns_m1 wrt q wf_m1 E W any_m1 (d_m1 P wrt Hw W) (der_m1 P wrt q Hw Hk W) Hk).
  - destruct (cmoment_y_wfe l Hl) as (P & E & W). exact (derives_sp _ P dpoly_cm1 p2n_cm1 val7 ns_cm1 wrt q wf_cm1 E W any_cm1 (d_cm1 P wrt Hw W) (der_cm1 P wrt q Hw Hk W) Hk).
  - destruct (cov_yy_wfe l1 l2 H1 H2) as (P & E & W). exact (derives_sp _ P dpoly_m1 p2n_m1 val8 ns_m1 wrt q wf_m1 E W any_m1 (d_m1 P wrt Hw W) (der_m1 P wrt q Hw Hk W) Hk).
Qed.
Theorem C58_1fsvj_is_derivative : forall wrt l l1 l2 q, In wrt nj -> (0 <= l)%Z -> (0 <= l1)%Z -> (0 <= l2)%Z -> q "k"%string <> 0 ->
  derives (m_1fsvj_d l) wrt q (dm_1fsvj_d l (full q) wrt) /\
  derives (cm_1fsvj_d l) wrt q (dcm_1fsvj_d l (full q) wrt) /\
  derives (cov_1fsvj_d l1 l2) wrt q (dcov_1fsvj_d l1 l2 (full q) wrt).
Proof.
  intros wrt l l1 l2 q Hw Hl H1 H2 Hk. split; [|split].
  - destruct (jmoment_y_wfe l Hl) as (P & E & W). exact (derives_sp _ P dpoly_mj p2n_mj val11 ns_mj wrt q wf_mj E W any_mj (d_mj P wrt Hw W) (der_mj P wrt q Hw Hk W) Hk).
  - destruct (jcmoment_y_wfe l Hl) as (P & E & W). exact (derives_sp _ P dpoly_cmj p2n_cmj val10 ns_cmj wrt q wf_cmj E W any_cmj (d_cmj P wrt Hw W) (der_cmj P wrt q Hw Hk W) Hk).
  - destruct (jcov_yy_wfe l1 l2 H1 H2) as (P & E & W). exact (derives_sp _ P dpoly_mj p2n_mj val11 ns_mj wrt q wf_mj E W any_mj (d_mj P wrt Hw W) (der_mj P wrt q Hw Hk W) Hk).
Qed.

(** rho = 2: a value and a derivative; the exponent 1 of sqrt(1-rho^2) would have been a complex number *)
Definition q2 (s : string) : R := if String.eqb s "rho" then 2 else 1.
Example C58_ex_value : exists x, cm_1fsv_d 2 (full q2) = Ok x /\ m_1fsvj_d 2 (full q2) <> Err ComplexResult.
Proof.
  destruct (C58_1fsv 2 1 1 ltac:(lia) ltac:(lia) ltac:(lia)) as (_ & (_ & H) & _).
  destruct (C58_1fsvj 2 1 1 ltac:(lia) ltac:(lia) ltac:(lia)) as ((_ & H') & _).
  assert (U : forall p, ~ undef_poly neg_k p q2) by (intro p; apply C54_k_nonzero; cbn; lra).
  destruct (H (full q2) q2) as (_ & H2); [intros s _; reflexivity|exact Logic.I|].
  destruct (H' (full q2) q2) as (_ & H3); [intros s _; reflexivity|exact Logic.I|].
  destruct (cmoment_y_wfe 2 ltac:(lia)) as (P & E & _). destruct (jmoment_y_wfe 2 ltac:(lia)) as (P' & E' & _).
  rewrite H2, H3 by apply U. rewrite E, E'. cbn [bind]. eexists. split; [reflexivity|discriminate].
Qed.
Example C58_ex_derivative : derives (cm_1fsv_d 3) "rho" q2 (dcm_1fsv_d 3 (full q2) "rho").
Proof. apply (C58_1fsv_is_derivative "rho" 3 1 1 q2); [cbn; tauto|lia|lia|lia|cbn; lra]. Qed.
(** an odd power of sqrt(1-rho^2) would give a complex number *)
Example C58_ex_odd : p2n_m1 (mkPoly [([0; 0; 0; 0; 0; 0; 0; 1]%Z, 1%Q)] kf_m1) (full q2) = Err ComplexResult.
Proof.
  unfold p2n_m1, p2n_loop, full, dget. cbn [items foldM bind fst snd]. unfold q2. cbn [String.eqb Ascii.eqb Bool.eqb bind].
  unfold nthZ. cbn [nth pows Z.opp]. rewrite !pypow_ok by (right; lia). cbn [bind]. unfold halfpow. cbn [Z.even].
  destruct (Rlt_dec (1 - 2 ^ 2) 0) as [_|h]; [reflexivity|exfalso; apply h; lra].
Qed.
