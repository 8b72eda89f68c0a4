(** From the parities of the exponents to the values. *)
From Coq Require Import Lra.
From Verif.Proof Require Import Parity Parity2 TimeUnitV.
From Verif.Proof Require Import DpolyProofs.
From Verif.Spec Require Export Signs.
From Verif.Model Require Export Scalar.
Local Open Scope Z_scope.

Definition sdim (ns : list string) (s : string) : Z := if is_in s ns then 1 else 0.
(** the parameters, by the weights *)
Notation n_w := ["sigma_v"; "rho"]%string.
Notation n_j := ["sigma_j"]%string.
Notation n_1 := ["sigma_v1"]%string.
Notation n_2 := ["sigma_v2"]%string.

Lemma d_loop_sup rules kf p (P P' : list Z -> Prop) : sup P p ->
  (forall k (r : rule), P k -> In r rules -> P' (snd r k)) -> sup P' (d_loop rules kf p).
Proof.
  intros hp hr. unfold d_loop, sup. cbn [items]. apply fold_left_inv; [|apply supp_nil]. intros s [k v] Hin Hs. cbn [fst snd].
  apply fold_left_inv; [|exact Hs]. intros s' r Hr Hs'.
  destruct (fst r k =? 0); [exact Hs'|]. apply supp_add_kv; [exact Hs'|]. intro Hnz. apply qmul_nz in Hnz. apply hr; [|exact Hr]. apply (hp k v Hin), Hnz.
Qed.
Ltac sdr hp := apply (d_loop_sup _ _ _ _ _ hp); let k := fresh in let r := fresh in let h := fresh in let Hr := fresh in
  intros k r h Hr; repeat (destruct Hr as [<-|Hr]; [hom2s; cbn [snd addat]; split; [reflexivity|
     match goal with |- context [sdim ?n ?s] => let v := eval compute in (sdim n s) in change (sdim n s) with v end; cbn [deg]; mod2]|]); destruct Hr.
Ltac sdp f := unfold f; repeat (dl; [cbn [oks]; first [apply sup_nil|match goal with hp : sup _ _ |- _ => sdr hp end]|]); exact Logic.I.
Lemma dpoly_m1_par p wrt : sup (hom2 q_8 0) p -> oks (dpoly_m1 p wrt) (sup (hom2 q_8 (sdim n_w wrt))).
Proof. intro hp. sdp dpoly_m1. Qed.
Lemma dpoly_cm1_par p wrt : sup (hom2 q_c7 0) p -> oks (dpoly_cm1 p wrt) (sup (hom2 q_c7 (sdim n_w wrt))).
Proof. intro hp. sdp dpoly_cm1. Qed.
Notation r_j11 u uj := [0; 0; 0; 0; 0; u; u; 0; 0; 0; uj].
Notation r_j10 u uj := [0; 0; 0; 0; u; u; 0; 0; 0; uj].
Lemma dpoly_mj_parw p wrt : sup (hom2 (r_j11 1 0) 0) p -> oks (dpoly_mj p wrt) (sup (hom2 (r_j11 1 0) (sdim n_w wrt))).
Proof. intro hp. sdp dpoly_mj. Qed.
Lemma dpoly_mj_parj p wrt : sup (hom2 (r_j11 0 1) 0) p -> oks (dpoly_mj p wrt) (sup (hom2 (r_j11 0 1) (sdim n_j wrt))).
Proof. intro hp. sdp dpoly_mj. Qed.
Lemma dpoly_cmj_parw p wrt : sup (hom2 (r_j10 1 0) 0) p -> oks (dpoly_cmj p wrt) (sup (hom2 (r_j10 1 0) (sdim n_w wrt))).
Proof. intro hp. sdp dpoly_cmj. Qed.
Lemma dpoly_cmj_parj p wrt : sup (hom2 (r_j10 0 1) 0) p -> oks (dpoly_cmj p wrt) (sup (hom2 (r_j10 0 1) (sdim n_j wrt))).
Proof. intro hp. sdp dpoly_cmj. Qed.

(** two factors *)
Lemma d2_k_par w wrt kf p : allp (fpar (0 :: w) 0) p -> oks (d2_k wrt kf p) (allp (fpar (0 :: w) 0)).
Proof.
  intro hp. unfold d2_k. eapply oks_bind with (P := allk (fpar (0 :: w) 0)).
  - apply oks_foldM; [|apply allk_nil]. intros s [[t0 t1x] v] Hin Hs. cbn [fst snd].
    pose proof (allk_in _ _ _ _ hp Hin) as D. apply oks_bind0. intro l.
    cbn [oks]. apply allk_fold_kv; [exact Hs|]. intros [d z] Hd. exact D.
  - intros a Ha. cbv zeta. cbn [oks]. unfold allp. cbn [items]. apply fold_left_inv; [|exact Ha]. intros s [[t0 [[n1 n2] x]] v] Hin Hs. cbn [fst snd].
    pose proof (allk_in _ _ _ _ hp Hin) as D. match goal with |- context [if ?z =? 0 then _ else _] => destruct (z =? 0) end; [exact Hs|].
    apply allk_add_kv; [exact Hs|]. unfold fpar in *. cbn [fst snd] in *. destruct D as [L E].
    destruct x as [|x0 x]; [discriminate L|]. cbn [addat]. split; [exact L|]. cbn [deg] in *. exact E.
Qed.
Lemma d2_plain_par w i kf p : allp (fpar w 0) p -> oks (d2_plain i kf p) (allp (fpar w (- nthZ w i))).
Proof.
  intro hp. unfold d2_plain, oks, allp. cbn [items]. apply fold_left_inv; [|apply allk_nil]. intros s [[t0 [t1 x]] v] Hin Hs. cbn [fst snd].
  pose proof (allk_in _ _ _ _ hp Hin) as D. destruct (nthZ x i =? 0); [exact Hs|].
  apply allk_add_kv; [exact Hs|]. unfold fpar in *. cbn [fst snd] in *. destruct D as [L E].
  split; [now rewrite addat_len|]. rewrite deg_addat by exact L. mod2.
Qed.
Lemma k12_sdim ns wrt : is_in "k1" ns = false -> is_in "k2" ns = false -> ((wrt =? "k1") || (wrt =? "k2"))%string%bool = true -> sdim ns wrt = 0.
Proof. intros N1 N2 E. apply Bool.orb_true_iff in E. unfold sdim. destruct E as [E|E]; apply String.eqb_eq in E; subst; [now rewrite N1|now rewrite N2]. Qed.
Ltac s2k := match goal with |- oks (if (?s =? "k1")%string || ?b then _ else _) (allp (fpar _ (sdim ?ns _))) => let E := fresh "E" in destruct ((s =? "k1")%string || b)%bool eqn:E;
  [rewrite (k12_sdim ns _ eq_refl eq_refl E); match goal with hp : allp _ _ |- _ => apply d2_k_par, hp end|clear E] end.
Lemma oks_fpar w d d' r : (d - d') mod 2 = 0 -> oks r (allp (fpar w d)) -> oks r (allp (fpar w d')).
Proof. intros E h. eapply oks_weaken; [exact h|]. intros p. now apply fpar_mod. Qed.
Ltac s2p := match goal with hp : allp (fpar ?w 0) _ |- oks (if ?b then _ else _) _ => dl;
  [first [solve [eapply oks_fpar; [|exact (d2_plain_par _ _ _ _ hp)]; reflexivity]|cbn [oks]; intros ? []]|] end.
Ltac s2 f := let hp := fresh in intro hp; unfold f; repeat first [s2k|s2p]; exact Logic.I.
Notation p_8 u1 u2 := [0; 0; 0; u1; 0; u2].
Notation p_7 u1 u2 := [0; 0; u1; 0; u2].
Notation p_11 u1 u2 uj := [0; 0; 0; u1; 0; u2; 0; 0; uj].
Notation p_c10 u1 u2 uj := [0; 0; u1; 0; u2; 0; 0; uj].
Lemma dpoly2_m_par1 p wrt : allp (fpar (p_8 1 0) 0) p -> oks (dpoly2_m p wrt) (allp (fpar (p_8 1 0) (sdim n_1 wrt))).
Proof. s2 dpoly2_m. Qed.
Lemma dpoly2_m_par2 p wrt : allp (fpar (p_8 0 1) 0) p -> oks (dpoly2_m p wrt) (allp (fpar (p_8 0 1) (sdim n_2 wrt))).
Proof. s2 dpoly2_m. Qed.
Lemma dpoly2_cm_par1 p wrt : allp (fpar (p_7 1 0) 0) p -> oks (dpoly2_cm p wrt) (allp (fpar (p_7 1 0) (sdim n_1 wrt))).
Proof. s2 dpoly2_cm. Qed.
Lemma dpoly2_cm_par2 p wrt : allp (fpar (p_7 0 1) 0) p -> oks (dpoly2_cm p wrt) (allp (fpar (p_7 0 1) (sdim n_2 wrt))).
Proof. s2 dpoly2_cm. Qed.
Lemma dpoly2_mj_par1 p wrt : allp (fpar (p_11 1 0 0) 0) p -> oks (dpoly2_mj p wrt) (allp (fpar (p_11 1 0 0) (sdim n_1 wrt))).
Proof. s2 dpoly2_mj. Qed.
Lemma dpoly2_mj_par2 p wrt : allp (fpar (p_11 0 1 0) 0) p -> oks (dpoly2_mj p wrt) (allp (fpar (p_11 0 1 0) (sdim n_2 wrt))).
Proof. s2 dpoly2_mj. Qed.
Lemma dpoly2_mj_parj p wrt : allp (fpar (p_11 0 0 1) 0) p -> oks (dpoly2_mj p wrt) (allp (fpar (p_11 0 0 1) (sdim n_j wrt))).
Proof. s2 dpoly2_mj. Qed.
Lemma dpoly2_cmj_par1 p wrt : allp (fpar (p_c10 1 0 0) 0) p -> oks (dpoly2_cmj p wrt) (allp (fpar (p_c10 1 0 0) (sdim n_1 wrt))).
Proof. s2 dpoly2_cmj. Qed.
Lemma dpoly2_cmj_par2 p wrt : allp (fpar (p_c10 0 1 0) 0) p -> oks (dpoly2_cmj p wrt) (allp (fpar (p_c10 0 1 0) (sdim n_2 wrt))).
Proof. s2 dpoly2_cmj. Qed.
Lemma dpoly2_cmj_parj p wrt : allp (fpar (p_c10 0 0 1) 0) p -> oks (dpoly2_cmj p wrt) (allp (fpar (p_c10 0 0 1) (sdim n_j wrt))).
Proof. s2 dpoly2_cmj. Qed.

(** ** values *)
Local Open Scope R_scope.
Lemma pz_neg x n : powerRZ (- x) n = powerRZ (-1) n * powerRZ x n.
Proof. replace (- x) with ((-1) * x) by ring. apply powerRZ_mult. Qed.
Lemma m1_even n : (n mod 2 = 0)%Z -> powerRZ (-1) n = 1.
Proof.
  intro E. assert (H : n = (2 * (n / 2))%Z) by (Z.div_mod_to_equations; lia). rewrite H. generalize (n / 2)%Z. intro m.
  replace (2 * m)%Z with (m + m)%Z by lia. rewrite powerRZ_add by lra. rewrite <- powerRZ_mult.
  replace (-1 * -1) with 1 by ring. now rewrite powerRZ_R1.
Qed.
Lemma m1_par a d : ((a - d) mod 2 = 0)%Z -> powerRZ (-1) d = powerRZ (-1) a.
Proof. intro E. replace a with ((a - d) + d)%Z by lia. rewrite powerRZ_add by lra. rewrite (m1_even _ E). ring. Qed.
Ltac fl ns par := repeat match goal with |- context [flip ns par ?s] =>
    first [change (flip ns par s) with (- par s) | change (flip ns par s) with (par s)] end.
Lemma sq_neg r : 1 - (- r) ^ 2 = 1 - r ^ 2.
Proof. ring. Qed.
Ltac zc := repeat match goal with
  | |- context [powerRZ (-1) (0 * ?z)] => change (0 * z)%Z with 0%Z
  | |- context [powerRZ (-1) (1 * ?z)] => replace (1 * z)%Z with z by lia
  end; rewrite ?powerRZ_O; ring.
Ltac v2n ns par d := cbv zeta; rewrite !fold_sum, !Rplus_0_l; apply sumR_scale; intros [k v] Hin; cbn [fst snd];
  destruct (Qeq_dec v 0) as [Ev|Nv]; [rewrite (proj1 (Q2R_eq0 v) Ev); ring|];
  match goal with hp : sup (hom2 _ d) _ |- _ => pose proof (hp _ _ Hin Nv) as D end;
  hom2s; unfold pint, nthZ; cbn [nth]; fl ns par; rewrite ?sq_neg, ?pz_neg;
  match goal with E : ((_ - d) mod 2 = 0)%Z |- _ => rewrite (m1_par _ _ E); clear E end; rewrite !powerRZ_add by lra; zc.
Lemma v2n_m1 par p d : sup (hom2 q_8 d) p -> poly2num_m1 p (flip n_w par) = powerRZ (-1) d * poly2num_m1 p par.
Proof. intros. unfold poly2num_m1. v2n constr:(n_w) par d. Qed.
Lemma v2n_cm1 par p d : sup (hom2 q_c7 d) p -> poly2num_cm1 p (flip n_w par) = powerRZ (-1) d * poly2num_cm1 p par.
Proof. intros. unfold poly2num_cm1. v2n constr:(n_w) par d. Qed.
Lemma v2n_mjw par p d : sup (hom2 (r_j11 1 0)%Z d) p -> poly2num_mj p (flip n_w par) = powerRZ (-1) d * poly2num_mj p par.
Proof. intros. unfold poly2num_mj. v2n constr:(n_w) par d. Qed.
Lemma v2n_mjj par p d : sup (hom2 (r_j11 0 1)%Z d) p -> poly2num_mj p (flip n_j par) = powerRZ (-1) d * poly2num_mj p par.
Proof. intros. unfold poly2num_mj. v2n constr:(n_j) par d. Qed.
Lemma v2n_cmjw par p d : sup (hom2 (r_j10 1 0)%Z d) p -> poly2num_cmj p (flip n_w par) = powerRZ (-1) d * poly2num_cmj p par.
Proof. intros. unfold poly2num_cmj. v2n constr:(n_w) par d. Qed.
Lemma v2n_cmjj par p d : sup (hom2 (r_j10 0 1)%Z d) p -> poly2num_cmj p (flip n_j par) = powerRZ (-1) d * poly2num_cmj p par.
Proof. intros. unfold poly2num_cmj. v2n constr:(n_j) par d. Qed.
Ltac v2n2 ns par d := cbv zeta; rewrite !fold_sum, !Rplus_0_l; apply sumR_scale; intros [[t0 [[n1 n2] x]] v] Hin;
  match goal with hp : allp (fpar _ d) _ |- _ => pose proof (allk_in _ _ _ _ hp Hin) as D end; clear Hin;
  unfold fpar in *; cbn [fst snd] in *; hom2s; unfold kint; cbn [fst snd]; fl ns par;
  match goal with |- context [p2n_head ?a ?b ?e ?f] => generalize (p2n_head a b e f); intro end; unfold nthZ; cbn [nth];
  rewrite ?pz_neg; match goal with E : ((_ - d) mod 2 = 0)%Z |- _ => rewrite (m1_par _ _ E); clear E end; rewrite !powerRZ_add by lra; zc.
Lemma v2n2_m1 par p d : allp (fpar (p_8 1 0)%Z d) p -> poly2num2_m p (flip n_1 par) = powerRZ (-1) d * poly2num2_m p par.
Proof. intros. unfold poly2num2_m. v2n2 constr:(n_1) par d. Qed.
Lemma v2n2_m2 par p d : allp (fpar (p_8 0 1)%Z d) p -> poly2num2_m p (flip n_2 par) = powerRZ (-1) d * poly2num2_m p par.
Proof. intros. unfold poly2num2_m. v2n2 constr:(n_2) par d. Qed.
Lemma v2n2_cm1 par p d : allp (fpar (p_7 1 0)%Z d) p -> poly2num2_cm p (flip n_1 par) = powerRZ (-1) d * poly2num2_cm p par.
Proof. intros. unfold poly2num2_cm. v2n2 constr:(n_1) par d. Qed.
Lemma v2n2_cm2 par p d : allp (fpar (p_7 0 1)%Z d) p -> poly2num2_cm p (flip n_2 par) = powerRZ (-1) d * poly2num2_cm p par.
Proof. intros. unfold poly2num2_cm. v2n2 constr:(n_2) par d. Qed.
Lemma v2n2_mj1 par p d : allp (fpar (p_11 1 0 0)%Z d) p -> poly2num2_mj p (flip n_1 par) = powerRZ (-1) d * poly2num2_mj p par.
Proof. intros. unfold poly2num2_mj. v2n2 constr:(n_1) par d. Qed.
Lemma v2n2_mj2 par p d : allp (fpar (p_11 0 1 0)%Z d) p -> poly2num2_mj p (flip n_2 par) = powerRZ (-1) d * poly2num2_mj p par.
Proof. intros. unfold poly2num2_mj. v2n2 constr:(n_2) par d. Qed.
Lemma v2n2_mjj par p d : allp (fpar (p_11 0 0 1)%Z d) p -> poly2num2_mj p (flip n_j par) = powerRZ (-1) d * poly2num2_mj p par.
Proof. intros. unfold poly2num2_mj. v2n2 constr:(n_j) par d. Qed.
Lemma v2n2_cmj1 par p d : allp (fpar (p_c10 1 0 0)%Z d) p -> poly2num2_cmj p (flip n_1 par) = powerRZ (-1) d * poly2num2_cmj p par.
Proof. intros. unfold poly2num2_cmj. v2n2 constr:(n_1) par d. Qed.
Lemma v2n2_cmj2 par p d : allp (fpar (p_c10 0 1 0)%Z d) p -> poly2num2_cmj p (flip n_2 par) = powerRZ (-1) d * poly2num2_cmj p par.
Proof. intros. unfold poly2num2_cmj. v2n2 constr:(n_2) par d. Qed.
Lemma v2n2_cmjj par p d : allp (fpar (p_c10 0 0 1)%Z d) p -> poly2num2_cmj p (flip n_j par) = powerRZ (-1) d * poly2num2_cmj p par.
Proof. intros. unfold poly2num2_cmj. v2n2 constr:(n_j) par d. Qed.

(** ** the scalar functions *)
Section Scal.
Context {K : Type} `{Key K}.
Variables (ns : list string) (P : Z -> Poly K -> Prop) (p2n : Poly K -> (string -> R) -> R) (dp : Poly K -> string -> res (Poly K)).
Hypothesis Hp2n : forall par p d, P d p -> p2n p (flip ns par) = powerRZ (-1) d * p2n p par.
Hypothesis Hdp : forall p wrt, P 0%Z p -> oks (dp p wrt) (P (sdim ns wrt)).
Lemma even_scal r : oks r (P 0%Z) -> even_in ns (scalar r p2n) (dscalar r dp p2n).
Proof.
  intros hr par. split.
  - unfold scalar. destruct r as [p|]; [|reflexivity]. cbn [bind oks] in *. rewrite (Hp2n par p 0%Z hr). simpl. now rewrite Rmult_1_l.
  - intro wrt. unfold dscalar. destruct r as [p|]; [|reflexivity]. cbn [bind oks] in *.
    pose proof (Hdp p wrt hr) as hd. destruct (dp p wrt) as [q|]; [|reflexivity]. cbn [bind oks rmap] in *.
    rewrite (Hp2n par q _ hd). unfold sdim. destruct (is_in wrt ns); simpl; f_equal; ring.
Qed.
End Scal.
