(** Property C47: the scalar functions of mdl_srjd and mdl_svcj return the true moments. *)
From Coq Require Import Reals Lra.
From Coquelicot Require Import Coquelicot.
From Verif.Spec Require Import Sums Srjd JumpPath SrjdPath Svcj.
From Verif.Model Require Import Decode.
From Verif.Proof Require Import KeyInv MonTac SrjdIezProofs SrjdCondProofs SrjdCondV SvcjIezProofs SvcjIezTable SvcjMomProofs SvcjStatProofs DecodeProofs.
From Verif.Props Require Import PropsSrjd PropsSrjdCond PropsSrjdCond2 PropsSrjdStat PropsSvcj PropsSvcjCond PropsSvcjMom.
Local Open Scope R_scope.

(** the dict holds the parameters of the square-root jump diffusion and the time h *)
Definition srjd_dict (par : dict) (p : srjd) (h : R) : Prop :=
  par "v0"%string = Some (sv0 p) /\ par "k"%string = Some (sk p) /\ par "theta"%string = Some (sth p) /\
  par "sigma"%string = Some (ssg p) /\ par "lmbd"%string = Some (slam p) /\ par "mu_v"%string = Some (smu p) /\ par "h"%string = Some h.

Lemma scal_ok r p2n par q (vals : list R) s : r = Ok q -> allk (wfs s) (items q) ->
  (forall p, allk (wfs s) (items p) -> p2n p par = Ok (eval (monx vals) (items p))) ->
  scal r p2n par = Ok (eval (monx vals) (items q)).
Proof. intros -> A H. unfold scal. cbn [bind]. now apply H. Qed.
Lemma dict_has par p h : srjd_dict par p h ->
  has par [("v0", sv0 p); ("k", sk p); ("theta", sth p); ("sigma", ssg p); ("lmbd", slam p); ("mu_v", smu p); ("h", h)]%string.
Proof. intros (h1 & h2 & h3 & h4 & h5 & h6 & h7). repeat constructor; assumption. Qed.
Lemma ie_eval par p h q : srjd_dict par p h -> sk p <> 0 -> allk (wfs [false; true; true; true; true; true; true]) (items q) ->
  p2n_ie q par = Ok (eval (monx (ie_vals p h)) (items q)).
Proof. intros H Hk A. destruct p. exact (p2n_ie_eval par q _ _ _ _ _ _ _ Hk (dict_has _ _ _ H) A). Qed.
Lemma cie_eval par p h q : srjd_dict par p h -> sk p <> 0 -> allk (wfs [false; true; true; true; true; true; true]) (items q) ->
  p2n_cie q par = Ok (eval (monx (cie_vals p h)) (items q)).
Proof. intros H Hk A. destruct p. exact (p2n_cie_eval par q _ _ _ _ _ _ _ Hk (dict_has _ _ _ H) A). Qed.
Lemma P7_free k : P7 k -> wfs [false; true; true; true; true; true; true] k.
Proof. unfold P7. intro H. wfs_destruct. cbn. tauto. Qed.
Lemma P7d_free d k : P7d d k -> wfs [false; true; true; true; true; true; true] k.
Proof. intros [H _]. now apply P7_free. Qed.

(** ** the variance and IE, IEZ given v_0 *)
Theorem C47_srjd_cond : forall n p h Om (E : (Om -> R) -> R) IE IEZ (par : dict), (0 <= n)%Z ->
  sk p <> 0 -> 0 <= h -> expectation E -> has_moments p h E IE IEZ n -> srjd_dict par p h ->
  let x w := ssg p * IE w + IEZ w in
  let v w := v_of p h (IE w) (IEZ w) in
  srjd_m_x n par = Ok (E (fun w => x w ^ Z.to_nat n)) /\
  srjd_m n par = Ok (E (fun w => v w ^ Z.to_nat n)) /\
  srjd_cm_x n par = Ok (E (fun w => (x w - E x) ^ Z.to_nat n)) /\
  srjd_cm n par = Ok (E (fun w => (v w - E v) ^ Z.to_nat n)).
Proof.
  intros n p h Om E IE IEZ par Hn Hk Hh HE HM HD x v. split; [|split; [|split]].
  - destruct (C30_moment_x n Hn) as (q & Eq & _ & V). unfold x. rewrite <- (V p h Om E IE IEZ Hk Hh HE HM).
    destruct (returns_inv _ _ (moment_x_spec n Hn)) as (q' & Eq' & W & _). assert (q' = q) by congruence. subst q'.
    refine (scal_ok _ _ _ q _ _ Eq (allk_weaken _ _ _ (proj2 (proj2 W)) P7_free) _). intros; now apply ie_eval.
  - destruct (C30_moment_v n Hn) as (q & Eq & _ & V). unfold v. rewrite <- (V p h Om E IE IEZ Hk Hh HE HM).
    destruct (returns_inv _ _ (cond_moment_v_spec n Hn)) as (q' & Eq' & W & _). assert (q' = q) by congruence. subst q'.
    refine (scal_ok _ _ _ q _ _ Eq (proj2 (proj2 W)) _). intros; now apply ie_eval.
  - destruct (C30_cmoment_x n Hn) as (q & Eq & _ & V). unfold x. rewrite <- (V p h Om E IE IEZ Hk Hh HE HM).
    destruct (returns_inv _ _ (cmoment_x_spec n Hn)) as (q' & Eq' & W & _). assert (q' = q) by congruence. subst q'.
    refine (scal_ok _ _ _ q _ _ Eq (allk_weaken _ _ _ (proj2 (proj2 W)) P7_free) _). intros; now apply ie_eval.
  - destruct (C30_cmoment_v n Hn) as (q & Eq & _ & V). unfold v. rewrite <- (V p h Om E IE IEZ Hk Hh HE HM).
    destruct (returns_inv _ _ (cond_cmoment_v_spec n Hn)) as (q' & Eq' & W & _). assert (q' = q) by congruence. subst q'.
    refine (scal_ok _ _ _ q _ _ Eq (proj2 (proj2 W)) _). intros; now apply ie_eval.
Qed.

Theorem C47_srjd_ie_iez : forall n1 n2 p h Om (E : (Om -> R) -> R) IE IEZ (par : dict), (0 <= n1)%Z -> (0 <= n2)%Z ->
  sk p <> 0 -> 0 <= h -> expectation E -> has_moments p h E IE IEZ (n1 + n2) -> srjd_dict par p h ->
  srjd_m_ie n1 par = Ok (E (fun w => IE w ^ Z.to_nat n1)) /\
  srjd_m_ie_iez n1 n2 par = Ok (E (fun w => IE w ^ Z.to_nat n1 * IEZ w ^ Z.to_nat n2)) /\
  srjd_c_m_ie n1 par = Ok (E (fun w => IE w ^ Z.to_nat n1)) /\
  srjd_cm_ie_iez n1 n2 par = Ok (E (fun w => IE w ^ Z.to_nat n1 * (IEZ w - E IEZ) ^ Z.to_nat n2)).
Proof.
  intros n1 n2 p h Om E IE IEZ par H1 H2 Hk Hh HE (M & HM & HV) HD.
  assert (E1 : E (fun w => IE w ^ Z.to_nat n1) = M (n1, 0)%Z h).
  { rewrite <- HV by lia. apply (E_ext E HE). intro w. cbn. ring. }
  split; [|split; [|split]].
  - destruct (C30_moment_ie n1 H1) as (q & Eq & V). rewrite E1, <- (V p M h Hk HM Hh).
    destruct (returns_inv _ _ (moment_ie_spec n1 H1)) as (q' & Eq' & (_ & W & _)). assert (q' = q) by congruence. subst q'.
    refine (scal_ok _ _ _ q _ _ Eq (allk_weaken _ _ _ W (P7d_free _)) _). intros; now apply ie_eval.
  - destruct (C30_moment_ie_iez n1 n2 H1 H2) as (q & Eq & _ & V). rewrite HV by lia. rewrite <- (V p M h Hk HM Hh).
    destruct (returns_inv _ _ (moment_ie_iez_spec n1 n2 H1 H2)) as (q' & Eq' & (_ & W & _)). assert (q' = q) by congruence. subst q'.
    refine (scal_ok _ _ _ q _ _ Eq (allk_weaken _ _ _ W (P7d_free _)) _). intros; now apply ie_eval.
  - destruct (C30_cmoment_expectation n1 0 H1 ltac:(lia)) as (q & Eq & V).
    assert (e : E (fun w => IE w ^ Z.to_nat n1) = E (fun w => IE w ^ Z.to_nat n1 * (IEZ w - E IEZ) ^ Z.to_nat 0)).
    { apply (E_ext E HE). intro w. cbn. ring. }
    rewrite e, <- (V p M h Om E IE IEZ Hk HM Hh HE) by (intros; apply HV; lia).
    destruct (returns_inv _ _ (cmoment_ie_iez_spec n1 0 H1 ltac:(lia))) as (q' & Eq' & (_ & _ & V' & _)). assert (q' = q) by congruence. subst q'.
    destruct (returns_inv _ _ (cmoment_ie_spec n1 H1)) as (r & Er & (_ & W & Vr & _)).
    transitivity (Ok (eval (monx (cie_vals p h)) (items r))).
    + refine (scal_ok _ _ _ r _ _ Er (allk_weaken _ _ _ W (P7d_free _)) _). intros; now apply cie_eval.
    + f_equal. transitivity (JM 2 (cen_cv p Hk) (n1, 0)%Z h); [exact (Vr (cen_cv p Hk) h)|symmetry; exact (V' (cen_cv p Hk) h)].
  - destruct (C30_cmoment_expectation n1 n2 H1 H2) as (q & Eq & V).
    rewrite <- (V p M h Om E IE IEZ Hk HM Hh HE) by (intros; apply HV; lia).
    destruct (returns_inv _ _ (cmoment_ie_iez_spec n1 n2 H1 H2)) as (q' & Eq' & (_ & W & _)). assert (q' = q) by congruence. subst q'.
    refine (scal_ok _ _ _ q _ _ Eq (allk_weaken _ _ _ W (P7d_free _)) _). intros; now apply cie_eval.
Qed.

(** ** IEZ over [lb, ub] *)
Theorem C47_iez : forall n k lam mu s t (par : dict), (0 <= n)%Z -> k <> 0 ->
  par "k"%string = Some k -> par "lmbd"%string = Some lam -> par "mu_v"%string = Some mu ->
  par "lb"%string = Some s -> par "ub"%string = Some t ->
  iez_m n par = Ok (Derive_n (mgf_iez k lam mu s t) (Z.to_nat n) 0).
Proof.
  intros n k lam mu s t par Hn Hk h1 h2 h3 h4 h5.
  destruct (C29_moment_IEZ n Hn) as (q & Eq & _ & V). rewrite <- V by assumption.
  destruct (returns_inv _ _ (moment_IEZ_spec n Hn)) as (q' & Eq' & W & _). assert (q' = q) by congruence. subst q'.
  refine (scal_ok _ _ _ q _ _ Eq (proj2 (proj2 W)) _). intros r A. apply p2n_iez_eval; [assumption| |exact A].
  repeat constructor; assumption.
Qed.
(** iez_cmom.cm never returns: poly2num is called without the parameters *)
Theorem C47_iez_cm_refuted : forall n par, (0 <= n)%Z -> iez_cm n par = Err TypeError.
Proof.
  intros n par Hn. unfold iez_cm. destruct (returns_inv _ _ (cmoment_IEZ_spec n Hn)) as (q & Eq & _). now rewrite Eq.
Qed.

(** ** the variance given v_0 and the jumps *)
Theorem C47_srjd_cond2 : forall m p (z : list (R * R)) M t Om (E : (Om -> R) -> R) (IE : Om -> R), (0 <= m)%Z ->
  zpk p <> 0 -> jumps_ok z -> (forall sj, In sj z -> fst sj <= t) -> cond_moments p z M -> 0 <= t -> expectation E ->
  (forall n, (0 <= n <= m)%Z -> E (fun w => pw (IE w) n) = M (n, 0, 0)%Z t) ->
  let v w := v_given p z t + zpsg p * exp (- (zpk p * t)) * IE w in
  srjd_m2 m (zpv p) (zpk p) (zpth p) (zpsg p) t (map fst z) (map snd z) = Ok (E (fun w => pw (v w) m)) /\
  srjd_cm2 m (zpv p) (zpk p) (zpth p) (zpsg p) t (map fst z) (map snd z) = Ok (E (fun w => pw (v w - E v) m)).
Proof.
  intros m p z M t Om E IE Hm Hk Hz Hzt HM Ht HE HI v. split.
  - destruct (returns_inv _ _ (C42_moment_v m Hm)) as (q & Eq & _ & _ & A & V). unfold srjd_m2. rewrite Eq. cbn [bind].
    rewrite C42_poly2num by assumption. f_equal. destruct p. exact (V _ z M t Om E IE Hk Hz HM Ht HE HI).
  - destruct (returns_inv _ _ (C42_cmoment_v m Hm)) as (q & Eq & _ & _ & A & V). unfold srjd_cm2. rewrite Eq. cbn [bind].
    rewrite C42_poly2num by assumption. f_equal. destruct p. exact (V _ z M t Om E IE Hk Hz HM Ht HE HI).
Qed.

(** ** mdl_svcj *)
Definition svcj_dict (par : dict) (p : svcj) (h : R) : Prop :=
  par "v0"%string = Some (jv0 p) /\ par "k"%string = Some (Svcj.jk p) /\ par "theta"%string = Some (jth p) /\
  par "sigma"%string = Some (jsg p) /\ par "lmbd"%string = Some (jlam p) /\ par "mu_v"%string = Some (jmv p) /\
  par "mu_s"%string = Some (jms p) /\ par "sigma_s"%string = Some (jss p) /\ par "h"%string = Some h.
Definition ret_dict (par : dict) (mu rho rhoJ : R) : Prop :=
  par "mu"%string = Some mu /\ par "rho"%string = Some rho /\ par "rhoJ"%string = Some rhoJ.

Lemma wfs_of_tl {n key} : length key = S n -> (forall e, In e (tl key) -> (0 <= e)%Z) -> wfs (false :: repeat true n) key.
Proof.
  destruct key as [|x key]; [discriminate|]. cbn [length tl]. intros L H. injection L as L. cbn [wfs]. split; [exact I|].
  revert n L. induction key as [|y key IH]; intros [|n] L; try discriminate; cbn [repeat wfs]; [exact I|].
  split; [apply H; now left|]. apply IH; [|now injection L]. intros e He. apply H. now right.
Qed.
Lemma allk_of {l : list (list Z * Q)} {n} : (forall key c, In (key, c) l -> length key = S n /\ (forall e, In e (tl key) -> (0 <= e)%Z)) ->
  allk (wfs (false :: repeat true n)) l.
Proof.
  intros H key Hk. apply in_map_iff in Hk. destruct Hk as ([k c] & <- & Hin). destruct (H k c Hin) as [h1 h2]. exact (wfs_of_tl h1 h2).
Qed.

Theorem C47_svcj_ieziziz : forall n1 n2 n3 k h lam mv ms ss (par : dict), (0 <= n1)%Z -> (0 <= n2)%Z -> (0 <= n3)%Z -> k <> 0 ->
  par "k"%string = Some k -> par "h"%string = Some h -> par "lmbd"%string = Some lam -> par "mu_v"%string = Some mv ->
  par "mu_s"%string = Some ms -> par "sigma_s"%string = Some ss ->
  svcj_m_ieziziz n1 n2 n3 par = Ok (Derive_n (fun a2 => Derive_n (fun a1 => Derive_n (fun a3 =>
        mgf_ieziziz k lam mv ms ss 0 h a1 a2 a3) (Z.to_nat n3) 0) (Z.to_nat n1) 0) (Z.to_nat n2) 0).
Proof.
  intros n1 n2 n3 k h lam mv ms ss par H1 H2 H3 Hk h1 h2 h3 h4 h5 h6.
  destruct (C36_moment_ieziziz n1 n2 n3 H1 H2 H3) as (q & Eq & _ & _ & A & V). rewrite <- V by assumption.
  destruct (returns_inv _ _ (moment_ieziziz_spec n1 n2 n3 H1 H2 H3)) as (q' & Eq' & W & _). assert (q' = q) by congruence. subst q'.
  refine (scal_ok _ _ _ q _ _ Eq (proj2 (proj2 W)) _). intros r Ar. apply p2n_ieziziz_eval; [assumption| |exact Ar].
  repeat constructor; assumption.
Qed.

Theorem C47_svcj_ieii : forall n1 n2 n3 n4 n5 n6 p M h (par : dict),
  (0 <= n1)%Z -> (0 <= n2)%Z -> (0 <= n3)%Z -> (0 <= n4)%Z -> (0 <= n5)%Z -> (0 <= n6)%Z ->
  Svcj.jk p <> 0 -> 0 <= h -> svcj_moments p M -> svcj_dict par p h ->
  svcj_m_ieii n1 n2 n3 n4 n5 n6 par = Ok (M (n1, n2, n3, n4, n5, n6) h).
Proof.
  intros n1 n2 n3 n4 n5 n6 p M h par H1 H2 H3 H4 H5 H6 Hk Hh HM (h1 & h2 & h3 & h4 & h5 & h6 & h7 & h8 & h9).
  destruct (C37_moment_ieii_ieziziz n1 n2 n3 n4 n5 n6 H1 H2 H3 H4 H5 H6) as (q & Eq & _ & _ & A & _ & V).
  rewrite <- (V p M h Hk Hh HM).
  refine (scal_ok _ _ _ q _ _ Eq (allk_of (n := 9) _) _).
  - intros key c Hin. destruct (A key c Hin) as (a & b & _). split; assumption.
  - intros r Ar. destruct p. apply p2n_ieii_eval; [assumption| |exact Ar]. repeat constructor; assumption.
Qed.

(** the return: given v_0, and with a stationary initial variance *)
Theorem C47_svcj_cond : forall n p mu rho rhoJ h Om (E : (Om -> R) -> R) IE II IIs IEZ IZ IZs (par : dict), (0 <= n)%Z ->
  Svcj.jk p <> 0 -> 0 <= h -> rho ^ 2 <= 1 -> expectation E -> has_moments6 p h E IE II IIs IEZ IZ IZs (Z.to_nat n) ->
  svcj_dict par p h -> ret_dict par mu rho rhoJ ->
  let y w := svcj_y p mu rho rhoJ h (IE w) (II w) (IIs w) (IEZ w) (IZ w) (IZs w) in
  svcj_cond_m_y n par = Ok (E (fun w => y w ^ Z.to_nat n)) /\
  svcj_cond_cm_y n par = Ok (E (fun w => (y w - E y) ^ Z.to_nat n)).
Proof.
  intros n p mu rho rhoJ h Om E IE II IIs IEZ IZ IZs par Hn Hk Hh Hr HE HM (h1 & h2 & h3 & h4 & h5 & h6 & h7 & h8 & h9) (r1 & r2 & r3) y.
  assert (EV : forall q, allk (wfs s13) (items q) ->
    p2n_svcj_cond q par = Ok (eval (monx (svcj_vals p mu rho rhoJ h (jv0 p - jth p))) (items q))).
  { intros q A. destruct p. apply p2n_svcj_cond_eval; [assumption| |exact A]. repeat constructor; assumption. }
  split.
  - destruct (C38_cond_moment_y n Hn) as (q & Eq & _ & _ & A & V). unfold y.
    rewrite <- (V p mu rho rhoJ h Om E IE II IIs IEZ IZ IZs Hk Hh Hr HE HM).
    refine (scal_ok _ _ _ q _ _ Eq (allk_of (n := 12) _) EV).
    intros key c Hin. destruct (A key c Hin) as (a & b & _). split; assumption.
  - destruct (C38_cond_cmoment_y n Hn) as (q & Eq & _ & V). unfold y.
    rewrite <- (V p mu rho rhoJ h Om E IE II IIs IEZ IZ IZs Hk Hh Hr HE HM).
    destruct (returns_inv _ _ (cmoment_y_spec n Hn)) as (q' & Eq' & W & _). assert (q' = q) by congruence. subst q'.
    exact (scal_ok _ _ _ q _ _ Eq (proj2 (proj2 W)) EV).
Qed.

Theorem C47_svcj_stat : forall n p mu rho rhoJ h Om (E : (Om -> R) -> R) V0 IE II IIs IEZ IZ IZs (par : dict), (0 <= n)%Z ->
  Svcj.jk p <> 0 -> 0 <= h -> rho ^ 2 <= 1 -> expectation E -> joint_moments6 p h E V0 IE II IIs IEZ IZ IZs (Z.to_nat n) ->
  code_cmoments (jsrjd p) E V0 (Z.to_nat n) -> svcj_dict par p h -> ret_dict par mu rho rhoJ ->
  let y w := svcj_y (with_jv0 p (V0 w)) mu rho rhoJ h (IE w) (II w) (IIs w) (IEZ w) (IZ w) (IZs w) in
  svcj_unm_y n par = Ok (E (fun w => y w ^ Z.to_nat n)) /\
  svcj_cm_y n par = Ok (E (fun w => (y w - E y) ^ Z.to_nat n)).
Proof.
  intros n p mu rho rhoJ h Om E V0 IE II IIs IEZ IZ IZs par Hn Hk Hh Hr HE HM HV (h1 & h2 & h3 & h4 & h5 & h6 & h7 & h8 & h9) (r1 & r2 & r3) y.
  assert (EV : forall q, allk (wfs s13) (items q) ->
    p2n_svcj q par = Ok (eval (monx (svcj_vals p mu rho rhoJ h (jth p + jlam p * jmv p / Svcj.jk p))) (items q))).
  { intros q A. destruct p. apply p2n_svcj_eval; [assumption| |exact A]. repeat constructor; assumption. }
  split.
  - destruct (C38_moment_y n Hn) as (q & Eq & _ & V). unfold y.
    rewrite <- (V p mu rho rhoJ h Om E V0 IE II IIs IEZ IZ IZs Hk Hh Hr HE HM HV).
    destruct (returns_inv _ _ (stat_moment_y_spec n Hn)) as (q' & Eq' & W & _). assert (q' = q) by congruence. subst q'.
    exact (scal_ok _ _ _ q _ _ Eq (proj2 (proj2 W)) EV).
  - destruct (C38_cmoment_y n Hn) as (q & r & Eq & _ & _ & _ & _ & _ & V). unfold y.
    rewrite <- (proj1 (V p mu rho rhoJ h Om E V0 IE II IIs IEZ IZ IZs Hk Hh Hr HE HM HV)).
    destruct (returns_inv _ _ (stat_cmoment_y_spec n Hn)) as (q' & Eq' & W & _). assert (q' = q) by congruence. subst q'.
    exact (scal_ok _ _ _ q _ _ Eq (proj2 (proj2 W)) EV).
Qed.

(** ** a parameter missing from the dict raises KeyError, whatever the other entries are *)
Lemma scal_missing (r : res (Poly (list Z))) p2n par : (exists q, r = Ok q) -> (forall p, p2n p par = Err KeyError) -> scal r p2n par = Err KeyError.
Proof. intros [q ->] H. apply H. Qed.
Theorem C47_missing : forall (par : dict) s, par s = None ->
  (In s ["v0"; "k"; "theta"; "sigma"; "lmbd"; "mu_v"; "h"]%string ->
     (forall n, (0 <= n)%Z -> srjd_m_x n par = Err KeyError /\ srjd_m n par = Err KeyError /\
        srjd_cm_x n par = Err KeyError /\ srjd_cm n par = Err KeyError /\
        srjd_m_ie n par = Err KeyError /\ srjd_c_m_ie n par = Err KeyError) /\
     (forall n1 n2, (0 <= n1)%Z -> (0 <= n2)%Z -> srjd_m_ie_iez n1 n2 par = Err KeyError /\ srjd_cm_ie_iez n1 n2 par = Err KeyError)) /\
  (In s ["k"; "lmbd"; "mu_v"; "lb"; "ub"]%string -> forall n, (0 <= n)%Z -> iez_m n par = Err KeyError) /\
  (In s ["k"; "mu"; "theta"; "sigma"; "rho"; "lmbd"; "mu_v"; "rhoJ"; "mu_s"; "sigma_s"; "h"]%string ->
     forall n, (0 <= n)%Z -> svcj_unm_y n par = Err KeyError /\ svcj_cm_y n par = Err KeyError) /\
  (In s ["k"; "mu"; "v0"; "theta"; "sigma"; "rho"; "lmbd"; "mu_v"; "rhoJ"; "mu_s"; "sigma_s"; "h"]%string ->
     forall n, (0 <= n)%Z -> svcj_cond_m_y n par = Err KeyError /\ svcj_cond_cm_y n par = Err KeyError).
Proof.
  intros par s Hs. split; [|split; [|split]]; intro Hi.
  - split; [intros n Hn; repeat split|intros n1 n2 H1 H2; split].
    + apply scal_missing; [destruct (C30_moment_x n Hn) as (q & Eq & _); eauto|intro p; apply (p2n_ie_missing par p s Hi Hs)].
    + apply scal_missing; [destruct (C30_moment_v n Hn) as (q & Eq & _); eauto|intro p; apply (p2n_ie_missing par p s Hi Hs)].
    + apply scal_missing; [destruct (C30_cmoment_x n Hn) as (q & Eq & _); eauto|intro p; apply (p2n_ie_missing par p s Hi Hs)].
    + apply scal_missing; [destruct (C30_cmoment_v n Hn) as (q & Eq & _); eauto|intro p; apply (p2n_ie_missing par p s Hi Hs)].
    + apply scal_missing; [destruct (C30_moment_ie n Hn) as (q & Eq & _); eauto|intro p; apply (p2n_ie_missing par p s Hi Hs)].
    + apply scal_missing; [destruct (returns_inv _ _ (cmoment_ie_spec n Hn)) as (q & Eq & _); eauto|intro p; apply (p2n_ie_missing par p s Hi Hs)].
    + apply scal_missing; [destruct (C30_moment_ie_iez n1 n2 H1 H2) as (q & Eq & _); eauto|intro p; apply (p2n_ie_missing par p s Hi Hs)].
    + apply scal_missing; [destruct (C30_cmoment_ie_iez n1 n2 H1 H2) as (q & Eq & _); eauto|intro p; apply (p2n_ie_missing par p s Hi Hs)].
  - intros n Hn. apply scal_missing; [destruct (C29_moment_IEZ n Hn) as (q & Eq & _); eauto|intro p; apply (p2n_iez_missing par p s Hi Hs)].
  - intros n Hn. split; (apply scal_missing; [|intro p; apply (p2n_svcj_missing par p s Hi Hs)]).
    + destruct (C38_moment_y n Hn) as (q & Eq & _); eauto.
    + destruct (C38_cmoment_y n Hn) as (q & r & Eq & _); eauto.
  - intros n Hn. split; (apply scal_missing; [|intro p; apply (p2n_svcj_cond_missing par p s Hi Hs)]).
    + destruct (C38_cond_moment_y n Hn) as (q & Eq & _); eauto.
    + destruct (C38_cond_cmoment_y n Hn) as (q & Eq & _); eauto.
Qed.

(** negative orders raise ValueError before the dict is read *)
Theorem C47_negative : forall n par, (n < 0)%Z ->
  iez_m n par = Err ValueError /\ iez_cm n par = Err ValueError /\
  svcj_cond_m_y n par = Err ValueError /\ svcj_cond_cm_y n par = Err ValueError /\
  svcj_unm_y n par = Err ValueError /\ svcj_cm_y n par = Err ValueError.
Proof.
  intros n par Hn. destruct (C29_negative n Hn) as [a b]. destruct (C38_negative n Hn) as (c & d & e & f).
  unfold iez_m, iez_cm, svcj_cond_m_y, svcj_cond_cm_y, svcj_unm_y, svcj_cm_y, scal. rewrite a, b, c, d, e, f. repeat split.
Qed.

(** the hypotheses hold for every point with k <> 0, and the result is the moment *)
Definition d0 : dict := fun s =>
  if String.eqb s "v0" then Some (1/2) else if String.eqb s "k" then Some 1 else if String.eqb s "theta" then Some 2
  else if String.eqb s "sigma" then Some (1/4) else if String.eqb s "lmbd" then Some 3 else if String.eqb s "mu_v" then Some 4
  else if String.eqb s "mu_s" then Some (-1) else if String.eqb s "sigma_s" then Some 5 else if String.eqb s "h" then Some 1
  else if String.eqb s "mu" then Some 6 else if String.eqb s "rho" then Some (-1/2) else if String.eqb s "rhoJ" then Some (1/3) else None.
Example C47_srjd_example : srjd_dict d0 (mkSrjd 1 (1/2) 2 (1/4) 3 4) 1 /\
  exists Om (E : (Om -> R) -> R) IE IEZ, expectation E /\ has_moments (mkSrjd 1 (1/2) 2 (1/4) 3 4) 1 E IE IEZ 5 /\
    srjd_m 5 d0 = Ok (E (fun w => v_of (mkSrjd 1 (1/2) 2 (1/4) 3 4) 1 (IE w) (IEZ w) ^ 5)).
Proof.
  assert (D : srjd_dict d0 (mkSrjd 1 (1/2) 2 (1/4) 3 4) 1) by (repeat split). split; [exact D|].
  assert (Hk : sk (mkSrjd 1 (1/2) 2 (1/4) 3 4) <> 0) by (cbn; lra).
  destruct (C30_variables_exist (mkSrjd 1 (1/2) 2 (1/4) 3 4) 1 5 Hk ltac:(lia)) as (Om & E & IE & IEZ & HE & HM).
  exists Om, E, IE, IEZ. split; [exact HE|]. split; [exact HM|].
  exact (proj1 (proj2 (C47_srjd_cond 5 _ 1 Om E IE IEZ d0 ltac:(lia) Hk ltac:(lra) HE HM D))).
Qed.
Example C47_svcj_example : let p := mkSvcj 1 (1/2) 2 (1/4) 3 4 (-1) 5 in svcj_dict d0 p 1 /\ ret_dict d0 6 (-1/2) (1/3) /\
  exists Om (E : (Om -> R) -> R) IE II IIs IEZ IZ IZs, expectation E /\
    svcj_cond_cm_y 4 d0 = Ok (E (fun w => (svcj_y p 6 (-1/2) (1/3) 1 (IE w) (II w) (IIs w) (IEZ w) (IZ w) (IZs w)
      - E (fun w => svcj_y p 6 (-1/2) (1/3) 1 (IE w) (II w) (IIs w) (IEZ w) (IZ w) (IZs w))) ^ 4)).
Proof.
  intro p. assert (D : svcj_dict d0 p 1) by (repeat split). assert (D' : ret_dict d0 6 (-1/2) (1/3)) by (repeat split).
  split; [exact D|]. split; [exact D'|].
  assert (Hk : Svcj.jk p <> 0) by (cbn; lra).
  destruct (C38_cond_law_exists 4 p 1 Hk) as (Om & E & IE & II & IIs & IEZ & IZ & IZs & HE & HM).
  exists Om, E, IE, II, IIs, IEZ, IZ, IZs. split; [exact HE|].
  exact (proj2 (C47_svcj_cond 4 p 6 (-1/2) (1/3) 1 Om E IE II IIs IEZ IZ IZs d0 ltac:(lia) Hk ltac:(lra) ltac:(nra) HE HM D D')).
Qed.
Example C47_missing_example : svcj_unm_y 2 (fun _ => None) = Err KeyError /\ srjd_m 3 (fun _ => None) = Err KeyError.
Proof.
  destruct (C47_missing (fun _ => None) "k" eq_refl) as (a & _ & b & _). split.
  - exact (proj1 (b (or_introl eq_refl) 2%Z ltac:(lia))).
  - exact (proj1 (proj2 (proj1 (a (or_intror (or_introl eq_refl))) 3%Z ltac:(lia)))).
Qed.
