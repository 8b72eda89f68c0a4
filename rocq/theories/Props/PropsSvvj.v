(** C34, C43, part of C35, C39 (classify): mdl_svvj and mdl_svij, given v_0 and the jump path. *)
From Coq Require Import Reals Lra.
From Coquelicot Require Import Coquelicot.
From Verif.Spec Require Import Svvj Cpp.
From Verif.Proof Require Import Realise SvvjW ClassifyProofs.
Import Verif.Model.Svvj.
Local Open Scope R_scope.

(** ** C34: the moments of the return are the multinomial combinations of those of (IE, I, I* )

    given_code: IE, I, I* have as joint moments the values of moment_IEII of ito_cond_mom.py.
    The n-th entry of the list is the n-th (central) moment of the return, for every n. *)
Theorem C34_sv_cmoments_y_to : forall l : Z,
  returns (sv_cmoments_y_to l) (is_table (Z.max 1 l) (Z.max 1 l) (is_cmoment given_code)).
Proof. intro l. exact (w_sv_c _ HJ_code _ _ (HW_code _) l). Qed.
Theorem C34_sv_cmoment_y : forall l : Z, (1 <= l)%Z -> returns (sv_cmoment_y l) (is_cmoment given_code l).
Proof. intros l Hl. pose proof (C34_sv_cmoments_y_to l) as h. rewrite Z.max_r in h by lia. apply (table_last l); [lia|exact h]. Qed.
Theorem C34_sv_moments_y_to : forall l : Z,
  returns (sv_moments_y_to l) (is_table (Z.max 0 l) (Z.max 0 l) (is_moment given_code)).
Proof. intro l. exact (w_sv_m _ HJ_code _ _ (HW_code _) l). Qed.
Theorem C34_sv_moment_y : forall l : Z, (0 <= l)%Z -> returns (sv_moment_y l) (is_moment given_code l).
Proof. intros l Hl. pose proof (C34_sv_moments_y_to l) as h. rewrite Z.max_r in h by lia. apply (table_last l); [lia|exact h]. Qed.

(** svij: an independent compound Poisson sum is added to the return *)
Theorem C34_svij_cmoments_y_to : forall l : Z,
  returns (svij_cmoments_y_to l) (is_table (Z.max 1 l) (Z.max 1 l) (is_ij_cmoment given_code)).
Proof. intro l. exact (w_ij_c _ HJ_code _ _ (HW_code _) l). Qed.
Theorem C34_svij_cmoment_y : forall l : Z, (1 <= l)%Z -> returns (svij_cmoment_y l) (is_ij_cmoment given_code l).
Proof. intros l Hl. pose proof (C34_svij_cmoments_y_to l) as h. rewrite Z.max_r in h by lia. apply (table_last l); [lia|exact h]. Qed.
Theorem C34_svij_moments_y_to : forall l : Z,
  returns (svij_moments_y_to l) (is_table (Z.max 0 l) (Z.max 0 l) (is_ij_moment given_code)).
Proof. intro l. exact (w_ij_m _ HJ_code _ _ (HW_code _) l). Qed.
Theorem C34_svij_moment_y : forall l : Z, (0 <= l)%Z -> returns (svij_moment_y l) (is_ij_moment given_code l).
Proof. intros l Hl. pose proof (C34_svij_moments_y_to l) as h. rewrite Z.max_r in h by lia. apply (table_last l); [lia|exact h]. Qed.

(** The hypotheses can be met for every parameter, path and order. *)
Lemma joint3_exists (val : zidx -> R) (L : Z) : (0 <= L)%Z -> exists (E : (list R -> R) -> R) (IE I Is : list R -> R),
  expectation E /\ joint3 E val L IE I Is.
Proof.
  intro HL. set (tab := fun ns => match ns with [a; b; d] => val (a, b, d) | _ => 0 end).
  set (ker := realise (Z.to_nat L) 3 tab).
  exists (Efin ker), (fun xs => nthR xs 0), (fun xs => nthR xs 1), (fun xs => nthR xs 2).
  split; [apply Efin_expectation|].
  intros a b d h1 h2 h3 h4. change (val (a, b, d)) with (tab [a; b; d]).
  rewrite <- (realise_spec (Z.to_nat L) 3 tab [a; b; d]); [|reflexivity|repeat (apply Forall_cons; [lia|]); apply Forall_nil].
  unfold ker, Efin. apply sumR_ext. intros [c xs] Hin. cbn [fst snd]. f_equal.
  pose proof (realise_len _ _ _ _ _ Hin) as Hl. destruct xs as [|x [|y [|z [|? ?]]]]; try discriminate.
  unfold nthR. cbn [powprod]. change (Z.to_nat 0) with 0%nat. change (Z.to_nat 1) with 1%nat.
  change (Z.to_nat 2) with 2%nat. cbn [nth]. ring.
Qed.
Lemma with_jumps (W : world) p z n lam mus sgs Om (E : (Om -> R) -> R) IE I Is :
  (forall Om' (E' : (Om' -> R) -> R) (f : Om' -> Om), (forall X : Om -> R, E' (fun w => X (f w)) = E X) -> W Om E p z n IE I Is ->
     W Om' E' p z n (fun w => IE (f w)) (fun w => I (f w)) (fun w => Is (f w))) ->
  expectation E -> E (fun _ => 1) = 1 -> W Om E p z n IE I Is ->
  exists (E' : (Om * R -> R) -> R) IE' I' Is' J, expectation E' /\ W _ E' p z n IE' I' Is' /\ jump_part E' p z n IE' I' Is' J lam mus sgs.
Proof.
  intros Wl HE E1 HW. set (m := fun i => Derive_n (mgf_cpp (lam * svh p) mus (sgs ^ 2)) i 0).
  set (ps := realise1 (Z.to_nat n) m).
  assert (Hps : forall i, (i <= Z.to_nat n)%nat -> Efin ps (fun x => x ^ i) = m i) by (intros; now apply realise1_spec).
  assert (m0 : m O = 1).
  { unfold m. cbn [Derive_n]. unfold mgf_cpp, mgf_normal. replace (mus * 0 + sgs ^ 2 / 2 * 0 ^ 2) with 0 by ring.
    rewrite exp_0. replace (lam * svh p * (1 - 1)) with 0 by ring. apply exp_0. }
  assert (P1 : Efin ps (fun _ => 1) = 1) by (transitivity (m O); [exact (Hps O ltac:(lia))|exact m0]).
  set (E' := Ekern E (fun _ : Om => ps)). assert (HE' : expectation E') by now apply Ekern_expectation.
  assert (O1 : forall X : Om -> R, E' (fun w => X (fst w)) = E X) by (intro X; apply Ekern_old; [assumption|intro; apply P1]).
  assert (F1 : forall (X : Om -> R) j, (j <= Z.to_nat n)%nat -> E' (fun w => X (fst w) * snd w ^ j) = E X * m j).
  { intros X j Hj. unfold E'. rewrite (Ekern_tower E (fun _ => ps) X (fun x => x ^ j) (fun _ => m j) HE) by (intro; now apply Hps).
    rewrite (E_ext E HE _ (fun w => m j * X w)) by (intro; ring). rewrite (E_scal E HE). ring. }
  assert (G : forall i, (i <= Z.to_nat n)%nat -> E' (fun w => snd w ^ i) = m i).
  { intros i Hi. rewrite (E_ext E' HE' _ (fun w => 1 * snd w ^ i)) by (intro; ring). rewrite (F1 (fun _ => 1) i Hi), E1. ring. }
  exists E', (fun w => IE (fst w)), (fun w => I (fst w)), (fun w => Is (fst w)), snd. split; [exact HE'|]. split; [now apply Wl|].
  split; [exact G|]. intros i j Hij. rewrite G by lia.
  set (Y := fun w : Om => sv_ret p z (IE w) (I w) (Is w) ^ i).
  change (E' (fun w => Y (fst w) * snd w ^ j) = E' (fun w => Y (fst w)) * m j). rewrite O1. apply F1. lia.
Qed.
Theorem C34_hypotheses_hold : forall (p : svpar) (z : path) (n : Z) (lam mus sgs : R), (0 <= n)%Z ->
  exists Om (E : (Om -> R) -> R) IE I Is J, expectation E /\ given_code Om E p z n IE I Is /\ jump_part E p z n IE I Is J lam mus sgs.
Proof.
  intros p z n lam mus sgs Hn.
  set (val := fun i => Jv int_e_IEZ_poly i (svz p) z (svh p)).
  destruct (joint3_exists val n Hn) as (E & IE & I & Is & HE & HT).
  assert (G : given_code _ E p z n IE I Is).
  { exists val. split; [exact HT|]. intros a b d h1 h2 h3 h4. unfold val, Jv, Jm. cbn [fst snd].
    change (jmoment_IEII_with int_e_IEZ_poly a b d) with (jmoment_IEII a b d).
    pose proof (HJ_code (a, b, d) ltac:(now repeat split)) as h. unfold Jm in h. cbn [fst snd] in h.
    change (jmoment_IEII_with int_e_IEZ_poly a b d) with (jmoment_IEII a b d) in h.
    destruct (jmoment_IEII a b d) as [q|]; [reflexivity|destruct h]. }
  assert (E1 : E (fun _ => 1) = 1).
  { pose proof (HW_code n _ E (mkSv (mkZpar 1 0 0 0) 0 0 0) z n IE I Is) as h. pose proof (HT 0%Z 0%Z 0%Z ltac:(lia) ltac:(lia) ltac:(lia) ltac:(lia)) as e.
    transitivity (E (fun w => IE w ^ Z.to_nat 0 * I w ^ Z.to_nat 0 * Is w ^ Z.to_nat 0)); [apply (E_ext E HE); intro; cbn; ring|].
    rewrite e. unfold val, Jv. change (Jm int_e_IEZ_poly (0, 0, 0)%Z) with (Ok (jP [0;0;0;0;0;0]%Z [] [] 1%Z)) || idtac.
    set (r := Jm int_e_IEZ_poly (0, 0, 0)%Z). vm_compute in r. subst r. cbn [items eval]. unfold jmon, zvals, fZ_path. cbn [fst snd monx].
    rewrite !pw_0. unfold Q2R; cbn. field. }
  destruct (with_jumps given_code p z n lam mus sgs _ E IE I Is) as (E' & IE' & I' & Is' & J & h); [|assumption..|now exists (list R * R)%type, E', IE', I', Is', J].
  intros Om' E' f Hf (v & Hv & Hq). exists v. split; [|exact Hq]. intros a b d h1 h2 h3 h4. rewrite <- (Hv a b d h1 h2 h3 h4).
  exact (Hf (fun w => IE w ^ Z.to_nat a * I w ^ Z.to_nat b * Is w ^ Z.to_nat d)).
Qed.
Example C34_example : exists q, sv_moment_y 1 = Ok (mkPoly
  [([0; 1; 0; 0; 1; 0; 0; 0]%Z, ([], [], [], []), [0; 0; 0]%Z, 1%Q); ([0; 0; 0; 1; 0; 1; 0; 0]%Z, ([], [], [], []), [0; 0; 0]%Z, -1 # 1);
   ([-1; 0; 1; 0; 0; 0; 0; 0]%Z, ([1]%Z, [0]%Z, [], []), [0; 0; 0]%Z, 1 # 2);
   ([0; 0; 1; 0; 0; 0; 0; 0]%Z, ([0]%Z, [0]%Z, [], []), [0; 0; 0]%Z, -1 # 2)] kf_sv15) /\
  sv_cmoment_y 2 = Ok q /\ length (items q) = 21%nat.
Proof. eexists. split; [vm_compute; reflexivity|]. split; [vm_compute; reflexivity|reflexivity]. Qed.

(** simplify(poly, tp) keeps the value; e^{kt} becomes e^{-kt}; for tp <> 0 sigma/2k and
    rho - sigma/2k are expanded and sqrt(1-rho^2) is removed *)
Theorem C34_simplify_0 : forall q : Poly svkey, keyfor q = kf_sv13 -> (forall k, In k (keys (items q)) -> svok 6 3 k) ->
  returns (sv_simplify q 0) (fun r => keyfor r = "e^{-kt}"%string :: tl kf_sv13 /\ uniq (items r) /\
    forall p z, eval (svmon [exp (- (svk p * svh p)); svh p; / svk p; zpv (svz p) - zpth (svz p); zpth (svz p); zpsg (svz p)] (sv3 p) p z) (items r)
      = eval (cmon_sv p z) (items q)).
Proof.
  intros q K A. destruct (simp0_sp q 3 sv3 A) as (r & E & Kr & U & V). rewrite E. cbn [returns]. rewrite Kr, K.
  split; [reflexivity|]. split; [exact U|]. exact V.
Qed.
Theorem C34_simplify_1 : forall (q : Poly svkey) (tp : Z), tp <> 0%Z -> keyfor q = kf_sv13 -> (forall k, In k (keys (items q)) -> svok 6 3 k) ->
  returns (sv_simplify q tp) (fun r =>
    keyfor r = ["e^{-kt}"; "t"; "k^{-}"; "v0-theta"; "theta"; "sigma"; "l_{1:n}"; "o_{1:n}"; "p_{2:n}"; "q_{2:n}"; "rho"]%string /\ uniq (items r) /\
    forall p z, svk p <> 0 -> Rabs (svrho p) <= 1 ->
      eval (svmon [exp (- (svk p * svh p)); svh p; / svk p; zpv (svz p) - zpth (svz p); zpth (svz p); zpsg (svz p)] [svrho p] p z) (items r)
      = eval (cmon_sv p z) (items q)).
Proof.
  intros q tp Ht K A. destruct (simp1_sp q tp Ht A) as (r & E & Kr & U & V). rewrite E. cbn [returns]. rewrite Kr, K.
  split; [reflexivity|]. split; [exact U|]. exact V.
Qed.
Example C34_simplify_example : exists q r, sv_cmoment_y 2 = Ok q /\ (forall k, In k (keys (items q)) -> svok 6 3 k) /\
  sv_simplify q 1 = Ok r /\ length (items r) = 26%nat /\ In ([1; 0; 2; 0; 0; 2]%Z, ([1]%Z, [1]%Z, [], []), [0]%Z, 1 # 2) (items r).
Proof.
  pose proof (C34_sv_cmoment_y 2 ltac:(lia)) as h. set (c := sv_cmoment_y 2) in *. vm_compute in c. subst c.
  cbn [returns] in h. destruct h as (_ & _ & A & _). eexists. eexists. split; [reflexivity|]. split; [exact A|].
  split; [vm_compute; reflexivity|]. split; [reflexivity|]. cbn [items In]. tauto.
Qed.

(** poly2num: the number of cm(l, par) and m(l, par) is the value of the polynomial; z lists the
    jump times ('jumptime') and sizes ('jumpsize'), all times at most h *)
Theorem C34_sv_cmom_poly2num : forall (q : Poly svkey) (v0 mu k theta sigma rho h : R) (z : path), k <> 0 ->
  (forall sj, In sj z -> fst sj <= h) -> (forall key, In key (keys (items q)) -> svok 6 3 key) ->
  sv_cm2num q v0 k theta sigma rho h (map fst z) (map snd z) = Ok (eval (cmon_sv (mkSv (mkZpar k v0 theta sigma) mu rho h) z) (items q)).
Proof. intros q v0 mu k theta sigma rho h z _ Hz A. exact (cm2num_sp q v0 mu k theta sigma rho h z A Hz). Qed.
Theorem C34_sv_mom_poly2num : forall (q : Poly svkey) (v0 mu k theta sigma rho h : R) (z : path), k <> 0 ->
  (forall sj, In sj z -> fst sj <= h) -> (forall key, In key (keys (items q)) -> svok 8 3 key) ->
  sv_m2num q v0 mu k theta sigma rho h (map fst z) (map snd z) = Ok (eval (mon_sv (mkSv (mkZpar k v0 theta sigma) mu rho h) z) (items q)).
Proof. intros q v0 mu k theta sigma rho h z _ Hz A. exact (m2num_sp q v0 mu k theta sigma rho h z A Hz). Qed.
Theorem C34_svij_cmom_poly2num : forall (q : Poly svkey) (v0 mu k theta sigma rho h lam mus sgs : R) (z : path), k <> 0 ->
  (forall sj, In sj z -> fst sj <= h) -> (forall key, In key (keys (items q)) -> svok 6 6 key) ->
  svij_cm2num q v0 k theta sigma rho h lam mus sgs (map fst z) (map snd z)
  = Ok (let p := mkSv (mkZpar k v0 theta sigma) mu rho h in eval (svmon (zvals (svz p) (svh p)) (svij_lst p lam mus sgs) p z) (items q)).
Proof. intros q v0 mu k theta sigma rho h lam mus sgs z _ Hz A. exact (ij_cm2num_sp q v0 mu k theta sigma rho h lam mus sgs z A Hz). Qed.
Theorem C34_svij_mom_poly2num : forall (q : Poly svkey) (v0 mu k theta sigma rho h lam mus sgs : R) (z : path), k <> 0 ->
  (forall sj, In sj z -> fst sj <= h) -> (forall key, In key (keys (items q)) -> svok 8 6 key) ->
  svij_m2num q v0 mu k theta sigma rho h lam mus sgs (map fst z) (map snd z)
  = Ok (let p := mkSv (mkZpar k v0 theta sigma) mu rho h in eval (svmon (sv8 p) (svij_lst p lam mus sgs) p z) (items q)).
Proof. intros q v0 mu k theta sigma rho h lam mus sgs z _ Hz A. exact (ij_m2num_sp q v0 mu k theta sigma rho h lam mus sgs z A Hz). Qed.
Example C34_poly2num_example : exists q, sv_cmoment_y 2 = Ok q /\ (forall k, In k (keys (items q)) -> svok 6 3 k) /\
  (forall sj, In sj [(1, 2); (3, 1)] -> fst sj <= 4).
Proof.
  pose proof (C34_sv_cmoment_y 2 ltac:(lia)) as h. destruct (sv_cmoment_y 2) as [q|]; [|destruct h].
  exists q. split; [reflexivity|]. split; [apply h|]. intros sj [<-|[<-|[]]]; cbn [fst]; lra.
Qed.

(** ** C43: the true moments given v_0 and the jump path

    The code is right up to order 3 *)
Theorem C43_sv_cmoments_partial : forall l : Z, returns (sv_cmoments_y_to l) (is_table 3 (Z.max 1 l) (is_cmoment given_path)).
Proof. intro l. exact (w_sv_c _ HJ_code _ _ HW_code3 l). Qed.
Theorem C43_sv_moments_partial : forall l : Z, returns (sv_moments_y_to l) (is_table 3 (Z.max 0 l) (is_moment given_path)).
Proof. intro l. exact (w_sv_m _ HJ_code _ _ HW_code3 l). Qed.
Theorem C43_svij_cmoments_partial : forall l : Z, returns (svij_cmoments_y_to l) (is_table 3 (Z.max 1 l) (is_ij_cmoment given_path)).
Proof. intro l. exact (w_ij_c _ HJ_code _ _ HW_code3 l). Qed.
Theorem C43_svij_moments_partial : forall l : Z, returns (svij_moments_y_to l) (is_table 3 (Z.max 0 l) (is_ij_moment given_path)).
Proof. intro l. exact (w_ij_m _ HJ_code _ _ HW_code3 l). Qed.

(** With int_e_IEZ_poly corrected (iez_fixed, see C33_corrected) it is right at every order. *)
Theorem C43_corrected : forall l : Z,
  returns (sv_cmoments_with iez_fixed l) (is_table (Z.max 1 l) (Z.max 1 l) (is_cmoment given_path)) /\
  returns (sv_moments_with iez_fixed l) (is_table (Z.max 0 l) (Z.max 0 l) (is_moment given_path)) /\
  returns (svij_cmoments_with iez_fixed l) (is_table (Z.max 1 l) (Z.max 1 l) (is_ij_cmoment given_path)) /\
  returns (svij_moments_with iez_fixed l) (is_table (Z.max 0 l) (Z.max 0 l) (is_ij_moment given_path)).
Proof.
  intro l. split; [exact (w_sv_c _ HJ_fixed _ _ (HW_fixed _) l)|]. split; [exact (w_sv_m _ HJ_fixed _ _ (HW_fixed _) l)|].
  split; [exact (w_ij_c _ HJ_fixed _ _ (HW_fixed _) l)|exact (w_ij_m _ HJ_fixed _ _ (HW_fixed _) l)].
Qed.

Lemma cond_path_one Om (E : (Om -> R) -> R) p z n IE I Is : expectation E -> (0 <= n)%Z -> 0 <= svh p ->
  cond_path E p z n IE I Is -> E (fun _ => 1) = 1.
Proof.
  intros HE Hn Hh (M & HM & HT). pose proof (HT 0%Z 0%Z 0%Z ltac:(lia) ltac:(lia) ltac:(lia) ltac:(lia)) as e.
  transitivity (E (fun w => IE w ^ Z.to_nat 0 * I w ^ Z.to_nat 0 * Is w ^ Z.to_nat 0)); [apply (E_ext E HE); intro; cbn; ring|].
  rewrite e. pose proof (HM (0, 0, 0)%Z ltac:(repeat split; lia) (svh p) Hh) as h.
  change (is_RInt (fun _ : R => 0) 0 (svh p) (M (0, 0, 0)%Z (svh p) - 1)) in h. apply (is_RInt_unique (V := R_CompleteNormedModule)) in h.
  rewrite RInt_const in h. unfold scal in h; cbn in h. unfold mult in h; cbn in h. lra.
Qed.
Theorem C43_hypotheses_hold : forall (p : svpar) (z : path) (n : Z) (lam mus sgs : R), (0 <= n)%Z -> 0 <= svh p -> jumps_ok z ->
  exists Om (E : (Om -> R) -> R) IE I Is J, expectation E /\ given_path Om E p z n IE I Is /\ jump_part E p z n IE I Is J lam mus sgs.
Proof.
  intros p z n lam mus sgs Hn Hh Hz. destruct (cond_exists (svz p) z Hz) as [M HM].
  destruct (joint3_exists (fun i => M i (svh p)) n Hn) as (E & IE & I & Is & HE & HT).
  assert (G : given_path _ E p z n IE I Is) by (split; [exact Hh|]; split; [exact Hz|]; now exists M).
  pose proof (cond_path_one _ E p z n IE I Is HE Hn Hh ltac:(apply G)) as E1.
  destruct (with_jumps given_path p z n lam mus sgs _ E IE I Is) as (E' & IE' & I' & Is' & J & h); [|assumption..|now exists (list R * R)%type, E', IE', I', Is', J].
  intros Om' E' f Hf (_ & _ & M' & HM' & HT'). split; [exact Hh|]. split; [exact Hz|]. exists M'. split; [exact HM'|].
  intros a b d h1 h2 h3 h4. rewrite <- (HT' a b d h1 h2 h3 h4).
  exact (Hf (fun w => IE w ^ Z.to_nat a * I w ^ Z.to_nat b * Is w ^ Z.to_nat d)).
Qed.

(** The code is wrong at order 4: k = ln 2, v_0 = theta = sigma = 1, rho = 1/(2 ln 2), h = 2 and
    one jump of size 1 at time 1. *)
Theorem C43_sv_cmoment_4_refuted : exists (q : Poly svkey) (p : svpar) (z : path) Om (E : (Om -> R) -> R) (IE I Is : Om -> R),
  sv_cmoment_y 4 = Ok q /\ 0 < svk p /\ 0 < zpv (svz p) /\ 0 < zpth (svz p) /\ 0 < zpsg (svz p) /\ Rabs (svrho p) < 1 /\
  expectation E /\ given_path Om E p z 4%Z IE I Is /\
  eval (cmon_sv p z) (items q) <> E (fun w => (sv_ret p z (IE w) (I w) (Is w) - sv_mean p z) ^ 4).
Proof.
  destruct (C43_hypotheses_hold psv z2 4 0 0 0 ltac:(lia) ltac:(unfold psv; cbn [svh]; lra) z2_ok) as (Om & E & IE & I & Is & _ & HE & HW & _).
  pose proof (sv_cmoments_tab int_e_IEZ_poly HJ_code 4) as h. pose proof (sv_cmoments_tab iez_fixed HJ_fixed 4) as h'.
  pose proof ln_lt_2 as L. assert (Hk : svk psv <> 0) by apply ln2_nz.
  unfold sv_cmoment_y, sv_cmoment_with. destruct (sv_cmoments_with int_e_IEZ_poly 4) as [cs|]; [|destruct h].
  destruct h as (Hl & Ht & Hv). destruct (Ht 4%Z ltac:(lia)) as (q & Eq & _). exists q, psv, z2, Om, E, IE, I, Is.
  split; [cbn [bind]; apply lastp_sp; rewrite Hl; exact Eq|].
  unfold psv at 1 2 3 4, svk. cbn [svz zpk zpv zpth zpsg p2]. repeat (split; [lra|]). split.
  { unfold psv. cbn [svrho]. rewrite Rabs_pos_eq; [|apply Rlt_le, Rinv_0_lt_compat; lra].
    rewrite <- Rinv_1. apply Rinv_lt_contravar; lra. }
  split; [exact HE|]. split; [exact HW|].
  pose proof (Cv_cen iez_fixed 4%Z psv z2 Om E IE I Is Hk HE (HW_fixed 4%Z _ E psv z2 4%Z IE I Is Hk ltac:(lia) HW) 4%Z ltac:(lia)) as e.
  change (Z.to_nat 4) with 4%nat in e. rewrite <- e. pose proof (Hv 4%Z ltac:(lia) psv z2) as v. unfold tabv in v. rewrite Eq in v. rewrite v.
  pose proof Cv4_diff. lra.
Qed.
Example C43_example : exists cs, sv_cmoments_y_to 3 = Ok cs /\ length cs = 4%nat /\ jumps_ok [(1, 2); (3, 1)].
Proof.
  pose proof (C43_sv_cmoments_partial 3) as h. destruct (sv_cmoments_y_to 3) as [cs|]; [|destruct h]. exists cs.
  split; [reflexivity|]. split; [apply h|]. intros sj [<-|[<-|[]]]; cbn [fst]; lra.
Qed.

(** ** C35 *)
Lemma pw0s l : Forall (fun x => x = 0%Z) l -> forall vs, monx vs l = 1.
Proof.
  induction 1 as [|x l Hx Hl IH]; intro vs; [destruct vs; reflexivity|]. destruct vs as [|v vs]; [reflexivity|].
  cbn [monx]. rewrite Hx, IH, pw_0. ring.
Qed.
(** the entry for order 0 of every list is 1 *)
Theorem C35_svvj_svij_entry_0 : forall (l : Z),
  returns (sv_cmoments_y_to l) (fun cs => exists q, nth_error cs 0 = Some q /\ forall p z, eval (cmon_sv p z) (items q) = 1) /\
  returns (sv_moments_y_to l) (fun cs => exists q, nth_error cs 0 = Some q /\ forall p z, eval (mon_sv p z) (items q) = 1) /\
  returns (svij_cmoments_y_to l) (fun cs => exists q, nth_error cs 0 = Some q /\ forall p z lam mus sgs,
    eval (svmon (zvals (svz p) (svh p)) (svij_lst p lam mus sgs) p z) (items q) = 1) /\
  returns (svij_moments_y_to l) (fun cs => exists q, nth_error cs 0 = Some q /\ forall p z lam mus sgs,
    eval (svmon (sv8 p) (svij_lst p lam mus sgs) p z) (items q) = 1).
Proof.
  intro l. assert (M0 : forall p z, Mv int_e_IEZ_poly 0 p z = 1).
  { intros p z. unfold Mv. change (rcomp 4 0) with [[0;0;0;0;0]]%Z. cbn [sumR nth]. rewrite Cv_0, pw0s by (repeat constructor).
    change (cmb 0 [0;0;0;0;0]%Z) with 1%Z. ring. }
  split; [|split; [|split]].
  - eapply returns_weaken; [apply (sv_cmoments_tab _ HJ_code l)|]. intros cs (_ & Ht & Hv).
    destruct (Ht 0%Z ltac:(lia)) as (q & Eq & _). exists q. split; [exact Eq|]. intros p z.
    pose proof (Hv 0%Z ltac:(lia) p z) as v. unfold tabv in v. rewrite Eq, Cv_0 in v. exact v.
  - eapply returns_weaken; [apply (sv_moments_tab _ HJ_code l)|]. intros cs (_ & Ht & Hv).
    destruct (Ht 0%Z ltac:(lia)) as (q & Eq & _). exists q. split; [exact Eq|]. intros p z.
    pose proof (Hv 0%Z ltac:(lia) p z) as v. unfold tabv in v. rewrite Eq, M0 in v. exact v.
  - eapply returns_weaken; [apply (svij_cmoments_tab _ HJ_code l)|]. intros cs (_ & Ht & Hv).
    destruct (Ht 0%Z ltac:(lia)) as (q & Eq & _). exists q. split; [exact Eq|]. intros p z lam mus sgs.
    pose proof (Hv 0%Z ltac:(lia) p z lam mus sgs) as v. unfold tabv in v. rewrite Eq, convv_0, Cv_0, jval_c0 in v. lra.
  - eapply returns_weaken; [apply (svij_moments_tab _ HJ_code l)|]. intros cs (_ & Ht & Hv).
    destruct (Ht 0%Z ltac:(lia)) as (q & Eq & _). exists q. split; [exact Eq|]. intros p z lam mus sgs.
    pose proof (Hv 0%Z ltac:(lia) p z lam mus sgs) as v. unfold tabv in v. rewrite Eq, convv_0, M0, jval_m0 in v. lra.
Qed.
(** but cmoment_y(l) for l <= 0 is the last entry, the first central moment: it is 0 *)
Theorem C35_svvj_cmoment_y_0 : forall l : Z, (l <= 0)%Z ->
  returns (sv_cmoment_y l) (fun q => forall p z, eval (cmon_sv p z) (items q) = 0).
Proof.
  intros l Hl. unfold sv_cmoment_y, sv_cmoment_with, sv_cmoments_with. rewrite range_nil by lia. cbn [foldM bind returns snd lastp map last].
  intros p z. unfold sv_P0. cbn [items eval]. unfold Q2R; cbn. ring.
Qed.
Theorem C35_svij_cmoment_y_0 : forall l : Z, (l <= 0)%Z ->
  returns (svij_cmoment_y l) (fun q => forall p z lam mus sgs, eval (svmon (zvals (svz p) (svh p)) (svij_lst p lam mus sgs) p z) (items q) = 0).
Proof.
  intros l Hl. unfold svij_cmoment_y, svij_cmoment_with, svij_cmoments_with, sv_cmoments_with. rewrite range_nil by lia. cbn [foldM bind returns snd lastp map last].
  unfold getp. change (Z.to_nat 0) with O. cbn [nth_error bind foldM map last returns]. intros p z lam mus sgs. cbn [items eval]. unfold Q2R; cbn. ring.
Qed.
Theorem C35_svvj_cmoment_y_0_refuted : exists q, sv_cmoment_y 0 = Ok q /\ forall p z, eval (cmon_sv p z) (items q) <> 1.
Proof.
  pose proof (C35_svvj_cmoment_y_0 0 ltac:(lia)) as h. destruct (sv_cmoment_y 0) as [q|]; [|destruct h]. exists q.
  split; [reflexivity|]. intros p z. rewrite (h p z). lra.
Qed.
Theorem C35_svij_cmoment_y_0_refuted : exists q, svij_cmoment_y 0 = Ok q /\
  forall p z lam mus sgs, eval (svmon (zvals (svz p) (svh p)) (svij_lst p lam mus sgs) p z) (items q) <> 1.
Proof.
  pose proof (C35_svij_cmoment_y_0 0 ltac:(lia)) as h. destruct (svij_cmoment_y 0) as [q|]; [|destruct h]. exists q.
  split; [reflexivity|]. intros p z lam mus sgs. rewrite (h p z lam mus sgs). lra.
Qed.

(** ** C39: classify

    The sub-polynomial of level i has exactly the terms of poly with i nested sums; at level 0
    the four empty tuples are removed from the key. *)
Theorem C39_classify : forall poly : Poly svkey,
  uniq (items poly) -> (forall k v, In (k, v) (items poly) -> length (fst (fst k)) = 6%nat /\ jshape (snd (fst k))) ->
  items poly <> [] ->
  (forall k v, In (k, v) (items poly) -> forall j, (j <= level k)%nat -> exists k' v', In (k', v') (items poly) /\ level k' = j) ->
  exists subs, classify poly = Ok subs /\
    (forall k v, In (k, v) (items poly) -> (level k < length subs)%nat) /\
    (forall i q, nth_error subs i = Some q ->
      keyfor q = (if (i =? 0)%nat then firstn 6 (keyfor poly) ++ skipn 10 (keyfor poly) else keyfor poly) /\
      items q = map (fun kv => ((if (i =? 0)%nat then inl (fst (fst (fst kv)) ++ snd (fst kv)) else inr (fst kv)), snd kv))
                  (filter (fun kv => (level (fst kv) =? i)%nat) (items poly)) /\ items q <> []) /\
    (forall (mon : svkey -> R) (sub : subkey -> R),
      (forall k v, In (k, v) (items poly) -> level k = O -> sub (inl (fst (fst k) ++ snd k)) = mon k) ->
      (forall k v, In (k, v) (items poly) -> level k <> O -> sub (inr k) = mon k) ->
      sumR (fun q => eval sub (items q)) subs = eval mon (items poly)).
Proof.
  intros poly U S N G. exists (subs_of poly (items poly)). split; [apply classify_ok; [now split|exact N|exact G]|].
  pose proof (proj1 (gapless_iff poly) G) as B. unfold subs_of. rewrite map_length, seq_length. split; [exact B|]. split.
  - intros i q H. assert (Hi : (i < length (levels poly))%nat).
    { rewrite <- (seq_length (length (levels poly)) 0), <- (map_length (fun i => mkPoly (part i (items poly)) (kfor poly i))). apply nth_error_Some. congruence. }
    rewrite nth_error_map in H. rewrite nth_error_nth' with (d := O) in H by (now rewrite seq_length).
    rewrite seq_nth in H by exact Hi. cbn [option_map Nat.add] in H. injection H as <-. cbn [items keyfor]. split; [reflexivity|].
    assert (P : part i (items poly) = map (fun kv => ((if (i =? 0)%nat then inl (fst (fst (fst kv)) ++ snd (fst kv)) else inr (fst kv)), snd kv))
                  (filter (fun kv => (level (fst kv) =? i)%nat) (items poly))).
    { unfold part. apply map_ext_in. intros kv Hf. apply filter_In in Hf. destruct Hf as [_ Hf]. apply Nat.eqb_eq in Hf. unfold subconv. now rewrite Hf. }
    split; [exact P|].
    assert (Hin : In i (levels poly)).
    { apply levels_in. destruct (levels poly) as [|n0 r] eqn:El; [cbn in Hi; lia|].
      assert (I' : incl (seq 0 (length (levels poly))) (levels poly)).
      { apply NoDup_length_incl; [apply levels_nodup|now rewrite seq_length|].
        intros n Hn. apply levels_in in Hn. destruct Hn as (k' & v' & Hin' & <-). apply in_seq. rewrite El. pose proof (B k' v' Hin'). lia. }
      apply levels_in. apply I', in_seq. rewrite El. lia. }
    apply levels_in in Hin. destruct Hin as (k & v & Hkv & Hlk). rewrite P. intro Hn.
    apply map_eq_nil in Hn. assert (In (k, v) []) by (rewrite <- Hn; apply filter_In; split; [exact Hkv|cbn [fst]; now apply Nat.eqb_eq]). contradiction.
  - intros mon sub H0 H1. transitivity (sumR (fun i => sumR (fun kv => Q2R (snd kv) * sub (fst kv)) (part i (items poly))) (seq 0 (length (levels poly)))).
    + generalize (seq 0 (length (levels poly))). intro l. induction l as [|i l IH]; [reflexivity|]. cbn [map sumR items]. now rewrite IH, (sumR_eval sub).
    + rewrite part_perm by (intros [k v] Hin; exact (B k v Hin)). rewrite (sumR_eval mon). apply sumR_ext. intros [k v] Hin. cbn [fst snd]. f_equal.
      unfold subconv. destruct (Nat.eqb_spec (level k) 0) as [e|e]; [exact (H0 k v Hin e)|exact (H1 k v Hin e)].
Qed.
(** On an empty polynomial and when a level is missing the code fails with IndexError. *)
Theorem C39_classify_gap : forall poly : Poly svkey,
  items poly = [] \/ (exists k v j, In (k, v) (items poly) /\ (j <= level k)%nat /\ forall k' v', In (k', v') (items poly) -> level k' <> j) ->
  classify poly = Err IndexError.
Proof.
  intros poly [H|(k & v & j & Hin & Hj & Hn)]; apply classify_err; [now left|right].
  intro G. destruct (G k v Hin j Hj) as (k' & v' & Hin' & Hl). exact (Hn k' v' Hin' Hl).
Qed.
Theorem C39_classify_refuted : exists poly : Poly svkey, uniq (items poly) /\ items poly <> [] /\
  (forall k v, In (k, v) (items poly) -> svok 6 3 k) /\ classify poly = Err IndexError.
Proof.
  exists (mkPoly [(([0;0;0;0;0;0]%Z, ([1]%Z, [0]%Z, [], [])), [0;0;0]%Z, 1%Q)] kf_sv13). cbn [items].
  split; [constructor; [intros []|constructor]|]. split; [discriminate|]. split; [|reflexivity].
  intros k v [E|[]]. injection E as <- _. unfold svok. cbn [fst snd length]. repeat split; try (repeat constructor; lia).
  intros [|[|[|[|[|[|i]]]]]] _; cbn [nth]; try lia; destruct i; lia.
Qed.
Example C39_example : exists q subs, sv_cmoment_y 2 = Ok q /\ classify q = Ok subs /\ length subs = 2%nat /\ map (fun s => length (items s)) subs = [13; 8]%nat.
Proof. eexists. eexists. split; [vm_compute; reflexivity|]. split; [vm_compute; reflexivity|]. split; reflexivity. Qed.
