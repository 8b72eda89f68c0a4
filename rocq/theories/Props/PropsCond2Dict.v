(** C59: m(l, par) and cm(l, par) given the jumps of the variance, of mdl_svvj, mdl_svij, mdl_svcj and
    mdl_srjd, for every dict. *)
From Coq Require Import Reals Lra.
From Coquelicot Require Import Coquelicot.
From Verif.Spec Require Import Cond2Dict SvcjPath.
From Verif.Proof Require Import SvvjW SvvjSimp SvcjCond2W SrjdCond2V JumpTimes Cond2DProofs Cond2DThm Cond2DEnd.
From Verif.Props Require Import PropsSvvj PropsSvcjCond2 PropsSrjdCond2.
From Verif.Model Require Import Cond2D.
Import Verif.Model.Svvj Verif.Model.SvcjCond2.
Local Open Scope R_scope.
Local Open Scope string_scope.

(** utils.fZ: the nested sum over all tuples of jumps, for every number of levels; IndexError when a jump
    time is missing.  The powers of jump times are not negative. *)
Theorem C59_fZ : forall (l o p q : list Z) (k : R) (t J : list R),
  length o = length l -> length p = pred (length l) -> length q = pred (length l) ->
  Forall (fun x => 0 <= x)%Z o -> Forall (fun x => 0 <= x)%Z q ->
  ((length J <= length t)%nat -> fZ_d l o p q k t J = Ok (fZ_sum k t J l o p q)) /\
  ((length t < length J)%nat -> l <> [] -> fZ_d l o p q k t J = Err IndexError) /\
  (l = [] -> fZ_d l o p q k t J = Ok 1%R).
Proof.
  intros l o p q k t J h1 h2 h3 h4 h5. destruct (fZd_sp l o p q k t J (conj h1 (conj h2 h3)) (conj h4 h5)) as [g1 g2].
  split; [intro H; apply g1; lia|]. split; [intros; now apply g2|]. intros ->. reflexivity.
Qed.

(** every dict *)
Theorem C59_cm_svvj : forall l : Z, jumps_spec ["v0"; "k"; "theta"; "sigma"; "rho"; "h"] (fun nums tups => cm_svvj l (mkJpar nums tups))
  (fun q _ => has_key (fun _ => q "k" = 0%R) (sv_cmoment_y l)) (fun _ => has_key sv_sum (sv_cmoment_y l)) (value at_svvj_cm (fun _ => sv_cmoment_y l)).
Proof. exact cm_svvj_spec. Qed.
Theorem C59_m_svvj : forall l : Z, jumps_spec ["v0"; "mu"; "k"; "theta"; "sigma"; "rho"; "h"] (fun nums tups => m_svvj l (mkJpar nums tups))
  (fun q _ => q "k" = 0%R) (fun _ => has_key sv_sum (sv_moment_y l)) (value at_svvj_m (fun _ => sv_moment_y l)).
Proof. exact m_svvj_spec. Qed.
Theorem C59_cm_svij : forall l : Z, jumps_spec ["v0"; "k"; "theta"; "sigma"; "rho"; "h"; "lmbd_s"; "mu_s"; "sigma_s"] (fun nums tups => cm_svij l (mkJpar nums tups))
  (fun q _ => has_key (fun _ => q "k" = 0%R) (svij_cmoment_y l)) (fun _ => has_key sv_sum (svij_cmoment_y l)) (value at_svij_cm (fun _ => svij_cmoment_y l)).
Proof. exact cm_svij_spec. Qed.
Theorem C59_m_svij : forall l : Z, jumps_spec ["v0"; "mu"; "k"; "theta"; "sigma"; "rho"; "h"; "lmbd_s"; "mu_s"; "sigma_s"] (fun nums tups => m_svij l (mkJpar nums tups))
  (fun q _ => q "k" = 0%R) (fun _ => has_key sv_sum (svij_moment_y l)) (value at_svij_m (fun _ => svij_moment_y l)).
Proof. exact m_svij_spec. Qed.
Theorem C59_cm_svcj : forall l : Z, jumps_spec ["v0"; "k"; "theta"; "sigma"; "rho"; "h"; "sigma_s"] (fun nums tups => cm_svcj l (mkJpar nums tups))
  (fun q J => has_key (fun _ => q "k" = 0%R) (cj_cmoment_y l (length J))) (fun J => has_key sv_sum (cj_cmoment_y l (length J)))
  (value at_svcj_cm (fun J => cj_cmoment_y l (length J))).
Proof. exact cm_svcj_spec. Qed.
Theorem C59_m_svcj : forall l : Z, (1 <= l)%Z ->
  jumps_spec ["v0"; "mu"; "k"; "theta"; "sigma"; "rho"; "h"; "mu_s"; "rho_J"; "sigma_s"] (fun nums tups => m_svcj l (mkJpar nums tups))
  (fun q _ => q "k" = 0%R) (fun J => has_key cj_sum (cj_moment_y l (length J))) (value at_svcj_m (fun J => cj_moment_y l (length J))).
Proof. exact m_svcj_spec. Qed.
(** At order 0 (and below) m of mdl_svcj raises IndexError even for a complete dict: the key of the constant
    polynomial is too short for poly2num.  The value that a reader expects is 1. *)
Theorem C59_m_svcj_order_0 : forall (l : Z) (nums : string -> option R) (tups : string -> option (list R)) (q : string -> R) (t J : list R), (l <= 0)%Z ->
  agrees ["v0"; "mu"; "k"; "theta"; "sigma"; "rho"; "h"; "mu_s"; "rho_J"; "sigma_s"] nums q -> tups "jumptime" = Some t -> tups "jumpsize" = Some J ->
  q "k" <> 0%R -> m_svcj l (mkJpar nums tups) = Err IndexError.
Proof. exact m_svcj_0. Qed.
Theorem C59_m_srjd : forall l : Z, (0 <= l)%Z -> jumps_spec ["v0"; "k"; "theta"; "sigma"; "h"] (fun nums tups => m_srjd2 l (mkJpar nums tups))
  (fun q _ => has_key (c2_zd (q "k")) (c2_moment_v l)) (fun _ => has_key c2_sum (c2_moment_v l)) (value at_srjd (fun _ => c2_moment_v l)).
Proof. exact m_srjd2_spec. Qed.
Theorem C59_cm_srjd : forall l : Z, (0 <= l)%Z -> jumps_spec ["v0"; "k"; "theta"; "sigma"; "h"] (fun nums tups => cm_srjd2 l (mkJpar nums tups))
  (fun q _ => has_key (c2_zd (q "k")) (c2_cmoment_v l)) (fun _ => has_key c2_sum (c2_cmoment_v l)) (value at_srjd (fun _ => c2_cmoment_v l)).
Proof. exact cm_srjd2_spec. Qed.

(** A complete dict with |rho| <= 1 and all jumps up to time h: the moments given the jumps.  [given_code]: in terms
    of the joint moments of (IE, I, I* ) that the code computes, at every order; [given_path]: those of the model, up
    to order 3 (see C33 and C43 for higher orders). *)
Definition jump_dict (p : svpar) (z : path) (more : list (string * R)) (nums : string -> option R) (tups : string -> option (list R)) : Prop :=
  svk p <> 0%R /\ (Rabs (svrho p) <= 1)%R /\ (forall sj, In sj z -> (fst sj <= svh p)%R) /\ holds nums (sv_dict p ++ more) /\ holds_path tups z.
Theorem C59_svvj_end : forall (l : Z) (p : svpar) (z : path) nums tups Om (E : (Om -> R) -> R) IE I Is,
  jump_dict p z [] nums tups -> expectation E -> given_code Om E p z l IE I Is \/ (given_path Om E p z l IE I Is /\ (l <= 3)%Z) ->
  ((0 <= l)%Z -> m_svvj l (mkJpar nums tups) = Ok (E (fun w => sv_ret p z (IE w) (I w) (Is w) ^ Z.to_nat l)%R)) /\
  ((1 <= l)%Z -> cm_svvj l (mkJpar nums tups) = Ok (E (fun w => (sv_ret p z (IE w) (I w) (Is w) - sv_mean p z) ^ Z.to_nat l)%R)).
Proof.
  intros l p z nums tups Om E IE I Is (Hk & Hr & Hz & Hn & Hp) HE HW. rewrite app_nil_r in Hn. split; intro Hl; destruct HW as [HW|[HW H3]].
  - exact (m_svvj_E given_code l p z nums tups Om E IE I Is Hk Hr Hz HE HW Hp (C34_sv_moment_y l Hl) Hn).
  - refine (m_svvj_E given_path l p z nums tups Om E IE I Is Hk Hr Hz HE HW Hp _ Hn). pose proof (C43_sv_moments_partial l) as h. rewrite Z.max_r in h by lia. exact (table_last 3 l _ _ (conj Hl H3) h).
  - exact (cm_svvj_E given_code l p z nums tups Om E IE I Is Hk Hr Hz HE HW Hp (C34_sv_cmoment_y l Hl) Hn).
  - refine (cm_svvj_E given_path l p z nums tups Om E IE I Is Hk Hr Hz HE HW Hp _ Hn). pose proof (C43_sv_cmoments_partial l) as h. rewrite Z.max_r in h by lia. apply (table_last 3 l); [lia|exact h].
Qed.
Theorem C59_svij_end : forall (l : Z) (p : svpar) (z : path) lam mus sgs nums tups Om (E : (Om -> R) -> R) IE I Is J,
  jump_dict p z [("lmbd_s", lam); ("mu_s", mus); ("sigma_s", sgs)] nums tups -> expectation E ->
  given_code Om E p z l IE I Is \/ (given_path Om E p z l IE I Is /\ (l <= 3)%Z) -> jump_part E p z l IE I Is J lam mus sgs ->
  ((0 <= l)%Z -> m_svij l (mkJpar nums tups) = Ok (E (fun w => (sv_ret p z (IE w) (I w) (Is w) + J w) ^ Z.to_nat l)%R)) /\
  ((1 <= l)%Z -> cm_svij l (mkJpar nums tups) = Ok (E (fun w => (sv_ret p z (IE w) (I w) (Is w) + J w - (sv_mean p z + lam * svh p * mus)) ^ Z.to_nat l)%R)).
Proof.
  intros l p z lam mus sgs nums tups Om E IE I Is J (Hk & Hr & Hz & Hn & Hp) HE HW HJ. split; intro Hl; destruct HW as [HW|[HW H3]].
  - exact (m_svij_E given_code l p z nums tups Om E IE I Is Hk Hr Hz HE HW Hp lam mus sgs J HJ Hn (C34_svij_moment_y l Hl)).
  - refine (m_svij_E given_path l p z nums tups Om E IE I Is Hk Hr Hz HE HW Hp lam mus sgs J HJ Hn _). pose proof (C43_svij_moments_partial l) as h. rewrite Z.max_r in h by lia. exact (table_last 3 l _ _ (conj Hl H3) h).
  - exact (cm_svij_E given_code l p z nums tups Om E IE I Is Hk Hr Hz HE HW Hp lam mus sgs J HJ Hn (C34_svij_cmoment_y l Hl)).
  - refine (cm_svij_E given_path l p z nums tups Om E IE I Is Hk Hr Hz HE HW Hp lam mus sgs J HJ Hn _). pose proof (C43_svij_cmoments_partial l) as h. rewrite Z.max_r in h by lia. apply (table_last 3 l); [lia|exact h].
Qed.
Lemma m_svcj_E (W : world) l p z mus rhoJ sgs nums tups Om (E : (Om -> R) -> R) IE I Is Xs : (1 <= l)%Z ->
  jump_dict p z [("mu_s", mus); ("rho_J", rhoJ); ("sigma_s", sgs)] nums tups -> expectation E -> W Om E p z l IE I Is ->
  price_jumps mus rhoJ sgs E p z l IE I Is Xs -> returns (cj_moment_y l (length z)) (is_cj_moment W (length z) l) ->
  m_svcj l (mkJpar nums tups) = Ok (E (fun w => (sv_ret p z (IE w) (I w) (Is w) + sumR (fun X => X w) Xs) ^ Z.to_nat l)%R).
Proof.
  intros Hl (Hk & Hr & Hz & H & Ht & HJ) HE HW HX HP.
  etransitivity; [apply (spec_ok _ _ _ _ _ nums tups (map fst z) (map snd z) (m_svcj_spec l Hl)); trivial|].
  - apply (agrees_sub _ _ _ _ (holds_agrees _ _ H)). sub.
  - intro h. apply Hk. rewrite <- h. symmetry. apply (holds_q nums _ _ _ H). sub.
  - now rewrite !map_length.
  - unfold value. rewrite map_length. destruct (cj_moment_y l (length z)) as [r|]; [|destruct HP]. destruct HP as (_ & _ & A & V). rewrite <- (V Om E p z IE I Is Xs mus rhoJ sgs Hk HE eq_refl HW HX). f_equal.
    apply eval_ext_in. intros key c Hin. destruct (KeyInv.allk_in _ _ _ _ (A Hl) Hin) as (Hs & _). unfold at_svcj_m, cjmon.
    rewrite (a8_z p nums _ H). qs H. rewrite (sv_at_mon 8 3 _ _ (qof nums) p z (fst key) Hs Hr Hz); trivial; apply (holds_q nums _ _ _ H); sub.
Qed.
Lemma cm_svcj_E (W : world) l p z mus rhoJ sgs nums tups Om (E : (Om -> R) -> R) IE I Is Xs :
  jump_dict p z [("sigma_s", sgs)] nums tups -> expectation E -> W Om E p z l IE I Is ->
  price_jumps mus rhoJ sgs E p z l IE I Is Xs -> returns (cj_cmoment_y l (length z)) (is_cj_cmoment W (length z) l) ->
  cm_svcj l (mkJpar nums tups) = Ok (E (fun w => (sv_ret p z (IE w) (I w) (Is w) + sumR (fun X => X w) Xs - (sv_mean p z + jumps_mean mus rhoJ z)) ^ Z.to_nat l)%R).
Proof.
  intros (Hk & Hr & Hz & H & Ht & HJ) HE HW HX HP.
  etransitivity; [apply (spec_ok _ _ _ _ _ nums tups (map fst z) (map snd z) (cm_svcj_spec l)); trivial|].
  - apply (agrees_sub _ _ _ _ (holds_agrees _ _ H)). sub.
  - intros (? & ? & ? & _ & _ & h). apply Hk. rewrite <- h. symmetry. apply (holds_q nums _ _ _ H). sub.
  - now rewrite !map_length.
  - unfold value. rewrite map_length. destruct (cj_cmoment_y l (length z)) as [r|]; [|destruct HP]. destruct HP as (_ & _ & A & V). destruct (V Om E p z IE I Is Xs mus rhoJ sgs Hk HE eq_refl HW HX) as [<- _]. f_equal.
    apply eval_ext_in. intros key c Hin. pose proof (KeyInv.allk_in _ _ _ _ A Hin) as Hs. unfold at_svcj_cm.
    rewrite (a6_z p nums _ H). qs H. rewrite (sv_at_mon 6 1 _ _ (qof nums) p z key Hs Hr Hz); trivial; apply (holds_q nums _ _ _ H); sub.
Qed.
Theorem C59_svcj_end : forall (l : Z) (p : svpar) (z : path) mus rhoJ sgs nums tups Om (E : (Om -> R) -> R) IE I Is Xs, (1 <= l)%Z ->
  jump_dict p z [("mu_s", mus); ("rho_J", rhoJ); ("sigma_s", sgs)] nums tups -> expectation E ->
  given_code Om E p z l IE I Is \/ (given_path Om E p z l IE I Is /\ (l <= 3)%Z) -> price_jumps mus rhoJ sgs E p z l IE I Is Xs ->
  m_svcj l (mkJpar nums tups) = Ok (E (fun w => (sv_ret p z (IE w) (I w) (Is w) + sumR (fun X => X w) Xs) ^ Z.to_nat l)%R) /\
  cm_svcj l (mkJpar nums tups) = Ok (E (fun w => (sv_ret p z (IE w) (I w) (Is w) + sumR (fun X => X w) Xs - (sv_mean p z + jumps_mean mus rhoJ z)) ^ Z.to_nat l)%R).
Proof.
  intros l p z mus rhoJ sgs nums tups Om E IE I Is Xs Hl HD HE HW HX.
  assert (HD' : jump_dict p z [("sigma_s", sgs)] nums tups).
  { destruct HD as (h1 & h2 & h3 & h4 & h5). repeat (split; [assumption|]). split; [|exact h5]. apply Forall_app in h4. destruct h4 as [g1 g2]. apply Forall_app. split; [exact g1|].
    apply Forall_cons_iff in g2. destruct g2 as [_ g2]. apply Forall_cons_iff in g2. destruct g2 as [_ g2]. exact g2. }
  destruct HW as [HW|[HW H3]]; split.
  - apply (m_svcj_E given_code l p z mus rhoJ sgs nums tups Om E IE I Is Xs); trivial. apply C44_moment_y. lia.
  - apply (cm_svcj_E given_code l p z mus rhoJ sgs nums tups Om E IE I Is Xs); trivial. now apply C44_cmoment_y.
  - apply (m_svcj_E given_path l p z mus rhoJ sgs nums tups Om E IE I Is Xs); trivial. pose proof (C45_moments_partial l (length z)) as h. rewrite Z.max_r in h by lia. apply (table_last 3 l); [lia|exact h].
  - apply (cm_svcj_E given_path l p z mus rhoJ sgs nums tups Om E IE I Is Xs); trivial. pose proof (C45_cmoments_partial l (length z)) as h. rewrite Z.max_r in h by lia. apply (table_last 3 l); [lia|exact h].
Qed.
Theorem C59_srjd_end : forall (l : Z) (p : zpar) (z : path) (h : R) nums tups M Om (E : (Om -> R) -> R) (IE : Om -> R), (0 <= l)%Z ->
  zpk p <> 0%R -> (0 <= h)%R -> jumps_ok z -> (forall sj, In sj z -> (fst sj <= h)%R) -> holds nums (z_dict p h) -> holds_path tups z ->
  cond_moments p z M -> expectation E -> (forall n, (0 <= n <= l)%Z -> E (fun w => pw (IE w) n) = M (n, 0%Z, 0%Z) h) ->
  let v w := (v_given p z h + zpsg p * exp (- (zpk p * h)) * IE w)%R in
  m_srjd2 l (mkJpar nums tups) = Ok (E (fun w => pw (v w) l)) /\ cm_srjd2 l (mkJpar nums tups) = Ok (E (fun w => pw (v w - E v)%R l)).
Proof.
  intros l p z h nums tups M Om E IE Hl Hk Hh Hj Hz H [Ht HJ] HM HE HI v.
  assert (HA : agrees ns_srjd nums (qof nums)) by (apply (agrees_sub _ _ _ _ (holds_agrees _ _ H)); sub).
  assert (V : forall key, at_srjd (qof nums) (map fst z) (map snd z) key = c2mon p z h key).
  { intro key. unfold at_srjd, c2mon. qs H. rewrite upto_all by exact Hz. reflexivity. }
  assert (NZ : forall q, ~ has_key (c2_zd (qof nums "k")) q).
  { intros q (? & ? & ? & _ & _ & [h0 _]). apply Hk. rewrite <- h0. symmetry. apply (holds_q nums _ _ _ H). sub. }
  split.
  - etransitivity; [apply (spec_ok _ _ _ _ _ nums tups (map fst z) (map snd z) (m_srjd2_spec l Hl)); trivial; now rewrite !map_length|].
    unfold value. pose proof (C42_moment_v l Hl) as h0. destruct (c2_moment_v l) as [r|]; [|destruct h0]. destruct h0 as (_ & _ & _ & Vq).
    f_equal. unfold v. rewrite <- (Vq p z M h Om E IE Hk Hj HM Hh HE HI). apply eval_ext_in. intros key c _. apply V.
  - etransitivity; [apply (spec_ok _ _ _ _ _ nums tups (map fst z) (map snd z) (cm_srjd2_spec l Hl)); trivial; now rewrite !map_length|].
    unfold value. pose proof (C42_cmoment_v l Hl) as h0. destruct (c2_cmoment_v l) as [r|]; [|destruct h0]. destruct h0 as (_ & _ & _ & Vq).
    f_equal. pose proof (Vq p z M h Om E IE Hk Hj HM Hh HE HI) as e. cbv zeta in e. unfold v. rewrite <- e. apply eval_ext_in. intros key c _. apply V.
Qed.

(** dicts *)
Definition nd (l : list (string * R)) (s : string) : option R := option_map snd (find (fun x => String.eqb (fst x) s) l).
Definition td (t J : list R) (s : string) : option (list R) := if String.eqb s "jumptime" then Some t else if String.eqb s "jumpsize" then Some J else None.
Definition d1 (rho k : R) : list (string * R) :=
  [("v0", 1); ("mu", 1 / 8); ("k", k); ("theta", 2); ("sigma", 1); ("rho", rho); ("h", 3); ("mu_s", 0); ("rho_J", 1); ("sigma_s", 1); ("lmbd_s", 1)]%R.
(** a missing name; no jump times; k = 0; jump sizes without times; rho = 2; order 0 of m of mdl_svcj *)
Example C59_example_errors :
  cm_svvj 2 (mkJpar (nd [("v0", 1); ("k", 1)]%R) (td [] [])) = Err KeyError /\
  m_svvj 1 (mkJpar (nd (d1 0 1)) (fun _ => None)) = Err KeyError /\
  m_svvj 1 (mkJpar (nd (d1 0 0)) (td [1] [1])) = Err ZeroDivisionError /\
  m_svvj 1 (mkJpar (nd (d1 0 1)) (td [] [1])) = Err IndexError /\
  (exists x, m_svvj 1 (mkJpar (nd (d1 2 1)) (td [1; 2] [1])) = Ok x) /\
  m_svcj 0 (mkJpar (nd (d1 0 1)) (td [1] [1])) = Err IndexError.
Proof.
  assert (A : forall ns rho k, incl ns (map fst (d1 rho k)) -> NoDup (map fst (d1 rho k)) -> agrees ns (nd (d1 rho k)) (fun s => match nd (d1 rho k) s with Some x => x | None => 0%R end)).
  { intros ns rho k H _ s Hs. apply H in Hs. cbn [d1 map fst] in Hs. repeat (destruct Hs as [<-|Hs]; [reflexivity|]). destruct Hs. }
  assert (ND : forall rho k, NoDup (map fst (d1 rho k))).
  { intros. cbn [d1 map fst]. repeat constructor; cbn; intuition discriminate. }
  assert (I7 : forall rho k, incl ns_sm (map fst (d1 rho k))) by (intros rho k s Hs; cbn in Hs |- *; tauto).
  assert (I10 : forall rho k, incl (ns_sm ++ ns_cj)%list (map fst (d1 rho k))) by (intros rho k s Hs; cbn in Hs |- *; tauto).
  split; [|split; [|split; [|split; [|split]]]].
  - apply (proj1 (C59_cm_svvj 2) _ _ "theta"); [|reflexivity]. sub.
  - apply (proj1 (proj2 (C59_m_svvj 1)) _ _ "jumptime"); [|reflexivity]. sub.
  - destruct (proj2 (proj2 (C59_m_svvj 1)) (nd (d1 0 0)) (td [1] [1])%R _ [1]%R [1]%R (A ns_sm _ _ (I7 _ _) (ND _ _)) eq_refl eq_refl) as (_ & h & _). apply h; [reflexivity|].
    cbn [length]. lia.
  - destruct (proj2 (proj2 (C59_m_svvj 1)) (nd (d1 0 1)) (td [] [1])%R _ []%R [1]%R (A ns_sm _ _ (I7 _ _) (ND _ _)) eq_refl eq_refl) as (_ & _ & h & _). apply h.
    + cbn. lra.
    + split; [cbn; lia|]. eexists. exists ([0; 0; 1; 0; 0; 0; 0; 0]%Z, ([0]%Z, [0]%Z, [], []), [0; 0; 0]%Z), (- (1 # 2))%Q. split; [vm_compute; reflexivity|]. split; [|discriminate].
      cbn [items In]. tauto.
  - destruct (proj2 (proj2 (C59_m_svvj 1)) (nd (d1 2 1)) (td [1; 2] [1])%R _ [1; 2]%R [1]%R (A ns_sm _ _ (I7 _ _) (ND _ _)) eq_refl eq_refl) as (h & _). eexists. apply h.
    + cbn. lra.
    + cbn [length]. lia.
  - apply (C59_m_svcj_order_0 0 _ _ _ [1]%R [1]%R ltac:(lia) (A (ns_sm ++ ns_cj)%list 0%R 1%R (I10 _ _) (ND _ _)) eq_refl eq_refl). cbn. lra.
Qed.
(** the hypotheses of the end-to-end theorems: a dict with two jumps *)
Example C59_example_dict : let z := [(1, 2); (3, 1)]%R in let p := mkSv (mkZpar 1 1 2 1) (1 / 8) 0 3 in
  jump_dict p z [("mu_s", 0); ("rho_J", 1); ("sigma_s", 1)]%R (nd (d1 0 1)) (td [1; 3] [2; 1]) /\ jumps_ok z /\ holds (nd (d1 0 1)) (z_dict (svz p) 3).
Proof.
  cbv zeta. split; [|split].
  - repeat split; cbn; try lra; [rewrite Rabs_R0; lra| |repeat constructor].
    intros sj [<-|[<-|[]]]; cbn; lra.
  - intros sj [<-|[<-|[]]]; cbn [fst]; lra.
  - repeat constructor.
Qed.

(** the product over the jumps in poly2num of mdl_svcj needs one exponent for each jump *)
Theorem C59_jump_powers : forall (J : list R) (js : list Z) (f : R), Forall (fun j => 0 <= j)%Z js ->
  prodJ_d J js f = (if (length js <? length J)%nat then Err IndexError else Ok (f * monx J (firstn (length J) js))).
Proof.
  induction J as [|x J IH]; intros [|j js] f H; cbn [prodJ_d length firstn monx].
  1,2: change (_ <? 0)%nat with false; cbv iota; f_equal; ring.
  - reflexivity.
  - inversion H; subst. rewrite DecodeProofs.pypow_ok by now right. cbn [bind]. change (S (length js) <? S (length J))%nat with (length js <? length J)%nat.
    rewrite IH by assumption. destruct (length js <? length J)%nat; [reflexivity|]. f_equal. ring.
Qed.
(** the same for real arguments *)
Theorem C59_jump_powers_real : forall (J : list R) (js : list Z) (f : R),
  prodJ J js f = (if (length js <? length J)%nat then Err IndexError else Ok (f * monx J (firstn (length J) js))).
Proof.
  induction J as [|x J IH]; intros [|j js] f; cbn [prodJ length firstn monx].
  1,2: change (_ <? 0)%nat with false; cbv iota; f_equal; ring.
  - reflexivity.
  - change (S (length js) <? S (length J))%nat with (length js <? length J)%nat.
    rewrite IH. destruct (length js <? length J)%nat; [reflexivity|]. f_equal. ring.
Qed.
