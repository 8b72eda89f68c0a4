(** Property C65, continued: the variance given the jump path of the variance. *)
From Coq Require Import Reals Lra.
From Coquelicot Require Import Coquelicot.
From Verif.Spec Require Import Svvj Cpp SvcjPath.
From Verif.Model Require Import Svvj Cond2D.
From Verif.Proof Require Import SvvjW ExpectFacts.
From Verif.Props Require Import PropsSvvj PropsSvcjCond2 PropsCond2Dict PropsCondVar.
Local Open Scope R_scope.

(** E[v_s | z] = [v_given]; the integrand is that of [diffu] *)
Definition diffz (p : svpar) (z : path) (s : R) : R :=
  v_given (svz p) z s * ((svrho p - zpsg (svz p) * wt (svk p) (svh p) s) ^ 2 + (1 - svrho p ^ 2)).

Section M.
Variables (p : zpar) (z : path) (M : zidx -> R -> R).
Hypothesis HM : cond_moments p z M.
Lemma M_empty i : zdom i -> cond_sys p z i = [] -> forall t, 0 <= t -> M i t = cond_init i.
Proof.
  intros Hi Hs t Ht. pose proof (HM i Hi t Ht) as h. apply (is_RInt_ext _ (fun _ => 0)) in h; [|intros s _; unfold lin_rhs; now rewrite Hs].
  apply (is_RInt_unique (V := R_CompleteNormedModule)) in h. rewrite RInt_const in h. unfold Hierarchy.scal in h; cbn in h. unfold mult in h; cbn in h. lra.
Qed.
Lemma M_0 t : 0 <= t -> M (0, 0, 0)%Z t = 1. Proof. intro H. now rewrite M_empty by (try assumption; try reflexivity; repeat split; lia). Qed.
Lemma M_1 t : 0 <= t -> M (1, 0, 0)%Z t = 0. Proof. intro H. now rewrite M_empty by (try assumption; try reflexivity; repeat split; lia). Qed.
Lemma M_011 t : 0 <= t -> M (0, 1, 1)%Z t = 0. Proof. intro H. now rewrite M_empty by (try assumption; try reflexivity; repeat split; lia). Qed.
Lemma M_101 t : 0 <= t -> M (1, 0, 1)%Z t = 0. Proof. intro H. now rewrite M_empty by (try assumption; try reflexivity; repeat split; lia). Qed.
Lemma M_second i c t : zdom i -> 0 <= t -> cond_init i = 0 -> cond_sys p z i = vz_terms p z c (0, 0, 0)%Z ->
  is_RInt (fun s => c s * v_given p z s) 0 t (M i t).
Proof.
  intros Hi Ht H0 Hs. pose proof (HM i Hi t Ht) as h. rewrite H0, Rminus_0_r in h. revert h. apply is_RInt_ext. intros s Hs'.
  rewrite Rmin_left in Hs' by assumption. unfold lin_rhs. rewrite Hs. cbn [vz_terms sumR map fold_right fst snd].
  change (0 + 1)%Z with 1%Z. rewrite M_0, M_1 by lra. cbn. ring.
Qed.
End M.

(** the centred return is a linear form in IE, I, I* *)
Lemma ret_centred p z ie i is : svk p <> 0 -> let a := zpsg (svz p) / (2 * svk p) in
  sv_ret p z ie i is - sv_mean p z = (svrho p - a) * i + a * exp (- (svk p * svh p)) * ie + sqrt (1 - svrho p ^ 2) * is.
Proof. intros Hk a. unfold sv_ret, sv_mean, sv_intv, v_path, v_given, sv_beta, a, svk in *. field. exact Hk. Qed.

Lemma path_var p z Om (E : (Om -> R) -> R) IE I Is : svk p <> 0 -> Rabs (svrho p) <= 1 -> expectation E -> given_path Om E p z 2%Z IE I Is ->
  is_RInt (diffz p z) 0 (svh p) (E (fun w => (sv_ret p z (IE w) (I w) (Is w) - sv_mean p z) ^ 2)).
Proof.
  intros Hk Hr HE (Hh & Hz & M & HM & HT).
  set (a := zpsg (svz p) / (2 * svk p)). set (e := exp (- (svk p * svh p))). set (r := sqrt (1 - svrho p ^ 2)). set (b := svrho p - a).
  assert (Hs : r ^ 2 = 1 - svrho p ^ 2).
  { unfold r. rewrite <- Rsqr_pow2. apply Rsqr_sqrt. apply Rabs_le_between in Hr. nra. }
  assert (S : E (fun w => (sv_ret p z (IE w) (I w) (Is w) - sv_mean p z) ^ 2) =
    b ^ 2 * M (0, 2, 0)%Z (svh p) + ((a * e) ^ 2 * M (2, 0, 0)%Z (svh p) + (r ^ 2 * M (0, 0, 2)%Z (svh p) + (2 * b * a * e) * M (1, 1, 0)%Z (svh p)))).
  { rewrite <- (Rplus_0_r (2 * b * a * e * M (1, 1, 0)%Z (svh p))).
    transitivity (b ^ 2 * M (0, 2, 0)%Z (svh p) + ((a * e) ^ 2 * M (2, 0, 0)%Z (svh p) + (r ^ 2 * M (0, 0, 2)%Z (svh p) + ((2 * b * a * e) * M (1, 1, 0)%Z (svh p)
       + ((2 * b * r) * M (0, 1, 1)%Z (svh p) + (2 * a * e * r) * M (1, 0, 1)%Z (svh p))))));
      [|rewrite (M_011 _ _ _ HM), (M_101 _ _ _ HM) by assumption; ring].
    rewrite <- (HT 0 2 0)%Z, <- (HT 2 0 0)%Z, <- (HT 0 0 2)%Z, <- (HT 1 1 0)%Z, <- (HT 0 1 1)%Z, <- (HT 1 0 1)%Z by lia.
    rewrite <- !(E_scal E HE), <- !(E_plus E HE). apply (E_ext E HE). intro w. rewrite ret_centred by assumption. fold a e r b.
    change (Z.to_nat 0) with 0%nat. change (Z.to_nat 1) with 1%nat. change (Z.to_nat 2) with 2%nat. ring. }
  rewrite S.
  assert (D : forall i, In i [(0, 2, 0); (2, 0, 0); (0, 0, 2); (1, 1, 0)]%Z -> zdom i) by (cbn; intuition (subst; repeat split; lia)).
  pose proof (M_second _ _ _ HM (0, 2, 0)%Z _ (svh p) ltac:(apply D; cbn; tauto) Hh eq_refl eq_refl) as h1.
  pose proof (M_second _ _ _ HM (2, 0, 0)%Z _ (svh p) ltac:(apply D; cbn; tauto) Hh eq_refl eq_refl) as h2.
  pose proof (M_second _ _ _ HM (0, 0, 2)%Z _ (svh p) ltac:(apply D; cbn; tauto) Hh eq_refl eq_refl) as h3.
  pose proof (M_second _ _ _ HM (1, 1, 0)%Z _ (svh p) ltac:(apply D; cbn; tauto) Hh eq_refl eq_refl) as h4.
  apply (is_RInt_scal _ _ _ (b ^ 2)) in h1. apply (is_RInt_scal _ _ _ ((a * e) ^ 2)) in h2. apply (is_RInt_scal _ _ _ (r ^ 2)) in h3. apply (is_RInt_scal _ _ _ (2 * b * a * e)) in h4.
  pose proof (is_RInt_plus _ _ _ _ _ _ h1 (is_RInt_plus _ _ _ _ _ _ h2 (is_RInt_plus _ _ _ _ _ _ h3 h4))) as h.
  revert h. apply is_RInt_ext. intros s _. unfold plus, Hierarchy.scal, mult; cbn -[IZR pow]. unfold mult; cbn -[IZR pow].
  unfold diffz, wt. rewrite exp_split. fold e. rewrite Hs. unfold b, a, svk in *. field. exact Hk.
Qed.

Theorem C65_svvj : forall p z nums tups, jump_dict p z [] nums tups -> 0 <= svh p -> jumps_ok z ->
  m_svvj 1%Z (mkJpar nums tups) = Ok (sv_mean p z) /\ cm_svvj 2%Z (mkJpar nums tups) = Ok (RInt (diffz p z) 0 (svh p)).
Proof.
  intros p z nums tups HD Hh Hz. destruct (C43_hypotheses_hold p z 2%Z 0 0 0 ltac:(lia) Hh Hz) as (Om & E & IE & I & Is & J & HE & HW & HJ).
  pose proof HD as (Hk & Hr & _). split.
  - assert (HW1 : given_path Om E p z 1%Z IE I Is).
    { destruct HW as (_ & _ & M & HM & HT). split; [exact Hh|]. split; [exact Hz|]. exists M. split; [exact HM|]. intros x y u hx hy hu hs. apply HT; lia. }
    assert (l1 : (1 <= 3)%Z) by lia. assert (l0 : (0 <= 1)%Z) by lia.
    rewrite (proj1 (C59_svvj_end 1%Z p z nums tups Om E IE I Is HD HE (or_intror (conj HW1 l1))) l0). f_equal.
    assert (L : E (fun w => sv_ret p z (IE w) (I w) (Is w)) = sv_mean p z).
    { pose proof (C43_sv_cmoments_partial 1%Z) as h. apply returns_inv in h. destruct h as (cs & _ & T). destruct T as (_ & T).
      destruct (T 1%Z ltac:(lia) ltac:(lia)) as (q & _ & _ & _ & _ & V). exact (proj2 (V Om E p z IE I Is Hk HE HW1) ltac:(lia)). }
    rewrite <- L. apply (E_ext E HE). intro. change (Z.to_nat 1) with 1%nat. ring.
  - assert (l1 : (2 <= 3)%Z) by lia. assert (l0 : (1 <= 2)%Z) by lia.
    rewrite (proj2 (C59_svvj_end 2%Z p z nums tups Om E IE I Is HD HE (or_intror (conj HW l1))) l0). apply (f_equal Ok).
    symmetry. apply is_RInt_unique. now apply path_var.
Qed.

(** ** Jumps of the price *)
Ltac exp0 := repeat (match goal with |- context [exp ?x] => lazymatch x with context [exp _] => fail | _ => replace (exp x) with 1 by (rewrite <- exp_0; f_equal; field) end end).
Lemma mgf_cpp_1 L mu s2 : Derive_n (mgf_cpp L mu s2) 1 0 = L * mu.
Proof.
  cbn. apply is_derive_unique. unfold mgf_cpp, mgf_normal. auto_derive; [trivial|]. exp0. field.
Qed.
Lemma mgf_cpp_2 L mu s2 : Derive_n (mgf_cpp L mu s2) 2 0 = L * (mu ^ 2 + s2) + (L * mu) ^ 2.
Proof.
  cbn [Derive_n]. rewrite (Derive_ext _ (fun s => mgf_cpp L mu s2 s * (L * ((mu + s2 * s) * mgf_normal mu s2 s)))).
  2:{ intro s. change (Derive (mgf_cpp L mu s2) s = mgf_cpp L mu s2 s * (L * ((mu + s2 * s) * mgf_normal mu s2 s))). apply is_derive_unique. unfold mgf_cpp, mgf_normal. auto_derive; [trivial|].
      set (n := exp (mu * s + s2 / 2 * s ^ 2)).
      repeat (match goal with |- context [exp ?x] => lazymatch x with context [exp _] => fail | context [n] => fail | _ => replace (exp x) with n by (unfold n; f_equal; field) end end).
      repeat (match goal with |- context [exp ?x] => replace (exp x) with (exp (L * (n - 1))) by (f_equal; field); generalize (exp (L * (n - 1))); intro end). field. }
  apply is_derive_unique. unfold mgf_cpp, mgf_normal. auto_derive; [trivial|]. exp0. field.
Qed.
Theorem C65_svij : forall p z lam mus sgs nums tups, jump_dict p z [("lmbd_s", lam); ("mu_s", mus); ("sigma_s", sgs)]%string nums tups -> 0 <= svh p -> jumps_ok z ->
  cm_svij 2%Z (mkJpar nums tups) = Ok (RInt (diffz p z) 0 (svh p) + lam * svh p * (mus ^ 2 + sgs ^ 2)).
Proof.
  intros p z lam mus sgs nums tups HD Hh Hz. destruct (C43_hypotheses_hold p z 2%Z lam mus sgs ltac:(lia) Hh Hz) as (Om & E & IE & I & Is & J & HE & HW & HJ).
  pose proof HD as (Hk & Hr & _). assert (l1 : (2 <= 3)%Z) by lia. assert (l0 : (1 <= 2)%Z) by lia.
  rewrite (proj2 (C59_svij_end 2%Z p z lam mus sgs nums tups Om E IE I Is J HD HE (or_intror (conj HW l1)) HJ) l0). apply (f_equal Ok).
  rewrite (is_RInt_unique _ _ _ _ (path_var p z Om E IE I Is Hk Hr HE HW)).
  destruct HJ as [HJ HI]. set (Y := fun w => sv_ret p z (IE w) (I w) (Is w)) in *.
  pose proof (HJ 0%nat ltac:(lia)) as j0. pose proof (HJ 1%nat ltac:(lia)) as j1. pose proof (HJ 2%nat ltac:(lia)) as j2. rewrite mgf_cpp_1 in j1. rewrite mgf_cpp_2 in j2.
  assert (c0 : Derive_n (mgf_cpp (lam * svh p) mus (sgs ^ 2)) 0 0 = 1).
  { cbn [Derive_n]. unfold mgf_cpp, mgf_normal. exp0. reflexivity. }
  rewrite c0 in j0. pose proof (HI 1%nat 1%nat ltac:(lia)) as y1. rewrite j1 in y1.
  assert (L : E Y = sv_mean p z).
  { pose proof (C43_sv_cmoments_partial 1%Z) as h. apply returns_inv in h. destruct h as (cs & _ & T). destruct T as (_ & T).
    assert (HW1 : given_path Om E p z 1%Z IE I Is).
    { destruct HW as (_ & _ & M & HM & HT). split; [exact Hh|]. split; [exact Hz|]. exists M. split; [exact HM|]. intros x y u hx hy hu hs. apply HT; lia. }
    destruct (T 1%Z ltac:(lia) ltac:(lia)) as (q & _ & _ & _ & _ & V). exact (proj2 (V Om E p z IE I Is Hk HE HW1) ltac:(lia)). }
  assert (Y1 : E (fun w => Y w ^ 1) = sv_mean p z) by (rewrite <- L; apply (E_ext E HE); intro; ring). rewrite Y1 in y1.
  set (m := sv_mean p z) in *. set (c := lam * svh p * mus) in *. change (Z.to_nat 2) with 2%nat.
  transitivity (E (fun w => (Y w - m) ^ 2) + (2 * E (fun w => Y w ^ 1 * J w ^ 1) + (E (fun w => J w ^ 2) + ((- 2 * c) * E (fun w => Y w ^ 1) + ((- 2 * (m + c)) * E (fun w => J w ^ 1) + (c ^ 2 + 2 * m * c) * E (fun w => J w ^ 0)))))).
  - rewrite <- !(E_scal E HE), <- !(E_plus E HE). apply (E_ext E HE). intro w. unfold Y. ring.
  - rewrite y1, j2, j1, j0, Y1. unfold Y. unfold c. ring.
Qed.

Lemma nmom_012 m s : nmom m s 0 = 1 /\ nmom m s 1 = m /\ nmom m s 2 = m ^ 2 + s ^ 2.
Proof.
  unfold nmom. change (Z.to_nat 0) with 0%nat. change (Z.to_nat 1) with 1%nat. change (Z.to_nat 2) with 2%nat. split; [|split].
  - cbn [Derive_n]. unfold mgf_normal. exp0. reflexivity.
  - cbn [Derive_n]. apply is_derive_unique. unfold mgf_normal. auto_derive; [trivial|]. exp0. field.
  - cbn [Derive_n]. rewrite (Derive_ext _ (fun t => (m + s ^ 2 * t) * mgf_normal m (s ^ 2) t)).
    2:{ intro t. change (Derive (mgf_normal m (s ^ 2)) t = (m + s ^ 2 * t) * mgf_normal m (s ^ 2) t). apply is_derive_unique. unfold mgf_normal. auto_derive; [trivial|].
        repeat (match goal with |- context [exp ?x] => replace (exp x) with (exp (m * t + s ^ 2 / 2 * t ^ 2)) by (f_equal; field); generalize (exp (m * t + s ^ 2 / 2 * t ^ 2)); intro end). field. }
    apply is_derive_unique. unfold mgf_normal. auto_derive; [trivial|]. exp0. field.
Qed.

(** independent price jumps: means and variances add up *)
Section Jumps.
Variables (mus rhoJ sgs : R) (Om : Type) (E : (Om -> R) -> R).
Hypothesis HE : expectation E.
Notation jm := (jmean mus rhoJ).
Definition prods (G : Om -> R) (g : R) (N : Z) (Xs : list (Om -> R)) (z : path) : Prop :=
  length Xs = length z /\ forall al, length al = length z -> Forall (fun a => 0 <= a)%Z al -> (fold_right Z.add 0 al <= N)%Z ->
    E (fun w => G w * powprod (map (fun X => X w) Xs) al) = g * jprod mus rhoJ sgs z al.
Definition zeros (z : path) : list Z := map (fun _ => 0%Z) z.
Lemma zeros_ok z : length (zeros z) = length z /\ Forall (fun a => 0 <= a)%Z (zeros z) /\ fold_right Z.add 0%Z (zeros z) = 0%Z /\ jprod mus rhoJ sgs z (zeros z) = 1.
Proof.
  induction z as [|sj z (h1 & h2 & h3 & h4)]; [repeat split; constructor|]. cbn [zeros map length fold_right jprod] in *. unfold zeros in h1, h2, h3, h4. rewrite h1, h3, h4.
  split; [reflexivity|]. split; [constructor; [lia|exact h2]|]. split; [reflexivity|]. rewrite (proj1 (nmom_012 _ _)). ring.
Qed.
Lemma powprod_zeros (xs : list R) (z : path) : length xs = length z -> powprod xs (zeros z) = 1.
Proof. revert xs. induction z as [|sj z IH]; intros [|x xs] H; try discriminate; [reflexivity|]. cbn in H |- *. fold (zeros z). rewrite IH by lia. ring. Qed.
Lemma prods_head G g N X Xs sj z (a : Z) : prods G g N (X :: Xs) (sj :: z) -> (0 <= a <= N)%Z ->
  prods (fun w => G w * X w ^ Z.to_nat a) (g * nmom (jm sj) sgs a) (N - a) Xs z.
Proof.
  intros [HL H] Ha. split; [cbn in HL; lia|]. intros al h1 h2 h3.
  specialize (H (a :: al) ltac:(cbn; lia) ltac:(constructor; [lia|exact h2]) ltac:(cbn [fold_right]; lia)). cbn [jprod] in H. rewrite Rmult_assoc, <- H.
  apply (E_ext E HE). intro w. cbn [map powprod]. ring.
Qed.
Lemma prods_tail G g N X Xs sj z : prods G g N (X :: Xs) (sj :: z) -> (0 <= N)%Z -> prods G g N Xs z.
Proof.
  intros H HN. pose proof (prods_head _ _ _ _ _ _ _ 0%Z H ltac:(lia)) as [HL h]. rewrite (proj1 (nmom_012 _ _)), Rmult_1_r, Z.sub_0_r in h. split; [exact HL|]. intros al h1 h2 h3.
  rewrite <- (h al h1 h2 h3). apply (E_ext E HE). intro w. cbn. ring.
Qed.
Lemma prods_0 G g Xs z : prods G g 0 Xs z -> E G = g.
Proof.
  intros [HL H]. destruct (zeros_ok z) as (h1 & h2 & h3 & h4). specialize (H (zeros z) h1 h2 ltac:(lia)). rewrite h4, Rmult_1_r in H. rewrite <- H.
  apply (E_ext E HE). intro w. rewrite powprod_zeros by now rewrite map_length. ring.
Qed.
Lemma prods_1 Xs : forall z G g, prods G g 1 Xs z -> E (fun w => G w * sumR (fun X => X w) Xs) = g * jumps_mean mus rhoJ z.
Proof.
  induction Xs as [|X Xs IH]; intros [|sj z] G g H; try (destruct H; discriminate).
  - unfold jumps_mean. transitivity (0 * E G); [rewrite <- (E_scal E HE); apply (E_ext E HE); intro; cbn; ring|cbn; ring].
  - pose proof (prods_head _ _ _ _ _ _ _ 1%Z H ltac:(lia)) as h. apply prods_0 in h. rewrite (proj1 (proj2 (nmom_012 _ _))) in h.
    pose proof (IH z G g (prods_tail _ _ _ _ _ _ _ H ltac:(lia))) as h'.
    assert (JM : jumps_mean mus rhoJ (sj :: z) = jm sj + jumps_mean mus rhoJ z) by reflexivity. rewrite JM.
    transitivity (g * jm sj + g * jumps_mean mus rhoJ z); [|ring]. rewrite <- h, <- h', <- (E_plus E HE). apply (E_ext E HE). intro w.
    change (Z.to_nat 1) with 1%nat. change (sumR (fun X0 : Om -> R => X0 w) (X :: Xs)) with (X w + sumR (fun X0 : Om -> R => X0 w) Xs). ring.
Qed.
Lemma prods_2 Xs : forall z G g, prods G g 2 Xs z -> E (fun w => G w * sumR (fun X => X w) Xs ^ 2) = g * (jumps_mean mus rhoJ z ^ 2 + INR (length z) * sgs ^ 2).
Proof.
  induction Xs as [|X Xs IH]; intros [|sj z] G g H; try (destruct H; discriminate).
  - unfold jumps_mean. transitivity (0 * E G); [rewrite <- (E_scal E HE); apply (E_ext E HE); intro; cbn; ring|cbn; ring].
  - pose proof (prods_head _ _ _ _ _ _ _ 2%Z H ltac:(lia)) as h2. apply prods_0 in h2. rewrite (proj2 (proj2 (nmom_012 _ _))) in h2.
    pose proof (prods_1 _ _ _ _ (prods_head _ _ _ _ _ _ _ 1%Z H ltac:(lia))) as h1. rewrite (proj1 (proj2 (nmom_012 _ _))) in h1.
    pose proof (IH z G g (prods_tail _ _ _ _ _ _ _ H ltac:(lia))) as h'. cbn [length]. rewrite S_INR.
    assert (JM : jumps_mean mus rhoJ (sj :: z) = jm sj + jumps_mean mus rhoJ z) by reflexivity. rewrite JM.
    transitivity (g * (jm sj ^ 2 + sgs ^ 2) + (2 * (g * jm sj * jumps_mean mus rhoJ z) + g * (jumps_mean mus rhoJ z ^ 2 + INR (length z) * sgs ^ 2))); [|ring].
    rewrite <- h2, <- h1, <- h', <- (E_scal E HE), <- !(E_plus E HE). apply (E_ext E HE). intro w.
    change (Z.to_nat 2) with 2%nat. change (Z.to_nat 1) with 1%nat. change (sumR (fun X0 : Om -> R => X0 w) (X :: Xs)) with (X w + sumR (fun X0 : Om -> R => X0 w) Xs). ring.
Qed.
End Jumps.

Theorem C65_svcj_path : forall p z mus rhoJ sgs nums tups, jump_dict p z [("mu_s", mus); ("rho_J", rhoJ); ("sigma_s", sgs)]%string nums tups -> 0 <= svh p -> jumps_ok z ->
  m_svcj 1%Z (mkJpar nums tups) = Ok (sv_mean p z + sumR (fun sj => mus + rhoJ * snd sj) z) /\
  cm_svcj 2%Z (mkJpar nums tups) = Ok (RInt (diffz p z) 0 (svh p) + INR (length z) * sgs ^ 2).
Proof.
  intros p z mus rhoJ sgs nums tups HD Hh Hz. change (sumR (fun sj : R * R => mus + rhoJ * snd sj) z) with (jumps_mean mus rhoJ z).
  destruct (C45_hypotheses_hold p z 2%Z mus rhoJ sgs ltac:(lia) Hh Hz) as (Om & E & IE & I & Is & Xs & HE & HW & HX).
  pose proof HD as (Hk & Hr & _).
  assert (HW1 : given_path Om E p z 1%Z IE I Is).
  { destruct HW as (_ & _ & M & HM & HT). split; [exact Hh|]. split; [exact Hz|]. exists M. split; [exact HM|]. intros x y u hx hy hu hs. apply HT; lia. }
  assert (L : E (fun w => sv_ret p z (IE w) (I w) (Is w)) = sv_mean p z).
  { pose proof (C43_sv_cmoments_partial 1%Z) as h. apply returns_inv in h. destruct h as (cs & _ & T). destruct T as (_ & T).
    destruct (T 1%Z ltac:(lia) ltac:(lia)) as (q & _ & _ & _ & _ & V). exact (proj2 (V Om E p z IE I Is Hk HE HW1) ltac:(lia)). }
  assert (HX1 : price_jumps mus rhoJ sgs E p z 1 IE I Is Xs).
  { destruct HX as [h1 h2]. split; [exact h1|]. intros i al a b c d. apply h2; trivial. lia. }
  assert (l1 : (1 <= 3)%Z) by lia. assert (l2 : (2 <= 3)%Z) by lia. assert (g1 : (1 <= 1)%Z) by lia. assert (g2 : (1 <= 2)%Z) by lia.
  rewrite (proj1 (C59_svcj_end 1%Z p z mus rhoJ sgs nums tups Om E IE I Is Xs g1 HD HE (or_intror (conj HW1 l1)) HX1)).
  rewrite (proj2 (C59_svcj_end 2%Z p z mus rhoJ sgs nums tups Om E IE I Is Xs g2 HD HE (or_intror (conj HW l2)) HX)).
  rewrite (is_RInt_unique _ _ _ _ (path_var p z Om E IE I Is Hk Hr HE HW)).
  set (Y := fun w => sv_ret p z (IE w) (I w) (Is w)) in *. set (m := sv_mean p z) in *. set (c := jumps_mean mus rhoJ z).
  assert (HW0 : E (fun _ => 1) = 1).
  { destruct HW as (_ & _ & HC). exact (cond_path_one _ E p z 2%Z IE I Is HE ltac:(lia) Hh HC). }
  assert (P0 : prods mus rhoJ sgs Om E (fun _ => 1) 1 2 Xs z).
  { destruct HX as [h1 h2]. split; [exact h1|]. intros al a1 a2 a3. specialize (h2 0%Z al ltac:(lia) a1 a2 ltac:(lia)).
    change (Z.to_nat 0) with 0%nat in h2. cbn [pow] in h2. rewrite HW0 in h2. exact h2. }
  assert (P1 : prods mus rhoJ sgs Om E Y m 1 Xs z).
  { destruct HX as [h1 h2]. split; [exact h1|]. intros al a1 a2 a3. specialize (h2 1%Z al ltac:(lia) a1 a2 ltac:(lia)).
    change (Z.to_nat 1) with 1%nat in h2. rewrite <- L. etransitivity; [|etransitivity; [exact h2|]]; [apply (E_ext E HE); intro w; unfold Y; ring|].
    apply (f_equal (fun x => x * jprod mus rhoJ sgs z al)). apply (E_ext E HE). intro w. unfold Y. ring. }
  pose proof (prods_2 mus rhoJ sgs Om E HE Xs z _ _ P0) as q2. pose proof (prods_1 mus rhoJ sgs Om E HE Xs z _ _ P1) as q1.
  assert (P01 : prods mus rhoJ sgs Om E (fun _ => 1) 1 1 Xs z) by (destruct P0 as [h1 h2]; split; [exact h1|]; intros; apply h2; trivial; lia).
  pose proof (prods_1 mus rhoJ sgs Om E HE Xs z _ _ P01) as q0. fold c in q0, q1, q2. set (S := fun w : Om => sumR (fun X : Om -> R => X w) Xs) in *.
  change (E (fun w => 1 * S w) = 1 * c) in q0. change (E (fun w => Y w * S w) = m * c) in q1. change (E (fun w => 1 * S w ^ 2) = 1 * (c ^ 2 + INR (length z) * sgs ^ 2)) in q2.
  split; apply (f_equal Ok); change (Z.to_nat 1) with 1%nat; change (Z.to_nat 2) with 2%nat.
  - transitivity (E Y + E (fun w => 1 * S w)); [|rewrite L, q0; ring]. rewrite <- (E_plus E HE). apply (E_ext E HE). intro w. unfold Y, S. ring.
  - transitivity (E (fun w => (Y w - m) ^ 2) + (2 * E (fun w => Y w * S w) + (E (fun w => 1 * S w ^ 2) + ((- 2 * c) * E Y + ((- 2 * (m + c)) * E (fun w => 1 * S w) + (c ^ 2 + 2 * m * c) * E (fun _ => 1)))))).
    + rewrite <- !(E_scal E HE), <- !(E_plus E HE). apply (E_ext E HE). intro w. unfold Y, S. ring.
    + rewrite q1, q2, L, q0, HW0. unfold Y. ring.
Qed.

(** ** The variances are positive for |rho| < 1 *)
Theorem C65_positive_path : forall p z, 0 < svk p -> 0 < svh p -> 0 < zpth (svz p) -> 0 <= zpv (svz p) -> jumps_ok z -> (forall sj, In sj z -> 0 <= snd sj) -> -1 < svrho p < 1 ->
  (forall nums tups, jump_dict p z [] nums tups -> exists v, cm_svvj 2%Z (mkJpar nums tups) = Ok v /\ 0 < v) /\
  (forall lam mus sgs nums tups, 0 <= lam -> jump_dict p z [("lmbd_s", lam); ("mu_s", mus); ("sigma_s", sgs)]%string nums tups -> exists v, cm_svij 2%Z (mkJpar nums tups) = Ok v /\ 0 < v) /\
  (forall mus rhoJ sgs nums tups, jump_dict p z [("mu_s", mus); ("rho_J", rhoJ); ("sigma_s", sgs)]%string nums tups -> exists v, cm_svcj 2%Z (mkJpar nums tups) = Ok v /\ 0 < v).
Proof.
  intros p z Hk Hh Ht Hv Hz HJ Hr.
  assert (Hh' : 0 <= svh p) by lra. assert (Hk' : svk p <> 0) by lra. assert (Hr' : Rabs (svrho p) <= 1) by (apply Rabs_le; lra).
  assert (P : 0 < RInt (diffz p z) 0 (svh p)).
  { destruct (C43_hypotheses_hold p z 2%Z 0 0 0 ltac:(lia) Hh' Hz) as (Om & E & IE & I & Is & J & HE & HW & _).
    pose proof (path_var p z Om E IE I Is Hk' Hr' HE HW) as hI.
    (* lower bound: the part of v without jumps *)
    pose proof (dvar_int (svk p) (zpth (svz p)) (zpv (svz p)) (zpsg (svz p)) (svrho p) (svh p) Hk') as hD.
    pose proof (diffu_pos (svk p) (zpth (svz p)) (zpv (svz p)) (zpsg (svz p)) (svrho p) (svh p) Hk Hh Ht Hv Hr) as hP.
    eapply Rlt_le_trans; [exact hP|]. apply RInt_le; [lra|eexists; exact hD|eexists; exact hI|]. intros s Hs. unfold diffu, diffz. fold (svk p).
    apply Rmult_le_compat_r; [pose proof (pow2_ge_0 (svrho p - zpsg (svz p) * wt (svk p) (svh p) s)); nra|].
    unfold ev, v_given. fold (svk p).
    assert (J0 : 0 <= exp (- (svk p * s)) * IEZ_path (svk p) z s).
    { apply Rmult_le_pos; [left; apply exp_pos|]. unfold IEZ_path. assert (G : forall l, (forall sj, In sj l -> 0 <= snd sj) -> 0 <= sumR (fun sj => exp (svk p * fst sj) * snd sj) l).
      { induction l as [|sj l IH]; intro H; [apply Rle_refl|]. change (0 <= exp (svk p * fst sj) * snd sj + sumR (fun sj => exp (svk p * fst sj) * snd sj) l).
        apply Rplus_le_le_0_compat; [apply Rmult_le_pos; [left; apply exp_pos|apply H; now left]|apply IH; intros; apply H; now right]. }
      apply G. intros sj H. apply HJ. unfold upto in H. apply filter_In in H. tauto. }
    lra. }
  split; [|split].
  - intros nums tups HD. eexists. split; [exact (proj2 (C65_svvj p z nums tups HD Hh' Hz))|exact P].
  - intros lam mus sgs nums tups Hl HD. eexists. split; [exact (C65_svij p z lam mus sgs nums tups HD Hh' Hz)|]. cbv beta.
    assert (0 <= lam * svh p * (mus ^ 2 + sgs ^ 2)); [|lra]. apply Rmult_le_pos; [now apply Rmult_le_pos|]. pose proof (pow2_ge_0 mus). pose proof (pow2_ge_0 sgs). lra.
  - intros mus rhoJ sgs nums tups HD. eexists. split; [exact (proj2 (C65_svcj_path p z mus rhoJ sgs nums tups HD Hh' Hz))|]. cbv beta.
    assert (0 <= INR (length z) * sgs ^ 2); [|lra]. apply Rmult_le_pos; [apply pos_INR|apply pow2_ge_0].
Qed.
(** two jumps, the second one at the horizon *)
Example C65_example_path : let z := [(1, 2); (3, 1)] in let p := mkSv (mkZpar 1 1 2 1) (1 / 8) 0 3 in
  jump_dict p z [("mu_s", 0); ("rho_J", 1); ("sigma_s", 1)]%string (nd (d1 0 1)) (td [1; 3] [2; 1]) /\ jumps_ok z /\
  exists v, cm_svcj 2%Z (mkJpar (nd (d1 0 1)) (td [1; 3] [2; 1])) = Ok v /\ 0 < v.
Proof.
  cbv zeta. set (z := [(1, 2); (3, 1)]). set (p := mkSv (mkZpar 1 1 2 1) (1 / 8) 0 3). destruct C59_example_dict as (h1 & h2 & _). fold z p in h1, h2.
  split; [exact h1|]. split; [exact h2|].
  assert (HJ : forall sj, In sj z -> 0 <= snd sj) by (intros sj [<-|[<-|[]]]; cbn; lra).
  destruct (C65_positive_path p z) as (_ & _ & H); [unfold p, svk; cbn; lra..|exact h2|exact HJ|unfold p; cbn; lra|]. exact (H 0 1 1 _ _ h1).
Qed.
