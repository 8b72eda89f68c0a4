(** Properties C28 and C40: mdl_2fsv/mom.py, cmom.py, cov.py and mdl_2fsvj/mom.py, cmom.py, cov.py. *)
From Coq Require Import Reals Lra.
From Coquelicot Require Import Coquelicot.
From Verif.Spec Require Import Fsv2 Cpp Names.
From Verif.Model Require Import Fsv2.
From Verif.Proof Require Import ItoProofs Realise Fsv2Proofs Fsv2jProofs ConvProofs.
From Verif.Props Require Import PropsItos.
Local Open Scope R_scope.

(** the values of the polynomials at a parameter point *)
Definition val2 (p : f2par) (q : Poly fkey) : R := eval (fmon (gk1 p) (gk2 p) (gh p) (f2vals p)) (items q).
Definition cval2 (p : f2par) (q : Poly fkey) : R := eval (fmon (gk1 p) (gk2 p) (gh p) (c2vals p)) (items q).
Definition val2j (p : f2par) (lam muj sj : R) (q : Poly fkey) : R :=
  eval (fmon (gk1 p) (gk2 p) (gh p) (f2vals p ++ [lam; muj; sj])) (items q).
Definition cval2j (p : f2par) (lam muj sj : R) (q : Poly fkey) : R :=
  eval (fmon (gk1 p) (gk2 p) (gh p) (c2vals p ++ [lam; muj; sj])) (items q).

(** ** C28 *)
Theorem C28_cov_yy : forall l1 l2 : Z, (0 <= l1)%Z -> (0 <= l2)%Z ->
  exists c m a b, cov_yy2 l1 l2 = Ok c /\ moment_yy2 l1 l2 = Ok m /\ moment_y2 l1 = Ok a /\ moment_y2 l2 = Ok b /\
    keyfor c = nm2_m /\ keyfor m = nm2_m /\ keyfor a = nm2_m /\ nonzero (items c) /\
    forall p : f2par, val2 p c = val2 p m - val2 p a * val2 p b.
Proof.
  intros l1 l2 H1 H2.
  destruct (returns_inv _ _ (moment_yy2_shape l1 l2 H1 H2)) as (m & Em & Wm).
  destruct (returns_inv _ _ (moment_y2_shape l1 H1)) as (a & Ea & Wa).
  destruct (returns_inv _ _ (moment_y2_shape l2 H2)) as (b & Eb & Wb).
  assert (S : forall p, returns (cov_yy2 l1 l2) (fun c => wfp P_f6 kf2_8 c /\ nonzero (items c) /\ val2 p c = val2 p m - val2 p a * val2 p b))
    by (intro p; apply (cov_yy2_sp (gk1 p) (gk2 p) (gh p) (gmu p) (gth1 p) (gsg1 p) (gth2 p) (gsg2 p) l1 l2 m a b H1 H2 Em Ea Eb)).
  destruct (returns_inv _ _ (S (mkF2 1 1 1 1 1 1 1 1))) as (c & Ec & Wc & Nc & _).
  exists c, m, a, b. do 4 (split; [assumption|]). split; [apply Wc|]. split; [apply Wm|]. split; [apply Wa|]. split; [assumption|].
  intro p. pose proof (S p) as h. rewrite Ec in h. apply h.
Qed.

Lemma sumR_rev {A} (f : A -> R) l : sumR f (rev l) = sumR f l.
Proof. induction l as [|a r IH]; [reflexivity|]. cbn [rev]. rewrite sumR_app, IH. cbn [sumR]. ring. Qed.
Lemma sumR_down (f : Z -> R) l : sumR f (range_down l) = sumR f (range 0 (l + 1)).
Proof. apply sumR_rev. Qed.

(** if the 2FSV moments are the moments of Y, the 2FSVJ moment is the moment of Y + J with J an
    independent compound Poisson sum *)
Theorem C28_moment_y : forall l : Z, (0 <= l)%Z ->
  exists q, jmoment_y2 l = Ok q /\ keyfor q = nm2_mj /\ nonzero (items q) /\
    forall (p : f2par) (lam muj sj : R) (Om : Type) (E : (Om -> R) -> R) (Y J : Om -> R), expectation E ->
      (forall i m, (0 <= i <= l)%Z -> moment_y2 i = Ok m -> E (fun w => Y w ^ Z.to_nat i) = val2 p m) ->
      cpp_moments E (Z.to_nat l) (lam * gh p) muj sj J -> indep E (Z.to_nat l) Y J ->
      val2j p lam muj sj q = E (fun w => (Y w + J w) ^ Z.to_nat l).
Proof.
  intros l Hl.
  pose proof (fun p lam muj sj => jmoment_y2_sp (gk1 p) (gk2 p) (gh p) (gmu p) (gth1 p) (gsg1 p) (gth2 p) (gsg2 p) lam muj sj l Hl) as S.
  destruct (returns_inv _ _ (S (mkF2 1 1 1 1 1 1 1 1) 0 0 0)) as (q & Eq & Wq & Nq & _).
  exists q. split; [assumption|]. split; [apply Wq|]. split; [assumption|].
  intros p lam muj sj Om E Y J HE HY HJ HI. specialize (S p lam muj sj). rewrite Eq in S. destruct S as (_ & _ & V).
  transitivity (evp (F9 (gk1 p) (gk2 p) (gh p) (gmu p) (gth1 p) (gsg1 p) (gth2 p) (gsg2 p) lam muj sj) tt q); [reflexivity|].
  rewrite V, sumR_down. rewrite <- (conv_E E HE Y J (Z.to_nat l) l Hl (le_n _) HI). apply sumR_ext.
  intros i Hi. apply in_range in Hi. f_equal. f_equal.
  - pose proof (moment_y2_shape i ltac:(lia)) as A. specialize (HY i). destruct (moment_y2 i) as [m|]; [|destruct A].
    cbn [vof]. symmetry. apply HY; [lia|reflexivity].
  - pose proof (mcpp_sp (lam * gh p) muj sj (l - i) ltac:(lia)) as B. destruct (mcpp (l - i)) as [c|]; [|destruct B].
    cbn [vof]. destruct B as [_ B]. rewrite B. symmetry. apply HJ. lia.
Qed.

Theorem C28_cmoment_y : forall l : Z, (0 <= l)%Z ->
  exists q, jcmoment_y2 l = Ok q /\ keyfor q = nm2_cmj /\ nonzero (items q) /\
    forall (p : f2par) (lam muj sj mean : R) (Om : Type) (E : (Om -> R) -> R) (Y J : Om -> R), expectation E ->
      (forall i m, (0 <= i <= l)%Z -> cmoment_y2 i = Ok m -> E (fun w => (Y w - mean) ^ Z.to_nat i) = cval2 p m) ->
      cpp_moments E (Z.to_nat l) (lam * gh p) muj sj J ->
      indep E (Z.to_nat l) (fun w => Y w - mean) (fun w => J w - lam * gh p * muj) ->
      cval2j p lam muj sj q = E (fun w => (Y w + J w - (mean + lam * gh p * muj)) ^ Z.to_nat l).
Proof.
  intros l Hl.
  pose proof (fun p lam muj sj => jcmoment_y2_sp (gk1 p) (gk2 p) (gh p) (gth1 p) (gsg1 p) (gth2 p) (gsg2 p) lam muj sj l Hl) as S.
  destruct (returns_inv _ _ (S (mkF2 1 1 1 1 1 1 1 1) 0 0 0)) as (q & Eq & Wq & Nq & _).
  exists q. split; [assumption|]. split; [apply Wq|]. split; [assumption|].
  intros p lam muj sj mean Om E Y J HE HY HJ HI. specialize (S p lam muj sj). rewrite Eq in S. destruct S as (_ & _ & V).
  transitivity (evp (F8 (gk1 p) (gk2 p) (gh p) (gth1 p) (gsg1 p) (gth2 p) (gsg2 p) lam muj sj) tt q); [reflexivity|].
  rewrite V, sumR_down.
  rewrite (E_ext E HE _ (fun w => (Y w - mean + (J w - lam * gh p * muj)) ^ Z.to_nat l)) by (intro w; f_equal; ring).
  rewrite <- (conv_E E HE _ _ (Z.to_nat l) l Hl (le_n _) HI). apply sumR_ext.
  intros i Hi. apply in_range in Hi. f_equal. f_equal.
  - pose proof (cmoment_y2_shape i ltac:(lia)) as A. specialize (HY i). destruct (cmoment_y2 i) as [m|]; [|destruct A].
    cbn [vof]. symmetry. apply HY; [lia|reflexivity].
  - pose proof (cmcpp_sp E HE (lam * gh p) muj sj J (l - i) ltac:(lia)) as B.
    specialize (B ltac:(intros j Hj; apply HJ; lia)). destruct (cmcpp (l - i)) as [c|]; [|destruct B].
    cbn [vof]. apply B.
Qed.

Lemma conv2_E' {Om} (E : (Om -> R) -> R) (HE : expectation E) (Y0 Y1 J0 J1 : Om -> R) l1 l2 :
  (0 <= l1)%Z -> (0 <= l2)%Z -> indep3 E (Z.to_nat (l1 + l2)) Y0 Y1 J0 J1 ->
  sumR (fun i => sumR (fun j => IZR (mcomb l1 i * mcomb l2 j) * (E (fun w => Y0 w ^ Z.to_nat i * Y1 w ^ Z.to_nat j) *
     (E (fun w => J0 w ^ Z.to_nat (l1 - i)) * E (fun w => J1 w ^ Z.to_nat (l2 - j))))) (range 0 (l2 + 1))) (range 0 (l1 + 1))
  = E (fun w => (Y0 w + J0 w) ^ Z.to_nat l1 * (Y1 w + J1 w) ^ Z.to_nat l2).
Proof.
  intros Hl1 Hl2 HI.
  rewrite (E_ext E HE (fun w => (Y0 w + J0 w) ^ Z.to_nat l1 * (Y1 w + J1 w) ^ Z.to_nat l2)
    (fun w => sumR (fun i => sumR (fun j => IZR (mcomb l1 i * mcomb l2 j) *
      (Y0 w ^ Z.to_nat i * Y1 w ^ Z.to_nat j * (J0 w ^ Z.to_nat (l1 - i) * J1 w ^ Z.to_nat (l2 - j)))) (range 0 (l2 + 1))) (range 0 (l1 + 1)))).
  - rewrite (E_sumR E HE (fun i w => sumR (fun j => IZR (mcomb l1 i * mcomb l2 j) *
      (Y0 w ^ Z.to_nat i * Y1 w ^ Z.to_nat j * (J0 w ^ Z.to_nat (l1 - i) * J1 w ^ Z.to_nat (l2 - j)))) (range 0 (l2 + 1)))).
    apply sumR_ext. intros i Hi. apply in_range in Hi.
    rewrite (E_sumR E HE (fun j w => IZR (mcomb l1 i * mcomb l2 j) *
      (Y0 w ^ Z.to_nat i * Y1 w ^ Z.to_nat j * (J0 w ^ Z.to_nat (l1 - i) * J1 w ^ Z.to_nat (l2 - j))))).
    apply sumR_ext. intros j Hj. apply in_range in Hj. rewrite (E_scal E HE), HI by lia. ring.
  - intro w. rewrite (binomial_range (Y0 w) (J0 w) l1 Hl1), (binomial_range (Y1 w) (J1 w) l2 Hl2).
    rewrite <- sumR_scal_r. apply sumR_ext. intros i _. rewrite <- sumR_scal. apply sumR_ext. intros j _.
    rewrite mult_IZR. ring.
Qed.

Theorem C28_moment_yy : forall l1 l2 : Z, (0 <= l1)%Z -> (0 <= l2)%Z ->
  exists q, jmoment_yy2 l1 l2 = Ok q /\ keyfor q = nm2_mj /\ nonzero (items q) /\
    forall (p : f2par) (lam muj sj : R) (Om : Type) (E : (Om -> R) -> R) (Y0 Y1 J0 J1 : Om -> R), expectation E ->
      (forall i j m, (0 <= i <= l1)%Z -> (0 <= j <= l2)%Z -> moment_yy2 i j = Ok m ->
         E (fun w => Y0 w ^ Z.to_nat i * Y1 w ^ Z.to_nat j) = val2 p m) ->
      cpp_moments E (Z.to_nat l1) (lam * gh p) muj sj J0 -> cpp_moments E (Z.to_nat l2) (lam * gh p) muj sj J1 ->
      indep3 E (Z.to_nat (l1 + l2)) Y0 Y1 J0 J1 ->
      val2j p lam muj sj q = E (fun w => (Y0 w + J0 w) ^ Z.to_nat l1 * (Y1 w + J1 w) ^ Z.to_nat l2).
Proof.
  intros l1 l2 H1 H2.
  pose proof (fun p lam muj sj => jmoment_yy2_sp (gk1 p) (gk2 p) (gh p) (gmu p) (gth1 p) (gsg1 p) (gth2 p) (gsg2 p) lam muj sj l1 l2 H1 H2) as S.
  destruct (returns_inv _ _ (S (mkF2 1 1 1 1 1 1 1 1) 0 0 0)) as (q & Eq & Wq & Nq & _).
  exists q. split; [assumption|]. split; [apply Wq|]. split; [assumption|].
  intros p lam muj sj Om E Y0 Y1 J0 J1 HE HY HJ0 HJ1 HI. specialize (S p lam muj sj). rewrite Eq in S. destruct S as (_ & _ & V).
  transitivity (evp (F9 (gk1 p) (gk2 p) (gh p) (gmu p) (gth1 p) (gsg1 p) (gth2 p) (gsg2 p) lam muj sj) tt q); [reflexivity|].
  rewrite V, sumR_down, <- (conv2_E' E HE Y0 Y1 J0 J1 l1 l2 H1 H2 HI).
  apply sumR_ext. intros i Hi. apply in_range in Hi. rewrite sumR_down. apply sumR_ext. intros j Hj. apply in_range in Hj.
  f_equal. f_equal; [|f_equal].
  - pose proof (moment_yy2_shape i j ltac:(lia) ltac:(lia)) as A. specialize (HY i j). destruct (moment_yy2 i j) as [m|]; [|destruct A].
    cbn [vof]. symmetry. apply HY; [lia|lia|reflexivity].
  - pose proof (mcpp_sp (lam * gh p) muj sj (l1 - i) ltac:(lia)) as B. destruct (mcpp (l1 - i)) as [c|]; [|destruct B].
    cbn [vof]. destruct B as [_ B]. rewrite B. symmetry. apply HJ0. lia.
  - pose proof (mcpp_sp (lam * gh p) muj sj (l2 - j) ltac:(lia)) as B. destruct (mcpp (l2 - j)) as [c|]; [|destruct B].
    cbn [vof]. destruct B as [_ B]. rewrite B. symmetry. apply HJ1. lia.
Qed.

Theorem C28_jump_cov_yy : forall l1 l2 : Z, (0 <= l1)%Z -> (0 <= l2)%Z ->
  exists c m a b, jcov_yy2 l1 l2 = Ok c /\ jmoment_yy2 l1 l2 = Ok m /\ jmoment_y2 l1 = Ok a /\ jmoment_y2 l2 = Ok b /\
    keyfor c = nm2_mj /\ nonzero (items c) /\
    forall (p : f2par) (lam muj sj : R), val2j p lam muj sj c = val2j p lam muj sj m - val2j p lam muj sj a * val2j p lam muj sj b.
Proof.
  intros l1 l2 H1 H2.
  pose proof (fun p lam muj sj => jcov_yy2_sp (gk1 p) (gk2 p) (gh p) (gmu p) (gth1 p) (gsg1 p) (gth2 p) (gsg2 p) lam muj sj l1 l2 H1 H2) as S.
  destruct (returns_inv _ _ (S (mkF2 1 1 1 1 1 1 1 1) 0 0 0)) as (c & Ec & Wc & Nc & _).
  destruct (C28_moment_yy l1 l2 H1 H2) as (m & Em & _). destruct (C28_moment_y l1 H1) as (a & Ea & _). destruct (C28_moment_y l2 H2) as (b & Eb & _).
  exists c, m, a, b. do 4 (split; [assumption|]). split; [apply Wc|]. split; [assumption|].
  intros p lam muj sj. specialize (S p lam muj sj). rewrite Ec, Em, Ea, Eb in S. apply S.
Qed.

(** the hypotheses of the jump theorems can be met for all parameters and orders *)
Theorem C28_hypotheses_hold : forall (p : f2par) (lam muj sj : R) (l1 l2 : Z), (0 <= l1)%Z -> (0 <= l2)%Z ->
  exists (Om : Type) (E : (Om -> R) -> R) (Y0 Y1 J0 J1 : Om -> R), expectation E /\
    (forall i j m, (0 <= i <= l1)%Z -> (0 <= j <= l2)%Z -> moment_yy2 i j = Ok m ->
       E (fun w => Y0 w ^ Z.to_nat i * Y1 w ^ Z.to_nat j) = val2 p m) /\
    cpp_moments E (Z.to_nat l1) (lam * gh p) muj sj J0 /\ cpp_moments E (Z.to_nat l2) (lam * gh p) muj sj J1 /\
    indep3 E (Z.to_nat (l1 + l2)) Y0 Y1 J0 J1.
Proof.
  intros p lam muj sj l1 l2 H1 H2. set (c n := Derive_n (mgf_cpp (lam * gh p) muj (sj ^ 2)) (Z.to_nat n) 0).
  set (mo i j := match moment_yy2 i j with Ok m => val2 p m | Err _ => 0 end).
  set (tab := fun ns => match ns with [i; j; k; l] => mo i j * (c k * c l) | _ => 0 end).
  set (E := Efin (realise (Z.to_nat (l1 + l2)) 4 tab)).
  assert (HE : expectation E) by apply Efin_expectation.
  assert (T : forall i j k l : Z, (0 <= i)%Z -> (0 <= j)%Z -> (0 <= k)%Z -> (0 <= l)%Z -> (i <= l1 + l2)%Z -> (j <= l1 + l2)%Z -> (k <= l1 + l2)%Z -> (l <= l1 + l2)%Z ->
    E (fun xs => nthR xs 0 ^ Z.to_nat i * nthR xs 1 ^ Z.to_nat j * (nthR xs 2 ^ Z.to_nat k * nthR xs 3 ^ Z.to_nat l)) = mo i j * (c k * c l)).
  { intros i j k l h1 h2 h3 h4 h5 h6 h7 h8. change (mo i j * (c k * c l)) with (tab [i; j; k; l]).
    rewrite <- (realise_spec (Z.to_nat (l1 + l2)) 4 tab [i; j; k; l]);
      [|reflexivity|repeat (apply Forall_cons; [lia|]); apply Forall_nil].
    unfold E, Efin. apply sumR_ext. intros [r xs] Hin. cbn [fst snd]. f_equal.
    pose proof (realise_len _ _ _ _ _ Hin) as Hl. destruct xs as [|x [|y [|z [|u [|? ?]]]]]; try discriminate.
    unfold nthR. cbn [powprod]. change (Z.to_nat 0) with 0%nat. change (Z.to_nat 1) with 1%nat.
    change (Z.to_nat 2) with 2%nat. change (Z.to_nat 3) with 3%nat. cbn [nth]. ring. }
  assert (c0 : c 0%Z = 1).
  { unfold c. change (Z.to_nat 0) with 0%nat. cbn [Derive_n]. unfold mgf_cpp, mgf_normal. rewrite <- exp_0 at 2. f_equal.
    replace (muj * 0 + sj ^ 2 / 2 * 0 ^ 2) with 0 by field. rewrite exp_0. ring. }
  assert (m0 : mo 0%Z 0%Z = 1).
  { unfold mo. set (r := moment_yy2 0 0). vm_compute in r. subst r. unfold val2. cbn [items eval fmon denv monx f2vals].
    change (powerRZ ?x 0) with 1. rewrite !Rmult_0_l, Rplus_0_l, Rmult_0_l, Ropp_0, exp_0.
    rewrite !pw_0. unfold Q2R. cbn [Qnum Qden]. lra. }
  assert (TY : forall i j : Z, (0 <= i)%Z -> (0 <= j)%Z -> (i <= l1 + l2)%Z -> (j <= l1 + l2)%Z ->
    E (fun xs => nthR xs 0 ^ Z.to_nat i * nthR xs 1 ^ Z.to_nat j) = mo i j).
  { intros i j h1 h2 h3 h4. pose proof (T i j 0%Z 0%Z) as t. rewrite c0, Rmult_1_r, Rmult_1_r in t. rewrite <- t by lia.
    apply (E_ext E HE). intro w. simpl. ring. }
  assert (T0 : forall k : Z, (0 <= k)%Z -> (k <= l1 + l2)%Z -> E (fun xs => nthR xs 2 ^ Z.to_nat k) = c k).
  { intros k h1 h2. pose proof (T 0%Z 0%Z k 0%Z) as t. rewrite c0, m0, Rmult_1_r, Rmult_1_l in t. rewrite <- t by lia.
    apply (E_ext E HE). intro w. simpl. ring. }
  assert (T1 : forall k : Z, (0 <= k)%Z -> (k <= l1 + l2)%Z -> E (fun xs => nthR xs 3 ^ Z.to_nat k) = c k).
  { intros k h1 h2. pose proof (T 0%Z 0%Z 0%Z k) as t. rewrite c0, m0, !Rmult_1_l in t. rewrite <- t by lia.
    apply (E_ext E HE). intro w. simpl. ring. }
  exists (list R), E, (fun w => nthR w 0), (fun w => nthR w 1), (fun w => nthR w 2), (fun w => nthR w 3).
  split; [exact HE|]. split; [|split; [|split]].
  - intros i j m Hi Hj Em. rewrite TY by lia. unfold mo. now rewrite Em.
  - intros i Hi. pose proof (T0 (Z.of_nat i) ltac:(lia) ltac:(lia)) as t. unfold c in t. rewrite Nat2Z.id in t. exact t.
  - intros i Hi. pose proof (T1 (Z.of_nat i) ltac:(lia) ltac:(lia)) as t. unfold c in t. rewrite Nat2Z.id in t. exact t.
  - intros i0 i1 j0 j1 Hs. rewrite <- (Nat2Z.id i0), <- (Nat2Z.id i1), <- (Nat2Z.id j0), <- (Nat2Z.id j1).
    rewrite T, TY, T0, T1 by lia. reflexivity.
Qed.

Example C28_example :
  jmoment_y2 1 = Ok (mkPoly
    [([(0, 0, 0)], ((0, 0), [1; 0; 1; 0; 0; 0; 0; 0; 0]), (-1 # 2)%Q); ([(0, 0, 0)], ((0, 0), [1; 0; 0; 0; 1; 0; 0; 0; 0]), (-1 # 2)%Q);
     ([(0, 0, 0)], ((0, 0), [1; 1; 0; 0; 0; 0; 0; 0; 0]), 1%Q); ([(0, 0, 0)], ((0, 0), [1; 0; 0; 0; 0; 0; 1; 1; 0]), 1%Q)]%Z nm2_mj) /\
  match cov_yy2 1 1 with Ok q => length (items q) = 16%nat | Err _ => False end.
Proof. split; vm_compute; reflexivity. Qed.

(** ** C40 *)
(** the conditional moments are those returned by moment_IEI_IEII, up to total order L *)
Definition from_itos (M : R -> R -> ito2_idx -> R) (p : f2par) (s0 : R) (L : Z) : Prop :=
  forall v1 v2 a b c d e, ito2_dom (a, b, c, d, e) -> (a + b + c + d + e <= L)%Z ->
    exists q, moment_IEI_IEII a b c d e = Ok q /\
      M v1 v2 (a, b, c, d, e) = eval (smon (par_at p s0 v1 v2) (gh p)) (items q).
(** the conditional moments are those of the model, i.e. solve the equations of Spec/Ito2.v *)
Definition true_moments (M : R -> R -> ito2_idx -> R) (p : f2par) (s0 : R) : Prop :=
  forall v1 v2, exists N, ito2_moments (par_at p s0 v1 v2) N /\ forall i, M v1 v2 i = N i (gh p).

(** up to order two the two agree *)
Theorem C40_order_two : forall (M : R -> R -> ito2_idx -> R) (p : f2par) (s0 : R), gk1 p <> 0 -> gk2 p <> 0 -> 0 <= gh p ->
  true_moments M p s0 -> from_itos M p s0 2.
Proof.
  intros M p s0 Hk1 Hk2 Hh HM v1 v2 a b c d e Hd HL. destruct (HM v1 v2) as (N & HN & E).
  destruct (C26_moments_partial a b c d e) as (q & Eq & _ & V).
  { unfold itos_good, ito2_dom in *. lia. }
  exists q. split; [exact Eq|]. rewrite E. symmetry. now apply V.
Qed.

Definition hyps2 {Om} (E : (Om -> R) -> R) (p : f2par) (L : Z) (M0 M1 : R -> R -> ito2_idx -> R) (s0 : R)
  (V1 V2 IE1 I1 IE2 I2 Is JE1 J1 JE2 J2 Js : Om -> R) : Prop :=
  expectation E /\ stationary2 E p L V1 V2 /\ tower2 E M0 L [] V1 V2 IE1 I1 IE2 I2 Is /\
  tower2 E M1 L [V1; V2; IE1; I1; IE2; I2; Is] (fun w => v_end (fac_1 p) s0 (V1 w) (IE1 w))
    (fun w => v_end (fac_2 p) s0 (V2 w) (IE2 w)) JE1 J1 JE2 J2 Js.

Lemma ret2_linear p : gk1 p <> 0 -> gk2 p <> 0 -> forall s0 v1 v2 ie1 i1 ie2 i2 is,
  ret2 p s0 v1 v2 ie1 i1 ie2 i2 is = sumR (fun x => x)
    [A1' (gk1 p) (gk2 p) (gh p) (gmu p) (gth1 p) (gth2 p); Fsv2Proofs.B1 (gk1 p) (gh p) * v1; B2 (gk2 p) (gh p) * v2;
     D1 (gk1 p) (gsg1 p) * (exp (- (gk1 p * (s0 + gh p))) * ie1); - D1 (gk1 p) (gsg1 p) * i1;
     D2 (gk2 p) (gsg2 p) * (exp (- (gk2 p * (s0 + gh p))) * ie2); - D2 (gk2 p) (gsg2 p) * i2; is].
Proof.
  intros Hk1 Hk2 s0 v1 v2 ie1 i1 ie2 i2 is.
  unfold ret2, int_v, v_end, fac_1, fac_2, A1', xs_a1, xs_c1, Fsv2Proofs.B1, B2, D1, D2, eKH. cbn [fk fh fmu fth fsg frho app sumR].
  field. split; assumption.
Qed.

Lemma tower_W2 {Om} (E : (Om -> R) -> R) (HE : expectation E) p M s0 L hist (V1 V2 IE1 I1 IE2 I2 Is : Om -> R) :
  from_itos M p s0 L -> tower2 E M L hist V1 V2 IE1 I1 IE2 I2 Is ->
  forall hs m n a b c d e, length hs = length hist -> Forall (fun x => 0 <= x)%Z hs ->
    (0 <= m)%Z -> (0 <= n)%Z -> ito2_dom (a, b, c, d, e) ->
    (fold_right Z.add 0 hs + m + n + a + b + c + d + e <= L)%Z ->
    E (fun w => powprod (map (fun X => X w) hist) hs *
         (V1 w ^ Z.to_nat m * V2 w ^ Z.to_nat n * (IE1 w ^ Z.to_nat a * I1 w ^ Z.to_nat b *
          IE2 w ^ Z.to_nat c * I2 w ^ Z.to_nat d * Is w ^ Z.to_nat e)))
    = E (fun w => powprod (map (fun X => X w) hist) hs *
         (V1 w ^ Z.to_nat m * V2 w ^ Z.to_nat n * W2 (gk1 p) (gk2 p) (gh p) (gth1 p) (gsg1 p) (gth2 p) (gsg2 p) s0 (V1 w) (V2 w) (a, b, c, d, e))).
Proof.
  intros HF HT hs m n a b c d e h1 h2 h3 h4 h5 h6. rewrite HT by assumption. apply (E_ext E HE). intro w. f_equal. f_equal.
  assert (0 <= fold_right Z.add 0 hs)%Z by (clear -h2; induction h2; cbn [fold_right]; lia).
  destruct (HF (V1 w) (V2 w) a b c d e h5) as (q & Eq & V); [unfold ito2_dom in h5; lia|]. rewrite V.
  unfold W2, itos_val. rewrite Eq. reflexivity.
Qed.
Lemma tower_W2_nil {Om} (E : (Om -> R) -> R) (HE : expectation E) p M s0 L (V1 V2 IE1 I1 IE2 I2 Is : Om -> R) :
  from_itos M p s0 L -> tower2 E M L [] V1 V2 IE1 I1 IE2 I2 Is ->
  forall m n a b c d e, (0 <= m)%Z -> (0 <= n)%Z -> ito2_dom (a, b, c, d, e) -> (m + n + a + b + c + d + e <= L)%Z ->
    E (fun w => V1 w ^ Z.to_nat m * V2 w ^ Z.to_nat n * (IE1 w ^ Z.to_nat a * I1 w ^ Z.to_nat b *
          IE2 w ^ Z.to_nat c * I2 w ^ Z.to_nat d * Is w ^ Z.to_nat e))
    = E (fun w => V1 w ^ Z.to_nat m * V2 w ^ Z.to_nat n * W2 (gk1 p) (gk2 p) (gh p) (gth1 p) (gsg1 p) (gth2 p) (gsg2 p) s0 (V1 w) (V2 w) (a, b, c, d, e)).
Proof.
  intros HF HT m n a b c d e h3 h4 h5 h6.
  pose proof (tower_W2 E HE p M s0 L [] V1 V2 IE1 I1 IE2 I2 Is HF HT [] m n a b c d e eq_refl (Forall_nil _) h3 h4 h5) as t.
  cbn [fold_right map powprod] in t. specialize (t ltac:(lia)).
  rewrite (E_ext E HE _ _ (fun w => eq_sym (Rmult_1_l _))), t. apply (E_ext E HE). intro w. ring.
Qed.

Theorem C40_moment_y : forall (p : f2par) (Om : Type) (E : (Om -> R) -> R) (L : Z) (s0 : R) (M : R -> R -> ito2_idx -> R)
    (V1 V2 IE1 I1 IE2 I2 Is : Om -> R) (l : Z),
  gk1 p <> 0 -> gk2 p <> 0 -> expectation E -> stationary2 E p L V1 V2 -> tower2 E M L [] V1 V2 IE1 I1 IE2 I2 Is ->
  from_itos M p s0 L -> (0 <= l <= L)%Z ->
  exists q, moment_y2 l = Ok q /\ keyfor q = nm2_m /\
    val2 p q = E (fun w => ret2 p s0 (V1 w) (V2 w) (IE1 w) (I1 w) (IE2 w) (I2 w) (Is w) ^ Z.to_nat l).
Proof.
  intros p Om E L s0 M V1 V2 IE1 I1 IE2 I2 Is l Hk1 Hk2 HE HV HT HF Hl.
  pose proof (moment_y2_E (gk1 p) (gk2 p) (gh p) (gmu p) (gth1 p) (gsg1 p) (gth2 p) (gsg2 p) Hk1 Hk2 s0 E HE V1 V2 L HV IE1 I1 IE2 I2 Is
    (tower_W2_nil E HE p M s0 L V1 V2 IE1 I1 IE2 I2 Is HF HT) l Hl) as h.
  apply returns_inv in h. destruct h as (q & Eq & Wq & Ev). exists q. split; [exact Eq|]. split; [apply Wq|].
  transitivity (evp (mon_f6 (gk1 p) (gk2 p) (gh p) (gmu p) (gth1 p) (gsg1 p) (gth2 p) (gsg2 p)) tt q); [reflexivity|].
  rewrite Ev. apply (E_ext E HE). intro w. rewrite (ret2_linear p Hk1 Hk2). reflexivity.
Qed.

(** the mean, (mu - (theta1 + theta2)/2) h *)
Lemma ret2_centred p : gk1 p <> 0 -> gk2 p <> 0 -> forall s0 v1 v2 ie1 i1 ie2 i2 is,
  ret2 p s0 v1 v2 ie1 i1 ie2 i2 is - (gmu p - (gth1 p + gth2 p) / 2) * gh p = sumR (fun x => x)
    [Fsv2Proofs.C1 (gk1 p) (gk2 p) (gh p) (gth1 p) (gth2 p); Fsv2Proofs.B1 (gk1 p) (gh p) * v1; B2 (gk2 p) (gh p) * v2;
     D1 (gk1 p) (gsg1 p) * (exp (- (gk1 p * (s0 + gh p))) * ie1); - D1 (gk1 p) (gsg1 p) * i1;
     D2 (gk2 p) (gsg2 p) * (exp (- (gk2 p * (s0 + gh p))) * ie2); - D2 (gk2 p) (gsg2 p) * i2; is].
Proof.
  intros Hk1 Hk2 s0 v1 v2 ie1 i1 ie2 i2 is. rewrite (ret2_linear p Hk1 Hk2).
  unfold A1', Fsv2Proofs.C1, xs_a1. cbn [sumR]. rewrite sumR_app. cbn [sumR]. field.
Qed.
Theorem C40_central : forall (p : f2par) (Om : Type) (E : (Om -> R) -> R) (L : Z) (s0 : R) (M : R -> R -> ito2_idx -> R)
    (V1 V2 IE1 I1 IE2 I2 Is : Om -> R) (l : Z),
  gk1 p <> 0 -> gk2 p <> 0 -> expectation E -> stationary2 E p L V1 V2 -> tower2 E M L [] V1 V2 IE1 I1 IE2 I2 Is ->
  from_itos M p s0 L -> (0 <= l <= L)%Z -> (1 <= L)%Z ->
  let y w := ret2 p s0 (V1 w) (V2 w) (IE1 w) (I1 w) (IE2 w) (I2 w) (Is w) in
  E y = (gmu p - (gth1 p + gth2 p) / 2) * gh p /\
  exists q, cmoment_y2 l = Ok q /\ keyfor q = nm2_cm /\ cval2 p q = E (fun w => (y w - E y) ^ Z.to_nat l).
Proof.
  intros p Om E L s0 M V1 V2 IE1 I1 IE2 I2 Is l Hk1 Hk2 HE HV HT HF Hl HL y.
  set (mean := (gmu p - (gth1 p + gth2 p) / 2) * gh p).
  assert (G : forall l, (0 <= l <= L)%Z -> exists q, cmoment_y2 l = Ok q /\ keyfor q = nm2_cm /\ cval2 p q = E (fun w => (y w - mean) ^ Z.to_nat l)).
  { intros l' Hl'.
    pose proof (cmoment_y2_E (gk1 p) (gk2 p) (gh p) (gth1 p) (gsg1 p) (gth2 p) (gsg2 p) Hk1 Hk2 s0 E HE V1 V2 L HV IE1 I1 IE2 I2 Is
      (tower_W2_nil E HE p M s0 L V1 V2 IE1 I1 IE2 I2 Is HF HT) l' Hl') as h.
    apply returns_inv in h. destruct h as (q & Eq & Wq & Ev). exists q. split; [exact Eq|]. split; [apply Wq|].
    transitivity (evp (mon_f5 (gk1 p) (gk2 p) (gh p) (gth1 p) (gsg1 p) (gth2 p) (gsg2 p)) tt q); [reflexivity|].
    rewrite Ev. apply (E_ext E HE). intro w. unfold y, mean. rewrite (ret2_centred p Hk1 Hk2). reflexivity. }
  assert (one : E (fun _ => 1) = 1).
  { transitivity (E (fun w => V1 w ^ Z.to_nat 0 * V2 w ^ Z.to_nat 0)); [apply (E_ext E HE); intro; simpl; ring|].
    rewrite HV by lia. simpl. ring. }
  assert (Ey : E y = mean).
  { destruct (G 1%Z ltac:(lia)) as (q & Eq & _ & Ev). set (r := cmoment_y2 1) in Eq. vm_compute in r. subst r. injection Eq as <-.
    unfold cval2 in Ev. cbn [items eval] in Ev. change (Z.to_nat 1) with 1%nat in Ev.
    rewrite (E_ext E HE _ (fun w => y w + (- mean) * 1)) in Ev by (intro; ring).
    rewrite (E_plus E HE y (fun _ => - mean * 1)), (E_scal E HE (- mean) (fun _ => 1)), one in Ev. lra. }
  split; [exact Ey|]. rewrite Ey. now apply G.
Qed.

Theorem C40_moment_yy : forall (p : f2par) (Om : Type) (E : (Om -> R) -> R) (L : Z) (s0 : R) (M0 M1 : R -> R -> ito2_idx -> R)
    (V1 V2 IE1 I1 IE2 I2 Is JE1 J1 JE2 J2 Js : Om -> R),
  gk1 p <> 0 -> gk2 p <> 0 -> hyps2 E p L M0 M1 s0 V1 V2 IE1 I1 IE2 I2 Is JE1 J1 JE2 J2 Js ->
  from_itos M0 p s0 L -> from_itos M1 p (s0 + gh p) L ->
  let y0 w := ret2 p s0 (V1 w) (V2 w) (IE1 w) (I1 w) (IE2 w) (I2 w) (Is w) in
  let y1 w := ret2 p (s0 + gh p) (v_end (fac_1 p) s0 (V1 w) (IE1 w)) (v_end (fac_2 p) s0 (V2 w) (IE2 w))
                (JE1 w) (J1 w) (JE2 w) (J2 w) (Js w) in
  forall l1 l2 : Z, (0 <= l1)%Z -> (0 <= l2)%Z -> (l1 + l2 <= L)%Z ->
  (exists q, moment_yy2 l1 l2 = Ok q /\ keyfor q = nm2_m /\ val2 p q = E (fun w => y0 w ^ Z.to_nat l1 * y1 w ^ Z.to_nat l2)) /\
  exists c, cov_yy2 l1 l2 = Ok c /\ keyfor c = nm2_m /\
    val2 p c = E (fun w => y0 w ^ Z.to_nat l1 * y1 w ^ Z.to_nat l2) - E (fun w => y0 w ^ Z.to_nat l1) * E (fun w => y0 w ^ Z.to_nat l2).
Proof.
  intros p Om E L s0 M0 M1 V1 V2 IE1 I1 IE2 I2 Is JE1 J1 JE2 J2 Js Hk1 Hk2 (HE & HV & HT & HT1) HF0 HF1 y0 y1 l1 l2 h1 h2 h3.
  assert (G : exists q, moment_yy2 l1 l2 = Ok q /\ keyfor q = nm2_m /\ val2 p q = E (fun w => y0 w ^ Z.to_nat l1 * y1 w ^ Z.to_nat l2)).
  { pose proof (moment_yy2_E (gk1 p) (gk2 p) (gh p) (gmu p) (gth1 p) (gsg1 p) (gth2 p) (gsg2 p) Hk1 Hk2 s0 E HE V1 V2 L HV IE1 I1 IE2 I2 Is
      (tower_W2_nil E HE p M0 s0 L V1 V2 IE1 I1 IE2 I2 Is HF0 HT)
      (fun w => v_end (fac_1 p) s0 (V1 w) (IE1 w)) (fun w => v_end (fac_2 p) s0 (V2 w) (IE2 w)) JE1 J1 JE2 J2 Js) as h.
    specialize (h ltac:(intro w; split; unfold v_end, vn1, vn2, vnext, eKH, fac_1, fac_2; cbn [fst snd fk fh fth fsg]; ring)).
    specialize (h (tower_W2 E HE p M1 (s0 + gh p) L _ _ _ JE1 J1 JE2 J2 Js HF1 HT1) l1 l2 h1 h2 h3).
    apply returns_inv in h. destruct h as (q & Eq & Wq & Ev). exists q. split; [exact Eq|]. split; [apply Wq|].
    transitivity (evp (mon_f6 (gk1 p) (gk2 p) (gh p) (gmu p) (gth1 p) (gsg1 p) (gth2 p) (gsg2 p)) tt q); [reflexivity|].
    rewrite Ev. apply (E_ext E HE). intro w. unfold y0, y1. rewrite !(ret2_linear p Hk1 Hk2). reflexivity. }
  split; [exact G|]. destruct G as (q & Eq & _ & Ev).
  destruct (C28_cov_yy l1 l2 h1 h2) as (c & m & a & b & Ec & Em & Ea & Eb & K & _ & _ & _ & V).
  exists c. split; [exact Ec|]. split; [exact K|]. rewrite V, <- Ev. assert (m = q) by congruence. subst q.
  destruct (C40_moment_y p Om E L s0 M0 V1 V2 IE1 I1 IE2 I2 Is l1 Hk1 Hk2 HE HV HT HF0 ltac:(lia)) as (a' & Ea' & _ & Va).
  destruct (C40_moment_y p Om E L s0 M0 V1 V2 IE1 I1 IE2 I2 Is l2 Hk1 Hk2 HE HV HT HF0 ltac:(lia)) as (b' & Eb' & _ & Vb).
  assert (a' = a) by congruence. assert (b' = b) by congruence. subst a' b'. rewrite Va, Vb. reflexivity.
Qed.

(** the hypotheses can be met, for all tables of conditional moments *)
Theorem C40_hypotheses_hold : forall (p : f2par) (s0 : R) (L : Z) (M0 M1 : R -> R -> ito2_idx -> R), (0 <= L)%Z ->
  (forall v1 v2, M0 v1 v2 (0, 0, 0, 0, 0)%Z = 1) -> (forall v1 v2, M1 v1 v2 (0, 0, 0, 0, 0)%Z = 1) ->
  exists (Om : Type) (E : (Om -> R) -> R) (V1 V2 IE1 I1 IE2 I2 Is JE1 J1 JE2 J2 Js : Om -> R),
    hyps2 E p L M0 M1 s0 V1 V2 IE1 I1 IE2 I2 Is JE1 J1 JE2 J2 Js.
Proof.
  intros p s0 L M0 M1 HL H0 H1.
  set (tab (M : R -> R -> ito2_idx -> R) v1 v2 := fun ns => match ns with [a; b; c; d; e] => M v1 v2 (a, b, c, d, e) | _ => 0 end).
  set (ker M v1 v2 := realise (Z.to_nat L) 5 (tab M v1 v2)).
  set (ex5 := fun (a b c d e : Z) (xs : list R) => nthR xs 0 ^ Z.to_nat a * nthR xs 1 ^ Z.to_nat b * nthR xs 2 ^ Z.to_nat c * nthR xs 3 ^ Z.to_nat d * nthR xs 4 ^ Z.to_nat e).
  assert (Hker : forall M v1 v2 a b c d e, ito2_dom (a, b, c, d, e) -> (a + b + c + d + e <= L)%Z ->
    Efin (ker M v1 v2) (ex5 a b c d e) = M v1 v2 (a, b, c, d, e)).
  { intros M v1 v2 a b c d e Hd Hs. unfold ito2_dom in Hd. change (M v1 v2 (a, b, c, d, e)) with (tab M v1 v2 [a; b; c; d; e]).
    rewrite <- (realise_spec (Z.to_nat L) 5 (tab M v1 v2) [a; b; c; d; e]);
      [|reflexivity|repeat (apply Forall_cons; [lia|]); apply Forall_nil].
    unfold ker, Efin. apply sumR_ext. intros [r xs] Hin. cbn [fst snd]. f_equal.
    pose proof (realise_len _ _ _ _ _ Hin) as Hl. destruct xs as [|x [|y [|z [|u [|v [|? ?]]]]]]; try discriminate.
    unfold ex5, nthR. cbn [powprod]. change (Z.to_nat 0) with 0%nat. change (Z.to_nat 1) with 1%nat.
    change (Z.to_nat 2) with 2%nat. change (Z.to_nat 3) with 3%nat. change (Z.to_nat 4) with 4%nat. cbn [nth]. ring. }
  assert (Hone : forall M v1 v2, M v1 v2 (0, 0, 0, 0, 0)%Z = 1 -> Efin (ker M v1 v2) (fun _ => 1) = 1).
  { intros M v1 v2 HM. transitivity (M v1 v2 (0, 0, 0, 0, 0)%Z); [|exact HM]. rewrite <- (Hker M v1 v2 0 0 0 0 0)%Z by (unfold ito2_dom; lia).
    apply (E_ext _ (Efin_expectation _)). intro xs. unfold ex5. simpl. ring. }
  set (tabv := fun ns => match ns with [m; n] => gmom (gth1 p) (gsg1 p ^ 2 / gk1 p) (Z.to_nat m) * gmom (gth2 p) (gsg2 p ^ 2 / gk2 p) (Z.to_nat n) | _ => 0 end).
  set (E0 := Efin (realise (Z.to_nat L) 2 tabv)).
  assert (HE0 : expectation E0) by apply Efin_expectation.
  assert (Hv : forall m n, (0 <= m)%Z -> (0 <= n)%Z -> (m + n <= L)%Z -> E0 (fun xs => nthR xs 0 ^ Z.to_nat m * nthR xs 1 ^ Z.to_nat n) = tabv [m; n]).
  { intros m n h1 h2 h3. rewrite <- (realise_spec (Z.to_nat L) 2 tabv [m; n]);
      [|reflexivity|repeat (apply Forall_cons; [lia|]); apply Forall_nil].
    unfold E0, Efin. apply sumR_ext. intros [r xs] Hin. cbn [fst snd]. f_equal.
    pose proof (realise_len _ _ _ _ _ Hin) as Hl. destruct xs as [|x [|y [|? ?]]]; try discriminate.
    unfold nthR. cbn [powprod]. change (Z.to_nat 0) with 0%nat. change (Z.to_nat 1) with 1%nat. cbn [nth]. ring. }
  set (E1 := Ekern E0 (fun v => ker M0 (nthR v 0) (nthR v 1))). assert (HE1 : expectation E1) by now apply Ekern_expectation.
  set (u1 := fun w : list R * list R => v_end (fac_1 p) s0 (nthR (fst w) 0) (nthR (snd w) 0)).
  set (u2 := fun w : list R * list R => v_end (fac_2 p) s0 (nthR (fst w) 1) (nthR (snd w) 2)).
  set (E2 := Ekern E1 (fun w => ker M1 (u1 w) (u2 w))).
  assert (HE2 : expectation E2) by now apply Ekern_expectation.
  assert (OE2 : forall X : list R * list R -> R, E2 (fun w => X (fst w)) = E1 X) by (intro X; apply Ekern_old; [assumption|intro; apply Hone, H1]).
  assert (OE1 : forall X : list R -> R, E1 (fun w => X (fst w)) = E0 X) by (intro X; apply Ekern_old; [assumption|intro; apply Hone, H0]).
  exists (list R * list R * list R)%type, E2, (fun w => nthR (fst (fst w)) 0), (fun w => nthR (fst (fst w)) 1),
    (fun w => nthR (snd (fst w)) 0), (fun w => nthR (snd (fst w)) 1), (fun w => nthR (snd (fst w)) 2), (fun w => nthR (snd (fst w)) 3), (fun w => nthR (snd (fst w)) 4),
    (fun w => nthR (snd w) 0), (fun w => nthR (snd w) 1), (fun w => nthR (snd w) 2), (fun w => nthR (snd w) 3), (fun w => nthR (snd w) 4).
  split; [assumption|]. split; [|split].
  - intros m n h1 h2 h3.
    rewrite (OE2 (fun w => nthR (fst w) 0 ^ Z.to_nat m * nthR (fst w) 1 ^ Z.to_nat n)), (OE1 (fun v => nthR v 0 ^ Z.to_nat m * nthR v 1 ^ Z.to_nat n)).
    rewrite Hv by assumption. reflexivity.
  - intros hs m n a b c d e Hl Hf h1 h2 h3 h4. destruct hs; [|discriminate]. cbn [map powprod fold_right] in *.
    transitivity (E2 (fun w => (fun w : list R * list R => (nthR (fst w) 0 ^ Z.to_nat m * nthR (fst w) 1 ^ Z.to_nat n) * ex5 a b c d e (snd w)) (fst w))).
    { apply (E_ext E2 HE2). intro w. unfold ex5. ring. }
    rewrite (OE2 (fun w : list R * list R => (nthR (fst w) 0 ^ Z.to_nat m * nthR (fst w) 1 ^ Z.to_nat n) * ex5 a b c d e (snd w))).
    rewrite (OE2 (fun w => 1 * (nthR (fst w) 0 ^ Z.to_nat m * nthR (fst w) 1 ^ Z.to_nat n * M0 (nthR (fst w) 0) (nthR (fst w) 1) (a, b, c, d, e)))).
    rewrite (OE1 (fun v => 1 * (nthR v 0 ^ Z.to_nat m * nthR v 1 ^ Z.to_nat n * M0 (nthR v 0) (nthR v 1) (a, b, c, d, e)))).
    unfold E1. rewrite (Ekern_tower E0 _ (fun v => nthR v 0 ^ Z.to_nat m * nthR v 1 ^ Z.to_nat n) (ex5 a b c d e)
      (fun v => M0 (nthR v 0) (nthR v 1) (a, b, c, d, e)) HE0) by (intro v; apply Hker; [assumption|lia]).
    apply (E_ext E0 HE0). intro; ring.
  - intros hs m n a b c d e Hl Hf h1 h2 h3 h4. cbn [map].
    assert (Hs : (0 <= fold_right Z.add 0 hs)%Z) by (clear - Hf; induction Hf; cbn [fold_right]; lia).
    set (hp w := powprod [nthR (fst w) 0; nthR (fst w) 1; nthR (snd w) 0; nthR (snd w) 1; nthR (snd w) 2; nthR (snd w) 3; nthR (snd w) 4] hs).
    transitivity (E2 (fun w => (hp (fst w) * (u1 (fst w) ^ Z.to_nat m * u2 (fst w) ^ Z.to_nat n)) * ex5 a b c d e (snd w))).
    { apply (E_ext E2 HE2). intro w. unfold ex5, hp, u1, u2. ring. }
    transitivity (E2 (fun w => (fun w => hp w * (u1 w ^ Z.to_nat m * u2 w ^ Z.to_nat n * M1 (u1 w) (u2 w) (a, b, c, d, e))) (fst w))).
    2: { apply (E_ext E2 HE2). intro w. reflexivity. }
    rewrite (OE2 (fun w => hp w * (u1 w ^ Z.to_nat m * u2 w ^ Z.to_nat n * M1 (u1 w) (u2 w) (a, b, c, d, e)))).
    unfold E2. rewrite (Ekern_tower E1 _ (fun w => hp w * (u1 w ^ Z.to_nat m * u2 w ^ Z.to_nat n)) (ex5 a b c d e)
      (fun w => M1 (u1 w) (u2 w) (a, b, c, d, e)) HE1) by (intro v; apply Hker; [assumption|lia]).
    apply (E_ext E1 HE1). intro; ring.
Qed.
(** tables of both kinds exist *)
Lemma true_one M p s0 : true_moments M p s0 -> 0 <= gh p -> forall v1 v2, M v1 v2 (0, 0, 0, 0, 0)%Z = 1.
Proof.
  intros HM Hh v1 v2. destruct (HM v1 v2) as (N & HN & E). rewrite E.
  pose proof (HN (0, 0, 0, 0, 0)%Z ltac:(unfold ito2_dom; lia) (gh p) Hh) as h.
  pose proof (is_RInt_const 0 (gh p) 0) as h0.
  assert (e : N (0, 0, 0, 0, 0)%Z (gh p) - 1 = scal (gh p - 0) 0) by (apply (is_RInt_uniq _ _ _ _ _ h h0)).
  unfold scal in e. simpl in e. unfold mult in e. simpl in e. lra.
Qed.
Theorem C40_tables_exist : forall (p : f2par) (s0 : R), 0 <= gh p ->
  (exists M, true_moments M p s0 /\ forall v1 v2, M v1 v2 (0, 0, 0, 0, 0)%Z = 1) /\
  forall L, exists M, from_itos M p s0 L /\ forall v1 v2, M v1 v2 (0, 0, 0, 0, 0)%Z = 1.
Proof.
  intros p s0 Hh. split.
  - set (N v1 v2 := vmin (ito2_sys (par_at p s0 v1 v2)) ito2_init (fun i => Z.to_nat (ord5 i))).
    assert (HN : true_moments (fun v1 v2 i => N v1 v2 i (gh p)) p s0).
    { intros v1 v2. exists (N v1 v2). split; [|reflexivity].
      apply (vsol_exists ito2_dom _ ito2_init (fun i => Z.to_nat (ord5 i)) (ito2_tri _) (ito2_cont _)). }
    eexists. split; [exact HN|]. now apply (true_one _ p s0).
  - intro L. exists (fun v1 v2 i => itos_val (par_at p s0 v1 v2) i (gh p)). split.
    + intros v1 v2 a b c d e (h1 & h2 & h3 & h4 & h5) _. destruct (C26_never_raises a b c d e h1 h2 h3 h4 h5) as (q & Eq & _).
      exists q. split; [exact Eq|]. unfold itos_val. now rewrite Eq.
    + intros v1 v2. unfold itos_val. set (r := moment_IEI_IEII 0 0 0 0 0). vm_compute in r. subst r.
      cbn [items eval smon denv monx]. change (powerRZ ?x 0) with 1. rewrite !pw_0, !Rmult_0_l, Rplus_0_l, !Rmult_0_l, exp_0.
      unfold Q2R. cbn [Qnum Qden]. lra.
Qed.

Example C40_example : match cmoment_y2 2 with Ok q => length (items q) = 14%nat | Err _ => False end.
Proof. vm_compute. reflexivity. Qed.

Print Assumptions C28_cov_yy. Print Assumptions C28_moment_y. Print Assumptions C28_cmoment_y. Print Assumptions C28_moment_yy.
Print Assumptions C28_jump_cov_yy. Print Assumptions C40_moment_y. Print Assumptions C40_central. Print Assumptions C40_moment_yy.
Print Assumptions C40_order_two. Print Assumptions C40_tables_exist. Print Assumptions C40_hypotheses_hold.
