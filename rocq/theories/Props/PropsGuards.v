(** Property C63: which arguments the helpers and the simulators reject, and with which exception. *)
From Coq Require Import Reals Lra.
From Verif.Spec Require Import Euler.
From Verif.Model Require Import Euler SrjdIez SvcjMom Fsv1.
From Verif.Proof Require Import SumFacts DecodeProofs EulerProofs EulerGrid EulerSv.
From Verif.Props Require Import PropsEuler PropsEulerSv.
Local Open Scope Z_scope.

(** ** utils.py comb: every factor math.comb(n - (n_1+...+n_{i-1}), n_i) needs two non-negative arguments *)
Theorem C63_comb : forall n ns,
  let good := forall i, (i < length ns)%nat -> 0 <= n - sumZ (firstn i ns) /\ 0 <= nth i ns 0 in
  (good -> exists c, comb n ns = Ok c) /\ (~ good -> comb n ns = Err ValueError).
Proof.
  unfold comb. intros n ns. generalize 1 as f. revert n. induction ns as [|k ns IH]; intros n f; cbv zeta.
  - split; [intros _; now exists f|]. intros []. intros i Hi. cbn in Hi. lia.
  - cbn [comb_loop]. unfold math_comb. destruct (Z.ltb_spec n 0) as [a|a]; cbn [orb].
    { split; [|reflexivity]. intro H. destruct (H O ltac:(cbn; lia)) as [b _]. cbn in b. lia. }
    destruct (Z.ltb_spec k 0) as [b|b].
    { split; [|reflexivity]. intro H. destruct (H O ltac:(cbn; lia)) as [_ d]. cbn in d. lia. }
    cbn [bind]. destruct (IH (n - k) (f * mcomb n k)) as [A B]. split.
    + intro H. apply A. intros i Hi. destruct (H (S i) ltac:(cbn; lia)) as [p q]. cbn [firstn sumZ fold_right nth] in p, q. fold (sumZ (firstn i ns)) in p. lia.
    + intro H. apply B. intro H'. apply H. intros [|i] Hi; [cbn; lia|]. destruct (H' i ltac:(cbn in Hi; lia)) as [p q].
      cbn [firstn sumZ fold_right nth]. fold (sumZ (firstn i ns)). lia.
Qed.
Example C63_comb_ex : comb 4 [1; 2; 1] = Ok 12 /\ comb 4 [3; 2; 0] = Err ValueError /\ comb 4 [-1; 5] = Err ValueError /\ comb (-1) [] = Ok 1.
Proof. repeat split. Qed.

(** ** iez_mom.py moment_EJ *)
Theorem C63_moment_EJ : forall n, (n < 0 -> moment_EJ n = Err ValueError) /\ (0 <= n -> exists p, moment_EJ n = Ok p).
Proof.
  intro n. unfold moment_EJ. destruct (Z.ltb_spec n 0); split; intro; try lia; try reflexivity. destruct (n =? 0); eauto.
Qed.
(** the empty jump has a moment, jump powers below 0 have none *)
Example C63_moment_EJ_ex : moment_EJ (-2) = Err ValueError /\ exists p, moment_EJ 0 = Ok p.
Proof. split; [reflexivity|now apply C63_moment_EJ]. Qed.

(** ** list.index: the first position, ValueError when there is none *)
Theorem C63_index : forall s l,
  (~ In s l -> index_of s l = Err ValueError) /\
  (In s l -> exists i, index_of s l = Ok i /\ nth_error l i = Some s /\ forall j, (j < i)%nat -> nth_error l j <> Some s).
Proof.
  intros s l. induction l as [|x l [IH1 IH2]]; cbn [index_of In]; split; try tauto.
  - intro H. destruct (String.eqb_spec x s) as [e|ne]; [tauto|]. rewrite IH1 by tauto. reflexivity.
  - intro H. destruct (String.eqb_spec x s) as [e|ne].
    + exists O. split; [reflexivity|]. split; [cbn; now rewrite e|]. intros j Hj. lia.
    + destruct H as [H|H]; [contradiction|]. destruct (IH2 H) as (i & e & a & b). exists (S i). rewrite e. split; [reflexivity|]. split; [exact a|].
      intros [|j] Hj; cbn; [congruence|apply b; lia].
Qed.
Example C63_index_ex : index_of "b" ["a"; "b"; "b"]%string = Ok 1%nat /\ index_of "c" ["a"; "b"]%string = Err ValueError.
Proof. split; reflexivity. Qed.
Local Open Scope R_scope.

(** ** A negative jump rate, and a negative standard deviation of the jumps *)
Lemma jump_part_neg W lmbd h mj sj c : lmbd * h < 0 -> Euler.jump_part W lmbd h mj sj c = Err ValueError.
Proof. intro H. unfold Euler.jump_part, rbind at 1, poisson. destruct (Rlt_dec (lmbd * h) 0); [reflexivity|lra]. Qed.
Lemma jump_part_sd W lmbd h mj sj c : 0 <= lmbd * h -> sj < 0 -> (0 < wpois W c (lmbd * h))%Z -> Euler.jump_part W lmbd h mj sj c = Err ValueError.
Proof.
  intros H Hs Hp. unfold Euler.jump_part, rbind at 1, poisson. destruct (Rlt_dec (lmbd * h) 0); [lra|]. cbn [bind fst snd].
  destruct (Z.ltb_spec 0 (wpois W c (lmbd * h))); [|lia]. unfold add_normals. pose proof (range_len (wpois W c (lmbd * h))) as L.
  destruct (range 0 (wpois W c (lmbd * h))) as [|x l]; [cbn in L; lia|]. cbn [foldR]. unfold rbind, normal. destruct (Rlt_dec sj 0); [reflexivity|lra].
Qed.
Lemma foldR_first {A} (m : rnd A) {B} (f : A -> rnd B) c e : m c = Err e -> rbind m f c = Err e.
Proof. intro H. unfold rbind. now rewrite H. Qed.

Theorem C63_r1FSVJ : forall (W : world) v0 par N n h c mu k th sg rho lmbd mj sj, par_1fsv par mu k th sg rho -> par_jump par lmbd mj sj ->
  (0 < N)%Z -> (0 < n)%Z -> 0 < h -> 0 <= v0 ->
  (lmbd < 0 -> r1FSVJ W v0 par N n h c = Err ValueError) /\
  (0 <= lmbd -> sj < 0 -> (0 < wpois W (c + 2 * Z.to_nat n) (lmbd * h))%Z -> r1FSVJ W v0 par N n h c = Err ValueError).
Proof.
  intros W v0 par N n h c mu k th sg rho lmbd mj sj (h1 & h2 & h3 & h4 & h5) (h6 & h7 & h8) HN Hn Hh Hv.
  assert (G : Euler.jump_part W lmbd h mj sj (c + 2 * Z.to_nat n)%nat = Err ValueError -> r1FSVJ W v0 par N n h c = Err ValueError).
  { intro HJ. unfold r1FSVJ. names. rewrite (rbind_lift _ (h / IZR n)) by now apply seg_len.
    rewrite (rbind_lift _ (sqrt (h / IZR n))) by (apply msqrt_ok, seg_nonneg; [assumption|lra]).
    unfold emptyR. destruct (Z.ltb_spec N 0); [lia|]. destruct (Z.to_nat N) as [|N'] eqn:EN; [lia|]. cbn [rowsR].
    apply foldR_first.
    rewrite (rbind_ok _ _ _ _ _ (segs1_ok W k th sg (h / IZR n) (sqrt (h / IZR n)) (sqrt_pos _) (range 0 n) v0 0 0 0 c Hv)).
    apply foldR_first. rewrite range_len. exact HJ. }
  split.
  - intro Hl. apply G, jump_part_neg. nra.
  - intros Hl Hs Hp. apply G, jump_part_sd; [nra|assumption|assumption].
Qed.
Theorem C63_r2FSVJ : forall (W : world) v1 v2 par N n h c mu k1 t1 s1 k2 t2 s2 lmbd mj sj, par_2fsv par mu k1 t1 s1 k2 t2 s2 -> par_jump par lmbd mj sj ->
  (0 < N)%Z -> (0 < n)%Z -> 0 < h -> 0 <= v1 -> 0 <= v2 ->
  (lmbd < 0 -> r2FSVJ W (v1, v2) par N n h c = Err ValueError) /\
  (0 <= lmbd -> sj < 0 -> (0 < wpois W (c + 3 * Z.to_nat n) (lmbd * h))%Z -> r2FSVJ W (v1, v2) par N n h c = Err ValueError).
Proof.
  intros W v1 v2 par N n h c mu k1 t1 s1 k2 t2 s2 lmbd mj sj (h1 & h2 & h3 & h4 & h5 & h5' & h5'') (h6 & h7 & h8) HN Hn Hh H1 H2.
  assert (G : Euler.jump_part W lmbd h mj sj (c + 3 * Z.to_nat n)%nat = Err ValueError -> r2FSVJ W (v1, v2) par N n h c = Err ValueError).
  { intro HJ. unfold r2FSVJ. names. rewrite (rbind_lift _ (h / IZR n)) by now apply seg_len.
    rewrite (rbind_lift _ (sqrt (h / IZR n))) by (apply msqrt_ok, seg_nonneg; [assumption|lra]).
    unfold emptyR. destruct (Z.ltb_spec N 0); [lia|]. destruct (Z.to_nat N) as [|N'] eqn:EN; [lia|]. cbn [rowsR fst snd].
    apply foldR_first.
    erewrite rbind_ok; [|apply (segs2_ok W k1 t1 s1 k2 t2 s2 (h / IZR n) (sqrt (h / IZR n)) (sqrt_pos _) (range 0 n) v1 v2 0 0 0 c H1 H2)].
    cbv zeta. apply foldR_first. rewrite range_len. exact HJ. }
  split.
  - intro Hl. apply G, jump_part_neg. nra.
  - intros Hl Hs Hp. apply G, jump_part_sd; [nra|assumption|assumption].
Qed.
(** rSVIJ draws the price jumps after the rows of rSVVJ; the standard deviation is checked even when there is no jump *)
Theorem C63_rSVIJ : forall (W : world) v0 mu k th sg rho T js jt lam mus sgs N n c ys c', (0 < N)%Z -> 0 < T ->
  rSVVJ W v0 mu k th sg rho T js jt N n c = Ok (ys, c') -> lam < 0 \/ sgs < 0 ->
  rSVIJ W v0 mu k th sg rho T js jt lam mus sgs N n c = Err ValueError.
Proof.
  intros W v0 mu k th sg rho T js jt lam mus sgs N n c ys c' HN HT E HB. unfold rSVIJ. rewrite (rbind_ok _ _ _ _ _ E).
  apply foldR_first. destruct (Z.to_nat N) as [|N'] eqn:EN; [lia|]. cbn [rowsR]. apply foldR_first.
  unfold rbind at 1, poisson. destruct (Rlt_dec (lam * T) 0) as [a|a]; [reflexivity|]. destruct HB as [b|b]; [nra|]. cbn [bind fst snd].
  apply foldR_first. unfold sum_normals. destruct (Rlt_dec sgs 0); [reflexivity|lra].
Qed.

(** ** Fewer jump sizes than jump times: IndexError as soon as a time without a size is reached.  [short T lo js jt]: the times
    up to and including the first one without a size are in order, not before lo and not after T; the sizes are not negative. *)
Fixpoint short (T lo : R) (js jt : list R) {struct jt} : Prop :=
  match jt with
  | [] => False
  | s :: jt => lo <= s <= T /\ match js with [] => True | J :: js => 0 <= J /\ short T s js jt end
  end.
Lemma jumps_short W k th sg t T : forall jt js t0 st c, 0 <= fst (fst (fst st)) -> t0 <= t -> short T t0 js jt ->
  match jumps_to W t k th sg t0 js jt st c with
  | Err e => e = IndexError
  | Ok ((t1, js', jt', st'), _) => 0 <= fst (fst (fst st')) /\ t1 <= t /\ short T t js' jt' /\ t < T
  end.
Proof.
  induction jt as [|s jt IH]; intros js t0 [[[v a] b] d] c Hv Ht H; [destruct H|]. cbn [fst] in Hv. cbn [short] in H. destruct H as [Hs H].
  destruct js as [|J js]; cbn [jumps_to]; (destruct (Rle_dec s t) as [r|r]; [|cbn [rret fst]; split; [exact Hv|]; split; [exact Ht|]; split; [cbn [short]; split; [lra|exact H]|lra]]).
  - now rewrite (rbind_ok _ _ _ _ _ (inc_ok W k th sg c t0 (s - t0) v a b d ltac:(lra) Hv)).
  - rewrite (rbind_ok _ _ _ _ _ (inc_ok W k th sg c t0 (s - t0) v a b d ltac:(lra) Hv)).
    destruct H as [HJ H]. apply IH; [|assumption|assumption]. cbn [fst].
    apply Rplus_le_le_0_compat; [apply tstep_nonneg|assumption].
Qed.
Lemma rows_first {S} (f : S -> rnd (R * S)) N s c e : (0 < N)%Z -> f s c = Err e -> rowsR f (Z.to_nat N) s c = Err e.
Proof. intros HN H. destruct (Z.to_nat N) as [|N'] eqn:EN; [lia|]. cbn [rowsR]. now apply foldR_first. Qed.

Lemma segs_short W k th sg dt T : 0 < dt -> forall m i js jt st c, (0 <= i)%Z -> IZR (i + Z.of_nat (S m)) * dt = T ->
  0 <= fst (fst (fst st)) -> short T (IZR i * dt) js jt ->
  foldR (body W k th sg dt) (map (fun j => (i + Z.of_nat j)%Z) (seq 0 (S m))) (js, jt, st) c = Err IndexError.
Proof.
  intros Hdt. induction m as [|m IH]; intros i js jt st c Hi HT Hv H; rewrite <- cons_seq; cbn [map foldR].
  - unfold rbind at 1. unfold body at 1. rewrite Z.add_0_r. unfold rbind at 1.
    pose proof (jumps_short W k th sg (IZR (i + 1) * dt) T jt js (IZR i * dt) st c Hv ltac:(pose proof (grid_step dt Hdt i); lra) H) as J.
    destruct (jumps_to _ _ _ _ _ _ _ _ _ _) as [[[[[t1 js'] jt'] st'] c1]|e]; [|now subst].
    destruct J as (_ & _ & _ & L). cbn [Z.of_nat Pos.of_succ_nat] in HT. lra.
  - unfold rbind at 1. unfold body at 1. rewrite Z.add_0_r. unfold rbind at 1.
    pose proof (jumps_short W k th sg (IZR (i + 1) * dt) T jt js (IZR i * dt) st c Hv ltac:(pose proof (grid_step dt Hdt i); lra) H) as J.
    destruct (jumps_to _ _ _ _ _ _ _ _ _ _) as [[[[[t1 js'] jt'] [[[v a] b] d]] c1]|e]; [|now subst].
    destruct J as (Hv' & Ht & Hsh & _). cbn [bind fst snd] in *.
    assert (G : forall st c, 0 <= fst (fst (fst st)) ->
      foldR (body W k th sg dt) (map (fun j => (i + Z.of_nat j)%Z) (seq 1 (S m))) (js', jt', st) c = Err IndexError).
    { intros st0 c0 H0. rewrite <- seq_shift, map_map.
      rewrite (map_ext _ (fun j => (i + 1 + Z.of_nat j)%Z)) by (intro j; lia). apply IH; [lia| |exact H0|exact Hsh].
      rewrite <- HT. do 2 f_equal. lia. }
    destruct (Rlt_dec t1 (IZR (i + 1) * dt)) as [l|l].
    + rewrite (rbind_ok _ _ _ _ _ (inc_ok W k th sg c1 t1 (IZR (i + 1) * dt - t1) v a b d ltac:(lra) Hv')). cbn [rret bind fst snd].
      apply G. cbn [fst]. apply tstep_nonneg.
    + unfold rbind at 1. cbn [rret bind fst snd]. now apply G.
Qed.

Theorem C63_short : forall (W : world) v0 mu k th sg rho T js jt N n c, (0 < N)%Z -> (0 < n)%Z -> 0 < T -> k <> 0 -> 0 <= v0 -> short T 0 js jt ->
  rIEII W v0 k th sg T js jt n c = Err IndexError /\ rSVVJ W v0 mu k th sg rho T js jt N n c = Err IndexError.
Proof.
  intros W v0 mu k th sg rho T js jt N n c HN Hn HT Hk Hv H.
  assert (Hdt : 0 < T / IZR n) by (apply Rdiv_lt_0_compat; [exact HT|now apply IZR_lt]).
  assert (A : forall c, rIEII W v0 k th sg T js jt n c = Err IndexError).
  { intro c0. unfold rIEII. rewrite (rbind_lift _ (T / IZR n)) by now apply seg_len.
    destruct jt as [|s jt'] eqn:Ej; [destruct H|]. rewrite <- Ej in *. unfold range. rewrite Z.sub_0_r. apply foldR_first.
    destruct (Z.to_nat n) as [|n'] eqn:En; [lia|]. change (foldR (body W k th sg (T / IZR n)) (map (fun j => (0 + Z.of_nat j)%Z) (seq 0 (S n'))) (js, jt, (v0, 0, 0, 0)) c0 = Err IndexError).
    apply (segs_short W k th sg (T / IZR n) T Hdt n' 0 js jt (v0, 0, 0, 0)); [lia| |exact Hv|now rewrite Rmult_0_l].
    replace (0 + Z.of_nat (S n'))%Z with n by lia. field. apply not_0_IZR. lia. }
  split; [apply A|]. unfold rSVVJ. destruct (Z.ltb_spec N 0); [lia|].
  rewrite (rbind_lift _ ((1 - exp (- k * T)) / (2 * k))) by (apply pydiv_ok; lra).
  assert (e : forall js jt lo, short T lo js jt -> (exists x, eIEZ T js jt k = Ok x) /\ (exists x, eIZ T js jt = Ok x)).
  { clear. induction js as [|J js IH]; intros jt lo H; [split; eexists; reflexivity|]. destruct jt as [|s jt]; [destruct H|].
    cbn [short] in H. destruct H as (_ & _ & H). destruct (IH jt s H) as [[x e1] [y e2]]. cbn [eIEZ eIZ]. rewrite e1, e2.
    destruct (Rle_dec s T); cbn [bind]; eauto. }
  destruct (e js jt 0 H) as [e1 e2].
  destruct e1 as [x e1], e2 as [y e2].
  rewrite (rbind_lift _ x) by exact e1. rewrite (rbind_lift _ (exp (- k * T) * x / (2 * k))) by (apply pydiv_ok; lra).
  rewrite (rbind_lift _ y) by exact e2. rewrite (rbind_lift _ (y / (2 * k))) by (apply pydiv_ok; lra).
  apply rows_first; [assumption|]. now apply foldR_first.
Qed.
(** one size for two times *)
Example C63_short_ex (W : world) : rSVVJ W 4 0 1 1 1 0 2 [1] [1/2; 3/2] 5 10 O = Err IndexError.
Proof. apply C63_short; first [lra | lia | cbn [short]; lra]. Qed.

(** ** the names of the intermediate polynomial of cov.py *)
Theorem C63_keyfor_ve_IEII_vn : forall n2 n3 n4 n5 p, ve_IEII_vn n2 n3 n4 n5 = Ok p ->
  keyfor p = ["e^{-knh}eI_n"; "e^{-kh}"; "h"; "v_{n-1}"; "k^{-}"; "theta"; "sigma_v"]%string.
Proof.
  intros n2 n3 n4 n5 p H. unfold ve_IEII_vn in H. destruct (ve_IEII n2 n3 n4 n5); [|discriminate]. cbn [bind] in H.
  destruct (foldM _ _ _); [|discriminate]. injection H as <-. reflexivity.
Qed.
Example C63_keyfor_ex : exists p, ve_IEII_vn 1 0 1 0 = Ok p /\ keyfor p <> [].
Proof. eexists. split; [vm_compute; reflexivity|discriminate]. Qed.
Example C63_jumps_ex (W : world) : forall par, par_1fsv par 0 1 1 1 0 -> par_jump par (-1) 0 1 -> r1FSVJ W 1 par 3 5 1 O = Err ValueError.
Proof. intros par H1 H2. refine (proj1 (C63_r1FSVJ W 1 par 3 5 1 O 0 1 1 1 0 (-1) 0 1 H1 H2 _ _ _ _) _); first [lra | lia]. Qed.
Example C63_svij_ex (W : world) : rSVIJ W 4 0 1 1 1 0 2 [1] [1] 1 0 (-1) 5 10 O = Err ValueError.
Proof.
  destruct (C49_rSVVJ W 4 0 1 1 1 0 2 [(1, 1)] 5 10 O) as (st & ys & _ & e & _); first [lra | lia | cbn; lra | idtac].
  eapply (C63_rSVIJ W 4 0 1 1 1 0 2 [1] [1] 1 0 (-1) 5 10 O); first [exact e | lra | lia].
Qed.
