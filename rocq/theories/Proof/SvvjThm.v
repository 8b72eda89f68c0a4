(** C34: the lists of moments of the SVVJ and SVIJ models as expectations. *)
From Coq Require Import Reals Lra.
From Coquelicot Require Import Coquelicot.
From Verif.Spec Require Import Svvj.
From Verif.Model Require Import Svvj.
From Verif.Proof Require Export ItoCondEx SvvjMomProofs.
Local Open Scope R_scope.

Section T.
Context (iez : Q -> Z -> Poly jkey -> res (Poly jkey)).
Hypothesis HJ : forall i, zdom i -> returns (Jm iez i) (wfJ i).

(** value of the n-th central moment in terms of the joint moments *)
Definition Cv (n : Z) (p : svpar) (z : path) : R :=
  sumR (svterm iez n (p, z, (nth 0 (sv3 p) 0, nth 1 (sv3 p) 0, nth 2 (sv3 p) 0))) (rcomp 2 n).

Lemma svgood_ok n q : svgood iez n q -> wfp (svok 6 3) kf_sv q /\ forall p z, eval (cmon_sv p z) (items q) = Cv n p z.
Proof.
  intros (K & U & A & S & V). split.
  - split; [exact K|]. split; [exact U|]. intros k Hk. destruct (A k Hk) as ((h1 & h2 & h3) & i & j & d & Ex & hi & hj & hd).
    pose proof (S k Hk) as He. unfold svE, nthZ in He. split; [exact h1|]. split; [exact h2|]. split; [exact h3|].
    rewrite Ex in *. split; [reflexivity|]. split; [|exact He]. repeat (apply Forall_cons; [assumption|]). apply Forall_nil.
  - intros p z. exact (V (p, z, (nth 0 (sv3 p) 0, nth 1 (sv3 p) 0, nth 2 (sv3 p) 0))).
Qed.

Lemma sv_cmoments_tab l : returns (sv_cmoments_with iez l) (fun cs => length cs = Z.to_nat (Z.max 1 l + 1) /\
  tabok 6 3 kf_sv 0 (Z.max 1 l) cs /\ forall n, (0 <= n <= Z.max 1 l)%Z -> forall p z, tabv (cmon_sv p z) cs n = Cv n p z).
Proof.
  eapply returns_weaken; [apply (sv_cmoments_sp iez HJ l)|]. intros cs [Hl Hn]. split; [exact Hl|]. split.
  - intros n Hr. destruct (Hn n Hr) as (q & Eq & G). exists q. split; [exact Eq|]. now apply (svgood_ok n q).
  - intros n Hr p z. destruct (Hn n Hr) as (q & Eq & G). unfold tabv. rewrite Eq. now apply (svgood_ok n q).
Qed.

Definition Mv (n : Z) (p : svpar) (z : path) : R :=
  sumR (fun ns => IZR (cmb n ns) * (monx (sva p z) ns * Cv (nth 4 ns 0%Z) p z)) (rcomp 4 n).

Lemma Cv_0 p z : Cv 0 p z = 1.
Proof.
  destruct (svgood_ok 0 sv_P1 (svgood_0 iez)) as [_ V]. rewrite <- V. unfold sv_P1. cbn [items eval].
  unfold cmon_sv, svmon, zvals, sv3, jk, fZ_path, fZ_sum. cbn [fst snd monx]. rewrite !pw_0. unfold Q2R; cbn. field.
Qed.
Lemma Cv_1 p z : Cv 1 p z = 0.
Proof.
  destruct (svgood_ok 1 sv_P0 (svgood_1 iez)) as [_ V]. rewrite <- V. unfold sv_P0. cbn [items eval]. unfold Q2R; cbn. ring.
Qed.

Lemma sv_moments_tab l : returns (sv_moments_with iez l) (fun ms => length ms = Z.to_nat (Z.max 0 l + 1) /\
  tabok 8 3 (kf_mom kf_sv) 0 (Z.max 0 l) ms /\ forall n, (0 <= n <= Z.max 0 l)%Z -> forall p z, tabv (mon_sv p z) ms n = Mv n p z).
Proof.
  unfold sv_moments_with. eapply returns_bind; [apply sv_cmoments_tab|]. intros cs (Hl & Ht & Hv).
  destruct (Ht 0%Z ltac:(lia)) as (q0 & E0 & K0 & _). rewrite (getp_nth _ _ _ E0). cbn [bind]. rewrite K0. cbv zeta.
  eapply returns_weaken.
  - apply (build_list (sv_mom_n (kf_mom kf_sv) cs) (fun n r => wfp (svok 8 3) (kf_mom kf_sv) r /\ forall p z, eval (mon_sv p z) (items r) = Mv n p z) 1 (l + 1)).
    + intros n Hn. eapply returns_weaken.
      * apply (sv_mom_n_sp cs n); [lia|]. intros m Hm. apply Ht. lia.
      * intros r [Wr Vr]. split; [exact Wr|]. intros p z. etransitivity; [exact (Vr (p, z))|]. apply sumR_ext. intros ns Hin.
        destruct (rcomp4_in n ns ltac:(lia) Hin) as (n1 & n2 & n3 & n4 & -> & hh). unfold mterm. cbn [fst snd nth].
        f_equal. f_equal. apply (Hv (n - n1 - n2 - n3 - n4)%Z). lia.
    + reflexivity.
    + lia.
    + intros n Hn. assert (n = 0%Z) as -> by lia. eexists. split; [reflexivity|]. split.
      * split; [reflexivity|]. split; [constructor; [intros []|constructor]|]. intros k [<-|[]].
        split; [reflexivity|]. split; [|split; [now repeat split|]].
        -- intros [|[|[|[|[|[|[|[|[|i]]]]]]]]] _; cbn; lia.
        -- split; [reflexivity|]. split; [repeat (apply Forall_cons; [cbn; lia|]); apply Forall_nil|reflexivity].
      * intros p z. cbn [items eval]. unfold Mv. change (rcomp 4 0) with [[0; 0; 0; 0; 0]%Z]. cbn [sumR nth]. rewrite Cv_0.
        unfold mon_sv, svmon, sv8, sv3, sva, fZ_path, fZ_sum. cbn [fst snd monx]. rewrite !pw_0.
        change (cmb 0 [0; 0; 0; 0; 0]%Z) with 1%Z. unfold Q2R; cbn. field.
  - intros ms [h1 h2]. split; [rewrite h1; lia|]. split.
    + intros n Hn. destruct (h2 n ltac:(lia)) as (q & Eq & Wq & _). now exists q.
    + intros n Hn p z. destruct (h2 n ltac:(lia)) as (q & Eq & _ & Vq). unfold tabv. rewrite Eq. apply Vq.
Qed.

(** ** SVIJ *)
Lemma svij_key_sp m a b2 p z (lam mus sgs e t : R) k1 k2 : (2 <= m)%nat -> length b2 = 3%nat ->
  svok m 3 k1 -> P_3 k2 -> svok m 6 (svij_key k1 k2) /\
  svmon (e :: t :: a) (b2 ++ [lam; mus; sgs]) p z (svij_key k1 k2)
  = svmon (e :: t :: a) b2 p z k1 * mon_j (lam * t) mus sgs tt k2.
Proof.
  intros Hm Hb (h1 & h2 & h3 & h4 & h5 & h6) H2. unfold P_3 in H2.
  destruct k1 as [[k lopq] x]. cbn [fst snd] in *.
  destruct k as [|k0 [|k1 k]]; cbn [length] in h1; try lia.
  destruct x as [|x1 [|x2 [|x3 [|? ?]]]]; try discriminate. destruct b2 as [|b1 [|b2 [|b3 [|? ?]]]]; try discriminate.
  wfs_destruct.
  pose proof (h2 1%nat ltac:(lia)) as Hk1. cbn [nth] in Hk1.
  unfold svij_key. cbn [fst snd tl]. unfold nthZ. change (Z.to_nat 0) with 0%nat. change (Z.to_nat 1) with 1%nat. cbn [nth]. split.
  - split; [exact h1|]. split.
    + intros [|[|i]] Hi; [lia|cbn [nth fst snd]; lia|]. exact (h2 (S (S i)) Hi).
    + split; [exact h3|]. cbn [fst snd app]. split; [reflexivity|]. split; [|exact h6].
      repeat match goal with H : Forall _ (_ :: _) |- _ => inversion H; clear H; subst end.
      repeat (apply Forall_cons; [assumption|]). apply Forall_nil.
  - unfold svmon, mon_j. cbn [fst snd monx app]. rewrite pow_lemma_pw by (right; lia). rewrite pw_mult by lia. ring.
Qed.

Definition jval (f : Z -> res (Poly (list Z))) (vs : list R) (n : Z) : R :=
  match f n with Ok q => eval (monx vs) (items q) | Err _ => 0 end.
Definition convv (c : Z -> R) (b : Z -> R) (n : Z) : R :=
  sumR (fun i => IZR (mcomb n i) * (c i * b (n - i)%Z)) (range 0 (n + 1)).

Lemma sumR_range_down (f : Z -> R) n : (0 <= n)%Z -> sumR f (range_down n) = sumR f (range 0 (n + 1)).
Proof.
  intros _. unfold range_down. generalize (range 0 (n + 1)). intro l. induction l as [|x r IH]; [reflexivity|].
  cbn [rev sumR]. rewrite sumR_app. cbn [sumR]. rewrite IH. ring.
Qed.


Lemma svij_n_all m cpp kf1 kf cs n (a : svpar -> list R) (v : Z -> svpar -> path -> R) : (2 <= m)%nat -> (0 <= n)%Z ->
  (forall p, nth_error (a p) 1 = Some (svh p)) -> tabok m 3 kf1 0 n cs ->
  (forall i, (0 <= i <= n)%Z -> forall p z, tabv (svmon (a p) (sv3 p) p z) cs i = v i p z) ->
  (forall i, (0 <= i <= n)%Z -> returns (cpp i) (wfp P_3 kf_cpp)) ->
  returns (svij_n cpp kf cs n) (fun r => wfp (svok m 6) kf r /\ forall p z lam mus sgs,
    eval (svmon (a p) (svij_lst p lam mus sgs) p z) (items r) = convv (fun i => v i p z) (jval cpp [lam * svh p; mus; sgs]) n).
Proof.
  intros Hm Hn Ha Ht Hv Hc.
  assert (H0 : forall p z lam mus sgs, returns (svij_n cpp kf cs n) (fun r => wfp (svok m 6) kf r /\
    eval (svmon (a p) (svij_lst p lam mus sgs) p z) (items r) = convv (fun i => v i p z) (jval cpp [lam * svh p; mus; sgs]) n)).
  { intros p z lam mus sgs. pose proof (Ha p) as Hap. destruct (a p) as [|e [|t r0]] eqn:Ea; try discriminate. injection Hap as ->.
    eapply returns_weaken.
    - apply (svij_n_sp m cpp kf1 kf cs n lam mus sgs (svh p) (jval cpp [lam * svh p; mus; sgs])
            (fun _ => svmon (e :: svh p :: r0) (sv3 p) p z) (fun _ => svmon (e :: svh p :: r0) (svij_lst p lam mus sgs) p z)).
      + exact Ht.
      + intros i Hi. pose proof (Hc i Hi) as h. unfold jval. destruct (cpp i) as [r|]; [|destruct h]. now split.
      + intros k1 k2 H1 H2. apply (svij_key_sp m); trivial; reflexivity.
    - intros r [Wr Vr]. split; [exact Wr|]. etransitivity; [exact Vr|]. rewrite sumR_range_down by lia.
      apply sumR_ext. intros i Hi. apply in_range in Hi. cbv beta. f_equal. f_equal.
      specialize (Hv i ltac:(lia) p z). rewrite Ea in Hv. exact Hv. }
  pose proof (H0 (mkSv (mkZpar 0 0 0 0) 0 0 0) [] 0 0 0) as h.
  destruct (svij_n cpp kf cs n) as [r|]; [|destruct h]. cbn [returns] in *. split; [apply h|]. intros p z lam mus sgs. apply H0.
Qed.

Lemma cmcpp_wf i : (0 <= i)%Z -> returns (cmcpp i) (wfp P_3 kf_cpp).
Proof.
  intro Hi. rewrite <- (Z2Nat.id i) by lia. eapply returns_weaken; [apply cmcpp_spec|].
  intros r (h1 & h2 & h3 & h4). split; [exact h1|]. split; [exact h3|]. now apply nn3_P_3.
Qed.
Lemma mcpp_wf i : (0 <= i)%Z -> returns (mcpp i) (wfp P_3 kf_cpp).
Proof.
  intro Hi. rewrite <- (Z2Nat.id i) by lia. eapply returns_weaken; [apply mcpp_spec|].
  intros r (h1 & h2 & h3 & h4). split; [exact h1|]. split; [exact h3|]. now apply nn3_P_3.
Qed.

Lemma convv_0 c b : convv c b 0 = c 0%Z * b 0%Z.
Proof. unfold convv. change (range 0 (0 + 1)) with [0%Z]. cbn [sumR]. change (mcomb 0 0) with 1%Z. change (0 - 0)%Z with 0%Z. ring. Qed.
Lemma convv_1 c b : convv c b 1 = c 0%Z * b 1%Z + c 1%Z * b 0%Z.
Proof.
  unfold convv. change (range 0 (1 + 1)) with [0%Z; 1%Z]. cbn [sumR]. change (mcomb 1 0) with 1%Z. change (mcomb 1 1) with 1%Z.
  change (1 - 0)%Z with 1%Z. change (1 - 1)%Z with 0%Z. ring.
Qed.
Lemma jval_c0 x y z : jval cmcpp [x; y; z] 0 = 1.
Proof. unfold jval. set (r := cmcpp 0). vm_compute in r. subst r. cbn [items eval monx]. rewrite !pw_0. unfold Q2R; cbn. field. Qed.
Lemma jval_c1 x y z : jval cmcpp [x; y; z] 1 = 0.
Proof. unfold jval. set (r := cmcpp 1). vm_compute in r. subst r. cbn [items eval monx]. reflexivity. Qed.
Lemma jval_m0 x y z : jval mcpp [x; y; z] 0 = 1.
Proof. unfold jval. set (r := mcpp 0). vm_compute in r. subst r. cbn [items eval monx]. rewrite !pw_0. unfold Q2R; cbn. field. Qed.

Lemma svij_cmoments_tab l : returns (svij_cmoments_with iez l) (fun cs => length cs = Z.to_nat (Z.max 1 l + 1) /\
  tabok 6 6 (kf_ij kf_sv) 0 (Z.max 1 l) cs /\ forall n, (0 <= n <= Z.max 1 l)%Z -> forall p z lam mus sgs,
    tabv (svmon (zvals (svz p) (svh p)) (svij_lst p lam mus sgs) p z) cs n
    = convv (fun i => Cv i p z) (jval cmcpp [lam * svh p; mus; sgs]) n).
Proof.
  unfold svij_cmoments_with. eapply returns_bind; [apply sv_cmoments_tab|]. intros cs (Hl & Ht & Hv).
  destruct (Ht 0%Z ltac:(lia)) as (q0 & E0 & K0 & _). rewrite (getp_nth _ _ _ E0). cbn [bind]. rewrite K0. cbv zeta.
  assert (W0 : forall x : Q, wfp (svok 6 6) (kf_ij kf_sv) (mkPoly [(jk [0;0;0;0;0;0]%Z [] [], [0;0;0;0;0;0]%Z, x)] (kf_ij kf_sv))).
  { intro x. split; [reflexivity|]. split; [constructor; [intros []|constructor]|]. intros k [<-|[]].
    split; [reflexivity|]. split; [|split; [now repeat split|]].
    - intros [|[|[|[|[|[|[|i]]]]]]] _; cbn; lia.
    - split; [reflexivity|]. split; [repeat (apply Forall_cons; [cbn; lia|]); apply Forall_nil|reflexivity]. }
  eapply returns_weaken.
  - apply (build_list (svij_n cmcpp (kf_ij kf_sv) cs) (fun n r => wfp (svok 6 6) (kf_ij kf_sv) r /\ forall p z lam mus sgs,
      eval (svmon (zvals (svz p) (svh p)) (svij_lst p lam mus sgs) p z) (items r)
      = convv (fun i => Cv i p z) (jval cmcpp [lam * svh p; mus; sgs]) n) 2 (l + 1)).
    + intros n Hn. apply (svij_n_all 6 cmcpp kf_sv (kf_ij kf_sv) cs n (fun p => zvals (svz p) (svh p)) Cv); try lia.
      * reflexivity.
      * intros m Hm. apply Ht. lia.
      * intros i Hi p z. apply Hv. lia.
      * intros i Hi. apply cmcpp_wf. lia.
    + reflexivity.
    + lia.
    + intros n Hn. assert (n = 0 \/ n = 1)%Z as [-> | ->] by lia.
      * eexists. split; [reflexivity|]. split; [apply W0|]. intros p z lam mus sgs. rewrite convv_0, Cv_0, jval_c0.
        cbn [items eval]. unfold svmon, zvals, svij_lst, sv3, jk, fZ_path, fZ_sum. cbn [fst snd monx app]. rewrite !pw_0. unfold Q2R; cbn. field.
      * eexists. split; [reflexivity|]. split; [apply W0|]. intros p z lam mus sgs. rewrite convv_1, Cv_1, jval_c1.
        cbn [items eval]. unfold Q2R; cbn. ring.
  - intros ms [h1 h2]. split; [rewrite h1; lia|]. split.
    + intros n Hn. destruct (h2 n ltac:(lia)) as (q & Eq & Wq & _). now exists q.
    + intros n Hn p z lam mus sgs. destruct (h2 n ltac:(lia)) as (q & Eq & _ & Vq). unfold tabv. rewrite Eq. apply Vq.
Qed.

Lemma svij_moments_tab l : returns (svij_moments_with iez l) (fun ms => length ms = Z.to_nat (Z.max 0 l + 1) /\
  tabok 8 6 (kf_ij (kf_mom kf_sv)) 0 (Z.max 0 l) ms /\ forall n, (0 <= n <= Z.max 0 l)%Z -> forall p z lam mus sgs,
    tabv (svmon (sv8 p) (svij_lst p lam mus sgs) p z) ms n
    = convv (fun i => Mv i p z) (jval mcpp [lam * svh p; mus; sgs]) n).
Proof.
  unfold svij_moments_with. eapply returns_bind; [apply sv_moments_tab|]. intros cs (Hl & Ht & Hv).
  destruct (Ht 0%Z ltac:(lia)) as (q0 & E0 & K0 & _). rewrite (getp_nth _ _ _ E0). cbn [bind]. rewrite K0. cbv zeta.
  eapply returns_weaken.
  - apply (build_list (svij_n mcpp (kf_ij (kf_mom kf_sv)) cs) (fun n r => wfp (svok 8 6) (kf_ij (kf_mom kf_sv)) r /\ forall p z lam mus sgs,
      eval (svmon (sv8 p) (svij_lst p lam mus sgs) p z) (items r)
      = convv (fun i => Mv i p z) (jval mcpp [lam * svh p; mus; sgs]) n) 1 (l + 1)).
    + intros n Hn. apply (svij_n_all 8 mcpp (kf_mom kf_sv) (kf_ij (kf_mom kf_sv)) cs n sv8 Mv); try lia.
      * reflexivity.
      * intros m Hm. apply Ht. lia.
      * intros i Hi p z. apply Hv. lia.
      * intros i Hi. apply mcpp_wf. lia.
    + reflexivity.
    + lia.
    + intros n Hn. assert (n = 0)%Z as -> by lia. eexists. split; [reflexivity|]. split.
      * split; [reflexivity|]. split; [constructor; [intros []|constructor]|]. intros k [<-|[]].
        split; [reflexivity|]. split; [|split; [now repeat split|]].
        -- intros [|[|[|[|[|[|[|[|[|i]]]]]]]]] _; cbn; lia.
        -- split; [reflexivity|]. split; [repeat (apply Forall_cons; [cbn; lia|]); apply Forall_nil|reflexivity].
      * intros p z lam mus sgs. rewrite convv_0, jval_m0.
        unfold Mv. change (rcomp 4 0) with [[0; 0; 0; 0; 0]%Z]. cbn [sumR nth]. rewrite Cv_0.
        cbn [items eval]. unfold svmon, sv8, svij_lst, sv3, sva, fZ_path, fZ_sum. cbn [fst snd monx app]. rewrite !pw_0.
        change (cmb 0 [0; 0; 0; 0; 0]%Z) with 1%Z. unfold Q2R; cbn. field.
  - intros ms [h1 h2]. split; [rewrite h1; lia|]. split.
    + intros n Hn. destruct (h2 n ltac:(lia)) as (q & Eq & Wq & _). now exists q.
    + intros n Hn p z lam mus sgs. destruct (h2 n ltac:(lia)) as (q & Eq & _ & Vq). unfold tabv. rewrite Eq. apply Vq.
Qed.

(** ** expectations *)
Section E.
Variables (L : Z) (p : svpar) (z : path) (Om : Type) (E : (Om -> R) -> R) (IE I Is : Om -> R).
Hypothesis (Hk : svk p <> 0) (HE : expectation E).
Hypothesis HT : joint3 E (fun i => Jv iez i (svz p) z (svh p)) L IE I Is.
Let ybar (w : Om) : R := sumR (fun x => x) [nth 0 (sv3 p) 0 * (exp (- (svk p * svh p)) * IE w); nth 1 (sv3 p) 0 * I w; nth 2 (sv3 p) 0 * Is w].

Lemma sv_lin w : sv_ret p z (IE w) (I w) (Is w) = sv_mean p z + ybar w.
Proof.
  unfold ybar, sv_ret, sv_intv, v_path, v_given, sv_mean, sv_beta, sv3. cbn [nth sumR]. cbv zeta. unfold svk in *. field. assumption.
Qed.
Lemma Cv_E n : (0 <= n <= L)%Z -> Cv n p z = E (fun w => ybar w ^ Z.to_nat n).
Proof.
  intros Hn. unfold ybar, Cv.
  rewrite (E_multinomial E HE (fun w => [nth 0 (sv3 p) 0 * (exp (- (svk p * svh p)) * IE w); nth 1 (sv3 p) 0 * I w; nth 2 (sv3 p) 0 * Is w]) 2 n) by (lia || reflexivity).
  apply sumR_ext. intros ns Hin. destruct (rcomp2_in n ns ltac:(lia) Hin) as (i & j & d & -> & Hi & Hj & Hd & Hs).
  cbn [svterm]. f_equal. rewrite <- (HT i j d) by lia. rewrite Rmult_comm, <- (E_scal E HE). apply (E_ext E HE). intro w. cbn [powprod].
  rewrite !Rpow_mult_distr. rewrite !pw_Zpos by lia. ring.
Qed.
Lemma sv_E_one : (0 <= L)%Z -> E (fun _ => 1) = 1.
Proof. intros h1. pose proof (Cv_E 0 ltac:(lia)) as h. rewrite Cv_0 in h. symmetry. exact h. Qed.
Lemma sv_E_cen : (1 <= L)%Z -> E ybar = 0.
Proof.
  intros h1. pose proof (Cv_E 1 ltac:(lia)) as h. rewrite Cv_1 in h. change (Z.to_nat 1) with 1%nat in h.
  rewrite h. apply (E_ext E HE). intro w. ring.
Qed.
Lemma sv_E_mean : (1 <= L)%Z -> E (fun w => sv_ret p z (IE w) (I w) (Is w)) = sv_mean p z.
Proof.
  intros h1. rewrite (E_ext E HE _ (fun w => sv_mean p z * 1 + ybar w)) by (intro w; rewrite sv_lin; ring).
  rewrite (E_plus E HE), (E_scal E HE), sv_E_one, sv_E_cen by lia. ring.
Qed.
Lemma Cv_cen n : (0 <= n <= L)%Z -> Cv n p z = E (fun w => (sv_ret p z (IE w) (I w) (Is w) - sv_mean p z) ^ Z.to_nat n).
Proof. intros h1. rewrite Cv_E by assumption. apply (E_ext E HE). intro w. rewrite sv_lin. f_equal. ring. Qed.
Lemma sva_mean : sumR (fun x => x) (sva p z) = sv_mean p z.
Proof. unfold sva, sv_mean. cbn [sumR]. field. assumption. Qed.
Lemma Mv_E n : (0 <= n <= L)%Z -> Mv n p z = E (fun w => sv_ret p z (IE w) (I w) (Is w) ^ Z.to_nat n).
Proof.
  intros Hn. unfold Mv.
  rewrite (E_ext E HE _ (fun w => sumR (fun x => x) (sva p z ++ [ybar w]) ^ Z.to_nat n)).
  2: { intro w. rewrite sv_lin, sumR_app, sva_mean. cbn [sumR]. f_equal. ring. }
  rewrite (E_multinomial E HE (fun w => sva p z ++ [ybar w]) 4 n) by (lia || reflexivity).
  apply sumR_ext. intros ns Hin. destruct (rcomp4_in n ns ltac:(lia) Hin) as (n1 & n2 & n3 & n4 & -> & h1 & h2 & h3 & h4 & h5).
  cbn [nth]. f_equal. rewrite Cv_E by lia. rewrite <- (E_scal E HE). apply (E_ext E HE). intro w.
  unfold sva. cbn [app powprod monx]. rewrite !pw_Zpos by assumption. ring.
Qed.

Section Jump.
Variables (lam mus sgs : R) (J : Om -> R) (NJ : nat).
Hypothesis (HJm : cpp_moments E NJ (lam * svh p) mus sgs J).
Hypothesis (HI : indep E NJ (fun w => sv_ret p z (IE w) (I w) (Is w)) J).

Lemma conv_c n : (0 <= n <= L)%Z -> (Z.to_nat n <= NJ)%nat ->
  convv (fun i => Cv i p z) (jval cmcpp [lam * svh p; mus; sgs]) n
  = E (fun w => (sv_ret p z (IE w) (I w) (Is w) + J w - (sv_mean p z + lam * svh p * mus)) ^ Z.to_nat n).
Proof.
  intros Hn HnJ. unfold convv.
  rewrite (E_ext E HE _ (fun w => ((sv_ret p z (IE w) (I w) (Is w) - sv_mean p z) + (J w - lam * svh p * mus)) ^ Z.to_nat n))
    by (intro w; f_equal; ring).
  rewrite <- (conv_E E HE (fun w => sv_ret p z (IE w) (I w) (Is w) - sv_mean p z) (fun w => J w - lam * svh p * mus) NJ n ltac:(lia) HnJ
    (indep_shift E HE NJ _ J _ _ HI)).
  apply sumR_ext. intros i Hi. apply in_range in Hi. f_equal. rewrite Cv_cen by lia. f_equal.
  pose proof (cmcpp_sp E HE (lam * svh p) mus sgs J (n - i)%Z ltac:(lia) ltac:(intros a Ha; apply HJm; lia)) as h.
  unfold jval. destruct (cmcpp (n - i)) as [r|]; [|destruct h]. destruct h as [_ h]. exact h.
Qed.
Lemma conv_m n : (0 <= n <= L)%Z -> (Z.to_nat n <= NJ)%nat ->
  convv (fun i => Mv i p z) (jval mcpp [lam * svh p; mus; sgs]) n
  = E (fun w => (sv_ret p z (IE w) (I w) (Is w) + J w) ^ Z.to_nat n).
Proof.
  intros Hn HnJ. unfold convv.
  rewrite <- (conv_E E HE (fun w => sv_ret p z (IE w) (I w) (Is w)) J NJ n ltac:(lia) HnJ HI).
  apply sumR_ext. intros i Hi. apply in_range in Hi. f_equal. rewrite Mv_E by lia. f_equal.
  pose proof (mcpp_sp (lam * svh p) mus sgs (n - i)%Z ltac:(lia)) as h.
  unfold jval. destruct (mcpp (n - i)) as [r|]; [|destruct h]. destruct h as [_ h]. rewrite HJm by lia. exact h.
Qed.
Lemma sv_J_mean : (1 <= L)%Z -> (1 <= NJ)%nat ->
  E (fun w => sv_ret p z (IE w) (I w) (Is w) + J w) = sv_mean p z + lam * svh p * mus.
Proof.
  intros h1 h3. rewrite (E_plus E HE), sv_E_mean by lia.
  now rewrite (cpp_mean E HE NJ (lam * svh p) mus sgs J (sv_E_one ltac:(lia)) h3 HJm).
Qed.
End Jump.
End E.
End T.
