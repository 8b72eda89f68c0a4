(** Between two jumps the moments of the variance given the jumps evolve like those of a
    noncentral chi-square draw; at a jump they are those of the shifted variable. *)
From Coq Require Import Reals Lra Lia List ZArith.
From Coquelicot Require Import Coquelicot.
From Verif.Proof Require Import SumFacts Calc VolterraFacts Chi2Mom Umbral.
From Verif.Spec Require Import JumpPath Chi2.
Import ListNotations.
Local Open Scope R_scope.

Section S.
Context (k v th sg : R) (Hk : k <> 0) (Hs : sg <> 0).

Definition wz (x t : R) : R := v - th + th * exp (k * t) + x.
Definition qz (s t : R) : R := sg ^ 2 / 2 * ((exp (k * t) - exp (k * s)) / k).
Definition xz : R := 2 * k * th / sg ^ 2.

Lemma wz_derive x t : is_derive (wz x) t (th * (k * exp (k * t))).
Proof. unfold wz. auto_derive; [exact I|]. ring. Qed.
Lemma qz_derive s t : is_derive (qz s) t (sg ^ 2 / 2 * exp (k * t)).
Proof. unfold qz. auto_derive; [exact I|]. field. exact Hk. Qed.
Lemma sg2 : sg ^ 2 <> 0.
Proof. now apply pow_nonzero. Qed.

(** moments of e^{kt} v_t - wz, from those of e^{ks} v_s *)
Definition nz (s x : R) (f : nat -> R) (a : nat) (t : R) : R := bt a (- wz x t) (fun j => pr xz (qz s t) j f) / sg ^ a.
Definition dnz (s x : R) (f : nat -> R) (a : nat) (t : R) : R :=
  match a with
  | S (S b) => INR a * (INR a - 1) / 2 * exp (k * t) * (sg * nz s x f (S b) t + wz x t * nz s x f b t)
  | _ => 0
  end.
Lemma nz_derive s x f a t : is_derive (nz s x f a) t (dnz s x f a t).
Proof.
  set (xi := fun j => pr xz (qz s t) j f).
  set (xi' := fun j => sg ^ 2 / 2 * exp (k * t) * (INR j * (xz + INR j - 1) * xi (pred j))).
  eapply is_derive_val.
  { unfold nz. unfold Rdiv. apply is_derive_Rscal_r.
    apply (bt_derive a (fun t => - wz x t) (- (th * (k * exp (k * t)))) t) with (f' := xi').
    - apply (is_derive_opp (wz x)), wz_derive.
    - intros j _. apply (pr_derive xz j f (qz s)), qz_derive. }
  fold xi.
  assert (e : bt a (- wz x t) xi' = k * th * exp (k * t) * (INR a * bt (pred a) (- wz x t) xi)
     + sg ^ 2 / 2 * exp (k * t) * (INR a * (INR (pred a) * bt (pred (pred a)) (- wz x t) (fun j => xi (S j))))).
  { rewrite <- bt_dl, <- bt_dl, <- bt_dl, <- !bt_scal, <- bt_plus. apply bt_ext. intros j _. unfold xi', dl, xz.
    destruct j as [|j]; [cbn [INR]; field; exact Hs|]. cbn [pred]. rewrite S_INR. destruct j as [|j]; [cbn [INR pred]; field; exact Hs|].
    cbn [pred]. rewrite S_INR. field. exact Hs. }
  rewrite e. clear e. destruct a as [|[|b]]; cbn [pred dnz].
  { cbn [INR]. unfold Rdiv. ring. }
  { cbn [INR bt]. change (pr xz (qz s t) 0 f) with (xi O). unfold Rdiv. ring. }
  change (fun j => pr xz (qz s t) j f) with xi. unfold nz. change (fun j => pr xz (qz s t) j f) with xi. cbn [bt]. rewrite !S_INR. cbn [pow]. field. split; [now apply pow_nonzero|exact Hs].
Qed.
Lemma dnz_cont s x f a t : continuous (dnz s x f a) t.
Proof.
  destruct a as [|[|b]]; [apply continuous_Rconst|apply continuous_Rconst|]. cbn [dnz].
  apply continuous_Rmult; [apply continuous_Rmult; [apply continuous_Rconst|]|].
  - apply continuous_Rexp, continuous_Rmult; [apply continuous_Rconst|apply continuous_Rid].
  - apply continuous_Rplus; apply continuous_Rmult.
    + apply continuous_Rconst.
    + eapply continuous_of_derive, nz_derive.
    + eapply continuous_of_derive, wz_derive.
    + eapply continuous_of_derive, nz_derive.
Qed.

Context (z : path) (M : zidx -> R -> R) (HM : cond_moments (mkZpar k v th sg) z M).
Definition mm (a : nat) (t : R) : R := M (Z.of_nat a, 0, 0)%Z t.
Definition bm (x t : R) (n : nat) : R := bt n (wz x t) (fun j => sg ^ j * mm j t).

Lemma rhs_mm a s : lin_rhs (cond_sys (mkZpar k v th sg) z) M (Z.of_nat a, 0, 0)%Z s =
  match a with
  | S (S b) => INR a * (INR a - 1) / 2 * exp (k * s) * (sg * mm (S b) s + wz (IEZ_path k z s) s * mm b s)
  | _ => 0
  end.
Proof.
  unfold lin_rhs, cond_sys. destruct a as [|[|b]]; try reflexivity.
  replace (2 <=? Z.of_nat (S (S b)))%Z with true by (symmetry; apply Z.leb_le; lia).
  replace (1 <=? Z.of_nat (S (S b)))%Z with true by (symmetry; apply Z.leb_le; lia). cbn [Z.leb Z.compare andb app zpk zpv zpth zpsg].
  unfold vz_terms. cbn [sumR fst snd app zpsg zpk]. unfold v_given. cbn [zpv zpk zpth].
  replace (Z.of_nat (S (S b)) - 2)%Z with (Z.of_nat b) by lia. replace (Z.of_nat b + 1)%Z with (Z.of_nat (S b)) by lia.
  fold (mm b s) (mm (S b) s). unfold wz. rewrite mult_IZR, minus_IZR, <- INR_IZR_INZ, exp_Ropp.
  pose proof (exp_pos (k * s)). field. lra.
Qed.
Lemma mm_0 t : 0 <= t -> mm 0 t = 1.
Proof.
  intro Ht. pose proof (HM (0, 0, 0)%Z ltac:(cbn; lia) t Ht) as h.
  assert (e : is_RInt (lin_rhs (cond_sys (mkZpar k v th sg) z) M (0, 0, 0)%Z) 0 t 0).
  { apply (is_RInt_ext (fun _ => 0)); [reflexivity|]. replace 0 with (scal (t - 0) 0) at 2 by (unfold scal; cbn; unfold mult; cbn; ring).
    apply (@is_RInt_const R_NormedModule). }
  pose proof (is_RInt_uniq _ _ _ _ _ h e) as u. cbn [cond_init] in u. unfold mm. cbn [Z.of_nat]. lra.
Qed.
Lemma mm_int a s t : 0 <= s <= t -> is_RInt (lin_rhs (cond_sys (mkZpar k v th sg) z) M (Z.of_nat a, 0, 0)%Z) s t (mm a t - mm a s).
Proof.
  intros [h0 h1]. assert (D : zdom (Z.of_nat a, 0, 0)%Z) by (cbn; lia).
  pose proof (HM _ D s h0) as hs. pose proof (HM _ D t ltac:(lra)) as ht. apply is_RInt_swap in hs.
  pose proof (is_RInt_Chasles _ _ _ _ _ _ hs ht) as h. unfold mm.
  match type of h with is_RInt _ _ _ ?l => replace l with (M (Z.of_nat a, 0, 0)%Z t - M (Z.of_nat a, 0, 0)%Z s) in h; [exact h|] end.
  unfold plus, opp. cbn. ring.
Qed.

(** between two jumps *)
Section Between.
Context (s0 s1 : R) (H0 : 0 <= s0) (Hu : forall t, s0 <= t < s1 -> upto t z = upto s0 z).
Let x0 := IEZ_path k z s0.
Lemma nz_start a : nz s0 x0 (bm x0 s0) a s0 = mm a s0.
Proof.
  unfold nz, bm. rewrite (bt_ext _ _ _ (fun j => bt j (wz x0 s0) (fun j => sg ^ j * mm j s0))).
  - rewrite bt_bt, Rplus_opp_r, bt_0. field. now apply pow_nonzero.
  - intros j _. replace (qz s0 s0) with 0; [apply pr_0|]. unfold qz. field. exact Hk.
Qed.
Lemma mm_nz a : forall t, s0 <= t <= s1 -> mm a t = nz s0 x0 (bm x0 s0) a t.
Proof.
  induction a as [a IH] using (well_founded_induction Wf_nat.lt_wf). intros t Ht.
  pose proof (mm_int a s0 t ltac:(lra)) as h.
  assert (g : is_RInt (dnz s0 x0 (bm x0 s0) a) s0 t (nz s0 x0 (bm x0 s0) a t - nz s0 x0 (bm x0 s0) a s0)).
  { apply RInt_of_derive; [intro; apply nz_derive|intro; apply dnz_cont]. }
  apply (is_RInt_ext _ (lin_rhs (cond_sys (mkZpar k v th sg) z) M (Z.of_nat a, 0, 0)%Z)) in g.
  - pose proof (is_RInt_uniq _ _ _ _ _ h g) as u. rewrite nz_start in u. lra.
  - intros s Hs'. rewrite Rmin_left, Rmax_right in Hs' by lra. rewrite rhs_mm. destruct a as [|[|b]]; [reflexivity|reflexivity|]. cbn [dnz].
    rewrite <- !IH by (try lia; lra). replace (IEZ_path k z s) with x0; [reflexivity|]. unfold x0, IEZ_path. rewrite (Hu s) by lra. reflexivity.
Qed.
Lemma bm_between n t : s0 <= t <= s1 -> bm x0 t n = pr xz (qz s0 t) n (bm x0 s0).
Proof.
  intro Ht. unfold bm at 1. rewrite (bt_ext _ _ _ (fun j => bt j (- wz x0 t) (fun i => pr xz (qz s0 t) i (bm x0 s0)))).
  - rewrite bt_bt, Rplus_opp_l, bt_0. reflexivity.
  - intros j _. rewrite (mm_nz j t Ht). unfold nz. field. now apply pow_nonzero.
Qed.
End Between.

(** at a jump *)
Lemma bm_jump x y t n : bm (x + y) t n = bt n y (bm x t).
Proof. unfold bm. rewrite bt_bt. f_equal. unfold wz. ring. Qed.

(** the moments of e^{kt} v_t along the remaining jumps *)
Fixpoint emom (t : R) (f : nat -> R) (zs : path) (T : R) (n : nat) : R :=
  match zs with
  | [] => pr xz (qz t T) n f
  | (s, J) :: r => emom s (fun n => bt n (exp (k * s) * J) (fun j => pr xz (qz t s) j f)) r T n
  end.
Lemma strictly_gt t : forall zs, strictly t zs -> forall sj, In sj zs -> t < fst sj.
Proof.
  intro zs. revert t. induction zs as [|[s J] r IH]; intros t H sj []; cbn [strictly fst snd] in H.
  - subst sj. cbn. lra.
  - pose proof (IH s (proj2 (proj2 H)) sj H0). lra.
Qed.
Lemma upto_all t (l : path) : (forall sj, In sj l -> fst sj <= t) -> upto t l = l.
Proof.
  induction l as [|a r IH]; intro H; [reflexivity|]. unfold upto in *. cbn [filter].
  destruct (Rle_dec (fst a) t) as [h|h]; [|exfalso; apply h, H; now left]. rewrite IH; [reflexivity|]. intros; apply H; now right.
Qed.
Lemma upto_none t (l : path) : (forall sj, In sj l -> t < fst sj) -> upto t l = [].
Proof.
  induction l as [|a r IH]; intro H; [reflexivity|]. unfold upto in *. cbn [filter].
  destruct (Rle_dec (fst a) t) as [h|h]; [pose proof (H a (or_introl eq_refl)); lra|]. apply IH. intros; apply H; now right.
Qed.
Lemma upto_app t (l r : path) : upto t (l ++ r) = upto t l ++ upto t r.
Proof. apply filter_app. Qed.
Lemma emom_ext zs T n : forall t f g, (forall j, (j <= n)%nat -> f j = g j) -> emom t f zs T n = emom t g zs T n.
Proof.
  induction zs as [|[s J] r IH]; intros t f g H; cbn [emom]; [now apply pr_ext|].
  apply IH. intros j Hj. apply bt_ext. intros i Hi. apply pr_ext. intros l Hl. apply H. lia.
Qed.
Lemma emom_scal c zs T n : forall t f, emom t (fun j => c * f j) zs T n = c * emom t f zs T n.
Proof.
  induction zs as [|[s J] r IH]; intros t f; cbn [emom]; [apply pr_scal|].
  rewrite <- IH. apply emom_ext. intros j _. rewrite <- bt_scal. apply bt_ext. intros i _. apply pr_scal.
Qed.
Lemma bm_emom T n : forall zs done t, z = done ++ zs -> 0 <= t -> (forall sj, In sj done -> fst sj <= t) -> strictly t zs ->
  (forall sj, In sj zs -> fst sj <= T) -> t <= T ->
  bm (IEZ_path k z T) T n = emom t (bm (IEZ_path k z t) t) zs T n.
Proof.
  induction zs as [|[s J] r IH]; intros dn t Ez Ht Hd Hst HT HtT; cbn [emom].
  - rewrite <- (bm_between t T Ht).
    + f_equal. unfold IEZ_path. rewrite Ez, app_nil_r, !upto_all; [reflexivity| |]; intros sj Hin; pose proof (Hd sj Hin); lra.
    + intros u Hu'. rewrite Ez, app_nil_r, !upto_all; [reflexivity| |]; intros sj Hin; pose proof (Hd sj Hin); lra.
    + lra.
  - cbn [strictly fst snd] in Hst. destruct Hst as (Hts & HJ & Hst).
    assert (Hr := strictly_gt s r Hst).
    assert (EuT : forall u, t <= u < s -> upto u z = dn).
    { intros u Hu'. rewrite Ez, upto_app, upto_all, upto_none; [apply app_nil_r| |].
      - intros sj [<-|Hin]; cbn [fst]; [lra|]. pose proof (Hr sj Hin). lra.
      - intros sj Hin. pose proof (Hd sj Hin). lra. }
    assert (Eus : upto s z = dn ++ [(s, J)]).
    { rewrite Ez. change ((s, J) :: r) with ([(s, J)] ++ r). rewrite !upto_app, upto_all, (upto_all s [(s, J)]), upto_none.
      - now rewrite app_nil_r.
      - exact Hr.
      - intros sj [<-|[]]. cbn. lra.
      - intros sj Hin. pose proof (Hd sj Hin). lra. }
    assert (e : IEZ_path k z s = IEZ_path k z t + exp (k * s) * J).
    { unfold IEZ_path. rewrite Eus, (EuT t) by lra. rewrite sumR_app. cbn [sumR fst snd]. ring. }
    rewrite (IH (dn ++ [(s, J)]) s).
    + apply emom_ext. intros j _. rewrite e, bm_jump. apply bt_ext. intros i _. apply (bm_between t s Ht).
      * intros u Hu'. rewrite !EuT by lra. reflexivity.
      * lra.
    + rewrite Ez, <- app_assoc. reflexivity.
    + lra.
    + intros sj Hin. apply in_app_iff in Hin. destruct Hin as [Hin|[<-|[]]]; [pose proof (Hd sj Hin); lra|cbn; lra].
    + exact Hst.
    + intros sj Hin. apply HT. now right.
    + apply (HT (s, J)). now left.
Qed.

(** ... and of v_T from v_0 *)
Lemma bm_start n : strictly 0 z -> bm (IEZ_path k z 0) 0 n = v ^ n.
Proof.
  intro Hz. unfold bm.
  assert (e : forall j, (j <= n)%nat -> sg ^ j * mm j 0 = 0 ^ j).
  { intros [|j] _; [cbn [pow]; rewrite mm_0 by lra; ring|]. rewrite pow_i by lia.
    pose proof (HM (Z.of_nat (S j), 0, 0)%Z ltac:(cbn; lia) 0 ltac:(lra)) as h.
    pose proof (is_RInt_uniq _ _ _ _ _ h (is_RInt_point _ _)) as u. unfold zero in u. cbn in u.
    unfold mm. cbn [Z.of_nat]. replace (M (Z.pos (Pos.of_succ_nat j), 0%Z, 0%Z) 0) with 0 by lra. ring. }
  rewrite (bt_ext _ _ _ _ e), bt_pow. f_equal. unfold wz, IEZ_path. rewrite upto_none by now apply strictly_gt.
  cbn [sumR]. rewrite Rmult_0_r, exp_0. ring.
Qed.
Theorem bm_final T n : strictly 0 z -> (forall sj, In sj z -> fst sj <= T) -> 0 <= T ->
  bm (IEZ_path k z T) T n = emom 0 (fun j => v ^ j) z T n.
Proof.
  intros Hz HT H0. rewrite (bm_emom T n z [] 0 eq_refl); try assumption; try lra; [|intros ? []].
  apply emom_ext. intros j _. now apply bm_start.
Qed.
End S.
