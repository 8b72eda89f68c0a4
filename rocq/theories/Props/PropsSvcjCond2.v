(** C44, C45: mdl_svcj, cond2_mom.py and cond2_cmom.py: the return given v_0 and the jumps of the variance. *)
From Coq Require Import Reals Lra.
From Coquelicot Require Import Coquelicot.
From Verif.Spec Require Import SvcjPath.
From Verif.Model Require Import SvcjCond2.
From Verif.Proof Require Import Realise SvcjCond2W.
From Verif.Props Require Import PropsSvvj.
Import Verif.Model.Svvj Verif.Model.SvcjCond2.
Local Open Scope R_scope.

(** mnorm_cond(n): the moments of a price jump given the variance jump J *)
Theorem C44_mnorm_cond : forall n, (0 <= n)%Z -> exists q, mnorm_cond n = Ok q /\ keyfor q = ["mu_s"; "rho_J"; "sigma_s"; "J_i"]%string /\
  forall mus rhoJ sgs J, eval (monx [mus; rhoJ; sgs; J]) (items q) = nmom (mus + rhoJ * J) sgs n.
Proof.
  intros n Hn. destruct (returns_inv _ _ (mnorm_cond_sp n Hn)) as (q & Eq & (K & _ & _) & V). exists q. split; [exact Eq|]. split; [exact K|].
  intros mus rhoJ sgs J. rewrite nmom_V. exact (V mus rhoJ sgs J).
Qed.

(** q is the n-th central moment of the return, with nJ jumps *)
Definition is_cj_cmoment (W : world) (nJ : nat) (n : Z) (q : Poly svkey) : Prop :=
  keyfor q = kf_sv13 ++ ["sigma_s"]%string /\ uniq (items q) /\ (forall k, In k (keys (items q)) -> svok 6 4 k) /\
  forall Om E p z (IE I Is : Om -> R) Xs mus rhoJ sgs, svk p <> 0 -> expectation E -> length z = nJ -> W Om E p z n IE I Is ->
    price_jumps mus rhoJ sgs E p z n IE I Is Xs ->
    eval (svmon (zvals (svz p) (svh p)) (sv3 p ++ [sgs]) p z) (items q)
    = E (fun w => (sv_ret p z (IE w) (I w) (Is w) + sumR (fun X => X w) Xs - (sv_mean p z + jumps_mean mus rhoJ z)) ^ Z.to_nat n) /\
    ((1 <= n)%Z -> E (fun w => sv_ret p z (IE w) (I w) (Is w) + sumR (fun X => X w) Xs) = sv_mean p z + jumps_mean mus rhoJ z).
(** q is the n-th moment of the return, with nJ jumps *)
Definition is_cj_moment (W : world) (nJ : nat) (n : Z) (q : Poly cjkey) : Prop :=
  keyfor q = kf_sv15 ++ ["mu_s"; "rho_J"; "sigma_s"; "J_{1:n}"]%string /\ uniq (items q) /\
  ((1 <= n)%Z -> forall k, In k (keys (items q)) -> cjok nJ k) /\
  forall Om E p z (IE I Is : Om -> R) Xs mus rhoJ sgs, svk p <> 0 -> expectation E -> length z = nJ -> W Om E p z n IE I Is ->
    price_jumps mus rhoJ sgs E p z n IE I Is Xs ->
    eval (cjmon (sv8 p) (sv3 p ++ [mus; rhoJ; sgs]) p z) (items q)
    = E (fun w => (sv_ret p z (IE w) (I w) (Is w) + sumR (fun X => X w) Xs) ^ Z.to_nat n).

Lemma sumX_sum {Om} (Xs : list (Om -> R)) w : sumX Xs w = sumR (fun X => X w) Xs.
Proof. unfold sumX, evX. now rewrite sumR_map. Qed.

Section W.
Context (iez : Q -> Z -> Poly jkey -> res (Poly jkey)).
Hypothesis HJ : forall i, zdom i -> returns (Jm iez i) (wfJ i).
Variables (N : Z) (W : world).
Hypothesis HW : forall Om E p z n (IE I Is : Om -> R), svk p <> 0 -> (n <= N)%Z -> W Om E p z n IE I Is ->
  joint3 E (fun i => Jv iez i (svz p) z (svh p)) n IE I Is.
Lemma w_cj_c l nJ : returns (cj_cmoments_with iez l nJ) (is_table N (Z.max 1 l) (is_cj_cmoment W nJ)).
Proof.
  eapply returns_weaken; [apply (cj_cmoments_tab iez HJ nJ l)|]. intros cs (Hl & Ht & Hv). split; [exact Hl|].
  intros n Hn HN. destruct (Ht n Hn) as (q & Eq & K & U & A). exists q. split; [exact Eq|].
  split; [exact K|]. split; [exact U|]. split; [exact A|]. intros Om E p z IE I Is Xs mus rhoJ sgs Hk HE Hz w HX.
  pose proof (HW Om E p z n IE I Is Hk HN w) as HT. split.
  - pose proof (Hv n Hn p z sgs) as v. unfold tabv in v. rewrite Eq in v. rewrite v, <- Hz.
    rewrite (cj_c iez n p z Om E IE I Is Hk HE HT mus rhoJ sgs Xs HX ltac:(lia) n) by lia.
    apply (E_ext E HE). intro x. rewrite sumX_sum. reflexivity.
  - intro h. rewrite <- (cj_mean iez n p z Om E IE I Is Hk HE HT mus rhoJ sgs Xs HX ltac:(lia) h).
    apply (E_ext E HE). intro x. rewrite sumX_sum. reflexivity.
Qed.
Lemma w_cj_m l nJ : returns (cj_moments_with iez l nJ) (is_table N (Z.max 0 l) (is_cj_moment W nJ)).
Proof.
  eapply returns_weaken; [apply (cj_moments_tab iez HJ nJ l)|]. intros cs (Hl & Ht). split; [exact Hl|].
  intros n Hn HN. destruct (Ht n Hn) as (q & Eq & (K & U & A) & Vq). exists q. split; [exact Eq|].
  split; [exact K|]. split; [exact U|]. split.
  { intros h k Hk. specialize (A k Hk). unfold cj_kok in A. destruct (Z.eqb_spec n 0); [lia|exact A]. }
  intros Om E p z IE I Is Xs mus rhoJ sgs Hk HE Hz w HX.
  pose proof (HW Om E p z n IE I Is Hk HN w) as HT.
  rewrite (Vq p z mus rhoJ sgs Hz).
  rewrite (cj_mE iez n p z Om E IE I Is Hk HE HT mus rhoJ sgs Xs HX ltac:(lia) n) by lia.
  apply (E_ext E HE). intro x. rewrite sumX_sum. reflexivity.
Qed.
End W.

(** ** C44: in terms of the moments of (IE, I, I* ) that the code computes

    The n-th entry is the n-th (central) moment of the return, for every number of jumps. *)
Theorem C44_cmoments_y_to : forall (l : Z) (nJ : nat),
  returns (cj_cmoments_y_to l nJ) (is_table (Z.max 1 l) (Z.max 1 l) (is_cj_cmoment given_code nJ)).
Proof. intros l nJ. exact (w_cj_c _ HJ_code _ _ (HW_code _) l nJ). Qed.
Theorem C44_cmoment_y : forall (l : Z) (nJ : nat), (1 <= l)%Z -> returns (cj_cmoment_y l nJ) (is_cj_cmoment given_code nJ l).
Proof. intros l nJ Hl. pose proof (C44_cmoments_y_to l nJ) as h. rewrite Z.max_r in h by lia. apply (table_last l); [lia|exact h]. Qed.
Theorem C44_moments_y_to : forall (l : Z) (nJ : nat),
  returns (cj_moments_y_to l nJ) (is_table (Z.max 0 l) (Z.max 0 l) (is_cj_moment given_code nJ)).
Proof. intros l nJ. exact (w_cj_m _ HJ_code _ _ (HW_code _) l nJ). Qed.
Theorem C44_moment_y : forall (l : Z) (nJ : nat), (0 <= l)%Z -> returns (cj_moment_y l nJ) (is_cj_moment given_code nJ l).
Proof. intros l nJ Hl. pose proof (C44_moments_y_to l nJ) as h. rewrite Z.max_r in h by lia. apply (table_last l); [lia|exact h]. Qed.

(** moment_IZs and cmoment_IZs: the moments of the sum of independent normal variables X_i *)
Definition normal_vars {Om} (mus rhoJ sgs : R) (E : (Om -> R) -> R) (z : path) (m : Z) (Xs : list (Om -> R)) : Prop :=
  length Xs = length z /\ forall al, length al = length z -> Forall (fun a => 0 <= a)%Z al -> (fold_right Z.add 0 al <= m)%Z ->
    E (fun w => powprod (map (fun X => X w) Xs) al) = jprod mus rhoJ sgs z al.
Theorem C44_moment_IZs : forall (m : Z) (nJ : nat), (0 <= m)%Z ->
  returns (moment_IZs m nJ) (fun q => keyfor q = ["mu_s"; "rho_J"; "sigma_s"; "J_{1:n}"]%string /\ uniq (items q) /\
    forall Om (E : (Om -> R) -> R) z Xs mus rhoJ sgs, expectation E -> length z = nJ -> normal_vars mus rhoJ sgs E z m Xs ->
      eval (fun k => monx [mus; rhoJ; sgs] (fst k) * monx (map snd z) (snd k)) (items q) = E (fun w => sumR (fun X => X w) Xs ^ Z.to_nat m)).
Proof.
  intros m nJ Hm. eapply returns_weaken; [now apply moment_IZs_sp|]. intros q [(K & U & A) Vq]. split; [exact K|]. split; [exact U|].
  intros Om E z Xs mus rhoJ sgs HE Hz [Hl Hx]. specialize (Vq (mus, rhoJ, sgs, map snd z)).
  rewrite <- Hz, izval_bJ in Vq. etransitivity; [exact Vq|].
  rewrite (E_ext E HE _ (fun w => sumR (fun al => IZR (cmb m al) * powprod (evX Xs w) al) (wcomp (length z) m))).
  2: { intro w. rewrite <- sumX_sum, sumX_pow, Hl by assumption. reflexivity. }
  rewrite (E_sumR E HE (fun al w => IZR (cmb m al) * powprod (evX Xs w) al)). unfold bJ. apply sumR_ext. intros al Hal.
  apply in_wcomp in Hal. destruct Hal as (h1 & h2 & h3). rewrite (E_scal E HE). f_equal. symmetry. apply Hx; try assumption. unfold sumZ in h3. lia.
Qed.
Theorem C44_cmoment_IZs : forall (m : Z) (nJ : nat), (0 <= m)%Z ->
  returns (cmoment_IZs m nJ) (fun q => keyfor q = ["sigma_s"]%string /\ uniq (items q) /\
    forall Om (E : (Om -> R) -> R) z Xs mus rhoJ sgs, expectation E -> length z = nJ -> normal_vars mus rhoJ sgs E z m Xs ->
      eval (monx [sgs]) (items q) = E (fun w => (sumR (fun X => X w) Xs - jumps_mean mus rhoJ z) ^ Z.to_nat m)).
Proof.
  intros m nJ Hm. eapply returns_weaken; [now apply cmoment_IZs_sp|]. intros q [(K & U & A) Vq]. split; [exact K|]. split; [exact U|].
  intros Om E z Xs mus rhoJ sgs HE Hz [Hl Hx]. specialize (Vq sgs). rewrite <- Hz in Vq. etransitivity; [exact Vq|].
  rewrite (E_ext E HE _ (fun w => sumR (fun al => IZR (cmb m al) * (1 * powprod (evX (cenX mus rhoJ Om z Xs) w) al)) (wcomp (length z) m))).
  2: { intro w. rewrite <- sumX_sum, <- (sum_cenX mus rhoJ Om z Xs w Hl). rewrite sumX_pow by lia. unfold cenX at 2. rewrite map_length, combine_length, Hl, Nat.min_id.
       apply sumR_ext. intros; ring. }
  rewrite (E_sumR E HE (fun al w => IZR (cmb m al) * (1 * powprod (evX (cenX mus rhoJ Om z Xs) w) al))).
  unfold cizval. apply sumR_ext. intros al Hal. apply in_wcomp in Hal. destruct Hal as (h1 & h2 & h3).
  rewrite (E_scal E HE). f_equal. symmetry. rewrite (cen_prod mus rhoJ sgs Om E HE z Xs (fun _ => 1) 1 m Hl); [ring| |exact h1|exact h2|lia].
  intros bl b1 b2 b3. rewrite <- (Hx bl b1 b2 b3). rewrite Rmult_1_l. apply (E_ext E HE). intro w. unfold evX. ring.
Qed.

(** poly2num *)
Lemma geti_ok l i : (i < length l)%nat -> geti l i = Ok (nth i l 0%Z).
Proof. intro H. unfold geti. now rewrite (nth_error_nth' l 0%Z H). Qed.
Lemma cut_ok m w k : (3 <= w)%nat -> svok m w k -> svok m 3 (cut3 k).
Proof.
  intros Hw (h1 & h2 & h3 & h4 & h5 & h6). destruct k as [[K lopq] X]. unfold cut3. cbn [fst snd] in *.
  destruct X as [|x0 [|x1 [|x2 X]]]; cbn [length] in h4; try lia. cbn [firstn].
  repeat match goal with H : Forall _ (_ :: _) |- _ => apply Forall_cons_iff in H; destruct H end.
  split; [exact h1|]. split; [exact h2|]. split; [exact h3|]. split; [reflexivity|]. split; [|exact h6].
  repeat (apply Forall_cons; [assumption|]). apply Forall_nil.
Qed.
Lemma cm2num_cut w key kf v0 k theta sigma rho h s J : (3 <= w)%nat -> svok 6 w key ->
  sv_cm2num (mkPoly [(key, 1%Q)] kf) v0 k theta sigma rho h s J = sv_cm2num (mkPoly [(cut3 key, 1%Q)] kf) v0 k theta sigma rho h s J.
Proof.
  intros Hw (h1 & h2 & h3 & h4 & h5 & h6). destruct key as [[K lopq] X]. cbn [fst snd] in *.
  destruct X as [|x0 [|x1 [|x2 X]]]; cbn [length] in h4; try lia. reflexivity.
Qed.
Lemma m2num_cut w key kf v0 mu k theta sigma rho h s J : (3 <= w)%nat -> svok 8 w key ->
  sv_m2num (mkPoly [(key, 1%Q)] kf) v0 mu k theta sigma rho h s J = sv_m2num (mkPoly [(cut3 key, 1%Q)] kf) v0 mu k theta sigma rho h s J.
Proof.
  intros Hw (h1 & h2 & h3 & h4 & h5 & h6). destruct key as [[K lopq] X]. cbn [fst snd] in *.
  destruct X as [|x0 [|x1 [|x2 X]]]; cbn [length] in h4; try lia. reflexivity.
Qed.
Lemma one_q : Q2R 1 = 1. Proof. unfold Q2R; cbn. field. Qed.
Theorem C44_cmom_poly2num : forall (q : Poly svkey) (v0 mu k theta sigma rho h sgs : R) (z : path), k <> 0 ->
  (forall sj, In sj z -> fst sj <= h) -> (forall key, In key (keys (items q)) -> svok 6 4 key) ->
  cj_cm2num q v0 k theta sigma rho h sgs (map fst z) (map snd z)
  = Ok (let p := mkSv (mkZpar k v0 theta sigma) mu rho h in eval (svmon (zvals (svz p) (svh p)) (sv3 p ++ [sgs]) p z) (items q)).
Proof.
  intros q v0 mu k theta sigma rho h sgs z _ Hz A. unfold cj_cm2num. cbv zeta.
  set (p := mkSv (mkZpar k v0 theta sigma) mu rho h).
  rewrite (foldM_eval (svmon (zvals (svz p) (svh p)) (sv3 p ++ [sgs]) p z)); [f_equal; ring|].
  intros key v a Hin. cbn [fst snd]. pose proof (allk_in _ _ _ v A Hin) as S.
  rewrite (cm2num_cut 4) by (assumption || lia). pose proof (cut_ok 6 4 key ltac:(lia) S) as C.
  rewrite (cm2num_sp (mkPoly [(cut3 key, 1%Q)] (keyfor q)) v0 mu k theta sigma rho h z ltac:(intros k' [<-|[]]; exact C) Hz).
  cbn [bind items eval]. destruct S as (_ & _ & _ & s4 & _). rewrite geti_ok by (rewrite s4; lia). cbn [bind]. f_equal.
  change (point v0 mu k theta sigma rho h) with p. rewrite one_q.
  destruct key as [[K lopq] X]. cbn [fst snd] in *. destruct X as [|x0 [|x1 [|x2 [|x3 [|? ?]]]]]; try discriminate.
  unfold cmon_sv, svmon, cut3, sv3. cbn [fst snd firstn app monx nth]. ring.
Qed.
Lemma prodJ_ok J : forall js f, length js = length J -> prodJ J js f = Ok (f * monx J js).
Proof.
  induction J as [|x J IH]; intros [|j js] f Hl; try discriminate; cbn [prodJ monx]; [f_equal; ring|].
  rewrite IH by now injection Hl. f_equal. ring.
Qed.
Theorem C44_mom_poly2num : forall (q : Poly cjkey) (v0 mu k theta sigma rho h mus rhoJ sgs : R) (z : path), k <> 0 ->
  (forall sj, In sj z -> fst sj <= h) -> (forall key, In key (keys (items q)) -> cjok (length z) key) ->
  cj_m2num q v0 mu k theta sigma rho h mus rhoJ sgs (map fst z) (map snd z)
  = Ok (let p := mkSv (mkZpar k v0 theta sigma) mu rho h in eval (cjmon (sv8 p) (sv3 p ++ [mus; rhoJ; sgs]) p z) (items q)).
Proof.
  intros q v0 mu k theta sigma rho h mus rhoJ sgs z _ Hz A. unfold cj_m2num. cbv zeta.
  set (p := mkSv (mkZpar k v0 theta sigma) mu rho h).
  rewrite (foldM_eval (cjmon (sv8 p) (sv3 p ++ [mus; rhoJ; sgs]) p z)); [f_equal; ring|].
  intros key v a Hin. cbn [fst snd]. destruct (allk_in _ _ _ v A Hin) as (S & js & Ejs & Ljs & _).
  rewrite (m2num_cut 6) by (assumption || lia). pose proof (cut_ok 8 6 (fst key) ltac:(lia) S) as C.
  rewrite (m2num_sp (mkPoly [(cut3 (fst key), 1%Q)] (keyfor q)) v0 mu k theta sigma rho h z ltac:(intros k' [<-|[]]; exact C) Hz).
  cbn [bind items eval]. destruct S as (_ & _ & _ & s4 & _). rewrite !geti_ok by (rewrite s4; lia). cbn [bind].
  rewrite Ejs, prodJ_ok by (now rewrite map_length). cbn [bind]. f_equal.
  change (point v0 mu k theta sigma rho h) with p. rewrite one_q.
  destruct key as [[[K lopq] X] o]. cbn [fst snd] in *. subst o. destruct X as [|x0 [|x1 [|x2 [|x3 [|x4 [|x5 [|? ?]]]]]]]; try discriminate.
  unfold cjmon, mon_sv, svmon, cut3, sv3. cbn [fst snd firstn app monx nth]. ring.
Qed.

(** cm(l, par) and m(l, par), l >= 1 *)
Theorem C44_cm : forall (l : Z) (p : svpar) (z : path) (mus rhoJ sgs : R) Om (E : (Om -> R) -> R) IE I Is Xs,
  (1 <= l)%Z -> svk p <> 0 -> (forall sj, In sj z -> fst sj <= svh p) -> expectation E ->
  given_code Om E p z l IE I Is -> price_jumps mus rhoJ sgs E p z l IE I Is Xs ->
  cj_cm l (zpv (svz p)) (svk p) (zpth (svz p)) (zpsg (svz p)) (svrho p) (svh p) sgs (map fst z) (map snd z)
  = Ok (E (fun w => (sv_ret p z (IE w) (I w) (Is w) + sumR (fun X => X w) Xs - (sv_mean p z + jumps_mean mus rhoJ z)) ^ Z.to_nat l)).
Proof.
  intros l p z mus rhoJ sgs Om E IE I Is Xs Hl Hk Hz HE HW HX. unfold cj_cm. rewrite map_length.
  pose proof (C44_cmoment_y l (length z) Hl) as h. destruct (cj_cmoment_y l (length z)) as [q|]; [|destruct h]. cbn [bind].
  destruct h as (_ & _ & A & V). destruct (V Om E p z IE I Is Xs mus rhoJ sgs Hk HE eq_refl HW HX) as [e _]. rewrite <- e.
  destruct p as [[k v0 th sg] mu rho h]. exact (C44_cmom_poly2num q v0 mu k th sg rho h sgs z Hk Hz A).
Qed.
Theorem C44_m : forall (l : Z) (p : svpar) (z : path) (mus rhoJ sgs : R) Om (E : (Om -> R) -> R) IE I Is Xs,
  (1 <= l)%Z -> svk p <> 0 -> (forall sj, In sj z -> fst sj <= svh p) -> expectation E ->
  given_code Om E p z l IE I Is -> price_jumps mus rhoJ sgs E p z l IE I Is Xs ->
  cj_m l (zpv (svz p)) (svmu p) (svk p) (zpth (svz p)) (zpsg (svz p)) (svrho p) (svh p) mus rhoJ sgs (map fst z) (map snd z)
  = Ok (E (fun w => (sv_ret p z (IE w) (I w) (Is w) + sumR (fun X => X w) Xs) ^ Z.to_nat l)).
Proof.
  intros l p z mus rhoJ sgs Om E IE I Is Xs Hl Hk Hz HE HW HX. unfold cj_m. rewrite map_length.
  pose proof (C44_moment_y l (length z) ltac:(lia)) as h. destruct (cj_moment_y l (length z)) as [q|]; [|destruct h]. cbn [bind].
  destruct h as (_ & _ & A & V). rewrite <- (V Om E p z IE I Is Xs mus rhoJ sgs Hk HE eq_refl HW HX).
  destruct p as [[k v0 th sg] mu rho h]. exact (C44_mom_poly2num q v0 mu k th sg rho h mus rhoJ sgs z Hk Hz (A Hl)).
Qed.

(** The hypotheses can be met for every parameter, path and order. *)
Lemma jprod_0 mus rhoJ sgs z : jprod mus rhoJ sgs z (repeat 0%Z (length z)) = 1.
Proof. rewrite <- (PJ_jprod mus rhoJ sgs z _ []) by (apply repeat_length). apply PJ_0. Qed.
Lemma powprod_0 xs n : powprod xs (repeat 0%Z n) = 1.
Proof. revert n. induction xs as [|x xs IH]; intros [|n]; cbn [repeat powprod]; trivial. rewrite IH. simpl. ring. Qed.
Lemma map_nthR_seq : forall (xs pre : list R), map (fun i => nthR (pre ++ xs) (Z.of_nat i)) (seq (length pre) (length xs)) = xs.
Proof.
  induction xs as [|x xs IH]; intro pre; [reflexivity|]. cbn [length seq map]. f_equal.
  - unfold nthR. rewrite Nat2Z.id, app_nth2, Nat.sub_diag by lia. reflexivity.
  - specialize (IH (pre ++ [x])). rewrite app_length, Nat.add_1_r, <- app_assoc in IH. exact IH.
Qed.
Lemma with_price_jumps (W : world) p z n mus rhoJ sgs Om (E : (Om -> R) -> R) IE I Is :
  (forall Om' (E' : (Om' -> R) -> R) (f : Om' -> Om), (forall X : Om -> R, E' (fun w => X (f w)) = E X) -> W Om E p z n IE I Is ->
     W Om' E' p z n (fun w => IE (f w)) (fun w => I (f w)) (fun w => Is (f w))) ->
  expectation E -> W Om E p z n IE I Is ->
  exists (E' : (Om * list R -> R) -> R) IE' I' Is' Xs, expectation E' /\ W _ E' p z n IE' I' Is' /\ price_jumps mus rhoJ sgs E' p z n IE' I' Is' Xs.
Proof.
  intros Wl HE HW. set (ps := realise (Z.to_nat n) (length z) (jprod mus rhoJ sgs z)).
  set (Xs := map (fun i (w : Om * list R) => nthR (snd w) (Z.of_nat i)) (seq 0 (length z))).
  set (g := fun al (xs : list R) => powprod (map (fun i => nthR xs (Z.of_nat i)) (seq 0 (length z))) al).
  assert (Hg : forall al, length al = length z -> Forall (fun a => 0 <= a)%Z al -> (Forall (fun a => (a <= Z.of_nat (Z.to_nat n))%Z) al) ->
     Efin ps (g al) = jprod mus rhoJ sgs z al).
  { intros al h1 h2 h3. rewrite <- (realise_spec (Z.to_nat n) (length z) (jprod mus rhoJ sgs z) al h1).
    - unfold ps, Efin. apply sumR_ext. intros [c xs] Hin. cbn [fst snd]. f_equal. unfold g.
      pose proof (realise_len _ _ _ _ _ Hin) as Hlen. rewrite <- Hlen. f_equal. exact (map_nthR_seq xs []).
    - apply Forall_forall. intros a Ha. rewrite Forall_forall in h2, h3. specialize (h2 a Ha). specialize (h3 a Ha). lia. }
  assert (P1 : Efin ps (fun _ => 1) = 1).
  { transitivity (jprod mus rhoJ sgs z (repeat 0%Z (length z))); [|apply jprod_0]. rewrite <- Hg.
    - unfold Efin. apply sumR_ext. intros x _. f_equal. unfold g. symmetry. apply powprod_0.
    - apply repeat_length.
    - apply Forall_forall. intros a Ha. apply repeat_spec in Ha. lia.
    - apply Forall_forall. intros a Ha. apply repeat_spec in Ha. lia. }
  set (E' := Ekern E (fun _ : Om => ps)). assert (HE' : expectation E') by now apply Ekern_expectation.
  assert (O1 : forall X : Om -> R, E' (fun w => X (fst w)) = E X) by (intro X; apply Ekern_old; [assumption|intro; apply P1]).
  exists E', (fun w => IE (fst w)), (fun w => I (fst w)), (fun w => Is (fst w)), Xs. split; [exact HE'|]. split; [now apply Wl|].
  split; [unfold Xs; now rewrite map_length, seq_length|].
  intros i al Hi h1 h2 h3. rewrite <- (Hg al h1 h2).
  - set (Y := fun w : Om => sv_ret p z (IE w) (I w) (Is w) ^ Z.to_nat i).
    transitivity (E' (fun w => Y (fst w) * g al (snd w))).
    + apply (E_ext E' HE'). intro w. unfold Y, g, Xs. f_equal. now rewrite map_map.
    + unfold E'. rewrite (Ekern_tower E (fun _ => ps) Y (g al) (fun _ => Efin ps (g al)) HE) by reflexivity.
      fold E'. change (E (fun w => Y w * Efin ps (g al)) = E' (fun w => Y (fst w)) * Efin ps (g al)). rewrite O1.
      rewrite (E_ext E HE _ (fun w => Efin ps (g al) * Y w)) by (intro; ring). rewrite (E_scal E HE). ring.
  - clear -Hi h2 h3. induction h2 as [|a al Ha Hal IH]; [apply Forall_nil|].
    assert (0 <= fold_right Z.add 0 al)%Z by (clear -Hal; induction Hal; cbn [fold_right]; lia). cbn [fold_right] in h3.
    apply Forall_cons; [lia|]. apply IH. lia.
Qed.
Theorem C44_hypotheses_hold : forall (p : svpar) (z : path) (n : Z) (mus rhoJ sgs : R), (0 <= n)%Z ->
  exists Om (E : (Om -> R) -> R) IE I Is Xs, expectation E /\ given_code Om E p z n IE I Is /\ price_jumps mus rhoJ sgs E p z n IE I Is Xs.
Proof.
  intros p z n mus rhoJ sgs Hn. destruct (C34_hypotheses_hold p z n 0 0 0 Hn) as (Om & E & IE & I & Is & _ & HE & HW & _).
  destruct (with_price_jumps given_code p z n mus rhoJ sgs Om E IE I Is) as (E' & IE' & I' & Is' & Xs & h); [|assumption..|now exists (Om * list R)%type, E', IE', I', Is', Xs].
  intros Om' E' f Hf (v & Hv & Hq). exists v. split; [|exact Hq]. intros a b d h1 h2 h3 h4. rewrite <- (Hv a b d h1 h2 h3 h4).
  exact (Hf (fun w => IE w ^ Z.to_nat a * I w ^ Z.to_nat b * Is w ^ Z.to_nat d)).
Qed.
Example C44_example : exists q q3, cj_moment_y 1 2 = Ok q /\ length (items q) = 7%nat /\
  In (([0; 0; 0; 0; 0; 0; 0; 0]%Z, ([], [], [], []), [0; 0; 0; 0; 1; 0]%Z), Some [0; 1]%Z, 1%Q) (items q) /\
  cmoment_IZs 2 3 = Ok q3 /\ items q3 = [([2]%Z, 3%Q)].
Proof. eexists. eexists. split; [vm_compute; reflexivity|]. split; [reflexivity|]. split; [cbn [items In]; tauto|]. split; vm_compute; reflexivity. Qed.

(** ** C45: the true moments given v_0 and the jumps

    The code is right up to order 3 *)
Theorem C45_cmoments_partial : forall (l : Z) (nJ : nat), returns (cj_cmoments_y_to l nJ) (is_table 3 (Z.max 1 l) (is_cj_cmoment given_path nJ)).
Proof. intros l nJ. exact (w_cj_c _ HJ_code _ _ HW_code3 l nJ). Qed.
Theorem C45_moments_partial : forall (l : Z) (nJ : nat), returns (cj_moments_y_to l nJ) (is_table 3 (Z.max 0 l) (is_cj_moment given_path nJ)).
Proof. intros l nJ. exact (w_cj_m _ HJ_code _ _ HW_code3 l nJ). Qed.
(** With int_e_IEZ_poly corrected (iez_fixed, see C33_corrected) it is right at every order. *)
Theorem C45_corrected : forall (l : Z) (nJ : nat),
  returns (cj_cmoments_with iez_fixed l nJ) (is_table (Z.max 1 l) (Z.max 1 l) (is_cj_cmoment given_path nJ)) /\
  returns (cj_moments_with iez_fixed l nJ) (is_table (Z.max 0 l) (Z.max 0 l) (is_cj_moment given_path nJ)).
Proof.
  intros l nJ. split; [exact (w_cj_c _ HJ_fixed _ _ (HW_fixed _) l nJ)|exact (w_cj_m _ HJ_fixed _ _ (HW_fixed _) l nJ)].
Qed.
Theorem C45_hypotheses_hold : forall (p : svpar) (z : path) (n : Z) (mus rhoJ sgs : R), (0 <= n)%Z -> 0 <= svh p -> jumps_ok z ->
  exists Om (E : (Om -> R) -> R) IE I Is Xs, expectation E /\ given_path Om E p z n IE I Is /\ price_jumps mus rhoJ sgs E p z n IE I Is Xs.
Proof.
  intros p z n mus rhoJ sgs Hn Hh Hz. destruct (C43_hypotheses_hold p z n 0 0 0 Hn Hh Hz) as (Om & E & IE & I & Is & _ & HE & HW & _).
  destruct (with_price_jumps given_path p z n mus rhoJ sgs Om E IE I Is) as (E' & IE' & I' & Is' & Xs & h); [|assumption..|now exists (Om * list R)%type, E', IE', I', Is', Xs].
  intros Om' E' f Hf (_ & _ & M' & HM' & HT'). split; [exact Hh|]. split; [exact Hz|]. exists M'. split; [exact HM'|].
  intros a b d h1 h2 h3 h4. rewrite <- (HT' a b d h1 h2 h3 h4).
  exact (Hf (fun w => IE w ^ Z.to_nat a * I w ^ Z.to_nat b * Is w ^ Z.to_nat d)).
Qed.

(** The code is wrong at order 4: one jump, whatever mu_s, rho_J, sigma_s. *)
Theorem C45_cmoment_4_refuted : exists (q : Poly svkey) (p : svpar) (z : path), cj_cmoment_y 4 1 = Ok q /\ length z = 1%nat /\
  0 < svk p /\ 0 < zpv (svz p) /\ 0 < zpth (svz p) /\ 0 < zpsg (svz p) /\ Rabs (svrho p) < 1 /\
  forall mus rhoJ sgs, exists Om (E : (Om -> R) -> R) (IE I Is : Om -> R) Xs,
  expectation E /\ given_path Om E p z 4%Z IE I Is /\ price_jumps mus rhoJ sgs E p z 4%Z IE I Is Xs /\
  eval (svmon (zvals (svz p) (svh p)) (sv3 p ++ [sgs]) p z) (items q)
  <> E (fun w => (sv_ret p z (IE w) (I w) (Is w) + sumR (fun X => X w) Xs - (sv_mean p z + jumps_mean mus rhoJ z)) ^ 4).
Proof.
  pose proof (cj_cmoments_tab int_e_IEZ_poly HJ_code 1 4) as h.
  pose proof ln_lt_2 as L. assert (Hk : svk psv <> 0) by apply ln2_nz.
  unfold cj_cmoment_y, cj_cmoment_with. destruct (cj_cmoments_with int_e_IEZ_poly 4 1) as [cs|]; [|destruct h].
  destruct h as (Hl & Ht & Hv). destruct (Ht 4%Z ltac:(lia)) as (q & Eq & _). exists q, psv, z2.
  split; [cbn [bind]; apply lastp_sp; rewrite Hl; exact Eq|]. split; [reflexivity|].
  unfold psv at 1 2 3 4, svk. cbn [svz zpk zpv zpth zpsg p2]. repeat (split; [lra|]). split.
  { unfold psv. cbn [svrho]. rewrite Rabs_pos_eq; [|apply Rlt_le, Rinv_0_lt_compat; lra].
    rewrite <- Rinv_1. apply Rinv_lt_contravar; lra. }
  intros mus rhoJ sgs.
  destruct (C45_hypotheses_hold psv z2 4 mus rhoJ sgs ltac:(lia) ltac:(unfold psv; cbn [svh]; lra) z2_ok) as (Om & E & IE & I & Is & Xs & HE & HW & HX).
  exists Om, E, IE, I, Is, Xs. split; [exact HE|]. split; [exact HW|]. split; [exact HX|].
  pose proof (HW_fixed 4%Z _ E psv z2 4%Z IE I Is Hk ltac:(lia) HW) as HT.
  assert (HW3 : given_path Om E psv z2 3%Z IE I Is).
  { destruct HW as (a1 & a2 & M & a3 & a4). split; [exact a1|]. split; [exact a2|]. exists M. split; [exact a3|]. intros a b d b1 b2 b3 b4. apply a4; lia. }
  pose proof (cj_c iez_fixed 4%Z psv z2 Om E IE I Is Hk HE HT mus rhoJ sgs Xs HX ltac:(lia) 4%Z ltac:(lia)) as e.
  change (Z.to_nat 4) with 4%nat in e.
  rewrite (E_ext E HE _ (fun w => (sv_ret psv z2 (IE w) (I w) (Is w) + sumX Xs w - (sv_mean psv z2 + jumps_mean mus rhoJ z2)) ^ 4))
    by (intro w; now rewrite sumX_sum).
  rewrite <- e. pose proof (Hv 4%Z ltac:(lia) psv z2 sgs) as v. unfold tabv in v. rewrite Eq in v. rewrite v.
  assert (low : forall i, (0 <= i <= 3)%Z -> Cv int_e_IEZ_poly i psv z2 = Cv iez_fixed i psv z2).
  { intros i Hi. rewrite (Cv_cen int_e_IEZ_poly 3%Z psv z2 Om E IE I Is Hk HE (HW_code3 Om E psv z2 3%Z IE I Is Hk ltac:(lia) HW3) i ltac:(lia)).
    rewrite (Cv_cen iez_fixed 4%Z psv z2 Om E IE I Is Hk HE HT i ltac:(lia)). reflexivity. }
  unfold convv. change (range 0 (4 + 1)) with [0; 1; 2; 3; 4]%Z. cbn [sumR]. rewrite !low by lia. change (mcomb 4 4) with 1%Z. change (4 - 4)%Z with 0%Z.
  change (length z2) with 1%nat. assert (c0 : cizval sgs 1 0 = 1) by (unfold cizval; rewrite wcomp_0; cbn [sumR]; rewrite cmb_0, PC_0; ring).
  rewrite c0. pose proof Cv4_diff. lra.
Qed.
(** Order 0: m(0, par) raises IndexError since the key of the order-0 entry is too short, and
    cmoment_y(0, J) is the entry of order 1, of value 0. *)
Theorem C45_order_0_refuted : forall (v0 mu k theta sigma rho h mus rhoJ sgs : R) (s J : list R),
  cj_m 0 v0 mu k theta sigma rho h mus rhoJ sgs s J = Err IndexError /\
  returns (cj_cmoment_y 0 (length J)) (fun q => forall p z, eval (svmon (zvals (svz p) (svh p)) (sv3 p ++ [sgs]) p z) (items q) = 0).
Proof.
  intros v0 mu k theta sigma rho h mus rhoJ sgs s J. split.
  - unfold cj_m, cj_moment_y, cj_moment_with, cj_moments_with, sv_moments_with, sv_cmoments_with. change (range 2 (0 + 1)) with (@nil Z).
    cbn [foldM bind]. unfold getp. change (Z.to_nat 0) with O. cbn [nth_error bind snd]. change (range 1 (0 + 1)) with (@nil Z).
    cbn [foldM bind nth_error lastp map last]. unfold cj_m2num. cbn [items foldM fst snd].
    match goal with |- context [sv_m2num ?a ?b1 ?b2 ?b3 ?b4 ?b5 ?b6 ?b7 ?b8 ?b9] => assert (e : exists r, sv_m2num a b1 b2 b3 b4 b5 b6 b7 b8 b9 = Ok r) end.
    { unfold sv_m2num. cbn [items foldM fst snd]. eexists. cbn. reflexivity. }
    destruct e as [r ->]. reflexivity.
  - unfold cj_cmoment_y, cj_cmoment_with, cj_cmoments_with, sv_cmoments_with. change (range 2 (0 + 1)) with (@nil Z).
    cbn [foldM bind]. unfold getp. change (Z.to_nat 0) with O. cbn [nth_error bind lastp map last returns].
    intros p z. cbn [items eval]. unfold Q2R; cbn. ring.
Qed.
Example C45_example : exists cs, cj_cmoments_y_to 3 2 = Ok cs /\ length cs = 4%nat /\ jumps_ok [(1, 2); (3, 1)].
Proof.
  pose proof (C45_cmoments_partial 3 2) as h. destruct (cj_cmoments_y_to 3 2) as [cs|]; [|destruct h]. exists cs.
  split; [reflexivity|]. split; [apply h|]. intros sj [<-|[<-|[]]]; cbn [fst]; lra.
Qed.
