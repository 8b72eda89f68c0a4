(** Proofs about mdl_svcj/{cond2_mom,cond2_cmom}.py (C44): the jump part. *)
From Coq Require Import Reals Lra.
From Coquelicot Require Import Coquelicot.
From Verif.Spec Require Import SvcjPath.
From Verif.Model Require Import SvcjCond2.
From Verif.Proof Require Import BinConv.
From Verif.Proof Require Export SvvjW.
From Verif.Props Require Import PropsCpp.
Import Verif.Model.Svvj Verif.Model.SvcjCond2.
Local Open Scope R_scope.

(** ** moments of the normal distribution *)
Lemma nmom_V m s i : nmom m s i = V (Z.to_nat i) m (s ^ 2).
Proof.
  unfold nmom. transitivity (G m (s ^ 2) (Z.to_nat i) 0); [|apply G_at0].
  generalize (Z.to_nat i), 0%R. clear i. induction n as [|n IH]; intro u.
  - cbn [Derive_n]. unfold G, mgf_normal. rewrite V_0. ring.
  - cbn [Derive_n]. rewrite (Derive_ext _ (G m (s ^ 2) n) u IH). apply is_derive_unique, G_derive.
Qed.

Definition dsh (g : nat -> R) (n : nat) : R := INR n * g (pred n).
Lemma bc_dsh n : forall g f, bc (dsh g) f n = INR n * bc g f (pred n).
Proof.
  induction n as [|n IH]; intros g f; [rewrite bc_0; unfold dsh; simpl; ring|].
  rewrite bc_S. rewrite (bc_ext (sh (dsh g)) (fun k => dsh (sh g) k + g k) f f).
  - rewrite bc_plus_l, !IH. cbn [pred]. destruct n as [|n].
    + simpl. ring.
    + cbn [pred]. rewrite (bc_S g f n). rewrite !S_INR. ring.
  - intros k _. unfold sh, dsh. cbn [pred]. destruct k as [|k]; [simpl; ring|]. cbn [pred]. rewrite !S_INR. ring.
  - reflexivity.
Qed.
Lemma DV_dsh x y n : DV n x y = dsh (fun k => V k x y) n.
Proof.
  destruct n as [|n]; [|apply DV_S]. unfold DV, dsh. simpl. unfold dmonN, nthZ. simpl. ring.
Qed.
(** the moments of X - m *)
Lemma V_shift m s2 n : bc (fun k => V k m s2) (epow (- m)) n = V n 0 s2.
Proof.
  set (U := bc (fun k => V k m s2) (epow (- m))).
  assert (R0 : U 0%nat = 1) by (unfold U; rewrite bc_0, V_0; unfold epow; simpl; ring).
  assert (RS : forall n, U (S n) = s2 * dsh U n).
  { intro k. unfold U at 1. rewrite bc_S.
    rewrite (bc_ext (sh (fun k => V k m s2)) (fun k => m * V k m s2 + s2 * dsh (fun k => V k m s2) k) (epow (- m)) (epow (- m))).
    - rewrite bc_plus_l, !bc_scal_l, bc_dsh.
      rewrite (bc_ext (fun k => V k m s2) (fun k => V k m s2) (sh (epow (- m))) (fun k => (- m) * epow (- m) k)) by (intros; reflexivity).
      rewrite bc_scal_r. unfold dsh. fold (U k) (U (pred k)). ring.
    - intros j _. unfold sh. rewrite V_S, DV_dsh. reflexivity.
    - reflexivity. }
  enough (H : U n = V n 0 s2 /\ U (S n) = V (S n) 0 s2) by apply H.
  induction n as [|n [IH1 IH2]].
  - split; [rewrite V_0; exact R0|]. rewrite RS, V_1. unfold dsh. simpl. ring.
  - split; [exact IH2|]. rewrite RS, V_S, DV_dsh. unfold dsh. cbn [pred]. rewrite IH1. ring.
Qed.

(** ** polynomials *)
Section Fold2.
Context {K A B T : Type} `{Key K} (P : K -> Prop) (mon : T -> K -> R).
Lemma fold2_sp (f : A -> B -> K) (g : A -> B -> Q) (lb : A -> list B) la : forall a, wfl P a ->
  (forall x y, In x la -> In y (lb x) -> P (f x y)) ->
  let a' := fold_left (fun a x => fold_left (fun a y => add_kv (f x y) (g x y) a) (lb x) a) la a in
  wfl P a' /\ forall t, ev mon t a' = ev mon t a + sumR (fun x => sumR (fun y => Q2R (g x y) * mon t (f x y)) (lb x)) la.
Proof.
  induction la as [|x la IH]; intros a Wa Hp; cbv zeta; cbn [fold_left sumR].
  - split; [exact Wa|]. intro t. ring.
  - pose proof (adds_fold P mon (f x) (g x) (lb x) ltac:(intros y Hy; apply Hp; [now left|exact Hy]) a Wa) as [W1 V1].
    destruct (IH _ W1 ltac:(intros x' y Hx Hy; apply Hp; [now right|exact Hy])) as [W2 V2]. cbv zeta in *.
    split; [exact W2|]. intro t. rewrite V2, V1. ring.
Qed.
End Fold2.

(** values of mu_s, rho_J, sigma_s, J *)
Definition t4 : Type := (R * R * R * R)%type.
Definition mon4 (t : t4) : list Z -> R := let '(mu, rho, s, J) := t in monx [mu; rho; s; J].
Definition P4 : list Z -> Prop := wfs [true; true; true; true].
Definition NM (mu rho s J : R) (n : Z) : R := V (Z.to_nat n) (mu + rho * J) (s ^ 2).

Lemma mnorm_cond_sp n : (0 <= n)%Z ->
  returns (mnorm_cond n) (fun q => wfp P4 kf_ncond q /\ forall mu rho s J, evp mon4 (mu, rho, s, J) q = NM mu rho s J n).
Proof.
  intro Hn. unfold mnorm_cond. destruct (Z.eqb_spec n 0) as [->|Hn0].
  - cbn [returns]. split.
    + split; [reflexivity|]. split; [constructor; [intros []|constructor]|]. intros k [<-|[]]. unfold P4. cbn. lia.
    + intros. unfold evp, NM, mon4. cbn [items eval monx]. change (Z.to_nat 0) with 0%nat. rewrite V_0, !pw_0. unfold Q2R; cbn. field.
  - rewrite <- (Z2Nat.id n Hn) at 1. rewrite mnorm_mn. cbn [bind returns].
    pose proof (mn_nn2 (Z.to_nat n)) as NN.
    pose proof (fold2_sp P4 mon4 (fun (kv : list Z * Q) i => [i; nthZ (fst kv) 0 - i; 2 * nthZ (fst kv) 1; nthZ (fst kv) 0 - i]%Z)
      (fun kv i => qmul (qz (mcomb (nthZ (fst kv) 0) i)) (snd kv)) (fun kv => range 0 (nthZ (fst kv) 0 + 1)) (items (mn (Z.to_nat n))) []
      (wfl_nil _)) as h.
    destruct h as [[W1 W2] V1].
    { intros [k v] i Hk Hi. apply in_keys in Hk. apply NN in Hk. apply in_range in Hi. cbn [fst] in *. unfold P4. cbn [wfs]. repeat split; lia. }
    cbv zeta in *. split; [split; [reflexivity|]; now split|].
    intros mu rho s J. unfold evp. cbn [items]. specialize (V1 (mu, rho, s, J)). unfold ev at 1 in V1. rewrite V1. unfold ev. cbn [eval].
    rewrite Rplus_0_l. unfold NM, V. rewrite (sumR_eval (monN _ _)). apply sumR_ext. intros [k v] Hk. apply in_keys in Hk. apply NN in Hk.
    destruct Hk as (_ & h0 & h1). cbn [fst snd]. unfold monN. rewrite <- binomial_pw by assumption.
    transitivity (sumR (fun i => (Q2R v * pw (s ^ 2) (nthZ k 1)) * (IZR (mcomb (nthZ k 0) i) * (pw mu i * pw (rho * J) (nthZ k 0 - i)))) (range 0 (nthZ k 0 + 1))).
    + apply sumR_ext. intros i Hi. apply in_range in Hi. unfold mon4. cbn [monx]. rewrite Q2R_mul, Q2R_qz.
      rewrite (pw_sq s) by assumption. rewrite pw_mult by lia. ring.
    + rewrite sumR_scal. ring.
Qed.

(** values of mu_s, rho_J, sigma_s, J_{1:n} *)
Definition tI : Type := (R * R * R * list R)%type.
Definition monI (t : tI) (k : izkey) : R := let '(mu, rho, s, Js) := t in monx [mu; rho; s] (fst k) * monx Js (snd k).
Definition Piz (c : nat) (k : izkey) : Prop :=
  wfs [true; true; true] (fst k) /\ length (snd k) = c /\ Forall (fun x => 0 <= x)%Z (snd k).
Fixpoint PJ (t : tI) (c : nat) (al : list Z) : R :=
  match al with
  | [] => 1
  | a :: al => let '(mu, rho, s, Js) := t in NM mu rho s (nth c Js 1) a * PJ t (S c) al
  end.
Lemma monx_snoc Js j : forall l, monx Js (l ++ [j]) = monx Js l * pw (nth (length l) Js 1) j.
Proof.
  induction Js as [|x Js IH]; intros [|y l]; cbn [app monx nth length]; try rewrite pw_one; try ring.
  - destruct Js; cbn [monx]; ring.
  - rewrite IH. ring.
Qed.

Lemma comb_poly_step_sp c q i : (0 <= i)%Z -> wfp (Piz c) kf_izs q ->
  returns (comb_poly_step q i) (fun r => wfp (Piz (S c)) kf_izs r /\
    forall mu rho s Js, evp monI (mu, rho, s, Js) r = evp monI (mu, rho, s, Js) q * NM mu rho s (nth c Js 1) i).
Proof.
  intros Hi (Kq & Uq & Aq). unfold comb_poly_step. eapply returns_bind; [now apply mnorm_cond_sp|].
  intros r [(Kr & Ur & Ar) Vr]. cbn [returns].
  destruct (fold2_sp (Piz (S c)) monI (fun (kv1 : list Z * Q) (kv2 : izkey * Q) =>
      ([nthZ (fst kv1) 0 + nthZ (fst (fst kv2)) 0; nthZ (fst kv1) 1 + nthZ (fst (fst kv2)) 1; nthZ (fst kv1) 2 + nthZ (fst (fst kv2)) 2]%Z,
       snd (fst kv2) ++ [nthZ (fst kv1) 3])) (fun kv1 kv2 => qmul (snd kv1) (snd kv2)) (fun _ => items q) (items r) [] (wfl_nil _)) as [[W1 W2] V1].
  { intros [k1 v1] [k2 v2] H1 H2. cbn [fst snd]. pose proof (allk_in _ _ k1 v1 Ar H1) as h1. pose proof (allk_in _ _ k2 v2 Aq H2) as (h2 & h3 & h4).
    unfold P4 in h1. destruct k2 as [k2 j2]. cbn [fst snd] in *. unfold Piz. cbn [fst snd]. wfs_destruct. unfold nthZ. cbn [nth].
    split; [cbn [wfs]; repeat split; lia|]. split; [rewrite app_length; cbn [length]; lia|]. apply Forall_app. split; [exact h4|].
    apply Forall_cons; [assumption|apply Forall_nil]. }
  cbv zeta in *. split; [split; [reflexivity|]; now split|].
  intros mu rho s Js. unfold evp at 1. cbn [items]. specialize (V1 (mu, rho, s, Js)). unfold ev at 1 in V1.
  etransitivity; [exact V1|]. unfold ev. cbn [eval]. rewrite Rplus_0_l, <- Vr. unfold evp. rewrite (sumR_eval _ (items r)), (sumR_eval _ (items q)).
  rewrite <- sumR_scal. apply sumR_ext. intros [k1 v1] H1. rewrite <- sumR_scal_r. apply sumR_ext. intros [k2 v2] H2. cbn [fst snd].
  pose proof (allk_in _ _ k1 v1 Ar H1) as h1. pose proof (allk_in _ _ k2 v2 Aq H2) as (h2 & h3 & h4). destruct k2 as [k2 j2]. cbn [fst snd] in *.
  unfold P4 in h1. rewrite Q2R_mul. unfold monI, mon4. cbn [fst snd]. rewrite monx_snoc, h3. wfs_destruct. unfold nthZ. cbn [nth monx]. pws. ring.
Qed.
Lemma comb_poly_loop idx : forall c q, Forall (fun x => 0 <= x)%Z idx -> wfp (Piz c) kf_izs q ->
  returns (foldM comb_poly_step idx q) (fun r => wfp (Piz (c + length idx)) kf_izs r /\
    forall t, evp monI t r = evp monI t q * PJ t c idx).
Proof.
  induction idx as [|i idx IH]; intros c q Hi Hq; cbn [foldM length].
  - cbn [returns]. rewrite Nat.add_0_r. split; [exact Hq|]. intro t. cbn [PJ]. ring.
  - apply Forall_cons_iff in Hi. destruct Hi as [Hi Hr]. pose proof (comb_poly_step_sp c q i Hi Hq) as h.
    destruct (comb_poly_step q i) as [r|]; [|destruct h]. cbn [returns bind] in *. destruct h as [Wr Vr].
    eapply returns_weaken; [exact (IH (S c) r Hr Wr)|]. intros r' [W' V']. split; [replace (c + S (length idx))%nat with (S c + length idx)%nat by lia; exact W'|].
    intros [[[mu rho] s] Js]. rewrite V', Vr. cbn [PJ]. ring.
Qed.
Lemma comb_poly_sp idx : Forall (fun x => 0 <= x)%Z idx ->
  returns (comb_poly idx) (fun r => wfp (Piz (length idx)) kf_izs r /\ forall t, evp monI t r = PJ t 0 idx).
Proof.
  intro Hi. unfold comb_poly. eapply returns_weaken; [apply (comb_poly_loop idx 0)|].
  - exact Hi.
  - split; [reflexivity|]. split; [constructor; [intros []|constructor]|]. intros k [<-|[]]. split; [cbn; lia|]. split; [reflexivity|apply Forall_nil].
  - intros r [Wr Vr]. split; [exact Wr|]. intros [[[mu rho] s] Js]. rewrite Vr. unfold evp, monI. cbn [items eval fst snd monx].
    rewrite !pw_0. destruct Js; cbn [monx]; unfold Q2R; cbn; field.
Qed.

Lemma fold_left_foldM {A B} (f : A -> B -> res A) l : forall r,
  fold_left (fun a x => let! p := a in f p x) l r = let! p := r in foldM f l p.
Proof.
  induction l as [|x l IH]; intro r; cbn [fold_left foldM]; [now destruct r|]. rewrite IH. destruct r; reflexivity.
Qed.

(** the value of moment_IZs *)
Definition izval (t : tI) (nJ : nat) (m : Z) : R := sumR (fun al => IZR (cmb m al) * PJ t 0 al) (wcomp nJ m).
Lemma wcomp_0 nJ : wcomp nJ 0 = [repeat 0%Z nJ].
Proof.
  induction nJ as [|nJ IH]; [reflexivity|]. cbn [wcomp repeat]. change (range 0 (0 + 1)) with [0%Z]. cbn [flat_map].
  change (0 - 0)%Z with 0%Z. rewrite IH. reflexivity.
Qed.
Lemma cmb_0 nJ : cmb 0 (repeat 0%Z nJ) = 1%Z.
Proof. induction nJ as [|nJ IH]; [reflexivity|]. cbn [repeat]. unfold cmb in *. cbn. rewrite IH. reflexivity. Qed.
Lemma PJ_0 t nJ : forall c, PJ t c (repeat 0%Z nJ) = 1.
Proof.
  destruct t as [[[mu rho] s] Js]. induction nJ as [|nJ IH]; intro c; cbn [repeat PJ]; [reflexivity|]. rewrite IH. unfold NM.
  change (Z.to_nat 0) with 0%nat. rewrite V_0. ring.
Qed.
Lemma rep_repeat n : rep 0 (Z.of_nat n) = repeat 0%Z n.
Proof.
  unfold rep, range. rewrite Z.sub_0_r, Nat2Z.id, map_map. generalize 0%nat. induction n as [|n IH]; intro k; [reflexivity|].
  cbn [seq map repeat]. f_equal. apply IH.
Qed.
Lemma monx_0 Js n : monx Js (repeat 0%Z n) = 1.
Proof.
  revert n. induction Js as [|x Js IH]; intros [|n]; cbn [repeat monx]; trivial. rewrite IH, pw_0. ring.
Qed.

Lemma mcomb_self n : mcomb n n = 1%Z.
Proof. unfold mcomb. generalize (Z.to_nat n). clear. intro n. induction n as [|n IH]; [reflexivity|]. cbn [combN]. rewrite IH, combN_gt by lia. reflexivity. Qed.
Lemma cmb_2 m i : cmb m [i; m - i]%Z = mcomb m i.
Proof. cbn [cmb]. rewrite mcomb_self. ring. Qed.
Lemma comb_poly_leaf m idx : (0 <= m)%Z -> In idx (wcomp (length idx) m) ->
  adds (wfp (Piz (length idx)) kf_izs) (evp monI) (fun poly => let! c := comb m idx in let! poln := comb_poly idx in padd poly (rmul (qz c) poln))
    (fun t => IZR (cmb m idx) * PJ t 0 idx).
Proof.
  intros Hm Hin. apply in_wcomp in Hin. destruct Hin as (_ & Hp & Hs). rewrite (comp_comb idx m Hp Hs). cbn [bind].
  eapply adds_bind; [exact (comb_poly_sp idx Hp)|]. intros poln [W Vp] p Hpw.
  destruct (rmul_sp _ monI kf_izs (qz (cmb m idx)) poln W) as [W1 V1].
  eapply returns_weaken; [exact (padd_sp _ monI kf_izs p _ Hpw W1)|]. intros r [Wr Vr]. split; [exact Wr|].
  intro t. rewrite Vr, V1, Vp, Q2R_qz. reflexivity.
Qed.

Lemma moment_IZs_sp m nJ : (0 <= m)%Z ->
  returns (moment_IZs m nJ) (fun q => wfp (Piz nJ) kf_izs q /\ forall t, evp monI t q = izval t nJ m).
Proof.
  intro Hm. unfold moment_IZs. destruct (Z.eqb_spec m 0) as [->|Hm0].
  { cbn [returns]. rewrite rep_repeat. split.
    - split; [reflexivity|]. split; [constructor; [intros []|constructor]|]. intros k [<-|[]]. split; [cbn; lia|]. cbn [fst snd].
      split; [apply repeat_length|]. apply Forall_forall. intros x Hx. apply repeat_spec in Hx. lia.
    - intros [[[mu rho] s] Js]. unfold izval. rewrite wcomp_0. cbn [sumR]. rewrite cmb_0, PJ_0. unfold evp, monI. cbn [items eval fst snd monx].
      rewrite monx_0, !pw_0. unfold Q2R; cbn. field. }
  destruct nJ as [|[|[|nJ]]].
  - cbn [returns]. split.
    + split; [reflexivity|]. split; [constructor; [intros []|constructor]|]. intros k [<-|[]]. split; [cbn; lia|]. split; [reflexivity|apply Forall_nil].
    + intros [[[mu rho] s] Js]. unfold izval. cbn [wcomp]. destruct (Z.eqb_spec m 0); [lia|]. cbn [sumR]. unfold evp. cbn [items eval].
      unfold Q2R; cbn. field.
  - eapply returns_bind; [now apply mnorm_cond_sp|]. intros q [(Kq & Uq & Aq) Vq]. cbn [returns].
    pose proof (adds_fold (Piz 1) monI (fun kv : list Z * Q => ([nthZ (fst kv) 0; nthZ (fst kv) 1; nthZ (fst kv) 2], [nthZ (fst kv) 3])) snd (items q)) as h.
    destruct (h ltac:(intros [k v] Hk; apply (allk_in _ _ k v Aq) in Hk; unfold P4 in Hk; cbn [fst]; wfs_destruct; unfold nthZ; cbn [nth];
       split; [cbn; lia|]; split; [reflexivity|]; apply Forall_cons; [assumption|apply Forall_nil]) [] (wfl_nil _)) as [[W1 W2] V1].
    split; [split; [reflexivity|]; now split|]. intros [[[mu rho] s] Js]. specialize (V1 (mu, rho, s, Js)). unfold ev in V1. cbn [eval] in V1.
    unfold evp. cbn [items]. etransitivity; [exact V1|]. unfold izval. rewrite wcomp_1 by assumption. cbn [sumR PJ].
    replace (cmb m [m]) with 1%Z.
    2: { cbn [cmb]. rewrite mcomb_self. reflexivity. }
    rewrite <- Vq. unfold evp. rewrite (sumR_eval _ (items q)). rewrite Rplus_0_l, Rmult_1_l, Rmult_1_r, Rplus_0_r. apply sumR_ext. intros [k v] Hk.
    apply (allk_in _ _ k v Aq) in Hk. unfold P4 in Hk. cbn [fst snd]. unfold monI, mon4. cbn [fst snd]. wfs_destruct. unfold nthZ. cbn [nth monx].
    destruct Js; cbn [nth monx]; [rewrite pw_one; ring|]. destruct Js; cbn [monx]; ring.
  - pose proof (adds_foldM (wfl (Piz 2)) (ev monI) (fun a i =>
        let! c := math_comb m i in
        let! pol1 := mnorm_cond i in
        let! pol2 := mnorm_cond (m - i) in
        Ok (fold_left (fun a kv1 => fold_left (fun a kv2 =>
          let k1 := fst kv1 in let k2 := fst kv2 in
          add_kv ([nthZ k1 0 + nthZ k2 0; nthZ k1 1 + nthZ k2 1; nthZ k1 2 + nthZ k2 2]%Z, [nthZ k1 3; nthZ k2 3])
            (qmul (qmul (qz c) (snd kv1)) (snd kv2)) a) (items pol2) a) (items pol1) a))
      (fun i t => IZR (cmb m [i; m - i]%Z) * PJ t 0 [i; m - i]%Z) (range 0 (m + 1))) as h.
    assert (h' : returns (let! a := foldM (fun a i =>
        let! c := math_comb m i in
        let! pol1 := mnorm_cond i in
        let! pol2 := mnorm_cond (m - i) in
        Ok (fold_left (fun a kv1 => fold_left (fun a kv2 =>
          let k1 := fst kv1 in let k2 := fst kv2 in
          add_kv ([nthZ k1 0 + nthZ k2 0; nthZ k1 1 + nthZ k2 1; nthZ k1 2 + nthZ k2 2]%Z, [nthZ k1 3; nthZ k2 3])
            (qmul (qmul (qz c) (snd kv1)) (snd kv2)) a) (items pol2) a) (items pol1) a)) (range 0 (m + 1)) [] in Ok (mkPoly a kf_izs))
       (fun r => keyfor r = kf_izs /\ uniq (items r) /\ allk (Piz 2) (items r) /\
          forall t, eval (monI t) (items r) = sumR (fun i => IZR (cmb m [i; m - i]%Z) * PJ t 0 [i; m - i]%Z) (range 0 (m + 1)))).
    { apply (adds_run (Piz 2) monI). apply h. clear h. intros i Hi. apply in_range in Hi. rewrite math_comb_ok by lia. cbn [bind].
      eapply adds_bind; [apply mnorm_cond_sp; lia|]. intros q1 [(K1 & U1 & A1) V1].
      eapply adds_bind; [apply mnorm_cond_sp; lia|]. intros q2 [(K2 & U2 & A2) V2]. intros a Wa. cbn [returns].
      destruct (fold2_sp (Piz 2) monI (fun (kv1 kv2 : list Z * Q) =>
          ([nthZ (fst kv1) 0 + nthZ (fst kv2) 0; nthZ (fst kv1) 1 + nthZ (fst kv2) 1; nthZ (fst kv1) 2 + nthZ (fst kv2) 2]%Z,
           [nthZ (fst kv1) 3; nthZ (fst kv2) 3])) (fun kv1 kv2 => qmul (qmul (qz (mcomb m i)) (snd kv1)) (snd kv2)) (fun _ => items q2) (items q1) a Wa) as [W1 E1].
      { intros [k1 v1] [k2 v2] H1 H2. apply (allk_in _ _ k1 v1 A1) in H1. apply (allk_in _ _ k2 v2 A2) in H2. unfold P4 in *. cbn [fst]. wfs_destruct.
        unfold nthZ. cbn [nth]. split; [cbn; lia|]. split; [reflexivity|]. repeat (apply Forall_cons; [assumption|]). apply Forall_nil. }
      cbv zeta in *. split; [exact W1|]. intros [[[mu rho] s] Js]. rewrite E1. f_equal. cbn [PJ].
      replace (cmb m [i; m - i]%Z) with (mcomb m i) by (symmetry; apply cmb_2).
      rewrite <- V1, <- V2. unfold evp. rewrite (sumR_eval _ (items q1)), (sumR_eval _ (items q2)).
      rewrite Rmult_1_r. rewrite <- sumR_scal_r. rewrite <- sumR_scal. apply sumR_ext. intros [k1 v1] H1. rewrite <- !sumR_scal.
      apply sumR_ext. intros [k2 v2] H2. apply (allk_in _ _ k1 v1 A1) in H1. apply (allk_in _ _ k2 v2 A2) in H2. unfold P4 in *. cbn [fst snd].
      rewrite !Q2R_mul, Q2R_qz. unfold monI, mon4. cbn [fst snd]. wfs_destruct. unfold nthZ. cbn [nth monx]. pws.
      destruct Js as [|? [|? [|? ?]]]; cbn [nth monx]; rewrite ?pw_one; ring. }
    eapply returns_weaken; [exact h'|]. intros r (r1 & r2 & r3 & r4). split; [split; [exact r1|now split]|].
    intro t. unfold evp. rewrite r4. unfold izval. rewrite wcomp_2, sumR_map. reflexivity.
  - rewrite comb_run by lia. cbn [to_res bind]. rewrite Nat2Z.id. unfold izs_leaf.
    rewrite (fold_left_foldM (fun poly idx => let! c := comb m idx in let! poln := comb_poly idx in padd poly (rmul (qz c) poln))). cbn [bind].
    pose proof (adds_foldM (wfp (Piz (S (S (S nJ)))) kf_izs) (evp monI)
      (fun poly idx => let! c := comb m idx in let! poln := comb_poly idx in padd poly (rmul (qz c) poln))
      (fun idx t => IZR (cmb m idx) * PJ t 0 idx) (wcomp (S (S (S nJ))) m)) as h.
    eapply returns_weaken; [apply h|].
    + intros idx Hi. pose proof Hi as Hi'. apply in_wcomp in Hi'. destruct Hi' as (h1 & _). rewrite <- h1. apply comb_poly_leaf; [assumption|]. now rewrite h1.
    + apply wfp_nil.
    + intros r [W Vr]. split; [exact W|]. intro t. rewrite Vr. unfold evp at 1. cbn [items eval]. rewrite Rplus_0_l. reflexivity.
Qed.

(** ** cmoment_IZs *)
Definition P1s : list Z -> Prop := wfs [true].
Definition mon1s (s : R) : list Z -> R := monx [s].
Fixpoint PC (s : R) (al : list Z) : R :=
  match al with [] => 1 | a :: al => V (Z.to_nat a) 0 (s ^ 2) * PC s al end.
Definition kf_sg : list string := ["sigma"%string].
Lemma cmnorm_sp n : (0 <= n)%Z -> wfp P1s kf_sg (cmnorm n) /\ forall s, evp mon1s s (cmnorm n) = V (Z.to_nat n) 0 (s ^ 2).
Proof.
  intro Hn. split.
  - split; [exact (proj1 (C11_cmnorm n 0 Hn))|]. unfold cmnorm. destruct (Z.eqb_spec n 0); [|destruct (negb _)];
      (split; [constructor; [intros []|constructor]|]); intros k [<-|[]]; unfold P1s; cbn; lia.
  - intro s. unfold evp, mon1s. rewrite (proj2 (C11_cmnorm n s Hn)). exact (nmom_V 0 s n).
Qed.
Lemma pmul_sg p q f g : wfp P1s kf_sg p -> wfp P1s kf_sg q -> (forall s, evp mon1s s p = f s) -> (forall s, evp mon1s s q = g s) ->
  returns (pmul p q) (fun r => wfp P1s kf_sg r /\ forall s, evp mon1s s r = f s * g s).
Proof.
  intros (K1 & U1 & A1) (K2 & U2 & A2) V1 V2.
  eapply returns_weaken.
  - apply (pmul_sp P1s P1s P1s mon1s mon1s mon1s kf_sg p q K1 K2 A1 A2).
    intros k1 k2 h1 h2. unfold P1s in *. wfs_destruct. split; [apply le_n|]. unfold kadd_pure. cbn. split; [lia|]. intro s. unfold mon1s. cbn [monx]. pws. ring.
  - intros r [Wr Vr]. split; [exact Wr|]. intro s. rewrite <- V1, <- V2. apply Vr.
Qed.
Lemma set_kf_sp p f : wfp P1s kf_sg p -> (forall s, evp mon1s s p = f s) ->
  wfp P1s kf_sgs (set_kf kf_sgs p) /\ forall s, evp mon1s s (set_kf kf_sgs p) = f s.
Proof. intros (K & U & A) Vp. split; [split; [reflexivity|now split]|exact Vp]. Qed.

Lemma cprod_sp al : forall q f, Forall (fun x => 0 <= x)%Z al -> wfp P1s kf_sg q -> (forall s, evp mon1s s q = f s) ->
  returns (foldM (fun poln i => pmul poln (cmnorm i)) al q) (fun r => wfp P1s kf_sg r /\ forall s, evp mon1s s r = f s * PC s al).
Proof.
  induction al as [|a al IH]; intros q f Ha Wq Vq; cbn [foldM PC].
  - cbn [returns]. split; [exact Wq|]. intro s. rewrite Vq. ring.
  - apply Forall_cons_iff in Ha. destruct Ha as [Ha Hr]. destruct (cmnorm_sp a Ha) as [Wc Vc].
    pose proof (pmul_sg q (cmnorm a) _ _ Wq Wc Vq Vc) as h. destruct (pmul q (cmnorm a)) as [r|]; [|destruct h]. cbn [returns bind] in *. destruct h as [Wr Vr].
    eapply returns_weaken; [exact (IH r _ Hr Wr Vr)|]. intros r' [W' V']. split; [exact W'|]. intro s. rewrite V'. ring.
Qed.
Definition cizval (s : R) (nJ : nat) (m : Z) : R := sumR (fun al => IZR (cmb m al) * PC s al) (wcomp nJ m).
Lemma PC_0 s nJ : PC s (repeat 0%Z nJ) = 1.
Proof. induction nJ as [|nJ IH]; cbn [repeat PC]; [reflexivity|]. rewrite IH. change (Z.to_nat 0) with 0%nat. rewrite V_0. ring. Qed.

Lemma cmoment_IZs_sp m nJ : (0 <= m)%Z ->
  returns (cmoment_IZs m nJ) (fun q => wfp P1s kf_sgs q /\ forall s, evp mon1s s q = cizval s nJ m).
Proof.
  intro Hm. unfold cmoment_IZs. destruct (Z.eqb_spec m 0) as [->|Hm0].
  { cbn [returns]. split.
    - split; [reflexivity|]. split; [constructor; [intros []|constructor]|]. intros k [<-|[]]. unfold P1s. cbn. lia.
    - intro s. unfold cizval. rewrite wcomp_0. cbn [sumR]. rewrite cmb_0, PC_0. unfold evp, mon1s. cbn [items eval monx].
      rewrite !pw_0. unfold Q2R; cbn. field. }
  destruct nJ as [|[|[|nJ]]].
  - cbn [returns]. split.
    + split; [reflexivity|]. split; [constructor; [intros []|constructor]|]. intros k [<-|[]]. unfold P1s. cbn. lia.
    + intro s. unfold cizval. cbn [wcomp]. destruct (Z.eqb_spec m 0); [lia|]. cbn [sumR]. unfold evp. cbn [items eval].
      unfold Q2R; cbn. field.
  - cbn [returns]. destruct (cmnorm_sp m Hm) as [W Vc]. destruct (set_kf_sp _ _ W Vc) as [W' V']. split; [exact W'|]. intro s. rewrite V'.
    unfold cizval. rewrite wcomp_1 by assumption. cbn [sumR PC]. replace (cmb m [m]) with 1%Z by (cbn [cmb]; rewrite mcomb_self; reflexivity). ring.
  - pose proof (adds_foldM (wfp P1s kf_sgs) (evp mon1s) (fun poly i =>
        let! c := math_comb m i in
        let! poln := pmul (cmnorm i) (cmnorm (m - i)) in
        merge poly (rmul (qz c) (set_kf kf_sgs poln))) (fun i s => IZR (cmb m [i; m - i]%Z) * PC s [i; m - i]%Z) (range 0 (m + 1))) as h.
    eapply returns_weaken; [apply h|].
    + clear h. intros i Hi. apply in_range in Hi. rewrite math_comb_ok by lia. cbn [bind].
      destruct (cmnorm_sp i ltac:(lia)) as [W1 V1]. destruct (cmnorm_sp (m - i) ltac:(lia)) as [W2 V2].
      eapply adds_bind; [exact (pmul_sg _ _ _ _ W1 W2 V1 V2)|]. intros r [Wr Vr]. destruct (set_kf_sp _ _ Wr Vr) as [Ws Vs].
      destruct (rmul_sp P1s mon1s kf_sgs (qz (mcomb m i)) _ Ws) as [Wm Vm].
      eapply adds_ext; [apply (adds_merge P1s mon1s kf_sgs); apply Wm|]. intro s. cbv beta. unfold evp in Vm at 1. rewrite Vm, Vs, Q2R_qz, cmb_2. cbn [PC]. ring.
    + apply wfp_nil.
    + intros r [W Vr]. split; [exact W|]. intro s. rewrite Vr. unfold evp at 1. cbn [items eval]. rewrite Rplus_0_l. unfold cizval. rewrite wcomp_2, sumR_map. reflexivity.
  - rewrite comb_run by lia. cbn [to_res bind]. rewrite Nat2Z.id. unfold cizs_leaf.
    rewrite (fold_left_foldM (fun poly idx => let! c := comb m idx in
       let! poln := foldM (fun poln i => pmul poln (cmnorm i)) idx (mkPoly [([0%Z], Frac 1 1)] ["sigma"%string]) in
       padd poly (rmul (qz c) (set_kf kf_sgs poln)))). cbn [bind].
    pose proof (adds_foldM (wfp P1s kf_sgs) (evp mon1s)
      (fun poly idx => let! c := comb m idx in
       let! poln := foldM (fun poln i => pmul poln (cmnorm i)) idx (mkPoly [([0%Z], Frac 1 1)] ["sigma"%string]) in
       padd poly (rmul (qz c) (set_kf kf_sgs poln)))
      (fun idx s => IZR (cmb m idx) * PC s idx) (wcomp (S (S (S nJ))) m)) as h.
    eapply returns_weaken; [apply h|].
    + clear h. intros idx Hi. apply in_wcomp in Hi. destruct Hi as (_ & Hp & Hs). rewrite (comp_comb idx m Hp Hs). cbn [bind].
      eapply adds_bind; [apply (cprod_sp idx (mkPoly [([0%Z], Frac 1 1)] kf_sg) (fun _ => 1) Hp)|].
      * split; [reflexivity|]. split; [constructor; [intros []|constructor]|]. intros k [<-|[]]. unfold P1s. cbn. lia.
      * intro s. unfold evp, mon1s. cbn [items eval monx]. rewrite !pw_0. unfold Q2R; cbn. field.
      * intros poln [Wp Vp] p Hpw. destruct (set_kf_sp _ _ Wp Vp) as [Ws Vs].
        destruct (rmul_sp P1s mon1s kf_sgs (qz (cmb m idx)) _ Ws) as [W1 V1].
        eapply returns_weaken; [exact (padd_sp _ mon1s kf_sgs p _ Hpw W1)|]. intros r [Wr Vr]. split; [exact Wr|].
        intro t. rewrite Vr, V1, Vs, Q2R_qz. ring.
    + apply wfp_nil.
    + intros r [W Vr]. split; [exact W|]. intro t. rewrite Vr. unfold evp at 1. cbn [items eval]. rewrite Rplus_0_l. reflexivity.
Qed.
