(** The moments given the jump path of mdl_srjd/cond2_mom.py. *)
From Coq Require Import Reals Lra.
From Coquelicot Require Import Coquelicot.
From Verif.Model Require Export SrjdCond2.
From Verif.Spec Require Export SrjdPath.
From Verif.Proof Require Export ItoCondProofs.
Local Open Scope R_scope.

Notation c2key := (list Z * (list Z * list Z))%type.
Definition sx (lo : list Z * list Z) : jtup := (fst lo, zero_like (fst lo), snd lo, zero_like (snd lo)).
Definition oshape (lo : list Z * list Z) : Prop := length (snd lo) = pred (length (fst lo)).

Lemma zero_len l : length (zero_like l) = length l.
Proof. apply map_length. Qed.
Lemma zero_app l1 l2 : zero_like (l1 ++ l2) = zero_like l1 ++ zero_like l2.
Proof. apply map_app. Qed.
Lemma sx_shape lo : oshape lo -> jshape (sx lo).
Proof. intro h. unfold sx, jshape. rewrite !zero_len. repeat split; assumption. Qed.

(** keys without negative powers *)
Definition c2nn (key : c2key) : Prop := c2ok key /\ (0 <= nthZ (fst key) 4)%Z.
Definition c2B (p : zpar) (k : list Z) : R :=
  pw (zpv p) (nthZ k 0) * pw (/ zpk p) (nthZ k 1) * pw (zpth p) (nthZ k 2) * pw (zpsg p) (nthZ k 3).

Lemma c2ok_inv k lo : c2ok (k, lo) -> exists x0 x1 x2 x3 x4, k = [x0; x1; x2; x3; x4] /\
  (0 <= x0)%Z /\ (0 <= x1)%Z /\ (0 <= x2)%Z /\ (0 <= x3)%Z /\ oshape lo.
Proof.
  intros (h1 & h2 & h3). cbn [fst snd] in *.
  destruct k as [|x0 [|x1 [|x2 [|x3 [|x4 [|x5 k]]]]]]; try discriminate.
  exists x0, x1, x2, x3, x4. split; [reflexivity|].
  pose proof (h2 0%nat ltac:(lia)). pose proof (h2 1%nat ltac:(lia)). pose proof (h2 2%nat ltac:(lia)).
  pose proof (h2 3%nat ltac:(lia)). cbn [nth] in *. auto.
Qed.
Lemma c2ok_intro x0 x1 x2 x3 x4 lo :
  (0 <= x0)%Z -> (0 <= x1)%Z -> (0 <= x2)%Z -> (0 <= x3)%Z -> oshape lo -> c2ok ([x0; x1; x2; x3; x4], lo).
Proof.
  intros. split; [reflexivity|]. split; [|assumption]. cbn [fst].
  intros [|[|[|[|[|[|i]]]]]] Hi; cbn [nth]; try assumption; try congruence; lia.
Qed.
Lemma c2mon_key p z t x0 x1 x2 x3 x4 lo :
  c2mon p z t ([x0; x1; x2; x3; x4], lo)
  = c2B p [x0; x1; x2; x3; x4] * exp (IZR x4 * (zpk p * t)) * zs (zpk p) (upto t z) (fun _ => 1) (sx lo).
Proof.
  unfold c2mon, fZ2_path. cbn [fst snd monx]. rewrite fZ_path_zs, pw_exp. unfold c2B, nthZ, sx. cbn [nth]. ring.
Qed.

(** ** the lower end of the integral *)
Lemma addat_zero_like i : forall l, addat i 0 (zero_like l) = zero_like l.
Proof.
  induction i as [|i IH]; intros [|x r]; cbn [zero_like map addat]; trivial. f_equal. apply IH.
Qed.
Lemma zero_addat i d : forall l, zero_like (addat i d l) = zero_like l.
Proof. induction i as [|i IH]; intros [|x r]; cbn [zero_like map addat]; trivial. f_equal. apply IH. Qed.
Lemma c2_low_ok n lo : oshape lo -> exists lo', c2_low n lo = Ok lo' /\ oshape lo' /\
  forall k z, jumps_ok z -> zs k z (fun _ => 1) (sx lo') = zs k z (fun m => exp (IZR n * k * m)) (sx lo).
Proof.
  destruct lo as [l o]. intro h. unfold oshape in h. cbn [fst snd] in h. unfold c2_low. cbn [fst snd].
  destruct l as [|l1 [|l2 lr]].
  - eexists. split; [reflexivity|]. split; [assumption|]. intros k z _. cbn [sx zs fst snd zero_like map].
    now rewrite Rmult_0_r, exp_0.
  - destruct o; [|discriminate]. eexists. split; [reflexivity|]. split; [reflexivity|]. intros k z Hz.
    unfold sx. cbn [fst snd zero_like map].
    rewrite (zs_ext k z (fun m => exp (IZR n * k * m)) (fun m => exp (IZR n * k * m) * pw m 0)) by
      (trivial; intros; rewrite pw_0; ring).
    rewrite zs_shift1 by assumption. reflexivity.
  - cbn [length pred] in h. rewrite addl_addlast by (destruct o; discriminate). cbn [bind].
    eexists. split; [reflexivity|]. unfold oshape. cbn [fst snd]. split; [now rewrite addl_length|].
    intros k z Hz. unfold sx. cbn [fst snd].
    rewrite (zs_ext k z (fun m => exp (IZR n * k * m)) (fun m => exp (IZR n * k * m) * pw m 0)) by
      (trivial; intros; rewrite pw_0; ring).
    rewrite zs_shift2; [|assumption| |cbn [length]; lia].
    + unfold addl. rewrite addat_zero_like. now rewrite zero_addat.
    + unfold jshape. rewrite !zero_len. cbn [length pred]. auto.
Qed.

(** ** int_e_poly *)
Definition c2monT (x : jT) : c2key -> R := let '(p, z, t) := proj1_sig x in c2mon p z t.

Definition c2val (i : Z) (kv : c2key * Q) (pzt : zpar * path * R) : R :=
  let '(p, z, t) := pzt in
  let n := (nthZ (fst (fst kv)) 4 + i)%Z in
  Q2R (snd kv) * / IZR n * c2B p (fst (fst kv)) * / zpk p *
  (exp (IZR n * (zpk p * t)) * zs (zpk p) (upto t z) (fun _ => 1) (sx (snd (fst kv)))
   - zs (zpk p) (upto t z) (fun m => exp (IZR n * zpk p * m)) (sx (snd (fst kv)))).

Lemma c2term_RInt i kv p z (t : R) : c2nn (fst kv) -> (1 <= i)%Z -> zpk p <> 0 -> jumps_ok z -> 0 <= t ->
  is_RInt (fun s => exp (IZR i * (zpk p * s)) * (Q2R (snd kv) * c2mon p z s (fst kv))) 0 t (c2val i kv (p, z, t)).
Proof.
  destruct kv as [[k lo] v]. intros (Hk & H4) Hi Hp Hz Ht. cbn [fst snd] in *.
  destruct (c2ok_inv _ _ Hk) as (x0 & x1 & x2 & x3 & x4 & -> & ? & ? & ? & ? & Hs).
  change (nthZ [x0; x1; x2; x3; x4] 4) with x4 in H4. unfold c2val. cbn [fst snd].
  change (nthZ [x0; x1; x2; x3; x4] 4) with x4. set (n := (x4 + i)%Z).
  assert (Hn : (n =? 0)%Z = false) by (apply Z.eqb_neq; unfold n; lia).
  set (r := [([n; 0; 1; 0; 0]%Z, Frac 1 n); ([0; 0; 1; n; 0]%Z, qopp (Frac 1 n))]).
  assert (Er : int_et_fZ n 0 1 = Ok (mkPoly r kf_fZ)).
  { unfold int_et_fZ. cbn [Z.ltb Z.compare Z.eqb]. rewrite Hn. cbn -[Frac qopp]. rewrite Hn. reflexivity. }
  pose proof (int_et_fZ_spec n 0 1 ltac:(lia)) as hs. rewrite Er in hs. cbn [returns items] in hs.
  destruct hs as (_ & _ & _ & hs).
  pose proof (term_RInt (zpk p) z n 0 (sx lo) r t Hp Hz Ht ltac:(lia) (sx_shape _ Hs)
    (fun t tau _ => hs (zpk p) t tau Hp ltac:(discriminate))) as h.
  set (B := c2B p [x0; x1; x2; x3; x4]) in *.
  apply (is_RInt_Rscal _ (Q2R v * B)) in h.
  assert (E : Q2R v * B * zs (zpk p) (upto t z) (fun tau => eval (fmon (zpk p) t tau) r) (sx lo)
    = Q2R v * / IZR n * B * / zpk p * (exp (IZR n * (zpk p * t)) * zs (zpk p) (upto t z) (fun _ => 1) (sx lo)
        - zs (zpk p) (upto t z) (fun m => exp (IZR n * zpk p * m)) (sx lo))).
  { rewrite (zs_ext (zpk p) (upto t z) _ (fun tau => / IZR n * / zpk p * exp (IZR n * (zpk p * t)) * 1
        + (- (/ IZR n * / zpk p)) * exp (IZR n * zpk p * tau)) (sx lo)).
    2: now apply jumps_ok_upto.
    2: { intros tau _. unfold r. cbn [eval fst snd]. rewrite !fmon_split by reflexivity. cbn [nthZ nth].
         rewrite Q2R_neg, Q2R_Frac by (unfold n; lia). rewrite !pw_0, !pw_1, !Rmult_0_l, exp_0. unfold Rdiv. ring. }
    rewrite (zs_plus (zpk p) (upto t z) (fun tau => / IZR n * / zpk p * exp (IZR n * (zpk p * t)) * 1)
      (fun tau => (- (/ IZR n * / zpk p)) * exp (IZR n * zpk p * tau))).
    rewrite (zs_scal (zpk p) (upto t z) (/ IZR n * / zpk p * exp (IZR n * (zpk p * t))) (fun _ => 1)).
    rewrite (zs_scal (zpk p) (upto t z) (- (/ IZR n * / zpk p)) (fun tau => exp (IZR n * zpk p * tau))). ring. }
  rewrite <- E. revert h. apply is_RInt_ext. intros s _.
  rewrite c2mon_key, pw_0. fold B. unfold n. rewrite plus_IZR, Rmult_plus_distr_r, exp_plus.
  match goal with |- ?x = ?y => change (@eq R x y) end. ring.
Qed.

Lemma c2_int_spec i poly : wfp c2nn kf_c2 poly -> (1 <= i)%Z ->
  returns (c2_int_e_poly i poly) (fun r => wfp c2nn kf_c2 r /\
    forall p z t, zpk p <> 0 -> jumps_ok z -> 0 <= t ->
      is_RInt (fun s => exp (IZR i * (zpk p * s)) * eval (c2mon p z s) (items poly)) 0 t
        (eval (c2mon p z t) (items r))).
Proof.
  intros (_ & _ & W) Hi. unfold c2_int_e_poly. eapply returns_weaken.
  - apply (adds_run c2nn c2monT _ (fun x => sumR (fun kv => c2val i kv (proj1_sig x)) (items poly)) kf_c2).
    apply (adds_foldM (wfl c2nn) (ev c2monT) _ (fun kv x => c2val i kv (proj1_sig x))).
    intros [[k lo] v] Hin. cbn [fst snd]. pose proof (allk_in _ _ _ _ W Hin) as (Hk & H4). cbn [fst snd] in H4.
    destruct (c2ok_inv _ _ Hk) as (x0 & x1 & x2 & x3 & x4 & -> & ? & ? & ? & ? & Hs).
    unfold nthZ in *. cbn [nth] in *.
    destruct (Z.eqb_spec (x4 + i) 0) as [E|_]; [lia|].
    destruct (c2_low_ok (x4 + i) lo Hs) as (lo' & e1 & e2 & e3). rewrite e1. cbn [bind].
    intros a Ha.
    destruct (adds_kv c2nn c2monT ([x0; x1 + 1; x2; x3; x4 + i]%Z, lo) (qmul v (Frac 1 (x4 + i)))
      ltac:(split; [apply c2ok_intro; trivial; lia|unfold nthZ; cbn [fst nth]; lia]) a Ha) as [A1 A2].
    destruct (adds_kv c2nn c2monT ([x0; x1 + 1; x2; x3; 0]%Z, lo') (qopp (qmul v (Frac 1 (x4 + i))))
      ltac:(split; [apply c2ok_intro; trivial; lia|unfold nthZ; cbn [fst nth]; lia]) _ A1) as [B1 B2].
    cbn [returns]. split; [exact B1|]. intros [[[p z] t] Hz]. rewrite B2, A2. rewrite Rplus_assoc. f_equal.
    unfold c2monT, c2val. cbn [proj1_sig fst snd] in *. rewrite !c2mon_key.
    rewrite (e3 (zpk p) (upto t z) (jumps_ok_upto z t Hz)).
    rewrite Q2R_neg, Q2R_mul, Q2R_Frac by lia. unfold c2B, nthZ. cbn [nth].
    rewrite (pw_succ (/ zpk p) x1) by (right; assumption). rewrite Rmult_0_l, exp_0. unfold Rdiv. ring.
  - intros r (r1 & r2 & r3 & r4). split; [exact (conj r1 (conj r2 r3))|].
    intros p z t Hp Hz Ht.
    specialize (r4 (exist _ (p, z, t) Hz)). unfold c2monT in r4. cbn [proj1_sig] in r4. rewrite r4.
    apply (is_RInt_ext (fun s => sumR (fun kv => exp (IZR i * (zpk p * s)) * (Q2R (snd kv) * c2mon p z s (fst kv))) (items poly))).
    { intros s _. rewrite sumR_eval, <- sumR_scal. reflexivity. }
    apply is_RInt_sumR. intros [k v] Hin. apply c2term_RInt; trivial. now apply (allk_in _ _ _ _ W Hin).
Qed.

(** ** multiplication by IEZ *)
Lemma sx_iez l o : oshape (l, o) ->
  sx (l ++ [1%Z], match l with [] => [] | _ => o ++ [0%Z] end) = iez_lopq (sx (l, o)) /\
  oshape (l ++ [1%Z], match l with [] => [] | _ => o ++ [0%Z] end).
Proof.
  intro h. unfold oshape in *. cbn [fst snd] in *. unfold sx, iez_lopq. cbn [fst snd]. rewrite zero_app. cbn [zero_like map].
  destruct l as [|l1 lr]; [split; reflexivity|]. split.
  - rewrite zero_app. reflexivity.
  - cbn [length pred] in h. rewrite !app_length. cbn [length]. lia.
Qed.

Lemma c2_times_spec poly : wfp c2nn kf_c2 poly -> wfp c2nn kf_c2 (c2_times_IEZ poly) /\
  forall p z t, eval (c2mon p z t) (items (c2_times_IEZ poly)) = IEZ_path (zpk p) z t * eval (c2mon p z t) (items poly).
Proof.
  intros (_ & _ & W).
  set (key := fun kv : c2key * Q => let k := fst (fst kv) in let '(l, o) := snd (fst kv) in
    ([nthZ k 0; nthZ k 1; nthZ k 2; nthZ k 3; nthZ k 4],
     (l ++ [1%Z], match l with [] => [] | _ => o ++ [0%Z] end))).
  set (mon := fun x : zpar * path * R => let '(p, z, t) := x in c2mon p z t).
  assert (E : c2_times_IEZ poly = mkPoly (fold_left (fun a kv => add_kv (key kv) (snd kv) a) (items poly) []) kf_c2).
  { clear W. unfold c2_times_IEZ. f_equal. generalize (@nil (c2key * Q)). generalize (items poly) as ls.
    induction ls as [|[[k [l o]] v] r IH]; intro a; [reflexivity|]. exact (IH _). }
  destruct (adds_fold c2nn mon key (fun kv => snd kv) (items poly)) with (s := @nil (c2key * Q)) as [[h1 h2] h3]; [|apply wfl_nil|].
  { intros [[k [l o]] v] Hin. pose proof (allk_in _ _ _ _ W Hin) as (Hk & H4).
    destruct (c2ok_inv _ _ Hk) as (x0 & x1 & x2 & x3 & x4 & -> & ? & ? & ? & ? & Hs).
    unfold key. cbn [fst snd]. split; [|exact H4]. apply c2ok_intro; trivial. now apply sx_iez. }
  rewrite E. split.
  - split; [reflexivity|]. cbn [items]. now split.
  - intros p z t. cbn [items]. specialize (h3 (p, z, t)). unfold ev, mon in h3. cbn [eval] in h3.
    rewrite h3, Rplus_0_l, sumR_eval, <- sumR_scal. apply sumR_ext.
    intros [[k [l o]] v] Hin. pose proof (allk_in _ _ _ _ W Hin) as (Hk & _).
    destruct (c2ok_inv _ _ Hk) as (x0 & x1 & x2 & x3 & x4 & -> & ? & ? & ? & ? & Hs).
    unfold key. cbn [fst snd]. unfold nthZ at 1 2 3 4 5. cbn [nth]. rewrite !c2mon_key.
    rewrite (proj1 (sx_iez l o Hs)), zs_times by now apply sx_shape.
    unfold IEZ_path. ring.
Qed.

(** ** coef_poly *)
Definition c2fac (tp : Z) (p : zpar) : R :=
  if (tp =? 1)%Z then zpv p - zpth p else if (tp =? 2)%Z then zpth p
  else if (tp =? 3)%Z then 1 else if (tp =? 4)%Z then zpsg p else 0.

Lemma c2_coef_spec c poly tp : wfp c2nn kf_c2 poly -> wfp c2nn kf_c2 (c2_coef_poly c poly tp) /\
  forall p z t, eval (c2mon p z t) (items (c2_coef_poly c poly tp)) = Q2R c * c2fac tp p * eval (c2mon p z t) (items poly).
Proof.
  intros (_ & _ & W). unfold c2_coef_poly. cbn [keyfor items].
  set (mon := fun x : zpar * path * R => let '(p, z, t) := x in c2mon p z t).
  set (f := fun (a : list (c2key * Q)) (kv : c2key * Q) => _).
  assert (h : adds (wfl c2nn) (ev mon) (foldM (fun a kv => Ok (f a kv)) (items poly))
    (fun x => sumR (fun kv => Q2R c * c2fac tp (fst (fst x)) * (Q2R (snd kv) * mon x (fst kv))) (items poly))).
  { apply (adds_foldM (wfl c2nn) (ev mon) _ (fun kv x => Q2R c * c2fac tp (fst (fst x)) * (Q2R (snd kv) * mon x (fst kv)))).
    intros [[k lo] v] Hin. pose proof (allk_in _ _ _ _ W Hin) as (Hk & H4). unfold f, c2fac. cbn [fst snd] in *.
    destruct (c2ok_inv _ _ Hk) as (x0 & x1 & x2 & x3 & x4 & -> & ? & ? & ? & ? & Hs).
    unfold nthZ in *. cbn [nth] in *.
    destruct (tp =? 1)%Z; [|destruct (tp =? 2)%Z; [|destruct (tp =? 3)%Z; [|destruct (tp =? 4)%Z]]].
    - intros a Ha.
      destruct (adds_kv c2nn mon ([x0 + 1; x1; x2; x3; x4]%Z, lo) (qmul c v)
        ltac:(split; [apply c2ok_intro; trivial; lia|exact H4]) a Ha) as [A1 A2].
      destruct (adds_kv c2nn mon ([x0; x1; x2 + 1; x3; x4]%Z, lo) (qopp (qmul c v))
        ltac:(split; [apply c2ok_intro; trivial; lia|exact H4]) _ A1) as [B1 B2].
      cbn [returns]. split; [exact B1|]. intros [[p z] t]. rewrite B2, A2, Rplus_assoc. f_equal.
      unfold mon. cbn [fst snd]. rewrite !c2mon_key, Q2R_neg, Q2R_mul. unfold c2B, nthZ. cbn [nth].
      rewrite (pw_succ (zpv p)), (pw_succ (zpth p)) by (right; assumption). ring.
    - eapply adds_ext; [apply adds_kv; split; [apply c2ok_intro; trivial; lia|exact H4]|].
      intros [[p z] t]. unfold mon. cbn [fst snd]. rewrite !c2mon_key, Q2R_mul. unfold c2B, nthZ. cbn [nth].
      rewrite (pw_succ (zpth p)) by (right; assumption). ring.
    - eapply adds_ext; [apply adds_kv; split; [apply c2ok_intro; trivial; lia|exact H4]|].
      intros [[p z] t]. unfold mon. cbn [fst snd]. rewrite Q2R_mul. ring.
    - eapply adds_ext; [apply adds_kv; split; [apply c2ok_intro; trivial; lia|exact H4]|].
      intros [[p z] t]. unfold mon. cbn [fst snd]. rewrite !c2mon_key, Q2R_mul. unfold c2B, nthZ. cbn [nth].
      rewrite (pw_succ (zpsg p)) by (right; assumption). ring.
    - intros a Ha. cbn [returns]. split; [assumption|]. intro t. ring. }
  assert (E : forall l a, foldM (fun a kv => Ok (f a kv)) l a = Ok (fold_left f l a)).
  { induction l as [|x r IH]; intro a; [reflexivity|]. cbn [foldM fold_left]. apply IH. }
  specialize (h [] (wfl_nil c2nn)). rewrite E in h. cbn [returns] in h. destruct h as ([h1 h2] & h3).
  split; [now split|]. intros p z t. specialize (h3 (p, z, t)). unfold ev, mon in h3. cbn [eval fst] in h3.
  rewrite h3, Rplus_0_l, sumR_eval, <- sumR_scal. reflexivity.
Qed.

(** ** the recursion *)
Definition Good2 (m : Z) (q : Poly c2key) : Prop :=
  wfp c2nn kf_c2 q /\ forall p z M, jsol p z M -> forall t, 0 <= t -> eval (c2mon p z t) (items q) = M (m, 0, 0)%Z t.
Definition Part2 (F : integrand) (q : Poly c2key) : Prop :=
  wfp c2nn kf_c2 q /\
  forall p z M, jsol p z M -> forall t, 0 <= t -> is_RInt (F p z M) 0 t (eval (c2mon p z t) (items q)).

Lemma Part2_ext F G q : Part2 F q ->
  (forall p z M, jsol p z M -> forall s, 0 <= s -> F p z M s = G p z M s) -> Part2 G q.
Proof.
  intros [W h] E. split; [assumption|]. intros p z M HM t Ht. apply (is_RInt_ext (F p z M)); [|now apply h].
  intros s Hs. rewrite Rmin_left in Hs by assumption. apply E; [assumption|lra].
Qed.
Lemma Part2_start : Part2 (fun _ _ _ _ => 0) (mkPoly [] kf_c2).
Proof.
  split; [apply wfp_nil|]. intros p z M _ t _. cbn [items eval].
  pose proof (is_RInt_const (V := R_NormedModule) 0 t 0) as h0. unfold scal in h0. simpl in h0.
  unfold mult in h0. simpl in h0. rewrite Rmult_0_r in h0. exact h0.
Qed.
Lemma Part2_merge F G poly r : Part2 F poly -> Part2 G r ->
  returns (merge poly r) (Part2 (fun p z M s => F p z M s + G p z M s)).
Proof.
  intros [W h] [(b1 & b2 & b3) g].
  pose proof (adds_merge c2nn (fun x : zpar * path * R => let '(p, z, t) := x in c2mon p z t) kf_c2 r b1 b3 poly W) as e.
  eapply returns_weaken; [exact e|]. intros q [W' e']. split; [assumption|]. intros p z M HM t Ht.
  specialize (e' (p, z, t)). unfold evp in e'. cbv beta iota in e'. rewrite e'.
  apply is_RInt_Rplus; [now apply h|now apply g].
Qed.
Lemma Part2_coef F c tp q : Part2 F q -> Part2 (fun p z M s => Q2R c * c2fac tp p * F p z M s) (c2_coef_poly c q tp).
Proof.
  intros [W h]. destruct (c2_coef_spec c q tp W) as [W' e]. split; [assumption|]. intros p z M HM t Ht.
  rewrite e. apply is_RInt_Rscal. now apply h.
Qed.
Lemma c2_int_part i m q : Good2 m q -> (1 <= i)%Z ->
  returns (c2_int_e_poly i q) (Part2 (fun p z M s => exp (IZR i * (zpk p * s)) * M (m, 0, 0)%Z s)).
Proof.
  intros [W h] Hi. eapply returns_weaken; [now apply c2_int_spec|]. intros r [W' e]. split; [assumption|].
  intros p z M HM t Ht. assert (HM' := HM). destruct HM' as (hp & hz & _).
  apply (is_RInt_ext (fun s => exp (IZR i * (zpk p * s)) * eval (c2mon p z s) (items q))); [|now apply e].
  intros s Hs. rewrite Rmin_left in Hs by assumption. rewrite (h p z M) by (trivial; lra). reflexivity.
Qed.
Lemma c2_iez_part m q : Good2 m q ->
  returns (c2_int_e_poly 1 (c2_times_IEZ q))
    (Part2 (fun p z M s => exp (zpk p * s) * (IEZ_path (zpk p) z s * M (m, 0, 0)%Z s))).
Proof.
  intros [W h]. destruct (c2_times_spec q W) as [W1 e1]. eapply returns_weaken; [apply c2_int_spec; [exact W1|lia]|].
  intros r [W' e]. split; [assumption|].
  intros p z M HM t Ht. assert (HM' := HM). destruct HM' as (hp & hz & _).
  apply (is_RInt_ext (fun s => exp (1 * (zpk p * s)) * eval (c2mon p z s) (items (c2_times_IEZ q)))); [|now apply e].
  intros s Hs. rewrite Rmin_left in Hs by assumption. rewrite e1, (h p z M) by (trivial; lra). now rewrite Rmult_1_l.
Qed.

Definition CInv2 (lo hi : Z) (C : list (Z * Poly c2key)) : Prop :=
  forall n, (lo <= n <= hi)%Z -> exists q, cget n C = Ok q /\ Good2 n q.

Lemma c2_recursive_spec m C : (2 <= m)%Z -> CInv2 (m - 2) (m - 1) C ->
  returns (c2_recursive_IE m C) (Good2 m).
Proof.
  intros Hm HC. unfold c2_recursive_IE, c2_int_e_IE, c2_int_e_IEZ_IE.
  destruct (HC (m - 2)%Z ltac:(lia)) as (q & e1 & G1). destruct (HC (m - 1)%Z ltac:(lia)) as (q' & e2 & G2).
  rewrite e1, e2. cbn [bind]. set (c := Frac (m * (m - 1)) 2).
  eapply returns_bind; [apply (c2_int_part 1 _ _ G1); lia|]. intros r1 P1.
  eapply returns_bind; [apply Part2_merge; [apply Part2_start|apply (Part2_coef _ c 1 _ P1)]|]. intros s1 S1.
  eapply returns_bind; [apply (c2_int_part 2 _ _ G1); lia|]. intros r2 P2.
  eapply returns_bind; [apply Part2_merge; [exact S1|apply (Part2_coef _ c 2 _ P2)]|]. intros s2 S2.
  eapply returns_bind; [apply (c2_iez_part _ _ G1)|]. intros r3 P3.
  eapply returns_bind; [apply Part2_merge; [exact S2|apply (Part2_coef _ c 3 _ P3)]|]. intros s3 S3.
  eapply returns_bind; [apply (c2_int_part 1 _ _ G2); lia|]. intros r4 P4.
  eapply returns_weaken; [apply Part2_merge; [exact S3|apply (Part2_coef _ c 4 _ P4)]|].
  intros s4 [W h]. split; [assumption|]. intros p z M HM t Ht.
  pose proof (h p z M HM t Ht) as i1. assert (HM' := HM). destruct HM' as (_ & _ & HM').
  pose proof (HM' (m, 0, 0)%Z ltac:(unfold zdom; lia) t Ht) as i2.
  assert (i3 : is_RInt (lin_rhs (cond_sys p z) M (m, 0, 0)%Z) 0 t (eval (c2mon p z t) (items s4))).
  { revert i1. apply is_RInt_ext. intros s _. unfold lin_rhs, cond_sys.
    destruct (Z.leb_spec 2 m); [|lia]. cbn [Z.leb Z.compare andb]. rewrite andb_false_r, !app_nil_r.
    unfold vz_terms, v_given, c2fac. cbn [sumR fst snd Z.eqb Pos.eqb].
    match goal with |- ?x = ?y => change (@eq R x y) end.
    replace (m - 2 + 1)%Z with (m - 1)%Z by lia. unfold c. rewrite Q2R_Frac by lia. rewrite exp_1m, exp_2m.
    assert (e : exp (- (zpk p * s)) * exp (zpk p * s) = 1) by (rewrite <- exp_plus, Rplus_opp_l; apply exp_0).
    set (x := exp (- (zpk p * s))) in *. set (y := exp (zpk p * s)) in *.
    replace (y * y * (x * (zpv p - zpth p) + zpth p + x * IEZ_path (zpk p) z s))
      with ((x * y) * y * (zpv p - zpth p) + y * y * zpth p + (x * y) * y * IEZ_path (zpk p) z s) by ring.
    set (A := M (m - 2, 0, 0)%Z s). set (B := M (m - 1, 0, 0)%Z s).
    replace (IZR (m * (m - 1)) / 2 * (y * y) * (x * (zpv p - zpth p) + zpth p + x * IEZ_path (zpk p) z s) * A +
       (IZR (m * (m - 1)) / 2 * (y * y) * (zpsg p * x) * B + 0))
      with (IZR (m * (m - 1)) / 2 * ((x * y) * y * (zpv p - zpth p) * A + y * y * zpth p * A
         + (x * y) * y * IEZ_path (zpk p) z s * A + (x * y) * y * zpsg p * B)) by ring.
    rewrite e. ring. }
  pose proof (is_RInt_uniq _ _ _ _ _ i3 i2) as E. rewrite E, cond_init_0; [ring|]. unfold ord3; simpl; lia.
Qed.

Lemma Good2_remove_zero i q : Good2 i q -> Good2 i (remove_zero q).
Proof.
  intros [W h]. destruct (remove_zero_sp c2nn (fun x : zpar * path * R => let '(p, z, t) := x in c2mon p z t) kf_c2 q W)
    as (W' & _ & e). split; [assumption|]. intros p z M HM t Ht.
  specialize (e (p, z, t)). unfold evp in e. cbv beta iota in e. rewrite e. now apply h.
Qed.

Lemma c2_round_spec C n : (3 <= n)%Z -> CInv2 (n - 2) (n - 1) C -> returns (c2_round C n) (CInv2 (n - 1) n).
Proof.
  intros Hn HC. unfold c2_round. eapply returns_bind; [apply c2_recursive_spec; [lia|exact HC]|].
  intros q G. cbn [returns]. intros j Hj. rewrite cget_cdel by (apply Z.eqb_neq; lia).
  destruct (Z.eq_dec j n) as [->|ne].
  - rewrite cget_cset_same. eexists. split; [reflexivity|]. now apply Good2_remove_zero.
  - rewrite cget_cset_other by congruence. apply HC. lia.
Qed.
Lemma c2_rounds m : forall n C, (3 <= n)%Z -> CInv2 (n - 2) (n - 1) C ->
  returns (foldM c2_round (range n (n + Z.of_nat m)) C) (CInv2 (n + Z.of_nat m - 2) (n + Z.of_nat m - 1)).
Proof.
  induction m as [|m IH]; intros n C Hn HC.
  - rewrite range_nil by lia. cbn [foldM returns]. now rewrite Z.add_0_r.
  - rewrite range_cons by lia. cbn [foldM].
    pose proof (c2_round_spec C n Hn HC) as h.
    destruct (c2_round C n) as [C'|]; [|exact h]. cbn [returns] in h.
    replace (n + Z.of_nat (S m))%Z with (n + 1 + Z.of_nat m)%Z by lia. apply IH; [lia|].
    replace (n + 1 - 2)%Z with (n - 1)%Z by lia. replace (n + 1 - 1)%Z with n by lia. exact h.
Qed.

(** the initial table *)
Ltac c2wf := split; [reflexivity|]; split;
  [unfold uniq; cbn; repeat (apply NoDup_cons; [simpl; intuition discriminate|]); apply NoDup_nil
  |intros key Hkey; cbn in Hkey; repeat (destruct Hkey as [<-|Hkey]); try destruct Hkey;
   (split; [apply c2ok_intro; try lia; reflexivity|unfold nthZ; cbn; lia])].
Lemma Good2_0 : Good2 0 c2_P1.
Proof.
  split.
  - c2wf.
  - intros p z M (hp & hz & HM) t Ht. unfold c2_P1. cbn [items eval fst snd].
    pose proof (HM (0, 0, 0)%Z ltac:(unfold zdom; lia) t Ht) as i2.
    assert (i1 : is_RInt (lin_rhs (cond_sys p z) M (0, 0, 0)%Z) 0 t 0).
    { pose proof (is_RInt_const (V := R_NormedModule) 0 t 0) as h0. unfold scal in h0. simpl in h0.
      unfold mult in h0. simpl in h0. rewrite Rmult_0_r in h0. exact h0. }
    pose proof (is_RInt_uniq _ _ _ _ _ i1 i2) as E. cbn [cond_init] in E.
    rewrite c2mon_key. unfold c2B, nthZ. cbn [nth sx fst snd zero_like map zs]. rewrite !pw_0, Rmult_0_l, exp_0, Q2R_Frac by lia. lra.
Qed.
Lemma Good2_1 : Good2 1 c2_P0.
Proof.
  split.
  - c2wf.
  - intros p z M (hp & hz & HM) t Ht. unfold c2_P0. cbn [items eval fst snd].
    pose proof (HM (1, 0, 0)%Z ltac:(unfold zdom; lia) t Ht) as i2.
    assert (i1 : is_RInt (lin_rhs (cond_sys p z) M (1, 0, 0)%Z) 0 t 0).
    { pose proof (is_RInt_const (V := R_NormedModule) 0 t 0) as h0. unfold scal in h0. simpl in h0.
      unfold mult in h0. simpl in h0. rewrite Rmult_0_r in h0. exact h0. }
    pose proof (is_RInt_uniq _ _ _ _ _ i1 i2) as E. cbn [cond_init] in E.
    rewrite Q2R_Frac by lia. lra.
Qed.
Lemma Good2_2 : Good2 2 c2_P2.
Proof.
  pose proof (c2_recursive_spec 2 [(0%Z, c2_P1); (1%Z, c2_P0)] ltac:(lia)) as h.
  assert (HC : CInv2 (2 - 2) (2 - 1) [(0%Z, c2_P1); (1%Z, c2_P0)]).
  { intros n Hn. assert (E : n = 0%Z \/ n = 1%Z) by lia. destruct E as [-> | ->]; eexists; (split; [reflexivity|]).
    - exact Good2_0.
    - exact Good2_1. }
  specialize (h HC). destruct (returns_inv _ _ h) as (r & E & _ & e). vm_compute in E. injection E as <-.
  split; [c2wf|]. intros p z M HM t Ht. rewrite <- (e p z M HM t Ht).
  unfold c2_P2. cbn [items eval fst snd].
  change (Frac 1 2) with (1 # 2)%Q. change (Frac 1 1) with (1 # 1)%Q. change (qopp (1 # 1)) with (-1 # 1)%Q. ring.
Qed.

Lemma CInv2_init : CInv2 0 2 c2_init.
Proof.
  intros n Hn. assert (E : n = 0%Z \/ n = 1%Z \/ n = 2%Z) by lia.
  destruct E as [-> | [-> | ->]]; eexists; (split; [reflexivity|]); [exact Good2_0|exact Good2_1|exact Good2_2].
Qed.
Theorem c2_moment_IE_spec m : (0 <= m)%Z -> returns (c2_moment_IE m) (Good2 m).
Proof.
  intro Hm. unfold c2_moment_IE. destruct (Z.leb_spec m 2) as [Hl|Hl].
  { destruct (CInv2_init m ltac:(lia)) as (q & e & G). now rewrite e. }
  eapply (returns_bind _ _ (CInv2 (m - 2) (m - 1))).
  - destruct (Z.ltb_spec 3 m) as [H3|H3].
    + pose proof (c2_rounds (Z.to_nat (m - 3)) 3 c2_init ltac:(lia)) as h.
      replace (3 + Z.of_nat (Z.to_nat (m - 3)))%Z with m in h by lia. apply h.
      intros n Hn. apply CInv2_init. lia.
    + cbn [returns]. intros n Hn. apply CInv2_init. lia.
  - intros C HC. eapply returns_bind; [apply c2_recursive_spec; [lia|exact HC]|].
    intros q G. now apply Good2_remove_zero.
Qed.
Lemma c2_moment_IE_negative m : (m < 0)%Z -> c2_moment_IE m = Err KeyError.
Proof.
  intro Hm. unfold c2_moment_IE. destruct (Z.leb_spec m 2) as [Hl|Hl]; [|lia]. destruct m; try lia. reflexivity.
Qed.
