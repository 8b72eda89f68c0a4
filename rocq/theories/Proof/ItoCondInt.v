(** The integrals of ito_cond_mom.py: int_e_poly and int_e_IEZ_poly. *)
From Coq Require Import Reals Lra.
From Coquelicot Require Import Coquelicot.
From Verif.Proof Require Export IntEtFZ.
Local Open Scope R_scope.

Notation jtup := (list Z * list Z * list Z * list Z)%type.

(** Both integrals in one form: [inc] increments one exponent, [lf] changes (l, o, p, q)
    before the integration. *)
Section Gint.
Context (inc : list Z -> list Z) (lf : jtup -> jtup) (c : Q) (m : Z).

Definition gterm (a : list (jkey * Q)) (kv : jkey * Q) : res (list (jkey * Q)) :=
  let k := fst (fst kv) in let lopq := lf (snd (fst kv)) in
  let! sub := int_et_fZ (m + nthZ k 0) (nthZ k 1) (Z.of_nat (length (fst (fst (fst lopq))))) in
  foldM (fun a kv2 =>
    let! key2 := jkey2 lopq (fst kv2) in
    Ok (add_kv (inc [nthZ (fst kv2) 0; nthZ (fst kv2) 1; nthZ (fst kv2) 2 + nthZ k 2; nthZ k 3; nthZ k 4; nthZ k 5]%Z, key2)
          (qmul (qmul c (snd kv)) (snd kv2)) a))
    (items sub) a.
Definition gint (poly : Poly jkey) : res (Poly jkey) :=
  let! a := foldM gterm (items poly) [] in Ok (mkPoly a (keyfor poly)).
End Gint.

(** jkey_ok, and for [b = true] also no power of t and no negative power of e^{kt} *)
Definition jok (b : bool) (key : jkey) : Prop :=
  jkey_ok key /\ (b = true -> nthZ (fst key) 1 = 0%Z /\ (0 <= nthZ (fst key) 0)%Z).

(** the factors other than e^{kt}, t and the jumps *)
Definition jB (p : zpar) (k : list Z) : R :=
  pw (/ zpk p) (nthZ k 2) * pw (zpv p - zpth p) (nthZ k 3) * pw (zpth p) (nthZ k 4) * pw (zpsg p) (nthZ k 5).

Lemma jmon_key p z t k lopq : length k = 6%nat ->
  jmon p z t (k, lopq) = exp (IZR (nthZ k 0) * (zpk p * t)) * pw t (nthZ k 1) * jB p k * zs (zpk p) (upto t z) (fun _ => 1) lopq.
Proof.
  intro Hl. destruct k as [|x0 [|x1 [|x2 [|x3 [|x4 [|x5 [|x6 k]]]]]]]; try discriminate.
  unfold jmon, zvals. cbn [fst snd monx]. rewrite fZ_path_zs, pw_exp. unfold jB, nthZ. cbn [nth]. ring.
Qed.

Definition tfac (tp : Z) (p : zpar) : R :=
  if (tp =? 1)%Z then zpv p - zpth p else if (tp =? 2)%Z then zpth p else zpsg p.

Lemma addl_addlast d l : l <> [] -> addlast d l = Ok (addl d l).
Proof. destruct l; [congruence|reflexivity]. Qed.
Lemma addat_length i d : forall l, length (addat i d l) = length l.
Proof. induction i as [|i IH]; intros [|x r]; cbn [addat length]; congruence. Qed.
Lemma addl_length d l : length (addl d l) = length l.
Proof. apply addat_length. Qed.

Lemma jkey2_ok lopq kk : jshape lopq -> exists key2, jkey2 lopq kk = Ok key2 /\ jshape key2 /\
  (etk5 (Z.of_nat (length (fst (fst (fst lopq))))) kk -> forall k z, jumps_ok z ->
    zs k z (fun _ => 1) key2 = zs k z (fun m => exp (IZR (nthZ kk 3) * k * m) * pw m (nthZ kk 4)) lopq).
Proof.
  destruct lopq as [[[l o] p] q]. intros (Ho & Hp & Hq). unfold jkey2. cbn [fst].
  destruct l as [|l1 [|l2 lr]].
  - destruct o; [|discriminate]. cbn [length Nat.eqb]. eexists. split; [reflexivity|]. split; [now repeat split|].
    intros (_ & _ & _ & _ & h) k z _. destruct (h eq_refl) as [h3 h4]. cbn [zs].
    rewrite h4, Rmult_0_r, exp_0, pw_0. ring.
  - destruct o as [|o1 [|? ?]]; try discriminate. destruct p; [|discriminate]. destruct q; [|discriminate].
    cbn [length Nat.eqb addfst bind]. eexists. split; [reflexivity|]. split; [now repeat split|].
    intros _ k z Hz. now rewrite zs_shift1.
  - cbn [length Nat.eqb]. cbn [length pred] in *.
    rewrite !addl_addlast; [|destruct q; discriminate|destruct p; discriminate]. cbn [bind].
    eexists. split; [reflexivity|]. split; [|].
    { unfold jshape. rewrite !addl_length. now repeat split. }
    intros _ k z Hz. rewrite zs_shift2; trivial; [|cbn [length]; lia]. now repeat split.
Qed.

Definition inc_ok (inc : list Z -> list Z) (fac : zpar -> R) : Prop :=
  (forall k, length k = 6%nat -> length (inc k) = 6%nat) /\
  (forall k, nthZ (inc k) 0 = nthZ k 0 /\ nthZ (inc k) 1 = nthZ k 1) /\
  (forall k i, (0 <= nth i k 0)%Z -> (0 <= nth i (inc k) 0)%Z) /\
  (forall p k, length k = 6%nat -> (forall i, i <> O -> (0 <= nth i k 0)%Z) -> jB p (inc k) = fac p * jB p k).

Lemma inc_ok_id : inc_ok (fun k => k) (fun _ => 1).
Proof. repeat split; trivial. intros; ring. Qed.

Lemma nth_addat i : forall j d l, (0 <= d)%Z -> (0 <= nth j l 0)%Z -> (0 <= nth j (addat i d l) 0)%Z.
Proof.
  induction i as [|i IH]; intros j d [|x r] Hd H; cbn [addat]; trivial; destruct j; cbn [nth] in *; try lia.
  now apply IH.
Qed.
Lemma nthZ_addat i d l j : j <> i -> nthZ (addat i d l) j = nthZ l j.
Proof.
  unfold nthZ. revert j l. induction i as [|i IH]; intros j [|x r] Hj; cbn [addat]; trivial; destruct j; cbn [nth]; trivial.
  - congruence.
  - apply IH. congruence.
Qed.

Lemma inc_ok_at (i : nat) (fac : zpar -> R) : i <> O -> i <> 1%nat ->
  (forall p k, length k = 6%nat -> (forall i, i <> O -> (0 <= nth i k 0)%Z) -> jB p (addat i 1 k) = fac p * jB p k) ->
  inc_ok (addat i 1) fac.
Proof.
  intros H0 H1 h. split; [|split; [|split]].
  - intros k Hk. now rewrite addat_length.
  - intro k. split; apply nthZ_addat; congruence.
  - intros k j. apply nth_addat. lia.
  - exact h.
Qed.

Lemma inc_ok_tp tp : inc_ok (if (tp =? 1)%Z then addat 3 1 else if (tp =? 2)%Z then addat 4 1 else addat 5 1) (tfac tp).
Proof.
  unfold tfac. destruct (tp =? 1)%Z; [|destruct (tp =? 2)%Z].
  all: apply inc_ok_at; [lia|lia|]; intros p k Hl Hk;
    destruct k as [|x0 [|x1 [|x2 [|x3 [|x4 [|x5 [|x6 k]]]]]]]; try discriminate;
    unfold jB, nthZ; cbn [addat nth].
  - rewrite pw_succ; [ring|right; now apply (Hk 3%nat)].
  - rewrite pw_succ; [ring|right; now apply (Hk 4%nat)].
  - rewrite pw_succ; [ring|right; now apply (Hk 5%nat)].
Qed.

Lemma jint_gint c tp m poly : jint_e_poly c tp m poly
  = gint (if (tp =? 1)%Z then addat 3 1 else if (tp =? 2)%Z then addat 4 1 else addat 5 1) (fun l => l) c m poly.
Proof.
  unfold jint_e_poly, gint. f_equal. apply foldM_ext. intros kv _ a. unfold gterm, jkey1.
  destruct (tp =? 1)%Z; [|destruct (tp =? 2)%Z]; reflexivity.
Qed.

(** integral of one term *)
Lemma term_RInt (k : R) z n m lopq r (t : R) : k <> 0 -> jumps_ok z -> 0 <= t -> (0 <= m)%Z -> jshape lopq ->
  (forall t tau, (Z.of_nat (length (fst (fst (fst lopq)))) = 0%Z -> tau = 0) ->
      eval (fmon k t tau) r = Fp n m k t - Fp n m k tau) ->
  is_RInt (fun s => exp (IZR n * (k * s)) * pw s m * zs k (upto s z) (fun _ => 1) lopq) 0 t
    (zs k (upto t z) (fun tau => eval (fmon k t tau) r) lopq).
Proof.
  intros Hk Hz Ht Hm Hs Hr. destruct lopq as [[[l o] p] q]. cbn [fst] in Hr.
  destruct l as [|l1 lr].
  - cbn [zs]. rewrite Hr by reflexivity.
    apply (is_RInt_ext (fun s => exp (IZR n * (k * s)) * pw s m)); [intros; symmetry; apply Rmult_1_r|].
    now apply Fp_RInt.
  - assert (Hr' : forall t tau, eval (fmon k t tau) r = Fp n m k t - Fp n m k tau).
    { intros. apply Hr. cbn [length]. lia. }
    apply (is_RInt_ext (fun s => zs k z (ind s (fun _ => exp (IZR n * (k * s)) * pw s m)) (l1 :: lr, o, p, q))).
    { intros s Hs'. rewrite Rmin_left, Rmax_right in Hs' by assumption.
      rewrite zs_upto by lra. rewrite <- zs_scal. apply zs_ext; [assumption|]. intros u _. unfold ind.
      destruct (Rle_dec u s); ring. }
    rewrite zs_upto by assumption. apply zs_RInt; [assumption|]. intros u Hu.
    replace (ind t (fun tau => eval (fmon k t tau) r) u) with (ind t (fun _ => eval (fmon k t u) r) u) by reflexivity.
    apply (RInt_ind (fun s => exp (IZR n * (k * s)) * pw s m)); [assumption|assumption|].
    intros _. rewrite Hr'. now apply Fp_RInt.
Qed.

Section Sp.
Context (b : bool) (inc : list Z -> list Z) (fac : zpar -> R) (lf : jtup -> jtup) (wt : R -> path -> R -> R)
  (c : Q) (m : Z).
Hypothesis Hinc : inc_ok inc fac.
Hypothesis Hsh : forall lopq, jshape lopq -> jshape (lf lopq).
Hypothesis Hwt : forall k z s lopq, jshape lopq ->
  zs k (upto s z) (fun _ => 1) (lf lopq) = wt k z s * zs k (upto s z) (fun _ => 1) lopq.
Hypothesis Hb : b = true -> (1 <= m)%Z.

(** value of the produced terms *)
Definition gval (kv : jkey * Q) (pzt : zpar * path * R) : R :=
  let '(p, z, t) := pzt in
  let k := fst (fst kv) in
  let lopq := lf (snd (fst kv)) in
  match int_et_fZ (m + nthZ k 0) (nthZ k 1) (Z.of_nat (length (fst (fst (fst lopq))))) with
  | Ok sub => Q2R c * Q2R (snd kv) * fac p * jB p k * zs (zpk p) (upto t z) (fun tau => eval (fmon (zpk p) t tau) (items sub)) lopq
  | Err _ => 0
  end.

Definition jT : Type := {pzt : zpar * path * R | jumps_ok (snd (fst pzt))}.
Definition jmonT (x : jT) : jkey -> R := let '(p, z, t) := proj1_sig x in jmon p z t.

Lemma fmon_split k t tau kk : length kk = 5%nat ->
  fmon k t tau kk = exp (IZR (nthZ kk 0) * (k * t)) * pw t (nthZ kk 1) * pw (/ k) (nthZ kk 2)
    * (exp (IZR (nthZ kk 3) * k * tau) * pw tau (nthZ kk 4)).
Proof.
  intro Hl. destruct kk as [|x0 [|x1 [|x2 [|x3 [|x4 [|x5 kk]]]]]]; try discriminate.
  rewrite fmon_key. unfold nthZ. cbn [nth]. do 3 f_equal. ring.
Qed.

Lemma gterm_adds kv : jok b (fst kv) ->
  adds (wfl (jok b)) (ev jmonT) (fun a => gterm inc lf c m a kv) (fun x => gval kv (proj1_sig x)).
Proof.
  destruct kv as [[k lopq] v]. intros ((Hl & Hk & Hs) & Hq). cbn [fst snd] in *.
  destruct Hinc as (i1 & i2 & i3 & i4). unfold gterm, gval. cbn [fst snd].
  set (lo := lf lopq). set (N := Z.of_nat (length (fst (fst (fst lo))))).
  assert (H1 : (0 <= nthZ k 1)%Z) by (apply Hk; lia).
  pose proof (int_et_fZ_spec (m + nthZ k 0) (nthZ k 1) N H1) as hsub.
  destruct (int_et_fZ (m + nthZ k 0) (nthZ k 1) N) as [sub|]; [|destruct hsub].
  cbn [returns] in hsub. destruct hsub as (_ & s1 & s2 & s3). cbn [bind].
  eapply adds_ext.
  - apply (adds_foldM (wfl (jok b)) (ev jmonT) _ (fun kv2 x => let '(p, z, t) := proj1_sig x in
      Q2R c * Q2R v * Q2R (snd kv2) * fac p * jB p k
      * (exp (IZR (nthZ (fst kv2) 0) * (zpk p * t)) * pw t (nthZ (fst kv2) 1) * pw (/ zpk p) (nthZ (fst kv2) 2))
      * zs (zpk p) (upto t z) (fun tau => exp (IZR (nthZ (fst kv2) 3) * zpk p * tau) * pw tau (nthZ (fst kv2) 4)) lo)).
    intros [kk w] Hin. cbn [fst snd].
    destruct (jkey2_ok lo kk (Hsh _ Hs)) as (key2 & e1 & e2 & e3). rewrite e1. cbn [bind].
    pose proof (allk_in _ _ _ _ s1 Hin) as (w1 & w2 & w3 & w4 & w5).
    set (k1 := [nthZ kk 0; nthZ kk 1; nthZ kk 2 + nthZ k 2; nthZ k 3; nthZ k 4; nthZ k 5]%Z).
    assert (Hk1 : forall i, i <> O -> (0 <= nth i k1 0)%Z).
    { intros [|[|[|[|[|[|i]]]]]] Hi; unfold k1; cbn [nth]; try lia; try (apply Hk; lia).
      - assert (0 <= nthZ k 2)%Z by (apply Hk; lia). lia.
      - destruct i; lia. }
    eapply adds_ext.
    + apply adds_kv. split.
      * split; [now apply i1|]. split; [|exact e2]. intros i Hi. cbn [fst]. apply i3, Hk1, Hi.
      * intro B. cbn [fst]. destruct (i2 k1) as [j0 j1]. rewrite j0, j1. change (nthZ k1 1) with (nthZ kk 1). change (nthZ k1 0) with (nthZ kk 0).
        destruct (Hq B) as [q1 q0]. specialize (Hb B).
        pose proof (allk_in _ _ _ _ s2 Hin) as s2'. unfold etk5q in s2'.
        destruct s2' as [z1 z0]; [lia|exact q1|]. split; [exact z1|lia].
    + intros [[[p z] t] Hz]. cbn [proj1_sig fst snd] in *. unfold jmonT. cbn [proj1_sig].
      rewrite jmon_key by (now apply i1). destruct (i2 k1) as [j0 j1]. rewrite j0, j1, i4 by (try reflexivity; exact Hk1).
      rewrite (e3 (allk_in _ _ _ _ s1 Hin) (zpk p) (upto t z) (jumps_ok_upto z t Hz)).
      rewrite !Q2R_mul. unfold jB. change (nthZ k1 0) with (nthZ kk 0). change (nthZ k1 1) with (nthZ kk 1).
      change (nthZ k1 2) with (nthZ kk 2 + nthZ k 2)%Z. change (nthZ k1 3) with (nthZ k 3).
      change (nthZ k1 4) with (nthZ k 4). change (nthZ k1 5) with (nthZ k 5).
      assert (E : pw (/ zpk p) (nthZ kk 2 + nthZ k 2) = pw (/ zpk p) (nthZ kk 2) * pw (/ zpk p) (nthZ k 2)).
      { apply pow_lemma_pw. right. split; [assumption|apply Hk; lia]. }
      rewrite E. ring.
  - intros [[[p z] t] Hz]. cbn [proj1_sig fst snd] in *. cbv beta.
    rewrite (zs_ext (zpk p) (upto t z) _ (fun tau => sumR (fun kv2 => Q2R (snd kv2) *
       (exp (IZR (nthZ (fst kv2) 0) * (zpk p * t)) * pw t (nthZ (fst kv2) 1) * pw (/ zpk p) (nthZ (fst kv2) 2))
       * (exp (IZR (nthZ (fst kv2) 3) * zpk p * tau) * pw tau (nthZ (fst kv2) 4))) (items sub))).
    2: now apply jumps_ok_upto.
    2: { intros tau _. rewrite sumR_eval. apply sumR_ext. intros [kk w] Hin. cbn [fst snd].
         pose proof (allk_in _ _ _ _ s1 Hin) as (w1 & _). rewrite fmon_split by assumption. ring. }
    rewrite (zs_sum (zpk p) (upto t z) (fun kv2 tau => Q2R (snd kv2) *
       (exp (IZR (nthZ (fst kv2) 0) * (zpk p * t)) * pw t (nthZ (fst kv2) 1) * pw (/ zpk p) (nthZ (fst kv2) 2))
       * (exp (IZR (nthZ (fst kv2) 3) * zpk p * tau) * pw tau (nthZ (fst kv2) 4)))) by now apply jumps_ok_upto.
    rewrite <- sumR_scal. apply sumR_ext. intros [kk w] _. cbn [fst snd]. rewrite zs_scal. ring.
Qed.

Lemma gval_RInt kv p z (t : R) : jok b (fst kv) -> zpk p <> 0 -> jumps_ok z -> 0 <= t ->
  is_RInt (fun s => Q2R c * fac p * exp (IZR m * (zpk p * s)) * wt (zpk p) z s * (Q2R (snd kv) * jmon p z s (fst kv))) 0 t
    (gval kv (p, z, t)).
Proof.
  destruct kv as [[k lopq] v]. intros ((Hl & Hk & Hs) & _) Hp Hz Ht. cbn [fst snd] in *.
  unfold gval. cbn [fst snd]. set (lo := lf lopq). set (N := Z.of_nat (length (fst (fst (fst lo))))).
  assert (H1 : (0 <= nthZ k 1)%Z) by (apply Hk; lia).
  pose proof (int_et_fZ_spec (m + nthZ k 0) (nthZ k 1) N H1) as hsub.
  destruct (int_et_fZ (m + nthZ k 0) (nthZ k 1) N) as [sub|]; [|destruct hsub].
  cbn [returns] in hsub. destruct hsub as (_ & _ & _ & s3).
  pose proof (term_RInt (zpk p) z (m + nthZ k 0) (nthZ k 1) lo (items sub) t Hp Hz Ht H1 (Hsh _ Hs)
    (fun t tau h => s3 (zpk p) t tau Hp h)) as h.
  apply (is_RInt_Rscal _ (Q2R c * Q2R v * fac p * jB p k)) in h.
  revert h. apply is_RInt_ext. intros s _. rewrite jmon_key by assumption. unfold lo. rewrite Hwt by assumption.
  rewrite plus_IZR, Rmult_plus_distr_r, exp_plus.
  match goal with |- ?x = ?y => change (@eq R x y) end. ring.
Qed.

Theorem gint_spec poly : allk (jok b) (items poly) ->
  returns (gint inc lf c m poly) (fun r => keyfor r = keyfor poly /\ uniq (items r) /\ allk (jok b) (items r) /\
    forall p z t, zpk p <> 0 -> jumps_ok z -> 0 <= t ->
      is_RInt (fun s => Q2R c * fac p * exp (IZR m * (zpk p * s)) * wt (zpk p) z s * eval (jmon p z s) (items poly)) 0 t
        (eval (jmon p z t) (items r))).
Proof.
  intro W. unfold gint. eapply returns_weaken.
  - apply (adds_run (jok b) jmonT (foldM (gterm inc lf c m) (items poly)) (fun x => sumR (fun kv => gval kv (proj1_sig x)) (items poly)) (keyfor poly)).
    apply (adds_foldM (wfl (jok b)) (ev jmonT) (gterm inc lf c m) (fun kv x => gval kv (proj1_sig x))).
    intros [k v] Hin. apply gterm_adds. now apply (allk_in _ _ _ _ W Hin).
  - intros r (r1 & r2 & r3 & r4). split; [assumption|]. split; [assumption|]. split; [assumption|].
    intros p z t Hp Hz Ht.
    specialize (r4 (exist _ (p, z, t) Hz)). unfold jmonT in r4. cbn [proj1_sig] in r4. rewrite r4.
    apply (is_RInt_ext (fun s => sumR (fun kv => Q2R c * fac p * exp (IZR m * (zpk p * s)) * wt (zpk p) z s * (Q2R (snd kv) * jmon p z s (fst kv))) (items poly))).
    { intros s _. rewrite sumR_eval, <- sumR_scal. reflexivity. }
    apply is_RInt_sumR. intros [k v] Hin. apply gval_RInt; trivial. now apply (allk_in _ _ _ _ W Hin).
Qed.
End Sp.

(** ** polynomials with zero values only stay so *)
Lemma foldM_keep {S A} (f : S -> A -> res S) (Inv : S -> Prop) (l : list A) :
  (forall x, In x l -> forall s, Inv s -> returns (f s x) Inv) ->
  forall s, Inv s -> returns (foldM f l s) Inv.
Proof.
  induction l as [|x r IH]; intros h s Hs; [exact Hs|]. cbn [foldM].
  pose proof (h x (or_introl eq_refl) s Hs) as h1. destruct (f s x) as [s'|]; [|exact h1].
  apply IH; [intros; apply h; [now right|assumption]|exact h1].
Qed.

Lemma gint_supp inc lf c m poly (Pc : Prop) :
  supp (fun _ => Pc) (items poly) ->
  (forall r, gint inc lf c m poly = Ok r -> supp (fun _ => Pc) (items r)).
Proof.
  intros Hp r. unfold gint.
  assert (h : forall l a, (forall k v, In (k, v) l -> ~ (v == 0)%Q -> Pc) -> supp (fun _ => Pc) a ->
    match foldM (gterm inc lf c m) l a with Ok a' => supp (fun _ => Pc) a' | Err _ => True end).
  { induction l as [|[k v] l IH]; intros a Hl Ha; [exact Ha|]. cbn [foldM].
    destruct (gterm inc lf c m a (k, v)) as [a'|] eqn:E; [|exact Logic.I].
    apply IH; [intros k' v' Hin; apply (Hl k' v'); now right|].
    unfold gterm in E. cbn [fst snd] in E.
    destruct (int_et_fZ _ _ _) as [sub|]; [|discriminate]. cbn [bind] in E.
    assert (g : forall l2 a, supp (fun _ => Pc) a -> forall a', foldM (fun a kv2 =>
        let! key2 := jkey2 (lf (snd k)) (fst kv2) in
        Ok (add_kv (inc [nthZ (fst kv2) 0; nthZ (fst kv2) 1; nthZ (fst kv2) 2 + nthZ (fst k) 2; nthZ (fst k) 3; nthZ (fst k) 4; nthZ (fst k) 5]%Z, key2)
          (qmul (qmul c v) (snd kv2)) a)) l2 a = Ok a' -> supp (fun _ => Pc) a').
    { induction l2 as [|[kk w] l2 IH2]; intros a0 Ha0 a1; cbn [foldM]; [intro E1; injection E1 as <-; exact Ha0|]. cbn [fst snd].
      destruct (jkey2 _ _) as [key2|]; [|discriminate]. cbn [bind]. apply IH2.
      apply supp_add_kv; [assumption|]. intro hz. apply (Hl k v); [now left|].
      apply qmul_nz in hz. destruct hz as [hz _]. now apply qmul_nz in hz. }
    now apply (g (items sub) a Ha). }
  specialize (h (items poly) [] Hp (supp_nil _)).
  destruct (foldM _ _ _) as [a|]; [|discriminate]. cbn [bind]. intro E. injection E as <-. exact h.
Qed.

(** ** int_e_IEZ_poly *)
Definition iez_fixed : Q -> Z -> Poly jkey -> res (Poly jkey) := gint (fun k => k) iez_lopq.

Definition IEZw (k : R) (z : path) (s : R) : R := IEZ_path k z s.
Lemma iez_wt k z s lopq : jshape lopq ->
  zs k (upto s z) (fun _ => 1) (iez_lopq lopq) = IEZ_path k z s * zs k (upto s z) (fun _ => 1) lopq.
Proof. intro h. rewrite zs_times by assumption. unfold IEZ_path. ring. Qed.

(** the body of the outer loop of the code *)
Definition code_term (c : Q) (m : Z) (a : list (jkey * Q)) (kv : jkey * Q) : res (list (jkey * Q)) :=
    let k := fst (fst kv) in
    let '(l, o, p, q) := snd (fst kv) in
    let k6 := l ++ [1%Z] in
    let k7 := o ++ [0%Z] in
    let k8 := if (2 <=? length k6)%nat then p ++ [0%Z] else [] in
    let k9 := if (2 <=? length k6)%nat then q ++ [0%Z] else [] in
    let! sub := int_et_fZ (m + nthZ k 0) (nthZ k 1) (Z.of_nat (length k6)) in
    let! r := foldM (fun (s : list (jkey * Q) * iez_state) kv2 =>
      let kk := fst kv2 in
      let! x := iez_step (snd s) kk in
      Ok (add_kv ([nthZ kk 0; nthZ kk 1; nthZ kk 2 + nthZ k 2; nthZ k 3; nthZ k 4; nthZ k 5]%Z, snd x)
            (qmul (qmul c (snd kv)) (snd kv2)) (fst s), fst x))
      (items sub) (a, (k6, k7, k8, k9)) in
    Ok (fst r).
Lemma code_iez c m poly : int_e_IEZ_poly c m poly
  = let! a := foldM (code_term c m) (items poly) [] in Ok (mkPoly a (keyfor poly)).
Proof. reflexivity. Qed.

Lemma iez_state_eq (l o p q : list Z) : jshape (l, o, p, q) ->
  (l ++ [1%Z], o ++ [0%Z], if (2 <=? length (l ++ [1%Z]))%nat then p ++ [0%Z] else [],
                           if (2 <=? length (l ++ [1%Z]))%nat then q ++ [0%Z] else []) = iez_lopq (l, o, p, q).
Proof.
  intros (Ho & Hp & Hq). unfold iez_lopq. destruct l as [|l1 lr]; [reflexivity|].
  cbn [app length]. rewrite app_length. cbn [length].
  replace (2 <=? S (length lr + 1))%nat with true by (symmetry; apply Nat.leb_le; lia). reflexivity.
Qed.

Lemma iez_step_ok st kk : jshape st -> (1 <= length (fst (fst (fst st))))%nat ->
  exists st', iez_step st kk = Ok (st', st') /\ jshape st' /\ length (fst (fst (fst st'))) = length (fst (fst (fst st))) /\
    jkey2 st kk = Ok st'.
Proof.
  destruct st as [[[l o] p] q]. cbn [fst]. intros (Ho & Hp & Hq) Hl. unfold iez_step, jkey2.
  destruct l as [|l1 [|l2 lr]]; cbn [length] in *; [lia| |].
  - destruct o as [|o1 [|? ?]]; try discriminate. destruct p; [|discriminate]. destruct q; [|discriminate].
    cbn [Nat.eqb addfst bind]. eexists. split; [reflexivity|]. now repeat split.
  - cbn [Nat.eqb]. cbn [pred] in *. rewrite !addl_addlast; [|destruct q; discriminate|destruct p; discriminate].
    cbn [bind]. eexists. split; [reflexivity|]. split; [|split; [reflexivity|reflexivity]].
    unfold jshape. rewrite !addl_length. now repeat split.
Qed.

(** whatever the keys: it returns, with well-formed keys *)
Lemma code_iez_total c m poly (Pc : Prop) : allk jkey_ok (items poly) -> supp (fun _ => Pc) (items poly) ->
  returns (int_e_IEZ_poly c m poly) (fun r => keyfor r = keyfor poly /\ uniq (items r) /\ allk jkey_ok (items r) /\
    supp (fun _ => Pc) (items r)).
Proof.
  intros W Sp. rewrite code_iez.
  set (Inv := fun a : list (jkey * Q) => uniq a /\ allk jkey_ok a /\ supp (fun _ => Pc) a).
  eapply returns_bind.
  { apply (foldM_keep _ Inv); [|split; [apply uniq_nil|split; [apply allk_nil|apply supp_nil]]].
    intros [[k [[[l o] p] q]] v] Hin a Ha. unfold code_term. cbn [fst snd].
    pose proof (allk_in _ _ _ _ W Hin) as (Hl & Hk & Hs). cbn [fst snd] in Hl, Hk, Hs.
    assert (H1 : (0 <= nthZ k 1)%Z) by (apply Hk; lia).
    eapply returns_bind; [apply (int_et_fZ_spec _ _ _ H1)|]. intros sub (_ & s1 & _ & _).
    rewrite (iez_state_eq l o p q Hs).
    eapply returns_bind.
    - apply (foldM_keep _ (fun s : list (jkey * Q) * iez_state => Inv (fst s) /\ jshape (snd s) /\
        (1 <= length (fst (fst (fst (snd s)))))%nat)).
      + intros [kk w] Hin2 [a' st] (h1 & h2 & h3). cbn [fst snd] in *.
        destruct (iez_step_ok st kk h2 h3) as (st' & e1 & e2 & e3 & _). rewrite e1. cbn [bind returns fst snd].
        split; [|split; [assumption|lia]]. destruct h1 as (i1 & i2 & i3).
        pose proof (allk_in _ _ _ _ s1 Hin2) as (w1 & w2 & w3 & w4 & w5).
        split; [now apply uniq_add_kv|]. split.
        * apply allk_add_kv; [assumption|]. split; [reflexivity|]. split; [|exact e2]. cbn [fst].
          intros [|[|[|[|[|[|i]]]]]] Hi; cbn [nth]; try lia; try (apply Hk; lia).
          -- assert (0 <= nthZ k 2)%Z by (apply Hk; lia). lia.
          -- destruct i; lia.
        * apply supp_add_kv; [assumption|]. intro hz. apply (Sp _ _ Hin). apply qmul_nz in hz.
          destruct hz as [hz _]. now apply qmul_nz in hz.
      + cbn [fst snd]. split; [exact Ha|]. split; [now apply iez_shape|]. unfold iez_lopq. cbn [fst].
        rewrite app_length. cbn [length]. lia.
    - intros [a' st] (h1 & _). exact h1. }
  intros a (h1 & h2 & h3). cbn [returns items keyfor]. auto.
Qed.

Lemma addat_0 i : forall l, addat i 0 l = l.
Proof. induction i as [|i IH]; intros [|x r]; cbn [addat]; trivial; [now rewrite Z.add_0_r|now rewrite IH]. Qed.

Lemma jkey2_zero st kk : jshape st -> (1 <= length (fst (fst (fst st))))%nat -> nthZ kk 3 = 0%Z -> nthZ kk 4 = 0%Z ->
  jkey2 st kk = Ok st.
Proof.
  destruct st as [[[l o] p] q]. cbn [fst]. intros (Ho & Hp & Hq) Hl h3 h4. unfold jkey2. rewrite h3, h4.
  destruct l as [|l1 [|l2 lr]]; cbn [length] in *; [lia| |].
  - destruct o as [|o1 [|? ?]]; try discriminate. destruct p; [|discriminate]. destruct q; [|discriminate].
    cbn [Nat.eqb addfst bind]. now rewrite !Z.add_0_r.
  - cbn [Nat.eqb]. cbn [pred] in *. rewrite !addl_addlast; [|destruct q; discriminate|destruct p; discriminate].
    cbn [bind]. unfold addl. now rewrite !addat_0.
Qed.

(** the accumulated increments are harmless if the integral has two terms only *)
Lemma code_term_safe c m a kv : jkey_ok (fst kv) ->
  (nthZ (fst (fst kv)) 1 = 0 \/ m + nthZ (fst (fst kv)) 0 = 0)%Z ->
  code_term c m a kv = gterm (fun k => k) iez_lopq c m a kv.
Proof.
  destruct kv as [[k [[[l o] p] q]] v]. cbn [fst snd]. intros (Hl & Hk & Hs) Hsafe. cbn [fst snd] in *.
  unfold code_term, gterm. cbn [fst snd]. rewrite (iez_state_eq l o p q Hs).
  set (st := iez_lopq (l, o, p, q)). change (length (fst (fst (fst st)))) with (length (l ++ [1%Z])).
  assert (Sst : jshape st) by now apply iez_shape.
  assert (Lst : (1 <= length (fst (fst (fst st))))%nat).
  { unfold st, iez_lopq. cbn [fst]. rewrite app_length. cbn [length]. lia. }
  assert (H1 : (0 <= nthZ k 1)%Z) by (apply Hk; lia).
  set (n := (m + nthZ k 0)%Z) in *.
  assert (Esub : exists k1 v1 k2 v2, int_et_fZ n (nthZ k 1) (Z.of_nat (length (l ++ [1%Z]))) =
     Ok (mkPoly [(k1, v1); (k2, v2)] kf_fZ) /\ nthZ k1 3 = 0%Z /\ nthZ k1 4 = 0%Z).
  { unfold int_et_fZ. destruct (Z.ltb_spec (nthZ k 1) 0); [lia|]. rewrite app_length. cbn [length].
    destruct (Z.eqb_spec (Z.of_nat (length l + 1)) 0); [lia|].
    destruct (Z.eqb_spec n 0) as [En|Hn].
    - cbn [set_kv]. destruct (keqb [0; nthZ k 1 + 1; 0; 0; 0]%Z [0; 0; 0; 0; nthZ k 1 + 1]%Z) eqn:E.
      { apply keqb_spec in E. inversion E. lia. }
      eexists _, _, _, _. split; [reflexivity|]. now split.
    - destruct (Z.eqb_spec (nthZ k 1) 0) as [E1|]; [|lia].
      cbn [set_kv]. destruct (keqb [n; 0; 1; 0; 0]%Z [0; 0; 1; n; 0]%Z) eqn:E.
      { apply keqb_spec in E. inversion E. lia. }
      eexists _, _, _, _. split; [reflexivity|]. now split. }
  destruct Esub as (k1 & v1 & k2 & v2 & E & z3 & z4). rewrite E. cbn [bind items foldM fst snd].
  destruct (iez_step_ok st k1 Sst Lst) as (st1 & a1 & a2 & a3 & a4). rewrite a1, a4. cbn [bind fst snd].
  assert (E1 : st1 = st).
  { rewrite (jkey2_zero st k1 Sst Lst z3 z4) in a4. congruence. }
  rewrite E1. destruct (iez_step_ok st k2 Sst Lst) as (st2 & b1 & b2 & b3 & b4).
  rewrite b1, b4. reflexivity.
Qed.

Lemma code_iez_safe c m poly : allk jkey_ok (items poly) ->
  (forall k, In k (keys (items poly)) -> (nthZ (fst k) 1 = 0 \/ m + nthZ (fst k) 0 = 0)%Z) ->
  int_e_IEZ_poly c m poly = iez_fixed c m poly.
Proof.
  intros W Hs. rewrite code_iez. unfold iez_fixed, gint. f_equal. apply foldM_ext.
  intros [k v] Hin a. apply code_term_safe; [now apply (allk_in _ _ _ _ W Hin)|]. apply Hs. now apply in_keys in Hin.
Qed.
