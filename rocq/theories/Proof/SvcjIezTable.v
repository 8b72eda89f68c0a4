(** Proofs about mdl_svcj/ieziziz_mom.py: the table of moment_ieziziz (C36). *)
From Coq Require Import Reals Lra Ring FunctionalExtensionality.
From Coquelicot Require Import Coquelicot.
From Verif.Proof Require Export SvcjIezProofs SrjdCondProofs.
Import Verif.Model.SvcjIez Verif.Proof.SvcjTree Verif.Proof.Seq3.
Local Open Scope R_scope.

Definition tgood (t : tri) (q : Poly tkey) : Prop :=
  wfT (items q) /\ forall K, evS K (items q) =
    Nall K (Z.to_nat (fst (fst t))) (Z.to_nat (snd (fst t))) (Z.to_nat (snd t)) s3_1.
Definition thas (M : list (tri * Poly tkey)) (t : tri) : Prop := exists q, cget t M = Ok q /\ tgood t q.

Lemma NW1 K f : NW 1 K f = N1 K f. Proof. reflexivity. Qed.
Lemma NW2 K f : NW 2 K f = N2 K f. Proof. reflexivity. Qed.
Lemma NW3 K f : NW 3 K f = N3 K f. Proof. reflexivity. Qed.

Lemma dmgf_good w t q : tgood t q -> nnt t -> (w = 1 /\ snd (fst t) = 0 \/ w = 2 \/ w = 3 /\ fst (fst t) = 0 /\ snd (fst t) = 0)%Z ->
  returns (dmgf_ieziziz q w) (tgood (inc w t)).
Proof.
  intros [Hq Eq] (h1 & h2 & h3) Hw.
  assert (A : returns (dmgf_ieziziz q w) (fun r => forall K, True -> wfT (items r) /\ evS K (items r) = NW w K (evS K (items q)))).
  { apply (returns_forall _ (fun _ : S3 => True) _ s3_0 Logic.I). intros K _. now apply dmgf_spec3. }
  eapply returns_weaken; [exact A|]. intros r Hr. split; [exact (proj1 (Hr s3_0 Logic.I))|].
  intro K. destruct (Hr K Logic.I) as [_ E]. rewrite E, Eq. destruct t as [[a b] c]. cbn [fst snd] in *.
  destruct Hw as [[-> ->]|[->|(-> & -> & ->)]]; unfold inc; cbn [Z.eqb Pos.eqb fst snd].
  - rewrite NW1. replace (Z.to_nat (a + 1)) with (S (Z.to_nat a)) by lia. reflexivity.
  - rewrite NW2. replace (Z.to_nat (b + 1)) with (S (Z.to_nat b)) by lia. reflexivity.
  - rewrite NW3. replace (Z.to_nat (c + 1)) with (S (Z.to_nat c)) by lia. reflexivity.
Qed.

Lemma dstep_good M i j l : (0 <= i)%Z -> (0 <= j)%Z -> (0 <= l)%Z -> (1 <= i + j + l)%Z ->
  (forall t, nnt t -> (fst (fst t) + snd (fst t) + snd t = i + j + l - 1)%Z -> thas M t) ->
  returns (dstep M i j l) (tgood (i, j, l)).
Proof.
  intros Hi Hj Hl Hs HM. unfold dstep.
  assert (G : forall w t, nnt t -> (fst (fst t) + snd (fst t) + snd t = i + j + l - 1)%Z ->
    (w = 1 /\ snd (fst t) = 0 \/ w = 2 \/ w = 3 /\ fst (fst t) = 0 /\ snd (fst t) = 0)%Z -> inc w t = (i, j, l) ->
    returns (let! p := cget t M in dmgf_ieziziz p w) (tgood (i, j, l))).
  { intros w t ht hs hw <-. destruct (HM t ht hs) as (q & e & g). rewrite e. cbn [bind]. now apply dmgf_good. }
  destruct (Z.ltb_spec 0 i) as [I1|I1]; destruct (Z.eqb_spec j 0) as [J1|J1]; cbn [andb].
  - subst j. apply G; unfold nnt, inc; cbn [fst snd Z.eqb Pos.eqb]; [lia|lia|left; lia|]. f_equal; f_equal; lia.
  - destruct (Z.eqb_spec i 0); [lia|]. cbn [andb].
    apply G; unfold nnt, inc; cbn [fst snd Z.eqb Pos.eqb]; [lia|lia|right; left; lia|]. f_equal; f_equal; lia.
  - subst j. replace i with 0%Z in * by lia. cbn [Z.eqb Z.ltb Z.compare andb].
    apply G; unfold nnt, inc; cbn [fst snd Z.eqb Pos.eqb]; [lia|lia|right; right; lia|]. f_equal; lia.
  - replace i with 0%Z in * by lia. destruct (Z.ltb_spec 0 j); [|lia]. cbn [Z.eqb andb].
    apply G; unfold nnt, inc; cbn [fst snd Z.eqb Pos.eqb]; [lia|lia|right; left; lia|]. f_equal; f_equal; lia.
Qed.

Lemma thas_set M t q : tgood t q -> thas (cset t q M) t.
Proof. intro h. exists q. split; [apply cget_cset_same|assumption]. Qed.
Lemma thas_other M t t' q : t <> t' -> thas M t' -> thas (cset t q M) t'.
Proof. intros n (d & e & g). exists d. split; [|assumption]. now rewrite cget_cset_other. Qed.
Lemma thas_keep M t t' q : tgood t q -> thas M t' -> thas (cset t q M) t'.
Proof.
  intros h1 h2. destruct (keqb t t') eqn:E.
  - apply keqb_spec in E. subst t'. now apply thas_set.
  - apply thas_other; [|assumption]. intro Ne. subst t'. rewrite (proj2 (keqb_spec t t) eq_refl) in E. discriminate.
Qed.

Definition M1 : list (tri * Poly tkey) :=
  cset (0, 0, 1)%Z (mkPoly [((1, [((0, 0, 1), 1)])%Z, 1%Q)] kf_tree)
    (cset (0, 1, 0)%Z (mkPoly [((1, [((0, 1, 0), 1)])%Z, 1%Q)] kf_tree)
       (cset (1, 0, 0)%Z (mkPoly [((1, [((1, 0, 0), 1)])%Z, 1%Q)] kf_tree)
          [((0, 0, 0)%Z, mkPoly [((0%Z, []), 1%Q)] kf_tree)])).

Lemma s3mul_1_r f : s3mul f s3_1 = f.
Proof. ring. Qed.
Lemma s3add_0_r f : s3add f s3_0 = f.
Proof. ring. Qed.
Lemma tgood_unit w : (w = 1 \/ w = 2 \/ w = 3)%Z -> tgood (unit_of w) (mkPoly [((1%Z, [(unit_of w, 1%Z)]), 1%Q)] kf_tree).
Proof.
  intro Hw. split.
  - intros k [<-|[]]. split; [|reflexivity]. constructor; [|constructor]. split; [apply wft_unit|cbn [snd]; lia].
  - intro K. cbn [items evS snd prodS]. change (Z.to_nat 1) with 1%nat. cbn [spow].
    rewrite unit_shift, Q2R_1, sc_1, !s3mul_1_r, s3add_0_r.
    destruct Hw as [->|[->| ->]]; unfold unit_of, Nall; cbn [Z.eqb Pos.eqb fst snd]; cbn [itr Z.to_nat]; change (Pos.to_nat 1) with 1%nat; cbn [itr].
    + rewrite N1_one, s3mul_1_r. reflexivity.
    + rewrite N2_one, s3mul_1_r. reflexivity.
    + rewrite N3_one, s3mul_1_r. reflexivity.
Qed.
Lemma M1_has t : nnt t -> (fst (fst t) + snd (fst t) + snd t <= 1)%Z -> thas M1 t.
Proof.
  destruct t as [[a b] c]. unfold nnt; cbn [fst snd]. intros (h1 & h2 & h3) hs. unfold M1.
  assert (C : (a, b, c) = (0, 0, 1)%Z \/ (a, b, c) = (0, 1, 0)%Z \/ (a, b, c) = (1, 0, 0)%Z \/ (a, b, c) = (0, 0, 0)%Z).
  { destruct (Z.eq_dec c 1); [left; f_equal; [f_equal|]; lia|]. right. destruct (Z.eq_dec b 1); [left; f_equal; [f_equal|]; lia|]. right.
    destruct (Z.eq_dec a 1); [left; f_equal; [f_equal|]; lia|]. right. f_equal; [f_equal|]; lia. }
  destruct C as [->|[->|[->| ->]]].
  - apply thas_set, (tgood_unit 3). lia.
  - apply thas_other; [discriminate|]. apply thas_set, (tgood_unit 2). lia.
  - apply thas_other; [discriminate|]. apply thas_other; [discriminate|]. apply thas_set, (tgood_unit 1). lia.
  - do 3 (apply thas_other; [discriminate|]). eexists. split; [reflexivity|]. split.
    + intros k [<-|[]]. split; [constructor|reflexivity].
    + intro K. cbn [items evS snd prodS]. rewrite Q2R_1, sc_1, s3add_0_r. reflexivity.
Qed.

Lemma evS_jmom v t q : tgood t q ->
  evS (jcum v) (items q) 0%nat 0%nat 0%nat = jmom v (Z.to_nat (fst (fst t))) (Z.to_nat (snd (fst t))) (Z.to_nat (snd t)).
Proof. intros [_ E]. rewrite E. reflexivity. Qed.

Lemma table_has n : (2 <= n)%Z ->
  returns (foldM (fun M n => foldM (fun M i => foldM (fun M j =>
              let! q := dstep M i j (n - i - j)%Z in
              Ok (cset (i, j, n - i - j)%Z q M)) (range 0 (n - i + 1)) M) (range 0 (n + 1)) M) (range 2 n) M1)
    (fun M => forall t, nnt t -> (fst (fst t) + snd (fst t) + snd t < n)%Z -> thas M t).
Proof.
  intro Hn.
  apply (foldM_range _ (fun m M => forall t, nnt t -> (fst (fst t) + snd (fst t) + snd t < m)%Z -> thas M t)); [lia| |].
  - intros t ht hs. apply M1_has; [assumption|lia].
  - intros m M Hm HM.
    eapply returns_weaken.
    + apply (foldM_range _ (fun i M => forall t, nnt t ->
        (fst (fst t) + snd (fst t) + snd t < m \/ fst (fst t) + snd (fst t) + snd t = m /\ fst (fst t) < i)%Z -> thas M t)); [lia| |].
      * intros t ht [hs|hs]; [now apply HM|]. unfold nnt in ht. lia.
      * clear M HM. intros i M Hi HM. eapply returns_weaken.
        -- apply (foldM_range _ (fun j M => forall t, nnt t ->
             (fst (fst t) + snd (fst t) + snd t < m \/ fst (fst t) + snd (fst t) + snd t = m /\
               (fst (fst t) < i \/ fst (fst t) = i /\ snd (fst t) < j))%Z -> thas M t)); [lia| |].
           ++ intros t ht hs. apply HM; [assumption|]. unfold nnt in ht. lia.
           ++ clear M HM. intros j M Hj HM.
              eapply returns_bind; [apply (dstep_good M i j (m - i - j)); [lia|lia|lia|lia|]|].
              ** intros t ht hs. apply HM; [assumption|]. lia.
              ** intros q Hq. cbn [returns]. intros t ht hs.
                 destruct (keqb (i, j, (m - i - j)%Z) t) eqn:E.
                 --- apply keqb_spec in E. subst t. now apply thas_set.
                 --- apply thas_other; [intro X; subst t; rewrite (proj2 (keqb_spec _ _) eq_refl) in E; discriminate|].
                     apply HM; [assumption|]. destruct t as [[a b] c]. cbn [fst snd] in *.
                     destruct hs as [hs|[hs [hs'|[hs' hs'']]]]; [lia|lia|].
                     destruct (Z.eq_dec b j) as [->|Nb]; [|lia]. subst a. exfalso.
                     replace c with (m - i - j)%Z in E by lia. rewrite (proj2 (keqb_spec _ _) eq_refl) in E. discriminate.
        -- intros M' HM' t ht hs. apply HM'; [assumption|]. destruct ht as (a1 & a2 & a3). destruct t as [[a b] c]. cbn [fst snd] in *. lia.
    + intros M' HM' t ht hs. apply HM'; [assumption|]. destruct ht as (a1 & a2 & a3). destruct t as [[a b] c]. cbn [fst snd] in *. lia.
Qed.

Lemma moment_ieziziz_spec n1 n2 n3 : (0 <= n1)%Z -> (0 <= n2)%Z -> (0 <= n3)%Z ->
  returns (moment_ieziziz n1 n2 n3) (fun p => wfp P_j kf_ieziziz p /\
    forall v, evp mon_j v p = jmom v (Z.to_nat n1) (Z.to_nat n2) (Z.to_nat n3)).
Proof.
  intros H1 H2 H3. unfold moment_ieziziz.
  destruct (Z.ltb_spec n1 0); [lia|]. destruct (Z.ltb_spec n2 0); [lia|]. destruct (Z.ltb_spec n3 0); [lia|]. cbn [orb].
  destruct ((n1 =? 0)%Z && (n2 =? 0)%Z && (n3 =? 0)%Z) eqn:E0.
  { apply andb_prop in E0. destruct E0 as [E0 e3]. apply andb_prop in E0. destruct E0 as [e1 e2].
    apply Z.eqb_eq in e1, e2, e3. subst. cbn [returns]. split; [apply wfp_single; unfold P_j, s8t; cbn [wfs]; lia|].
    intro v. unfold evp, mon_j, jvl; cbn [items eval monx]. rewrite !pw_0, Q2R_1. unfold jmom. cbn [Z.to_nat]. rewrite sexp_0. ring. }
  destruct ((n1 =? 1)%Z && (n2 =? 0)%Z && (n3 =? 0)%Z) eqn:E1.
  { apply andb_prop in E1. destruct E1 as [E1 e3]. apply andb_prop in E1. destruct E1 as [e1 e2].
    apply Z.eqb_eq in e1, e2, e3. subst. cbn [returns]. split.
    - split; [reflexivity|]. cbn [items]. split.
      + unfold uniq. cbn [map fst]. constructor; [intros [h|[]]; discriminate h|]. constructor; [intros []|constructor].
      + intros k [<-|[<-|[]]]; unfold P_j, s8t; simpl; lia.
    - intro v. change (jmom v (Z.to_nat 1) (Z.to_nat 0) (Z.to_nat 0)) with (D1 (sexp (jcum v)) 0%nat 0%nat 0%nat).
      rewrite sexp_D1, s3mul_0, sexp_0. unfold D1, jcum, ejv, tker. rewrite V_0.
      unfold evp, mon_j, jvl; cbn [items eval monx]. rewrite !pw_0, !pw_1, Q2R_1, Q2R_m1. simpl. field. }
  destruct ((n1 =? 0)%Z && (n2 =? 1)%Z && (n3 =? 0)%Z) eqn:E2.
  { apply andb_prop in E2. destruct E2 as [E2 e3]. apply andb_prop in E2. destruct E2 as [e1 e2].
    apply Z.eqb_eq in e1, e2, e3. subst. cbn [returns]. split.
    - apply wfp_single; unfold P_j, s8t; cbn [wfs]; lia.
    - intro v. change (jmom v (Z.to_nat 0) (Z.to_nat 1) (Z.to_nat 0)) with (D2 (sexp (jcum v)) 0%nat 0%nat 0%nat).
      rewrite sexp_D2, s3mul_0, sexp_0. unfold D2, jcum, ejv, tker. rewrite V_0.
      unfold evp, mon_j, jvl; cbn [items eval monx]. rewrite !pw_0, !pw_1, Q2R_1. simpl. ring. }
  destruct ((n1 =? 0)%Z && (n2 =? 0)%Z && (n3 =? 1)%Z) eqn:E3.
  { apply andb_prop in E3. destruct E3 as [E3 e3]. apply andb_prop in E3. destruct E3 as [e1 e2].
    apply Z.eqb_eq in e1, e2, e3. subst. cbn [returns]. split.
    - apply wfp_single; unfold P_j, s8t; cbn [wfs]; lia.
    - intro v. change (jmom v (Z.to_nat 0) (Z.to_nat 0) (Z.to_nat 1)) with (D3 (sexp (jcum v)) 0%nat 0%nat 0%nat).
      rewrite sexp_D3, s3mul_0, sexp_0. unfold D3, jcum, ejv, tker. rewrite V_1.
      unfold evp, mon_j, jvl; cbn [items eval monx]. rewrite !pw_0, !pw_1, Q2R_1. simpl. ring. }
  assert (N : (2 <= n1 + n2 + n3)%Z).
  { destruct (Z_lt_le_dec (n1 + n2 + n3) 2) as [L|L]; [exfalso|assumption].
    destruct (Z.eqb_spec n1 0), (Z.eqb_spec n2 0), (Z.eqb_spec n3 0), (Z.eqb_spec n1 1), (Z.eqb_spec n2 1), (Z.eqb_spec n3 1);
      cbn [andb] in *; try discriminate; lia. }
  eapply returns_bind; [apply table_has, N|]. intros M HM.
  eapply returns_bind; [apply dstep_good; [assumption|assumption|assumption|lia|]|].
  - intros t ht hs. apply HM; [assumption|lia].
  - intros q Hq. eapply returns_weaken; [apply decode3_spec, Hq|]. intros r [h1 h2]. split; [assumption|].
    intro v. rewrite h2. apply (evS_jmom v (n1, n2, n3) q Hq).
Qed.
