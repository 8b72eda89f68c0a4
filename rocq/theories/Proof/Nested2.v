(** Without jumps the moment systems of the square-root jump diffusion and of the SVCJ model
    reduce to the one of the square-root model. *)
From Coq Require Import Reals Lra.
From Coquelicot Require Import Coquelicot.
From Verif.Proof Require Import ItoProofs SumFacts.
From Verif.Spec Require Import Fsv1 Srjd Svcj.
From Verif.Base Require Import Prelude.
From Verif.Proof Require Import Nested Stationary.
Local Open Scope R_scope.

Definition jd_of (M : ito_idx -> R -> R) (i : jd_idx) (t : R) : R :=
  if (snd i =? 0)%Z then M (fst i, 0%Z, 0%Z) t else 0.
Definition cj_of (M : ito_idx -> R -> R) (i : cj_idx) (t : R) : R :=
  let '(n1, n2, n3, n4, n5, n6) := i in
  if ((n4 =? 0) && (n5 =? 0) && (n6 =? 0))%Z then M (n1, n2, n3) t else 0.

Lemma vsol_zero {I} (sys : I -> list ((R -> R) * I)) M i t : (forall s, lin_rhs sys M i s = 0) -> is_RInt (lin_rhs sys M i) 0 t 0.
Proof.
  intro H. apply (is_RInt_ext (fun _ => 0)); [intros s _; now rewrite H|].
  pose proof (@is_RInt_const R_NormedModule 0 t 0) as h. rewrite (scal_zero_r (V := R_NormedModule)) in h. exact h.
Qed.

Lemma jd_moments_0 p M : slam p = 0 \/ smu p = 0 -> ito_moments (mkPar (sk p) 0 (sv0 p) (sth p) (ssg p)) M -> srjd_moments p (jd_of M).
Proof.
  intros H0 HM [n1 n2] [h1 h2] t Ht. cbn [fst snd] in *.
  assert (J0 : forall s, sumR (fun cj => fst cj s * jd_of M (snd cj) s)
    (map (fun j => (fun s => IZR (mcomb n2 j) * (slam p * IZR (fact j) * smu p ^ Z.to_nat j * exp (IZR j * (sk p * s))), (n1, n2 - j)%Z)) (range 1 (n2 + 1))) = 0).
  { intro s. rewrite sumR_map. apply sumR_0. intros j Hj. apply in_range in Hj. cbn [fst snd].
    destruct H0 as [->| ->]; [ring|]. rewrite (pow_i (Z.to_nat j)) by lia. ring. }
  destruct (Z.eqb_spec n2 0) as [->|Hn2].
  - pose proof (HM (n1, 0, 0)%Z ltac:(cbn; lia) t Ht) as h.
    replace (jd_of M (n1, 0%Z) t - jd_init (n1, 0%Z)) with (M (n1, 0, 0)%Z t - ito_init (n1, 0, 0)%Z) by (unfold jd_of, jd_init, ito_init; cbn [fst snd Z.eqb]; destruct n1; reflexivity).
    revert h. apply is_RInt_ext. intros s _. match goal with |- ?a = ?b => change (@eq R a b) end. unfold lin_rhs, jd_sys. rewrite sumR_app, J0, Rplus_0_r.
    unfold ito_sys. change (2 <=? 0)%Z with false. change (1 <=? 0)%Z with false. rewrite andb_false_r. cbv zeta. cbn [app].
    destruct (2 <=? n1)%Z; [|reflexivity]. cbn [app v_terms sumR fst snd pk ps0 pv pth psg]. unfold jd_of, v_mean. cbn [fst snd Z.eqb Z.add pk ps0 pv pth psg].
    replace (n1 - 2 + 1)%Z with (n1 - 1)%Z by ring. rewrite Rplus_0_l. ring.
  - replace (jd_of M (n1, n2) t - jd_init (n1, n2)) with 0.
    + apply vsol_zero. intro s. unfold lin_rhs, jd_sys. rewrite sumR_app, J0, Rplus_0_r. destruct (2 <=? n1)%Z; [|reflexivity].
      cbv zeta. cbn [sumR fst snd]. unfold jd_of. cbn [fst snd]. rewrite (proj2 (Z.eqb_neq n2 0) Hn2), (proj2 (Z.eqb_neq (n2 + 1) 0)) by lia. ring.
    + unfold jd_of, jd_init. cbn [fst snd]. rewrite (proj2 (Z.eqb_neq n2 0) Hn2). destruct n1, n2; try lia; ring.
Qed.

Lemma cj_moments_0 p M : jlam p = 0 -> ito_moments (mkPar (jk p) 0 (jv0 p) (jth p) (jsg p)) M -> svcj_moments p (cj_of M).
Proof.
  intros H0 HM [[[[[n1 n2] n3] n4] n5] n6] (h1 & h2 & h3 & h4 & h5 & h6) t Ht.
  assert (J0 : forall s, sumR (fun cj => fst cj s * cj_of M (snd cj) s)
    (flat_map (fun i4 => flat_map (fun i5 => flat_map (fun i6 =>
       if (i4 + i5 + i6 =? 0)%Z then []
       else [ (fun s => IZR (mcomb n4 i4 * mcomb n5 i5 * mcomb n6 i6) *
                 (jlam p * (IZR (fact (i4 + i5)) * jmv p ^ Z.to_nat (i4 + i5) * exp (jk p * s) ^ Z.to_nat i4
                         * Derive_n (mgf_normal (jms p) (jss p ^ 2)) (Z.to_nat i6) 0)),
               (n1, n2, n3, n4 - i4, n5 - i5, n6 - i6)%Z) ])
       (range 0 (n6 + 1))) (range 0 (n5 + 1))) (range 0 (n4 + 1))) = 0).
  { intro s. rewrite !sumR_flat_map. apply sumR_0. intros i4 _. rewrite sumR_flat_map. apply sumR_0. intros i5 _. rewrite sumR_flat_map. apply sumR_0. intros i6 _.
    destruct (i4 + i5 + i6 =? 0)%Z; [reflexivity|]. cbn [sumR fst snd]. rewrite H0. ring. }
  destruct ((n4 =? 0) && (n5 =? 0) && (n6 =? 0))%Z eqn:Hz.
  - apply andb_prop in Hz. destruct Hz as [Hz e6]. apply andb_prop in Hz. destruct Hz as [e4 e5].
    apply Z.eqb_eq in e4, e5, e6. subst n4 n5 n6.
    pose proof (HM (n1, n2, n3)%Z ltac:(cbn; lia) t Ht) as h.
    replace (cj_of M (n1, n2, n3, 0, 0, 0)%Z t - cj_init (n1, n2, n3, 0, 0, 0)%Z) with (M (n1, n2, n3) t - ito_init (n1, n2, n3))
      by (unfold cj_of, cj_init, ito_init; cbn [Z.eqb andb]; destruct n1, n2, n3; reflexivity).
    revert h. apply is_RInt_ext. intros s _. match goal with |- ?a = ?b => change (@eq R a b) end. unfold lin_rhs, cj_sys. rewrite sumR_app, J0, Rplus_0_r.
    unfold cj_brackets, ito_sys. cbv zeta. rewrite !flat_map_app, !sumR_app.
    assert (B : forall (b : bool) c w a1 a2 a3 (c' : R -> R), c' s = c * exp (jk p * s) ^ w ->
      sumR (fun cj => fst cj s * M (snd cj) s) (if b then v_terms (mkPar (jk p) 0 (jv0 p) (jth p) (jsg p)) c' (a1, a2, a3) else [])
      = sumR (fun cj => fst cj s * cj_of M (snd cj) s) (flat_map (fun '(c, w, (a1, a2, a3)) =>
          [ (fun s => c * exp (jk p * s) ^ w * (exp (- (jk p * s)) * (jv0 p - jth p) + jth p), (a1, a2, a3, 0, 0, 0)%Z);
            (fun s => c * exp (jk p * s) ^ w * (jsg p * exp (- (jk p * s))), (a1 + 1, a2, a3, 0, 0, 0)%Z);
            (fun s => c * exp (jk p * s) ^ w * exp (- (jk p * s)), (a1, a2, a3, 0 + 1, 0, 0)%Z) ]) (if b then [(c, w, (a1, a2, a3))] else []))).
    { intros b c w a1 a2 a3 c' Hc. destruct b; [|reflexivity]. cbn [flat_map app sumR fst snd v_terms pk ps0 pv pth psg]. rewrite Hc. unfold cj_of, v_mean. cbn [Z.eqb Z.add andb pk ps0 pv pth psg]. rewrite Rplus_0_l. ring. }
    f_equal; [|f_equal; [|f_equal]]; apply B; cbn [pk ps0]; rewrite ?Rplus_0_l; simpl; ring.
  - replace (cj_of M (n1, n2, n3, n4, n5, n6) t - cj_init (n1, n2, n3, n4, n5, n6)) with 0.
    + apply vsol_zero. intro s. unfold lin_rhs, cj_sys. rewrite sumR_app, J0, Rplus_0_r. rewrite sumR_flat_map. apply sumR_0.
      intros [[c w] [[a1 a2] a3]] _. cbn [sumR fst snd]. unfold cj_of. rewrite Hz, (proj2 (Z.eqb_neq (n4 + 1) 0)) by lia. cbn [andb]. ring.
    + unfold cj_of, cj_init. rewrite Hz. destruct n1, n2, n3, n4, n5, n6; try discriminate; ring.
Qed.
