(** Property C67, with jumps: for sigma_v = 0 the one-factor model with jumps is the jump diffusion with
    normal jumps (Merton), whose return has the moment generating function of N((mu - theta/2) h, theta h)
    times that of the compound Poisson sum. *)
From Coq Require Import Reals Lra Lia.
From Coquelicot Require Import Coquelicot.
From Verif.Spec Require Import Params Returns1 Cpp.
From Verif.Model Require Import Scalar.
From Verif.Proof Require Import ItoProofs Realise CppProofs BinConv.
From Verif.Props Require Import PropsIto Props1fsv Props1fsvj PropsScalar PropsCpp PropsCentral PropsLimits.
Import Verif.Model.Scalar.
Local Open Scope R_scope.

(** ** products of smooth functions *)
Definition smooth (f : R -> R) : Prop := forall n s, ex_derive (Derive_n f n) s.
Lemma leibniz f g n : smooth f -> smooth g -> forall s, Derive_n (fun u => f u * g u) n s = bc (fun k => Derive_n f k s) (fun k => Derive_n g k s) n.
Proof.
  intros Hf Hg. induction n as [|n IH]; intro s; [rewrite bc_0; reflexivity|].
  cbn [Derive_n]. rewrite (Derive_ext _ _ s IH). apply is_derive_unique.
  eapply is_derive_val.
  - apply (bc_derive (fun t k => Derive_n f k t) (fun t k => Derive_n g k t) (fun k => Derive_n f (S k) s) (fun k => Derive_n g (S k) s));
      intros k _; apply Derive_correct; [apply Hf|apply Hg].
  - rewrite bc_S. reflexivity.
Qed.
Lemma smooth_normal mu s2 : smooth (mgf_normal mu s2).
Proof.
  intros n s. apply (ex_derive_ext (G mu s2 n)); [intro; symmetry; apply normal_derive_n|]. eexists. apply G_derive.
Qed.
Lemma smooth_cpp L mu s2 : smooth (mgf_cpp L mu s2).
Proof.
  intros n s. change (mgf_cpp L mu s2) with (Fm L mu s2).
  apply (ex_derive_ext (fun u => Fm L mu s2 u * mm L mu s2 n u)); [intro; symmetry; apply mgf_derivative|].
  eexists. apply is_derive_Rmult; [apply Fm_derive|apply mm_derive].
Qed.
Lemma E_binom {Om} (E : (Om -> R) -> R) (Y J : Om -> R) N n : expectation E -> indep E N Y J -> (n <= N)%nat ->
  E (fun w => (Y w + J w) ^ n) = bc (fun k => E (fun w => Y w ^ k)) (fun k => E (fun w => J w ^ k)) n.
Proof.
  intros HE HI Hn. rewrite (E_ext E HE _ (fun w => bc (epow (Y w)) (epow (J w)) n)) by (intro; now rewrite bc_epow).
  unfold bc. rewrite (E_sumR E HE). apply sumR_ext. intros k Hk. apply in_seq in Hk. unfold epow.
  rewrite (E_scal E HE), HI by lia. reflexivity.
Qed.

Section Merton.
Variable par : string -> R.
Hypothesis (Hk : par "k"%string <> 0) (Hh : 0 <= par "h"%string) (Hs : par "sigma_v"%string = 0) (Hr : par "rho"%string ^ 2 <= 1).
Notation p := (fpar_of par).
Notation lam := (par "lambda"%string * fh p).
Notation muj := (par "mu_j"%string).
Notation sj := (par "sigma_j"%string).
Definition mgf_merton (c0 s : R) : R := mgf_normal c0 (fth p * fh p) s * mgf_cpp lam muj (sj ^ 2) s.
Notation ya c0 u := (c0 + frho p * nthR (fst u) 1 + sqrt (1 - frho p ^ 2) * nthR (fst u) 2).

Lemma merton_bc c0 n : Derive_n (mgf_merton c0) n 0 = bc (fun k => Derive_n (mgf_normal c0 (fth p * fh p)) k 0) (fun k => Derive_n (mgf_cpp lam muj (sj ^ 2)) k 0) n.
Proof. exact (leibniz (mgf_normal c0 (fth p * fh p)) (mgf_cpp lam muj (sj ^ 2)) n (smooth_normal _ _) (smooth_cpp _ _ _) 0). Qed.
Lemma merton_1 c0 : Derive_n (mgf_merton c0) 1 0 = c0 + lam * muj.
Proof.
  rewrite merton_bc, bc_S, !bc_0. unfold sh. change (mgf_cpp lam muj (sj ^ 2)) with (Fm lam muj (sj ^ 2)).
  rewrite !normal_derive_n, !mgf_derivative, !G_at0, Fm_0, mm_1, G_at0, !V_1, V_0. cbn [mm]. ring.
Qed.
(** one interval *)
Lemma merton_space s L : (0 <= L)%Z -> exists E : (list R * R -> R) -> R, expectation E /\
  (forall a b d, (0 <= a)%Z -> (0 <= b)%Z -> (0 <= d)%Z -> (a + b + d <= L)%Z ->
    E (fun w => nthR (fst w) 0 ^ Z.to_nat a * nthR (fst w) 1 ^ Z.to_nat b * nthR (fst w) 2 ^ Z.to_nat d) = ito_val (mkPar (fk p) s (fth p) (fth p) (fsg p)) (a, b, d) (fh p)) /\
  E (fun _ => 1) = 1 /\ cpp_moments E (Z.to_nat L) lam muj sj snd /\
  (forall Y : list R -> R, indep E (Z.to_nat L) (fun w => Y (fst w)) snd) /\
  (forall c0 n, (n <= Z.to_nat L)%nat -> E (fun w => (ya c0 w + snd w) ^ n) = Derive_n (mgf_merton c0) n 0).
Proof.
  intro HL. destruct (bs_space par Hk Hh Hs Hr s L HL) as (E0 & HE0 & M0 & O0 & D0).
  destruct (add_cpp (list R) E0 (Z.to_nat L) lam muj sj HE0 O0) as (E & HE & O & C & HI).
  exists E. split; [exact HE|]. split; [|split; [|split; [exact C|split; [exact HI|]]]].
  - intros a b d h1 h2 h3 h4. rewrite <- M0 by assumption. exact (O (fun w => nthR w 0 ^ Z.to_nat a * nthR w 1 ^ Z.to_nat b * nthR w 2 ^ Z.to_nat d)).
  - transitivity (E0 (fun _ => 1)); [exact (O (fun _ => 1))|exact O0].
  - intros c0 n Hn. rewrite (E_binom E (fun w => ya c0 w) snd (Z.to_nat L) n HE (HI (fun u => c0 + frho p * nthR u 1 + sqrt (1 - frho p ^ 2) * nthR u 2)) Hn).
    rewrite merton_bc. apply bc_ext.
    + intros k Hk'. rewrite <- D0 by lia. exact (O (fun u => (c0 + frho p * nthR u 1 + sqrt (1 - frho p ^ 2) * nthR u 2) ^ k)).
    + intros k Hk'. apply C. lia.
Qed.

Lemma merton_hyps L : (0 <= L)%Z -> exists (E : ((list R * R) * (list R * R) -> R) -> R) (Ea Eb : (list R * R -> R) -> R),
  cov_hyps E p L 0 (fun _ => fth p) (fun w => nthR (fst (fst w)) 0) (fun w => nthR (fst (fst w)) 1) (fun w => nthR (fst (fst w)) 2)
    (fun w => nthR (fst (snd w)) 0) (fun w => nthR (fst (snd w)) 1) (fun w => nthR (fst (snd w)) 2) /\
  (forall X f g, (forall w, X w = f (fst w) * g (snd w)) -> E X = Ea f * Eb g) /\ Ea (fun _ => 1) = 1 /\ Eb (fun _ => 1) = 1 /\
  cpp_moments Ea (Z.to_nat L) lam muj sj snd /\ cpp_moments Eb (Z.to_nat L) lam muj sj snd /\
  (forall Y : list R -> R, indep Ea (Z.to_nat L) (fun w => Y (fst w)) snd) /\ (forall Y : list R -> R, indep Eb (Z.to_nat L) (fun w => Y (fst w)) snd) /\
  (forall c0 n, (n <= Z.to_nat L)%nat -> Ea (fun w => (ya c0 w + snd w) ^ n) = Derive_n (mgf_merton c0) n 0).
Proof.
  intro HL. destruct (merton_space 0 L HL) as (Ea & HEa & Ma & Oa & Ca & Ia & Da). destruct (merton_space (0 + fh p) L HL) as (Eb & HEb & Mb & Ob & Cb & Ib & Db).
  set (E := fun X : (list R * R) * (list R * R) -> R => Ea (fun w => Eb (fun w' => X (w, w')))).
  assert (HE : expectation E).
  { unfold E. split.
    - intros X Y H. apply (E_ext Ea HEa). intro w. apply (E_ext Eb HEb). intro w'. apply H.
    - intros X Y. rewrite <- (E_plus Ea HEa). apply (E_ext Ea HEa). intro w. apply (E_plus Eb HEb).
    - intros e X. rewrite <- (E_scal Ea HEa). apply (E_ext Ea HEa). intro w. apply (E_scal Eb HEb). }
  assert (F : forall X f g, (forall w, X w = f (fst w) * g (snd w)) -> E X = Ea f * Eb g).
  { intros X f g H. rewrite (E_ext E HE _ _ H). unfold E. cbn [fst snd]. rewrite (E_ext Ea HEa _ (fun w => Eb g * f w)) by (intro w; rewrite (E_scal Eb HEb); ring).
    rewrite (E_scal Ea HEa). ring. }
  exists E, Ea, Eb. split; [|repeat (split; [assumption|]); assumption]. split; [exact HE|]. split; [|split].
  - intros n Hn. rewrite (bs_gmom par Hk Hs). rewrite (F _ (fun _ => fth p ^ Z.to_nat n * 1) (fun _ => 1)) by (intro; cbv beta; cbn; ring).
    rewrite (E_scal Ea HEa), Oa, Ob. ring.
  - exists (fun v => ito_val (mkPar (fk p) 0 v (fth p) (fsg p))). split; [intro v; now apply ito_solution|].
    intros hs n a b d hl _ h1 h2 h3 h4 h5. destruct hs as [|? ?]; [|discriminate]. cbn [fold_right] in h5. cbn [map powprod].
    rewrite (F _ (fun u => fth p ^ Z.to_nat n * (nthR (fst u) 0 ^ Z.to_nat a * nthR (fst u) 1 ^ Z.to_nat b * nthR (fst u) 2 ^ Z.to_nat d)) (fun _ => 1)) by (intro; cbv beta; cbn; ring).
    rewrite (E_scal Ea HEa), Ma, Ob by lia.
    rewrite (F _ (fun _ => (fth p ^ Z.to_nat n * ito_val (mkPar (fk p) 0 (fth p) (fth p) (fsg p)) (a, b, d) (fh p)) * 1) (fun _ => 1)) by (intro; cbv beta; ring).
    rewrite (E_scal Ea HEa), Oa, Ob. ring.
  - exists (fun v => ito_val (mkPar (fk p) (0 + fh p) v (fth p) (fsg p))). split; [intro v; now apply ito_solution|].
    intros hs n a b d hl hp h1 h2 h3 h4 h5.
    assert (h6 : (0 <= fold_right Z.add 0 hs)%Z) by (clear - hp; induction hp; cbn; lia).
    set (P := fun u : list R * R => powprod [fth p; nthR (fst u) 0; nthR (fst u) 1; nthR (fst u) 2] hs).
    rewrite (F _ (fun u => fth p ^ Z.to_nat n * P u) (fun u => nthR (fst u) 0 ^ Z.to_nat a * nthR (fst u) 1 ^ Z.to_nat b * nthR (fst u) 2 ^ Z.to_nat d))
      by (intro w; cbv beta; rewrite (bs_vend par Hs); unfold P; cbn [map]; ring).
    rewrite Mb by lia.
    rewrite (F (fun w => powprod _ hs * (_ * _)) (fun u => fth p ^ Z.to_nat n * P u) (fun _ => ito_val (mkPar (fk p) (0 + fh p) (fth p) (fth p) (fsg p)) (a, b, d) (fh p) * 1))
      by (intro w; cbv beta; rewrite (bs_vend par Hs); unfold P; cbn [map]; ring).
    rewrite (E_scal Eb HEb), Ob. ring.
Qed.

Notation c := ((fmu p - fth p / 2) * fh p).
Lemma m_ret s (u : list R * R) : ret p s (fth p) (nthR (fst u) 0) (nthR (fst u) 1) (nthR (fst u) 2) = ya c u.
Proof. exact (bs_ret par Hk Hs s _ _ _). Qed.
Lemma merton_1fsvj :
  (forall l, (0 <= l)%Z -> m_1fsvj l par = Ok (Derive_n (mgf_merton c) (Z.to_nat l) 0)) /\
  (forall l, (0 <= l)%Z -> cm_1fsvj l par = Ok (Derive_n (mgf_merton (- (lam * muj))) (Z.to_nat l) 0)) /\
  (forall l1 l2, (0 <= l1)%Z -> (0 <= l2)%Z -> cov_1fsvj l1 l2 par = Ok 0).
Proof.
  destruct (C46_value_1fsvj par Hk Hh) as (V1 & V2 & V3).
  assert (one : forall (E : ((list R * R) * (list R * R) -> R) -> R) (Ea Eb : (list R * R -> R) -> R), (forall X f g, (forall w, X w = f (fst w) * g (snd w)) -> E X = Ea f * Eb g) ->
     Eb (fun _ => 1) = 1 -> forall X f, (forall w, X w = f (fst w)) -> E X = Ea f).
  { intros E Ea Eb F Ob X f H. rewrite (F X f (fun _ => 1)) by (intro w; rewrite H; ring). rewrite Ob. ring. }
  assert (two : forall (E : ((list R * R) * (list R * R) -> R) -> R) (Ea Eb : (list R * R -> R) -> R), (forall X f g, (forall w, X w = f (fst w) * g (snd w)) -> E X = Ea f * Eb g) ->
     Ea (fun _ => 1) = 1 -> forall X g, (forall w, X w = g (snd w)) -> E X = Eb g).
  { intros E Ea Eb F Ob X f H. rewrite (F X (fun _ => 1) f) by (intro w; rewrite H; ring). rewrite Ob. ring. }
  split; [|split].
  - intros l Hl. destruct (merton_hyps l Hl) as (E & Ea & Eb & (HE & HV & HT & _) & F & Oa & Ob & Ca & Cb & Ia & Ib & Da). specialize (one E Ea Eb F Ob).
    apply V1; [exact Hl|].
    exists _, E, l, 0, (fun _ => fth p), (fun w => nthR (fst (fst w)) 0), (fun w => nthR (fst (fst w)) 1), (fun w => nthR (fst (fst w)) 2), (fun w => snd (fst w)).
    split; [exact HE|]. split; [exact HV|]. split; [exact HT|]. split; [|split; [|split; [lia|]]].
    + intros i Hi. rewrite (one _ (fun u => snd u ^ i)) by reflexivity. now apply Ca.
    + intros i j Hij. rewrite (one _ (fun u => ya c u ^ i * snd u ^ j)) by (intro w; cbv beta; now rewrite m_ret).
      rewrite (one _ (fun u => ya c u ^ i)) by (intro w; cbv beta; now rewrite m_ret). rewrite (one _ (fun u => snd u ^ j)) by reflexivity.
      apply (Ia (fun u => c + frho p * nthR u 1 + sqrt (1 - frho p ^ 2) * nthR u 2)). exact Hij.
    + rewrite (one _ (fun u => (ya c u + snd u) ^ Z.to_nat l)) by (intro w; cbv beta; now rewrite m_ret). symmetry. apply Da. lia.
  - intros l Hl. destruct (merton_hyps (Z.max 1 l) ltac:(lia)) as (E & Ea & Eb & (HE & HV & HT & _) & F & Oa & Ob & Ca & Cb & Ia & Ib & Da). specialize (one E Ea Eb F Ob).
    apply V2; [exact Hl|].
    exists _, E, (Z.max 1 l), 0, (fun _ => fth p), (fun w => nthR (fst (fst w)) 0), (fun w => nthR (fst (fst w)) 1), (fun w => nthR (fst (fst w)) 2), (fun w => snd (fst w)).
    split; [exact HE|]. split; [exact HV|]. split; [exact HT|]. split; [|split; [|split; [lia|split; [lia|]]]].
    + intros i Hi. rewrite (one _ (fun u => snd u ^ i)) by reflexivity. now apply Ca.
    + intros i j Hij. rewrite (one _ (fun u => ya c u ^ i * snd u ^ j)) by (intro w; cbv beta; now rewrite m_ret).
      rewrite (one _ (fun u => ya c u ^ i)) by (intro w; cbv beta; now rewrite m_ret). rewrite (one _ (fun u => snd u ^ j)) by reflexivity.
      apply (Ia (fun u => c + frho p * nthR u 1 + sqrt (1 - frho p ^ 2) * nthR u 2)). exact Hij.
    + assert (m1 : E (fun w => ret p 0 (fth p) (nthR (fst (fst w)) 0) (nthR (fst (fst w)) 1) (nthR (fst (fst w)) 2) + snd (fst w)) = c + lam * muj).
      { rewrite (one _ (fun u => (ya c u + snd u) ^ 1)) by (intro w; cbv beta; rewrite m_ret; ring). rewrite Da by lia.
        apply merton_1. }
      rewrite m1. rewrite (one _ (fun u => (ya (- (lam * muj)) u + snd u) ^ Z.to_nat l)) by (intro w; cbv beta; rewrite m_ret; f_equal; ring).
      symmetry. apply Da. lia.
  - intros l1 l2 h1 h2. destruct (merton_hyps (l1 + l2)%Z ltac:(lia)) as (E & Ea & Eb & (HE & HV & HT & HT2) & F & Oa & Ob & Ca & Cb & Ia & Ib & Da).
    specialize (one E Ea Eb F Ob). specialize (two E Ea Eb F Oa).
    apply V3; [exact h1|exact h2|].
    exists _, E, (l1 + l2)%Z, 0, (fun _ => fth p), (fun w => nthR (fst (fst w)) 0), (fun w => nthR (fst (fst w)) 1), (fun w => nthR (fst (fst w)) 2),
      (fun w => nthR (fst (snd w)) 0), (fun w => nthR (fst (snd w)) 1), (fun w => nthR (fst (snd w)) 2), (fun w => snd (fst w)), (fun w => snd (snd w)).
    split; [exact HE|]. split; [exact HV|]. split; [exact HT|]. split; [exact HT2|]. split; [|split; [|split; [|split; [lia|]]]].
    + intros i Hi. rewrite (one _ (fun u => snd u ^ i)) by reflexivity. now apply Ca.
    + intros i Hi. rewrite (two _ (fun u => snd u ^ i)) by reflexivity. now apply Cb.
    + intros i0 i1 j0 j1 Hij.
      rewrite (F _ (fun u => ya c u ^ i0 * snd u ^ j0) (fun u => ya c u ^ i1 * snd u ^ j1)) by (intro w; cbv beta; rewrite (bs_vend par Hs), !m_ret; ring).
      rewrite (F _ (fun u => ya c u ^ i0) (fun u => ya c u ^ i1)) by (intro w; cbv beta; rewrite (bs_vend par Hs), !m_ret; ring).
      rewrite (one _ (fun u => snd u ^ j0)) by reflexivity. rewrite (two _ (fun u => snd u ^ j1)) by reflexivity.
      rewrite (Ia (fun u => c + frho p * nthR u 1 + sqrt (1 - frho p ^ 2) * nthR u 2) i0 j0) by lia.
      rewrite (Ib (fun u => c + frho p * nthR u 1 + sqrt (1 - frho p ^ 2) * nthR u 2) i1 j1) by lia. ring.
    + rewrite (F _ (fun u => (ya c u + snd u) ^ Z.to_nat l1) (fun u => (ya c u + snd u) ^ Z.to_nat l2)) by (intro w; cbv beta; rewrite (bs_vend par Hs), !m_ret; ring).
      rewrite (one (fun w => (ret p 0 _ _ _ _ + _) ^ _) (fun u => (ya c u + snd u) ^ Z.to_nat l1)) by (intro w; cbv beta; now rewrite m_ret).
      rewrite (two _ (fun u => (ya c u + snd u) ^ Z.to_nat l2)) by (intro w; cbv beta; rewrite (bs_vend par Hs), m_ret; reflexivity). ring.
Qed.
End Merton.

(** constant variance: the moments of the return are those of N((mu - theta/2) h, theta h) plus the
    compound Poisson sum; centred, the mean of the normal part is - lambda h mu_j *)
Theorem C67_sigma0_1fsvj : forall par : string -> R, par "k"%string <> 0 -> 0 <= par "h"%string -> par "sigma_v"%string = 0 -> par "rho"%string ^ 2 <= 1 ->
  let mean := (par "mu"%string - par "theta"%string / 2) * par "h"%string in let var := par "theta"%string * par "h"%string in
  let L := par "lambda"%string * par "h"%string in
  let mgf m s := mgf_normal m var s * mgf_cpp L (par "mu_j"%string) (par "sigma_j"%string ^ 2) s in
  (forall l, (0 <= l)%Z -> m_1fsvj l par = Ok (Derive_n (mgf mean) (Z.to_nat l) 0)) /\
  (forall l, (0 <= l)%Z -> cm_1fsvj l par = Ok (Derive_n (mgf (- (L * par "mu_j"%string))) (Z.to_nat l) 0)) /\
  (forall l1 l2, (0 <= l1)%Z -> (0 <= l2)%Z -> cov_1fsvj l1 l2 par = Ok 0).
Proof. intros par Hk Hh Hs Hr. exact (merton_1fsvj par Hk Hh Hs Hr). Qed.
Definition merton_par (n : string) : R :=
  if String.eqb n "k" then 2 else if String.eqb n "h" then 7 else if String.eqb n "theta" then 5 else if String.eqb n "sigma_v" then 0 else
  if String.eqb n "mu" then 3 else if String.eqb n "rho" then -1 / 2 else if String.eqb n "lambda" then 2 else if String.eqb n "mu_j" then 1 else 3.
(** the mean mu h - theta h / 2 + lambda h mu_j *)
Example C67_ex_merton : m_1fsvj 1 merton_par = Ok (3 * 7 - 5 * 7 / 2 + 2 * 7 * 1).
Proof.
  destruct (C67_sigma0_1fsvj merton_par) as (H & _); [cbn; lra|cbn; lra|reflexivity|cbn; lra|].
  rewrite (H 1%Z ltac:(lia)). apply (f_equal Ok). change (Z.to_nat 1) with 1%nat.
  etransitivity; [apply (merton_1 merton_par)|]. cbn. field.
Qed.

(** an interval of length zero: no jump happens either *)
Theorem C67_h0_1fsvj : forall par : string -> R, par "k"%string <> 0 -> par "h"%string = 0 ->
  (forall l, (0 <= l)%Z -> m_1fsvj l par = Ok (0 ^ Z.to_nat l)) /\
  (forall l, (0 <= l)%Z -> cm_1fsvj l par = Ok (0 ^ Z.to_nat l)) /\
  (forall l1 l2, (0 <= l1)%Z -> (0 <= l2)%Z -> cov_1fsvj l1 l2 par = Ok 0).
Proof.
  intros par Hk Hh. destruct (C46_value_1fsvj par Hk ltac:(rewrite Hh; lra)) as (V1 & V2 & V3).
  set (p := fpar_of par). assert (e : fh p = 0) by exact Hh.
  assert (S : forall L, (0 <= L)%Z -> exists E : (R -> R) -> R, expectation E /\ E (fun _ => 1) = 1 /\ stationary E p L (fun v => v) /\
    cpp_moments E (Z.to_nat L) (par "lambda"%string * fh p) (par "mu_j"%string) (par "sigma_j"%string) (fun _ => 0)).
  { intros L HL. set (E := Efin (realise1 (Z.to_nat L) (gmom (fth p) (fsg p ^ 2 / fk p)))).
    assert (HE : expectation E) by apply Efin_expectation.
    assert (HV : stationary E p L (fun v => v)).
    { intros n Hn. unfold E. rewrite (realise1_spec (Z.to_nat L) _ (Z.to_nat n)) by lia. reflexivity. }
    assert (one : E (fun _ => 1) = 1) by exact (HV 0%Z ltac:(lia)).
    exists E. split; [exact HE|]. split; [exact one|]. split; [exact HV|]. intros i _. rewrite e, Rmult_0_r.
    rewrite (E_pow0 E (fun _ => 0) 0 i HE one) by reflexivity.
    change (mgf_cpp 0 (par "mu_j"%string) (par "sigma_j"%string ^ 2)) with (Fm 0 (par "mu_j"%string) (par "sigma_j"%string ^ 2)).
    rewrite mgf_derivative, Fm_0. destruct i as [|i]; [cbn; ring|]. rewrite mm_rec, pow_i by lia. ring. }
  assert (Hr : forall s v, ret p s v 0 0 0 = 0) by (intros; now apply (ret_h0 par Hk)).
  assert (Hv : forall s v, v_end p s v 0 = v) by (intros; now apply (vend_h0 par)).
  split; [|split].
  - intros l Hl. destruct (S l Hl) as (E & HE & one & HV & HJ). apply V1; [exact Hl|].
    exists R, E, l, 0, (fun v => v), (fun _ => 0), (fun _ => 0), (fun _ => 0), (fun _ => 0). fold p.
    split; [exact HE|]. split; [exact HV|]. split; [now apply (h0_tower par Hk)|]. split; [exact HJ|]. split; [|split; [lia|]].
    + intros i j _. rewrite !(E_pow0 E _ 0 _ HE one) by (intro; apply Hr || reflexivity).
      rewrite (E_ext E HE _ (fun _ => (0 ^ i * 0 ^ j) * 1)) by (intro w; rewrite Hr; ring). rewrite (E_scal E HE), one. ring.
    + symmetry. apply E_pow0; [exact HE|exact one|]. intro w. rewrite Hr. ring.
  - intros l Hl. destruct (S (Z.max 1 l) ltac:(lia)) as (E & HE & one & HV & HJ). apply V2; [exact Hl|].
    exists R, E, (Z.max 1 l), 0, (fun v => v), (fun _ => 0), (fun _ => 0), (fun _ => 0), (fun _ => 0). fold p.
    split; [exact HE|]. split; [exact HV|]. split; [now apply (h0_tower par Hk)|]. split; [exact HJ|]. split; [|split; [lia|split; [lia|]]].
    + intros i j _. rewrite !(E_pow0 E _ 0 _ HE one) by (intro; apply Hr || reflexivity).
      rewrite (E_ext E HE _ (fun _ => (0 ^ i * 0 ^ j) * 1)) by (intro w; rewrite Hr; ring). rewrite (E_scal E HE), one. ring.
    + symmetry. apply E_pow0; [exact HE|exact one|]. intro w.
      rewrite (E_ext E HE _ (fun _ => 0 * 1)) by (intro w'; rewrite Hr; ring). rewrite (E_scal E HE), Hr. ring.
  - intros l1 l2 h1 h2. destruct (S (l1 + l2)%Z ltac:(lia)) as (E & HE & one & HV & HJ). apply V3; [exact h1|exact h2|].
    exists R, E, (l1 + l2)%Z, 0, (fun v => v), (fun _ => 0), (fun _ => 0), (fun _ => 0), (fun _ => 0), (fun _ => 0), (fun _ => 0), (fun _ => 0), (fun _ => 0). fold p.
    split; [exact HE|]. split; [exact HV|]. split; [now apply (h0_tower par Hk)|]. split; [now apply (h0_tower par Hk)|]. split; [exact HJ|]. split; [exact HJ|]. split; [|split; [lia|]].
    + intros i0 i1 j0 j1 _. rewrite (E_ext E HE _ (fun _ => (0 ^ i0 * 0 ^ i1 * (0 ^ j0 * 0 ^ j1)) * 1)) by (intro w; rewrite Hv, !Hr; ring).
      rewrite (E_ext E HE (fun w => ret p 0 _ _ _ _ ^ _ * _) (fun _ => (0 ^ i0 * 0 ^ i1) * 1)) by (intro w; rewrite Hv, !Hr; ring).
      rewrite !(E_pow0 E (fun _ => 0) 0 _ HE one) by reflexivity. rewrite !(E_scal E HE), one. ring.
    + rewrite (E_ext E HE _ (fun _ => (0 ^ Z.to_nat l1 * 0 ^ Z.to_nat l2) * 1)) by (intro w; rewrite Hv, !Hr, Rplus_0_r; ring).
      rewrite (E_pow0 E (fun w => ret p 0 w 0 0 0 + 0) 0 _ HE one) by (intro; rewrite Hr; ring).
      rewrite (E_pow0 E (fun w => ret p (0 + fh p) (v_end p 0 w 0) 0 0 0 + 0) 0 _ HE one) by (intro; rewrite Hr; ring).
      rewrite (E_scal E HE), one. ring.
Qed.
Example C67_ex_h0 : cm_1fsvj 2 (lim_par 5 1 0) = Ok 0.
Proof.
  destruct (C67_h0_1fsvj (lim_par 5 1 0)) as (_ & H & _); [cbn; lra|reflexivity|]. rewrite (H 2%Z ltac:(lia)). apply (f_equal Ok). change (Z.to_nat 2) with 2%nat. ring.
Qed.

(** no variance: the return is mu h plus the compound Poisson sum *)
Lemma V_y0 n x : V n x 0 = x ^ n.
Proof.
  cut (V n x 0 = x ^ n /\ V (S n) x 0 = x ^ S n); [tauto|]. induction n as [|n [IH1 IH2]].
  - rewrite V_0, V_1. cbn. split; ring.
  - split; [exact IH2|]. rewrite V_stein, IH2. cbn [pow]. ring.
Qed.
Section Theta0.
Variable par : string -> R.
Hypothesis (Hk : par "k"%string <> 0) (Hh : 0 <= par "h"%string) (Ht : par "theta"%string = 0).
Notation p := (fpar_of par).
Notation lam := (par "lambda"%string * fh p).
Notation muj := (par "mu_j"%string).
Notation sj := (par "sigma_j"%string).
Definition mgf_drift (c0 s : R) : R := exp (c0 * s) * mgf_cpp lam muj (sj ^ 2) s.
Lemma drift_n c0 n : Derive_n (mgf_drift c0) n 0 = bc (fun k => c0 ^ k) (fun k => Derive_n (mgf_cpp lam muj (sj ^ 2)) k 0) n.
Proof.
  rewrite (Derive_n_ext (mgf_drift c0) (fun s => mgf_normal c0 0 s * mgf_cpp lam muj (sj ^ 2) s)).
  2: { intro s. unfold mgf_drift, mgf_normal. f_equal. f_equal. field. }
  rewrite (leibniz (mgf_normal c0 0) (mgf_cpp lam muj (sj ^ 2)) n (smooth_normal _ _) (smooth_cpp _ _ _) 0).
  apply bc_ext; [|reflexivity]. intros k _. rewrite normal_derive_n, G_at0. apply V_y0.
Qed.
Lemma drift_space L : (0 <= L)%Z -> exists E : (unit * R -> R) -> R, expectation E /\ E (fun _ => 1) = 1 /\ cpp_moments E (Z.to_nat L) lam muj sj snd /\
  forall c0 n, (n <= Z.to_nat L)%nat -> E (fun w => (c0 + snd w) ^ n) = Derive_n (mgf_drift c0) n 0.
Proof.
  intro HL. destruct (add_cpp unit Eone (Z.to_nat L) lam muj sj Eone_exp eq_refl) as (E & HE & O & C & HI).
  assert (one : E (fun _ => 1) = 1) by exact (O (fun _ => 1)).
  exists E. split; [exact HE|]. split; [exact one|]. split; [exact C|]. intros c0 n Hn.
  rewrite (E_binom E (fun _ => c0) snd (Z.to_nat L) n HE (HI (fun _ => c0)) Hn), drift_n. apply bc_ext.
  - intros k _. now apply E_pow0.
  - intros k Hk'. apply C. lia.
Qed.
Lemma drift_1 c0 : Derive_n (mgf_drift c0) 1 0 = c0 + lam * muj.
Proof.
  rewrite drift_n, bc_S, !bc_0. unfold sh. change (mgf_cpp lam muj (sj ^ 2)) with (Fm lam muj (sj ^ 2)).
  rewrite !mgf_derivative, Fm_0, mm_1, G_at0, V_1. cbn [mm pow]. ring.
Qed.
Notation c := (fmu p * fh p).
Lemma drift_1fsvj :
  (forall l, (0 <= l)%Z -> m_1fsvj l par = Ok (Derive_n (mgf_drift c) (Z.to_nat l) 0)) /\
  (forall l, (0 <= l)%Z -> cm_1fsvj l par = Ok (Derive_n (mgf_drift (- (lam * muj))) (Z.to_nat l) 0)) /\
  (forall l1 l2, (0 <= l1)%Z -> (0 <= l2)%Z -> cov_1fsvj l1 l2 par = Ok 0).
Proof.
  destruct (C46_value_1fsvj par Hk Hh) as (V1 & V2 & V3).
  assert (Hr : forall s, ret p s 0 0 0 0 = c) by (intro; now apply (ret_th0 par Hk)).
  assert (Hv : forall s, v_end p s 0 0 = 0) by (intro; now apply (vend_th0 par)).
  assert (HV : forall Om (E : (Om -> R) -> R) L, expectation E -> E (fun _ => 1) = 1 -> stationary E p L (fun _ => 0)).
  { intros Om E L HE one n Hn. replace (fth p) with 0 by (symmetry; exact Ht). rewrite gmom_0. now apply E_pow0. }
  assert (HT : forall Om (E : (Om -> R) -> R) s L hist v, expectation E -> (forall w, v w = 0) -> tower E p s L hist v (fun _ => 0) (fun _ => 0) (fun _ => 0)).
  { intros. now apply (rest_tower par Hk). }
  assert (HI : forall Om (E : (Om -> R) -> R) N (y J : Om -> R), expectation E -> E (fun _ => 1) = 1 -> (forall w, y w = c) -> indep E N y J).
  { intros Om E N y J HE one e i j _. rewrite (E_pow0 E y c i HE one e). rewrite (E_ext E HE _ (fun w => c ^ i * J w ^ j)) by (intro; now rewrite e). apply (E_scal E HE). }
  split; [|split].
  - intros l Hl. destruct (drift_space l Hl) as (E & HE & one & C & D). apply V1; [exact Hl|].
    exists _, E, l, 0, (fun _ => 0), (fun _ => 0), (fun _ => 0), (fun _ => 0), snd.
    split; [exact HE|]. split; [now apply HV|]. split; [now apply HT|]. split; [exact C|]. split; [apply HI; auto|]. split; [lia|].
    rewrite <- D by lia. apply (E_ext E HE). intro w. now rewrite Hr.
  - intros l Hl. destruct (drift_space (Z.max 1 l) ltac:(lia)) as (E & HE & one & C & D). apply V2; [exact Hl|].
    exists _, E, (Z.max 1 l), 0, (fun _ => 0), (fun _ => 0), (fun _ => 0), (fun _ => 0), snd.
    split; [exact HE|]. split; [now apply HV|]. split; [now apply HT|]. split; [exact C|]. split; [apply HI; auto|]. split; [lia|]. split; [lia|].
    assert (m1 : E (fun w => ret p 0 0 0 0 0 + snd w) = c + lam * muj).
    { rewrite <- drift_1, <- D by lia. apply (E_ext E HE). intro w. rewrite Hr. ring. }
    rewrite m1, <- D by lia. apply (E_ext E HE). intro w. rewrite Hr. f_equal. ring.
  - intros l1 l2 h1 h2. destruct (drift_space (l1 + l2)%Z ltac:(lia)) as (Ea & HEa & Oa & Ca & Da).
    set (E := fun X : (unit * R) * (unit * R) -> R => Ea (fun w => Ea (fun w' => X (w, w')))).
    assert (HE : expectation E).
    { unfold E. split.
      - intros X Y H. apply (E_ext Ea HEa). intro w. apply (E_ext Ea HEa). intro w'. apply H.
      - intros X Y. rewrite <- (E_plus Ea HEa). apply (E_ext Ea HEa). intro w. apply (E_plus Ea HEa).
      - intros e X. rewrite <- (E_scal Ea HEa). apply (E_ext Ea HEa). intro w. apply (E_scal Ea HEa). }
    assert (F : forall X f g, (forall w, X w = f (fst w) * g (snd w)) -> E X = Ea f * Ea g).
    { intros X f g H. rewrite (E_ext E HE _ _ H). unfold E. cbn [fst snd]. rewrite (E_ext Ea HEa _ (fun w => Ea g * f w)) by (intro w; rewrite (E_scal Ea HEa); ring).
      rewrite (E_scal Ea HEa). ring. }
    assert (F1 : forall X f, (forall w, X w = f (fst w)) -> E X = Ea f) by (intros X f H; rewrite (F X f (fun _ => 1)) by (intro; rewrite H; ring); rewrite Oa; ring).
    assert (F2 : forall X g, (forall w, X w = g (snd w)) -> E X = Ea g) by (intros X g H; rewrite (F X (fun _ => 1) g) by (intro; rewrite H; ring); rewrite Oa; ring).
    assert (one : E (fun _ => 1) = 1) by (rewrite (F1 _ (fun _ => 1)) by reflexivity; exact Oa).
    apply V3; [exact h1|exact h2|].
    exists _, E, (l1 + l2)%Z, 0, (fun _ => 0), (fun _ => 0), (fun _ => 0), (fun _ => 0), (fun _ => 0), (fun _ => 0), (fun _ => 0), (fun w => snd (fst w)), (fun w => snd (snd w)).
    split; [exact HE|]. split; [now apply HV|]. split; [now apply HT|]. split; [apply HT; [exact HE|intro; apply Hv]|]. split; [|split; [|split; [|split; [lia|]]]].
    + intros i Hi. rewrite (F1 _ (fun u => snd u ^ i)) by reflexivity. now apply Ca.
    + intros i Hi. rewrite (F2 _ (fun u => snd u ^ i)) by reflexivity. now apply Ca.
    + intros i0 i1 j0 j1 _. rewrite (F _ (fun u => c ^ i0 * snd u ^ j0) (fun u => c ^ i1 * snd u ^ j1)) by (intro w; cbv beta; rewrite Hv, !Hr; ring).
      rewrite (F _ (fun u => c ^ i0 * 1) (fun u => c ^ i1 * 1)) by (intro w; cbv beta; rewrite Hv, !Hr; ring).
      rewrite (F1 _ (fun u => snd u ^ j0)) by reflexivity. rewrite (F2 _ (fun u => snd u ^ j1)) by reflexivity.
      rewrite !(E_scal Ea HEa), Oa. ring.
    + rewrite (F _ (fun u => (c + snd u) ^ Z.to_nat l1) (fun u => (c + snd u) ^ Z.to_nat l2)) by (intro w; cbv beta; rewrite Hv, !Hr; ring).
      rewrite (F1 _ (fun u => (c + snd u) ^ Z.to_nat l1)) by (intro w; cbv beta; now rewrite Hr).
      rewrite (F2 _ (fun u => (c + snd u) ^ Z.to_nat l2)) by (intro w; cbv beta; rewrite Hv, Hr; reflexivity). ring.
Qed.
End Theta0.
Theorem C67_theta0_1fsvj : forall par : string -> R, par "k"%string <> 0 -> 0 <= par "h"%string -> par "theta"%string = 0 ->
  let L := par "lambda"%string * par "h"%string in
  let mgf m s := exp (m * s) * mgf_cpp L (par "mu_j"%string) (par "sigma_j"%string ^ 2) s in
  (forall l, (0 <= l)%Z -> m_1fsvj l par = Ok (Derive_n (mgf (par "mu"%string * par "h"%string)) (Z.to_nat l) 0)) /\
  (forall l, (0 <= l)%Z -> cm_1fsvj l par = Ok (Derive_n (mgf (- (L * par "mu_j"%string))) (Z.to_nat l) 0)) /\
  (forall l1 l2, (0 <= l1)%Z -> (0 <= l2)%Z -> cov_1fsvj l1 l2 par = Ok 0).
Proof. intros par Hk Hh Ht. exact (drift_1fsvj par Hk Hh Ht). Qed.
Definition drift_par (n : string) : R :=
  if String.eqb n "k" then 2 else if String.eqb n "h" then 7 else if String.eqb n "theta" then 0 else if String.eqb n "mu" then 3 else
  if String.eqb n "lambda" then 2 else if String.eqb n "mu_j" then 5 else 1.
Example C67_ex_theta0 : m_1fsvj 1 drift_par = Ok (3 * 7 + 2 * 7 * 5).
Proof.
  destruct (C67_theta0_1fsvj drift_par) as (H & _); [cbn; lra|cbn; lra|reflexivity|].
  rewrite (H 1%Z ltac:(lia)). apply (f_equal Ok). change (Z.to_nat 1) with 1%nat. etransitivity; [apply (drift_1 drift_par)|]. cbn. ring.
Qed.
