(** Property C24 (and part of C35): mdl_1fsv/cond_cmom.py. *)
From Coq Require Import Reals Lra.
From Verif.Spec Require Import Cond1.
From Verif.Spec Require Import Names.
From Verif.Proof Require Import ItoProofs Realise CondCmom1Proofs.
Local Open Scope R_scope.

(** the centred return, and its mean, given v_0 *)
Lemma cond_lin p : fk p <> 0 -> forall v0 ie i is, ret p 0 v0 ie i is =
  (fmu p * fh p - (fth p * fh p + (v0 - fth p) * (1 - exp (- (fk p * fh p))) / fk p) / 2)
  + sumR (fun x => x) [fsg p / (2 * fk p) * (exp (- (fk p * fh p)) * ie); (frho p - fsg p / (2 * fk p)) * i;
      sqrt (1 - frho p ^ 2) * is].
Proof.
  intros Hk v0 ie i is. unfold ret, int_v, v_end, eKH. rewrite Rplus_0_l. cbn [sumR]. field. assumption.
Qed.

Section E.
Variables (p : fpar) (v0 : R) (Om : Type) (E : (Om -> R) -> R) (L : Z) (IE I Is : Om -> R).
Hypothesis (Hk : fk p <> 0) (Hh : 0 <= fh p) (HE : expectation E).
Let P := mkPar (fk p) 0 v0 (fth p) (fsg p).
Let x1 := fsg p / (2 * fk p).
Let x2 := frho p - fsg p / (2 * fk p).
Let x3 := sqrt (1 - frho p ^ 2).
Variables (M : ito_idx -> R -> R) (HM : ito_moments P M).
Hypothesis (HT : forall a b d, (0 <= a)%Z -> (0 <= b)%Z -> (0 <= d)%Z -> (a + b + d <= L)%Z ->
    E (fun w => IE w ^ Z.to_nat a * I w ^ Z.to_nat b * Is w ^ Z.to_nat d) = M (a, b, d) (fh p)).

Lemma c9_sum_E n : (0 <= n <= L)%Z ->
  sumR (c9term M P (fh p) x1 x2 x3 n) (rcomp 2 n)
  = E (fun w => sumR (fun x => x) [x1 * (exp (- (fk p * fh p)) * IE w); x2 * I w; x3 * Is w] ^ Z.to_nat n).
Proof.
  intro Hn. rewrite (E_multinomial E HE (fun w => [x1 * (exp (- (fk p * fh p)) * IE w); x2 * I w; x3 * Is w]) 2 n) by (lia || reflexivity).
  apply sumR_ext. intros ns Hin. destruct (rcomp2_in n ns ltac:(lia) Hin) as (i & j & d & -> & Hi & Hj & Hd & Hs).
  cbn [c9term]. f_equal. rewrite <- HT by lia. cbn [pk P].
  rewrite Rmult_comm, <- (E_scal E HE). apply (E_ext E HE). intro w. cbn [powprod].
  rewrite !Rpow_mult_distr. rewrite !pw_Zpos by lia. ring.
Qed.
Lemma E_one : (0 <= L)%Z -> E (fun _ => 1) = 1.
Proof.
  intro HL. pose proof (c9_sum_E 0 ltac:(lia)) as h. change (Z.to_nat 0) with 0%nat in h. cbn [pow] in h. rewrite <- h.
  destruct good_c9_0 as (_ & _ & _ & _ & V). rewrite <- (V P M ltac:(now split) HM (fh p) Hh).
  unfold c9vals. cbn [items eval monx]. rewrite !pw_0. unfold Q2R; cbn. lra.
Qed.
Lemma E_cen : (1 <= L)%Z -> E (fun w => sumR (fun x => x) [x1 * (exp (- (fk p * fh p)) * IE w); x2 * I w; x3 * Is w]) = 0.
Proof.
  intro HL. pose proof (c9_sum_E 1 ltac:(lia)) as h. change (Z.to_nat 1) with 1%nat in h.
  rewrite (E_ext E HE _ (fun w => sumR (fun x => x) [x1 * (exp (- (fk p * fh p)) * IE w); x2 * I w; x3 * Is w])) in h by (intro; ring).
  rewrite <- h. destruct good_c9_1 as (_ & _ & _ & _ & V). rewrite <- (V P M ltac:(now split) HM (fh p) Hh).
  cbn [items eval]. unfold Q2R; cbn. lra.
Qed.
End E.

Theorem C24_mean : forall (p : fpar) (v0 : R) (Om : Type) (E : (Om -> R) -> R) (L : Z) (IE I Is : Om -> R),
  fk p <> 0 -> 0 <= fh p -> expectation E -> cond_ito E p v0 L IE I Is -> (1 <= L)%Z ->
  E (fun w => ret p 0 v0 (IE w) (I w) (Is w))
    = fmu p * fh p - (fth p * fh p + (v0 - fth p) * (1 - exp (- (fk p * fh p))) / fk p) / 2.
Proof.
  intros p v0 Om E L IE I Is Hk Hh HE (M & HM & HT) HL.
  pose proof (E_one p v0 Om E L IE I Is Hk Hh HE M HM HT ltac:(lia)) as e1.
  pose proof (E_cen p v0 Om E L IE I Is Hk Hh HE M HM HT HL) as e2.
  match goal with |- _ = ?c => rewrite (E_ext E HE _ (fun w => c * 1 + sumR (fun x => x)
    [fsg p / (2 * fk p) * (exp (- (fk p * fh p)) * IE w); (frho p - fsg p / (2 * fk p)) * I w; sqrt (1 - frho p ^ 2) * Is w]))
    by (intro w; rewrite (cond_lin p Hk); ring) end.
  rewrite (E_plus E HE), (E_scal E HE), e1, e2. ring.
Qed.

(** ** C24: the list of conditional central moments *)
Theorem C24_cmoments_y_to : forall (l : Z), exists cs, cmoments_y_to l = Ok cs /\ length cs = Z.to_nat (Z.max 1 l + 1) /\
  forall n : Z, (0 <= n <= Z.max 1 l)%Z -> exists q, nth_error cs (Z.to_nat n) = Some q /\ keyfor q = nm_cond1 /\
    Forall (fun kv => s9ok (fst kv)) (items q) /\
    forall (p : fpar) (v0 : R) (Om : Type) (E : (Om -> R) -> R) (L : Z) (IE I Is : Om -> R),
    fk p <> 0 -> 0 <= fh p -> expectation E -> cond_ito E p v0 L IE I Is -> (1 <= L)%Z -> (n <= L)%Z ->
    let y w := ret p 0 v0 (IE w) (I w) (Is w) in
    eval (monx (s9v (fk p) (fh p) v0 (fth p) (fsg p) (frho p))) (items q) = E (fun w => (y w - E y) ^ Z.to_nat n).
Proof.
  intro l. pose proof (cmoments_y_to_sp l) as h. apply returns_inv in h. destruct h as (cs & Ecs & Hl & Hn).
  exists cs. split; [exact Ecs|]. split; [exact Hl|]. intros n Hr. destruct (Hn n Hr) as (q & Eq & K & U & A & S & V).
  exists q. split; [exact Eq|]. split; [exact K|]. split.
  { apply Forall_forall. intros [k v] Hin. cbn [fst]. apply c9_s9ok; [exact (allk_in _ _ k v A Hin)|exact (allk_in _ _ k v S Hin)]. }
  intros p v0 Om E L IE I Is Hk Hh HE H HL HnL y.
  unfold y. rewrite (C24_mean p v0 Om E L IE I Is Hk Hh HE H HL). destruct H as (M & HM & HT).
  etransitivity; [exact (V (mkPar (fk p) 0 v0 (fth p) (fsg p)) M ltac:(now split) HM (fh p) Hh (fsg p / (2 * fk p)) (frho p - fsg p / (2 * fk p)) (sqrt (1 - frho p ^ 2)))|].
  rewrite (c9_sum_E p v0 Om E L IE I Is HE M HT n ltac:(lia)).
  apply (E_ext E HE). intro w. rewrite (cond_lin p Hk). f_equal. ring.
Qed.

(** ** C24: simplify *)
Theorem C24_simplify : forall q : Poly (list Z), Forall (fun kv => s9ok (fst kv)) (items q) ->
  (exists r, c1_simplify q 1 = Ok r /\ keyfor r = "e^{-kt}"%string :: tl (keyfor q) /\ forall k h v th sg rho,
     eval (monx (exp (- (k * h)) :: tl (s9v k h v th sg rho))) (items r) = eval (monx (s9v k h v th sg rho)) (items q)) /\
  (exists r, c1_simplify q 2 = Ok r /\ keyfor r = ["e^{-kt}"; "t"; "k^{-}"; "v_0-theta"; "theta"; "sigma"; "rho"]%string /\ forall k h v th sg rho, k <> 0 -> Rabs rho <= 1 ->
     eval (monx (s7v k h v th sg rho)) (items r) = eval (monx (s9v k h v th sg rho)) (items q)) /\
  (exists r, c1_simplify q 3 = Ok r /\ keyfor r = ["e^{-kt}"; "t"; "k^{-}"; "v_0"; "theta"; "sigma"; "rho"]%string /\ forall k h v th sg rho, k <> 0 -> Rabs rho <= 1 ->
     eval (monx (s7vv k h v th sg rho)) (items r) = eval (monx (s9v k h v th sg rho)) (items q)).
Proof.
  intros q A.
  assert (A' : allk s9ok (items q)).
  { intros k Hk. unfold keys in Hk. apply in_map_iff in Hk. destruct Hk as ([k' v] & <- & Hin). exact (proj1 (Forall_forall _ _) A _ Hin). }
  split; [|destruct (simp2_sp q A') as (r & Er & K & U & W & V); split].
  - eexists. split; [reflexivity|]. split; [reflexivity|]. intros k h v th sg rho.
    pose proof (c1_simplify1_sp q (tl (s9v k h v th sg rho)) (exp (k * h)) ltac:(apply exp_neq0)) as h1.
    rewrite exp_Ropp. apply h1. eapply allk_weaken; [exact A'|]. intros key (Hl & _). lia.
  - exists r. split; [exact Er|]. split; [exact K|exact V].
  - unfold c1_simplify. cbn [Z.eqb Pos.eqb]. rewrite Er. cbn [bind]. eexists. split; [reflexivity|]. split; [reflexivity|].
    intros k h v th sg rho Hk Hr. destruct (c1_expand_v_sp r W) as (_ & e). rewrite e. now apply V.
Qed.
Theorem C24_simplify_other : forall q tp, (tp < 1 \/ 3 < tp)%Z -> c1_simplify q tp = Err BareException.
Proof.
  intros q tp Ht. unfold c1_simplify. rewrite !(proj2 (Z.eqb_neq _ _)) by lia. reflexivity.
Qed.
(** every power of sqrt(1-rho^2) must be even for tp = 2, 3 *)
Example C24_simplify_odd : c1_simplify (mkPoly [([0;0;0;0;0;0;0;0;1]%Z, 1%Q)] kf_c9) 2 = Err BareException.
Proof. reflexivity. Qed.

(** ** C24: cond_cm evaluates the last central moment *)
Theorem C24_cond_cm : forall (p : fpar) (v0 : R) (Om : Type) (E : (Om -> R) -> R) (L : Z) (IE I Is : Om -> R) (par : string -> R) (l : Z),
  fk p <> 0 -> 0 <= fh p -> Rabs (frho p) <= 1 -> expectation E -> cond_ito E p v0 L IE I Is -> (1 <= l <= L)%Z ->
  par "v0"%string = v0 -> par "k"%string = fk p -> par "h"%string = fh p -> par "theta"%string = fth p ->
  par "sigma_v"%string = fsg p -> par "rho"%string = frho p ->
  let y w := ret p 0 v0 (IE w) (I w) (Is w) in
  cond_cm l par = Ok (E (fun w => (y w - E y) ^ Z.to_nat l)).
Proof.
  intros p v0 Om E L IE I Is par l Hk Hh Hr HE H Hl e1 e2 e3 e4 e5 e6 y.
  destruct (C24_cmoments_y_to l) as (cs & Ecs & Hcs & Hn). destruct (Hn l ltac:(lia)) as (q & Eq & K & A & V).
  specialize (V p v0 Om E L IE I Is Hk Hh HE H ltac:(lia) ltac:(lia)). cbv zeta in V. fold y in V.
  unfold cond_cm. rewrite Ecs. cbn [bind].
  assert (El : last (map Some cs) None = Some q).
  { destruct (nth_error_split _ _ Eq) as (l1 & l2 & -> & Hl1). rewrite app_length in Hcs. cbn [length] in Hcs.
    destruct l2; [|cbn [length] in Hcs; lia]. rewrite map_app. cbn [map]. now rewrite last_last. }
  rewrite El. unfold c1_simplify. cbn [Z.eqb Pos.eqb].
  assert (A' : allk s9ok (items q)).
  { intros k Hk'. unfold keys in Hk'. apply in_map_iff in Hk'. destruct Hk' as ([k' v] & <- & Hin). exact (proj1 (Forall_forall _ _) A _ Hin). }
  destruct (simp2_sp q A') as (r & Er & K' & U & W & V'). rewrite Er. cbn [bind]. f_equal.
  rewrite poly2num_c1_eval by (eapply allk_weaken; [exact W|]; intros k Wk; exact (wfs_length _ _ Wk)).
  rewrite e1, e2, e3, e4, e5, e6, V' by assumption. exact V.
Qed.
(** C35 fails here: the list for l = 0 (and l < 0) ends with the first central moment, so cond_cm
    returns 0, not the zeroth central moment 1. *)
Theorem C35_cond_cm_0_refuted : forall (l : Z) (par : string -> R), (l <= 0)%Z -> cond_cm l par = Ok 0.
Proof.
  intros l par Hl. unfold cond_cm, cmoments_y_to. rewrite range_nil by lia. cbn [foldM bind snd map last].
  set (r := c1_simplify _ 2). vm_compute in r. subst r. reflexivity.
Qed.
Theorem C35_cond_cmom_not_one_refuted : exists (l : Z) (par : string -> R), (l = 0)%Z /\ cond_cm l par <> Ok 1.
Proof.
  exists 0%Z, (fun _ => 1). split; [reflexivity|]. rewrite C35_cond_cm_0_refuted by lia.
  intro H. injection H as H. apply eq_sym in H. lra.
Qed.
(** the element with index 0 is right *)
Theorem C35_cmoments_y_to_0 : forall l, exists cs, cmoments_y_to l = Ok cs /\ exists q, nth_error cs 0 = Some q /\
  forall k h v th sg rho, eval (monx (s9v k h v th sg rho)) (items q) = 1.
Proof.
  intro l. pose proof (cmoments_y_to_sp l) as h. apply returns_inv in h. destruct h as (cs & Ecs & _).
  exists cs. split; [exact Ecs|]. unfold cmoments_y_to in Ecs.
  assert (F : forall r st st', foldM (c1_round l) r st = Ok st' -> nth_error (snd st) 0 <> None -> nth_error (snd st') 0 = nth_error (snd st) 0).
  { induction r as [|n r IH]; intros st st' Ef Hne; cbn [foldM] in Ef; [now injection Ef as <-|].
    destruct (c1_round l st n) as [st1|] eqn:E1; [|discriminate].
    assert (Hs : nth_error (snd st1) 0 = nth_error (snd st) 0).
    { destruct st as [C cm]. unfold c1_round in E1. destruct (foldM _ _ (C, [])) as [[C' a']|]; [|discriminate]. cbn [bind] in E1.
      injection E1 as <-. cbn [snd] in *. destruct cm; [now cbn in Hne|reflexivity]. }
    rewrite <- Hs. apply (IH st1 st' Ef). now rewrite Hs. }
  destruct (foldM _ _ _) as [st|] eqn:Ef in Ecs; [|discriminate]. cbn [bind] in Ecs. injection Ecs as <-.
  eexists. split; [rewrite (F _ _ _ Ef ltac:(discriminate)); reflexivity|].
  intros k h v th sg rho. cbn [items eval monx s9v]. rewrite !pw_0. unfold Q2R; cbn. lra.
Qed.

(** ** the hypotheses can be met *)
Theorem C24_hypotheses_hold : forall (p : fpar) (v0 : R) (L : Z), fk p <> 0 -> 0 <= fh p -> (0 <= L)%Z ->
  exists (Om : Type) (E : (Om -> R) -> R) (IE I Is : Om -> R), expectation E /\ cond_ito E p v0 L IE I Is.
Proof.
  intros p v0 L Hk Hh HL.
  set (M := ito_val (mkPar (fk p) 0 v0 (fth p) (fsg p))).
  set (tab := fun ns => match ns with [a; b; d] => M (a, b, d) (fh p) | _ => 0 end).
  set (ker := realise (Z.to_nat L) 3 tab).
  exists (list R), (Efin ker), (fun xs => nthR xs 0), (fun xs => nthR xs 1), (fun xs => nthR xs 2).
  split; [apply Efin_expectation|]. exists M. split; [now apply ito_solution|].
  intros a b d h1 h2 h3 h4. change (M (a, b, d) (fh p)) with (tab [a; b; d]).
  rewrite <- (realise_spec (Z.to_nat L) 3 tab [a; b; d]); [|reflexivity|repeat (apply Forall_cons; [lia|]); apply Forall_nil].
  unfold ker, Efin. apply sumR_ext. intros [c xs] Hin. cbn [fst snd]. f_equal.
  pose proof (realise_len _ _ _ _ _ Hin) as Hl. destruct xs as [|x [|y [|z [|? ?]]]]; try discriminate.
  unfold nthR. cbn [powprod]. change (Z.to_nat 0) with 0%nat. change (Z.to_nat 1) with 1%nat.
  change (Z.to_nat 2) with 2%nat. cbn [nth]. ring.
Qed.
Example C24_example : exists cs, cmoments_y_to 2 = Ok cs /\ nth_error cs 2 = Some (mkPoly
  [([-1; 0; 1; 1; 0; 0; 2; 0; 0]%Z, 1%Q); ([-2; 0; 1; 1; 0; 0; 2; 0; 0]%Z, -1 # 1);
   ([0; 0; 1; 0; 1; 0; 2; 0; 0]%Z, 1 # 2); ([-2; 0; 1; 0; 1; 0; 2; 0; 0]%Z, -1 # 2);
   ([-1; 1; 0; 1; 0; 0; 1; 1; 0]%Z, 2%Q); ([0; 0; 1; 0; 1; 0; 1; 1; 0]%Z, 2%Q);
   ([-1; 0; 1; 0; 1; 0; 1; 1; 0]%Z, -2 # 1); ([-1; 0; 1; 1; 0; 0; 0; 2; 0]%Z, -1 # 1);
   ([0; 0; 1; 1; 0; 0; 0; 2; 0]%Z, 1%Q); ([0; 1; 0; 0; 1; 0; 0; 2; 0]%Z, 1%Q);
   ([-1; 0; 1; 1; 0; 0; 0; 0; 2]%Z, -1 # 1); ([0; 0; 1; 1; 0; 0; 0; 0; 2]%Z, 1%Q);
   ([0; 1; 0; 0; 1; 0; 0; 0; 2]%Z, 1%Q)] kf_c9).
Proof. eexists. split; [vm_compute; reflexivity|reflexivity]. Qed.
