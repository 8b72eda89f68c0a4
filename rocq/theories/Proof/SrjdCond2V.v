(** moment_v, cmoment_v, fZ and poly2num of mdl_srjd/cond2_mom.py, cond2_cmom.py. *)
From Coq Require Import Reals Lra FunctionalExtensionality.
From Coquelicot Require Import Coquelicot.
From Verif.Proof Require Export SrjdCond2Proofs UtilsProofs.
Local Open Scope R_scope.

Lemma ones_repeat n : ones (Z.of_nat n) = repeat 1%Z n.
Proof.
  unfold ones, range. rewrite map_map, Z.sub_0_r, Nat2Z.id. generalize 0%nat.
  induction n as [|n IH]; intro s; [reflexivity|]. cbn [seq map repeat]. f_equal. apply IH.
Qed.
Lemma zeros_repeat n : zeros (Z.of_nat n) = repeat 0%Z n.
Proof.
  unfold zeros, range. rewrite map_map, Z.sub_0_r, Nat2Z.id. generalize 0%nat.
  induction n as [|n IH]; intro s; [reflexivity|]. cbn [seq map repeat]. f_equal. apply IH.
Qed.
Lemma zeros_pred n : zeros (Z.of_nat n - 1) = repeat 0%Z (pred n).
Proof.
  destruct n as [|n]; [reflexivity|]. replace (Z.of_nat (S n) - 1)%Z with (Z.of_nat n) by lia. apply zeros_repeat.
Qed.

(** n more levels of summation, one for every factor IEZ *)
Definition lo_ext (lo : list Z * list Z) (n : nat) : list Z * list Z :=
  (fst lo ++ repeat 1%Z n,
   match fst lo with [] => repeat 0%Z (pred n) | _ => snd lo ++ repeat 0%Z n end).
Lemma lo_ext_shape lo n : oshape lo -> oshape (lo_ext lo n).
Proof.
  destruct lo as [[|l1 lr] o]; unfold oshape, lo_ext; cbn [fst snd length pred app]; intro h;
    rewrite ?app_length, ?repeat_length; lia.
Qed.
Lemma lo_ext_S lo n : oshape lo -> sx (lo_ext lo (S n)) = iez_lopq (sx (lo_ext lo n)).
Proof.
  intro h. pose proof (lo_ext_shape lo n h) as hn. destruct (lo_ext lo n) as [l o] eqn:E.
  rewrite <- (proj1 (sx_iez l o hn)). f_equal. unfold lo_ext in *. injection E as <- <-.
  destruct lo as [[|l1 lr] o]; cbn [fst snd app].
  - rewrite <- repeat_cons. f_equal. destruct n as [|n]; [reflexivity|]. cbn [repeat pred]. apply repeat_cons.
  - rewrite <- app_assoc, <- repeat_cons, <- app_assoc, <- repeat_cons. reflexivity.
Qed.
Lemma lo_ext_0 lo : oshape lo -> lo_ext lo 0 = lo.
Proof.
  destruct lo as [[|l1 lr] o]; unfold oshape, lo_ext; cbn [fst snd repeat length pred]; intro h.
  - destruct o; [reflexivity|discriminate].
  - now rewrite !app_nil_r.
Qed.
Lemma zs_ext_pow k z lo n : oshape lo ->
  zs k z (fun _ => 1) (sx (lo_ext lo n)) = zs k z (fun _ => 1) (sx lo) * sumR (fun sj => exp (k * fst sj) * snd sj) z ^ n.
Proof.
  intro h. induction n as [|n IH].
  - rewrite lo_ext_0 by assumption. cbn [pow]. ring.
  - rewrite lo_ext_S, zs_times by (try apply sx_shape; now apply lo_ext_shape || assumption).
    rewrite IH. cbn [pow]. ring.
Qed.

(** keys of pol1 *)
Definition p1ok (key : c2key) : Prop := c2ok key /\ exists n, snd key = lo_ext ([], []) n.
Lemma c2_kmul_ok k1 k2 : p1ok k1 -> c2ok k2 -> c2ok (c2_kmul k1 k2) /\
  forall p z t, c2mon p z t (c2_kmul k1 k2) = c2mon p z t k1 * c2mon p z t k2.
Proof.
  destruct k1 as [a1 lo1], k2 as [a2 lo2]. intros (H1 & n & En) H2. cbn [snd] in En. subst lo1.
  destruct (c2ok_inv _ _ H1) as (x0 & x1 & x2 & x3 & x4 & -> & ? & ? & ? & ? & S1).
  destruct (c2ok_inv _ _ H2) as (y0 & y1 & y2 & y3 & y4 & -> & ? & ? & ? & ? & S2).
  assert (E : c2_kmul ([x0; x1; x2; x3; x4], lo_ext ([], []) n) ([y0; y1; y2; y3; y4], lo2)
    = ([y0 + x0; y1 + x1; y2 + x2; y3 + x3; y4 + x4]%Z, lo_ext lo2 n)).
  { destruct lo2 as [l2 o2]. unfold c2_kmul, lo_ext. cbn [fst snd app]. unfold nthZ. cbn [nth].
    rewrite repeat_length. repeat f_equal. destruct l2; [apply zeros_pred|now rewrite zeros_repeat]. }
  rewrite E. split.
  - apply c2ok_intro; try lia. now apply lo_ext_shape.
  - intros p z t. rewrite !c2mon_key, (zs_ext_pow _ _ lo2), (zs_ext_pow _ _ ([], [])) by (assumption || reflexivity).
    unfold c2B, nthZ. cbn [nth sx fst snd zero_like map zs]. rewrite plus_IZR, Rmult_plus_distr_r, exp_plus.
    rewrite !pow_lemma_pw by (right; lia). ring.
Qed.

Lemma adds_fold_left {S T A} (wf : S -> Prop) (val : T -> S -> R) (h : S -> A -> S) (g : A -> T -> R) l :
  (forall x, In x l -> adds wf val (fun s => Ok (h s x)) (g x)) ->
  adds wf val (fun s => Ok (fold_left h l s)) (fun t => sumR (fun x => g x t) l).
Proof.
  intros H s Hs. pose proof (adds_foldM wf val (fun s x => Ok (h s x)) g l H s Hs) as e.
  assert (E : forall l s, foldM (fun s x => Ok (h s x)) l s = Ok (fold_left h l s)).
  { clear. induction l as [|x r IH]; intro s; [reflexivity|]. cbn [foldM fold_left]. apply IH. }
  now rewrite E in e.
Qed.

Definition c2m3 (x : zpar * path * R) : c2key -> R := let '(p, z, t) := x in c2mon p z t.

Lemma c2_mul_sp pol1 pol2 : allk p1ok (items pol1) -> allk c2ok (items pol2) ->
  adds (wfl c2ok) (ev c2m3) (fun a => Ok (fold_left (fun a kv1 =>
      fold_left (fun a kv2 => add_kv (c2_kmul (fst kv1) (fst kv2)) (qmul (snd kv1) (snd kv2)) a) (items pol2) a) (items pol1) a))
    (fun x => eval (c2m3 x) (items pol1) * eval (c2m3 x) (items pol2)).
Proof.
  intros W1 W2. eapply adds_ext.
  - apply (adds_fold_left (wfl c2ok) (ev c2m3) _ (fun kv1 x => sumR (fun kv2 =>
      Q2R (qmul (snd kv1) (snd kv2)) * c2m3 x (c2_kmul (fst kv1) (fst kv2))) (items pol2))).
    intros kv1 H1. apply (adds_fold c2ok c2m3 (fun kv2 => c2_kmul (fst kv1) (fst kv2)) (fun kv2 => qmul (snd kv1) (snd kv2))).
    intros [k2 v2] H2. destruct kv1 as [k1 v1]. cbn [fst snd].
    apply c2_kmul_ok; [apply (allk_in _ _ _ _ W1 H1)|apply (allk_in _ _ _ _ W2 H2)].
  - intro x. cbv beta. rewrite (sumR_eval (c2m3 x) (items pol1)), <- sumR_scal_r. apply sumR_ext. intros [k1 v1] H1.
    rewrite sumR_eval, <- sumR_scal. apply sumR_ext. intros [k2 v2] H2. cbn [fst snd].
    rewrite Q2R_mul. destruct x as [[p z] t]. unfold c2m3.
    rewrite (proj2 (c2_kmul_ok k1 k2 (allk_in _ _ _ _ W1 H1) (allk_in _ _ _ _ W2 H2))). ring.
Qed.

(** ** pol1 *)
Lemma v_given_alt p z t : v_given p z t
  = sumR (fun x => x) [zpv p * exp (- (zpk p * t)); - (zpth p * exp (- (zpk p * t))); zpth p;
      exp (- (zpk p * t)) * IEZ_path (zpk p) z t].
Proof. unfold v_given. cbn [sumR]. ring. Qed.

Lemma pw_exp_opp x n : pw (exp (- x)) n = exp (IZR (- n) * x).
Proof. rewrite pw_exp. f_equal. rewrite opp_IZR. ring. Qed.

Lemma sgn1_pw j : (0 <= j)%Z -> IZR (sgn1 j) = pw (-1) j.
Proof.
  intro Hj. rewrite pw_Zpos by assumption. unfold sgn1. rewrite <- (Z2Nat.id j) at 1 by assumption.
  generalize (Z.to_nat j). intro n. induction n as [|n IH]; [reflexivity|].
  rewrite Nat2Z.inj_succ, Z.even_succ, <- Z.negb_even. cbn [pow]. rewrite <- IH.
  destruct (Z.even (Z.of_nat n)); cbn [negb]; lra.
Qed.

Lemma mcomb_nn n : mcomb n n = 1%Z.
Proof. unfold mcomb. generalize (Z.to_nat n). clear. intro n. induction n as [|n IH]; [reflexivity|]. cbn [combN]. rewrite IH, combN_gt by lia. reflexivity. Qed.

Lemma c2_pol1_sp m j : (0 <= j <= m)%Z -> returns (c2_pol1 m j) (fun r => allk p1ok (items r) /\
  forall p z t, eval (c2mon p z t) (items r)
    = IZR (mcomb m j) * pw (zpsg p * exp (- (zpk p * t))) (m - j) * pw (v_given p z t) j).
Proof.
  intro Hj. unfold c2_pol1. rewrite math_comb_ok by lia. cbn [bind].
  eapply returns_weaken.
  - apply (adds_run p1ok c2m3 _ (fun x => let '(p, z, t) := x in
       IZR (mcomb m j) * pw (zpsg p * exp (- (zpk p * t))) (m - j) * pw (v_given p z t) j) kf_c2).
    eapply adds_ext.
    + apply (adds_nest (wfl p1ok) (ev c2m3) 3 j _ (fun ns x => let '(p, z, t) := x in
        IZR (mcomb m j) * pw (zpsg p * exp (- (zpk p * t))) (m - j) * (IZR (cmb j ns) * monx [zpv p * exp (- (zpk p * t)); - (zpth p * exp (- (zpk p * t))); zpth p;
      exp (- (zpk p * t)) * IEZ_path (zpk p) z t] ns))); [lia|].
      intros ns Hl Hf Hsum. destruct (comp4 ns j Hl Hf Hsum) as (j1 & j2 & j3 & j4 & -> & h1 & h2 & h3 & h4 & Ej).
      cbn [on4]. rewrite !math_comb_ok by lia. cbn [bind].
      assert (El : (if (j4 =? 0)%Z then ([], []) else (ones j4, zeros (j4 - 1))) = lo_ext ([], []) (Z.to_nat j4)).
      { unfold lo_ext. cbn [fst app]. destruct (Z.eqb_spec j4 0) as [->|ne]; [reflexivity|].
        rewrite <- (Z2Nat.id j4) at 1 2 by lia. rewrite ones_repeat. f_equal.
        rewrite zeros_pred. reflexivity. }
      destruct (if (j4 =? 0)%Z then ([], []) else (ones j4, zeros (j4 - 1))) as [k5 k6]. rewrite El.
      eapply adds_ext.
      * apply adds_kv. split; [|exists (Z.to_nat j4); reflexivity].
        apply c2ok_intro; try lia. apply lo_ext_shape. reflexivity.
      * intros [[p z] t]. unfold c2m3. rewrite c2mon_key, zs_ext_pow by reflexivity.
        unfold c2B, nthZ. cbn [nth sx fst snd zero_like map zs monx]. rewrite !pw_0.
        change (sumR (fun sj => exp (zpk p * fst sj) * snd sj) (upto t z)) with (IEZ_path (zpk p) z t).
        rewrite <- pw_Zpos by assumption. rewrite Q2R_qz, !mult_IZR, sgn1_pw by assumption.
        rewrite !pw_mult by lia. rewrite !pw_opp, !pw_mult by lia. rewrite !pw_exp_opp.
        rewrite (pow_lemma_pw (zpth p)) by (right; lia).
        cbn [cmb]. replace (j - j1 - j2 - j3)%Z with j4 by lia. rewrite mcomb_nn, !mult_IZR.
        replace (IZR (j3 - m) * (zpk p * t)) with (IZR (- (m - j)) * (zpk p * t) + IZR (- j1) * (zpk p * t) + IZR (- j2) * (zpk p * t) + IZR (- j4) * (zpk p * t)).
        2: { rewrite Ej. rewrite <- !Rmult_plus_distr_r, <- !plus_IZR. do 2 f_equal. lia. }
        rewrite !exp_plus. ring.
    + intros [[p z] t]. cbv beta iota. rewrite v_given_alt, <- (multinomial_pw _ 3 j) by (try lia; reflexivity).
      rewrite <- sumR_scal. reflexivity.
  - intros r (_ & _ & h3 & h4). split; [assumption|]. intros p z t. exact (h4 (p, z, t)).
Qed.

(** ** moment_v *)
Definition MIE (p : zpar) (z : path) (M : zidx -> R -> R) (t : R) {Om : Type} (E : (Om -> R) -> R) (IE : Om -> R) (m : Z) : Prop :=
  jsol p z M /\ 0 <= t /\ expectation E /\ forall n, (0 <= n <= m)%Z -> E (fun w => pw (IE w) n) = M (n, 0, 0)%Z t.

Lemma M_0 p z M t : jsol p z M -> 0 <= t -> M (0, 0, 0)%Z t = 1.
Proof.
  intros HM Ht. rewrite <- (proj2 Good2_0 p z M HM t Ht). unfold c2_P1. cbn [items eval fst snd].
  rewrite c2mon_key. unfold c2B, nthZ. cbn [nth sx fst snd zero_like map zs]. rewrite !pw_0, Rmult_0_l, exp_0, Q2R_Frac by lia. lra.
Qed.
Lemma M_1 p z M t : jsol p z M -> 0 <= t -> M (1, 0, 0)%Z t = 0.
Proof.
  intros HM Ht. rewrite <- (proj2 Good2_1 p z M HM t Ht). unfold c2_P0. cbn [items eval fst snd].
  rewrite Q2R_Frac by lia. lra.
Qed.

Lemma E_v_path p z M t {Om} (E : (Om -> R) -> R) (IE : Om -> R) m : (0 <= m)%Z -> MIE p z M t E IE m ->
  E (fun w => pw (v_path p z t (IE w)) m)
  = sumR (fun j => IZR (mcomb m j) * pw (zpsg p * exp (- (zpk p * t))) (m - j) * pw (v_given p z t) j * M (m - j, 0, 0)%Z t) (range 0 (m + 1)).
Proof.
  intros Hm (HM & Ht & HE & h).
  rewrite (E_ext E HE _ (fun w => sumR (fun j => IZR (mcomb m j) * pw (zpsg p * exp (- (zpk p * t))) (m - j) * pw (v_given p z t) j * pw (IE w) (m - j)) (range 0 (m + 1)))).
  2: { intro w. unfold v_path. rewrite <- binomial_pw by assumption. apply sumR_ext. intros j Hj. apply in_range in Hj.
       rewrite (pw_mult _ (IE w)) by lia. ring. }
  rewrite (E_sumR E HE). apply sumR_ext. intros j Hj. apply in_range in Hj.
  rewrite (E_scal E HE), h by lia. reflexivity.
Qed.

Lemma c2_moment_v_spec m : (0 <= m)%Z -> returns (c2_moment_v m) (fun r => wfp c2ok kf_c2 r /\
  forall p z M t Om (E : (Om -> R) -> R) IE, MIE p z M t E IE m ->
    eval (c2mon p z t) (items r) = E (fun w => pw (v_path p z t (IE w)) m)).
Proof.
  intro Hm. unfold c2_moment_v.
  destruct (Z.eqb_spec m 0) as [->|n0].
  { cbn [returns add_kv]. split.
    - split; [reflexivity|]. split; [unfold uniq; cbn; repeat (apply NoDup_cons; [simpl; intuition discriminate|]); apply NoDup_nil|].
      intros key [<-|[]]. apply c2ok_intro; try lia. reflexivity.
    - intros p z M t Om E IE H. rewrite (E_v_path p z M t E IE 0 ltac:(lia) H). destruct H as (HM & Ht & _).
      cbn [items eval fst snd].
      rewrite c2mon_key. unfold c2B, nthZ. cbn [nth sx fst snd zero_like map zs]. rewrite !pw_0, Rmult_0_l, exp_0, Q2R_Frac by lia.
      change (0 + 1)%Z with 1%Z. rewrite range_cons, range_nil by lia. cbn [sumR]. change (0 - 0)%Z with 0%Z.
      rewrite !pw_0, mcomb_nn, (M_0 p z M t HM Ht). lra. }
  destruct (Z.eqb_spec m 1) as [->|n1].
  { cbn [returns]. split.
    - split; [reflexivity|]. split.
      + unfold uniq; cbn; repeat (apply NoDup_cons; [simpl; intuition discriminate|]); apply NoDup_nil.
      + intros key Hkey. cbn in Hkey. repeat (destruct Hkey as [<-|Hkey]); try destruct Hkey; apply c2ok_intro; try lia; reflexivity.
    - intros p z M t Om E IE H. rewrite (E_v_path p z M t E IE 1 ltac:(lia) H). destruct H as (HM & Ht & _).
      match goal with |- eval _ ?l = _ => let l' := eval cbn -[Frac qopp] in l in change l with l' end.
      cbn [eval fst snd]. rewrite !c2mon_key.
      unfold c2B, nthZ. cbn [nth sx fst snd zero_like map zs zr]. rewrite !pw_0, !pw_1, Rmult_0_l, exp_0, !Q2R_neg, Q2R_Frac by lia.
      match goal with |- context [range ?a ?b] => change (range a b) with [0; 1]%Z end. cbn [sumR].
      change (1 - 0)%Z with 1%Z. change (1 - 1)%Z with 0%Z.
      rewrite ?pw_0, ?pw_1, (M_0 p z M t HM Ht), (M_1 p z M t HM Ht), mcomb_nn.
      replace (sumR (fun sj => jw (zpk p) 1 0 sj * 1) (upto t z)) with (IEZ_path (zpk p) z t).
      2: { unfold IEZ_path. apply sumR_ext. intros sj _. unfold jw. rewrite pw_0, !Rmult_1_l. ring. }
      unfold v_given. replace (exp (- (zpk p * t))) with (exp (-1 * (zpk p * t))) by (f_equal; ring). field. }
  eapply returns_bind.
  - apply (adds_foldM (wfl c2ok) (ev (fun x : {x : zpar * path * R & {M | jsol (fst (fst x)) (snd (fst x)) M /\ 0 <= snd x}} => c2m3 (projT1 x))) _
      (fun j x => let '(p, z, t) := projT1 x in let M := proj1_sig (projT2 x) in
         IZR (mcomb m j) * pw (zpsg p * exp (- (zpk p * t))) (m - j) * pw (v_given p z t) j * M (m - j, 0, 0)%Z t)).
    + intros j Hj. apply in_range in Hj.
      eapply adds_bind; [apply (c2_pol1_sp m j); lia|]. intros pol1 [A1 A2].
      eapply adds_bind; [apply (c2_moment_IE_spec (m - j)); lia|]. intros pol2 [(_ & _ & B1) B2].
      intros a Ha. pose proof (c2_mul_sp pol1 pol2 A1 (allk_weaken _ _ _ B1 (fun k h => proj1 h)) a Ha) as h.
      eapply returns_weaken; [exact h|]. intros a' [W' e]. split; [assumption|].
      intros [[[p z] t] [M [HM Ht]]]. cbn [projT1 projT2 proj1_sig fst snd] in *. unfold ev in *. cbn [projT1]. rewrite (e (p, z, t)). unfold c2m3.
      rewrite A2, (B2 p z M HM t Ht). reflexivity.
    + apply wfl_nil.
  - intros a [[U A] e]. cbn [returns].
    destruct (remove_zero_sp c2ok c2m3 kf_c2 (mkPoly a kf_c2) (conj eq_refl (conj U A))) as (W & _ & h).
    split; [exact W|]. intros p z M t Om E IE H. rewrite (E_v_path p z M t E IE m Hm H).
    assert (H' := H). destruct H' as (HM & Ht & _).
    specialize (e (existT _ (p, z, t) (exist _ M (conj HM Ht)))). unfold ev in e. cbn [projT1 projT2 proj1_sig] in e.
    specialize (h (p, z, t)). unfold evp in h. cbn [items] in h. unfold c2m3 in h, e. rewrite h, e. cbn [eval]. ring.
Qed.
Lemma c2_moment_v_negative m : (m < 0)%Z -> c2_moment_v m = Ok (mkPoly [] kf_c2).
Proof.
  intro Hm. unfold c2_moment_v. destruct (Z.eqb_spec m 0); [lia|]. destruct (Z.eqb_spec m 1); [lia|].
  rewrite range_nil by lia. reflexivity.
Qed.

(** ** cmoment_v *)
Lemma c2_cmoment_v_spec m : (0 <= m)%Z -> returns (c2_cmoment_v m) (fun r => wfp c2ok kf_c2 r /\
  forall p z M t Om (E : (Om -> R) -> R) IE, MIE p z M t E IE m ->
    eval (c2mon p z t) (items r) = E (fun w => pw (v_path p z t (IE w) - E (fun w => v_path p z t (IE w))) m)).
Proof.
  intro Hm. unfold c2_cmoment_v. eapply returns_bind; [now apply c2_moment_IE_spec|].
  intros q [(_ & _ & W) h]. cbn [returns].
  destruct (adds_fold c2ok c2m3 (fun kv => (addat 4 (- m) (addat 3 m (fst (fst kv))), snd (fst kv))) (fun kv => snd kv) (items q))
    with (s := @nil (c2key * Q)) as [[h1 h2] h3]; [|apply wfl_nil|].
  { intros [[k lo] v] Hin. pose proof (allk_in _ _ _ _ W Hin) as (Hk & H4). cbn [fst snd].
    destruct (c2ok_inv _ _ Hk) as (x0 & x1 & x2 & x3 & x4 & -> & ? & ? & ? & ? & Hs). cbn [addat].
    apply c2ok_intro; trivial. lia. }
  split; [exact (conj eq_refl (conj h1 h2))|]. intros p z M t Om E IE H. cbn [items].
  specialize (h3 (p, z, t)). unfold ev, c2m3 in h3. cbn [eval] in h3. rewrite h3, Rplus_0_l.
  destruct H as (HM & Ht & HE & HI).
  assert (EV : (1 <= m)%Z -> E (fun w => v_path p z t (IE w)) = v_given p z t).
  { intro H1. unfold v_path.
    rewrite (E_ext E HE _ (fun w => v_given p z t * pw (IE w) 0 + zpsg p * exp (- (zpk p * t)) * pw (IE w) 1))
      by (intro w; rewrite pw_0, pw_1; ring).
    rewrite (E_plus E HE), !(E_scal E HE), !HI, (M_0 p z M t HM Ht), (M_1 p z M t HM Ht) by lia. ring. }
  transitivity (pw (zpsg p * exp (- (zpk p * t))) m * M (m, 0, 0)%Z t).
  - rewrite <- (h p z M HM t Ht), sumR_eval, <- sumR_scal. apply sumR_ext. intros [[k lo] v] Hin. cbn [fst snd].
    pose proof (allk_in _ _ _ _ W Hin) as (Hk & H4).
    destruct (c2ok_inv _ _ Hk) as (x0 & x1 & x2 & x3 & x4 & -> & ? & ? & ? & ? & Hs). cbn [addat].
    rewrite !c2mon_key. unfold c2B, nthZ. cbn [nth]. rewrite pw_mult, pw_exp_opp, (pow_lemma_pw (zpsg p)) by (try (right; lia); lia).
    rewrite plus_IZR, Rmult_plus_distr_r, exp_plus. ring.
  - rewrite <- HI, <- (E_scal E HE) by lia. apply (E_ext E HE). intro w.
    destruct (Z.eq_dec m 0) as [->|ne]; [rewrite !pw_0; ring|].
    rewrite EV, <- pw_mult by lia. f_equal. unfold v_path. ring.
Qed.
Lemma c2_cmoment_v_negative m : (m < 0)%Z -> c2_cmoment_v m = Err KeyError.
Proof. intro Hm. unfold c2_cmoment_v. now rewrite c2_moment_IE_negative. Qed.

(** ** fZ and poly2num *)
Lemma nthZ_zero_like l i : nthZ (zero_like l) i = 0%Z.
Proof.
  unfold nthZ, zero_like. revert i. induction l as [|x r IH]; intros [|i]; cbn [map nth]; trivial.
Qed.
Lemma fz2_loop_eq l o k s J idx : forall ii f smax,
  fz2_loop l o k s J idx ii f smax = fz_loop l (zero_like l) o (zero_like o) k s J idx ii f smax.
Proof.
  induction idx as [|j r IH]; intros ii f smax; [reflexivity|]. cbn [fz2_loop fz_loop].
  unfold fz_factor, fz_maxfactor. destruct ii as [|i1]; rewrite IH; f_equal; rewrite ?nthZ_zero_like, !pw_0; ring.
Qed.
Lemma c2_fZ_eq l o k s J : c2_fZ l o k s J = fZ l (zero_like l) o (zero_like o) k s J.
Proof.
  unfold c2_fZ, fZ. destruct (Nat.eqb (length l) 0); [reflexivity|]. destruct (Nat.eqb (length J) 0); [reflexivity|].
  do 3 f_equal. apply functional_extensionality. intro idx. apply functional_extensionality. intro val.
  unfold fZ_each_index. now rewrite fz2_loop_eq.
Qed.
Lemma c2_fZ_spec lo k z : oshape lo ->
  c2_fZ (fst lo) (snd lo) k (map fst z) (map snd z) = Ok (fZ2_path k z lo).
Proof.
  intro h. rewrite c2_fZ_eq. unfold fZ2_path, fZ_path. destruct lo as [l o]. unfold oshape in h. cbn [fst snd] in *.
  destruct l as [|l1 lr]; [reflexivity|]. destruct z as [|sj z]; [reflexivity|].
  apply fZ_correct; cbn [map]; try discriminate; rewrite ?zero_len; cbn [length pred] in *; lia.
Qed.
Lemma upto_all h z : (forall sj, In sj z -> fst sj <= h) -> upto h z = z.
Proof.
  intro H. induction z as [|sj z IH]; [reflexivity|]. cbn [upto filter].
  destruct (Rle_dec (fst sj) h) as [_|n]; [|contradiction n; apply H; now left].
  f_equal. apply IH. intros; apply H; now right.
Qed.
Lemma c2_poly2num_spec poly v0 k theta sigma h z : allk c2ok (items poly) -> k <> 0 -> (forall sj, In sj z -> fst sj <= h) ->
  c2_poly2num poly v0 k theta sigma h (map fst z) (map snd z) = Ok (eval (c2mon (mkZpar k v0 theta sigma) z h) (items poly)).
Proof.
  intros W Hk Hz. unfold c2_poly2num.
  assert (G : forall l f, allk c2ok l -> foldM (fun f kv =>
    let K := fst (fst kv) in
    let val := pw v0 (nthZ K 0) * pw k (- nthZ K 1) * pw theta (nthZ K 2) * pw sigma (nthZ K 3) in
    let val := val * exp (IZR (nthZ K 4) * k * h) in
    let! z := c2_fZ (fst (snd (fst kv))) (snd (snd (fst kv))) k (map fst z) (map snd z) in
    Ok (f + val * z * Q2R (snd kv))) l f = Ok (f + eval (c2mon (mkZpar k v0 theta sigma) z h) l)).
  { induction l as [|[[K lo] v] r IH]; intros f Wl.
    - cbn [foldM eval]. now rewrite Rplus_0_r.
    - assert (HK : c2ok (K, lo)) by (apply Wl; now left).
      destruct (c2ok_inv _ _ HK) as (x0 & x1 & x2 & x3 & x4 & -> & ? & ? & ? & ? & Hs).
      cbn [foldM fst snd]. rewrite c2_fZ_spec by assumption. cbn [bind]. rewrite IH.
      2: { intros key Hkey. apply Wl. now right. }
      f_equal. cbn [eval fst snd]. unfold c2mon. cbn [fst snd monx zpv zpk zpth zpsg]. rewrite upto_all by assumption.
      unfold nthZ. cbn [nth]. rewrite pw_exp.
      replace (pw k (- x1)) with (pw (/ k) x1).
      2: { unfold pw. rewrite powerRZ_neg', <- powerRZ_inv'. reflexivity. }
      replace (IZR x4 * k * h) with (IZR x4 * (k * h)) by ring. ring. }
  rewrite G by assumption. now rewrite Rplus_0_l.
Qed.
