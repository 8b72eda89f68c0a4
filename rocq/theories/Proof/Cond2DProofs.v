(** C59: m(l, par) and cm(l, par) given the jumps, over dicts (Model/Cond2D.v). *)
From Coq Require Import Reals Lra.
From Verif.Spec Require Import Cond2Dict.
From Verif.Proof Require Import ItoProofs KeyInv MonTac SumFacts DecodeProofs ScalarDProofs StackProofs UtilsProofs SrjdCond2V SvvjW SvcjCond2W JumpTimes.
From Verif.Model Require Import Cond2D.
Local Open Scope R_scope.

(** ** fZ *)
Lemma geti_ok l i : (i < length l)%nat -> geti l i = Ok (nthZ l i).
Proof. intro H. unfold geti, nthZ. now rewrite (nth_error_nth' l 0%Z H). Qed.
Lemma getr_ok l j : (0 <= j < Z.of_nat (length l))%Z -> getr l j = Ok (nthR l j).
Proof. intro H. unfold getr, nthR. rewrite (nth_error_nth' l 0) by lia. reflexivity. Qed.
Lemma getr_no l j : (Z.of_nat (length l) <= j)%Z -> getr l j = Err IndexError.
Proof. intro H. unfold getr. now rewrite (proj2 (nth_error_None l (Z.to_nat j))) by lia. Qed.
Lemma nthZ_nn l i : nnl l -> (0 <= nthZ l i)%Z.
Proof. intro H. unfold nthZ. revert i. induction H; intros [|i]; cbn [nth]; trivial; lia. Qed.

Definition inJ (J : list R) (idx : list Z) : Prop := Forall (fun j => 0 <= j < Z.of_nat (length J))%Z idx.
Section FZ.
Variables (l o p q : list Z) (k : R) (s J : list R).
Hypothesis (Ho : length o = length l) (Hp : length p = pred (length l)) (Hq : length q = pred (length l)) (No : nnl o) (Nq : nnl q).
Lemma fzd_loop_sp : forall idx ii f M, inJ J idx -> (ii + length idx = length l)%nat ->
  (Forall (fun j => j < Z.of_nat (length s))%Z idx -> fzd_loop l o p q k s J idx ii f M = Ok (fz_loop l o p q k s J idx ii f M)) /\
  (Exists (fun j => Z.of_nat (length s) <= j)%Z idx -> fzd_loop l o p q k s J idx ii f M = Err IndexError).
Proof.
  induction idx as [|j r IH]; intros ii f M HJ Hl; [split; [reflexivity|intro H; inversion H]|].
  inversion HJ as [|? ? hj hr]; subst. cbn [length] in Hl. cbn [fzd_loop fz_loop].
  destruct (Z.lt_ge_cases j (Z.of_nat (length s))) as [Hs|Hs].
  - rewrite (getr_ok s) by lia. rewrite (getr_ok J) by lia. rewrite !geti_ok by lia. cbn [bind].
    rewrite pypow_ok by (right; now apply nthZ_nn). cbn [bind].
    destruct ii as [|i1].
    + destruct (IH 1%nat (f * fz_factor k s J (nthZ l 0) (nthZ o 0) j) M hr ltac:(lia)) as [h1 h2]. split; intro H; inversion H; subst; [now apply h1|lia|now apply h2].
    + rewrite !geti_ok by lia. cbn [bind]. rewrite pypow_ok by (right; now apply nthZ_nn). cbn [bind].
      match goal with |- context [fz_loop l o p q k s J r ?i ?g ?m] => destruct (IH i g m hr ltac:(lia)) as [h1 h2] end.
      split; intro H; inversion H; subst; [now apply h1|lia|now apply h2].
  - split; [intro H; inversion H; lia|]. intros _. now rewrite getr_no by lia.
Qed.
Lemma fzd_leaf_sp idx v : inJ J idx -> length idx = length l -> l <> [] ->
  (Forall (fun j => j < Z.of_nat (length s))%Z idx -> fzd_leaf l o p q k s J idx (Ok v) = Ok (v + fZ_each_index l o p q k s J idx)) /\
  (Exists (fun j => Z.of_nat (length s) <= j)%Z idx -> fzd_leaf l o p q k s J idx (Ok v) = Err IndexError).
Proof.
  intros HJ Hl Hn. destruct idx as [|j r]; [destruct l; [contradiction|discriminate]|].
  unfold fzd_leaf. cbn [bind]. rewrite geti_ok by (cbn [length]; lia). cbn [bind]. change (nthZ (j :: r) 0) with j.
  assert (hj : (0 <= j)%Z) by (inversion HJ; lia).
  destruct (Z.lt_ge_cases j (Z.of_nat (length s))) as [Hs|Hs].
  - rewrite getr_ok by lia. cbn [bind]. destruct (fzd_loop_sp (j :: r) 0 1 (nthR s j) HJ Hl) as [h1 h2].
    split; intro H; [now rewrite (h1 H)|now rewrite (h2 H)].
  - split; [intro H; inversion H; lia|]. intros _. now rewrite getr_no by lia.
Qed.
End FZ.
Lemma split_tuple (s : list R) idx : Forall (fun j => j < Z.of_nat (length s))%Z idx \/ Exists (fun j => Z.of_nat (length s) <= j)%Z idx.
Proof.
  induction idx as [|j r [IH|IH]]; [left; constructor| |right; now right].
  destruct (Z.lt_ge_cases j (Z.of_nat (length s))); [left; now constructor|right; now left].
Qed.
(** a loop over the tuples with an accumulator that may be an error *)
Lemma fold_res (leaf : list Z -> res R -> res R) (g : list Z -> R) (bad : list Z -> Prop) e : (forall t, leaf t (Err e) = Err e) -> forall ts,
  (forall t v, In t ts -> (leaf t (Ok v) = Ok (v + g t) /\ ~ bad t) \/ (leaf t (Ok v) = Err e /\ bad t)) -> forall v,
  (fold_left (fun a t => leaf t a) ts (Ok v) = Ok (fold_left (fun a t => a + g t) ts v) /\ forall t, In t ts -> ~ bad t) \/
  (fold_left (fun a t => leaf t a) ts (Ok v) = Err e /\ exists t, In t ts /\ bad t).
Proof.
  intro He. assert (Hf : forall ts, fold_left (fun a t => leaf t a) ts (Err e) = Err e) by (induction ts as [|t ts IH]; cbn [fold_left]; [reflexivity|now rewrite He]).
  induction ts as [|t ts IH]; intros H v; [left; split; [reflexivity|intros ? []]|]. cbn [fold_left].
  destruct (H t v (or_introl eq_refl)) as [[E B]|[E B]]; rewrite E.
  - destruct (IH (fun t v Ht => H t v (or_intror Ht)) (v + g t)) as [[h1 h2]|[h1 (t' & h2 & h3)]]; rewrite h1.
    + left. split; [reflexivity|]. intros t' [<-|Ht]; [exact B|now apply h2].
    + right. split; [reflexivity|]. exists t'. split; [now right|exact h3].
  - right. rewrite Hf. split; [reflexivity|]. exists t. split; [now left|exact B].
Qed.
(** the sum exists, or a tuple needs a jump time that is missing *)
Lemma fZd_sp l o p q k s J : jshape (l, o, p, q) -> nnj (l, o, p, q) ->
  (~ ((length s < length J)%nat /\ l <> []) -> fZ_d l o p q k s J = Ok (fZ_at k s J (l, o, p, q))) /\
  ((length s < length J)%nat /\ l <> [] -> fZ_d l o p q k s J = Err IndexError).
Proof.
  intros (Ho & Hp & Hq) [No Nq]. unfold fZ_d, fZ_at. destruct l as [|l0 l].
  { cbn [length Nat.eqb]. split; [|intros [_ h]; contradiction]. intros _. reflexivity. }
  destruct J as [|J0 J].
  { cbn [length Nat.eqb]. split; [|intros [h _]; inversion h]. intros _. destruct o as [|o0 o]; [discriminate|]. reflexivity. }
  assert (EZ : fZ (l0 :: l) o p q k s (J0 :: J) = Ok (fZ_sum k s (J0 :: J) (l0 :: l) o p q)).
  { apply fZ_correct; try discriminate; cbn [length pred] in *; lia. }
  unfold fZ in EZ. change (Nat.eqb (length (l0 :: l)) 0) with false in *. change (Nat.eqb (length (J0 :: J)) 0) with false in *. cbn iota in *.
  rewrite index_run in EZ by (cbn [length]; lia). rewrite index_run by (cbn [length]; lia). cbn [to_res bind] in *.
  match type of EZ with Ok ?a = Ok ?b => assert (EZ' : a = b) by congruence end. clear EZ. rename EZ' into EZ.
  set (L := l0 :: l) in *. set (JJ := J0 :: J) in *. rewrite Nat2Z.id in *.
  destruct (fold_res (fzd_leaf L o p q k s JJ) (fZ_each_index L o p q k s JJ) (fun t => Exists (fun j => Z.of_nat (length s) <= j)%Z t) IndexError
    ltac:(reflexivity) (tuples (Z.of_nat (length JJ)) (length L))) with (v := 0) as [[h1 h2]|[h1 (t & h2 & h3)]].
  - intros t v Ht. apply in_tuples in Ht. destruct Ht as [Hlt Hft].
    destruct (fzd_leaf_sp L o p q k s JJ Ho Hp Hq No Nq t v Hft Hlt ltac:(discriminate)) as [g1 g2].
    destruct (split_tuple s t) as [B|B]; [left; split; [now apply g1|]|right; split; [now apply g2|exact B]].
    intro B2. apply Exists_exists in B2. destruct B2 as (j & Hj & Hj2). pose proof (proj1 (Forall_forall _ _) B j Hj). cbn in *. lia.
  - rewrite h1, EZ. split; [reflexivity|]. intros [Hs _]. exfalso.
    apply (h2 (repeat (Z.of_nat (length s)) (length L))).
    + apply in_tuples. split; [apply repeat_length|]. apply Forall_forall. intros j Hj. apply repeat_spec in Hj. lia.
    + unfold L. cbn [length repeat]. constructor. lia.
  - rewrite h1. split; [|reflexivity]. intro H. exfalso. apply H. split; [|discriminate].
    apply in_tuples in h2. destruct h2 as [_ h2]. apply Exists_exists in h3. destruct h3 as (j & Hj & Hj2).
    pose proof (proj1 (Forall_forall _ _) h2 j Hj). cbn in *. lia.
Qed.

(** ** the loop of poly2num *)
Section Loop.
Context {K : Type}.
Variables (val : K -> res R) (mon : K -> R) (zd sh : K -> Prop).
(** what happens at a key *)
Definition at_key (k : K) : Prop :=
  (~ zd k /\ ~ sh k /\ val k = Ok (mon k)) \/ (zd k /\ ~ sh k /\ val k = Err ZeroDivisionError) \/
  (~ zd k /\ sh k /\ val k = Err IndexError) \/ (zd k /\ sh k /\ (val k = Err ZeroDivisionError \/ val k = Err IndexError)).
Definition some_key (P : K -> Prop) (p : Poly K) : Prop := exists k c, In (k, c) (items p) /\ P k.
Lemma p2n_cases (p : Poly K) : allk at_key (items p) ->
  (~ some_key zd p /\ ~ some_key sh p /\ p2n_loop val p = Ok (eval mon (items p))) \/
  (some_key zd p /\ ~ some_key sh p /\ p2n_loop val p = Err ZeroDivisionError) \/
  (~ some_key zd p /\ some_key sh p /\ p2n_loop val p = Err IndexError) \/
  (some_key zd p /\ some_key sh p /\ (p2n_loop val p = Err ZeroDivisionError \/ p2n_loop val p = Err IndexError)).
Proof.
  unfold p2n_loop, some_key. destruct p as [l kf]. cbn [items].
  assert (H : forall a, allk at_key l ->
    let r := foldM (fun f (kv : K * Q) => let! x := val (fst kv) in Ok (f + x * Q2R (snd kv))) l a in
    let Z := exists k c, In (k, c) l /\ zd k in let S := exists k c, In (k, c) l /\ sh k in
    (~ Z /\ ~ S /\ r = Ok (a + eval mon l)) \/ (Z /\ ~ S /\ r = Err ZeroDivisionError) \/ (~ Z /\ S /\ r = Err IndexError) \/
    (Z /\ S /\ (r = Err ZeroDivisionError \/ r = Err IndexError))).
  { induction l as [|[k c] l IH]; intros a A.
    - left. cbn [foldM eval In]. rewrite Rplus_0_r. repeat split; trivial; intros (? & ? & [] & _).
    - assert (Z0 : forall P : K -> Prop, (exists k0 c0, In (k0, c0) ((k, c) :: l) /\ P k0) <-> P k \/ exists k0 c0, In (k0, c0) l /\ P k0).
      { intro P. split.
        - intros (k0 & c0 & [E|Hin] & HP); [injection E as -> ->; now left|right; eauto].
        - intros [HP|(k0 & c0 & Hin & HP)]; [exists k, c; split; [now left|exact HP]|exists k0, c0; split; [now right|exact HP]]. }
      cbv zeta. rewrite !Z0. cbn [foldM fst snd eval].
      assert (Al : allk at_key l) by (intros k' Hk'; apply A; now right).
      destruct (A k (or_introl eq_refl)) as [(h1 & h2 & ->)|[(h1 & h2 & ->)|[(h1 & h2 & ->)|(h1 & h2 & h3)]]]; cbn [bind].
      + specialize (IH (a + mon k * Q2R c) Al). cbv zeta in IH. replace (a + (Q2R c * mon k + eval mon l)) with (a + mon k * Q2R c + eval mon l) by ring. tauto.
      + specialize (IH 0 Al). cbv zeta in IH. tauto.
      + specialize (IH 0 Al). cbv zeta in IH. tauto.
      + specialize (IH 0 Al). cbv zeta in IH. destruct h3 as [-> | ->]; cbn [bind]; tauto. }
  intro A. specialize (H 0 A). cbv zeta in H. rewrite Rplus_0_l in H. exact H.
Qed.
End Loop.
Lemma at_key_weaken {K} (val val' : K -> res R) mon mon' zd sh k : (val k = val' k) -> mon k = mon' k -> at_key val mon zd sh k -> at_key val' mon' zd sh k.
Proof. unfold at_key. now intros -> ->. Qed.
Lemma fin {K} (val : K -> res R) mon (zd sum : K -> Prop) (sh : Prop) (r : Poly K) :
  allk (at_key val mon zd (fun k => sh /\ sum k)) (items r) ->
  let ZD := has_key zd (Ok r) in let S := sh /\ has_key sum (Ok r) in
  (~ ZD -> ~ S -> p2n_loop val r = Ok (eval mon (items r))) /\ (ZD -> ~ S -> p2n_loop val r = Err ZeroDivisionError) /\
  (~ ZD -> S -> p2n_loop val r = Err IndexError) /\ (ZD -> S -> p2n_loop val r = Err ZeroDivisionError \/ p2n_loop val r = Err IndexError).
Proof.
  intro A. cbv zeta.
  assert (E1 : forall P : K -> Prop, has_key P (Ok r) <-> some_key P r).
  { intro P. split; [intros (r' & k & c & [= <-] & h)|intros (k & c & h)]; [exists k, c; exact h|exists r, k, c; split; [reflexivity|exact h]]. }
  assert (E2 : sh /\ has_key sum (Ok r) <-> some_key (fun k => sh /\ sum k) r).
  { rewrite E1. split; [intros (h & k & c & h1 & h2); exists k, c; tauto|intros (k & c & h1 & h2 & h3); split; [exact h2|exists k, c; tauto]]. }
  rewrite E2, (E1 zd). destruct (p2n_cases _ _ _ _ r A) as [(h1 & h2 & h3)|[(h1 & h2 & h3)|[(h1 & h2 & h3)|(h1 & h2 & h3)]]]; tauto.
Qed.
Lemma fin_m {K} (val : K -> res R) mon (sum : K -> Prop) (sh : Prop) (r : Poly K) :
  allk (at_key val mon (fun _ => False) (fun k => sh /\ sum k)) (items r) ->
  (~ (sh /\ has_key sum (Ok r)) -> p2n_loop val r = Ok (eval mon (items r))) /\ (sh /\ has_key sum (Ok r) -> p2n_loop val r = Err IndexError).
Proof.
  intro A. destruct (fin val mon (fun _ => False) sum sh r A) as (h1 & _ & h3 & _).
  assert (N : ~ has_key (fun _ : K => False) (Ok r)) by (intros (? & ? & ? & _ & _ & [])). tauto.
Qed.

(** ** the values at a key *)
Lemma nth8 (k : list Z) : length k = 8%nat -> (forall i, i <> O -> (0 <= nth i k 0)%Z) ->
  exists a b c d e f g h, k = [a; b; c; d; e; f; g; h] /\ (0 <= b /\ 0 <= c /\ 0 <= d /\ 0 <= e /\ 0 <= f /\ 0 <= g /\ 0 <= h)%Z.
Proof.
  intros Hl Hn. destruct k as [|a [|b [|c [|d [|e [|f [|g [|h [|? ?]]]]]]]]]; try discriminate.
  exists a, b, c, d, e, f, g, h. split; [reflexivity|].
  exact (conj (Hn 1%nat ltac:(lia)) (conj (Hn 2%nat ltac:(lia)) (conj (Hn 3%nat ltac:(lia)) (conj (Hn 4%nat ltac:(lia)) (conj (Hn 5%nat ltac:(lia)) (conj (Hn 6%nat ltac:(lia)) (Hn 7%nat ltac:(lia)))))))).
Qed.
Lemma x3 (x : list Z) w : length x = (3 + w)%nat -> Forall (fun y => 0 <= y)%Z x ->
  exists a b c r, x = a :: b :: c :: r /\ (0 <= a /\ 0 <= b /\ 0 <= c)%Z /\ length r = w /\ nnl r.
Proof.
  intros Hl Hf. destruct x as [|a [|b [|c r]]]; try discriminate. exists a, b, c, r. inversion Hf as [|? ? h1 h2]; subst.
  inversion h2 as [|? ? h3 h4]; subst. inversion h4; subst. injection Hl as Hl. repeat split; trivial.
Qed.
Definition sv_at0 (a : list R) (k sigma rho : R) (t J : list R) (key : svkey) : R :=
  let x := sigma / (2 * k) in
  monx a (fst (fst key)) * fZ_at k t J (snd (fst key)) * (monx [x; rho - x] (snd key) * pw (1 - rho ^ 2) (nth 2 (snd key) 0%Z / 2)).
Definition c6 (v0 k theta sigma h : R) : list R := [exp (k * h); h; / k; v0 - theta; theta; sigma].
Definition c8 (v0 mu k theta sigma h : R) : list R :=
  [exp (k * h); h; / k; (1 - exp (- (k * h))) / (2 * k); mu - theta / 2; v0 - theta; theta; sigma].
Notation shorter s J := (length s < length J)%nat.

Lemma tail_ok k sigma rho x0 x1 x2 : k <> 0 -> (0 <= x0 /\ 0 <= x1 /\ 0 <= x2)%Z -> Z.even x2 = true ->
  forall e : R, (let! x := pydiv sigma (2 * k) in let! c := pypow x x0 in let! d := pypow (rho - x) x1 in
   let! h := halfpow (1 - rho ^ 2) x2 in Ok (e * (c * d * h)))
  = Ok (e * (pw (sigma / (2 * k)) x0 * pw (rho - sigma / (2 * k)) x1 * pw (1 - rho ^ 2) (x2 / 2))).
Proof.
  intros Hk (h0 & h1 & h2) He e. rewrite pydiv_ok by lra. cbn [bind]. rewrite !pypow_ok by (right; assumption). cbn [bind].
  unfold halfpow. rewrite He. rewrite pypow_ok by (right; apply Z.div_pos; lia). reflexivity.
Qed.
Lemma tail_zd k sigma rho x0 x1 x2 : k = 0 -> forall e : R,
  (let! x := pydiv sigma (2 * k) in let! c := pypow x x0 in let! d := pypow (rho - x) x1 in
   let! h := halfpow (1 - rho ^ 2) x2 in Ok (e * (c * d * h))) = Err ZeroDivisionError.
Proof. intros -> e. unfold pydiv. destruct (Req_EM_T (2 * 0) 0) as [_|n]; [reflexivity|]. contradiction n. ring. Qed.

Ltac nnp := repeat (apply Forall_cons; [cbn [fst snd]; first [right; lia|left; assumption]|]); apply Forall_nil.
Lemma svc_key v0 k theta sigma rho h s J w key : svok 6 (3 + w) key -> nsv key ->
  at_key (svc_val v0 k theta sigma rho h s J) (sv_at0 (c6 v0 k theta sigma h) k sigma rho s J) (fun _ => k = 0) (fun key => shorter s J /\ sv_sum key) key.
Proof.
  intros (Hl & Hn & Hs & Hw & Hx & He) HN. destruct key as [[K lopq] X]. cbn [fst snd] in *.
  destruct (nth6 K Hl Hn) as (a & b & c & d & e & f & -> & Hb & Hc & Hd & Hee & Hf).
  destruct (x3 X w Hw Hx) as (x0 & x1 & x2 & r & -> & X012 & _). cbn [nth] in He.
  destruct lopq as [[[l o] p] q]. destruct (fZd_sp l o p q k s J Hs HN) as [Z1 Z2].
  unfold at_key, svc_val, sv_at0, sv_sum, c6, nthZ. cbn [fst snd nth monx].
  rewrite (pows_ok [(v0 - theta, d); (theta, e); (sigma, f)]) by nnp.
  destruct (Req_EM_T k 0) as [Hk|Hk].
  - assert (Dz : {(length s < length J)%nat /\ l <> []} + {~ ((length s < length J)%nat /\ l <> [])}).
    { destruct (lt_dec (length s) (length J)); [|right; tauto]. destruct l; [right|left]; [|split; [assumption|discriminate]]. intros [_ N]; now apply N. }
    destruct (Z.lt_ge_cases 0 c) as [C|C].
    { assert (EP : pows [(h, b); (k, (- c)%Z)] = Err ZeroDivisionError).
      { apply pows_bad. right. left. split; cbn [fst snd]; [exact Hk|lia]. }
      rewrite EP. cbn [bind]. tauto. }
    assert (EP : pows [(h, b); (k, (- c)%Z)] = Ok (prodR (fun xn => pw (fst xn) (snd xn)) [(h, b); (k, (- c)%Z)])).
    { apply pows_ok. nnp. }
    rewrite EP. cbn [bind]. destruct Dz as [D|D].
    + rewrite (Z2 D). cbn [bind]. tauto.
    + rewrite (Z1 D). cbn [bind]. rewrite (tail_zd k sigma rho x0 x1 x2 Hk). tauto.
  - assert (EP : pows [(h, b); (k, (- c)%Z)] = Ok (prodR (fun xn => pw (fst xn) (snd xn)) [(h, b); (k, (- c)%Z)])).
    { apply pows_ok. nnp. }
    rewrite EP. cbn [bind].
    assert (Dz : {(length s < length J)%nat /\ l <> []} + {~ ((length s < length J)%nat /\ l <> [])}).
    { destruct (lt_dec (length s) (length J)); [|right; tauto]. destruct l; [right|left]; [|split; [assumption|discriminate]]. intros [_ N]; now apply N. }
    destruct Dz as [D|D].
    + rewrite (Z2 D). cbn [bind]. tauto.
    + rewrite (Z1 D). cbn [bind]. rewrite (tail_ok k sigma rho x0 x1 x2 Hk X012 He). left. split; [exact Hk|]. split; [exact D|]. f_equal.
      cbn [prodR fst snd]. rewrite pw_inv_neg. replace (IZR a * k * h) with (IZR a * (k * h)) by ring. rewrite exp_pwp. ring.
Qed.
Lemma svm_key v0 mu k theta sigma rho h s J w key : k <> 0 -> svok 8 (3 + w) key -> nsv key ->
  at_key (svm_val ((1 - exp (- k * h)) / (2 * k)) v0 mu k theta sigma rho h s J) (sv_at0 (c8 v0 mu k theta sigma h) k sigma rho s J)
    (fun _ => False) (fun key => shorter s J /\ sv_sum key) key.
Proof.
  intros Hk (Hl & Hn & Hs & Hw & Hx & He) HN. destruct key as [[K lopq] X]. cbn [fst snd] in *.
  destruct (nth8 K Hl Hn) as (a & b & c & d & e & f & g & g' & -> & Hb & Hc & Hd & Hee & Hf & Hg & Hg').
  destruct (x3 X w Hw Hx) as (x0 & x1 & x2 & r & -> & X012 & _). cbn [nth] in He.
  destruct lopq as [[[l o] p] q]. destruct (fZd_sp l o p q k s J Hs HN) as [Z1 Z2].
  unfold at_key, svm_val, sv_at0, sv_sum, c8, nthZ. cbn [fst snd nth monx].
  rewrite (pows_ok (((1 - exp (- k * h)) / (2 * k), d) :: _)) by nnp.
  assert (EP : pows [(h, b); (k, (- c)%Z)] = Ok (prodR (fun xn => pw (fst xn) (snd xn)) [(h, b); (k, (- c)%Z)])).
  { apply pows_ok. nnp. }
  rewrite EP. cbn [bind].
  assert (Dz : {(length s < length J)%nat /\ l <> []} + {~ ((length s < length J)%nat /\ l <> [])}).
  { destruct (lt_dec (length s) (length J)); [|right; tauto]. destruct l; [right|left]; [|split; [assumption|discriminate]]. intros [_ N]; now apply N. }
  destruct Dz as [D|D].
  + rewrite (Z2 D). cbn [bind]. tauto.
  + rewrite (Z1 D). cbn [bind]. rewrite (tail_ok k sigma rho x0 x1 x2 Hk X012 He). left. split; [tauto|]. split; [exact D|]. f_equal.
    cbn [prodR fst snd]. rewrite pw_inv_neg. replace (IZR a * k * h) with (IZR a * (k * h)) by ring.
    replace (- k * h) with (- (k * h)) by ring. rewrite exp_pwp. ring.
Qed.
(** further factors that are always defined *)
Lemma key_more {K} (val : K -> res R) mon zd sh (suf : R -> K -> res R) w key : at_key val mon zd sh key ->
  (forall v, suf v key = Ok (v * w)) -> at_key (fun key => let! v := val key in suf v key) (fun key => mon key * w) zd sh key.
Proof.
  intros A H. unfold at_key in *. destruct A as [(h1 & h2 & ->)|[(h1 & h2 & ->)|[(h1 & h2 & ->)|(h1 & h2 & [-> | ->])]]]; cbn [bind]; rewrite ?H; tauto.
Qed.
