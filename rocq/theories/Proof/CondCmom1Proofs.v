(** Proofs about mdl_1fsv/cond_cmom.py (C24). *)
From Coq Require Import Reals Lra.
From Coquelicot Require Import Coquelicot.
From Verif.Spec Require Export Ito Fsv1 Cond1.
From Verif.Model Require Export CondCmom1.
From Verif.Proof Require Export ItoProofs UtilsProofs DpolyProofs Recur.
Local Open Scope R_scope.

Definition c1ok (p : par) : Prop := pk p <> 0 /\ ps0 p = 0.
Definition c1p0 : par := mkPar 1 0 0 0 0.
Lemma c1ok0 : c1ok c1p0.
Proof. split; [simpl; lra|reflexivity]. Qed.
Definition c1mon (p : par) (t : R) : list Z -> R :=
  monx [exp (pk p * t); t; / pk p; pv p - pth p; pth p; psg p].
Definition c1P (_ : ito_idx) : list Z -> Prop := wfs [false; true; true; true; true; true].
Definition c1S (i : ito_idx) (_ : list Z) : Prop := Z.even (snd i) = true.

Lemma c1cont i k : c1P i k -> forall p, c1ok p -> forall t, continuous (fun t => c1mon p t k) t.
Proof.
  intros W p _ t. unfold c1P in W. wfs_destruct.
  apply (continuous_ext_all (fun t => exp (IZR x * (pk p * t)) * pw t x0 * (pw (/ pk p) x1 * (pw (pv p - pth p) x2 * (pw (pth p) x3 * pw (psg p) x4))))).
  { intro u. unfold c1mon. cbn [monx]. rewrite pw_exp. ring. }
  apply continuous_Rmult; [|apply continuous_Rconst]. apply continuous_Rmult.
  - apply continuous_Rexp. apply continuous_Rmult; [apply continuous_Rconst|].
    apply continuous_Rmult; [apply continuous_Rconst|apply continuous_Rid].
  - apply (continuous_of_derive _ _ (IZR x0 * 1 * pw t (x0 - 1))).
    apply (is_derive_pw (fun t => t)); [apply is_derive_Rid|]. now right.
Qed.

Definition c1fac (tp : Z) (p : par) : R :=
  if (tp =? 1)%Z then pv p - pth p else if (tp =? 2)%Z then pth p else psg p.
Definition c1g (c : Q) (tp m : Z) (p : par) (t : R) : R := Q2R c * c1fac tp p * exp (IZR m * (pk p * t)).

Notation c1iop := (iop c1ok c1mon kf_c1 c1P c1S).
Notation c1Good := (Goodr c1ok c1mon kf_c1 c1P c1S ito_dom ito_sys ito_init).
Notation c1Acc := (Accr c1ok c1mon kf_c1 c1P c1S ito_dom ito_sys ito_init).

Lemma c1_int_iop c tp m i j : Z.even (snd i) = Z.even (snd j) -> c1iop (c1_int c tp m) i j (c1g c tp m).
Proof.
  intros He q (h1 & h2 & h3 & h4). unfold c1_int.
  eapply returns_bind.
  - apply (ip_loop_sp c1ok c1p0 c1mon (fun p t => etmon (pk p) t) c1ok0 (c1P j) (c1S j) (c1P i) (c1S i) etk
      (fun k1 => int_et (m + nthZ k1 0) (nthZ k1 1)) (c1_key tp) (fun k1 v1 k2 v2 => qmul (qmul c v1) v2)
      (fun p k t => exp (IZR (m + nthZ k 0) * (pk p * t)) * pw t (nthZ k 1))
      (fun p k => Q2R c * c1fac tp p * (pw (/ pk p) (nthZ k 2) * pw (pv p - pth p) (nthZ k 3) * pw (pth p) (nthZ k 4) * pw (psg p) (nthZ k 5)))
      (c1g c tp m)); [| | | | | |exact h3|exact h4].
    + intros k W. unfold c1P in W. wfs_destruct. cbn [nthZ nth].
      eapply returns_weaken; [apply int_et_spec; assumption|]. intros r (_ & w & v). split; [assumption|].
      intros p [Hp _]. now apply v.
    + intros k1 k2 W1 (l2 & w2 & w3). unfold c1P in *. wfs_destruct. destruct k2 as [|a [|b [|d [|? ?]]]]; try discriminate.
      unfold nthZ in w2, w3; cbn [nth] in w2, w3. unfold c1_key.
      destruct (tp =? 1)%Z, (tp =? 2)%Z; unfold nthZ; cbn [nth addat wfs]; repeat split; lia.
    + intros k1 v1 k2 v2 Sk _ _ _. unfold c1S in *. now rewrite He.
    + intros k1 v1 k2 v2 Hnz. apply qmul_nz in Hnz. destruct Hnz as [Hnz _]. now apply qmul_nz in Hnz.
    + intros p t k1 v1 k2 v2 [Hp _] W1 (l2 & w2 & w3). unfold c1P in W1. wfs_destruct.
      destruct k2 as [|a [|b [|d [|? ?]]]]; try discriminate.
      unfold nthZ in w2, w3; cbn [nth] in w2, w3. rewrite !Q2R_mul. unfold c1mon, etmon, c1_key, c1fac.
      destruct (tp =? 1)%Z; [|destruct (tp =? 2)%Z]; unfold nthZ; cbn [nth addat monx]; pws; ring.
    + intros p t k [Hp _] W. unfold c1P in W. wfs_destruct. unfold c1mon, c1g, nthZ; cbn [nth monx].
      rewrite pw_exp, exp_IZR_plus. ring.
  - intros a (u & w & s & v). cbn [returns]. split; [|exact v].
    split; [assumption|]. split; [assumption|]. split; assumption.
Qed.

Lemma c1g_cont c tp m p : c1ok p -> forall t, continuous (c1g c tp m p) t.
Proof.
  intros _ t. unfold c1g. apply continuous_Rmult; [apply continuous_Rconst|]. apply continuous_Rexp.
  apply continuous_Rmult; [apply continuous_Rconst|]. apply continuous_Rmult; [apply continuous_Rconst|apply continuous_Rid].
Qed.

Lemma c1_branch_sp C c poly m1 m2 m3 i j j' T q q' :
  c1Acc i T poly -> cget j C = Ok q -> c1Good j q -> cget j' C = Ok q' -> c1Good j' q' ->
  Z.even (snd i) = Z.even (snd j) -> Z.even (snd i) = Z.even (snd j') ->
  returns (c1_branch C c poly m1 m2 m3 j j')
    (c1Acc i (fun p => T p ++ [(c1g c 1 m1 p, j); (c1g c 2 m2 p, j); (c1g c 3 m3 p, j')])).
Proof.
  intros A Eq Gq Eq' Gq' He He'. unfold c1_branch, c1_merge. rewrite Eq, Eq'. cbn [bind].
  eapply returns_bind; [apply (acc_merge c1ok c1mon kf_c1 c1P c1S c1cont ito_dom ito_sys ito_init _ i j _ _ _ q A Gq (c1_int_iop c 1 m1 i j He)); intros; now apply c1g_cont|].
  intros p1 A1. cbn beta in A1.
  eapply returns_bind; [apply (acc_merge c1ok c1mon kf_c1 c1P c1S c1cont ito_dom ito_sys ito_init _ i j _ _ _ q A1 Gq (c1_int_iop c 2 m2 i j He)); intros; now apply c1g_cont|].
  intros p2 A2. cbn beta in A2.
  eapply returns_weaken; [apply (acc_merge c1ok c1mon kf_c1 c1P c1S c1cont ito_dom ito_sys ito_init _ i j' _ _ _ q' A2 Gq' (c1_int_iop c 3 m3 i j' He')); intros; now apply c1g_cont|].
  intros p3. apply Accr_ext. intros p M t _. now rewrite <- !app_assoc.
Qed.

Ltac get3 HQ j := let q := fresh "q" in let e := fresh "e" in let g := fresh "g" in
  destruct (HQ j) as (q & e & g); [unfold ito_dom; lia|unfold ord3; cbn [fst snd]; lia|].
Notation c1tab := (tab c1ok c1mon kf_c1 c1P c1S ito_dom ito_sys ito_init ord3).

Lemma c1_recursive_sp a b d C : ito_dom (a, b, d) -> (1 <= a + b + d)%Z ->
  c1tab (a + b + d - 2)%Z (a + b + d - 1)%Z C -> returns (c1_recursive a b d C) (c1Good (a, b, d)).
Proof.
  intros (h1 & h2 & h3) Hord HC. unfold c1_recursive.
  replace (0 <=? a)%Z with true by (symmetry; apply Z.leb_le; lia).
  replace (0 <=? b)%Z with true by (symmetry; apply Z.leb_le; lia).
  replace (0 <=? d)%Z with true by (symmetry; apply Z.leb_le; lia).
  rewrite !andb_true_r, !andb_true_l.
  set (i := (a, b, d)).
  set (T1 := fun p => if (2 <=? a)%Z then [(c1g (Frac (a * (a - 1)) 2) 1 1 p, (a - 2, b, d)%Z); (c1g (Frac (a * (a - 1)) 2) 2 2 p, (a - 2, b, d)%Z); (c1g (Frac (a * (a - 1)) 2) 3 1 p, (a - 1, b, d)%Z)] else []).
  set (T2 := fun p => if (2 <=? b)%Z then [(c1g (Frac (b * (b - 1)) 2) 1 (-1) p, (a, b - 2, d)%Z); (c1g (Frac (b * (b - 1)) 2) 2 0 p, (a, b - 2, d)%Z); (c1g (Frac (b * (b - 1)) 2) 3 (-1) p, (a + 1, b - 2, d)%Z)] else []).
  set (T3 := fun p => if ((1 <=? a) && (1 <=? b))%Z then [(c1g (Frac (a * b) 1) 1 0 p, (a - 1, b - 1, d)%Z); (c1g (Frac (a * b) 1) 2 1 p, (a - 1, b - 1, d)%Z); (c1g (Frac (a * b) 1) 3 0 p, (a, b - 1, d)%Z)] else []).
  set (T4 := fun p => if (2 <=? d)%Z then [(c1g (Frac (d * (d - 1)) 2) 1 (-1) p, (a, b, d - 2)%Z); (c1g (Frac (d * (d - 1)) 2) 2 0 p, (a, b, d - 2)%Z); (c1g (Frac (d * (d - 1)) 2) 3 (-1) p, (a + 1, b, d - 2)%Z)] else []).
  assert (HQ : forall j, ito_dom j -> (a + b + d - 2 <= ord3 j <= a + b + d - 1)%Z -> exists q, cget j C = Ok q /\ c1Good j q) by exact HC.
  eapply returns_bind.
  { instantiate (1 := c1Acc i T1). unfold T1. destruct (Z.leb_spec 2 a) as [Ha|Ha]; [|apply Accr_nil].
    get3 HQ (a - 2, b, d)%Z. get3 HQ (a - 1, b, d)%Z.
    eapply (c1_branch_sp C _ _ _ _ _ i _ _ (fun _ => [])); try eassumption; try reflexivity. apply Accr_nil. }
  intros q1 A1. eapply returns_bind.
  { instantiate (1 := c1Acc i (fun p => T1 p ++ T2 p)). unfold T2. destruct (Z.leb_spec 2 b) as [Hb|Hb].
    2: { cbn [returns]. revert A1. apply Accr_ext. intros. now rewrite app_nil_r. }
    get3 HQ (a, b - 2, d)%Z. get3 HQ (a + 1, b - 2, d)%Z.
    eapply (c1_branch_sp C _ _ _ _ _ i _ _ T1); try eassumption; reflexivity. }
  intros q2 A2. eapply returns_bind.
  { instantiate (1 := c1Acc i (fun p => (T1 p ++ T2 p) ++ T3 p)). unfold T3. destruct ((1 <=? a) && (1 <=? b))%Z eqn:Eab.
    2: { cbn [returns]. revert A2. apply Accr_ext. intros. now rewrite app_nil_r. }
    apply andb_prop in Eab. destruct Eab as [Ha Hb]. apply Z.leb_le in Ha, Hb.
    get3 HQ (a - 1, b - 1, d)%Z. get3 HQ (a, b - 1, d)%Z.
    eapply (c1_branch_sp C _ _ _ _ _ i _ _ (fun p => T1 p ++ T2 p)); try eassumption; reflexivity. }
  intros q3 A3.
  apply returns_weaken with (P := c1Acc i (fun p => ((T1 p ++ T2 p) ++ T3 p) ++ T4 p)).
  { unfold T4. destruct (Z.leb_spec 2 d) as [Hd|Hd].
    2: { cbn [returns]. revert A3. apply Accr_ext. intros. now rewrite app_nil_r. }
    assert (Ed : Z.even d = Z.even (d - 2)) by (rewrite Z.even_sub; now destruct (Z.even d)).
    get3 HQ (a, b, d - 2)%Z. get3 HQ (a + 1, b, d - 2)%Z.
    eapply (c1_branch_sp C _ _ _ _ _ i _ _ (fun p => (T1 p ++ T2 p) ++ T3 p)); eassumption. }
  intros r A4. apply Goodr_of_Accr; [|unfold i, ito_dom; auto|apply ito_init_0; unfold i, ord3; cbn [fst snd]; lia].
  revert A4. apply Accr_ext. intros p M t [Hp Hs]. unfold i, tsum, ito_sys, v_terms.
  rewrite !sumR_app. rewrite !Rplus_assoc. unfold T1, T2, T3, T4. clear - Hp Hs.
  assert (Ee : exp (- (pk p * (ps0 p + t))) = / exp (pk p * t)) by (rewrite Hs, Rplus_0_l; apply exp_Ropp).
  assert (Ee' : exp (- (pk p * t)) = / exp (pk p * t)) by apply exp_Ropp.
  assert (Ee2 : exp (pk p * (ps0 p + t)) = exp (pk p * t)) by (rewrite Hs, Rplus_0_l; reflexivity).
  assert (Em : exp (IZR (-1) * (pk p * t)) = / exp (pk p * t)) by (rewrite <- exp_Ropp; f_equal; ring).
  pose proof (exp_neq0 (pk p * t)) as Hn.
  f_equal; [|f_equal; [|f_equal]].
  - destruct (Z.leb_spec 2 a); [|reflexivity]. cbn [sumR fst snd]. unfold c1g, c1fac, v_mean; cbn [Z.eqb Pos.eqb].
    replace (a - 2 + 1)%Z with (a - 1)%Z by lia.
    rewrite Q2R_Frac, Ee, Ee', Ee2, exp_1_mul, exp_2_mul by lia. field. assumption.
  - destruct (Z.leb_spec 2 b); [|reflexivity]. cbn [sumR fst snd]. unfold c1g, c1fac, v_mean; cbn [Z.eqb Pos.eqb].
    rewrite Q2R_Frac, Ee, Ee', Em, exp_0_mul by lia. field. assumption.
  - destruct ((1 <=? a) && (1 <=? b))%Z; [|reflexivity]. cbn [sumR fst snd]. unfold c1g, c1fac, v_mean; cbn [Z.eqb Pos.eqb].
    replace (a - 1 + 1)%Z with a by lia.
    rewrite Q2R_Frac, Ee, Ee', Ee2, exp_1_mul, exp_0_mul by lia. field. assumption.
  - destruct (Z.leb_spec 2 d); [|reflexivity]. cbn [sumR fst snd]. unfold c1g, c1fac, v_mean; cbn [Z.eqb Pos.eqb].
    rewrite Q2R_Frac, Ee, Ee', Em, exp_0_mul by lia. field. assumption.
Qed.

(** ** the initial table *)
Lemma wfr_c1_P0 i : wfr kf_c1 c1P c1S i c1_P0.
Proof.
  split; [reflexivity|]. split; [apply nodupb_spec; reflexivity|]. split.
  - intros k [<-|[]]. cbn. lia.
  - intros k v [E|[]] Hv. inversion E; subst. exfalso. now apply Hv.
Qed.
Lemma wfr_c1_ev i q : Z.even (snd i) = true -> keyfor q = kf_c1 -> nodupb (map fst (items q)) = true ->
  Forall (fun kv => c1P i (fst kv)) (items q) -> wfr kf_c1 c1P c1S i q.
Proof.
  intros He hk hu hw. split; [assumption|]. split; [now apply nodupb_spec|]. split.
  - intros k Hk. apply in_map_iff in Hk. destruct Hk as ([k' v] & <- & Hin). rewrite Forall_forall in hw. exact (hw _ Hin).
  - intros k v _ _. exact He.
Qed.
Lemma c1P0_eval p t : eval (c1mon p t) (items c1_P0) = 0.
Proof. cbn [eval items c1_P0]. unfold Q2R; cbn. ring. Qed.

Lemma c1tab_01 : c1tab 0%Z 1%Z c1_init.
Proof.
  intros [[a b] d] (h1 & h2 & h3) Ho. unfold ord3 in Ho; cbn [fst snd] in Ho.
  assert (Hc : In (a, b, d) [(0,0,0); (1,0,0); (0,1,0); (0,0,1)]%Z).
  { assert ((a = 0 \/ a = 1) /\ (b = 0 \/ b = 1) /\ (d = 0 \/ d = 1))%Z as ([-> | ->] & [-> | ->] & [-> | ->]) by lia;
      simpl; try lia; tauto. }
  destruct Hc as [E|[E|[E|[E|[]]]]]; inversion E; subst.
  1: { exists c1_P1. split; [reflexivity|]. apply Goodr_const.
    - apply wfr_c1_ev; try reflexivity. constructor; [cbn; lia|constructor].
    - unfold ito_dom; lia.
    - reflexivity.
    - intros p t _. unfold c1mon. cbn [eval items c1_P1 monx]. rewrite !pw_0. unfold Q2R; cbn. field. }
  all: exists c1_P0; split; [reflexivity|]; apply Goodr_const; [apply wfr_c1_P0|unfold ito_dom; lia|reflexivity|intros p t _; apply c1P0_eval].
Qed.

Lemma c1_good2 i q r : ito_dom i -> ord3 i = 2%Z -> wfr kf_c1 c1P c1S i q ->
  c1_recursive (fst (fst i)) (snd (fst i)) (snd i) c1_init = Ok r ->
  (forall mon, eval mon (items q) = eval mon (items r)) -> c1Good i q.
Proof.
  destruct i as [[a b] d]; cbn [fst snd]. intros Hd Ho W Er Ev. unfold ord3 in Ho; cbn [fst snd] in Ho.
  pose proof (c1_recursive_sp a b d c1_init Hd ltac:(lia)) as h.
  replace (a + b + d - 2)%Z with 0%Z in h by lia. replace (a + b + d - 1)%Z with 1%Z in h by lia.
  specialize (h c1tab_01). rewrite Er in h. exact (Goodr_same _ _ _ _ _ _ _ _ _ q r h W Ev).
Qed.

Lemma c1tab_init : c1tab 0%Z 2%Z c1_init.
Proof.
  intros i Hi Ho. destruct (Z_le_dec (ord3 i) 1) as [Hl|Hg]; [apply c1tab_01; [assumption|lia]|].
  assert (Ho2 : ord3 i = 2%Z) by lia. clear Ho Hg.
  assert (Hc : In i [(2,0,0); (1,1,0); (1,0,1); (0,2,0); (0,1,1); (0,0,2)]%Z).
  { destruct i as [[a b] d]. destruct Hi as (h1 & h2 & h3). unfold ord3 in Ho2; cbn [fst snd] in Ho2.
    assert ((a = 0 \/ a = 1 \/ a = 2) /\ (b = 0 \/ b = 1 \/ b = 2) /\ (d = 0 \/ d = 1 \/ d = 2))%Z
      as ([-> | [-> | ->]] & [-> | [-> | ->]] & [-> | [-> | ->]]) by lia; simpl; try lia; tauto. }
  assert (W : forall j, Z.even (snd j) = true ->
    wfr kf_c1 c1P c1S j c1_P200 /\ wfr kf_c1 c1P c1S j c1_P110 /\ wfr kf_c1 c1P c1S j c1_P020).
  { intros j Hj. split; [|split]; (apply wfr_c1_ev; [assumption|reflexivity|reflexivity|]);
      repeat (apply Forall_cons; [cbn; lia|]); apply Forall_nil. }
  destruct Hc as [<-|[<-|[<-|[<-|[<-|[<-|[]]]]]]].
  - exists c1_P200. split; [reflexivity|].
    eapply c1_good2; [assumption|reflexivity|now apply W|reflexivity|]. intro mon. cbn. unfold Q2R; cbn; field.
  - exists c1_P110. split; [reflexivity|].
    eapply c1_good2; [assumption|reflexivity|now apply W|reflexivity|]. intro mon. cbn. unfold Q2R; cbn; field.
  - exists c1_P0. split; [reflexivity|].
    eapply c1_good2; [assumption|reflexivity|apply wfr_c1_P0|reflexivity|]. intro mon. cbn. unfold Q2R; cbn; field.
  - exists c1_P020. split; [reflexivity|].
    eapply c1_good2; [assumption|reflexivity|now apply W|reflexivity|]. intro mon. cbn. unfold Q2R; cbn; field.
  - exists c1_P0. split; [reflexivity|].
    eapply c1_good2; [assumption|reflexivity|apply wfr_c1_P0|reflexivity|]. intro mon. cbn. unfold Q2R; cbn; field.
  - exists c1_P020. split; [reflexivity|].
    eapply c1_good2; [assumption|reflexivity|now apply W|reflexivity|]. intro mon. cbn. unfold Q2R; cbn; field.
Qed.

(** ** the rounds *)
Definition c9vals (p : par) (t : R) (x1 x2 x3 : R) : list R :=
  [exp (pk p * t); t; / pk p; pv p - pth p; pth p; psg p; x1; x2; x3].
Definition c9P : list Z -> Prop := wfs [false; true; true; true; true; true; true; true; true].
Definition c9S (k : list Z) : Prop := Z.even (nthZ k 8) = true.
Definition c9wf (a : list (list Z * Q)) : Prop := uniq a /\ allk c9P a /\ supp c9S a.
Definition c9term (M : ito_idx -> R -> R) (p : par) (t x1 x2 x3 : R) (n : Z) (ns : list Z) : R :=
  match ns with
  | [i; j; d] => IZR (cmb n ns) * (M (i, j, d) t * (pw (exp (- (pk p * t))) i * pw x1 i * pw x2 j * pw x3 d))
  | _ => 0
  end.

Definition c1body (l n : Z) (st : IEII_cache * list (list Z * Q)) (ns : list Z) : res (IEII_cache * list (list Z * Q)) :=
  match ns with [i; j; _] => c1_cell l n i j st | _ => Err IndexError end.

Lemma c1_cell_sp l n C a i j d : (2 <= n)%Z -> (0 <= i)%Z -> (0 <= j)%Z -> (0 <= d)%Z -> (i + j + d = n)%Z ->
  c1tab (n - 2)%Z (Z.max 2 (n - 1)) C -> c9wf a ->
  returns (c1_cell l n i j (C, a)) (fun st => exists q, c1Good (i, j, d) q /\
    fst st = (if ((3 <=? n) && (n <? l))%Z then cset (i, j, d) q C else C) /\ c9wf (snd st) /\
    (n = 2%Z -> cget (i, j, d) C = Ok q) /\
    forall p M, c1ok p -> ito_moments p M -> forall t, 0 <= t -> forall x1 x2 x3,
      eval (monx (c9vals p t x1 x2 x3)) (snd st) = eval (monx (c9vals p t x1 x2 x3)) a + c9term M p t x1 x2 x3 n [i; j; d]).
Proof.
  intros Hn Hi Hj Hd Hs HC (U & A & S). unfold c1_cell. replace (n - i - j)%Z with d by lia.
  rewrite (comp_comb [i; j; d] n); [|repeat (apply Forall_cons; [assumption|]); apply Forall_nil|cbn; lia]. cbn [bind].
  assert (HG : returns (if (n <? 3)%Z then cget (i, j, d) C else c1_recursive i j d C)
    (fun q => c1Good (i, j, d) q /\ (n = 2%Z -> cget (i, j, d) C = Ok q))).
  { destruct (Z.ltb_spec n 3).
    - destruct (HC (i, j, d)) as (q & e & g); [unfold ito_dom; lia|unfold ord3; cbn [fst snd]; lia|]. rewrite e. split; auto.
    - eapply returns_weaken.
      + apply c1_recursive_sp; [unfold ito_dom; lia|lia|]. intros k Hk Hk2. apply HC; [assumption|lia].
      + intros q g. split; [exact g|lia]. }
  eapply returns_bind; [exact HG|]. intros q [[(w1 & w2 & w3 & w4) V] Hq]. cbn [returns]. exists q.
  split; [split; [split; auto|exact V]|]. cbn [fst snd]. split; [reflexivity|].
  assert (KP : forall k v, In (k, v) (items q) -> c9P ((nthZ k 0 - i)%Z :: tl k ++ [i; j; d])).
  { intros k v Hin. pose proof (allk_in _ _ k v w3 Hin) as W. unfold c1P in W. wfs_destruct. unfold c9P. cbn. lia. }
  split; [|split; [exact Hq|]].
  - split; [|split].
    + now apply (uniq_fold_add (fun kv : list Z * Q => (nthZ (fst kv) 0 - i)%Z :: tl (fst kv) ++ [i; j; d]) (fun kv => qmul (qz (cmb n [i; j; d])) (snd kv))).
    + apply (allk_fold_add c9P (fun kv : list Z * Q => (nthZ (fst kv) 0 - i)%Z :: tl (fst kv) ++ [i; j; d]) (fun kv => qmul (qz (cmb n [i; j; d])) (snd kv))); [assumption|].
      intros [k v] Hin. exact (KP k v Hin).
    + apply (supp_fold_add c9S (fun kv : list Z * Q => (nthZ (fst kv) 0 - i)%Z :: tl (fst kv) ++ [i; j; d]) (fun kv => qmul (qz (cmb n [i; j; d])) (snd kv))); [assumption|].
      intros [k v] Hin Hnz. cbn [fst snd] in *. apply qmul_nz in Hnz. destruct Hnz as [_ Hnz].
      pose proof (w4 k v Hin Hnz) as He. unfold c1S in He. cbn [snd] in He.
      pose proof (allk_in _ _ k v w3 Hin) as W. unfold c1P in W. wfs_destruct. exact He.
  - intros p M Hp HM t Ht x1 x2 x3.
    rewrite (eval_fold_add (monx (c9vals p t x1 x2 x3)) (fun kv : list Z * Q => (nthZ (fst kv) 0 - i)%Z :: tl (fst kv) ++ [i; j; d]) (fun kv => qmul (qz (cmb n [i; j; d])) (snd kv))).
    f_equal. unfold c9term. rewrite (V p M Hp HM t Ht), sumR_eval, (Rmult_comm (sumR _ _)), <- !sumR_scal.
    apply sumR_ext. intros [k v] Hin. cbn [fst snd]. rewrite Q2R_mul, Q2R_qz.
    pose proof (allk_in _ _ k v w3 Hin) as W. unfold c1P in W. wfs_destruct. unfold c9vals, c1mon, nthZ. cbn [nth tl app monx].
    rewrite (pw_sub _ x i) by apply exp_neq0. rewrite exp_Ropp, (pw_inv (exp (pk p * t)) i) by apply exp_neq0. ring.
Qed.

Definition c9good (n : Z) (q : Poly (list Z)) : Prop :=
  keyfor q = kf_c9 /\ uniq (items q) /\ allk c9P (items q) /\ allk c9S (items q) /\
  forall p M, c1ok p -> ito_moments p M -> forall t, 0 <= t -> forall x1 x2 x3,
    eval (monx (c9vals p t x1 x2 x3)) (items q) = sumR (c9term M p t x1 x2 x3 n) (rcomp 2 n).

Lemma allk_supp_nonzero {K} `{Key K} (P : K -> Prop) (l : list (K * Q)) : supp P l -> nonzero l -> allk P l.
Proof.
  intros S N k Hk. apply in_map_iff in Hk. destruct Hk as ([k' v] & <- & Hin). cbn [fst].
  apply (S k' v Hin). exact (proj1 (Forall_forall _ _) N (k', v) Hin).
Qed.

Lemma rcomp2_in n ns : (0 <= n)%Z -> In ns (rcomp 2 n) ->
  exists i j d, ns = [i; j; d] /\ (0 <= i)%Z /\ (0 <= j)%Z /\ (0 <= d)%Z /\ (i + j + d = n)%Z.
Proof.
  intros Hn Hin. apply in_rcomp in Hin; [|assumption]. destruct Hin as (h1 & h2 & h3).
  destruct ns as [|i [|j [|d [|? ?]]]]; try discriminate.
  repeat match goal with H : Forall _ (_ :: _) |- _ => inversion H; clear H; subst end.
  exists i, j, d. repeat split; try assumption; cbn in *; lia.
Qed.

Lemma c1_round_sp l n C cm : (2 <= n <= l)%Z -> c1tab (n - 2)%Z (Z.max 2 (n - 1)) C ->
  returns (c1_round l (C, cm) n) (fun st => exists q, snd st = cm ++ [q] /\ c9good n q /\
    ((n < l)%Z -> c1tab (n - 1)%Z (Z.max 2 n) (fst st))).
Proof.
  intros Hn HC. unfold c1_round.
  set (Inv := fun st : IEII_cache * list (list Z * Q) => c1tab (n - 2)%Z (Z.max 2 (n - 1)) (fst st) /\ c9wf (snd st)).
  set (Vis := fun (ns : list Z) (st : IEII_cache * list (list Z * Q)) => (n < l)%Z ->
    match ns with [i; j; d] => exists q, cget (i, j, d) (fst st) = Ok q /\ c1Good (i, j, d) q | _ => True end).
  match goal with |- returns (bind ?x _) _ => set (loop := x) end.
  assert (El : loop = foldM (c1body l n) (rcomp 2 n) (C, [])).
  { unfold loop. transitivity (nest 2 n [] (c1body l n) (C, [])); [reflexivity|]. now rewrite nest_rcomp. }
  rewrite El. clear El loop.
  assert (I0 : Inv (C, [])).
  { split; [exact HC|]. split; [apply uniq_nil|]. split; [apply allk_nil|apply supp_nil]. }
  assert (keep : forall C1 i j d q, c1tab (n - 2)%Z (Z.max 2 (n - 1)) C1 -> c1Good (i, j, d) q -> (i + j + d = n)%Z ->
    c1tab (n - 2)%Z (Z.max 2 (n - 1)) (if ((3 <=? n) && (n <? l))%Z then cset (i, j, d) q C1 else C1)).
  { intros C1 i j d q H1 G1 Hs. destruct ((3 <=? n) && (n <? l))%Z eqn:Eb; [|exact H1].
    apply andb_prop in Eb. destruct Eb as [Eb _]. apply Z.leb_le in Eb.
    intros k Hk Ho. destruct (H1 k Hk Ho) as (q' & e & g). exists q'. split; [|exact g].
    rewrite cget_cset_other; [exact e|]. intros <-. unfold ord3 in Ho; cbn [fst snd] in Ho. lia. }
  assert (L1 : returns (foldM (c1body l n) (rcomp 2 n) (C, [])) (fun st => Inv st /\ forall ns, In ns (rcomp 2 n) -> Vis ns st)).
  { apply (foldM_visit _ Inv Vis); [|exact I0]. intros ns Hin [C1 a1] [H1 W1].
    destruct (rcomp2_in n ns ltac:(lia) Hin) as (i & j & d & -> & Hi & Hj & Hd & Hs). cbn [c1body fst snd] in *.
    eapply returns_weaken; [apply (c1_cell_sp l n C1 a1 i j d); try assumption; lia|].
    intros [C2 a2] (q & G & EC & W2 & H2 & _). cbn [fst snd] in *. subst C2. split; [split; [now apply keep|exact W2]|].
    assert (V1 : Vis [i; j; d] (if ((3 <=? n) && (n <? l))%Z then cset (i, j, d) q C1 else C1, a2)).
    { intro Hl. cbn [fst]. exists q. split; [|exact G].
      destruct (Z.leb_spec 3 n), (Z.ltb_spec n l); cbn [andb]; try lia; [apply cget_cset_same|]. apply H2. lia. }
    split; [exact V1|]. intros ns' V' Hl. specialize (V' Hl). destruct ns' as [|i' [|j' [|d' [|? ?]]]]; try exact Logic.I.
    destruct V' as (q' & e' & g'). cbn [fst] in *.
    destruct ((3 <=? n) && (n <? l))%Z; [|exists q'; split; assumption].
    destruct (keqb (i, j, d) (i', j', d')) eqn:Ek.
    - apply keqb_spec in Ek. inversion Ek; subst. exists q. split; [apply cget_cset_same|assumption].
    - exists q'. split; [|assumption]. rewrite cget_cset_other; [assumption|].
      intro E. apply keqb_spec in E. congruence. }
  assert (L2 : forall X : {pM : par * (ito_idx -> R -> R) * (R * R * R * R) |
      let '(p, M, (t, x1, x2, x3)) := pM in c1ok p /\ ito_moments p M /\ 0 <= t}, True ->
    returns (foldM (c1body l n) (rcomp 2 n) (C, [])) (fun st => let '(p, M, (t, x1, x2, x3)) := proj1_sig X in
      eval (monx (c9vals p t x1 x2 x3)) (snd st) = sumR (c9term M p t x1 x2 x3 n) (rcomp 2 n))).
  { intros [[[p M] [[[t x1] x2] x3]] (Hp & HM & Ht)] _. cbn [proj1_sig].
    eapply returns_weaken.
    - apply (foldM_sum (c1body l n) Inv (fun (_ : unit) st => eval (monx (c9vals p t x1 x2 x3)) (snd st))
        (fun _ ns => c9term M p t x1 x2 x3 n ns)); [|exact I0].
      intros ns Hin [C1 a1] [H1 W1].
      destruct (rcomp2_in n ns ltac:(lia) Hin) as (i & j & d & -> & Hi & Hj & Hd & Hs). cbn [c1body fst snd] in *.
      eapply returns_weaken; [apply (c1_cell_sp l n C1 a1 i j d); try assumption; lia|].
      intros [C2 a2] (q & G & EC & W2 & _ & V). cbn [fst snd] in *. subst C2. split; [split; [now apply keep|exact W2]|].
      intros _. now apply V.
    - intros st [_ E]. rewrite (E tt). cbn [snd eval]. rewrite Rplus_0_l. reflexivity. }

  assert (L3 : returns (foldM (c1body l n) (rcomp 2 n) (C, [])) (fun st => forall p M, c1ok p -> ito_moments p M ->
    forall t, 0 <= t -> forall x1 x2 x3, eval (monx (c9vals p t x1 x2 x3)) (snd st) = sumR (c9term M p t x1 x2 x3 n) (rcomp 2 n))).
  { destruct (foldM (c1body l n) (rcomp 2 n) (C, [])) as [st|e]; cbn [returns] in *; [|exact L1].
    intros p M Hp HM t Ht x1 x2 x3.
    exact (L2 (exist _ (p, M, (t, x1, x2, x3)) (conj Hp (conj HM Ht))) Logic.I). }
  eapply returns_bind; [exact (returns_and _ _ _ L1 L3)|]. intros [C' a'] (([HC' (U & A & S)] & HV) & Hev). cbn [fst snd] in *.
  cbn [returns]. eexists. cbn [fst snd]. split; [reflexivity|]. split.
  - unfold c9good, remove_zero; cbn [items keyfor]. split; [reflexivity|]. split; [now apply uniq_rm_zero|].
    split; [now apply allk_rm_zero|]. split.
    + apply allk_supp_nonzero; [now apply supp_rm_zero|apply nonzero_rm_zero].
    + intros p M Hp HM t Ht x1 x2 x3. rewrite eval_rm_zero. now apply Hev.
  - intro Hl. destruct (Z.eqb_spec n l); [lia|]. intros k Hk Ho. rewrite cget_cdel by (apply Z.eqb_neq; lia).
    destruct (Z_le_dec (ord3 k) (Z.max 2 (n - 1))) as [Hle|Hgt]; [apply HC'; [assumption|lia]|].
    destruct k as [[i j] d]. unfold ord3 in *; cbn [fst snd] in *. destruct Hk as (k1 & k2 & k3).
    refine (HV [i; j; d] _ Hl). apply in_rcomp; [lia|]. split; [reflexivity|].
    split; [repeat (apply Forall_cons; [assumption|]); apply Forall_nil|]. cbn. lia.
Qed.

Lemma good_c9_0 : c9good 0 (mkPoly [([0;0;0;0;0;0;0;0;0]%Z, Frac 1 1)] kf_c9).
Proof.
  split; [reflexivity|]. split; [apply nodupb_spec; reflexivity|]. split; [intros k [<-|[]]; cbn; lia|].
  split; [intros k [<-|[]]; reflexivity|]. intros p M Hp HM t Ht x1 x2 x3.
  destruct (c1tab_01 (0, 0, 0)%Z) as (q & e & _ & V); [unfold ito_dom; lia|cbn; lia|]. injection e as <-.
  change (rcomp 2 0) with [[0; 0; 0]%Z]. cbn [sumR c9term]. rewrite (V p M Hp HM t Ht). unfold c9vals, c1mon, c1_P1.
  cbn [items eval monx]. rewrite !pw_0. change (cmb 0 [0; 0; 0]%Z) with 1%Z. ring.
Qed.
Lemma good_c9_1 : c9good 1 (mkPoly [([0;0;0;0;0;0;0;0;0]%Z, Frac 0 1)] kf_c9).
Proof.
  split; [reflexivity|]. split; [apply nodupb_spec; reflexivity|]. split; [intros k [<-|[]]; cbn; lia|].
  split; [intros k [<-|[]]; reflexivity|]. intros p M Hp HM t Ht x1 x2 x3.
  change (rcomp 2 1) with [[1; 0; 0]; [0; 1; 0]; [0; 0; 1]]%Z. cbn [sumR c9term].
  assert (Z0 : forall i, In i [(1,0,0); (0,1,0); (0,0,1)]%Z -> M i t = 0).
  { intros i Hi. destruct (c1tab_01 i) as (q & e & _ & V); [destruct Hi as [<-|[<-|[<-|[]]]]; unfold ito_dom; lia|destruct Hi as [<-|[<-|[<-|[]]]]; cbn; lia|].
    assert (q = c1_P0) as -> by (destruct Hi as [<-|[<-|[<-|[]]]]; now injection e).
    rewrite (V p M Hp HM t Ht). apply c1P0_eval. }
  rewrite !Z0 by (simpl; tauto). cbn [items eval]. unfold Q2R; cbn. ring.
Qed.

Lemma cmoments_y_to_sp l : returns (cmoments_y_to l) (fun cs =>
  length cs = Z.to_nat (Z.max 1 l + 1) /\ forall n, (0 <= n <= Z.max 1 l)%Z -> exists q, nth_error cs (Z.to_nat n) = Some q /\ c9good n q).
Proof.
  unfold cmoments_y_to. set (P1 := mkPoly _ _). set (P0 := mkPoly _ _).
  set (Inv := fun (n : Z) (st : IEII_cache * list (Poly (list Z))) => length (snd st) = Z.to_nat n /\
    (forall m, (0 <= m < n)%Z -> exists q, nth_error (snd st) (Z.to_nat m) = Some q /\ c9good m q) /\
    ((n <= l)%Z -> c1tab (n - 2)%Z (Z.max 2 (n - 1)) (fst st))).
  assert (L : forall m n st, (2 <= n)%Z -> (n + Z.of_nat m = Z.max 2 (l + 1))%Z -> Inv n st ->
    returns (foldM (c1_round l) (range n (l + 1)) st) (Inv (Z.max 2 (l + 1)))).
  { induction m as [|m IH]; intros n st Hn Hm HI.
    - rewrite range_nil by lia. cbn [foldM returns]. replace (Z.max 2 (l + 1)) with n by lia. exact HI.
    - rewrite range_cons by lia. cbn [foldM]. destruct st as [C cm]. unfold Inv in HI. destruct HI as (i1 & i2 & i3). cbn [fst snd] in *.
      pose proof (c1_round_sp l n C cm ltac:(lia) (i3 ltac:(lia))) as h.
      match goal with |- context [match ?x with _ => _ end] => change (returns x (fun st => exists q, snd st = cm ++ [q] /\ c9good n q /\ ((n < l)%Z -> c1tab (n - 1)%Z (Z.max 2 n) (fst st)))) in h; destruct x as [[C' cm']|]; [|destruct h] end. destruct h as (q & Ecm & G & HT). cbn [fst snd] in *. subst cm'.
      apply IH; [lia|lia|]. split; [|split]; cbn [fst snd].
      + rewrite app_length. cbn [length]. lia.
      + intros k Hk. destruct (Z.eq_dec k n) as [->|Hne].
        * exists q. split; [|exact G]. rewrite nth_error_app2 by lia. rewrite i1, Nat.sub_diag. reflexivity.
        * destruct (i2 k ltac:(lia)) as (q' & e & g). exists q'. split; [|exact g].
          rewrite nth_error_app1; [exact e|]. rewrite i1. lia.
      + intro Hl. replace (n + 1 - 2)%Z with (n - 1)%Z by lia. replace (n + 1 - 1)%Z with n by lia. apply HT. lia. }
  eapply returns_bind.
  - apply (L (Z.to_nat (Z.max 2 (l + 1) - 2)) 2%Z (c1_init, [P1; P0])); [lia|lia|]. split; [reflexivity|]. split.
    + intros m Hm. assert (m = 0 \/ m = 1)%Z as [-> | ->] by lia.
      * exists P1. split; [reflexivity|apply good_c9_0].
      * exists P0. split; [reflexivity|apply good_c9_1].
    + intros _. exact c1tab_init.
  - intros [C cs] (h1 & h2 & _). cbn [returns fst snd] in *. split; [lia|]. intros n Hn. apply h2. lia.
Qed.

(** ** simplify *)
(** keys of the conditional central moments: 9 components, those of the divided symbols non-negative,
    the last one even *)
Lemma s9ok_wfs k : s9ok k -> wfs [false; false; false; true; true; true; true; true; true] k /\ Z.even (nthZ k 8) = true.
Proof.
  intros (Hl & Hp & He). split; [|exact He]. do 9 (destruct k as [|? k]; [discriminate|]). destruct k; [|discriminate].
  assert (G : forall i, (3 <= i < 9)%nat -> (0 <= nth i [z; z0; z1; z2; z3; z4; z5; z6; z7] 0)%Z).
  { intros i Hi. rewrite <- (Nat2Z.id i). apply Hp. lia. }
  pose proof (G 3%nat ltac:(lia)); pose proof (G 4%nat ltac:(lia)); pose proof (G 5%nat ltac:(lia));
  pose proof (G 6%nat ltac:(lia)); pose proof (G 7%nat ltac:(lia)); pose proof (G 8%nat ltac:(lia)).
  cbn [nth wfs] in *. repeat split; assumption.
Qed.
Lemma c9_s9ok k : c9P k -> c9S k -> s9ok k.
Proof.
  intros W S. unfold c9P in W. split; [exact (wfs_length _ _ W)|]. split; [|exact S]. wfs_destruct.
  intros i Hi. assert (i = 3 \/ i = 4 \/ i = 5 \/ i = 6 \/ i = 7 \/ i = 8)%Z as C by lia.
  destruct C as [->|[->|[->|[->|[->| ->]]]]]; assumption.
Qed.
Definition s8P (key : list Z) : Prop := wfs [false; false; false; true; true; true; true; true] key /\ Z.even (nthZ key 7) = true.

Lemma c1_simplify1_sp p xs e : e <> 0 -> allk (fun k => (1 <= length k)%nat) (items p) ->
  uniq (items (c1_simplify1 p)) /\ eval (monx (/ e :: xs)) (items (c1_simplify1 p)) = eval (monx (e :: xs)) (items p).
Proof.
  intros He A. unfold c1_simplify1; cbn [items]. split.
  - apply (uniq_fold_add (fun kv : list Z * Q => (- nthZ (fst kv) 0)%Z :: tl (fst kv)) snd). apply uniq_nil.
  - rewrite (eval_fold_add _ (fun kv : list Z * Q => (- nthZ (fst kv) 0)%Z :: tl (fst kv)) snd). cbn [eval].
    rewrite Rplus_0_l, sumR_eval. apply sumR_ext. intros [k v] Hin. cbn [fst snd]. f_equal.
    pose proof (allk_in _ _ k v A Hin) as Hl. destruct k as [|x k]; [cbn in Hl; lia|]. unfold nthZ; cbn [nth tl monx].
    f_equal. now rewrite pw_inv_neg, Rinv_inv.
Qed.

Lemma c1_expand_sp p : allk s9ok (items p) ->
  keyfor (c1_expand p) = kf_s8 /\ uniq (items (c1_expand p)) /\ allk s8P (items (c1_expand p)) /\
  forall k h v th sg rho, k <> 0 ->
    eval (monx (s8v k h v th sg rho)) (items (c1_expand p)) = eval (monx (s9v k h v th sg rho)) (items p).
Proof.
  intros A. split; [reflexivity|].
  set (key := fun (k : list Z) i => [- nthZ k 0; nthZ k 1; nthZ k 2 + (nthZ k 6 + i); nthZ k 3; nthZ k 4; nthZ k 5 + (nthZ k 6 + i); nthZ k 7 - i; nthZ k 8]%Z).
  set (val := fun (k : list Z) (v : Q) i => qmul (qmul (qmul (qz (mcomb (nthZ k 7) i)) (qz (sgn1 i))) (Frac 1 (2 ^ (nthZ k 6 + i)))) v).
  set (step := fun (a : list (list Z * Q)) (kv : list Z * Q) => Ok (fold_left (fun a i => add_kv (key (fst kv) i) (val (fst kv) (snd kv) i) a) (range 0 (nthZ (fst kv) 7 + 1)) a) : res _).
  assert (E1 : forall l a, foldM step l a = Ok (fold_left (fun a kv => fold_left (fun a i => add_kv (key (fst kv) i) (val (fst kv) (snd kv) i) a) (range 0 (nthZ (fst kv) 7 + 1)) a) l a)).
  { induction l as [|kv l IH]; intro a; [reflexivity|]. cbn [foldM fold_left]. unfold step at 1. apply IH. }
  set (T := {x : R * R * R * R * R * R | let '(k, h, v, th, sg, rho) := x in k <> 0}).
  set (mon := fun (x : T) => let '(k, h, v, th, sg, rho) := proj1_sig x in monx (s8v k h v th sg rho)).
  set (mon9 := fun (x : T) => let '(k, h, v, th, sg, rho) := proj1_sig x in monx (s9v k h v th sg rho)).
  assert (L : adds (wfl s8P) (ev mon) (foldM step (items p)) (fun x => sumR (fun kv => Q2R (snd kv) * mon9 x (fst kv)) (items p))).
  { apply (adds_foldM (wfl s8P) (ev mon) step (fun kv x => Q2R (snd kv) * mon9 x (fst kv))). intros [k v] Hin. unfold step. cbn [fst snd].
    destruct (s9ok_wfs _ (allk_in _ _ k v A Hin)) as [W He]. wfs_destruct. unfold nthZ in He; cbn [nth] in He.
    eapply adds_ext.
    - apply (adds_fold s8P mon (key _) (val _ v)). intros i Hi. apply in_range in Hi. unfold nthZ in Hi; cbn [nth] in Hi.
      unfold key, s8P, nthZ. cbn [nth wfs]. repeat split; try lia. exact He.
    - intros [[[[[[kk h] v0] th] sg] rho] Hk]. unfold mon, mon9; cbn [proj1_sig]. unfold nthZ; cbn [nth].
      unfold s9v, s8v. cbn [monx].
      set (w := sg / (2 * kk)).
      assert (Ew : w = sg * / kk * / 2) by (unfold w; field; assumption).
      replace (rho - w) with (- w + rho) by ring. rewrite <- (binomial_pw (- w) rho) by assumption.
      match goal with |- _ = ?c * (?e0 * (?e1 * (?e2 * (?e3 * (?e4 * (?e5 * (?e6 * (sumR ?f ?l * ?e7)))))))) =>
        transitivity (c * e0 * e1 * e2 * e3 * e4 * e5 * e6 * e7 * sumR f l); [|ring] end.
      rewrite <- sumR_scal. apply sumR_ext. intros i Hi. apply in_range in Hi.
      unfold key, val, nthZ; cbn [nth monx]. rewrite !Q2R_mul, !Q2R_qz, Q2R_Frac2, sgn1_pw by lia.
      rewrite exp_Ropp, pw_inv_neg, Rinv_inv. rewrite Ew. pws. pwx. ring. }
  pose proof (L [] (wfl_nil s8P)) as h. rewrite E1 in h. destruct h as [[U W] Ev].
  unfold c1_expand, remove_zero; cbn [items]. split; [now apply uniq_rm_zero|]. split; [now apply allk_rm_zero|].
  intros k h v th sg rho Hk. rewrite eval_rm_zero.
  specialize (Ev (exist _ (k, h, v, th, sg, rho) Hk)). unfold ev, mon, mon9 in Ev. cbn [proj1_sig eval] in Ev.
  rewrite Rplus_0_l in Ev. rewrite (sumR_eval (monx (s9v _ _ _ _ _ _))). exact Ev.
Qed.

Lemma simplify_rho_allk (P P' : list Z -> Prop) p n r : allk P (items p) -> simplify_rho p n = Ok r ->
  (forall k, P k -> P' (dropat n k)) -> (forall k i, P k -> (0 <= i)%Z -> P' (addat (n - 1) (2 * i) (dropat n k))) ->
  allk P' (items r).
Proof.
  intros A E H1 H2. unfold simplify_rho, simplify_rho_gen in E.
  assert (G : forall l a, allk P l -> allk P' a -> forall a', foldM (simplify_rho_step (fun k => nthZ k n) (dropat n) (addat (n - 1))) l a = Ok a' -> allk P' a').
  { induction l as [|[k v] l IH]; intros a Al Aa a' Ea; cbn [foldM] in Ea; [injection Ea as <-; exact Aa|].
    assert (Pk : P k) by (apply (allk_in P _ k v Al); now left).
    assert (Al' : allk P l) by (intros k' Hk'; apply Al; now right).
    unfold simplify_rho_step at 1 in Ea. cbn [fst snd] in Ea.
    destruct (nthZ k n =? 0)%Z; [|destruct (nthZ k n mod 2 =? 0)%Z; [|discriminate]].
    - eapply IH; [exact Al'| |exact Ea]. apply allk_add_kv; [assumption|now apply H1].
    - eapply IH; [exact Al'| |exact Ea].
      apply (allk_fold_add P' (fun i => addat (n - 1) (2 * i) (dropat n k)) (fun i => qmul (qmul v (qz (mcomb (nthZ k n / 2) i))) (qz (sgn1 i)))); [assumption|].
      intros i Hi. apply in_range in Hi. apply H2; [assumption|lia]. }
  destruct (foldM _ (items p) []) as [a|] eqn:Ea; [|discriminate]. cbn [bind] in E. injection E as <-. cbn [items].
  apply allk_rm_zero. now apply (G (items p) [] A (allk_nil _) a).
Qed.

Definition s7P : list Z -> Prop := wfs [false; false; false; true; true; true; true].

Definition kf_s7 : list string := ["e^{-kt}"; "t"; "k^{-}"; "v_0-theta"; "theta"; "sigma"; "rho"]%string.

Lemma simp2_sp p : allk s9ok (items p) -> exists r, simplify_rho (c1_expand p) 7 = Ok r /\
  keyfor r = kf_s7 /\ uniq (items r) /\ allk s7P (items r) /\
  forall k h v th sg rho, k <> 0 -> Rabs rho <= 1 ->
    eval (monx (s7v k h v th sg rho)) (items r) = eval (monx (s9v k h v th sg rho)) (items p).
Proof.
  intros A. destruct (c1_expand_sp p A) as (e1 & e2 & e3 & e4).
  assert (L : forall k h v th sg rho, Rabs rho <= 1 -> returns (simplify_rho (c1_expand p) 7) (fun r =>
    keyfor r = kf_s7 /\ uniq (items r) /\ nonzero (items r) /\
    eval (monx (s7v k h v th sg rho)) (items r) = eval (monx (s8v k h v th sg rho)) (items (c1_expand p)))).
  { intros k h v th sg rho Hr. eapply returns_weaken.
    - apply (simplify_rho_spec (c1_expand p) 7 (s8v k h v th sg rho)); [cbn [length s8v]; lia|exact Hr|reflexivity|].
      intros key c Hin. destruct (allk_in _ _ key c e3 Hin) as [W He]. split; [exact (wfs_length _ _ W)|].
      wfs_destruct. unfold nthZ in *; cbn [nth] in *. split; [assumption|]. split; [|right; assumption].
      rewrite Zeven_mod in He. now apply Zeq_bool_eq.
    - intros r (r1 & r2 & r3 & r4). rewrite e1 in r1. auto. }
  pose proof (L 1 0 0 0 0 0 ltac:(rewrite Rabs_R0; lra)) as h0. apply returns_inv in h0. destruct h0 as (r & Er & r1 & r2 & _).
  exists r. split; [exact Er|]. split; [exact r1|]. split; [exact r2|]. split.
  - eapply simplify_rho_allk; [exact e3|exact Er| |].
    + intros k [W _]. unfold s7P. wfs_destruct. cbn. tauto.
    + intros k i [W _] Hi. unfold s7P. wfs_destruct. cbn [wfs dropat firstn skipn app addat Nat.sub]. repeat split; lia.
  - intros k h v th sg rho Hk Hr. pose proof (L k h v th sg rho Hr) as h1. rewrite Er in h1. destruct h1 as (_ & _ & _ & h1).
    rewrite h1. now apply e4.
Qed.

Lemma c1_expand_v_sp p : allk s7P (items p) ->
  uniq (items (c1_expand_v p)) /\ forall k h v th sg rho,
    eval (monx (s7vv k h v th sg rho)) (items (c1_expand_v p)) = eval (monx (s7v k h v th sg rho)) (items p).
Proof.
  intros A.
  set (key := fun (k : list Z) i => [nthZ k 0; nthZ k 1; nthZ k 2; nthZ k 3 - i; nthZ k 4 + i; nthZ k 5; nthZ k 6]%Z).
  set (val := fun (k : list Z) (v : Q) i => qmul (qmul v (qz (mcomb (nthZ k 3) i))) (qz (sgn1 i))).
  set (step := fun (a : list (list Z * Q)) (kv : list Z * Q) => Ok (fold_left (fun a i => add_kv (key (fst kv) i) (val (fst kv) (snd kv) i) a) (range 0 (nthZ (fst kv) 3 + 1)) a) : res _).
  assert (E1 : forall l a, foldM step l a = Ok (fold_left (fun a kv => fold_left (fun a i => add_kv (key (fst kv) i) (val (fst kv) (snd kv) i) a) (range 0 (nthZ (fst kv) 3 + 1)) a) l a)).
  { induction l as [|kv l IH]; intro a; [reflexivity|]. cbn [foldM fold_left]. unfold step at 1. apply IH. }
  set (T := (R * R * R * R * R * R)%type).
  set (mon := fun (x : T) => let '(k, h, v, th, sg, rho) := x in monx (s7vv k h v th sg rho)).
  set (mon9 := fun (x : T) => let '(k, h, v, th, sg, rho) := x in monx (s7v k h v th sg rho)).
  assert (L : adds (wfl (fun _ => True)) (ev mon) (foldM step (items p)) (fun x => sumR (fun kv => Q2R (snd kv) * mon9 x (fst kv)) (items p))).
  { apply (adds_foldM (wfl (fun _ => True)) (ev mon) step (fun kv x => Q2R (snd kv) * mon9 x (fst kv))). intros [k v] Hin. unfold step. cbn [fst snd].
    pose proof (allk_in _ _ k v A Hin) as W. unfold s7P in W. wfs_destruct.
    eapply adds_ext.
    - apply (adds_fold (fun _ => True) mon (key _) (val _ v)). intros i Hi. exact Logic.I.
    - intros [[[[[kk h] v0] th] sg] rho]. unfold mon, mon9. unfold nthZ; cbn [nth].
      unfold s7v, s7vv. cbn [monx].
      replace (v0 - th) with (- th + v0) by ring. rewrite <- (binomial_pw (- th) v0) by assumption.
      match goal with |- _ = ?c * (?e0 * (?e1 * (?e2 * (sumR ?f ?l * ?e7)))) =>
        transitivity (c * e0 * e1 * e2 * e7 * sumR f l); [|ring] end.
      rewrite <- sumR_scal. apply sumR_ext. intros i Hi. apply in_range in Hi.
      unfold key, val, nthZ; cbn [nth monx]. rewrite !Q2R_mul, !Q2R_qz, sgn1_pw by lia.
      rewrite (pow_lemma_pw th x3 i) by (right; lia). pwx. ring. }
  pose proof (L [] (wfl_nil _)) as h. rewrite E1 in h. destruct h as [[U W] Ev].
  unfold c1_expand_v; cbn [items]. split; [exact U|].
  intros k h v th sg rho.
  specialize (Ev (k, h, v, th, sg, rho)). unfold ev, mon, mon9 in Ev. cbn [eval] in Ev.
  rewrite Rplus_0_l in Ev. rewrite (sumR_eval (monx (s7v _ _ _ _ _ _))). exact Ev.
Qed.

Lemma poly2num_c1_eval p par : allk (fun k => length k = 7%nat) (items p) ->
  poly2num_c1 p par = eval (monx (s7v (par "k"%string) (par "h"%string) (par "v0"%string) (par "theta"%string) (par "sigma_v"%string) (par "rho"%string))) (items p).
Proof. unfold poly2num_c1, s7v. p2n. Qed.
