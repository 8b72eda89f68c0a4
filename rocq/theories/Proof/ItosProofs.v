(** Proofs about moment_IEI_IEII of itos_mom.py (C26). *)
From Coq Require Import Reals Lra.
From Coquelicot Require Import Coquelicot.
From Verif.Proof Require Export IntEt2 Recur.
Local Open Scope R_scope.

Definition ord5 (i : ito2_idx) : Z := let '(a, b, c, d, e) := i in (a + b + c + d + e)%Z.
(** exponents of e^{k1(n-1)h} and e^{k2(n-1)h} in all terms of the moment *)
Definition x4 (i : ito2_idx) : Z := let '(a, b, c, d, e) := i in a.
Definition x6 (i : ito2_idx) : Z := let '(a, b, c, d, e) := i in c.

(** ** shape of the keys *)
Definition swf (a b L : Z) (k : skey) : Prop :=
  let '(d, ((a', b'), (_, x))) := k in
  dok d /\ a' = a /\ b' = b /\ wfs [true; true; true; true; true; true; true] x /\ (nthZ x 1 + nthZ x 4 <= L)%Z.

Definition tmul (t : Z * Z * Z) (d : list (Z * Z * Z)) : list (Z * Z * Z) :=
  match t_mul_t0 t d with Ok r => r | Err _ => d end.
Lemma tmul_sp n1 n2 i d : (0 <= i)%Z -> dok d -> t_mul_t0 (n1, n2, i) d = Ok (tmul (n1, n2, i) d) /\ dok (tmul (n1, n2, i) d) /\
  forall k1 k2, denv k1 k2 (tmul (n1, n2, i) d) = pw (/ (IZR n1 * k1 + IZR n2 * k2)) i * denv k1 k2 d.
Proof.
  intros Hi Hd. pose proof (t_mul_t0_sp n1 n2 i d Hi Hd) as h. unfold tmul.
  destruct (t_mul_t0 (n1, n2, i) d) as [r|]; [|destruct h]. now split.
Qed.

Definition e4 (f m : Z) : Z := if (f =? 1)%Z then m else 0%Z.
Definition e6 (f m : Z) : Z := if (f =? 1)%Z then 0%Z else m.
Definition ms_sub (f m : Z) (k : skey) : res (Poly ekey) :=
  let '(_, (_, ((m4, m6), x))) := k in int_et2 (m4 + e4 f m) (m6 + e6 f m) (nthZ x 0).
Definition ms_mk (f m : Z) (k : skey) (k2 : ekey) : skey :=
  let '(d, ((a, b), (_, x))) := k in
  let '(t, (t2, t3)) := k2 in
  (tmul t d, ((a + e4 f m, b + e6 f m)%Z, (t2, t3 :: tl x))).

Lemma foldM_pure {S A} (f : S -> A -> res S) (g : S -> A -> S) (l : list A) :
  (forall x, In x l -> forall s, f s x = Ok (g s x)) -> forall s, foldM f l s = Ok (fold_left g l s).
Proof.
  induction l as [|x r IH]; intros E s; cbn [foldM fold_left]; [reflexivity|].
  rewrite E by now left. apply IH. intros; apply E; now right.
Qed.

(** keys on which int_ms cannot fail *)
Definition sgood (k : skey) : Prop :=
  let '(d, (_, (_, x))) := k in dok d /\ (0 <= nthZ x 0)%Z.

Lemma swf_sgood a b L k : swf a b L k -> sgood k.
Proof.
  destruct k as (d & ((a' & b') & (j & x))). intros (h1 & _ & _ & h & _). split; [exact h1|].
  wfs_destruct. unfold nthZ; cbn [nth]. assumption.
Qed.

Lemma int_ms_loop f m q : allk sgood (items q) ->
  int_ms f m q = let! a := ip_loop (ms_sub f m) (ms_mk f m) (fun _ v1 _ v2 => qmul v1 v2) (items q) [] in Ok (mkPoly a kf_s).
Proof.
  intro A. unfold int_ms, ip_loop. f_equal. apply foldM_ext. intros [k v] Hin a. cbn [fst snd].
  pose proof (allk_in _ _ k v A Hin) as Hk. destruct k as (d & ((a' & b') & ((m4 & m6) & x))). destruct Hk as (Hd & Hx).
  unfold ms_sub, e4, e6.
  assert (E1 : (if (f =? 1)%Z then (m4 + m)%Z else m4) = (m4 + (if (f =? 1)%Z then m else 0))%Z) by (destruct (f =? 1)%Z; lia).
  assert (E2 : (if (f =? 1)%Z then m6 else (m6 + m)%Z) = (m6 + (if (f =? 1)%Z then 0 else m))%Z) by (destruct (f =? 1)%Z; lia).
  rewrite E1, E2. pose proof (int_et2_spec (m4 + (if (f =? 1)%Z then m else 0)) (m6 + (if (f =? 1)%Z then 0 else m)) (nthZ x 0) Hx) as h.
  destruct (int_et2 _ _ _) as [sub|]; [|destruct h]. destruct h as (_ & As & _). cbn [bind].
  apply foldM_pure. intros [k2 v2] H2 s. cbn [fst snd]. pose proof (allk_in _ _ k2 v2 As H2) as Hk2.
  destruct k2 as (((n1 & n2) & i) & ((u & w) & h)). destruct Hk2 as (Hi & _).
  destruct (tmul_sp n1 n2 i d Hi Hd) as (Et & _). rewrite Et. cbn [bind ms_mk]. unfold e4, e6.
  destruct (f =? 1)%Z; now rewrite ?Z.add_0_r.
Qed.

(** ** the shape pass: no exception is raised *)
Definition sok (i : ito2_idx) (q : Poly skey) : Prop :=
  keyfor q = kf_s /\ uniq (items q) /\ allk (swf (x4 i) (x6 i) (ord5 i)) (items q).

Lemma ms_mk_swf f m a b L k k2 : swf a b L k -> (exists n1 n2, ekok n1 n2 k2) ->
  swf (a + e4 f m) (b + e6 f m) L (ms_mk f m k k2).
Proof.
  destruct k as (d & ((a' & b') & (j & x))), k2 as (((n1 & n2) & i) & (ab & h)).
  intros (Hd & -> & -> & W & HL) (u & w & Hi & Hh & _). unfold ms_mk, swf.
  destruct (tmul_sp n1 n2 i d Hi Hd) as (_ & Ht & _). split; [exact Ht|]. split; [reflexivity|]. split; [reflexivity|].
  wfs_destruct. unfold nthZ in *; cbn [nth tl wfs] in *. repeat split; assumption.
Qed.

Lemma int_ms_sh f m a b L q : allk (swf a b L) (items q) ->
  returns (int_ms f m q) (fun r => keyfor r = kf_s /\ uniq (items r) /\ allk (swf (a + e4 f m) (b + e6 f m) L) (items r)).
Proof.
  intro A. rewrite int_ms_loop by (eapply allk_weaken; [exact A|apply swf_sgood]).
  eapply returns_bind.
  - apply (ip_loop_sp (fun _ : unit => True) tt (fun _ _ _ => 0) (fun _ _ _ => 0) Logic.I
      (swf a b L) (fun _ => True) (swf (a + e4 f m) (b + e6 f m) L) (fun _ => True) (fun k2 => exists n1 n2, ekok n1 n2 k2)
      (ms_sub f m) (ms_mk f m) (fun _ v1 _ v2 => qmul v1 v2) (fun _ _ _ => 0) (fun _ _ => 0) (fun _ _ => 0)).
    + intros k W. destruct k as (d & ((a' & b') & ((m4 & m6) & x))). unfold ms_sub.
      pose proof (swf_sgood _ _ _ _ W) as (_ & Hx).
      eapply returns_weaken; [apply int_et2_spec, Hx|]. intros r (_ & As & _). split.
      * eapply allk_weaken; [exact As|]. intros k Hk. eauto.
      * intros [] _. assert (E : forall l : list (ekey * Q), eval (fun _ => 0) l = 0) by (intro l; apply eval_0; intros; ring).
        split; [apply E|]. intro t. eapply is_derive_ext_loc_all; [intro; symmetry; apply E|apply is_derive_Rconst].
    + intros k1 k2 W Hk. now apply ms_mk_swf.
    + intros; exact Logic.I.
    + intros k1 v1 k2 v2 Hnz. apply qmul_nz in Hnz. tauto.
    + intros. ring.
    + intros. ring.
    + exact A.
    + intros k v _ _. exact Logic.I.
  - intros r (U & W & _). cbn [returns keyfor items]. auto.
Qed.

Definition c4 (tp : Z) : Z := if ((tp =? 1) || (tp =? 2))%Z then 1%Z else 0%Z.
Definition c6 (tp : Z) : Z := if ((tp =? 5) || (tp =? 6))%Z then 1%Z else 0%Z.

Ltac tpcases tp := let Hc := fresh in
  assert (Hc : (tp = 1 \/ tp = 2 \/ tp = 3 \/ tp = 4 \/ tp = 5 \/ tp = 6 \/ tp = 7 \/ tp = 8)%Z) by lia;
  destruct Hc as [-> | [-> | [-> | [-> | [-> | [-> | [-> | ->]]]]]]].

Lemma cp_key_swf tp a b L k : (1 <= tp <= 8)%Z -> swf a b L k -> swf (a + c4 tp) (b + c6 tp) (L + 1) (cp_key tp k).
Proof.
  intros Ht. destruct k as (d & ((a' & b') & (j & x))). intros (Hd & -> & -> & W & HL). wfs_destruct.
  unfold nthZ in HL; cbn [nth] in HL.
  tpcases tp; cbn; unfold nthZ; cbn [nth]; (split; [exact Hd|]); lia.
Qed.

Lemma coef_poly_sh c q tp a b L : (1 <= tp <= 8)%Z -> allk (swf a b L) (items q) ->
  keyfor (coef_poly c q tp) = kf_s /\ uniq (items (coef_poly c q tp)) /\
  allk (swf (a + c4 tp) (b + c6 tp) (L + 1)) (items (coef_poly c q tp)).
Proof.
  intros Ht A. unfold coef_poly.
  replace ((1 <=? tp) && (tp <=? 8))%Z with true by (symmetry; apply andb_true_intro; split; apply Z.leb_le; lia).
  cbn [keyfor items]. split; [reflexivity|]. split.
  - apply (uniq_fold_add (fun kv : skey * Q => cp_key tp (fst kv)) (fun kv => cp_val tp c (snd kv))), uniq_nil.
  - apply (allk_fold_add _ (fun kv : skey * Q => cp_key tp (fst kv)) (fun kv => cp_val tp c (snd kv))); [apply allk_nil|].
    intros [k v] Hin. cbn [fst]. apply cp_key_swf; [assumption|]. exact (allk_in _ _ k v A Hin).
Qed.

Lemma merge_s_sh C c poly f m j tp q (i : ito2_idx) : sok i poly -> cget j C = Ok q -> sok j q -> (1 <= tp <= 8)%Z ->
  (x4 i = x4 j + e4 f m + c4 tp)%Z -> (x6 i = x6 j + e6 f m + c6 tp)%Z -> (ord5 j + 1 <= ord5 i)%Z ->
  returns (merge_s C c poly f m j tp) (sok i).
Proof.
  intros (p1 & p2 & p3) Eq (_ & _ & q3) Ht H4 H6 HL. unfold merge_s, int_mIEI_IEII. rewrite Eq. cbn [bind].
  eapply returns_bind; [apply (int_ms_sh f m _ _ _ q q3)|]. intros r (r1 & r2 & r3).
  destruct (coef_poly_sh c r tp _ _ _ Ht r3) as (s1 & s2 & s3).
  unfold merge. replace (is_exact_type poly (coef_poly c r tp)) with true by (symmetry; apply is_exact_type_iff; congruence).
  cbn [returns]. unfold sok; cbn [items keyfor]. split; [assumption|]. split; [now apply uniq_rm_zero, uniq_add_all|].
  apply allk_rm_zero, allk_add_all; [assumption|]. eapply allk_weaken; [exact s3|].
  intros (d & ((a' & b') & (jj & x))) (h1 & h2 & h3 & h4 & h5). repeat split; try assumption; try lia; [apply h1|apply h1].
Qed.

Lemma branch_s_sh C c poly f m1 m3 j j' q q' (i : ito2_idx) : sok i poly -> cget j C = Ok q -> sok j q ->
  cget j' C = Ok q' -> sok j' q' -> (f = 1 \/ f = 2)%Z ->
  m3 = (m1 + 1)%Z -> (x4 i = x4 j + e4 f m3)%Z -> (x6 i = x6 j + e6 f m3)%Z ->
  (x4 i = x4 j' + e4 f m1)%Z -> (x6 i = x6 j' + e6 f m1)%Z -> (ord5 j + 1 <= ord5 i)%Z -> (ord5 j' + 1 <= ord5 i)%Z ->
  returns (branch_s C c poly f m1 m3 j j') (sok i).
Proof.
  intros H0 Eq Gq Eq' Gq' Hf -> h1 h2 h3 h4 h5 h6. unfold branch_s.
  destruct Hf as [-> | ->]; cbn [Z.eqb Pos.eqb] in *; unfold e4, e6 in *; cbn [Z.eqb Pos.eqb] in *.
  - do 3 (eapply returns_bind; [eapply merge_s_sh; try eassumption; try lia; unfold e4, e6, c4, c6; cbn [Z.eqb Z.add Pos.add Pos.succ Pos.eqb orb]; lia|]; clear H0; intros ? H0).
    eapply merge_s_sh; try eassumption; try lia; unfold e4, e6, c4, c6; cbn [Z.eqb Z.add Pos.add Pos.succ Pos.eqb orb]; lia.
  - do 3 (eapply returns_bind; [eapply merge_s_sh; try eassumption; try lia; unfold e4, e6, c4, c6; cbn [Z.eqb Z.add Pos.add Pos.succ Pos.eqb orb]; lia|]; clear H0; intros ? H0).
    eapply merge_s_sh; try eassumption; try lia; unfold e4, e6, c4, c6; cbn [Z.eqb Z.add Pos.add Pos.succ Pos.eqb orb]; lia.
Qed.

Definition stab (lo hi : Z) (C : S_cache) : Prop :=
  forall i, ito2_dom i -> (lo <= ord5 i <= hi)%Z -> exists q, cget i C = Ok q /\ sok i q.

Lemma sok_nil i : sok i (mkPoly [] kf_s).
Proof. split; [reflexivity|]. split; [apply uniq_nil|apply allk_nil]. Qed.

(** simplify the guards 0 <=? n *)
Ltac dropnn := repeat match goal with
  | h : (0 <= ?a)%Z |- context [(0 <=? ?a)%Z] => replace (0 <=? a)%Z with true by (symmetry; apply Z.leb_le; exact h)
  end; rewrite ?andb_true_r, ?andb_true_l.

Lemma recursive_s_sh a b c d e C : ito2_dom (a, b, c, d, e) ->
  stab (a + b + c + d + e - 2) (a + b + c + d + e - 1) C -> returns (recursive_s a b c d e C) (sok (a, b, c, d, e)).
Proof.
  intros (ha & hb & hc & hd & he) HC. unfold recursive_s. dropnn.
  set (i := (a, b, c, d, e)).
  assert (HB : forall cc poly f m1 j j', sok i poly -> ito2_dom j -> ito2_dom j' -> (ord5 i - 2 <= ord5 j <= ord5 i - 1)%Z ->
     (ord5 i - 2 <= ord5 j' <= ord5 i - 1)%Z -> (f = 1 \/ f = 2)%Z ->
     (x4 i = x4 j + e4 f (m1 + 1))%Z -> (x6 i = x6 j + e6 f (m1 + 1))%Z ->
     (x4 i = x4 j' + e4 f m1)%Z -> (x6 i = x6 j' + e6 f m1)%Z -> forall m3, (m3 = m1 + 1)%Z -> returns (branch_s C cc poly f m1 m3 j j') (sok i)).
  { intros cc poly f m1 j j' H0 Hj Hj' Oj Oj' Hf h1 h2 h3 h4 m3 h5.
    destruct (HC j Hj) as (q & eq & gq); [change (ord5 i) with (a + b + c + d + e)%Z in Oj; lia|].
    destruct (HC j' Hj') as (q' & eq' & gq'); [change (ord5 i) with (a + b + c + d + e)%Z in Oj'; lia|].
    subst m3. apply (branch_s_sh C cc poly f m1 (m1 + 1)%Z j j' q q' i); auto; lia. }
  unfold i in *. unfold ord5, x4, x6, e4, e6, ito2_dom in HB.
  assert (S0 : sok (a, b, c, d, e) (mkPoly [] kf_s)) by apply sok_nil.
  repeat match goal with |- returns (if ?x then _ else _) _ => destruct x eqn:? end;
    repeat match goal with H : (_ && _)%bool = true |- _ => apply andb_prop in H; destruct H end;
    repeat match goal with H : (_ <=? _)%Z = true |- _ => apply Z.leb_le in H end;
    try (apply HB; cbn [Z.eqb Pos.eqb]; auto; lia).
  - eapply returns_bind; [apply HB; cbn [Z.eqb Pos.eqb]; auto; lia|]. intros p S1. apply HB; cbn [Z.eqb Pos.eqb]; auto; lia.
  - exact S0.
Qed.

(** ** the value pass *)
Definition sok2 (p : par2) : Prop := qk1 p <> 0 /\ qk2 p <> 0.
Definition sp0 : par2 := mkPar2 1 1 0 0 0 0 0 0 0.
Lemma sok20 : sok2 sp0.
Proof. split; simpl; lra. Qed.

Definition fac1 (i : ito2_idx) : Prop := let '(a, b, c, d, e) := i in (c = 0 /\ d = 0 /\ e = 0)%Z.
Definition fac2 (i : ito2_idx) : Prop := let '(a, b, c, d, e) := i in (a = 0 /\ b = 0 /\ e = 0)%Z.
Definition mixd (i : ito2_idx) : Prop := let '(a, b, c, d, e) := i in e = 2%Z.
(** which indices have a non-empty polynomial, and which exponentials e^{(j1k1+j2k2)t} occur in it *)
Definition nonemp (i : ito2_idx) : Prop := ord5 i <> 1%Z /\ (fac1 i \/ fac2 i \/ mixd i).
Definition jok (i : ito2_idx) (j1 j2 : Z) : Prop :=
  nonemp i /\ (fac1 i -> j2 = 0%Z) /\ (fac2 i -> j1 = 0%Z) /\ (j1 = 0 \/ j2 = 0)%Z.
Definition sP (i : ito2_idx) (k : skey) : Prop :=
  swf (x4 i) (x6 i) (ord5 i) k /\ let '(_, (_, ((j1, j2), _))) := k in jok i j1 j2.
Definition sS (i : ito2_idx) (k : skey) : Prop := True.

Lemma smon_cont (a b L : Z) k : swf a b L k -> forall p t, continuous (fun t => smon p t k) t.
Proof.
  destruct k as (d & ((a' & b') & ((j1 & j2) & y))). intros (_ & _ & _ & W & _) p t. wfs_destruct.
  unfold smon. apply continuous_Rmult; [apply continuous_Rmult; [apply continuous_Rconst|]|].
  - apply continuous_Rexp, continuous_Rmult; [apply continuous_Rconst|apply continuous_Rid].
  - cbn [monx]. apply continuous_Rmult; [|apply continuous_Rconst].
    apply (continuous_of_derive _ _ (IZR x * 1 * pw t (x - 1))).
    apply (is_derive_pw (fun t => t)); [apply is_derive_Rid|]. now right.
Qed.
Lemma sP_cont i k : sP i k -> forall p, sok2 p -> forall t, continuous (fun t => smon p t k) t.
Proof. intros [W _] p _. exact (smon_cont _ _ _ k W p). Qed.

(** ** integration of one polynomial *)
Definition kf2 (f : Z) (p : par2) : R := if (f =? 1)%Z then qk1 p else qk2 p.

(** the keys that [int_ms f m] integrates correctly *)
Definition snice (f m : Z) (p : par2) (k : skey) : Prop :=
  let '(_, (_, ((j1, j2), _))) := k in et2_ok (qk1 p) (qk2 p) (j1 + e4 f m) (j2 + e6 f m).

Lemma int_ms_val (Pr : par2 -> Prop) (pr0 : par2) f m a b L (J J' : Z -> Z -> Prop) q : Pr pr0 ->
  allk (fun k => swf a b L k /\ (let '(_, (_, ((j1, j2), _))) := k in J j1 j2) /\ forall p, Pr p -> snice f m p k) (items q) ->
  (forall j1 j2, J j1 j2 -> J' 0%Z 0%Z /\ J' (j1 + e4 f m)%Z (j2 + e6 f m)%Z) ->
  returns (int_ms f m q) (fun r => keyfor r = kf_s /\ uniq (items r) /\
    allk (fun k => swf (a + e4 f m) (b + e6 f m) L k /\ let '(_, (_, ((j1, j2), _))) := k in J' j1 j2) (items r) /\
    forall p, Pr p -> eval (smon p 0) (items r) = 0 /\
      forall t : R, is_derive (fun t => eval (smon p t) (items r)) t
        (exp (IZR m * (kf2 f p * (qs0 p + t))) * eval (smon p t) (items q))).
Proof.
  intros Hp0 A HJ.
  rewrite int_ms_loop by (eapply allk_weaken; [exact A|]; intros k (W & _); now apply swf_sgood in W).
  set (Pj := fun k : skey => swf a b L k /\ (let '(_, (_, ((j1, j2), _))) := k in J j1 j2) /\ forall p, Pr p -> snice f m p k).
  (* the second keys depend on the first: carry the allowed exponents along *)
  assert (Main : returns (ip_loop (ms_sub f m) (ms_mk f m) (fun _ v1 _ v2 => qmul v1 v2) (items q) [])
    (fun r => (uniq r /\ allk (fun k => swf (a + e4 f m) (b + e6 f m) L k) r /\ supp (fun _ => True) r /\
      forall p, Pr p -> eval (smon p 0) r = 0 /\
      forall t : R, is_derive (fun t => eval (smon p t) r) t
        (exp (IZR m * (kf2 f p * (qs0 p + t))) * eval (smon p t) (items q))) /\
      allk (fun k : skey => let '(_, (_, ((j1, j2), _))) := k in J' j1 j2) r)).
  { apply returns_and.
    - apply (ip_loop_sp Pr pr0 smon (fun p t => emon (qk1 p) (qk2 p) t) Hp0 Pj (fun _ => True)
        (swf (a + e4 f m) (b + e6 f m) L) (fun _ => True) (fun k2 => exists n1 n2, ekok n1 n2 k2)
        (ms_sub f m) (ms_mk f m) (fun _ v1 _ v2 => qmul v1 v2)
        (fun p k t => let '(_, (_, ((j1, j2), x))) := k in
           exp ((IZR (j1 + e4 f m) * qk1 p + IZR (j2 + e6 f m) * qk2 p) * t) * pw t (nthZ x 0))
        (fun p k => let '(d, ((a', b'), (_, x))) := k in denv (qk1 p) (qk2 p) d
           * exp ((IZR (a' + e4 f m) * qk1 p + IZR (b' + e6 f m) * qk2 p) * qs0 p)
           * monx [qv1 p; qth1 p; qsg1 p; qv2 p; qth2 p; qsg2 p] (tl x))
        (fun p t => exp (IZR m * (kf2 f p * (qs0 p + t))))).
      + intros k (W & _ & N). destruct k as (d & ((a' & b') & ((m4 & m6) & x))). unfold ms_sub.
        pose proof (swf_sgood _ _ _ _ W) as (_ & Hx).
        eapply returns_weaken; [apply int_et2_spec, Hx|]. intros r (_ & As & _ & V). split.
        * eapply allk_weaken; [exact As|]. intros k Hk. eauto.
        * intros p Hp. apply (V (qk1 p) (qk2 p)). exact (N p Hp).
      + intros k1 k2 (W & _) Hk. now apply ms_mk_swf.
      + intros; exact Logic.I.
      + intros k1 v1 k2 v2 Hnz. apply qmul_nz in Hnz. tauto.
      + intros p t k1 v1 k2 v2 _ (W & _) (n1' & n2' & Hk2).
        destruct k1 as (d & ((a' & b') & (j & x))), k2 as (((n1 & n2) & i) & ((u & w) & h)).
        destruct W as (Hd & -> & -> & W & _). destruct Hk2 as (Hi & _). wfs_destruct.
        unfold ms_mk, smon, emon. destruct (tmul_sp n1 n2 i d Hi Hd) as (_ & _ & Et). rewrite Et, Q2R_mul.
        cbn [tl monx]. ring.
      + intros p t k _ (W & _). destruct k as (d & ((a' & b') & ((j1 & j2) & y))). destruct W as (_ & -> & -> & W & _).
        wfs_destruct. unfold smon, nthZ. cbn [nth tl monx]. rewrite !plus_IZR.
        assert (E : exp ((((IZR a + IZR (e4 f m)) * qk1 p + (IZR b + IZR (e6 f m)) * qk2 p) * qs0 p))
           * exp (((IZR j1 + IZR (e4 f m)) * qk1 p + (IZR j2 + IZR (e6 f m)) * qk2 p) * t)
           = exp (IZR m * (kf2 f p * (qs0 p + t))) * (exp ((IZR a * qk1 p + IZR b * qk2 p) * qs0 p) * exp ((IZR j1 * qk1 p + IZR j2 * qk2 p) * t))).
        { rewrite <- !exp_plus. f_equal. unfold e4, e6, kf2. destruct (f =? 1)%Z; ring. }
        match goal with |- ?l = _ => replace l with (denv (qk1 p) (qk2 p) d * (pw t x * monx [qv1 p; qth1 p; qsg1 p; qv2 p; qth2 p; qsg2 p] [x0; x1; x2; x3; x5; x7]) *
          (exp ((((IZR a + IZR (e4 f m)) * qk1 p + (IZR b + IZR (e6 f m)) * qk2 p) * qs0 p))
           * exp (((IZR j1 + IZR (e4 f m)) * qk1 p + (IZR j2 + IZR (e6 f m)) * qk2 p) * t))) end.
        * rewrite E. cbn [monx]. ring.
        * cbn [monx]. ring.
      + exact A.
      + intros k v _ _. exact Logic.I.
    - unfold ip_loop. eapply returns_weaken.
      + apply (foldM_sum _ (allk (fun k : skey => let '(_, (_, ((j1, j2), _))) := k in J' j1 j2)) (fun (_ : unit) _ => 0) (fun _ _ => 0)); [|apply allk_nil].
        intros [k v] Hin s Hs. cbn [fst snd]. destruct (allk_in _ _ k v A Hin) as (W & HJk & _).
        destruct k as (d & ((a' & b') & ((m4 & m6) & x))). unfold ms_sub. pose proof (swf_sgood _ _ _ _ W) as (_ & Hx).
        eapply returns_bind; [apply int_et2_spec, Hx|]. intros sub (_ & As & _). cbn [returns]. split; [|intros; ring].
        apply (allk_fold_add _ (fun kv2 : ekey * Q => ms_mk f m (d, ((a', b'), ((m4, m6), x))) (fst kv2)) (fun kv2 => qmul v (snd kv2))); [exact Hs|].
        intros [k2 v2] H2. cbn [fst]. pose proof (allk_in _ _ k2 v2 As H2) as Hk2.
        destruct k2 as (((n1 & n2) & i) & ((u & w) & h)). destruct Hk2 as (_ & _ & E). cbn [ms_mk].
        destruct (HJ _ _ HJk) as [h1 h2]. destruct E as [E|E]; inversion E; subst; assumption.
      + intros r [h _]. exact h. }
  eapply returns_bind; [exact Main|]. intros r ((U & W & _ & V) & HJ'). cbn [returns keyfor items].
  split; [reflexivity|]. split; [exact U|]. split; [|exact V]. intros k Hk. split; [now apply W|]. now apply HJ'.
Qed.

(** ** the constant factors *)
Definition facv (tp : Z) (p : par2) : R :=
  if (tp =? 1)%Z then exp (qk1 p * qs0 p) * qv1 p
  else if (tp =? 2)%Z then - (exp (qk1 p * qs0 p) * qth1 p)
  else if (tp =? 3)%Z then qth1 p
  else if (tp =? 4)%Z then qsg1 p
  else if (tp =? 5)%Z then exp (qk2 p * qs0 p) * qv2 p
  else if (tp =? 6)%Z then - (exp (qk2 p * qs0 p) * qth2 p)
  else if (tp =? 7)%Z then qth2 p
  else qsg2 p.

Lemma coef_poly_val c q tp a b L p t : (1 <= tp <= 8)%Z -> allk (swf a b L) (items q) ->
  eval (smon p t) (items (coef_poly c q tp)) = Q2R c * facv tp p * eval (smon p t) (items q).
Proof.
  intros Ht A. unfold coef_poly.
  replace ((1 <=? tp) && (tp <=? 8))%Z with true by (symmetry; apply andb_true_intro; split; apply Z.leb_le; lia).
  cbn [items]. rewrite (eval_fold_add (smon p t) (fun kv : skey * Q => cp_key tp (fst kv)) (fun kv => cp_val tp c (snd kv))).
  cbn [eval]. rewrite Rplus_0_l, sumR_eval, <- sumR_scal. apply sumR_ext. intros [k v] Hin. cbn [fst snd].
  pose proof (allk_in _ _ k v A Hin) as W. destruct k as (d & ((a' & b') & ((j1 & j2) & y))).
  destruct W as (_ & -> & -> & W & _). wfs_destruct.
  assert (E1 : exp ((IZR (a + 1) * qk1 p + IZR b * qk2 p) * qs0 p) = exp (qk1 p * qs0 p) * exp ((IZR a * qk1 p + IZR b * qk2 p) * qs0 p))
    by (rewrite <- exp_plus, plus_IZR; f_equal; ring).
  assert (E2 : exp ((IZR a * qk1 p + IZR (b + 1) * qk2 p) * qs0 p) = exp (qk2 p * qs0 p) * exp ((IZR a * qk1 p + IZR b * qk2 p) * qs0 p))
    by (rewrite <- exp_plus, plus_IZR; f_equal; ring).
  tpcases tp; unfold cp_val, cp_key, facv; cbn [Z.eqb Pos.eqb orb addat]; rewrite Q2R_mul, ?Q2R_neg; unfold smon; cbn [monx];
    rewrite ?E1, ?E2; pws; ring.
Qed.

(** ** the recursion on the indices where the code follows the documented equation *)
Definition gdom (i : ito2_idx) : Prop :=
  let '(a, b, c, d, e) := i in ito2_dom i /\
  ((a + b + c + d + e <= 3 /\ (a + b <= 2 \/ a = 0 \/ b = 0) /\ (c + d <= 2 \/ c = 0 \/ d = 0))
   \/ (b = 0 /\ c + d + e <= 1) \/ (d = 0 /\ a + b + e <= 1))%Z.

Definition gs (c : Q) (f m tp : Z) (p : par2) (t : R) : R :=
  Q2R c * facv tp p * exp (IZR m * (kf2 f p * (qs0 p + t))).
Lemma gs_cont c f m tp p : sok2 p -> forall t, continuous (gs c f m tp p) t.
Proof.
  intros _ t. unfold gs. apply continuous_Rmult; [apply continuous_Rconst|]. apply continuous_Rexp.
  apply continuous_Rmult; [apply continuous_Rconst|]. apply continuous_Rmult; [apply continuous_Rconst|].
  apply continuous_Rplus; [apply continuous_Rconst|apply continuous_Rid].
Qed.

Notation siop := (iop sok2 smon kf_s sP sS).
Notation sGood := (Goodr sok2 smon kf_s sP sS gdom ito2_sys ito2_init).
Notation sAcc := (Accr sok2 smon kf_s sP sS gdom ito2_sys ito2_init).

Definition jcmp (f : Z) (i j : ito2_idx) : Prop :=
  nonemp j -> nonemp i /\ (if (f =? 1)%Z then fac1 j /\ ~ fac2 i else fac2 j /\ ~ fac1 i).

Lemma ms_iop c f m tp i j : (1 <= tp <= 8)%Z -> jcmp f i j ->
  (x4 i = x4 j + e4 f m + c4 tp)%Z -> (x6 i = x6 j + e6 f m + c6 tp)%Z -> (ord5 j + 1 <= ord5 i)%Z ->
  siop (fun q => let! r := int_ms f m q in Ok (coef_poly c r tp)) i j (gs c f m tp).
Proof.
  intros Ht Hc H4 H6 HL q (h1 & h2 & h3 & h4).
  eapply returns_bind.
  - apply (int_ms_val sok2 sp0 f m (x4 j) (x6 j) (ord5 j) (jok j) (jok i) q sok20).
    + intros k Hk. destruct (h3 k Hk) as [W Hj]. split; [exact W|]. destruct k as (d & (ab & ((j1 & j2) & x))).
      split; [exact Hj|]. intros p [Hk1 Hk2]. destruct Hj as (Hn & Hj1 & Hj2 & _). destruct (Hc Hn) as [_ Hf].
      unfold snice, et2_ok, e4, e6. destruct (f =? 1)%Z.
      * destruct Hf as [Hf _]. rewrite (Hj1 Hf). destruct (Z.eq_dec (j1 + m) 0) as [E|N]; [left; lia|right].
        split; [lia|]. replace (0 + 0)%Z with 0%Z by lia. rewrite Rmult_0_l, Rplus_0_r.
        apply Rmult_integral_contrapositive. split; [now apply not_0_IZR|assumption].
      * destruct Hf as [Hf _]. rewrite (Hj2 Hf). destruct (Z.eq_dec (j2 + m) 0) as [E|N]; [left; lia|right].
        split; [lia|]. replace (0 + 0)%Z with 0%Z by lia. rewrite Rmult_0_l, Rplus_0_l.
        apply Rmult_integral_contrapositive. split; [now apply not_0_IZR|assumption].
    + intros j1 j2 (Hn & Hj1 & Hj2 & Hor). destruct (Hc Hn) as [Hi Hf]. unfold jok, e4, e6.
      destruct (f =? 1)%Z; destruct Hf as [Hf Hf'].
      * rewrite (Hj1 Hf). split; (split; [exact Hi|]); split; intros; try tauto; split; intros; try tauto; right; lia.
      * rewrite (Hj2 Hf). split; (split; [exact Hi|]); split; intros; try tauto; split; intros; try tauto; try lia; left; lia.
  - intros r (r1 & r2 & r3 & r4). cbn [returns].
    assert (A : allk (swf (x4 j + e4 f m) (x6 j + e6 f m) (ord5 j)) (items r)) by (intros k Hk; apply (r3 k Hk)).
    destruct (coef_poly_sh c r tp _ _ _ Ht A) as (s1 & s2 & s3).
    assert (Aj : allk (fun k : skey => let '(_, (_, ((j1, j2), _))) := k in jok i j1 j2) (items (coef_poly c r tp))).
    { unfold coef_poly. destruct ((1 <=? tp) && (tp <=? 8))%Z; [|apply allk_nil]. cbn [items].
      apply (allk_fold_add _ (fun kv : skey * Q => cp_key tp (fst kv)) (fun kv => cp_val tp c (snd kv))); [apply allk_nil|].
      intros [k v] Hin. cbn [fst]. destruct (allk_in _ _ k v r3 Hin) as [_ Hj].
      destruct k as (d & ((a & b) & ((j1 & j2) & x))). tpcases tp; exact Hj. }
    split.
    + split; [exact s1|]. split; [exact s2|]. split; [|intros k v _ _; exact Logic.I].
      intros k Hk. split; [|now apply Aj]. specialize (s3 k Hk). destruct k as (d & ((a' & b') & (jj & x))).
      destruct s3 as (g1 & g2 & g3 & g4 & g5). split; [exact g1|]. split; [lia|]. split; [lia|]. split; [exact g4|lia].
    + intros p Hp. destruct (r4 p Hp) as [v0 vd]. split.
      * rewrite (coef_poly_val c r tp _ _ _ p 0 Ht A), v0. ring.
      * intro t. eapply is_derive_ext_loc_all; [intro u; symmetry; apply (coef_poly_val c r tp _ _ _ p u Ht A)|].
        eapply is_derive_val; [apply is_derive_Rscal, vd|]. unfold gs. ring.
Qed.

Lemma merge_s_bind C c poly f m j tp q : cget j C = Ok q ->
  merge_s C c poly f m j tp = let! r := (let! r := int_ms f m q in Ok (coef_poly c r tp)) in merge poly r.
Proof.
  intro E. unfold merge_s, int_mIEI_IEII. rewrite E. cbn [bind]. destruct (int_ms f m q); reflexivity.
Qed.

Lemma branch_s_val C c poly f m1 m3 i j j' T q q' :
  sAcc i T poly -> cget j C = Ok q -> sGood j q -> cget j' C = Ok q' -> sGood j' q' -> (f = 1 \/ f = 2)%Z ->
  jcmp f i j -> jcmp f i j' ->
  m3 = (m1 + 1)%Z -> (x4 i = x4 j + e4 f m3)%Z -> (x6 i = x6 j + e6 f m3)%Z ->
  (x4 i = x4 j' + e4 f m1)%Z -> (x6 i = x6 j' + e6 f m1)%Z -> (ord5 j + 1 <= ord5 i)%Z -> (ord5 j' + 1 <= ord5 i)%Z ->
  let o := if (f =? 1)%Z then 0%Z else 4%Z in
  returns (branch_s C c poly f m1 m3 j j') (sAcc i (fun p => T p ++
    [(gs c f m1 (o + 1) p, j); (gs c f m1 (o + 2) p, j); (gs c f m3 (o + 3) p, j); (gs c f m1 (o + 4) p, j')])).
Proof.
  intros A Eq Gq Eq' Gq' Hf Hj Hj' -> h1 h2 h3 h4 h5 h6 o. unfold branch_s.
  change (if (f =? 1)%Z then 0%Z else 4%Z) with o.
  rewrite (merge_s_bind C c poly f m1 j (o + 1) q Eq).
  assert (Ho : (0 <= o <= 4)%Z) by (unfold o; destruct (f =? 1)%Z; lia).
  assert (X : forall k, (k = 1 \/ k = 2)%Z -> siop (fun q => let! r := int_ms f m1 q in Ok (coef_poly c r (o + k))) i j (gs c f m1 (o + k))).
  { intros k Hk. apply ms_iop; try assumption; [lia| |];
      unfold o, e4, e6, c4, c6 in *; destruct Hf as [-> | ->]; destruct Hk as [-> | ->]; cbn [Z.eqb Z.add Pos.add Pos.succ Pos.eqb orb] in *; lia. }
  assert (X3 : siop (fun q => let! r := int_ms f (m1 + 1) q in Ok (coef_poly c r (o + 3))) i j (gs c f (m1 + 1) (o + 3))).
  { apply ms_iop; try assumption; [lia| |];
      unfold o, e4, e6, c4, c6 in *; destruct Hf as [-> | ->]; cbn [Z.eqb Z.add Pos.add Pos.succ Pos.eqb orb] in *; lia. }
  assert (X4 : siop (fun q => let! r := int_ms f m1 q in Ok (coef_poly c r (o + 4))) i j' (gs c f m1 (o + 4))).
  { apply ms_iop; try assumption; [lia| |];
      unfold o, e4, e6, c4, c6 in *; destruct Hf as [-> | ->]; cbn [Z.eqb Z.add Pos.add Pos.succ Pos.eqb orb] in *; lia. }
  eapply returns_bind; [apply (acc_merge sok2 smon kf_s sP sS sP_cont gdom ito2_sys ito2_init _ i j _ _ _ q A Gq (X 1%Z ltac:(lia))); intros; now apply gs_cont|].
  intros p1 A1. rewrite (merge_s_bind C c p1 f m1 j (o + 2) q Eq).
  eapply returns_bind; [apply (acc_merge sok2 smon kf_s sP sS sP_cont gdom ito2_sys ito2_init _ i j _ _ _ q A1 Gq (X 2%Z ltac:(lia))); intros; now apply gs_cont|].
  intros p2 A2. rewrite (merge_s_bind C c p2 f (m1 + 1) j (o + 3) q Eq).
  eapply returns_bind; [apply (acc_merge sok2 smon kf_s sP sS sP_cont gdom ito2_sys ito2_init _ i j _ _ _ q A2 Gq X3); intros; now apply gs_cont|].
  intros p3 A3. rewrite (merge_s_bind C c p3 f m1 j' (o + 4) q' Eq').
  eapply returns_weaken; [apply (acc_merge sok2 smon kf_s sP sS sP_cont gdom ito2_sys ito2_init _ i j' _ _ _ q' A3 Gq' X4); intros; now apply gs_cont|].
  intros p4. apply Accr_ext. intros p M t _. now rewrite <- !app_assoc.
Qed.

Notation gtab := (tab sok2 smon kf_s sP sS gdom ito2_sys ito2_init ord5).

(** values of the exponentials in the coefficients *)
Lemma exp_m1 x : exp (IZR (-1) * x) = / exp x.
Proof. rewrite <- exp_Ropp. f_equal. ring. Qed.
Lemma exp_m0 x : exp (IZR 0 * x) = 1.
Proof. now rewrite Rmult_0_l, exp_0. Qed.
Lemma exp_m1' x : exp (IZR 1 * x) = exp x.
Proof. now rewrite Rmult_1_l. Qed.
Lemma exp_m2 x : exp (IZR 2 * x) = exp x * exp x.
Proof. rewrite <- exp_plus. f_equal. ring. Qed.

Ltac sysred :=
  unfold ito2_sys; repeat match goal with |- context [(?x <=? ?y)%Z] => destruct (Z.leb_spec x y); try lia end;
  cbn [andb app]; unfold tsum, v1_terms, v2_terms, vi_terms; cbn [app sumR fst snd Z.eqb Pos.eqb];
  unfold gs, facv, kf2; cbn [Z.eqb Z.add Pos.add Pos.succ Pos.eqb].
Ltac jcs := unfold jcmp, nonemp, ord5, fac1, fac2, mixd; cbn [Z.eqb Pos.eqb]; intro;
  repeat match goal with |- _ /\ _ => split end; lia.
Ltac sgoals := first [ solve [jcs] | solve [unfold gdom, ito2_dom, ord5, x4, x6, e4, e6; cbn [Z.eqb Pos.eqb]; lia] | idtac ].

Lemma recursive_s_val a b c d e C : gdom (a, b, c, d, e) -> (2 <= a + b + c + d + e)%Z ->
  gtab (a + b + c + d + e - 2)%Z (a + b + c + d + e - 1)%Z C -> returns (recursive_s a b c d e C) (sGood (a, b, c, d, e)).
Proof.
  intros G Hord HC. pose proof G as ((ha & hb & hc & hd & he) & Hg). unfold recursive_s. dropnn.
  set (i := (a, b, c, d, e)).
  assert (HB : forall cc poly T f m1 j j', sAcc i T poly -> gdom j -> gdom j' -> (ord5 i - 2 <= ord5 j <= ord5 i - 1)%Z ->
     (ord5 i - 2 <= ord5 j' <= ord5 i - 1)%Z -> (f = 1 \/ f = 2)%Z -> jcmp f i j -> jcmp f i j' ->
     (x4 i = x4 j + e4 f (m1 + 1))%Z -> (x6 i = x6 j + e6 f (m1 + 1))%Z ->
     (x4 i = x4 j' + e4 f m1)%Z -> (x6 i = x6 j' + e6 f m1)%Z -> forall m3, (m3 = m1 + 1)%Z ->
     let o := if (f =? 1)%Z then 0%Z else 4%Z in
     returns (branch_s C cc poly f m1 m3 j j') (sAcc i (fun p => T p ++
      [(gs cc f m1 (o + 1) p, j); (gs cc f m1 (o + 2) p, j); (gs cc f m3 (o + 3) p, j); (gs cc f m1 (o + 4) p, j')]))).
  { intros cc poly T f m1 j j' H0 Hj Hj' Oj Oj' Hf hj hj' h1 h2 h3 h4 m3 h5.
    destruct (HC j Hj) as (q & eq & gq); [change (ord5 i) with (a + b + c + d + e)%Z in Oj; lia|].
    destruct (HC j' Hj') as (q' & eq' & gq'); [change (ord5 i) with (a + b + c + d + e)%Z in Oj'; lia|].
    subst m3. apply (branch_s_val C cc poly f m1 (m1 + 1)%Z i j j' T q q'); auto; lia. }
  assert (A0 : sAcc i (fun _ => []) (mkPoly [] kf_s)) by apply Accr_nil.
  assert (Fin : forall T q, (forall p M t, sok2 p -> tsum (T p) M t = tsum (ito2_sys p i) M t) -> sAcc i T q -> sGood i q).
  { intros T q HT Aq. apply Goodr_of_Accr; [|exact G|].
    - revert Aq. now apply Accr_ext.
    - unfold i, ito2_init. destruct a, b, c, d, e; try reflexivity; lia. }
  assert (HB1 : forall cc f m1 j j', gdom j -> gdom j' -> (ord5 i - 2 <= ord5 j <= ord5 i - 1)%Z ->
     (ord5 i - 2 <= ord5 j' <= ord5 i - 1)%Z -> (f = 1 \/ f = 2)%Z -> jcmp f i j -> jcmp f i j' ->
     (x4 i = x4 j + e4 f (m1 + 1))%Z -> (x6 i = x6 j + e6 f (m1 + 1))%Z ->
     (x4 i = x4 j' + e4 f m1)%Z -> (x6 i = x6 j' + e6 f m1)%Z -> forall m3, (m3 = m1 + 1)%Z ->
     (let o := if (f =? 1)%Z then 0%Z else 4%Z in
      forall p M t, sok2 p -> tsum [(gs cc f m1 (o + 1) p, j); (gs cc f m1 (o + 2) p, j); (gs cc f m3 (o + 3) p, j); (gs cc f m1 (o + 4) p, j')] M t
       = tsum (ito2_sys p i) M t) ->
     returns (branch_s C cc (mkPoly [] kf_s) f m1 m3 j j') (sGood i)).
  { intros cc f m1 j j' Hj Hj' Oj Oj' Hf hj hj' h1 h2 h3 h4 m3 h5 HT.
    eapply returns_weaken; [apply (HB cc _ _ f m1 j j' A0 Hj Hj' Oj Oj' Hf hj hj' h1 h2 h3 h4 m3 h5)|].
    intros q Aq. apply (Fin _ q) in Aq; [exact Aq|]. intros p M t Hp. exact (HT p M t Hp). }
  unfold i in *; clear i.
  assert (X1 : forall p t, exp (qk1 p * (qs0 p + t)) = exp (qk1 p * qs0 p) * exp (qk1 p * t)) by (intros; rewrite <- exp_plus; f_equal; ring).
  assert (X2 : forall p t, exp (qk2 p * (qs0 p + t)) = exp (qk2 p * qs0 p) * exp (qk2 p * t)) by (intros; rewrite <- exp_plus; f_equal; ring).
  assert (Y : forall x, exp (- x) = / exp x) by apply exp_Ropp.
  destruct (Z.leb_spec 2 a) as [L1|L1].
  { apply HB1; sgoals. intros p M t Hp. sysred;
    rewrite !exp_m1', exp_m2, !Y, X1, Q2R_Frac by lia; replace (a - 2 + 1)%Z with (a - 1)%Z by lia;
    field; split; apply exp_neq0. }
  destruct (Z.leb_spec 2 b) as [L2|L2].
  { apply HB1; sgoals. intros p M t Hp. sysred;
    rewrite !exp_m1, exp_m0, !Y, X1, Q2R_Frac by lia; field; split; apply exp_neq0. }
  destruct (Z.leb_spec 1 a) as [L3|L3]; destruct (Z.leb_spec 1 b) as [L4|L4]; cbn [andb];
    [apply HB1; sgoals; intros p M t Hp; sysred; rewrite !exp_m1', !exp_m0, !Y, X1, Q2R_qz by lia;
     replace (a - 1 + 1)%Z with a by lia; field; split; apply exp_neq0|..].
  all: destruct (Z.leb_spec 2 c) as [L5|L5];
    [apply HB1; sgoals; intros p M t Hp; sysred; rewrite !exp_m1', exp_m2, !Y, X2, Q2R_Frac by lia;
     replace (c - 2 + 1)%Z with (c - 1)%Z by lia; field; split; apply exp_neq0|].
  all: destruct (Z.leb_spec 2 d) as [L6|L6];
    [apply HB1; sgoals; intros p M t Hp; sysred; rewrite !exp_m1, exp_m0, !Y, X2, Q2R_Frac by lia;
     field; split; apply exp_neq0|].
  all: destruct (Z.leb_spec 1 c) as [L7|L7]; destruct (Z.leb_spec 1 d) as [L8|L8]; cbn [andb];
    [apply HB1; sgoals; intros p M t Hp; sysred; rewrite !exp_m1', !exp_m0, !Y, X2, Q2R_qz by lia;
     replace (c - 1 + 1)%Z with c by lia; field; split; apply exp_neq0|..].
  all: destruct (Z.leb_spec 2 e) as [L9|L9];
    [eapply returns_bind; [apply (HB _ _ _ _ _ _ _ A0); sgoals|]; intros q A1; cbn beta in A1;
     eapply returns_weaken; [apply (HB _ _ _ _ _ _ _ A1); sgoals|]; intros r A2; cbn beta in A2;
     revert A2; apply Fin; intros p M t Hp; sysred; rewrite ?exp_m1, ?exp_m0, ?Y, ?X1, ?X2, ?Q2R_Frac by lia;
     field; repeat split; apply exp_neq0|].
  all: cbn [returns]; revert A0; apply Fin; intros p M t Hp; sysred; reflexivity.
Qed.
