(** Proofs about mdl_svcj/cond_ieii_ieziziz_mom.py: the table of moment_ieii_ieziziz (C37). *)
From Coq Require Import Reals Lra.
From Coquelicot Require Import Coquelicot.
From Verif.Proof Require Import ItoProofs SrjdCondProofs.
From Verif.Proof Require Export SvcjCondRec.
Import Verif.Model.SvcjCond Verif.Proof.SvcjAna Verif.Proof.SvcjIezProofs Verif.Proof.SvcjCondProofs.
Local Open Scope R_scope.

(** ** what holds of the value when there is one *)
Definition post {A} (r : res A) (P : A -> Prop) : Prop := match r with Ok a => P a | Err _ => True end.
Lemma post_bind {A B} (r : res A) (f : A -> res B) (P : A -> Prop) (Q : B -> Prop) :
  post r P -> (forall a, P a -> post (f a) Q) -> post (bind r f) Q.
Proof. destruct r; cbn [bind post]; auto. Qed.
Lemma post_any {A} (r : res A) : post r (fun _ => True).
Proof. destruct r; exact Logic.I. Qed.
Lemma post_foldM {A S} (f : S -> A -> res S) (P : S -> Prop) l : forall s, P s ->
  (forall s a, In a l -> P s -> post (f s a) P) -> post (foldM f l s) P.
Proof.
  induction l as [|a l IH]; intros s Hs h; cbn [foldM].
  - exact Hs.
  - eapply post_bind; [apply h; [now left|assumption]|]. intros s2 H2. apply IH; [assumption|]. intros; apply h; [now right|assumption].
Qed.
Lemma post_returns {A} (r : res A) (P Q : A -> Prop) : returns r P -> post r Q -> returns r (fun a => P a /\ Q a).
Proof. destruct r; cbn [returns post]; auto. Qed.

(** ** all coefficients zero *)
Definition zl {K} (l : list (K * Q)) : Prop := forall k x, In (k, x) l -> Q2R x = 0.
Definition zp {K} (p : Poly K) : Prop := zl (items p).
Lemma zl_nil {K} : zl (K := K) [].
Proof. intros k x []. Qed.
Lemma zl_add {K} `{Key K} (k : K) x l : Q2R x = 0 -> zl l -> zl (add_kv k x l).
Proof.
  intro hx. induction l as [|[k' v'] r IH]; intros hl k2 x2; cbn [add_kv].
  - intros [e|[]]. congruence.
  - assert (h1 : Q2R v' = 0) by (apply (hl k'); now left). assert (hr : zl r) by (intros a b Hab; apply (hl a); now right).
    destruct (keqb k' k); intros [e|Hin].
    + injection e as _ <-. rewrite Q2R_add, h1, hx. ring.
    + now apply (hr k2).
    + congruence.
    + now apply (IH hr k2).
Qed.
Lemma zl_fold {K A} `{Key K} (f : A -> K) (g : A -> Q) l : (forall a, In a l -> Q2R (g a) = 0) ->
  forall s, zl s -> zl (fold_left (fun s a => add_kv (f a) (g a) s) l s).
Proof.
  induction l as [|a l IH]; intros h s Hs; cbn [fold_left]; [assumption|].
  apply IH; [intros; apply h; now right|]. apply zl_add; [apply h; now left|assumption].
Qed.
Lemma zl_filter {K} f (l : list (K * Q)) : zl l -> zl (filter f l).
Proof. intros h k x Hin. apply filter_In in Hin. now apply (h k). Qed.
Lemma zp_padd {K} `{Key K} (p q : Poly K) : zp p -> zp q -> post (padd p q) zp.
Proof.
  intros hp hq. unfold padd. destruct (is_exact_type p q); [|exact Logic.I]. cbn [post]. unfold zp, rm_zero. cbn [items].
  apply zl_filter. unfold add_all. apply zl_fold; [|exact hp]. intros [k x] Hin. now apply (hq k).
Qed.
Lemma zp_merge {K} `{Key K} (p q : Poly K) : zp p -> zp q -> post (merge p q) zp.
Proof. exact (zp_padd p q). Qed.

Lemma int_e_zp c tp m1 m2 p : zp p -> post (int_e_s_poly c tp m1 m2 p) zp.
Proof.
  intro hp. unfold int_e_s_poly. eapply post_bind; [|intros l Hl; exact Hl].
  apply (post_foldM _ zl); [apply zl_nil|]. intros s [k x] Hin Hs. cbn [fst snd]. cbv zeta.
  eapply post_bind; [apply post_any|]. intros pol1 _. cbn [post].
  apply (zl_fold (fun KV => ies_key tp k (fst KV)) (fun KV => qmul (qmul c x) (snd KV))); [|assumption].
  intros KV _. rewrite !Q2R_mul, (hp k x Hin). ring.
Qed.
Lemma key_times_zp k p : zp p -> zp (svcj_key_times_poly k p).
Proof.
  intro hp. unfold svcj_key_times_poly, zp; cbn [items].
  apply (zl_fold (fun kv : list Z * Q => let key := fst kv in _) snd); [|apply zl_nil]. intros [k0 x] Hin. now apply (hp k0).
Qed.

(** ** the table *)
Definition hasG (G : cj_idx -> Poly (list Z) -> Prop) (T : cache6) (i : cj_idx) : Prop := exists d, cget i T = Ok d /\ G i d.
Definition fullG (G : cj_idx -> Poly (list Z) -> Prop) (T : cache6) (n : Z) : Prop :=
  forall n1 n2 n3 n4 n5 n6, cj_dom (n1, n2, n3, n4, n5, n6) -> (n1 + n2 + n3 + n4 + n5 + n6 < n)%Z -> hasG G T (n1, n2, n3, n4, n5, n6).
Lemma hasG_set (G : cj_idx -> Poly (list Z) -> Prop) T i q : G i q -> hasG G (cset i q T) i.
Proof. intro h. exists q. split; [apply cget_cset_same|assumption]. Qed.
Lemma hasG_other (G : cj_idx -> Poly (list Z) -> Prop) T i j q : i <> j -> hasG G T j -> hasG G (cset i q T) j.
Proof. intros n (d & e & g). exists d. split; [|assumption]. now rewrite cget_cset_other. Qed.

Section Table.
Variable G : cj_idx -> Poly (list Z) -> Prop.
Hypothesis step : forall T n1 n2 n3 n4 n5 n6, cj_dom (n1, n2, n3, n4, n5, n6) -> fullG G T (n1 + n2 + n3 + n4 + n5 + n6) ->
  returns (recursive_ieii6 n1 n2 n3 n4 n5 n6 T) (G (n1, n2, n3, n4, n5, n6)).
Hypothesis base1 : G (0, 0, 0, 0, 0, 0)%Z svcj_p1.
Hypothesis baseI : G (1, 0, 0, 0, 0, 0)%Z svcj_p0 /\ G (0, 1, 0, 0, 0, 0)%Z svcj_p0 /\ G (0, 0, 1, 0, 0, 0)%Z svcj_p0.
Hypothesis baseZ : forall n4 n5 n6, (0 <= n4)%Z -> (0 <= n5)%Z -> (0 <= n6)%Z ->
  returns (moment_ieziziz n4 n5 n6) (fun z => G (0, 0, 0, n4, n5, n6)%Z (ieziziz_to_ieii z)).

Definition lt5 (a b c d e a' b' c' d' e' : Z) : Prop :=
  (a < a' \/ a = a' /\ (b < b' \/ b = b' /\ (c < c' \/ c = c' /\ (d < d' \/ d = d' /\ e < e'))))%Z.
Definition upto (m i1 i2 i3 i4 i5 : Z) (T : cache6) : Prop :=
  fullG G T m /\ forall n1 n2 n3 n4 n5 n6, cj_dom (n1, n2, n3, n4, n5, n6) -> (n1 + n2 + n3 + n4 + n5 + n6 = m)%Z ->
    lt5 n1 n2 n3 n4 n5 i1 i2 i3 i4 i5 -> hasG G T (n1, n2, n3, n4, n5, n6).

Lemma upto_weak m i1 i2 i3 i4 i5 j1 j2 j3 j4 j5 T :
  (forall n1 n2 n3 n4 n5 n6, cj_dom (n1, n2, n3, n4, n5, n6) -> (n1 + n2 + n3 + n4 + n5 + n6 = m)%Z ->
    lt5 n1 n2 n3 n4 n5 i1 i2 i3 i4 i5 -> lt5 n1 n2 n3 n4 n5 j1 j2 j3 j4 j5) ->
  upto m j1 j2 j3 j4 j5 T -> upto m i1 i2 i3 i4 i5 T.
Proof. intros h [h1 h2]. split; [assumption|]. intros n1 n2 n3 n4 n5 n6 D L O. apply h2; try assumption. eapply h; eassumption. Qed.

Lemma table_spec n T0 : (2 <= n)%Z -> fullG G T0 2 ->
  returns (foldM (fun T n =>
      foldM (fun T i1 =>
        foldM (fun T i2 =>
          foldM (fun T i3 =>
            foldM (fun T i4 =>
              foldM (fun T i5 =>
                let i6 := (n - i1 - i2 - i3 - i4 - i5)%Z in
                let! poly := recursive_ieii6 i1 i2 i3 i4 i5 i6 T in
                Ok (cset (i1, i2, i3, i4, i5, i6) poly T))
                (range 0 (n - i1 - i2 - i3 - i4 + 1)) T)
              (range 0 (n - i1 - i2 - i3 + 1)) T)
            (range 0 (n - i1 - i2 + 1)) T)
          (range 0 (n - i1 + 1)) T)
        (range 0 (n + 1)) T)
      (range 2 n) T0) (fun T => fullG G T n).
Proof.
  intros Hn H0. apply (foldM_range _ (fun m T => fullG G T m)); [lia|assumption|].
  intros m T Hm HT. eapply returns_weaken.
  - apply (foldM_range _ (fun i1 T => upto m i1 0 0 0 0 T)); [lia| |].
    { split; [assumption|]. unfold lt5, cj_dom. intros; lia. }
    clear T HT. intros i1 T H1 HT. eapply returns_weaken.
    { apply (foldM_range _ (fun i2 T => upto m i1 i2 0 0 0 T)); [lia|assumption|].
      clear T HT. intros i2 T H2 HT. eapply returns_weaken.
      { apply (foldM_range _ (fun i3 T => upto m i1 i2 i3 0 0 T)); [lia|assumption|].
        clear T HT. intros i3 T H3 HT. eapply returns_weaken.
        { apply (foldM_range _ (fun i4 T => upto m i1 i2 i3 i4 0 T)); [lia|assumption|].
          clear T HT. intros i4 T H4 HT. eapply returns_weaken.
          { apply (foldM_range _ (fun i5 T => upto m i1 i2 i3 i4 i5 T)); [lia|assumption|].
            clear T HT. intros i5 T H5 [F U]. cbv zeta.
            eapply returns_bind.
            { apply step; [unfold cj_dom; lia|].
              replace (i1 + i2 + i3 + i4 + i5 + (m - i1 - i2 - i3 - i4 - i5))%Z with m by lia. assumption. }
            intros q Hq. cbn [returns]. split.
            - intros n1 n2 n3 n4 n5 n6 D L. apply hasG_other; [|now apply F]. intro e. inversion e; subst. lia.
            - intros n1 n2 n3 n4 n5 n6 D L O.
              destruct (Z.eq_dec n1 i1) as [->|N1]; [destruct (Z.eq_dec n2 i2) as [->|N2]; [destruct (Z.eq_dec n3 i3) as [->|N3];
                [destruct (Z.eq_dec n4 i4) as [->|N4]; [destruct (Z.eq_dec n5 i5) as [->|N5]|]|]|]|].
              { replace n6 with (m - i1 - i2 - i3 - i4 - i5)%Z by lia. now apply hasG_set. }
              all: apply hasG_other; [intro e; inversion e; subst; congruence|]; apply U; try assumption; unfold lt5 in *; lia. }
          intros T' HT'. eapply upto_weak; [|exact HT']. unfold lt5, cj_dom. intros; lia. }
        intros T' HT'. eapply upto_weak; [|exact HT']. unfold lt5, cj_dom. intros; lia. }
      intros T' HT'. eapply upto_weak; [|exact HT']. unfold lt5, cj_dom. intros; lia. }
    intros T' HT'. eapply upto_weak; [|exact HT']. unfold lt5, cj_dom. intros; lia.
  - intros T' [F U] n1 n2 n3 n4 n5 n6 D L.
    destruct (Z.eq_dec (n1 + n2 + n3 + n4 + n5 + n6) m) as [e|ne]; [|apply F; [assumption|lia]].
    apply U; try assumption. unfold lt5, cj_dom in *. lia.
Qed.

Lemma moment_ieii6_table n1 n2 n3 n4 n5 n6 : cj_dom (n1, n2, n3, n4, n5, n6) ->
  returns (moment_ieii6 n1 n2 n3 n4 n5 n6) (G (n1, n2, n3, n4, n5, n6)).
Proof.
  intros D. pose proof D as (p1 & p2 & p3 & p4 & p5 & p6). unfold moment_ieii6.
  destruct (Z.ltb_spec n1 0); [lia|]. destruct (Z.ltb_spec n2 0); [lia|]. destruct (Z.ltb_spec n3 0); [lia|].
  destruct (Z.ltb_spec n4 0); [lia|]. destruct (Z.ltb_spec n5 0); [lia|]. destruct (Z.ltb_spec n6 0); [lia|]. cbn [orb]. cbv zeta.
  eapply returns_bind; [apply baseZ; lia|]. intros z1 g1.
  eapply returns_bind; [apply baseZ; lia|]. intros z2 g2.
  eapply returns_bind; [apply baseZ; lia|]. intros z3 g3.
  destruct baseI as (b1 & b2 & b3).
  match goal with |- returns (bind (foldM _ _ ?T0) _) _ => assert (F : fullG G T0 2) end.
  { intros m1 m2 m3 m4 m5 m6 (q1 & q2 & q3 & q4 & q5 & q6) L.
    assert (C : (m1, m2, m3, m4, m5, m6) = (0, 0, 0, 0, 0, 1)%Z \/ (m1, m2, m3, m4, m5, m6) = (0, 0, 0, 0, 1, 0)%Z \/
      (m1, m2, m3, m4, m5, m6) = (0, 0, 0, 1, 0, 0)%Z \/ (m1, m2, m3, m4, m5, m6) = (0, 0, 1, 0, 0, 0)%Z \/
      (m1, m2, m3, m4, m5, m6) = (0, 1, 0, 0, 0, 0)%Z \/ (m1, m2, m3, m4, m5, m6) = (1, 0, 0, 0, 0, 0)%Z \/
      (m1, m2, m3, m4, m5, m6) = (0, 0, 0, 0, 0, 0)%Z).
    { assert (E : forall a b c d e f, m1 = a -> m2 = b -> m3 = c -> m4 = d -> m5 = e -> m6 = f -> (m1, m2, m3, m4, m5, m6) = (a, b, c, d, e, f)) by (intros; congruence).
      destruct (Z.eq_dec m6 1); [left; apply E; lia|]. right. destruct (Z.eq_dec m5 1); [left; apply E; lia|]. right.
      destruct (Z.eq_dec m4 1); [left; apply E; lia|]. right. destruct (Z.eq_dec m3 1); [left; apply E; lia|]. right.
      destruct (Z.eq_dec m2 1); [left; apply E; lia|]. right. destruct (Z.eq_dec m1 1); [left; apply E; lia|]. right. apply E; lia. }
    destruct C as [->|[->|[->|[->|[->|[->| ->]]]]]].
    - now apply hasG_set.
    - apply hasG_other; [discriminate|]. now apply hasG_set.
    - do 2 (apply hasG_other; [discriminate|]). now apply hasG_set.
    - do 3 (apply hasG_other; [discriminate|]). now apply hasG_set.
    - do 4 (apply hasG_other; [discriminate|]). now apply hasG_set.
    - do 5 (apply hasG_other; [discriminate|]). now apply hasG_set.
    - do 6 (apply hasG_other; [discriminate|]). now apply hasG_set. }
  eapply (returns_bind _ _ (fun T => fullG G T (n1 + n2 + n3 + n4 + n5 + n6))).
  - destruct (Z.leb_spec 2 (n1 + n2 + n3 + n4 + n5 + n6)).
    + now apply table_spec.
    + unfold range. replace (Z.to_nat (n1 + n2 + n3 + n4 + n5 + n6 - 2)) with 0%nat by lia. cbn [seq map]. cbn [foldM returns]. intros m1 m2 m3 m4 m5 m6 Dm L. apply F; [assumption|lia].
  - intros T HT. now apply step.
Qed.
End Table.

(** ** the invariant: value, shape, and no term when the order of I* is odd *)
Definition GZ (i : cj_idx) (p : Poly (list Z)) : Prop :=
  Good6 i p /\ (let '(_, _, n3, _, _, _) := i in Z.odd n3 = true -> zp p).

Lemma branch_zp T k c m a1 a2 a3 i1 i2 i3 poly : zp poly ->
  (forall i d, (i = (a1, a2, a3, i1, i2, i3) \/ i = (a1 + 1, a2, a3, i1, i2, i3)%Z \/ i = (a1, a2, a3, i1 + 1, i2, i3)%Z) -> cget i T = Ok d -> zp d) ->
  post (svcj_branch T k c m a1 a2 a3 i1 i2 i3 poly) zp.
Proof.
  intros hp h. unfold svcj_branch.
  assert (L : forall i, (i = (a1, a2, a3, i1, i2, i3) \/ i = (a1 + 1, a2, a3, i1, i2, i3)%Z \/ i = (a1, a2, a3, i1 + 1, i2, i3)%Z) -> post (cget i T) zp).
  { intros i Hi. destruct (cget i T) as [d|] eqn:E; [|exact Logic.I]. now apply (h i). }
  eapply post_bind; [apply L; auto|]. intros d1 z1.
  eapply post_bind; [now apply int_e_zp|]. intros q1 y1.
  eapply post_bind; [apply L; auto|]. intros d2 z2.
  eapply post_bind; [now apply int_e_zp|]. intros q2 y2.
  eapply post_bind; [now apply zp_padd|]. intros r2 w2.
  eapply post_bind; [apply L; auto|]. intros d3 z3.
  eapply post_bind; [now apply int_e_zp|]. intros q3 y3.
  eapply post_bind; [now apply zp_padd|]. intros r3 w3.
  eapply post_bind; [apply L; auto|]. intros d4 z4.
  eapply post_bind; [now apply int_e_zp|]. intros q4 y4.
  eapply post_bind; [now apply zp_padd|]. intros r4 w4.
  apply zp_merge; [assumption|now apply key_times_zp].
Qed.

Lemma step_zp T n1 n2 n3 n4 n5 n6 : cj_dom (n1, n2, n3, n4, n5, n6) -> fullG GZ T (n1 + n2 + n3 + n4 + n5 + n6) -> Z.odd n3 = true ->
  post (recursive_ieii6 n1 n2 n3 n4 n5 n6 T) zp.
Proof.
  intros (p1 & p2 & p3 & p4 & p5 & p6) HT O. unfold recursive_ieii6.
  assert (N3 : n3 <> 0%Z) by (intros ->; discriminate O).
  replace ((n3 =? 0)%Z) with false by (symmetry; now apply Z.eqb_neq). rewrite Bool.andb_false_r.
  apply (post_foldM _ zp); [apply zl_nil|]. intros poly1 i1 Hi1 Z1. apply in_range in Hi1.
  apply (post_foldM _ zp); [assumption|]. intros poly2 i2 Hi2 Z2. apply in_range in Hi2.
  apply (post_foldM _ zp); [assumption|]. intros poly3 i3 Hi3 Z3. apply in_range in Hi3.
  eapply post_bind; [apply post_any|]. intros c1 _. eapply post_bind; [apply post_any|]. intros c2 _.
  eapply post_bind; [apply post_any|]. intros c3 _. cbv zeta.
  eapply post_bind; [apply post_any|]. intros z _. eapply post_bind; [apply post_any|]. intros pol1 _.
  destruct (items pol1) as [|kv0 r0]; [exact Logic.I|].
  apply (post_foldM _ zp); [assumption|]. intros poly [k x] _ Hp. unfold svcj_item. cbn [fst snd]. cbv zeta.
  assert (B : forall c m a1 a2 a3 q, zp q -> (0 <= a1)%Z -> (0 <= a2)%Z -> (0 <= a3)%Z -> Z.odd a3 = true -> (a1 + a2 + a3 <= n1 + n2 + n3 - 2)%Z ->
    post (svcj_branch T k c m a1 a2 a3 i1 i2 i3 q) zp).
  { intros c m a1 a2 a3 q Hq h1 h2 h3 ho hs. apply branch_zp; [assumption|]. intros i d Hi Ei.
    assert (X : forall b1 j1, (0 <= b1)%Z -> (0 <= j1)%Z -> (b1 + j1 <= a1 + i1 + 1)%Z -> i = (b1, a2, a3, j1, i2, i3) -> zp d).
    { intros b1 j1 hb hj hs1 ->. destruct (HT b1 a2 a3 j1 i2 i3) as (d' & e' & g' & z'); [unfold cj_dom; lia|lia|].
      rewrite e' in Ei. injection Ei as <-. now apply z'. }
    destruct Hi as [e|[e|e]].
    - apply (X a1 i1); [lia|lia|lia|exact e].
    - apply (X (a1 + 1)%Z i1); [lia|lia|lia|exact e].
    - apply (X a1 (i1 + 1)%Z); [lia|lia|lia|exact e]. }
  assert (ODD2 : Z.odd (n3 - 2) = true) by (rewrite Z.odd_sub, O; reflexivity).
  eapply post_bind; [|intros q1 Hq1; eapply post_bind; [|intros q2 Hq2; eapply post_bind; [|intros q3 Hq3]]].
  - destruct (Z.leb_spec 2 n1), (Z.leb_spec 0 n2), (Z.leb_spec 0 n3); cbn [andb]; try exact Hp. apply B; try assumption; lia.
  - destruct (Z.leb_spec 0 n1), (Z.leb_spec 2 n2), (Z.leb_spec 0 n3); cbn [andb]; try exact Hq1. apply B; try assumption; lia.
  - destruct (Z.leb_spec 1 n1), (Z.leb_spec 1 n2), (Z.leb_spec 0 n3); cbn [andb]; try exact Hq2. apply B; try assumption; lia.
  - destruct (Z.leb_spec 0 n1), (Z.leb_spec 0 n2), (Z.leb_spec 2 n3); cbn [andb]; try exact Hq3. apply B; try assumption; lia.
Qed.

Lemma cj_brackets_small n1 n2 n3 : dom3 (n1, n2, n3) -> (n1 + n2 + n3 < 2)%Z -> cj_brackets n1 n2 n3 = [].
Proof.
  intros (p1 & p2 & p3) h. unfold cj_brackets. destruct (Z.leb_spec 2 n1); [lia|]. destruct (Z.leb_spec 2 n2); [lia|].
  destruct (Z.leb_spec 1 n1), (Z.leb_spec 1 n2); try lia; cbn [andb]; destruct (Z.leb_spec 2 n3); try lia; reflexivity.
Qed.

Lemma p0_good n1 n2 n3 : dom3 (n1, n2, n3) -> (n1 + n2 + n3 = 1)%Z -> Good6 (n1, n2, n3, 0, 0, 0)%Z svcj_p0.
Proof.
  intros D h. split.
  - apply wfp_single. unfold P10, s10, nthZ; cbn [wfs nth deg6]. destruct D as (a & b & c). lia.
  - intros v t. unfold evp, svcj_p0; cbn [items eval]. rewrite Q2R_0, Rmult_0_l, Rplus_0_l. symmetry.
    change (Ms6 v (n1, n2, n3) t 0%nat 0%nat 0%nat = 0).
    assert (I : is_RInt (fun s => s3mul (jm6 v s t) (hs6 (JM6 v) v (n1, n2, n3) s) 0%nat 0%nat 0%nat) 0 t (Ms6 v (n1, n2, n3) t 0%nat 0%nat 0%nat)).
    { apply Ms6_pos; [assumption|]. intro e. inversion e; subst. lia. }
    rewrite <- (is_RInt_unique (V := R_CompleteNormedModule) _ _ _ _ I).
    rewrite (RInt_ext_all _ (fun _ => 0)).
    + rewrite RInt_const. unfold scal; simpl; unfold mult; simpl. ring.
    + intro s. rewrite s3mul_sum. cbn [seq sumR Nat.sub]. unfold hs6, brk. rewrite cj_brackets_small by (try assumption; lia). cbn [sumR]. ring.
Qed.
Lemma p1_good : Good6 (0, 0, 0, 0, 0, 0)%Z svcj_p1.
Proof.
  split.
  - apply wfp_single. unfold P10, s10, nthZ; cbn [wfs nth deg6]. lia.
  - intros v t. change (evp mon10 (v, t) svcj_p1 = Ms6 v (0, 0, 0)%Z t 0%nat 0%nat 0%nat). rewrite Ms6_z.
    unfold evp, svcj_p1, mon10, i6vals; cbn [items eval monx]. rewrite !pw_0, Q2R_1. unfold jm6, jmom. rewrite sexp_0. ring.
Qed.

Theorem moment_ieii6_spec n1 n2 n3 n4 n5 n6 : cj_dom (n1, n2, n3, n4, n5, n6) ->
  returns (moment_ieii6 n1 n2 n3 n4 n5 n6) (GZ (n1, n2, n3, n4, n5, n6)).
Proof.
  apply moment_ieii6_table.
  - clear n1 n2 n3 n4 n5 n6. intros T n1 n2 n3 n4 n5 n6 D F.
    assert (R : returns (recursive_ieii6 n1 n2 n3 n4 n5 n6 T) (Good6 (n1, n2, n3, n4, n5, n6))).
    { apply rec6_spec; [assumption|]. intros m1 m2 m3 m4 m5 m6 Dm L. destruct (F m1 m2 m3 m4 m5 m6 Dm L) as (d & e & g & _). now exists d. }
    destruct (Z.odd n3) eqn:O.
    + eapply returns_weaken; [exact (post_returns _ _ _ R (step_zp T n1 n2 n3 n4 n5 n6 D F O))|]. intros p [g z]. split; [assumption|auto].
    + eapply returns_weaken; [exact R|]. intros p g. split; [assumption|]. rewrite O. discriminate.
  - split; [apply p1_good|discriminate].
  - split; [|split]; (split; [apply p0_good; [unfold dom3; lia|lia]|]); try discriminate.
    intros _ k x [e|[]]. injection e as _ <-. apply Q2R_0.
  - intros m4 m5 m6 h4 h5 h6. eapply returns_weaken; [now apply moment_ieziziz_spec|]. intros z [Wz Ez].
    split; [now apply to_good6|discriminate].
Qed.
