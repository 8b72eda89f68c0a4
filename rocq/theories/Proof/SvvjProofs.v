(** mdl_svvj/cond2_cmom.py: the central moments are multinomial sums of the moments of
    ito_cond_mom.py. *)
From Coq Require Import Reals Lra.
From Verif.Spec Require Export Svvj.
From Verif.Model Require Export Svvj.
From Verif.Proof Require Export ItoCondTable CondCmom1Proofs.
Local Open Scope R_scope.

Lemma range_snoc a b : (a <= b)%Z -> range a (b + 1) = range a b ++ [b].
Proof.
  intro H. remember (Z.to_nat (b - a)) as m eqn:Em. revert a H Em. induction m as [|m IH]; intros a H Em.
  - replace a with b by lia. rewrite range_cons, !range_nil by lia. reflexivity.
  - rewrite (range_cons a (b + 1)), (range_cons a b) by lia. cbn [app]. f_equal. apply IH; lia.
Qed.

Section J.
Context (iez : Q -> Z -> Poly jkey -> res (Poly jkey)).
Definition Jm (i : zidx) : res (Poly jkey) := jmoment_IEII_with iez (fst (fst i)) (snd (fst i)) (snd i).
Local Notation J := Jm.
Definition jrec (i : zidx) (C : jcache) : res (Poly jkey) :=
  jrecursive_IEII_with iez (fst (fst i)) (snd (fst i)) (snd i) C.
Hypothesis HJ : forall i, zdom i -> returns (J i) (wfJ i).

(** ** the recursion reads the two orders below *)
Lemma jbranch_ext C C' c poly m1 m2 idx idx2 : cget idx C = cget idx C' -> cget idx2 C = cget idx2 C' ->
  jbranch iez C c poly m1 m2 idx idx2 = jbranch iez C' c poly m1 m2 idx idx2.
Proof. intros h1 h2. unfold jbranch. now rewrite h1, h2. Qed.

Definition agree (n : Z) (C C' : jcache) : Prop :=
  forall k, zdom k -> (n - 2 <= ord3 k <= n - 1)%Z -> cget k C = cget k C'.
Lemma jrec_ext i n C C' : zdom i -> ord3 i = n -> agree n C C' -> jrec i C = jrec i C'.
Proof.
  destruct i as [[a b] d]. intros (h1 & h2 & h3) Ho A. unfold ord3 in Ho; cbn [fst snd] in Ho.
  unfold jrec. cbn [fst snd]. unfold jrecursive_IEII_with.
  assert (G : forall x y w, (0 <= x)%Z -> (0 <= y)%Z -> (0 <= w)%Z -> (n - 2 <= x + y + w <= n - 1)%Z -> cget (x, y, w) C = cget (x, y, w) C').
  { intros x y w k1 k2 k3 k4. apply A; [now repeat split|exact k4]. }
  assert (E1 : forall poly, (if (2 <=? a) && (0 <=? b) && (0 <=? d) then jbranch iez C (Frac (a * (a - 1)) 2) poly 1 2 (a - 2, b, d) (a - 1, b, d) else Ok poly)%Z
    = (if (2 <=? a) && (0 <=? b) && (0 <=? d) then jbranch iez C' (Frac (a * (a - 1)) 2) poly 1 2 (a - 2, b, d) (a - 1, b, d) else Ok poly)%Z).
  { intro poly. destruct (Z.leb_spec 2 a); [|reflexivity]. cbn [andb]. destruct ((0 <=? b)%Z && (0 <=? d)%Z); [|reflexivity].
    apply jbranch_ext; apply G; lia. }
  assert (E2 : forall poly, (if (0 <=? a) && (2 <=? b) && (0 <=? d) then jbranch iez C (Frac (b * (b - 1)) 2) poly (-1) 0 (a, b - 2, d) (a + 1, b - 2, d) else Ok poly)%Z
    = (if (0 <=? a) && (2 <=? b) && (0 <=? d) then jbranch iez C' (Frac (b * (b - 1)) 2) poly (-1) 0 (a, b - 2, d) (a + 1, b - 2, d) else Ok poly)%Z).
  { intro poly. destruct (Z.leb_spec 2 b); [|now rewrite andb_false_r]. destruct ((0 <=? a)%Z && true && (0 <=? d)%Z); [|reflexivity].
    apply jbranch_ext; apply G; lia. }
  assert (E3 : forall poly, (if (1 <=? a) && (1 <=? b) && (0 <=? d) then jbranch iez C (Frac (a * b) 1) poly 0 1 (a - 1, b - 1, d) (a, b - 1, d) else Ok poly)%Z
    = (if (1 <=? a) && (1 <=? b) && (0 <=? d) then jbranch iez C' (Frac (a * b) 1) poly 0 1 (a - 1, b - 1, d) (a, b - 1, d) else Ok poly)%Z).
  { intro poly. destruct (Z.leb_spec 1 a); [|reflexivity]. destruct (Z.leb_spec 1 b); [|reflexivity]. cbn [andb]. destruct (0 <=? d)%Z; [|reflexivity].
    apply jbranch_ext; apply G; lia. }
  assert (E4 : forall poly, (if (0 <=? a) && (0 <=? b) && (2 <=? d) then jbranch iez C (Frac (d * (d - 1)) 2) poly (-1) 0 (a, b, d - 2) (a + 1, b, d - 2) else Ok poly)%Z
    = (if (0 <=? a) && (0 <=? b) && (2 <=? d) then jbranch iez C' (Frac (d * (d - 1)) 2) poly (-1) 0 (a, b, d - 2) (a + 1, b, d - 2) else Ok poly)%Z).
  { intro poly. destruct (Z.leb_spec 2 d); [|now rewrite andb_false_r]. destruct ((0 <=? a)%Z && (0 <=? b)%Z && true); [|reflexivity].
    apply jbranch_ext; apply G; lia. }
  rewrite E1. match goal with |- bind ?x _ = bind ?x _ => destruct x as [q1|]; [|reflexivity] end. cbn [bind].
  rewrite E2. match goal with |- bind ?x _ = bind ?x _ => destruct x as [q2|]; [|reflexivity] end. cbn [bind].
  rewrite E3. match goal with |- bind ?x _ = bind ?x _ => destruct x as [q3|]; [|reflexivity] end. cbn [bind].
  apply E4.
Qed.

Lemma merge_nonzero {K} `{Key K} (p r q : Poly K) : merge p r = Ok q -> nonzero (items q).
Proof. unfold merge. destruct (is_exact_type p r); [|discriminate]. intro E. injection E as <-. apply nonzero_rm_zero. Qed.
Lemma jbranch_nonzero C c poly m1 m2 idx idx2 q : jbranch iez C c poly m1 m2 idx idx2 = Ok q -> nonzero (items q).
Proof.
  unfold jbranch. intro E.
  repeat match type of E with bind ?x _ = Ok _ => destruct x as [?|]; [cbn [bind] in E|discriminate] end.
  now apply merge_nonzero in E.
Qed.
Lemma jrec_nonzero i C q : jrec i C = Ok q -> nonzero (items q).
Proof.
  unfold jrec, jrecursive_IEII_with. intro E.
  assert (G : forall (b : bool) C c poly m1 m2 idx idx2 r, nonzero (items poly) ->
    (if b then jbranch iez C c poly m1 m2 idx idx2 else Ok poly) = Ok r -> nonzero (items r)).
  { intros [] C0 c poly m1 m2 idx idx2 r N Er; [now apply jbranch_nonzero in Er|now injection Er as <-]. }
  match type of E with bind ?x _ = Ok _ => destruct x as [q1|] eqn:E1; [cbn [bind] in E|discriminate] end.
  apply G in E1; [|constructor].
  match type of E with bind ?x _ = Ok _ => destruct x as [q2|] eqn:E2; [cbn [bind] in E|discriminate] end.
  apply G in E2; [|assumption].
  match type of E with bind ?x _ = Ok _ => destruct x as [q3|] eqn:E3; [cbn [bind] in E|discriminate] end.
  apply G in E3; [|assumption]. now apply G in E.
Qed.
Lemma jrec_remove_zero i C q : jrec i C = Ok q -> remove_zero q = q.
Proof. intro E. apply jrec_nonzero in E. unfold remove_zero. rewrite rm_zero_id by assumption. now destruct q. Qed.

(** ** the table *)
Definition Tab (lo hi : Z) (C : jcache) : Prop :=
  forall i, zdom i -> (lo <= ord3 i <= hi)%Z -> cget i C = J i.

Lemma Tab_init : Tab 0 2 jinit.
Proof.
  intros [[a b] d] (h1 & h2 & h3) Ho. unfold Jm, jmoment_IEII_with. unfold ord3 in Ho; cbn [fst snd] in *.
  destruct (Z.ltb_spec (a + b + d) 0); [lia|]. destruct (Z.leb_spec (a + b + d) 2); [reflexivity|lia].
Qed.
Lemma J_unfold i C : zdom i -> (3 <= ord3 i)%Z -> foldM (jround_with iez) (range 3 (ord3 i)) jinit = Ok C -> J i = jrec i C.
Proof.
  intros Hi Ho EC. unfold Jm, jmoment_IEII_with, jrec. unfold ord3 in *.
  destruct (Z.ltb_spec (fst (fst i) + snd (fst i) + snd i) 0); [lia|].
  destruct (Z.leb_spec (fst (fst i) + snd (fst i) + snd i) 2); [lia|].
  assert (E : (if (3 <? fst (fst i) + snd (fst i) + snd i)%Z then foldM (jround_with iez) (range 3 (fst (fst i) + snd (fst i) + snd i)) jinit else Ok jinit) = Ok C).
  { destruct (Z.ltb_spec 3 (fst (fst i) + snd (fst i) + snd i)); [assumption|].
    rewrite range_nil in EC by lia. exact EC. }
  rewrite E. cbn [bind]. change (jrecursive_IEII_with iez (fst (fst i)) (snd (fst i)) (snd i) C) with (jrec i C).
  destruct (jrec i C) as [q|] eqn:Eq; [|reflexivity]. cbn [bind]. now rewrite (jrec_remove_zero i C q Eq).
Qed.

Lemma jround_tab C n : (3 <= n)%Z -> Tab (n - 2) (n - 1) C ->
  (forall i, zdom i -> ord3 i = n -> J i = jrec i C) -> returns (jround_with iez C n) (Tab (n - 1) n).
Proof.
  intros Hn HC Hr. unfold jround_with.
  set (P := fun (ij : Z * Z) (C : jcache) => cget (fst ij, snd ij, n - fst ij - snd ij)%Z C = J (fst ij, snd ij, n - fst ij - snd ij)%Z).
  eapply returns_bind.
  { rewrite (foldM_nested (fun C i j => let! poly := jrecursive_IEII_with iez i j (n - i - j) C in
      Ok (cset (i, j, n - i - j)%Z (remove_zero poly) C)) (fun i => range_down (n - i))).
    apply (foldM_visit _ (agree n C) P); [|intros k _ _; reflexivity].
    intros [i j] Hin C' HC'. apply in_flat_map in Hin. destruct Hin as (i' & Hi & Hj).
    apply in_map_iff in Hj. destruct Hj as (j' & E & Hj). inversion E; subst i' j'; clear E.
    apply in_range_down in Hi, Hj. cbn [fst snd].
    assert (Hz : zdom (i, j, n - i - j)%Z) by (unfold zdom; lia).
    assert (Hz2 : ord3 (i, j, n - i - j)%Z = n) by (unfold ord3; cbn [fst snd]; lia).
    change (jrecursive_IEII_with iez i j (n - i - j) C') with (jrec (i, j, n - i - j)%Z C').
    rewrite <- (jrec_ext _ n C C' Hz Hz2 HC').
    pose proof (HJ _ Hz) as hj. rewrite (Hr _ Hz Hz2) in hj.
    destruct (jrec (i, j, n - i - j)%Z C) as [q|] eqn:Eq; [|destruct hj]. cbn [bind returns].
    rewrite (jrec_remove_zero _ _ _ Eq).
    assert (EJ : J (i, j, n - i - j)%Z = Ok q) by now rewrite (Hr _ Hz Hz2). split; [|split].
    - intros k Hk Ho. rewrite (HC' k Hk Ho).
      rewrite cget_cset_other; [reflexivity|]. intros <-. unfold ord3 in Ho; cbn [fst snd] in Ho. lia.
    - unfold P; cbn [fst snd]. rewrite cget_cset_same. now rewrite EJ.
    - intros [i1 j1] e1; unfold P in *; cbn [fst snd] in *.
      destruct (keqb (i, j, n - i - j)%Z (i1, j1, n - i1 - j1)%Z) eqn:Ek.
      + apply keqb_spec in Ek. rewrite <- Ek. now rewrite cget_cset_same.
      + rewrite cget_cset_other; [assumption|]. intro E. apply keqb_spec in E. congruence. }
  intros C' [HC' HP]. cbn [returns]. intros i Hi Ho.
  rewrite cget_cdel by (apply Z.eqb_neq; lia).
  destruct (Z.eq_dec (ord3 i) n) as [E|N]; [|rewrite <- (HC' i Hi) by lia; apply HC; [assumption|lia]].
  destruct i as [[a1 b1] d1]. unfold ord3 in E; cbn [fst snd] in E. destruct Hi as (h1 & h2 & h3).
  assert (e : P (a1, b1) C').
  { apply HP. apply in_flat_map. exists a1. split; [apply in_range_down; lia|]. apply in_map. apply in_range_down. lia. }
  unfold P in e. cbn [fst snd] in e. now replace (n - a1 - b1)%Z with d1 in e by lia.
Qed.

Lemma rounds_tab m : exists C, foldM (jround_with iez) (range 3 (3 + Z.of_nat m)) jinit = Ok C /\
  Tab (3 + Z.of_nat m - 2) (3 + Z.of_nat m - 1) C.
Proof.
  induction m as [|m (C & EC & HT)].
  - exists jinit. split; [rewrite range_nil by lia; reflexivity|]. intros i Hi Ho. apply Tab_init; [assumption|lia].
  - replace (3 + Z.of_nat (S m))%Z with (3 + Z.of_nat m + 1)%Z by lia. set (n := (3 + Z.of_nat m)%Z) in *.
    assert (h : returns (jround_with iez C n) (Tab (n - 1) n)).
    { apply jround_tab; [lia|exact HT|]. intros i Hi Ho. apply J_unfold; [assumption|lia|]. now rewrite Ho. }
    destruct (jround_with iez C n) as [C'|] eqn:E; [|destruct h]. exists C'.
    rewrite (range_snoc 3 n) by lia. rewrite foldM_app, EC. cbn [bind foldM]. rewrite E. split; [reflexivity|].
    replace (n + 1 - 2)%Z with (n - 1)%Z by lia. replace (n + 1 - 1)%Z with n by lia. exact h.
Qed.

Lemma J_rec i n C : zdom i -> ord3 i = n -> (3 <= n)%Z -> Tab (n - 2) (n - 1) C -> jrec i C = J i.
Proof.
  intros Hi Ho Hn HT. destruct (rounds_tab (Z.to_nat (n - 3))) as (C' & EC & HT').
  replace (3 + Z.of_nat (Z.to_nat (n - 3)))%Z with n in * by lia.
  rewrite (J_unfold i C'); [|assumption|lia|now rewrite Ho].
  apply (jrec_ext i n); [assumption|assumption|]. intros k Hk Hk2. now rewrite HT, HT'.
Qed.

(** ** one round *)
Definition Jv (i : zidx) (p : zpar) (z : path) (t : R) : R :=
  match J i with Ok q => eval (jmon p z t) (items q) | Err _ => 0 end.
Definition svpt : Type := svpar * path * (R * R * R).
Definition svval (x : svpt) : svkey -> R :=
  let '(p, z, (x1, x2, x3)) := x in svmon (zvals (svz p) (svh p)) [x1; x2; x3] p z.
Definition svterm (n : Z) (x : svpt) (ns : list Z) : R :=
  let '(p, z, (x1, x2, x3)) := x in
  match ns with
  | [i; j; d] => IZR (cmb n ns) * (Jv (i, j, d) (svz p) z (svh p) *
                   (pw (exp (- (svk p * svh p))) i * pw x1 i * pw x2 j * pw x3 d))
  | _ => 0
  end.
Definition svP (key : svkey) : Prop :=
  jkey_ok (fst key) /\ exists i j d, snd key = [i; j; d] /\ (0 <= i)%Z /\ (0 <= j)%Z /\ (0 <= d)%Z.
Definition svE (key : svkey) : Prop := Z.even (nthZ (snd key) 2) = true.
Definition svwf (a : list (svkey * Q)) : Prop := uniq a /\ allk svP a /\ supp svE a.

Definition svbody (l n : Z) (st : jcache * list (svkey * Q)) (ns : list Z) : res (jcache * list (svkey * Q)) :=
  match ns with [i; j; _] => sv_cell iez l n i j st | _ => Err IndexError end.

Lemma jkey_ok_cons k lopq x : jkey_ok (k, lopq) -> jkey_ok (x :: tl k, lopq).
Proof.
  intros (h1 & h2 & h3). cbn [fst snd] in *. destruct k as [|k0 k]; [discriminate|]. split; [exact h1|]. split; [|exact h3].
  intros [|i] Hi; [congruence|]. cbn [fst tl]. exact (h2 (S i) Hi).
Qed.

Lemma sv_cell_sp l n C a i j d : (2 <= n)%Z -> (0 <= i)%Z -> (0 <= j)%Z -> (0 <= d)%Z -> (i + j + d = n)%Z ->
  Tab (n - 2) (Z.max 2 (n - 1)) C -> svwf a ->
  returns (sv_cell iez l n i j (C, a)) (fun st => exists q, J (i, j, d) = Ok q /\
    fst st = (if ((3 <=? n) && (n <? l))%Z then cset (i, j, d) q C else C) /\ svwf (snd st) /\
    forall x, eval (svval x) (snd st) = eval (svval x) a + svterm n x [i; j; d]).
Proof.
  intros Hn Hi Hj Hd Hs HC (U & A & S). unfold sv_cell. replace (n - i - j)%Z with d by lia.
  rewrite (comp_comb [i; j; d] n); [|repeat (apply Forall_cons; [assumption|]); apply Forall_nil|cbn; lia]. cbn [bind].
  assert (Hz : zdom (i, j, d)) by now repeat split.
  assert (E : (if (n <? 3)%Z then cget (i, j, d) C else jrecursive_IEII_with iez i j d C) = J (i, j, d)).
  { destruct (Z.ltb_spec n 3).
    - apply HC; [assumption|]. unfold ord3; cbn [fst snd]. lia.
    - apply (J_rec (i, j, d) n C); [assumption|exact Hs|lia|]. intros k Hk Hk2. apply HC; [assumption|lia]. }
  rewrite E. pose proof (HJ _ Hz) as hj. destruct (J (i, j, d)) as [q|] eqn:EJ; [|destruct hj]. destruct hj as (w1 & w2 & w3 & w4).
  cbn [bind returns]. exists q. split; [reflexivity|]. cbn [fst snd]. split; [reflexivity|].
  set (F := fun kv : jkey * Q => (((nthZ (fst (fst kv)) 0 - i)%Z :: tl (fst (fst kv)), snd (fst kv)), [i; j; d]) : svkey).
  set (G := fun kv : jkey * Q => qmul (qz (cmb n [i; j; d])) (snd kv)).
  change (fold_left _ (items q) a) with (fold_left (fun a kv => add_kv (F kv) (G kv) a) (items q) a).
  split.
  - split; [now apply uniq_fold_add|]. split.
    + apply allk_fold_add; [assumption|]. intros [[k lopq] v] Hin. split; [|exists i, j, d; now repeat split].
      cbn [F fst snd]. apply jkey_ok_cons. exact (allk_in _ _ _ v w3 Hin).
    + apply supp_fold_add; [assumption|]. intros [k v] Hin Hnz. unfold G in Hnz. apply qmul_nz in Hnz. destruct Hnz as [_ Hnz].
      exact (w4 k v Hin Hnz).
  - intros [[p z] [[x1 x2] x3]]. rewrite eval_fold_add. f_equal. unfold svterm, Jv. rewrite EJ.
    rewrite sumR_eval, (Rmult_comm (sumR _ _)), <- !sumR_scal. apply sumR_ext.
    intros [[k lopq] v] Hin. unfold G, F. cbn [fst snd]. rewrite Q2R_mul, Q2R_qz.
    destruct (allk_in _ _ _ v w3 Hin) as (Hl & _ & _). cbn [fst snd] in Hl.
    destruct k as [|k0 k]; [discriminate|]. cbn [svval fst snd tl]. unfold svmon, jmon, zvals, svk. cbn [fst snd].
    change (nthZ (k0 :: k) 0) with k0. cbn [monx].
    rewrite (pw_sub _ k0 i) by apply exp_neq0. rewrite exp_Ropp, (pw_inv (exp (zpk (svz p) * svh p)) i) by apply exp_neq0. ring.
Qed.

Definition svgood (n : Z) (q : Poly svkey) : Prop :=
  keyfor q = kf_sv /\ uniq (items q) /\ allk svP (items q) /\ allk svE (items q) /\
  forall x, eval (svval x) (items q) = sumR (svterm n x) (rcomp 2 n).

Lemma sv_round_sp l n C cm : (2 <= n <= l)%Z -> Tab (n - 2) (Z.max 2 (n - 1)) C ->
  returns (sv_round iez l (C, cm) n) (fun st => exists q, snd st = cm ++ [q] /\ svgood n q /\
    ((n < l)%Z -> Tab (n - 1) (Z.max 2 n) (fst st))).
Proof.
  intros Hn HC. unfold sv_round.
  set (Inv := fun st : jcache * list (svkey * Q) => Tab (n - 2) (Z.max 2 (n - 1)) (fst st) /\ svwf (snd st)).
  set (Vis := fun (ns : list Z) (st : jcache * list (svkey * Q)) => (n < l)%Z ->
    match ns with [i; j; d] => (i + j + d = n)%Z -> zdom (i, j, d) -> cget (i, j, d) (fst st) = J (i, j, d) | _ => True end).
  match goal with |- returns (bind ?x _) _ => set (loop := x) end.
  assert (El : loop = foldM (svbody l n) (rcomp 2 n) (C, [])).
  { unfold loop. transitivity (nest 2 n [] (svbody l n) (C, [])); [reflexivity|]. now rewrite nest_rcomp. }
  rewrite El. clear El loop.
  assert (I0 : Inv (C, [])).
  { split; [exact HC|]. split; [apply uniq_nil|]. split; [apply allk_nil|apply supp_nil]. }
  assert (keep : forall C1 i j d q, Tab (n - 2) (Z.max 2 (n - 1)) C1 -> (i + j + d = n)%Z ->
    Tab (n - 2) (Z.max 2 (n - 1)) (if ((3 <=? n) && (n <? l))%Z then cset (i, j, d) q C1 else C1)).
  { intros C1 i j d q H1 Hs. destruct ((3 <=? n) && (n <? l))%Z eqn:Eb; [|exact H1].
    apply andb_prop in Eb. destruct Eb as [Eb _]. apply Z.leb_le in Eb.
    intros k Hk Ho. rewrite cget_cset_other; [now apply H1|]. intros <-. unfold ord3 in Ho; cbn [fst snd] in Ho. lia. }
  assert (L1 : returns (foldM (svbody l n) (rcomp 2 n) (C, [])) (fun st => Inv st /\ forall ns, In ns (rcomp 2 n) -> Vis ns st)).
  { apply (foldM_visit _ Inv Vis); [|exact I0]. intros ns Hin [C1 a1] [H1 W1].
    destruct (rcomp2_in n ns ltac:(lia) Hin) as (i & j & d & -> & Hi & Hj & Hd & Hs). cbn [svbody fst snd] in *.
    eapply returns_weaken; [apply (sv_cell_sp l n C1 a1 i j d); try assumption; lia|].
    intros [C2 a2] (q & G & EC & W2 & _). cbn [fst snd] in *. subst C2. split; [split; [now apply keep|exact W2]|].
    split.
    - intros Hl _ Hz. cbn [fst].
      destruct (Z.leb_spec 3 n), (Z.ltb_spec n l); cbn [andb]; try lia; [now rewrite cget_cset_same|].
      apply H1; [assumption|]. unfold ord3; cbn [fst snd]; lia.
    - intros ns' V' Hl. specialize (V' Hl). destruct ns' as [|i' [|j' [|d' [|? ?]]]]; try exact Logic.I.
      intros Hs' Hz'. specialize (V' Hs' Hz'). cbn [fst] in *.
      destruct ((3 <=? n) && (n <? l))%Z; [|assumption].
      destruct (keqb (i, j, d) (i', j', d')) eqn:Ek.
      + apply keqb_spec in Ek. inversion Ek; subst i' j' d'. now rewrite cget_cset_same.
      + rewrite cget_cset_other; [assumption|]. intro E. apply keqb_spec in E. congruence. }
  assert (L2 : returns (foldM (svbody l n) (rcomp 2 n) (C, [])) (fun st => Inv st /\
      forall x, eval (svval x) (snd st) = eval (svval x) [] + sumR (svterm n x) (rcomp 2 n))).
  { apply (foldM_sum (svbody l n) Inv (fun x st => eval (svval x) (snd st)) (svterm n)); [|exact I0].
    intros ns Hin [C1 a1] [H1 W1].
    destruct (rcomp2_in n ns ltac:(lia) Hin) as (i & j & d & -> & Hi & Hj & Hd & Hs). cbn [svbody fst snd] in *.
    eapply returns_weaken; [apply (sv_cell_sp l n C1 a1 i j d); try assumption; lia|].
    intros [C2 a2] (q & G & EC & W2 & V). cbn [fst snd] in *. subst C2. split; [split; [now apply keep|exact W2]|exact V]. }
  eapply returns_bind; [exact (returns_and _ _ _ L1 L2)|]. intros [C' a'] (([HC' (U & A & S)] & HV) & _ & Hev). cbn [fst snd] in *.
  cbn [returns]. eexists. cbn [fst snd]. split; [reflexivity|]. split.
  - unfold svgood, remove_zero; cbn [items keyfor]. split; [reflexivity|]. split; [now apply uniq_rm_zero|].
    split; [now apply allk_rm_zero|]. split.
    + apply allk_supp_nonzero; [now apply supp_rm_zero|apply nonzero_rm_zero].
    + intro x. rewrite eval_rm_zero, Hev. cbn [eval]. ring.
  - intro Hl. destruct (Z.eqb_spec n l); [lia|]. intros k Hk Ho. rewrite cget_cdel by (apply Z.eqb_neq; lia).
    destruct (Z_le_dec (ord3 k) (Z.max 2 (n - 1))) as [Hle|Hgt]; [apply HC'; [assumption|lia]|].
    destruct k as [[i j] d]. unfold ord3 in *; cbn [fst snd] in *. pose proof Hk as Hk'. destruct Hk' as (k1 & k2 & k3).
    refine (HV [i; j; d] _ Hl _ Hk); [|lia]. apply in_rcomp; [lia|]. split; [reflexivity|].
    split; [repeat (apply Forall_cons; [assumption|]); apply Forall_nil|]. cbn. lia.
Qed.

Lemma svgood_0 : svgood 0 sv_P1.
Proof.
  split; [reflexivity|]. split; [constructor; [intros []|constructor]|].
  assert (W : svP (jk [0;0;0;0;0;0]%Z [] [], [0;0;0]%Z)).
  { split; [|exists 0%Z, 0%Z, 0%Z; repeat split; lia]. split; [reflexivity|]. split; [|now repeat split].
    intros [|[|[|[|[|[|[|i]]]]]]] _; cbn; lia. }
  split; [intros k [<-|[]]; exact W|]. split; [intros k [<-|[]]; reflexivity|].
  intros [[p z] [[x1 x2] x3]]. change (rcomp 2 0) with [[0; 0; 0]%Z]. cbn [sumR svterm].
  unfold Jv. rewrite <- Tab_init by (unfold zdom, ord3; cbn; lia).
  change (cget (0, 0, 0)%Z jinit) with (Ok jP1). cbn [items jP1 eval sv_P1].
  unfold svval, svmon, jmon, zvals, jk, fZ_path, fZ_sum. cbn [fst snd monx]. rewrite !pw_0.
  change (cmb 0 [0; 0; 0]%Z) with 1%Z. unfold Q2R; cbn. field.
Qed.
Lemma svgood_1 : svgood 1 sv_P0.
Proof.
  split; [reflexivity|]. split; [constructor; [intros []|constructor]|].
  assert (W : svP (jk [0;0;0;0;0;0]%Z [] [], [0;0;0]%Z)).
  { split; [|exists 0%Z, 0%Z, 0%Z; repeat split; lia]. split; [reflexivity|]. split; [|now repeat split].
    intros [|[|[|[|[|[|[|i]]]]]]] _; cbn; lia. }
  split; [intros k [<-|[]]; exact W|]. split; [intros k [<-|[]]; reflexivity|].
  intros [[p z] [[x1 x2] x3]]. change (rcomp 2 1) with [[1; 0; 0]; [0; 1; 0]; [0; 0; 1]]%Z. cbn [sumR svterm].
  unfold Jv. rewrite <- !Tab_init by (unfold zdom, ord3; cbn; lia).
  change (cget (1, 0, 0)%Z jinit) with (Ok jP0). change (cget (0, 1, 0)%Z jinit) with (Ok jP0).
  change (cget (0, 0, 1)%Z jinit) with (Ok jP0). cbn [items jP0 eval sv_P0]. unfold Q2R; cbn. ring.
Qed.

Lemma sv_cmoments_sp l : returns (sv_cmoments_with iez l) (fun cs =>
  length cs = Z.to_nat (Z.max 1 l + 1) /\ forall n, (0 <= n <= Z.max 1 l)%Z -> exists q, nth_error cs (Z.to_nat n) = Some q /\ svgood n q).
Proof.
  unfold sv_cmoments_with.
  set (Inv := fun (n : Z) (st : jcache * list (Poly svkey)) => length (snd st) = Z.to_nat n /\
    (forall m, (0 <= m < n)%Z -> exists q, nth_error (snd st) (Z.to_nat m) = Some q /\ svgood m q) /\
    ((n <= l)%Z -> Tab (n - 2)%Z (Z.max 2 (n - 1)) (fst st))).
  assert (L : forall m n st, (2 <= n)%Z -> (n + Z.of_nat m = Z.max 2 (l + 1))%Z -> Inv n st ->
    returns (foldM (sv_round iez l) (range n (l + 1)) st) (Inv (Z.max 2 (l + 1)))).
  { induction m as [|m IH]; intros n st Hn Hm HI.
    - rewrite range_nil by lia. cbn [foldM returns]. replace (Z.max 2 (l + 1)) with n by lia. exact HI.
    - rewrite range_cons by lia. cbn [foldM]. destruct st as [C cm]. unfold Inv in HI. destruct HI as (i1 & i2 & i3). cbn [fst snd] in *.
      pose proof (sv_round_sp l n C cm ltac:(lia) (i3 ltac:(lia))) as h.
      destruct (sv_round iez l (C, cm) n) as [[C' cm']|]; [|destruct h]. destruct h as (q & Ecm & G & HT). cbn [fst snd] in *. subst cm'.
      apply IH; [lia|lia|]. split; [|split]; cbn [fst snd].
      + rewrite app_length. cbn [length]. lia.
      + intros k Hk. destruct (Z.eq_dec k n) as [->|Hne].
        * exists q. split; [|exact G]. rewrite nth_error_app2 by lia. rewrite i1, Nat.sub_diag. reflexivity.
        * destruct (i2 k ltac:(lia)) as (q' & e & g). exists q'. split; [|exact g].
          rewrite nth_error_app1; [exact e|]. rewrite i1. lia.
      + intro Hl. replace (n + 1 - 2)%Z with (n - 1)%Z by lia. replace (n + 1 - 1)%Z with n by lia. apply HT. lia. }
  eapply returns_bind.
  - apply (L (Z.to_nat (Z.max 2 (l + 1) - 2)) 2%Z (jinit, [sv_P1; sv_P0])); [lia|lia|]. split; [reflexivity|]. split.
    + intros m Hm. assert (m = 0 \/ m = 1)%Z as [-> | ->] by lia.
      * exists sv_P1. split; [reflexivity|apply svgood_0].
      * exists sv_P0. split; [reflexivity|apply svgood_1].
    + intros _. exact Tab_init.
  - intros [C cs] (h1 & h2 & _). cbn [returns fst snd] in *. split; [lia|]. intros n Hn. apply h2. lia.
Qed.
End J.
