(** The initial memo table of ito_cond_mom.py, and the joint moments given the jump path. *)
From Coq Require Import Reals Lra.
From Coquelicot Require Import Coquelicot.
From Verif.Proof Require Export ItoCondProofs.
Local Open Scope R_scope.

Lemma fixed_total c m poly (Pc : Prop) : allk jkey_ok (items poly) -> supp (fun _ => Pc) (items poly) ->
  returns (iez_fixed c m poly) (fun r => keyfor r = keyfor poly /\ uniq (items r) /\ allk jkey_ok (items r) /\
    supp (fun _ => Pc) (items r)).
Proof.
  intros W S. unfold iez_fixed.
  pose proof (gint_spec false _ _ iez_lopq IEZ_path c m inc_ok_id iez_shape
    iez_wt ltac:(discriminate) poly (allk_jok_false _ W)) as h.
  destruct (returns_inv _ _ h) as (r & E & h1 & h2 & h3 & _). rewrite E. cbn [returns].
  split; [assumption|]. split; [assumption|]. split; [|exact (gint_supp _ _ c m poly Pc S r E)].
  eapply allk_weaken; [exact h3|]. now intros k [Hk _].
Qed.

Lemma fixed_right b c m poly : allk (jok b) (items poly) -> (b = true -> (1 <= m)%Z) ->
  returns (iez_fixed c m poly) (fun r => allk (jok b) (items r) /\
    forall p z t, zpk p <> 0 -> jumps_ok z -> 0 <= t ->
      is_RInt (fun s => Q2R c * exp (IZR m * (zpk p * s)) * IEZ_path (zpk p) z s * eval (jmon p z s) (items poly)) 0 t
        (eval (jmon p z t) (items r))).
Proof.
  intros W Hb. unfold iez_fixed.
  pose proof (gint_spec b _ _ iez_lopq IEZ_path c m inc_ok_id iez_shape iez_wt Hb poly W) as h.
  eapply returns_weaken; [exact h|]. intros r (_ & _ & h3 & h4). split; [assumption|].
  intros p z t Hp Hz Ht. eapply is_RInt_ext; [|now apply h4]. intros s _. cbv beta.
  match goal with |- ?x = ?y => change (@eq R x y) end. ring.
Qed.

Lemma code_right c m poly : allk (jok true) (items poly) -> (true = true -> (1 <= m)%Z) ->
  returns (int_e_IEZ_poly c m poly) (fun r => allk (jok true) (items r) /\
    forall p z t, zpk p <> 0 -> jumps_ok z -> 0 <= t ->
      is_RInt (fun s => Q2R c * exp (IZR m * (zpk p * s)) * IEZ_path (zpk p) z s * eval (jmon p z s) (items poly)) 0 t
        (eval (jmon p z t) (items r))).
Proof.
  intros W Hb. rewrite code_iez_safe.
  - now apply fixed_right.
  - eapply allk_weaken; [exact W|]. now intros k [Hk _].
  - intros k Hk. left. now apply W.
Qed.

Lemma goodJ_000 b : GoodJ b (0, 0, 0)%Z jP1.
Proof.
  split.
  - split; [reflexivity|]. split; [repeat constructor; simpl; tauto|]. split.
    + intros k [<-|[]]. split; [reflexivity|]. split; [|now repeat split].
      intros [|[|[|[|[|[|j]]]]]] _; cbn; try lia. destruct j; lia.
    + intros k v _ _. reflexivity.
  - intros _. split.
    + intros k [<-|[]]. split; [|intros _; now split]. split; [reflexivity|]. split; [|now repeat split].
      intros [|[|[|[|[|[|j]]]]]] _; cbn; try lia. destruct j; lia.
    + intros p z M (Hp & Hz & HM) t Ht.
      pose proof (HM (0, 0, 0)%Z ltac:(unfold zdom; lia) t Ht) as h.
      pose proof (is_RInt_const (V := R_NormedModule) 0 t 0) as h0. unfold scal in h0. simpl in h0.
      unfold mult in h0. simpl in h0. rewrite Rmult_0_r in h0.
      pose proof (is_RInt_uniq _ _ _ _ _ h0 h) as E. cbn [cond_init] in E.
      cbn [jP1 items eval]. unfold jk. rewrite jmon_key by reflexivity. unfold jB, nthZ. cbn [nth zs].
      rewrite !pw_0, Rmult_0_l, exp_0. replace (Q2R 1) with 1 by (unfold Q2R; simpl; lra).
      rewrite ?Rmult_1_r. lra.
Qed.

Lemma goodJ_transfer b i q r : GoodJ false i r -> wfJ i q ->
  (forall mon, eval mon (items q) = eval mon (items r)) ->
  (trusted b i -> allk (jok b) (items q)) -> GoodJ b i q.
Proof.
  intros [_ h] W E K. split; [assumption|]. intro T. split; [now apply K|].
  intros p z M HM t Ht. rewrite E. apply h; [discriminate|assumption|assumption].
Qed.

Lemma jok_keys b l : Forall (fun kv => length (fst (fst kv)) = 6%nat /\ (forall i, i <> O -> (0 <= nth i (fst (fst kv)) 0)%Z) /\
  jshape (snd (fst kv)) /\ (b = true -> nthZ (fst (fst kv)) 1 = 0%Z /\ (0 <= nthZ (fst (fst kv)) 0)%Z)) l ->
  allk (jok b) (l : list (jkey * Q)).
Proof.
  intros h k Hk. apply in_map_iff in Hk. destruct Hk as (kv & <- & Hin).
  rewrite Forall_forall in h. destruct (h kv Hin) as (h1 & h2 & h3 & h4). repeat split; trivial; now apply h4.
Qed.

Ltac jok_conc := apply jok_keys; repeat (constructor; [cbn [fst snd];
  split; [reflexivity|split; [let Hj := fresh in let j := fresh in intros [|[|[|[|[|[|[|j]]]]]]] Hj; cbn; solve [lia|now contradiction Hj]|split; [now repeat split|
    first [discriminate|intros _; unfold nthZ; cbn; lia]]]]|]); constructor.
Ltac wfJ_conc := split; [reflexivity|]; split; [repeat (apply NoDup_cons; [simpl; intuition discriminate|]); apply NoDup_nil|]; split;
  [let h := fresh in assert (h : forall l, allk (jok false) l -> allk jkey_ok l)
     by (intros l h k Hk; now apply h); apply h; jok_conc|].

(** orders 0 and 1 *)
Lemma goodJ_1 b i q : In i [(1, 0, 0); (0, 1, 0); (0, 0, 1)]%Z -> q = jP0 -> GoodJ b i q.
Proof.
  intros Hi ->.
  assert (H : GoodJ false i (mkPoly [] kf_jIEII)).
  { assert (HC : CInvJ false (-1) 0 [((0, 0, 0)%Z, jP1)]).
    { intros [[a1 b1] d1] (h1 & h2 & h3) Ho. unfold ord3 in Ho; cbn [fst snd] in Ho.
      assert (a1 = 0 /\ b1 = 0 /\ d1 = 0)%Z as (-> & -> & ->) by lia. exists jP1. split; [reflexivity|apply goodJ_000]. }
    destruct Hi as [<-|[<-|[<-|[]]]].
    - exact (jrecursive_spec false iez_fixed fixed_total (fixed_right false) 1 0 0 _ ltac:(unfold zdom; lia) ltac:(lia) HC).
    - exact (jrecursive_spec false iez_fixed fixed_total (fixed_right false) 0 1 0 _ ltac:(unfold zdom; lia) ltac:(lia) HC).
    - exact (jrecursive_spec false iez_fixed fixed_total (fixed_right false) 0 0 1 _ ltac:(unfold zdom; lia) ltac:(lia) HC). }
  apply (goodJ_transfer b i jP0 _ H).
  - wfJ_conc. intros k v [E|[]] Hv. injection E as <- <-. now contradiction Hv.
  - intro mon. cbn [jP0 items eval]. replace (Q2R 0) with 0 by (unfold Q2R; simpl; lra). ring.
  - intros _. destruct b; jok_conc.
Qed.

Lemma CInvJ_01 b : CInvJ b 0 1 jinit.
Proof.
  intros [[a1 b1] d1] (h1 & h2 & h3) Ho. unfold ord3 in Ho; cbn [fst snd] in Ho.
  assert (((a1, b1, d1) = (0, 0, 0) \/ (a1, b1, d1) = (1, 0, 0) \/ (a1, b1, d1) = (0, 1, 0) \/ (a1, b1, d1) = (0, 0, 1))%Z) as H.
  { assert (a1 = 0 \/ a1 = 1)%Z as [->| ->] by lia; assert (b1 = 0 \/ b1 = 1)%Z as [->| ->] by lia;
    assert (d1 = 0 \/ d1 = 1)%Z as [->| ->] by lia; try lia; tauto. }
  destruct H as [E|[E|[E|E]]]; rewrite E; clear E.
  - exists jP1. split; [reflexivity|apply goodJ_000].
  - exists jP0. split; [reflexivity|apply goodJ_1; [simpl; tauto|reflexivity]].
  - exists jP0. split; [reflexivity|apply goodJ_1; [simpl; tauto|reflexivity]].
  - exists jP0. split; [reflexivity|apply goodJ_1; [simpl; tauto|reflexivity]].
Qed.

Lemma rec_2 i : zdom i -> ord3 i = 2%Z ->
  returns (jrecursive_IEII_with iez_fixed (fst (fst i)) (snd (fst i)) (snd i) jinit) (GoodJ false i).
Proof.
  destruct i as [[a1 b1] d1]. intros Hd Ho. unfold ord3 in Ho; cbn [fst snd] in *.
  apply (jrecursive_spec false iez_fixed fixed_total (fixed_right false)); [assumption|lia|].
  rewrite Ho. exact (CInvJ_01 false).
Qed.

Ltac order2 i := pose proof (rec_2 i ltac:(unfold zdom; lia) ltac:(reflexivity)) as h;
  cbn [fst snd] in h; let r := eval vm_compute in (jrecursive_IEII_with iez_fixed (fst (fst i)) (snd (fst i)) (snd i) jinit) in
  change (returns r (GoodJ false i)) in h; cbn [returns] in h;
  apply (goodJ_transfer _ i _ _ h).

Ltac jnil := intro mon; cbn [jP0 items eval]; replace (Q2R 0) with 0 by (unfold Q2R; simpl; lra); ring.
Ltac jsame P := intro mon; let l := eval vm_compute in (items P) in change (items P) with l; cbn [items eval]; ring.

Lemma goodJ_200 b : GoodJ b (2, 0, 0)%Z jP200.
Proof.
  order2 (2, 0, 0)%Z; [wfJ_conc; intros k v _ _; reflexivity|jsame jP200|intros _; destruct b; jok_conc].
Qed.
Ltac not_trusted b := let T := fresh in intro T; destruct b; [let t1 := fresh in let t2 := fresh in destruct (T eq_refl) as [t1 t2]; cbn in t1, t2; lia|jok_conc].
Lemma goodJ_110 b : GoodJ b (1, 1, 0)%Z jP110.
Proof. order2 (1, 1, 0)%Z; [wfJ_conc; intros k v _ _; reflexivity|jsame jP110|not_trusted b]. Qed.
Lemma goodJ_020 b : GoodJ b (0, 2, 0)%Z jP020.
Proof. order2 (0, 2, 0)%Z; [wfJ_conc; intros k v _ _; reflexivity|jsame jP020|not_trusted b]. Qed.
Lemma goodJ_002 b : GoodJ b (0, 0, 2)%Z jP020.
Proof. order2 (0, 0, 2)%Z; [wfJ_conc; intros k v _ _; reflexivity|jsame jP020|not_trusted b]. Qed.
Lemma goodJ_101 b : GoodJ b (1, 0, 1)%Z jP0.
Proof.
  order2 (1, 0, 1)%Z; [wfJ_conc; intros k v [E|[]] Hv; injection E as <- <-; now contradiction Hv|jnil|not_trusted b].
Qed.
Lemma goodJ_011 b : GoodJ b (0, 1, 1)%Z jP0.
Proof.
  order2 (0, 1, 1)%Z; [wfJ_conc; intros k v [E|[]] Hv; injection E as <- <-; now contradiction Hv|jnil|not_trusted b].
Qed.

Lemma CInvJ_init b : CInvJ b 0 2 jinit.
Proof.
  intros i Hi Ho. destruct (Z.eq_dec (ord3 i) 2) as [E|N]; [|apply CInvJ_01; [assumption|lia]].
  destruct i as [[a1 b1] d1]. destruct Hi as (h1 & h2 & h3). unfold ord3 in E; cbn [fst snd] in E.
  assert (a1 = 0 \/ a1 = 1 \/ a1 = 2)%Z as [->|[->| ->]] by lia;
    assert (b1 = 0 \/ b1 = 1 \/ b1 = 2)%Z as [->|[->| ->]] by lia; try lia.
  - replace d1 with 2%Z by lia. exists jP020. split; [reflexivity|apply goodJ_002].
  - replace d1 with 1%Z by lia. exists jP0. split; [reflexivity|apply goodJ_011].
  - replace d1 with 0%Z by lia. exists jP020. split; [reflexivity|apply goodJ_020].
  - replace d1 with 1%Z by lia. exists jP0. split; [reflexivity|apply goodJ_101].
  - replace d1 with 0%Z by lia. exists jP110. split; [reflexivity|apply goodJ_110].
  - replace d1 with 0%Z by lia. exists jP200. split; [reflexivity|apply goodJ_200].
Qed.

(** with any integration routine for the jump term that is right *)
Lemma jmoment_right iez :
  (forall c m poly (Pc : Prop), allk jkey_ok (items poly) -> supp (fun _ => Pc) (items poly) ->
     returns (iez c m poly) (fun r => keyfor r = keyfor poly /\ uniq (items r) /\ allk jkey_ok (items r) /\
       supp (fun _ => Pc) (items r))) ->
  (forall c m poly, allk (jok false) (items poly) -> (false = true -> (1 <= m)%Z) ->
    returns (iez c m poly) (fun r => allk (jok false) (items r) /\
      forall p z t, zpk p <> 0 -> jumps_ok z -> 0 <= t ->
        is_RInt (fun s => Q2R c * exp (IZR m * (zpk p * s)) * IEZ_path (zpk p) z s * eval (jmon p z s) (items poly)) 0 t
          (eval (jmon p z t) (items r)))) ->
  forall n1 n2 n3, (0 <= n1)%Z -> (0 <= n2)%Z -> (0 <= n3)%Z ->
  returns (jmoment_IEII_with iez n1 n2 n3) (GoodJ false (n1, n2, n3)).
Proof. intros h1 h2 n1 n2 n3 H1 H2 H3. apply jmoment_spec; trivial. apply CInvJ_init. Qed.

Lemma jmoment_fixed n1 n2 n3 : (0 <= n1)%Z -> (0 <= n2)%Z -> (0 <= n3)%Z ->
  returns (jmoment_IEII_with iez_fixed n1 n2 n3) (GoodJ false (n1, n2, n3)).
Proof. apply (jmoment_right iez_fixed fixed_total (fixed_right false)). Qed.

(** the code: total, well formed, and right for (n, 0, 0) *)
Lemma jmoment_code n1 n2 n3 : (0 <= n1)%Z -> (0 <= n2)%Z -> (0 <= n3)%Z ->
  returns (jmoment_IEII n1 n2 n3) (GoodJ true (n1, n2, n3)).
Proof. intros. apply (jmoment_spec true int_e_IEZ_poly code_iez_total code_right); trivial. apply CInvJ_init. Qed.

Lemma jmoment_code_3 n1 n2 n3 : (0 <= n1)%Z -> (0 <= n2)%Z -> (0 <= n3)%Z -> (n1 + n2 + n3 <= 3)%Z ->
  jmoment_IEII n1 n2 n3 = jmoment_IEII_with iez_fixed n1 n2 n3.
Proof.
  intros h1 h2 h3 H. destruct (Z.leb_spec (n1 + n2 + n3) 2) as [L|L].
  - unfold jmoment_IEII, jmoment_IEII_with. destruct (Z.ltb_spec (n1 + n2 + n3) 0); [reflexivity|].
    apply Z.leb_le in L. now rewrite L.
  - assert (n1 = 0 \/ n1 = 1 \/ n1 = 2 \/ n1 = 3)%Z as [->|[->|[->| ->]]] by lia;
    assert (n2 = 0 \/ n2 = 1 \/ n2 = 2 \/ n2 = 3)%Z as [->|[->|[->| ->]]] by lia; try lia;
    match goal with |- jmoment_IEII ?a ?b ?c = _ => 
      first [replace c with 0%Z by lia|replace c with 1%Z by lia|replace c with 2%Z by lia|replace c with 3%Z by lia] end;
    vm_compute; reflexivity.
Qed.
