(** Proofs about mdl_srjd/cmom.py and mom.py (C31). *)
From Coq Require Import Reals Lra.
From Coquelicot Require Import Coquelicot.
From Verif.Model Require Export SrjdStat.
From Verif.Proof Require Export SrjdCondV SrjdStatAna Laurent.
Local Open Scope R_scope.

(** ** cond_cmoment_v *)
Definition key0 (n : Z) : list Z := [- n; 0; n; 0; 0; 0; 0]%Z.
Definition ckey (n i1 i2 : Z) (k : list Z) : list Z := addat 4 i1 (addat 2 (n - i1 - i2) (addat 0 (- n) k)).

Lemma ckey_wf n i1 i2 k : (0 <= i1)%Z -> (0 <= n - i1 - i2)%Z -> P7 k -> P7v (ckey n i1 i2 k).
Proof. intros h1 h2 h. unfold P7 in h. wfs_destruct. unfold P7v, ckey. cbn [addat wfs]. repeat split; trivial; lia. Qed.

Lemma stat_cond_value n : (2 <= n)%Z ->
  returns (stat_cond_cmoment_v n) (fun p => wfp P7v kf_cie p /\ forall w, evp mon7 w p
    = pw (exp (ck (fst w) * snd w)) (- n) * W (fst w) (snd w) (Z.to_nat n)).
Proof.
  intro Hn. unfold stat_cond_cmoment_v. destruct (Z.eqb_spec n 0); [lia|]. destruct (Z.eqb_spec n 1); [lia|].
  eapply returns_bind.
  { apply (adds_foldM (wfl P7v) (ev mon7) _ (fun i1 w => sumR (fun i2 => IZR (mcomb n i1) * IZR (mcomb (n - i1) i2) *
      (pw (exp (ck (fst w) * snd w)) (- n) * (pw (ca (fst w)) (n - i1 - i2) * pw (csg (fst w)) i1 * JM 2 (fst w) (i1, i2) (snd w)))) (range 0 (n - i1 + 1)))); [|apply wfl_nil].
    intros i1 Hi1. apply in_range in Hi1.
    apply (adds_foldM (wfl P7v) (ev mon7) _ (fun i2 w => IZR (mcomb n i1) * IZR (mcomb (n - i1) i2) *
      (pw (exp (ck (fst w) * snd w)) (- n) * (pw (ca (fst w)) (n - i1 - i2) * pw (csg (fst w)) i1 * JM 2 (fst w) (i1, i2) (snd w))))).
    intros i2 Hi2. apply in_range in Hi2. rewrite !math_comb_ok by lia. cbn [bind].
    apply (adds_bind _ _ _ _ (fun poln a => Ok (fold_left _ (items poln) a)) _ (cmoment_ie_iez_spec i1 i2 ltac:(lia) ltac:(lia))).
    intros q (U & A & E & _). eapply adds_ext.
    { apply (adds_fold P7v mon7 (fun kv : list Z * Q => ckey n i1 i2 (fst kv)) (fun kv => qmul (snd kv) (qz (mcomb n i1 * mcomb (n - i1) i2)))).
      intros [k x] Hin. apply ckey_wf; [lia|lia|]. exact (proj1 (allk_in (P7d _) _ k x A Hin)). }
    intros [v t]. cbn [fst snd]. rewrite <- E. unfold evp. rewrite sumR_eval, <- !sumR_scal. apply sumR_ext.
    intros [k x] Hin. pose proof (proj1 (allk_in (P7d _) _ k x A Hin)) as Hk. unfold P7 in Hk. wfs_destruct. cbn [fst snd].
    rewrite Q2R_mul, Q2R_qz, mult_IZR. unfold mon7, ievals, ckey; cbn [fst snd addat monx].
    rewrite (pow_lemma_pw (exp (ck v * t))) by (left; nz). rewrite (pow_lemma_pw (ca v)) by (right; split; lia).
    rewrite (pow_lemma_pw (csg v)) by (right; split; lia). ring. }
  intros l [[U A] E]. cbn [returns]. split.
  - split; [reflexivity|]. now split.
  - intros [v t]. unfold evp; cbn [items]. specialize (E (v, t)). unfold ev in E. rewrite E.
    cbn [eval fst snd]. rewrite Rplus_0_l. unfold W. rewrite Wf_sum by lia. rewrite <- sumR_scal. apply sumR_ext.
    intros i1 Hi1. apply in_range in Hi1. rewrite <- sumR_scal. apply sumR_ext. intros i2 Hi2. apply in_range in Hi2.
    unfold Ms. rewrite !Z2Nat.id by lia. ring.
Qed.

(** exactly one item has the power n of v0-E[v], the first one, and its value is one *)
Definition hd1 (n : Z) (a : list (list Z * Q)) : Prop :=
  exists x l, a = (key0 n, x) :: l /\ (x == 1)%Q /\ allk (fun k => (nthZ k 2 < n)%Z) l.
Lemma hd1_add n a k v : hd1 n a -> (nthZ k 2 < n)%Z -> hd1 n (add_kv k v a).
Proof.
  intros (x & l & -> & h1 & h2) Hk. cbn [add_kv]. destruct (keqb (key0 n) k) eqn:E.
  - apply keqb_spec in E. subst k. unfold key0, nthZ in Hk. simpl in Hk. lia.
  - exists x, (add_kv k v l). split; [reflexivity|]. split; [assumption|]. now apply allk_add_kv.
Qed.
Lemma hd1_fold n (f : list Z * Q -> list Z) g l : forall a, hd1 n a -> (forall kv, In kv l -> (nthZ (f kv) 2 < n)%Z) ->
  hd1 n (fold_left (fun a kv => add_kv (f kv) (g kv) a) l a).
Proof.
  induction l as [|kv l IH]; intros a Ha Hf; [exact Ha|]. cbn [fold_left]. apply IH.
  - apply hd1_add; [assumption|apply Hf; now left].
  - intros; apply Hf; now right.
Qed.
Lemma cm00 : cmoment_ie_iez 0 0 = Ok (mkPoly [([0; 0; 0; 0; 0; 0; 0]%Z, 1%Q)] kf_cie).
Proof. vm_compute. reflexivity. Qed.

Lemma stat_cond_head n : (2 <= n)%Z -> returns (stat_cond_cmoment_v n) (fun p => hd1 n (items p)).
Proof.
  intro Hn. unfold stat_cond_cmoment_v. destruct (Z.eqb_spec n 0); [lia|]. destruct (Z.eqb_spec n 1); [lia|].
  eapply (returns_bind _ _ (fun a => hd1 n a)); [|intros; exact H].
  eapply returns_weaken.
  { apply (foldM_range _ (fun i a => (i = 0%Z /\ a = []) \/ (0 < i)%Z /\ hd1 n a)); [lia|now left|].
    intros i1 a Hi1 Ha.
    eapply returns_weaken.
    { apply (foldM_range _ (fun i2 a => (i1 = 0%Z /\ i2 = 0%Z /\ a = []) \/ (0 < i1 + i2)%Z /\ hd1 n a)); [lia| |].
      - destruct Ha as [[h1 h2]|[h1 h2]]; [left; auto|right]. split; [lia|assumption].
      - intros i2 b Hi2 Hb. rewrite !math_comb_ok by lia. cbn [bind].
        eapply returns_bind; [|intros q Hq; exact Hq]. cbn [returns].
        destruct Hb as [(-> & -> & ->)|(h1 & h2)].
        + rewrite cm00. cbn [returns items fold_left fst snd]. right. split; [lia|].
          eexists. exists []. split; [|split].
          * cbn [add_kv addat]. unfold key0. rewrite !Z.sub_0_r, !Z.add_0_l. reflexivity.
          * unfold mcomb. change (Z.to_nat 0) with 0%nat. rewrite combN_0. reflexivity.
          * apply allk_nil.
        + eapply returns_weaken; [apply (cmoment_ie_iez_spec i1 i2); lia|]. intros q (U & A & _). cbn [returns]. right. split; [lia|].
          apply (hd1_fold n (fun kv => ckey n i1 i2 (fst kv)) (fun kv => qmul (snd kv) (qz (mcomb n i1 * mcomb (n - i1) i2)))); [assumption|].
          intros [k x] Hin. cbn [fst]. destruct (allk_in (P7d _) _ k x A Hin) as [Hk Hd]. unfold P7 in Hk. wfs_destruct.
          unfold ckey, nthZ in *. cbn [addat nth fst] in *. change (Z.to_nat 2) with 2%nat in *. cbn [nth] in *. lia. }
    intros b [(_ & h & _)|[h1 h2]]; [lia|]. right. split; [lia|assumption]. }
  intros a [[h _]|[_ h]]; [lia|assumption].
Qed.

(** ** the item of order n is found and removed *)
Lemma filter_none {A} (f : A -> bool) l : (forall x, In x l -> f x = false) -> filter f l = [].
Proof.
  induction l as [|a l IH]; intro h; [reflexivity|]. cbn [filter]. rewrite (h a) by now left. apply IH. intros; apply h; now right.
Qed.
Lemma filter_all {A} (f : A -> bool) l : (forall x, In x l -> f x = true) -> filter f l = l.
Proof.
  induction l as [|a l IH]; intro h; [reflexivity|]. cbn [filter]. rewrite (h a) by now left. f_equal. apply IH. intros; apply h; now right.
Qed.
Lemma head_found n p x l : items p = (key0 n, x) :: l -> (x == 1)%Q -> allk (fun k => (nthZ k 2 < n)%Z) l ->
  find_same_order p n = Ok true /\ cdel1 (key0 n) (items p) = Ok l.
Proof.
  intros Hp Hx Hl. assert (K0 : nthZ (key0 n) 2 = n) by reflexivity.
  assert (HK : keqb (key0 n) (key0 n) = true) by now apply keqb_spec. split.
  - unfold find_same_order. rewrite Hp. cbn [filter fst]. rewrite K0, Z.eqb_refl.
    rewrite (filter_none (fun kv : list Z * Q => (nthZ (fst kv) 2 =? n)%Z)).
    2: { intros [k c] Hin. pose proof (allk_in _ _ k c Hl Hin) as h. cbv beta in h. cbn [fst]. apply Z.eqb_neq. lia. }
    cbn [length Z.of_nat]. change (Z.pos (Pos.of_succ_nat 0) =? 1)%Z with true. cbv iota.
    change [(- n)%Z; 0%Z; n; 0%Z; 0%Z; 0%Z; 0%Z] with (key0 n). cbn [cget]. rewrite HK. cbn [bind].
    now rewrite (proj2 (Qeq_bool_iff x 1) Hx).
  - unfold cdel1. rewrite Hp. cbn [cget]. rewrite HK. cbn [bind]. unfold cdel. cbn [filter fst]. rewrite HK. cbn [negb].
    f_equal. apply filter_all. intros [k c] Hin. cbn [fst]. destruct (keqb k (key0 n)) eqn:E; [|reflexivity].
    apply keqb_spec in E. subst k. pose proof (allk_in _ _ _ c Hl Hin) as h. cbv beta in h. lia.
Qed.

(** ** last_expectation *)
Definition P5 : list Z -> Prop := wfs [true; true; true; true; true].
Definition P6 : list Z -> Prop := wfs [false; true; true; true; true; true].
Definition mon5 (v : cv) : list Z -> R := monx [/ ck v; cb v; csg v; clam v; cmu v].
Definition mon6 (w : cv * R) : list Z -> R :=
  monx [exp (ck (fst w) * snd w); / ck (fst w); cb (fst w); csg (fst w); clam (fst w); cmu (fst w)].
Definition goodu (u : list (Poly (list Z))) (n : Z) : Prop :=
  forall i, (0 <= i < n)%Z -> exists q, nth_error u (Z.to_nat i) = Some q /\ wfp P5 kf_stat q /\ forall v, evp mon5 v q = cst v (Z.to_nat i).

Definition le_fun (w : cv * R) (kv : list Z * Q) : R :=
  Q2R (snd kv) * (mon6 w (dropat 2 (fst kv)) * cst (fst w) (Z.to_nat (nthZ (fst kv) 2))).

Lemma last_expectation_sp l u n : allk P7v l -> allk (fun k => (nthZ k 2 < n)%Z) l -> goodu u n ->
  returns (last_expectation l u) (fun p => wfp P6 kf_stat6 p /\ forall w, evp mon6 w p = sumR (le_fun w) l).
Proof.
  intros A B U. unfold last_expectation. eapply returns_weaken.
  { apply (adds_foldM (wfp P6 kf_stat6) (evp mon6) _ (fun kv w => le_fun w kv)); [|apply wfp_nil].
    intros [k x] Hin. pose proof (allk_in _ _ k x A Hin) as Hk. pose proof (allk_in _ _ k x B Hin) as Hb. cbv beta in Hb.
    unfold P7v in Hk. wfs_destruct. unfold le_fun. cbn [fst snd]. unfold nthZ in *. change (Z.to_nat 2) with 2%nat in *. cbn [nth] in *.
    match goal with |- context [(?z =? 0)%Z] => set (o := z) in * end.
    destruct (Z.eqb_spec o 0) as [e|ne].
    - intros p (h1 & h2 & h3). cbn [returns]. split.
      + split; [exact h1|]. split; [now apply uniq_add_kv|]. apply allk_add_kv; [assumption|].
        unfold P6, dropat. cbn [firstn skipn app wfs]. auto 10.
      + intro w. unfold evp, add_keyval. cbn [items]. rewrite eval_add_kv. rewrite e. change (Z.to_nat 0) with 0%nat. rewrite cst_0, Rmult_1_r. reflexivity.
    - destruct (Z.ltb_spec 1 o) as [h|h].
      + destruct (U o ltac:(lia)) as (q & E1 & (E2 & E3 & E4) & E5). unfold lget. rewrite E1. cbn [bind].
        eapply adds_ext.
        * apply adds_merge; [reflexivity|]. unfold stat_key_times_poly; cbn [items].
          apply (allk_fold_add P6 _ (fun kv => qmul x (snd kv))); [apply allk_nil|].
          intros [K y] HK. pose proof (allk_in _ _ K y E4 HK) as hK. unfold P5 in hK. wfs_destruct.
          unfold P6, nthZ. cbn [fst snd]. simpl. repeat split; trivial; lia.
        * intros [v t]. cbn [fst]. rewrite <- E5. unfold stat_key_times_poly; cbn [items]. rewrite eval_fold_add. cbn [eval]. rewrite Rplus_0_l.
          unfold evp. rewrite sumR_eval. rewrite <- !sumR_scal. apply sumR_ext. intros [K y] HK.
          pose proof (allk_in _ _ K y E4 HK) as hK. unfold P5 in hK. wfs_destruct. cbn [fst snd].
          rewrite Q2R_mul. unfold mon6, mon5, dropat, nthZ. cbn [firstn skipn app fst snd]. simpl nth. cbn [monx].
          rewrite !pow_lemma_pw by (right; split; lia). ring.
      + assert (o = 1%Z) as -> by lia. change (Z.to_nat 1) with 1%nat. intros p Hp. cbn [returns]. split; [assumption|].
        intro w. rewrite cst_1. ring. }
  intros p [h1 h2]. split; [exact h1|]. intro w. rewrite h2. exact (Rplus_0_l _).
Qed.

(** ** the value of the remaining part *)
Lemma left_value n p x l : (2 <= n)%Z -> items p = (key0 n, x) :: l -> (x == 1)%Q -> allk (fun k => (nthZ k 2 < n)%Z) l -> allk P7v l ->
  (forall w, evp mon7 w p = pw (exp (ck (fst w) * snd w)) (- n) * W (fst w) (snd w) (Z.to_nat n)) ->
  forall w, sumR (le_fun w) l = cst (fst w) (Z.to_nat n) * (1 - pw (exp (ck (fst w) * snd w)) (- n)).
Proof.
  intros Hn Hp Hx Hl Hw Hv [v t]. cbn [fst snd]. set (N := Z.to_nat n).
  set (ps := realise1 N (cst v)). assert (HE : expectation (Efin ps)) by apply Efin_expectation.
  assert (Hps : forall i, (i <= N)%nat -> Efin ps (fun x => x ^ i) = cst v i) by (intros; now apply realise1_spec).
  set (e := exp (ck v * t)). assert (He : e <> 0) by (unfold e; nz).
  assert (E1 : Efin ps (fun a => evp mon7 (cva v a, t) p) = cst v N).
  { rewrite (E_ext _ HE _ (fun a => pw e (- n) * W (cva v a) t N)) by (intro a; now rewrite Hv).
    rewrite (E_scal _ HE), (stationary v ps N Hps N (le_n _) t). fold e.
    rewrite <- Rmult_assoc. unfold N. rewrite <- pw_Zpos by lia. rewrite <- pow_lemma_pw by now left.
    rewrite Z.add_opp_diag_l, pw_0. ring. }
  assert (E2 : Efin ps (fun a => evp mon7 (cva v a, t) p) = pw e (- n) * cst v N + sumR (le_fun (v, t)) l).
  { rewrite (E_ext _ HE _ (fun a => pw e (- n) * a ^ N + sumR (fun kv => (Q2R (snd kv) * mon6 (v, t) (dropat 2 (fst kv))) * a ^ Z.to_nat (nthZ (fst kv) 2)) l)).
    - rewrite (E_plus _ HE), (E_scal _ HE), (Hps N) by lia. f_equal. rewrite (E_sumR _ HE). apply sumR_ext.
      intros [k c] Hin. rewrite (E_scal _ HE). unfold le_fun. cbn [fst snd]. rewrite Hps; [ring|].
      pose proof (allk_in _ _ k c Hl Hin) as h. cbv beta in h. unfold N. lia.
    - intro a. unfold evp. rewrite sumR_eval, Hp. cbn [sumR fst snd]. f_equal.
      + rewrite (Qeq_eqR _ _ Hx), Q2R_1, Rmult_1_l. unfold mon7, ievals, key0. cbn [monx fst snd cva ck ca]. rewrite !pw_0.
        rewrite (pw_Zpos a) by lia. fold e. unfold N. ring.
      + apply sumR_ext. intros [k c] Hin. pose proof (allk_in _ _ k c Hw Hin) as Hk. unfold P7v in Hk. wfs_destruct. cbn [fst snd].
        unfold mon7, mon6, ievals, dropat, nthZ. cbn [firstn skipn app monx fst snd cva ck ca cb csg clam cmu]. change (Z.to_nat 2) with 2%nat. cbn [nth].
        rewrite (pw_Zpos a) by lia. ring. }
  rewrite E1 in E2. lra.
Qed.

(** ** divide *)
Definition part (c : Z) (l : list (list Z * Q)) : list (list Z * Q) :=
  map (fun kv => (tl (fst kv), snd kv)) (filter (fun kv => negb (qzero (snd kv)) && (nthZ (fst kv) 0 =? c)%Z) l).

Lemma add_kv_fresh {K} `{Key K} (k : K) v l : ~ In k (keys l) -> add_kv k v l = l ++ [(k, v)].
Proof.
  induction l as [|[k' v'] l IH]; intro h; [reflexivity|]. cbn [add_kv app]. destruct (keqb k' k) eqn:E.
  - apply keqb_spec in E. subst. exfalso. apply h. now left.
  - f_equal. apply IH. intro h'. apply h. now right.
Qed.
Lemma part_app c l l' : part c (l ++ l') = part c l ++ part c l'.
Proof. unfold part. now rewrite filter_app, map_app. Qed.
Lemma part_cons c k v l : part c ((k, v) :: l) = (if negb (qzero v) && (nthZ k 0 =? c)%Z then [(tl k, v)] else []) ++ part c l.
Proof. unfold part. cbn [filter fst snd]. now destruct (negb (qzero v) && (nthZ k 0 =? c)%Z). Qed.
Lemma part_one c k v : part c [(k, v)] = if negb (qzero v) && (nthZ k 0 =? c)%Z then [(tl k, v)] else [].
Proof. rewrite part_cons. apply app_nil_r. Qed.
Lemma part_in c l k v : In (k, v) (part c l) -> allk (fun k => k <> []) l -> In (c :: k, v) l /\ ~ (v == 0)%Q.
Proof.
  intros h A. unfold part in h. apply in_map_iff in h. destruct h as ([k' v'] & e & h). cbn [fst snd] in e. injection e as <- <-.
  apply filter_In in h. destruct h as [h1 h2]. cbn [fst snd] in h2. apply andb_true_iff in h2. destruct h2 as [h2 h3].
  pose proof (allk_in _ _ k' v' A h1) as hn. cbv beta in hn. destruct k' as [|z k']; [congruence|].
  unfold nthZ in h3. cbn in h3. apply Z.eqb_eq in h3. subst z. split; [exact h1|].
  intro hz. apply negb_true_iff in h2. unfold qzero in h2. apply Qeq_bool_iff in hz. congruence.
Qed.
Lemma part_keys c l k : In k (keys (part c l)) -> allk (fun k => k <> []) l -> In (c :: k) (keys l).
Proof.
  intros h A. apply in_map_iff in h. destruct h as ([k' v'] & e & h). cbn [fst] in e. subst k'.
  apply part_in in h; [|assumption]. apply in_map_iff. exists (c :: k, v'). now split.
Qed.
Lemma split_ok n l : (n <> 0)%Z -> uniq l -> allk (fun k => k <> []) l ->
  (forall k v, In (k, v) l -> ~ (v == 0)%Q -> nthZ k 0 = 0%Z \/ nthZ k 0 = (- n)%Z) ->
  divide_split n l = Ok (part 0 l, part (- n) l).
Proof.
  intros Hn. induction l as [|[k v] l IH] using rev_ind; intros U A HZ; [reflexivity|].
  assert (Al : allk (fun k => k <> []) l). { intros k' h. apply A. unfold keys. rewrite map_app. apply in_or_app. now left. }
  assert (Ul : uniq l /\ ~ In k (keys l)).
  { unfold uniq in *. rewrite map_app in U. cbn [map fst] in U. apply NoDup_remove in U. rewrite app_nil_r in U. exact U. }
  unfold divide_split in *. rewrite foldM_app, IH; [|tauto|assumption|intros; apply (HZ k0 v0); [apply in_or_app; now left|assumption]].
  assert (Hk : k <> []). { apply A. unfold keys. rewrite map_app. apply in_or_app. right. now left. }
  assert (Fr : forall c, nthZ k 0 = c -> ~ In (tl k) (keys (part c l))).
  { intros c e h. apply part_keys in h; [|assumption]. apply (proj2 Ul). destruct k as [|z k]; [congruence|]. cbn in e. subst z. exact h. }
  cbn [bind foldM fst snd]. rewrite !part_app, !part_one.
  destruct (qzero v) eqn:Ev; cbn [negb andb].
  { now rewrite !app_nil_r. }
  destruct (Z.eqb_spec (nthZ k 0) 0) as [e|e].
  { cbn [bind]. rewrite add_kv_fresh by now apply Fr. destruct (Z.eqb_spec (nthZ k 0) (- n)); [lia|]. now rewrite app_nil_r. }
  destruct (Z.eqb_spec (nthZ k 0) (- n)) as [e'|e'].
  { cbn [bind]. rewrite (add_kv_fresh _ _ (part (- n) l)) by now apply Fr. now rewrite app_nil_r. }
  exfalso. destruct (HZ k v) as [h|h]; [apply in_or_app; right; now left| |lia|lia].
  intro h. apply Qeq_bool_iff in h. unfold qzero in Ev. congruence.
Qed.
Lemma part_uniq c l : uniq l -> allk (fun k => k <> []) l -> uniq (part c l).
Proof.
  induction l as [|[k v] l IH]; intros U A; [apply NoDup_nil|]. inversion U; subst.
  assert (Al : allk (fun k => k <> []) l) by (intros k' h; apply A; now right).
  unfold part. cbn [filter fst snd]. destruct (negb (qzero v) && (nthZ k 0 =? c)%Z) eqn:E; [|now apply IH].
  cbn [map]. apply NoDup_cons; [|now apply IH]. cbn [fst]. intro h. apply part_keys in h; [|assumption]. apply H1.
  apply andb_true_iff in E. destruct E as [_ E]. apply Z.eqb_eq in E. assert (Hk : k <> []) by (apply A; now left).
  destruct k as [|z k]; [congruence|]. cbn in E. subst z. exact h.
Qed.
Lemma part_eval (xs : list R) y n l : (n <> 0)%Z -> allk (fun k => k <> []) l ->
  (forall k v, In (k, v) l -> ~ (v == 0)%Q -> nthZ k 0 = 0%Z \/ nthZ k 0 = (- n)%Z) ->
  eval (monx (y :: xs)) l = eval (monx xs) (part 0 l) + pw y (- n) * eval (monx xs) (part (- n) l).
Proof.
  intros Hn. induction l as [|[k v] l IH]; intros A HZ; [cbn; ring|].
  assert (Al : allk (fun k => k <> []) l) by (intros k' h; apply A; now right).
  cbn [eval]. rewrite IH; [|assumption|intros; apply (HZ k0 v0); [now right|assumption]].
  assert (Hk : k <> []) by (apply A; now left). destruct k as [|z k]; [congruence|].
  rewrite !part_cons, !eval_app. destruct (qzero v) eqn:Ev; cbn [negb andb].
  { apply Qeq_bool_iff in Ev. rewrite (Qeq_eqR _ _ Ev), Q2R_0. cbn [eval]. ring. }
  change (nthZ (z :: k) 0) with z. cbn [monx]. destruct (HZ (z :: k) v) as [h|h].
  - now left.
  - intro h. apply Qeq_bool_iff in h. unfold qzero in Ev. congruence.
  - change (z = 0)%Z in h. subst z. destruct (Z.eqb_spec 0 (- n)); [lia|]. cbn [Z.eqb tl eval]. rewrite pw_0. ring.
  - change (z = - n)%Z in h. subst z. destruct (Z.eqb_spec (- n) 0); [lia|]. rewrite Z.eqb_refl. cbn [tl eval]. ring.
Qed.

Lemma cget_in {K A} `{Key K} (l : list (K * A)) k a : NoDup (map fst l) -> In (k, a) l -> cget k l = Ok a.
Proof.
  induction l as [|[k' a'] l IH]; intros U h; [destruct h|]. inversion U; subst. cbn [cget]. destruct h as [e|h].
  - injection e as -> ->. now rewrite (proj2 (keqb_spec k k) eq_refl).
  - destruct (keqb k' k) eqn:E; [|now apply IH]. apply keqb_spec in E. subst k'. exfalso. apply H2. cbn [fst].
    apply in_map_iff. exists (k, a). now split.
Qed.

(** all parameter points with coordinates at least one *)
Definition pcv (k b s la m : R) (Hk : 1 <= k) : cv.
Proof. refine (mkCv (/ k) _ 0 b s la m). apply Rinv_neq_0_compat. lra. Defined.
Lemma mon6_at x k b s la m Hk : 1 <= x -> mon6 (pcv k b s la m Hk, k * ln x) = monx [x; k; b; s; la; m].
Proof.
  intro Hx. unfold mon6. cbn [fst snd pcv ck cb csg clam cmu]. rewrite Rinv_inv.
  replace (/ k * (k * ln x)) with (ln x) by (field; lra). rewrite exp_ln by lra. reflexivity.
Qed.
Lemma mon5_at k b s la m Hk : mon5 (pcv k b s la m Hk) = monx [k; b; s; la; m].
Proof. unfold mon5. cbn [pcv ck cb csg clam cmu]. now rewrite Rinv_inv. Qed.

Section Divide.
Context (n : Z) (Hn : (1 <= n)%Z) (cn : cv -> R) (p : Poly (list Z)) (Hp : wfp P6 kf_stat6 p)
  (Hv : forall w, evp mon6 w p = cn (fst w) * (1 - pw (exp (ck (fst w) * snd w)) (- n))).

Lemma p6_len : allk (fun k => length k = 6%nat) (items p).
Proof. apply (allk_weaken P6); [apply (proj2 (proj2 Hp))|intros k h; exact (wfs_length _ _ h)]. Qed.
Lemma p6_ne : allk (fun k => k <> []) (items p).
Proof. apply (allk_weaken (fun k => length k = 6%nat)); [apply p6_len|intros [|? ?] h; [discriminate|congruence]]. Qed.

Lemma divide_zero : forall k v, In (k, v) (items p) -> ~ (v == 0)%Q -> nthZ k 0 = 0%Z \/ nthZ k 0 = (- n)%Z.
Proof.
  intros k v Hin Hnz.
  assert (h : Q2R v * ((pw 2 (nthZ k 0) - pw 2 (- n)) * (pw 2 (nthZ k 0) - 1)) = 0).
  { apply (laurent 6 (fun k => (pw 2 (nthZ k 0) - pw 2 (- n)) * (pw 2 (nthZ k 0) - 1)) (items p)) with (k := k); [apply Hp|apply p6_len| |assumption].
    intros xs Hl Hxs. clear k v Hin Hnz. destruct xs as [|x [|k [|b [|sg [|la [|m [|? ?]]]]]]]; try discriminate.
    assert (Hx : 1 <= x /\ 1 <= k). { inversion Hxs as [|? ? h1 h2]; subst. inversion h2; subst. now split. } destruct Hx as [Hx Hk].
    assert (F : forall j : nat, eval (monx [2 ^ j * x; k; b; sg; la; m]) (items p) = cn (pcv k b sg la m Hk) * (1 - pw (2 ^ j) (- n) * pw x (- n))).
    { intro j. assert (Hj : 1 <= 2 ^ j) by (apply pow_R1_Rle; lra). assert (Hjx : 1 <= 2 ^ j * x) by nra.
      specialize (Hv (pcv k b sg la m Hk, k * ln (2 ^ j * x))). unfold evp in Hv. rewrite (mon6_at _ k b sg la m Hk Hjx) in Hv.
      rewrite Hv. cbn [fst snd pcv ck]. replace (/ k * (k * ln (2 ^ j * x))) with (ln (2 ^ j * x)) by (field; lra).
      rewrite exp_ln by lra. now rewrite pw_mult_nz by lra. }
    set (q := pw 2 (- n)).
    transitivity (eval (monx [2 ^ 2 * x; k; b; sg; la; m]) (items p) - (q + 1) * eval (monx [2 ^ 1 * x; k; b; sg; la; m]) (items p)
       + q * eval (monx [2 ^ 0 * x; k; b; sg; la; m]) (items p)).
    { rewrite !sumR_eval. unfold Rminus. rewrite <- !Ropp_mult_distr_l_reverse, <- !sumR_scal, <- !sumR_plus. apply sumR_ext. intros [K c] Hin.
      pose proof (allk_in _ _ K c (proj2 (proj2 Hp)) Hin) as hK. unfold P6 in hK. wfs_destruct. cbn [fst snd monx].
      rewrite !(pw_mult_nz (2 ^ _) x) by (try apply pow_nonzero; lra).
      simpl pow. rewrite !Rmult_1_r. rewrite (pw_mult_nz 2 2) by lra. rewrite pw_one. unfold nthZ. cbn [nth Z.to_nat]. ring. }
    rewrite !F. simpl pow. rewrite !Rmult_1_r, (pw_mult_nz 2 2), pw_one by lra. fold q. ring. }
  apply Rmult_integral in h. destruct h as [h|h].
  - exfalso. apply Hnz. apply eqR_Qeq. now rewrite h, Q2R_0.
  - apply Rmult_integral in h. destruct h as [h|h].
    + right. apply pw2_inj. lra.
    + left. apply pw2_inj. rewrite pw_0. lra.
Qed.

Definition q1 : list (list Z * Q) := part 0 (items p).
Definition q2 : list (list Z * Q) := part (- n) (items p).

Lemma q_wf c : uniq (part c (items p)) /\ allk P5 (part c (items p)) /\ nonzero (part c (items p)).
Proof.
  split; [apply part_uniq; [apply Hp|apply p6_ne]|]. split.
  - intros k h. apply part_keys in h; [|apply p6_ne]. apply (proj2 (proj2 Hp)) in h. unfold P6 in h. cbn [wfs] in h. exact (proj2 h).
  - apply Forall_forall. intros [k v] h. apply part_in in h; [|apply p6_ne]. exact (proj2 h).
Qed.
Lemma q_val v t : eval (mon5 v) q1 + pw (exp (ck v * t)) (- n) * eval (mon5 v) q2 = cn v * (1 - pw (exp (ck v * t)) (- n)).
Proof.
  pose proof (Hv (v, t)) as e. cbn [fst snd] in e. rewrite <- e. unfold evp, mon6. cbn [fst snd]. symmetry. apply part_eval; [lia|apply p6_ne|apply divide_zero].
Qed.
Lemma q_opp k : (coeff k q1 + coeff k q2 == 0)%Q.
Proof.
  rewrite <- coeff_add_all. assert (Ha : forall k v, In (k, v) (add_all q1 q2) -> (v == 0)%Q).
  { apply (laurent0 5).
    - apply uniq_fold_add. apply q_wf.
    - apply (allk_weaken P5); [|intros k' h; exact (wfs_length _ _ h)]. apply allk_add_all; apply q_wf.
    - intros xs Hl Hxs. destruct xs as [|k' [|b [|sg [|la [|m [|? ?]]]]]]; try discriminate.
      assert (Hk : 1 <= k') by now inversion Hxs. rewrite <- (mon5_at k' b sg la m Hk). rewrite eval_add_all.
      pose proof (q_val (pcv k' b sg la m Hk) 0) as h. rewrite Rmult_0_r, exp_0, pw_one in h. lra. }
  rewrite coeff_lookup by (apply uniq_fold_add; apply q_wf). destruct (lookup k (add_all q1 q2)) eqn:E; [|reflexivity].
  apply lookup_some_in in E. exact (Ha _ _ E).
Qed.
Lemma coeff_in (l : list (list Z * Q)) k v : uniq l -> In (k, v) l -> (coeff k l == v)%Q.
Proof.
  intros U h. rewrite coeff_lookup by assumption. destruct (lookup k l) as [w|] eqn:E.
  - apply lookup_some_in in E. pose proof (cget_in l k v U h) as e1. rewrite (cget_in l k w U E) in e1. injection e1 as ->. reflexivity.
  - exfalso. apply lookup_none in E. apply E. apply in_map_iff. exists (k, v). now split.
Qed.
Lemma q_match a b : (a = q1 /\ b = q2) \/ (a = q2 /\ b = q1) -> forall k v, In (k, v) a -> exists w, In (k, w) b /\ (v == - w)%Q.
Proof.
  intros Hab k v Hin.
  assert (S : (coeff k a + coeff k b == 0)%Q).
  { pose proof (q_opp k) as h. destruct Hab as [[-> ->]|[-> ->]]; [exact h|]. rewrite Qplus_comm. exact h. }
  assert (Wa : uniq a /\ nonzero a /\ uniq b). { pose proof (q_wf 0). pose proof (q_wf (- n)). unfold q1, q2 in *. destruct Hab as [[-> ->]|[-> ->]]; tauto. }
  destruct Wa as (Ua & Na & Ub). rewrite (coeff_in a k v Ua Hin) in S.
  pose proof (proj1 (Forall_forall _ _) Na _ Hin) as Nv. cbn [snd] in Nv.
  rewrite (coeff_lookup b k Ub) in S. destruct (lookup k b) as [w|] eqn:E.
  - exists w. split; [now apply lookup_some_in|]. apply (Qplus_inj_r _ _ w). rewrite S. ring.
  - exfalso. apply Nv. rewrite Qplus_0_r in S. exact S.
Qed.
Lemma check_ok a b : (a = q1 /\ b = q2) \/ (a = q2 /\ b = q1) -> divide_check a b = Ok tt.
Proof.
  intro Hab. pose proof (q_match a b Hab) as M.
  assert (Wa : uniq a /\ uniq b). { pose proof (q_wf 0). pose proof (q_wf (- n)). unfold q1, q2 in *. destruct Hab as [[-> ->]|[-> ->]]; tauto. }
  unfold divide_check. assert (G : forall l, (forall kv, In kv l -> In kv a) -> foldM (fun (_ : unit) (kv : list Z * Q) =>
    let! a := cget (fst kv) a in
    let! b := cget (fst kv) b in
    if Qeq_bool a (qopp b) then Ok tt else Err ValueError) l tt = Ok tt); [|apply G; auto].
  induction l as [|[k v] l IH]; intro h; [reflexivity|]. cbn [foldM fst].
  rewrite (cget_in a k v) by (try apply Wa; apply h; now left). cbn [bind].
  destruct (M k v) as (w & h1 & h2); [apply h; now left|]. rewrite (cget_in b k w) by (try apply Wa; assumption). cbn [bind].
  rewrite (proj2 (Qeq_bool_iff v (qopp w))) by (unfold qopp; rewrite Qred_correct; exact h2). cbn [bind]. apply IH. intros; apply h; now right.
Qed.
Lemma q_len : length q1 = length q2.
Proof.
  assert (L : forall a b, (a = q1 /\ b = q2) \/ (a = q2 /\ b = q1) -> (length a <= length b)%nat).
  { intros a b Hab. pose proof (q_match a b Hab) as M.
    assert (Ua : uniq a). { pose proof (q_wf 0). pose proof (q_wf (- n)). unfold q1, q2 in *. destruct Hab as [[-> ->]|[-> ->]]; tauto. }
    rewrite <- (map_length fst a), <- (map_length fst b). apply NoDup_incl_length; [exact Ua|].
    intros k h. apply in_map_iff in h. destruct h as ([k' v] & e & h). cbn [fst] in e. subst k'. destruct (M k v h) as (w & h1 & _).
    apply in_map_iff. exists (k, w). now split. }
  apply Nat.le_antisymm; apply L; tauto.
Qed.

Lemma divide_sp : returns (divide n p) (fun q => wfp P5 kf_stat q /\ forall v, evp mon5 v q = cn v).
Proof.
  unfold divide. rewrite split_ok; [|lia|apply Hp|apply p6_ne|apply divide_zero]. fold q1 q2. cbn [bind].
  rewrite q_len, Nat.eqb_refl. cbn [negb]. rewrite (check_ok q1 q2), (check_ok q2 q1) by tauto. cbn [bind returns]. split.
  - split; [reflexivity|]. split; apply (q_wf 0).
  - intro v. unfold evp. cbn [items]. pose proof (q_val v 0) as h0. pose proof (q_val v (/ ck v)) as h1.
    rewrite Rinv_r in h1 by apply ckn. rewrite Rmult_0_r, exp_0, pw_one in h0.
    assert (h2 : pw (exp 1) (- n) <> 1).
    { assert (h2 : pw (exp 1) (- n) * exp 1 ^ Z.to_nat n = 1).
      { rewrite <- pw_Zpos by lia. rewrite <- pow_lemma_pw by (left; nz). rewrite Z.add_opp_diag_l. apply pw_0. }
      assert (1 < exp 1 ^ Z.to_nat n).
      { apply Rlt_pow_R1; [|lia]. pose proof (exp_ineq1 1 ltac:(lra)). lra. }
      intro e. rewrite e in h2. lra. }
    set (q := pw (exp 1) (- n)) in *. apply (Rmult_eq_reg_l (1 - q)); [|lra]. nra.
Qed.
End Divide.

(** ** solve_polynomial and cmoment_v *)
Definition GoodS (n : Z) (q : Poly (list Z)) : Prop := wfp P5 kf_stat q /\ forall v, evp mon5 v q = cst v (Z.to_nat n).

Lemma solve_sp n u : (2 <= n)%Z -> goodu u n -> returns (solve_polynomial n u) (GoodS n).
Proof.
  intros Hn Hu. unfold solve_polynomial. eapply returns_bind; [exact (returns_and _ _ _ (stat_cond_value n Hn) (stat_cond_head n Hn))|].
  intros p [[(_ & U & A) V] (x & l & Hp & Hx & Hl)]. destruct (head_found n p x l Hp Hx Hl) as [-> h2]. cbn [bind].
  fold (key0 n). rewrite h2. cbn [bind].
  assert (Al : allk P7v l). { intros k h. apply A. rewrite Hp. now right. }
  eapply returns_bind; [apply (last_expectation_sp l u n Al Hl Hu)|]. intros q [Wq Vq].
  apply (divide_sp n ltac:(lia) (fun v => cst v (Z.to_nat n)) q Wq). intro w. rewrite Vq. exact (left_value n p x l Hn Hp Hx Hl Al V w).
Qed.

Lemma goodu_snoc u n q : (0 <= n)%Z -> length u = Z.to_nat n -> goodu u n -> GoodS n q -> goodu (u ++ [q]) (n + 1).
Proof.
  intros Hn L Hu Hq i Hi. destruct (Z.eq_dec i n) as [->|ne].
  - exists q. split; [|exact Hq]. rewrite nth_error_app2 by lia. rewrite L, Nat.sub_diag. reflexivity.
  - destruct (Hu i ltac:(lia)) as (q' & h). exists q'. rewrite nth_error_app1 by lia. exact h.
Qed.

Lemma stat_cmoment_v_sp n : (0 <= n)%Z -> returns (stat_cmoment_v n) (GoodS n).
Proof.
  intro Hn. unfold stat_cmoment_v. destruct (Z.ltb_spec n 0); [lia|].
  set (u0 := [mkPoly [([0; 0; 0; 0; 0]%Z, 1%Q)] kf_stat; mkPoly [([0; 0; 0; 0; 0]%Z, 0%Q)] kf_stat]).
  assert (G0 : goodu u0 2).
  { assert (Wk : forall x, wfp P5 kf_stat (mkPoly [([0; 0; 0; 0; 0]%Z, x)] kf_stat)).
    { intro x. split; [reflexivity|]. split; [apply NoDup_cons; [intros []|apply NoDup_nil]|].
      intros k [<-|[]]. unfold P5. cbn. repeat split; lia. }
    intros i Hi. assert (i = 0 \/ i = 1)%Z as [->| ->] by lia; eexists; (split; [reflexivity|split; [apply Wk|]]); intro v; unfold evp, mon5.
    - change (Z.to_nat 0) with 0%nat. rewrite cst_0. cbn [items eval monx]. rewrite !pw_0, Q2R_1. ring.
    - change (Z.to_nat 1) with 1%nat. rewrite cst_1. cbn [items eval monx]. rewrite Q2R_0. ring. }
  destruct (Z.ltb_spec n 2) as [h|h].
  - destruct (G0 n ltac:(lia)) as (q & h1 & h2). unfold lget. rewrite h1. exact h2.
  - eapply returns_bind.
    { apply (foldM_range _ (fun i u => goodu u i /\ length u = Z.to_nat i)); [lia|split; [exact G0|reflexivity]|].
      intros i u Hi [Gu Lu]. eapply returns_bind; [apply (solve_sp i u); [lia|exact Gu]|]. intros q Hq. cbn [returns]. split.
      - apply goodu_snoc; [lia|assumption|assumption|assumption].
      - rewrite app_length, Lu. cbn [length]. lia. }
    intros u [Gu _]. now apply solve_sp.
Qed.

(** ** expand and moment_v *)
Definition mon5t (w : cv * R) : list Z -> R := monx [/ ck (fst w); snd w; csg (fst w); clam (fst w); cmu (fst w)].

Lemma stat_expand_sp p : wfp P5 kf_stat p -> returns (stat_expand p) (fun q => wfp P5 kf_srjd q /\
  forall v th, cb v = th + clam v * cmu v / ck v -> evp mon5t (v, th) q = evp mon5 v p).
Proof.
  intros (h1 & h2 & h3). unfold stat_expand. eapply returns_bind.
  { apply (adds_foldM (wfl P5) (ev mon5t) _
      (fun kv vt => Q2R (snd kv) * monx [/ ck (fst vt); clam (fst vt) * cmu (fst vt) * / ck (fst vt) + snd vt; csg (fst vt); clam (fst vt); cmu (fst vt)] (fst kv))); [|apply wfl_nil].
    intros [k x] Hin. pose proof (allk_in _ _ k x h3 Hin) as Hk. unfold P5 in Hk. wfs_destruct. cbn [fst snd]. unfold nthZ. simpl nth.
    match goal with |- context [if (?z =? 0)%Z then _ else _] => set (o := z) in * end. destruct (Z.eqb_spec o 0) as [e|ne].
    - eapply adds_ext; [apply adds_kv; unfold P5; cbn [wfs]; auto 10|]. intros [v th]. cbn [fst snd]. rewrite e. unfold mon5t. cbn [monx fst snd]. rewrite !pw_0. ring.
    - eapply adds_ext.
      { apply (adds_foldM (wfl P5) (ev mon5t) _
          (fun i w => Q2R (qmul (qz (mcomb o i)) x) * mon5t w [(x0 + i)%Z; (o - i)%Z; x2; (x3 + i)%Z; (x4 + i)%Z])).
        intros i Hi. apply in_range in Hi. rewrite math_comb_ok by lia. cbn [bind]. apply adds_kv. unfold P5. cbn [wfs]. repeat split; trivial; lia. }
      intros [v th]. cbn [fst snd monx]. cbv beta. rewrite <- (binomial_pw (clam v * cmu v * / ck v) th) by lia.
      rewrite <- !sumR_scal_r, <- !sumR_scal. apply sumR_ext. intros i Hi. apply in_range in Hi. rewrite Q2R_mul, Q2R_qz. unfold mon5t. cbn [monx fst snd].
      rewrite !pow_lemma_pw by (right; split; lia). rewrite !pw_mult by lia. ring. }
  intros l [[U A] E]. cbn [returns]. split; [split; [reflexivity|now split]|]. intros v th Hb. unfold evp. cbn [items].
  specialize (E (v, th)). unfold ev in E. rewrite E. cbn [eval fst snd]. rewrite Rplus_0_l. rewrite sumR_eval. apply sumR_ext.
  intros [k x] _. unfold mon5. cbn [fst snd]. rewrite Hb. unfold Rdiv. now rewrite Rplus_comm.
Qed.

(** stationary moments about zero *)
Definition mst (v : cv) (n : Z) : R := sumR (fun i => IZR (mcomb n i) * (pw (cb v) (n - i) * cst v (Z.to_nat i))) (range 0 (n + 1)).

Lemma moment_list n : (0 <= n)%Z ->
  returns (if (n =? 0)%Z then Ok [([0; 0; 0; 0; 0]%Z, 1%Q)]
      else if (n =? 1)%Z then Ok [([0; 1; 0; 0; 0]%Z, 1%Q)]
      else
        foldM (fun a i =>
          let! bino := math_comb n i in
          let! poln := stat_cmoment_v i in
          Ok (fold_left (fun a kv => add_kv (addat 1 (n - i) (fst kv)) (qmul (qz bino) (snd kv)) a) (items poln) a))
          (range 0 (n + 1)) []) (fun l => wfp P5 kf_stat (mkPoly l kf_stat) /\ forall v, evp mon5 v (mkPoly l kf_stat) = mst v n).
Proof.
  intro Hn. assert (Wk : forall k, P5 k -> wfp P5 kf_stat (mkPoly [(k, 1%Q)] kf_stat)).
  { intros k Hk. split; [reflexivity|]. split; [apply NoDup_cons; [intros []|apply NoDup_nil]|]. intros k' [<-|[]]. exact Hk. }
  destruct (Z.eqb_spec n 0) as [->|n0].
  { cbn [returns]. split; [apply Wk; unfold P5; cbn; repeat split; lia|]. intro v. unfold evp, mst, mon5. cbn [items eval monx].
    change (range 0 (0 + 1)) with [0%Z]. cbn [sumR]. change (Z.to_nat 0) with 0%nat. rewrite cst_0. change (mcomb 0 0) with 1%Z. rewrite Z.sub_0_r, !pw_0, Q2R_1. ring. }
  destruct (Z.eqb_spec n 1) as [->|n1].
  { cbn [returns]. split; [apply Wk; unfold P5; cbn; repeat split; lia|]. intro v. unfold evp, mst, mon5. cbn [items eval monx].
    change (range 0 (1 + 1)) with [0%Z; 1%Z]. cbn [sumR]. change (Z.to_nat 0) with 0%nat. change (Z.to_nat 1) with 1%nat. rewrite cst_0, cst_1. change (mcomb 1 0) with 1%Z. change (mcomb 1 1) with 1%Z.
    rewrite Z.sub_0_r, !pw_0, pw_1, Q2R_1. ring. }
  eapply returns_weaken.
  { apply (adds_foldM (wfl P5) (ev mon5) _ (fun i v => IZR (mcomb n i) * (pw (cb v) (n - i) * cst v (Z.to_nat i)))); [|apply wfl_nil].
    intros i Hi. apply in_range in Hi. rewrite math_comb_ok by lia. cbn [bind].
    apply (adds_bind _ _ _ _ (fun poln a => Ok (fold_left _ (items poln) a)) _ (stat_cmoment_v_sp i ltac:(lia))).
    intros q ((_ & U & A) & E). eapply adds_ext.
    { apply (adds_fold P5 mon5 (fun kv : list Z * Q => addat 1 (n - i) (fst kv)) (fun kv => qmul (qz (mcomb n i)) (snd kv))).
      intros [k x] Hin. pose proof (allk_in _ _ k x A Hin) as Hk. unfold P5 in Hk. wfs_destruct. unfold P5. cbn [fst addat wfs]. repeat split; trivial; lia. }
    intro v. cbv beta. rewrite <- E. unfold evp. rewrite sumR_eval, <- !sumR_scal. apply sumR_ext. intros [k x] Hin.
    pose proof (allk_in _ _ k x A Hin) as Hk. unfold P5 in Hk. wfs_destruct. cbn [fst snd]. rewrite Q2R_mul, Q2R_qz. unfold mon5. cbn [addat monx].
    rewrite (pow_lemma_pw (cb v)) by (right; split; lia). ring. }
  intros l [[U A] E]. split; [split; [reflexivity|now split]|]. intro v. unfold evp. cbn [items]. specialize (E v). unfold ev in E. rewrite E. exact (Rplus_0_l _).
Qed.

Lemma stat_moment_v_false n : (0 <= n)%Z -> returns (stat_moment_v n false) (fun q => wfp P5 kf_stat q /\ forall v, evp mon5 v q = mst v n).
Proof.
  intro Hn. unfold stat_moment_v. destruct (Z.ltb_spec n 0); [lia|]. eapply returns_bind; [exact (moment_list n Hn)|]. intros l Hl. exact Hl.
Qed.
Lemma stat_moment_v_true n : (0 <= n)%Z -> returns (stat_moment_v n true) (fun q => wfp P5 kf_srjd q /\
  forall v th, cb v = th + clam v * cmu v / ck v -> evp mon5t (v, th) q = mst v n).
Proof.
  intro Hn. unfold stat_moment_v. destruct (Z.ltb_spec n 0); [lia|]. eapply returns_bind; [exact (moment_list n Hn)|]. intros l [Hl E].
  eapply returns_weaken; [apply stat_expand_sp, Hl|]. intros q [h1 h2]. split; [exact h1|]. intros v th Hb. rewrite h2 by assumption. apply E.
Qed.

(** ** one step from a random initial value *)
Lemma E_W_step {Om} (E : (Om -> R) -> R) (A : Om -> R) v t n : expectation E ->
  (forall i, (i < n)%nat -> E (fun w => A w ^ i) = cst v i) ->
  let e := exp (- (ck v * t)) in
  e ^ n * E (fun w => W (cva v (A w)) t n) = e ^ n * E (fun w => A w ^ n) + cst v n * (1 - e ^ n).
Proof.
  intros HE HA e. destruct n as [|[|n]].
  - rewrite (E_ext E HE _ (fun w => A w ^ 0)) by (intro; now rewrite W_n0). simpl. ring.
  - rewrite (E_ext E HE _ (fun w => A w ^ 1)) by (intro; rewrite W_n1; cbn [cva ca]; ring). rewrite cst_1. ring.
  - set (m := Z.of_nat (S (S n))). assert (Hm : (2 <= m)%Z) by lia. assert (Em : Z.to_nat m = S (S n)) by lia.
    destruct (returns_inv _ _ (returns_and _ _ _ (stat_cond_value m Hm) (stat_cond_head m Hm))) as (p & _ & [(_ & U & Ap) V] & (x & l & Hp & Hx & Hl)).
    assert (Al : allk P7v l). { intros k h. apply Ap. rewrite Hp. now right. }
    pose proof (left_value m p x l Hm Hp Hx Hl Al V (v, t)) as LV. cbn [fst snd] in LV. rewrite Em in LV.
    assert (Ee : pw (exp (ck v * t)) (- m) = e ^ S (S n)).
    { rewrite <- Em, <- pw_Zpos by lia. unfold e. rewrite exp_Ropp, pw_inv by nz. apply powerRZ_neg'. }
    rewrite Ee in LV. rewrite <- LV.
    rewrite <- (E_scal E HE). rewrite (E_ext E HE _ (fun w => evp mon7 (cva v (A w), t) p)).
    2: { intro w. rewrite V, Em. cbn [fst snd cva ck]. now rewrite Ee. }
    rewrite (E_ext E HE _ (fun w => e ^ S (S n) * A w ^ S (S n) + sumR (fun kv => (Q2R (snd kv) * mon6 (v, t) (dropat 2 (fst kv))) * A w ^ Z.to_nat (nthZ (fst kv) 2)) l)).
    + rewrite (E_plus E HE), (E_scal E HE). f_equal. rewrite (E_sumR E HE). apply sumR_ext.
      intros [k c] Hin. rewrite (E_scal E HE). unfold le_fun. cbn [fst snd]. rewrite HA; [ring|].
      pose proof (allk_in _ _ k c Hl Hin) as h. cbv beta in h. lia.
    + intro w. set (a := A w). unfold evp. rewrite sumR_eval, Hp. cbn [sumR fst snd]. f_equal.
      * rewrite (Qeq_eqR _ _ Hx), Q2R_1, Rmult_1_l. unfold mon7, ievals, key0. cbn [monx fst snd cva ck ca]. rewrite !pw_0.
        rewrite (pw_Zpos a) by lia. rewrite Ee, Em. ring.
      * apply sumR_ext. intros [k c] Hin. pose proof (allk_in _ _ k c Al Hin) as Hk. unfold P7v in Hk. wfs_destruct. cbn [fst snd].
        unfold mon7, mon6, ievals, dropat, nthZ. cbn [firstn skipn app monx fst snd cva ck ca cb csg clam cmu]. change (Z.to_nat 2) with 2%nat. cbn [nth].
        rewrite (pw_Zpos a) by lia. ring.
Qed.
