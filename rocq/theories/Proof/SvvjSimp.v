(** C34, C39: simplify, classify and poly2num of the SVVJ model. *)
From Coq Require Import Reals Lra.
From Verif.Spec Require Import Svvj.
From Verif.Model Require Import Svvj.
From Verif.Proof Require Export SvvjThm.
Local Open Scope R_scope.

Definition emon (p : svpar) : list R := exp (- (svk p * svh p)) :: tl (zvals (svz p) (svh p)).

Lemma simp0_sp q w bs : allk (svok 6 w) (items q) -> exists r, sv_simplify q 0 = Ok r /\
  keyfor r = "e^{-kt}"%string :: tl (keyfor q) /\ uniq (items r) /\
  forall p z, eval (svmon (emon p) (bs p) p z) (items r) = eval (svmon (zvals (svz p) (svh p)) (bs p) p z) (items q).
Proof.
  intro A. unfold sv_simplify. cbn [Z.eqb].
  set (F := fun kv : svkey * Q => ((- nthZ (fst (fst (fst kv))) 0)%Z :: tl (fst (fst (fst kv))), snd (fst (fst kv)), snd (fst kv)) : svkey).
  eexists. split; [reflexivity|]. split; [reflexivity|]. cbn [items]. split.
  - apply (uniq_fold_add F snd), uniq_nil.
  - intros p z. rewrite (eval_fold_add _ F snd). cbn [eval]. rewrite Rplus_0_l, sumR_eval. apply sumR_ext.
    intros [[[k lopq] x] v] Hin. cbn [fst snd]. f_equal. destruct (allk_in _ _ _ v A Hin) as (Hl & _). cbn [fst snd] in Hl.
    destruct k as [|k0 k]; [discriminate|]. unfold F, svmon, emon, zvals. cbn [fst snd tl]. unfold nthZ. change (Z.to_nat 0) with 0%nat. cbn [nth monx].
    do 3 f_equal. fold (svk p). rewrite exp_Ropp, pw_inv_neg, Rinv_inv. reflexivity.
Qed.

(** sigma/2k and rho - sigma/2k expanded *)
Definition sx2 (key : svkey) : Prop :=
  length (fst (fst key)) = 6%nat /\ exists a d, snd key = [a; d] /\ (0 <= a)%Z /\ (0 <= d)%Z /\ Z.even d = true.

Lemma expand_sp q : allk (svok 6 3) (items q) ->
  uniq (items (sv_expand q)) /\ allk sx2 (items (sv_expand q)) /\
  forall p z, svk p <> 0 -> eval (svmon (emon p) [svrho p; sqrt (1 - svrho p ^ 2)] p z) (items (sv_expand q))
    = eval (cmon_sv p z) (items q).
Proof.
  intro A. unfold sv_expand; cbn [items].
  set (key := fun (k : svkey) i => (([- nthZ (fst (fst k)) 0; nthZ (fst (fst k)) 1; nthZ (fst (fst k)) 2 + (nthZ (snd k) 0 + i);
     nthZ (fst (fst k)) 3; nthZ (fst (fst k)) 4; nthZ (fst (fst k)) 5 + (nthZ (snd k) 0 + i)]%Z, snd (fst k)), [nthZ (snd k) 1 - i; nthZ (snd k) 2]%Z) : svkey).
  set (val := fun (k : svkey) (v : Q) i => qmul (qmul (qmul (qz (mcomb (nthZ (snd k) 1) i)) (qz (sgn1 i))) (Frac 1 (2 ^ (nthZ (snd k) 0 + i)))) v).
  set (step := fun (a : list (svkey * Q)) (kv : svkey * Q) => Ok (fold_left (fun a i => add_kv (key (fst kv) i) (val (fst kv) (snd kv) i) a) (range 0 (nthZ (snd (fst kv)) 1 + 1)) a) : res _).
  assert (E1 : forall l a, foldM step l a = Ok (fold_left (fun a kv => fold_left (fun a i => add_kv (key (fst kv) i) (val (fst kv) (snd kv) i) a) (range 0 (nthZ (snd (fst kv)) 1 + 1)) a) l a)).
  { induction l as [|kv l IH]; intro a; [reflexivity|]. cbn [foldM fold_left]. unfold step at 1. apply IH. }
  set (T := {x : svpar * path | svk (fst x) <> 0}).
  set (mon := fun (x : T) => let p := fst (proj1_sig x) in svmon (emon p) [svrho p; sqrt (1 - svrho p ^ 2)] p (snd (proj1_sig x))).
  set (mon9 := fun (x : T) => cmon_sv (fst (proj1_sig x)) (snd (proj1_sig x))).
  assert (L : adds (wfl sx2) (ev mon) (foldM step (items q)) (fun x => sumR (fun kv => Q2R (snd kv) * mon9 x (fst kv)) (items q))).
  { apply (adds_foldM (wfl sx2) (ev mon) step (fun kv x => Q2R (snd kv) * mon9 x (fst kv))). intros [k v] Hin. unfold step. cbn [fst snd].
    destruct (allk_in _ _ k v A Hin) as (Hl & Hn & Hs & Hw & Hr & He). destruct k as [[k lopq] x]. cbn [fst snd] in *.
    destruct (nth6 k Hl Hn) as (a & b & c & d & e & f & -> & Hb & Hc & Hd & Hee & Hf).
    destruct x as [|i0 [|j0 [|d0 [|? ?]]]]; try discriminate. cbn [nth] in He.
    repeat match goal with H : Forall _ (_ :: _) |- _ => inversion H; clear H; subst end.
    eapply adds_ext.
    - apply (adds_fold sx2 mon (key _) (val _ v)). intros i Hi. apply in_range in Hi. unfold nthZ in Hi; cbn [nth] in Hi.
      unfold key, sx2, nthZ. cbn [nth fst snd]. split; [reflexivity|]. exists (j0 - i)%Z, d0. repeat split; try lia; assumption.
    - intros [[p z] Hk]. unfold mon, mon9; cbn [proj1_sig fst snd] in *. unfold nthZ; cbn [nth].
      unfold cmon_sv, svmon, emon, zvals, sv3. cbn [fst snd tl monx]. fold (svk p).
      set (w := zpsg (svz p) / (2 * svk p)).
      assert (Ew : w = zpsg (svz p) * / svk p * / 2) by (unfold w; field; assumption).
      replace (svrho p - w) with (- w + svrho p) by ring. rewrite <- (binomial_pw (- w) (svrho p)) by assumption.
      match goal with |- _ = ?cc * (?m0 * ?fz * (?e6 * (sumR ?ff ?l * ?e7))) =>
        transitivity (cc * m0 * fz * e6 * e7 * sumR ff l); [|ring] end.
      rewrite <- sumR_scal. apply sumR_ext. intros i Hi. apply in_range in Hi.
      unfold key, val, nthZ; cbn [nth fst snd monx]. rewrite !Q2R_mul, !Q2R_qz, Q2R_Frac2, sgn1_pw by lia.
      rewrite exp_Ropp, pw_inv_neg, Rinv_inv. rewrite Ew. pws. pwx. ring. }
  pose proof (L [] (wfl_nil sx2)) as h. rewrite E1 in h. destruct h as [[U W] Ev].
  split; [exact U|]. split; [exact W|].
  intros p z Hk. specialize (Ev (exist _ (p, z) Hk)). unfold ev, mon, mon9 in Ev. cbn [proj1_sig eval fst snd] in Ev.
  rewrite Rplus_0_l in Ev. rewrite (sumR_eval (cmon_sv p z)). exact Ev.
Qed.

Lemma sqrt_rho2 r : Rabs r <= 1 -> sqrt (1 - r ^ 2) ^ 2 = 1 - r ^ 2.
Proof.
  intro Hr. rewrite <- Rsqr_pow2, Rsqr_sqrt; [reflexivity|].
  assert (Rsqr (Rabs r) <= Rsqr 1) by (apply Rsqr_incr_1; [assumption|apply Rabs_pos|lra]).
  rewrite <- Rsqr_pow2. rewrite (Rsqr_abs r). unfold Rsqr in *. lra.
Qed.

Lemma simp1_sp q tp : tp <> 0%Z -> allk (svok 6 3) (items q) -> exists r, sv_simplify q tp = Ok r /\
  keyfor r = (let kf := "e^{-kt}"%string :: tl (keyfor q) in dropat 11 (firstn 10 kf ++ ["rho"%string] ++ skipn 12 kf)) /\ uniq (items r) /\
  forall p z, svk p <> 0 -> Rabs (svrho p) <= 1 ->
    eval (svmon (emon p) [svrho p] p z) (items r) = eval (cmon_sv p z) (items q).
Proof.
  intros Ht A. unfold sv_simplify. rewrite (proj2 (Z.eqb_neq tp 0) Ht). cbv zeta.
  destruct (expand_sp q A) as (U & W & V).
  set (X := simplify_rho_gen _ _ _ _ _).
  assert (H0 : forall p z, Rabs (svrho p) <= 1 -> returns X (fun r => keyfor r = dropat 11 (keyfor (sv_expand q)) /\ uniq (items r) /\
    nonzero (items r) /\ eval (svmon (emon p) [svrho p] p z) (items r) = eval (svmon (emon p) [svrho p; sqrt (1 - svrho p ^ 2)] p z) (items (sv_expand q)))).
  { intros p z Hr. unfold X. apply simplify_rho_gen_spec with (rho := svrho p) (sq := sqrt (1 - svrho p ^ 2)); [now apply sqrt_rho2|].
    intros [k x] v Hin. destruct (allk_in _ _ _ v W Hin) as (Hl & a & d & Ex & Ha & Hd & He). cbn [fst snd] in *. subst x.
    unfold nthZ. change (Z.to_nat 1) with 1%nat. cbn [nth]. split; [exact Hd|]. split; [rewrite Zmod_even, He; reflexivity|].
    unfold dropat, addat. cbn [firstn skipn app length]. split.
    - unfold svmon. cbn [fst snd monx]. rewrite (pw_Zpos (sqrt _)) by assumption. ring.
    - intros i Hi. unfold svmon. cbn [fst snd monx]. unfold nthZ; cbn [nth]. rewrite pow_lemma_pw by (right; lia).
      rewrite (pw_Zpos _ (2 * i)) by lia. ring. }
  pose proof (H0 (mkSv (mkZpar 0 0 0 0) 0 0 0) [] ltac:(cbn; rewrite Rabs_R0; lra)) as h.
  destruct X as [r|]; [|destruct h]. cbn [returns] in *. exists r. split; [reflexivity|]. destruct h as (K & Ur & _ & _).
  split; [exact K|]. split; [exact Ur|]. intros p z Hk Hr. destruct (H0 p z Hr) as (_ & _ & _ & e). rewrite e. now apply V.
Qed.

(** ** poly2num *)
Lemma upto_all z h : (forall sj, In sj z -> fst sj <= h) -> upto h z = z.
Proof.
  intro H. unfold upto. induction z as [|sj z IH]; [reflexivity|]. cbn [filter].
  destruct (Rle_dec (fst sj) h) as [_|n]; [f_equal; apply IH; intros; apply H; now right|]. exfalso. apply n, H. now left.
Qed.
Lemma fZ_eval lopq k z : jshape lopq ->
  (let '(l, o, p, q) := lopq in fZ l o p q k (map fst z) (map snd z)) = Ok (fZ_path k z lopq).
Proof.
  destruct lopq as [[[l o] p] q]. intros (Ho & Hp & Hq). unfold fZ_path.
  destruct l as [|l1 lr]; [reflexivity|]. destruct o as [|o1 or]; [discriminate|].
  destruct z as [|sj z]; [reflexivity|]. apply fZ_correct; try discriminate; cbn [length pred map] in *; try congruence.
Qed.

Lemma foldM_eval {K} (mon : K -> R) (f : R -> K * Q -> res R) l : (forall k v a, In (k, v) l -> f a (k, v) = Ok (a + Q2R v * mon k)) ->
  forall a, foldM f l a = Ok (a + eval mon l).
Proof.
  induction l as [|[k v] l IH]; intros Hf a; cbn [foldM eval]; [f_equal; ring|].
  rewrite Hf by now left. rewrite IH by (intros; apply Hf; now right). f_equal. ring.
Qed.

Definition point (v0 mu k theta sigma rho h : R) : svpar := mkSv (mkZpar k v0 theta sigma) mu rho h.

Lemma cm2num_sp poly v0 mu k theta sigma rho h (z : path) : allk (svok 6 3) (items poly) -> (forall sj, In sj z -> fst sj <= h) ->
  sv_cm2num poly v0 k theta sigma rho h (map fst z) (map snd z) = Ok (eval (cmon_sv (point v0 mu k theta sigma rho h) z) (items poly)).
Proof.
  intros A Hz. unfold sv_cm2num. rewrite (foldM_eval (cmon_sv (point v0 mu k theta sigma rho h) z)); [f_equal; ring|].
  intros [[K lopq] X] v a Hin. cbn [fst snd]. destruct (allk_in _ _ _ v A Hin) as (Hl & Hn & Hs & Hw & _). cbn [fst snd] in *.
  pose proof (fZ_eval lopq k z Hs) as E. destruct lopq as [[[l o] p] q]. rewrite E. cbn [bind]. f_equal.
  destruct (nth6 K Hl Hn) as (k0 & k1 & k2 & k3 & k4 & k5 & -> & _). destruct X as [|x0 [|x1 [|x2 [|? ?]]]]; try discriminate.
  unfold cmon_sv, svmon, zvals, sv3, point, svk. cbn [svz svmu svrho svh zpk zpv zpth zpsg fst snd monx]. rewrite (upto_all z h Hz).
  unfold nthZ. cbn [nth]. rewrite pw_inv_neg, pw_exp. replace (IZR k0 * (k * h)) with (IZR k0 * k * h) by ring. ring.
Qed.
Lemma m2num_sp poly v0 mu k theta sigma rho h (z : path) : allk (svok 8 3) (items poly) -> (forall sj, In sj z -> fst sj <= h) ->
  sv_m2num poly v0 mu k theta sigma rho h (map fst z) (map snd z) = Ok (eval (mon_sv (point v0 mu k theta sigma rho h) z) (items poly)).
Proof.
  intros A Hz. unfold sv_m2num. cbv zeta. rewrite (foldM_eval (mon_sv (point v0 mu k theta sigma rho h) z)); [f_equal; ring|].
  intros [[K lopq] X] v a Hin. cbn [fst snd]. destruct (allk_in _ _ _ v A Hin) as (Hl & Hn & Hs & Hw & _). cbn [fst snd] in *.
  pose proof (fZ_eval lopq k z Hs) as E. destruct lopq as [[[l o] p] q]. rewrite E. cbn [bind]. f_equal.
  destruct (nth8 K Hl Hn) as (k0 & k1 & k2 & k3 & k4 & k5 & k6 & k7 & -> & _). destruct X as [|x0 [|x1 [|x2 [|? ?]]]]; try discriminate.
  unfold mon_sv, svmon, sv8, sv3, point, svk, sv_beta, svk. cbn [svz svmu svrho svh zpk zpv zpth zpsg fst snd monx]. rewrite (upto_all z h Hz).
  unfold nthZ. cbn [nth]. rewrite pw_inv_neg, pw_exp. replace (IZR k0 * (k * h)) with (IZR k0 * k * h) by ring.
  replace (- k * h) with (- (k * h)) by ring. ring.
Qed.

(** the key without the compound Poisson part *)
Definition cut3 (key : svkey) : svkey := (fst key, firstn 3 (snd key)).
Lemma cm2num_one key kf v0 mu k theta sigma rho h (z : path) : svok 6 6 key -> (forall sj, In sj z -> fst sj <= h) ->
  sv_cm2num (mkPoly [(key, 1%Q)] kf) v0 k theta sigma rho h (map fst z) (map snd z) = Ok (cmon_sv (point v0 mu k theta sigma rho h) z (cut3 key)).
Proof.
  intros (Hl & Hn & Hs & Hw & Hr) Hz.
  assert (W : svok 6 3 (cut3 key)).
  { destruct key as [[K lopq] X]. cbn [fst snd] in *. destruct X as [|x0 [|x1 [|x2 [|x3 [|x4 [|x5 [|? ?]]]]]]]; try discriminate.
    destruct Hr as [Hr He]. repeat match goal with H : Forall _ (_ :: _) |- _ => inversion H; clear H; subst end.
    exact (conj Hl (conj Hn (conj Hs (conj eq_refl (conj (Forall_cons _ H1 (Forall_cons _ H3 (Forall_cons _ H2 (Forall_nil _)))) He))))). }
  pose proof (cm2num_sp (mkPoly [(cut3 key, 1%Q)] kf) v0 mu k theta sigma rho h z ltac:(intros k' [<-|[]]; exact W) Hz) as e.
  transitivity (sv_cm2num (mkPoly [(cut3 key, 1%Q)] kf) v0 k theta sigma rho h (map fst z) (map snd z)).
  - destruct key as [[K lopq] X]. cbn [fst snd] in *. destruct X as [|x0 [|x1 [|x2 [|x3 [|x4 [|x5 [|? ?]]]]]]]; try discriminate. reflexivity.
  - rewrite e. f_equal. cbn [items eval]. unfold Q2R; cbn. field.
Qed.
Lemma m2num_one key kf v0 mu k theta sigma rho h (z : path) : svok 8 6 key -> (forall sj, In sj z -> fst sj <= h) ->
  sv_m2num (mkPoly [(key, 1%Q)] kf) v0 mu k theta sigma rho h (map fst z) (map snd z) = Ok (mon_sv (point v0 mu k theta sigma rho h) z (cut3 key)).
Proof.
  intros (Hl & Hn & Hs & Hw & Hr) Hz.
  assert (W : svok 8 3 (cut3 key)).
  { destruct key as [[K lopq] X]. cbn [fst snd] in *. destruct X as [|x0 [|x1 [|x2 [|x3 [|x4 [|x5 [|? ?]]]]]]]; try discriminate.
    destruct Hr as [Hr He]. repeat match goal with H : Forall _ (_ :: _) |- _ => inversion H; clear H; subst end.
    exact (conj Hl (conj Hn (conj Hs (conj eq_refl (conj (Forall_cons _ H1 (Forall_cons _ H3 (Forall_cons _ H2 (Forall_nil _)))) He))))). }
  pose proof (m2num_sp (mkPoly [(cut3 key, 1%Q)] kf) v0 mu k theta sigma rho h z ltac:(intros k' [<-|[]]; exact W) Hz) as e.
  transitivity (sv_m2num (mkPoly [(cut3 key, 1%Q)] kf) v0 mu k theta sigma rho h (map fst z) (map snd z)).
  - destruct key as [[K lopq] X]. cbn [fst snd] in *. destruct X as [|x0 [|x1 [|x2 [|x3 [|x4 [|x5 [|? ?]]]]]]]; try discriminate. reflexivity.
  - rewrite e. f_equal. cbn [items eval]. unfold Q2R; cbn. field.
Qed.
Lemma cut3_val m a p z lam mus sgs key : svok m 6 key -> svmon a (svij_lst p lam mus sgs) p z key
  = svmon a (sv3 p) p z (cut3 key) * (pw lam (nthZ (snd key) 3) * pw mus (nthZ (snd key) 4) * pw sgs (nthZ (snd key) 5)).
Proof.
  intros (Hl & Hn & Hs & Hw & Hr). destruct key as [[K lopq] X]. cbn [fst snd] in *.
  destruct X as [|x0 [|x1 [|x2 [|x3 [|x4 [|x5 [|? ?]]]]]]]; try discriminate.
  unfold svmon, cut3, svij_lst, sv3. cbn [fst snd firstn app monx]. unfold nthZ; cbn [nth]. ring.
Qed.
Lemma ij_cm2num_sp poly v0 mu k theta sigma rho h lam mus sgs (z : path) : allk (svok 6 6) (items poly) -> (forall sj, In sj z -> fst sj <= h) ->
  svij_cm2num poly v0 k theta sigma rho h lam mus sgs (map fst z) (map snd z)
  = Ok (eval (let p := point v0 mu k theta sigma rho h in svmon (zvals (svz p) (svh p)) (svij_lst p lam mus sgs) p z) (items poly)).
Proof.
  intros A Hz. unfold svij_cm2num. cbv zeta.
  rewrite (foldM_eval (svmon (zvals (svz (point v0 mu k theta sigma rho h)) (svh (point v0 mu k theta sigma rho h))) (svij_lst (point v0 mu k theta sigma rho h) lam mus sgs) (point v0 mu k theta sigma rho h) z));
    [f_equal; ring|].
  intros key v a Hin. cbn [fst snd]. pose proof (allk_in _ _ _ v A Hin) as W.
  rewrite (cm2num_one key (keyfor poly) v0 mu k theta sigma rho h z W Hz). cbn [bind]. f_equal.
  rewrite (cut3_val 6 _ _ _ _ _ _ key W). unfold cmon_sv. ring.
Qed.
Lemma ij_m2num_sp poly v0 mu k theta sigma rho h lam mus sgs (z : path) : allk (svok 8 6) (items poly) -> (forall sj, In sj z -> fst sj <= h) ->
  svij_m2num poly v0 mu k theta sigma rho h lam mus sgs (map fst z) (map snd z)
  = Ok (eval (let p := point v0 mu k theta sigma rho h in svmon (sv8 p) (svij_lst p lam mus sgs) p z) (items poly)).
Proof.
  intros A Hz. unfold svij_m2num. cbv zeta.
  rewrite (foldM_eval (svmon (sv8 (point v0 mu k theta sigma rho h)) (svij_lst (point v0 mu k theta sigma rho h) lam mus sgs) (point v0 mu k theta sigma rho h) z));
    [f_equal; ring|].
  intros key v a Hin. cbn [fst snd]. pose proof (allk_in _ _ _ v A Hin) as W.
  rewrite (m2num_one key (keyfor poly) v0 mu k theta sigma rho h z W Hz). cbn [bind]. f_equal.
  rewrite (cut3_val 8 _ _ _ _ _ _ key W). unfold mon_sv. ring.
Qed.
