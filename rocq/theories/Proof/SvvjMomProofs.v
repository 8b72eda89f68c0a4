(** C34: the moments of the SVVJ model from the central moments; the SVIJ convolution. *)
From Coq Require Import Reals Lra.
From Verif.Spec Require Import Svvj.
From Verif.Model Require Import Svvj.
From Verif.Proof Require Export SvvjProofs ConvProofs.
Local Open Scope R_scope.

(** ** further levels of f_Z *)
Section F.
Variable k : R.
Definition sume (x : Z) (z : path) : R := sumR (fun sj => exp (IZR x * k * fst sj) * snd sj) z.

Lemma zr_times' x z : forall l o p q M, length o = length l -> length p = length l -> length q = length l ->
  zr k z (fun _ => 1) (l ++ [x]) (o ++ [0%Z]) (p ++ [0%Z]) (q ++ [0%Z]) M = zr k z (fun _ => 1) l o p q M * sume x z.
Proof.
  induction l as [|l1 lr IH]; intros o p q M Ho Hp Hq.
  - destruct o; [|discriminate]. destruct p; [|discriminate]. destruct q; [|discriminate].
    cbn [app zr]. rewrite Rmult_1_l. apply sumR_ext. intros sj _. unfold jw. cbv zeta.
    rewrite !pw_0. rewrite !Rmult_0_l, exp_0. ring.
  - destruct o as [|o1 or]; [discriminate|]. destruct p as [|p1 pr]; [discriminate|].
    destruct q as [|q1 qr]; [discriminate|]. injection Ho as Ho. injection Hp as Hp. injection Hq as Hq.
    cbn [app zr]. rewrite <- sumR_scal_r. apply sumR_ext. intros sj _. cbv zeta.
    rewrite IH by assumption. ring.
Qed.

Definition app1 (lopq : list Z * list Z * list Z * list Z) (x : Z) : list Z * list Z * list Z * list Z :=
  let '(l, o, p, q) := lopq in
  (l ++ [x], o ++ [0%Z], match l with [] => [] | _ => p ++ [0%Z] end, match l with [] => [] | _ => q ++ [0%Z] end).
Lemma app1_shape lopq x : jshape lopq -> jshape (app1 lopq x).
Proof.
  destruct lopq as [[[l o] p] q]. intros (Ho & Hp & Hq). unfold app1, jshape.
  rewrite !app_length. destruct l as [|l1 lr]; cbn [length pred] in *; [lia|].
  rewrite !app_length. cbn [length]. lia.
Qed.
Lemma zs_app1 z lopq x : jshape lopq -> zs k z (fun _ => 1) (app1 lopq x) = zs k z (fun _ => 1) lopq * sume x z.
Proof.
  destruct lopq as [[[l o] p] q]. intros (Ho & Hp & Hq). unfold app1.
  destruct l as [|l1 lr].
  - destruct o; [|discriminate]. cbn [app zs zr]. rewrite Rmult_1_l. apply sumR_ext. intros sj _.
    unfold jw. rewrite pw_0. ring.
  - destruct o as [|o1 or]; [discriminate|]. cbn [app zs]. rewrite <- sumR_scal_r. apply sumR_ext. intros sj _.
    rewrite zr_times'; [ring| | |]; cbn [length pred] in *; lia.
Qed.
Lemma apps_shape xs : forall lopq, jshape lopq -> jshape (fold_left app1 xs lopq).
Proof. induction xs as [|x r IH]; intros lopq h; [exact h|]. apply IH, app1_shape, h. Qed.
Lemma zs_apps z x n : forall lopq, jshape lopq ->
  zs k z (fun _ => 1) (fold_left app1 (repeat x n) lopq) = zs k z (fun _ => 1) lopq * sume x z ^ n.
Proof.
  induction n as [|n IH]; intros lopq h; cbn [repeat fold_left pow]; [ring|].
  rewrite IH by now apply app1_shape. rewrite zs_app1 by assumption. ring.
Qed.
End F.

Lemma apps_form xs : forall l o p q, jshape (l, o, p, q) ->
  fold_left app1 xs (l, o, p, q) =
  (let n := if (length l =? 0)%nat then pred (length xs) else length xs in
   (l ++ xs, o ++ repeat 0%Z (length xs), p ++ repeat 0%Z n, q ++ repeat 0%Z n)).
Proof.
  induction xs as [|x r IH]; intros l o p q Hs; cbv zeta.
  - destruct l; cbn [length Nat.eqb pred repeat fold_left]; now rewrite !app_nil_r.
  - cbn [fold_left]. unfold app1 at 2. rewrite IH by (apply (app1_shape (l, o, p, q) x Hs)). cbv zeta.
    replace (length (l ++ [x]) =? 0)%nat with false by (symmetry; apply Nat.eqb_neq; rewrite app_length; cbn [length]; lia).
    rewrite <- !app_assoc. cbn [app length repeat pred].
    destruct Hs as (Ho & Hp & Hq). destruct l as [|l1 lr]; cbn [length Nat.eqb].
    + destruct p; [|discriminate]. destruct q; [|discriminate]. reflexivity.
    + now rewrite <- !app_assoc.
Qed.

Lemma rep_repeat x n : rep x n = repeat x (Z.to_nat n).
Proof.
  unfold rep, range. rewrite map_map, Z.sub_0_r. generalize 0%nat.
  induction (Z.to_nat n) as [|m IH]; intro s; [reflexivity|]. cbn [seq map repeat]. now rewrite IH.
Qed.

(** the tuples of the new key of moment_comb *)
Lemma mkey_lopq n3 n4 l o p q : (0 <= n3)%Z -> (0 <= n4)%Z -> jshape (l, o, p, q) ->
  let ne := if (length l =? 0)%nat then (n3 + n4 - 1)%Z else (n3 + n4)%Z in
  (l ++ (rep 1 n3 ++ rep 0 n4), o ++ rep 0 (n3 + n4), p ++ rep 0 ne, q ++ rep 0 ne)
  = fold_left app1 (repeat 0%Z (Z.to_nat n4)) (fold_left app1 (repeat 1%Z (Z.to_nat n3)) (l, o, p, q)).
Proof.
  intros H3 H4 Hs ne. rewrite <- fold_left_app, apps_form by assumption. cbv zeta.
  rewrite app_length, !repeat_length, !rep_repeat.
  replace (Z.to_nat (n3 + n4)) with (Z.to_nat n3 + Z.to_nat n4)%nat by lia.
  replace (Z.to_nat ne) with (if (length l =? 0)%nat then pred (Z.to_nat n3 + Z.to_nat n4) else (Z.to_nat n3 + Z.to_nat n4)%nat)
    by (unfold ne; destruct (length l =? 0)%nat; lia).
  reflexivity.
Qed.

(** ** moment_comb *)
Definition sva (p : svpar) (z : path) : list R :=
  [(svmu p - zpth (svz p) / 2) * svh p; - ((zpv (svz p) - zpth (svz p)) * sv_beta p);
   exp (- (svk p * svh p)) * IEZ_path (svk p) z (svh p) / (2 * svk p); - (IZ_path z (svh p) / (2 * svk p))].

Lemma nth6 (k : list Z) : length k = 6%nat -> (forall i, i <> O -> (0 <= nth i k 0)%Z) ->
  exists a b c d e f, k = [a; b; c; d; e; f] /\ (0 <= b)%Z /\ (0 <= c)%Z /\ (0 <= d)%Z /\ (0 <= e)%Z /\ (0 <= f)%Z.
Proof.
  intros Hl Hn. destruct k as [|a [|b [|c [|d [|e [|f [|? ?]]]]]]]; try discriminate.
  exists a, b, c, d, e, f. split; [reflexivity|].
  exact (conj (Hn 1%nat ltac:(lia)) (conj (Hn 2%nat ltac:(lia)) (conj (Hn 3%nat ltac:(lia)) (conj (Hn 4%nat ltac:(lia)) (Hn 5%nat ltac:(lia)))))).
Qed.
Lemma nth8 (k : list Z) : length k = 8%nat -> (forall i, i <> O -> (0 <= nth i k 0)%Z) ->
  exists a b c d e f g h, k = [a; b; c; d; e; f; g; h] /\ (0 <= b)%Z /\ (0 <= c)%Z /\ (0 <= d)%Z /\ (0 <= e)%Z /\ (0 <= f)%Z /\ (0 <= g)%Z /\ (0 <= h)%Z.
Proof.
  intros Hl Hn. destruct k as [|a [|b [|c [|d [|e [|f [|g [|h [|? ?]]]]]]]]]; try discriminate.
  exists a, b, c, d, e, f, g, h. split; [reflexivity|].
  exact (conj (Hn 1%nat ltac:(lia)) (conj (Hn 2%nat ltac:(lia)) (conj (Hn 3%nat ltac:(lia)) (conj (Hn 4%nat ltac:(lia))
    (conj (Hn 5%nat ltac:(lia)) (conj (Hn 6%nat ltac:(lia)) (Hn 7%nat ltac:(lia)))))))).
Qed.

Lemma sume_1 k z : sume k 1 z = sumR (fun sj => exp (k * fst sj) * snd sj) z.
Proof. unfold sume. apply sumR_ext. intros sj _. now rewrite Rmult_1_l. Qed.
Lemma sume_0 k z : sume k 0 z = sumR snd z.
Proof. unfold sume. apply sumR_ext. intros sj _. rewrite !Rmult_0_l, exp_0. ring. Qed.

Lemma sv_mkey_ok n1 n2 n3 n4 key w : (0 <= n1)%Z -> (0 <= n2)%Z -> (0 <= n3)%Z -> (0 <= n4)%Z -> svok 6 w key -> svok 8 w (sv_mkey n1 n2 n3 n4 key).
Proof.
  intros h1 h2 h3 h4 (Hl & Hn & Hs & Hw & Hr). destruct key as [[k [[[l o] p] q]] x]. cbn [fst snd] in *.
  destruct (nth6 k Hl Hn) as (a & b & c & d & e & f & -> & Hb & Hc & Hd & He & Hf).
  unfold sv_mkey, svok. cbn [fst snd]. unfold nthZ. cbn [Z.to_nat nth]. split; [reflexivity|]. split.
  - intros [|[|[|[|[|[|[|[|[|i]]]]]]]]] Hi; cbn; lia.
  - split; [|split; assumption]. rewrite (mkey_lopq n3 n4 l o p q h3 h4 Hs). now apply apps_shape, apps_shape.
Qed.
Lemma sv_mkey_val n1 n2 n3 n4 key w bs p z : (0 <= n1)%Z -> (0 <= n2)%Z -> (0 <= n3)%Z -> (0 <= n4)%Z -> svok 6 w key ->
  Q2R (qmul (qz (sgn1 (n2 + n4))) (Frac 1 (2 ^ (n3 + n4)))) * svmon (sv8 p) bs p z (sv_mkey n1 n2 n3 n4 key)
  = monx (sva p z) [n1; n2; n3; n4] * svmon (zvals (svz p) (svh p)) bs p z key.
Proof.
  intros h1 h2 h3 h4 (Hl & Hn & Hs & Hw & Hr). destruct key as [[k [[[l o] pp] q]] x]. cbn [fst snd] in *.
  destruct (nth6 k Hl Hn) as (a & b & c & d & e & f & -> & Hb & Hc & Hd & He & Hf).
  unfold sv_mkey, svmon. cbn [fst snd]. rewrite (mkey_lopq n3 n4 l o pp q h3 h4 Hs).
  rewrite !fZ_path_zs, zs_apps by now apply apps_shape. rewrite zs_apps by assumption.
  rewrite sume_1, sume_0. unfold nthZ. cbn [Z.to_nat Pos.to_nat Pos.iter_op nth].
  set (Z0 := zs _ _ _ _). unfold sva, sv8, zvals, IEZ_path, IZ_path. fold (svk p). cbn [monx].
  set (S1 := sumR _ (upto _ _)). set (S0 := sumR snd _).
  rewrite Q2R_mul, Q2R_qz, Q2R_Frac2, sgn1_pw by lia.
  rewrite (pw_sub _ a n3) by apply exp_neq0.
  rewrite exp_Ropp. set (e1 := exp (svk p * svh p)). assert (He1 : e1 <> 0) by apply exp_neq0.
  change (nth (Pos.to_nat 2) [a; b; c; d; e; f] 0%Z) with c.
  replace (c + n3 + n4)%Z with (c + (n3 + n4))%Z by ring.
  rewrite !pow_lemma_pw by (right; lia).
  replace (/ e1 * S1 / (2 * svk p)) with (/ e1 * (/ 2 * / svk p) * S1) by (unfold Rdiv; rewrite Rinv_mult; ring).
  replace (- (S0 / (2 * svk p))) with (-1 * (/ 2 * / svk p) * S0) by (unfold Rdiv; rewrite Rinv_mult; ring).
  replace (- ((zpv (svz p) - zpth (svz p)) * sv_beta p)) with (-1 * (zpv (svz p) - zpth (svz p)) * sv_beta p) by ring.
  rewrite !pw_mult by assumption. rewrite (pw_inv e1 n3) by assumption. rewrite <- !pw_Zpos by assumption.
  ring.
Qed.

Lemma getp_nth {A} (l : list A) n q : nth_error l (Z.to_nat n) = Some q -> getp l n = Ok q.
Proof. intro E. unfold getp. now rewrite E. Qed.

(** the polys of a list and their values *)
Definition tabok (m w : nat) (kf : list string) (lo hi : Z) (cs : list (Poly svkey)) : Prop :=
  forall n, (lo <= n <= hi)%Z -> exists q, nth_error cs (Z.to_nat n) = Some q /\ wfp (svok m w) kf q.
Definition tabv (mon : svkey -> R) (cs : list (Poly svkey)) (n : Z) : R :=
  match nth_error cs (Z.to_nat n) with Some q => eval mon (items q) | None => 0 end.

Definition mon8 (w : svpar * path) : svkey -> R := svmon (sv8 (fst w)) (sv3 (fst w)) (fst w) (snd w).
Definition mon6 (w : svpar * path) : svkey -> R := svmon (zvals (svz (fst w)) (svh (fst w))) (sv3 (fst w)) (fst w) (snd w).

Lemma moment_comb_sp n n1 n2 n3 n4 PY : (0 <= n1)%Z -> (0 <= n2)%Z -> (0 <= n3)%Z -> (0 <= n4)%Z -> (n1 + n2 + n3 + n4 <= n)%Z ->
  wfp (svok 6 3) kf_sv PY ->
  returns (moment_comb n n1 n2 n3 n4 PY) (fun r => wfp (svok 8 3) (kf_mom kf_sv) r /\ forall w,
    evp mon8 w r = IZR (cmb n [n1; n2; n3; n4; n - n1 - n2 - n3 - n4]%Z) *
       (monx (sva (fst w) (snd w)) [n1; n2; n3; n4] * eval (mon6 w) (items PY))).
Proof.
  intros h1 h2 h3 h4 Hn (K & U & A). unfold moment_comb.
  rewrite comp_comb; [|repeat (apply Forall_cons; [lia|]); apply Forall_nil|cbn; lia]. cbn [bind returns].
  set (c := qmul _ _).
  destruct (adds_fold (svok 8 3) mon8 (fun kv : svkey * Q => sv_mkey n1 n2 n3 n4 (fst kv)) (fun kv => qmul c (snd kv)) (items PY)
    ltac:(intros [k v] Hin; apply sv_mkey_ok; try assumption; exact (allk_in _ _ k v A Hin)) [] (wfl_nil _)) as [[U' A'] V].
  split; [split; [cbn [keyfor]; now rewrite K|split; assumption]|]. intro w. etransitivity; [exact (V w)|].
  unfold ev. cbn [eval]. rewrite Rplus_0_l, sumR_eval, <- !sumR_scal. apply sumR_ext. intros [k v] Hin. cbn [fst snd].
  pose proof (sv_mkey_val n1 n2 n3 n4 k 3 (sv3 (fst w)) (fst w) (snd w) h1 h2 h3 h4 (allk_in _ _ k v A Hin)) as E.
  unfold mon8, mon6, c. rewrite Q2R_mul, (Q2R_mul (qz _)), Q2R_qz.
  transitivity (IZR (cmb n [n1; n2; n3; n4; n - n1 - n2 - n3 - n4]%Z) * Q2R v *
    (monx (sva (fst w) (snd w)) [n1; n2; n3; n4] * svmon (zvals (svz (fst w)) (svh (fst w))) (sv3 (fst w)) (fst w) (snd w) k)); [|ring].
  rewrite <- E. ring.
Qed.

Definition mterm (cs : list (Poly svkey)) (n : Z) (w : svpar * path) (ns : list Z) : R :=
  IZR (cmb n ns) * (monx (sva (fst w) (snd w)) ns * tabv (mon6 w) cs (nth 4 ns 0%Z)).

Lemma rcomp4_in n ns : (0 <= n)%Z -> In ns (rcomp 4 n) -> exists n1 n2 n3 n4, ns = [n1; n2; n3; n4; n - n1 - n2 - n3 - n4]%Z /\
  (0 <= n1 /\ 0 <= n2 /\ 0 <= n3 /\ 0 <= n4 /\ n1 + n2 + n3 + n4 <= n)%Z.
Proof.
  intros Hn Hin. apply in_rcomp in Hin; [|assumption]. destruct Hin as (h1 & h2 & h3).
  destruct ns as [|a [|b [|c [|d [|e [|? ?]]]]]]; try discriminate.
  repeat match goal with H : Forall _ (_ :: _) |- _ => inversion H; clear H; subst end.
  exists a, b, c, d. simpl. split; [repeat f_equal; lia|lia].
Qed.

Lemma sv_mom_n_sp cs n : (0 <= n)%Z -> tabok 6 3 kf_sv 0 n cs ->
  returns (sv_mom_n (kf_mom kf_sv) cs n) (fun r => wfp (svok 8 3) (kf_mom kf_sv) r /\ forall w,
    evp mon8 w r = sumR (mterm cs n w) (rcomp 4 n)).
Proof.
  intros Hn Hcs. unfold sv_mom_n.
  set (body := fun (poly : Poly svkey) (ns : list Z) => match ns with
    | [n1; n2; n3; n4; n5] => let! c := getp cs n5 in let! r := moment_comb n n1 n2 n3 n4 c in merge poly r
    | _ => Err IndexError end).
  match goal with |- returns (bind ?x _) _ => set (loop := x) end.
  assert (El : loop = foldM body (rcomp 4 n) (mkPoly [] (kf_mom kf_sv))).
  { unfold loop. transitivity (nest 4 n [] body (mkPoly [] (kf_mom kf_sv))); [reflexivity|]. now rewrite nest_rcomp. }
  rewrite El. clear El loop.
  eapply returns_bind.
  - apply (adds_foldM (wfp (svok 8 3) (kf_mom kf_sv)) (evp mon8) body (fun ns w => mterm cs n w ns)); [|apply wfp_nil].
    intros ns Hin. destruct (rcomp4_in n ns Hn Hin) as (n1 & n2 & n3 & n4 & -> & h1 & h2 & h3 & h4 & h5).
    unfold body. destruct (Hcs (n - n1 - n2 - n3 - n4)%Z ltac:(lia)) as (q & Eq & Wq). rewrite (getp_nth _ _ _ Eq). cbn [bind].
    eapply adds_bind; [now apply (moment_comb_sp n n1 n2 n3 n4 q)|]. intros r [Wr Vr].
    eapply adds_ext; [apply (adds_merge (svok 8 3) mon8 (kf_mom kf_sv) r); apply Wr|]. intro w. cbv beta.
    unfold evp in Vr. rewrite Vr. unfold mterm, tabv. cbn [nth]. rewrite Eq. reflexivity.
  - intros r [Wr Vr]. cbn [returns]. destruct (remove_zero_sp (svok 8 3) mon8 (kf_mom kf_sv) r Wr) as (W & _ & V). split; [exact W|].
    intro w. rewrite V, Vr. unfold evp. cbn [items eval]. apply Rplus_0_l.
Qed.

(** ** a list of polys built one by one *)
Lemma build_list {A} (f : Z -> res A) (Good : Z -> A -> Prop) (a b : Z) (init : list A) :
  (forall n, (a <= n < b)%Z -> returns (f n) (Good n)) -> length init = Z.to_nat a -> (0 <= a)%Z ->
  (forall n, (0 <= n < a)%Z -> exists q, nth_error init (Z.to_nat n) = Some q /\ Good n q) ->
  returns (foldM (fun l n => let! p := f n in Ok (l ++ [p])) (range a b) init) (fun l =>
    length l = Z.to_nat (Z.max a b) /\ forall n, (0 <= n < Z.max a b)%Z -> exists q, nth_error l (Z.to_nat n) = Some q /\ Good n q).
Proof.
  intros Hf Hl Ha Hi.
  assert (L : forall m c l, (a <= c)%Z -> (c + Z.of_nat m = Z.max c b)%Z -> length l = Z.to_nat c ->
    (forall n, (0 <= n < c)%Z -> exists q, nth_error l (Z.to_nat n) = Some q /\ Good n q) ->
    returns (foldM (fun l n => let! p := f n in Ok (l ++ [p])) (range c b) l) (fun l =>
    length l = Z.to_nat (Z.max c b) /\ forall n, (0 <= n < Z.max c b)%Z -> exists q, nth_error l (Z.to_nat n) = Some q /\ Good n q)).
  { induction m as [|m IH]; intros c l Hc Hm Hlen Hg.
    - rewrite range_nil by lia. cbn [foldM returns]. replace (Z.max c b) with c by lia. now split.
    - rewrite range_cons by lia. cbn [foldM].
      pose proof (Hf c ltac:(lia)) as h. destruct (f c) as [p|]; [|destruct h]. cbn [bind returns] in *.
      replace (Z.max c b) with (Z.max (c + 1) b) by lia. apply IH; [lia|lia|rewrite app_length; cbn [length]; lia|].
      intros n Hn. destruct (Z.eq_dec n c) as [->|Hne].
      + exists p. split; [|exact h]. rewrite nth_error_app2 by lia. now rewrite Hlen, Nat.sub_diag.
      + destruct (Hg n ltac:(lia)) as (q & E & G). exists q. split; [|exact G]. rewrite nth_error_app1; [exact E|]. lia. }
  apply (L (Z.to_nat (Z.max a b - a)) a init); trivial; lia.
Qed.

(** ** the SVIJ convolution *)
Section Ij.
Context (m : nat) (cpp : Z -> res (Poly (list Z))) (kf1 kf : list string) (cs : list (Poly svkey)).
Variables (n : Z) (lam mus sgs t : R) (b : Z -> R) (mon1 mon3 : unit -> svkey -> R).
Hypothesis (Hcs : tabok m 3 kf1 0 n cs).
Hypothesis Hcpp : forall i, (0 <= i <= n)%Z -> returns (cpp i) (fun r => wfp P_3 kf_cpp r /\ evp (mon_j (lam * t) mus sgs) tt r = b i).
Hypothesis Hkey : forall k1 k2, svok m 3 k1 -> P_3 k2 -> svok m 6 (svij_key k1 k2) /\
   mon3 tt (svij_key k1 k2) = mon1 tt k1 * mon_j (lam * t) mus sgs tt k2.

Lemma svij_n_sp : returns (svij_n cpp kf cs n) (fun r => wfp (svok m 6) kf r /\
  evp mon3 tt r = sumR (fun i => IZR (mcomb n i) * (tabv (mon1 tt) cs i * b (n - i)%Z)) (range_down n)).
Proof.
  unfold svij_n. eapply returns_bind.
  - apply (adds_foldM (wfl (svok m 6)) (ev mon3) _ (fun i _ => IZR (mcomb n i) * (tabv (mon1 tt) cs i * b (n - i)%Z))); [|apply wfl_nil].
    intros i Hi. apply in_range_down in Hi. rewrite math_comb_ok by lia. cbn [bind].
    destruct (Hcs i ltac:(lia)) as (q & Eq & Kq & Uq & Aq). rewrite (getp_nth _ _ _ Eq). cbn [bind].
    eapply adds_bind; [apply Hcpp; lia|]. intros r [(Kr & Ur & Ar) Vr].
    intros a Wa. cbn [returns].
    assert (L : forall l a, wfl (svok m 6) a -> (forall k v, In (k, v) l -> svok m 3 k) ->
      let a' := fold_left (fun a kv1 => fold_left (fun a kv2 =>
          add_kv (svij_key (fst kv1) (fst kv2)) (qmul (qmul (qz (mcomb n i)) (snd kv1)) (snd kv2)) a) (items r) a) l a in
      wfl (svok m 6) a' /\ ev mon3 tt a' = ev mon3 tt a + IZR (mcomb n i) * (eval (mon1 tt) l * b (n - i)%Z)).
    { clear a Wa. induction l as [|[k v] l IH]; intros a Wa Hl; cbv zeta; cbn [fold_left].
      - split; [exact Wa|]. cbn [eval]. ring.
      - cbn [fst snd]. 
        destruct (adds_fold (svok m 6) mon3 (fun kv2 : list Z * Q => svij_key k (fst kv2))
          (fun kv2 => qmul (qmul (qz (mcomb n i)) v) (snd kv2)) (items r)
          ltac:(intros [k2 v2] Hin; apply Hkey; [now apply (Hl k v); left|exact (allk_in _ _ k2 v2 Ar Hin)]) a Wa) as [W' V'].
        destruct (IH _ W' ltac:(intros k' v' Hin; apply (Hl k' v'); now right)) as [W2 V2]. cbv zeta in *. split; [exact W2|].
        rewrite V2, (V' tt). cbn [eval]. rewrite <- Vr. unfold evp. rewrite (sumR_eval (mon_j (lam * t) mus sgs tt) (items r)).
        rewrite (sumR_ext _ (fun kv2 => (IZR (mcomb n i) * (Q2R v * mon1 tt k)) * (Q2R (snd kv2) * mon_j (lam * t) mus sgs tt (fst kv2)))).
        + rewrite sumR_scal. ring.
        + intros [k2 v2] Hin. cbn [fst snd]. destruct (Hkey k k2 ltac:(now apply (Hl k v); left) (allk_in _ _ k2 v2 Ar Hin)) as [_ E].
          rewrite E, !Q2R_mul, Q2R_qz. ring. }
    destruct (L (items q) a Wa ltac:(intros k v Hin; exact (allk_in _ _ k v Aq Hin))) as [W V]. cbv zeta in *.
    split; [exact W|]. intros []. rewrite V. unfold tabv. now rewrite Eq.
  - intros a [[U A] V]. cbn [returns].
    destruct (remove_zero_sp (svok m 6) mon3 kf (mkPoly a kf) (conj eq_refl (conj U A))) as (W & _ & E). split; [exact W|].
    rewrite E. unfold evp. cbn [items]. specialize (V tt). unfold ev in V. rewrite V. cbn [eval]. ring.
Qed.
End Ij.
