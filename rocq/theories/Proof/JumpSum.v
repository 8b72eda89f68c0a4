(** Nested jump sums over a path, with a function of the final maximum at the end. *)
From Coq Require Import Reals Lra.
From Coquelicot Require Import Coquelicot.
From Verif.Spec Require Export JumpPath.
From Verif.Proof Require Export VolterraFacts MonTac.
Local Open Scope R_scope.

Section Z.
Context (k : R).

Definition jw (l o : Z) (sj : R * R) : R :=
  exp (IZR l * k * fst sj) * snd sj * pw (fst sj) o.

Fixpoint zr (z : path) (g : R -> R) (l o p q : list Z) (M : R) : R :=
  match l, o, p, q with
  | l1 :: lr, o1 :: or, p1 :: pr, q1 :: qr =>
      sumR (fun sj => let M' := Rmax M (fst sj) in
              jw l1 o1 sj * (exp (IZR p1 * k * M') * pw M' q1) * zr z g lr or pr qr M') z
  | _, _, _, _ => g M
  end.
Definition zs (z : path) (g : R -> R) (lopq : list Z * list Z * list Z * list Z) : R :=
  let '(l, o, p, q) := lopq in
  match l, o with
  | l1 :: lr, o1 :: or => sumR (fun sj => jw l1 o1 sj * zr z g lr or p q (fst sj)) z
  | _, _ => g 0
  end.

Lemma sumR_nth {A} (d : A) (f : A -> R) l :
  sumR (fun j => f (nth (Z.to_nat j) l d)) (range 0 (Z.of_nat (length l))) = sumR f l.
Proof.
  unfold range. rewrite sumR_map, Z.sub_0_r, Nat2Z.id.
  rewrite (sumR_ext _ (fun i => f (nth i l d))) by (intros i _; f_equal; f_equal; lia).
  induction l as [|x r IH]; [reflexivity|]. cbn [length seq sumR nth]. f_equal.
  rewrite <- seq_shift, sumR_map. exact IH.
Qed.

Lemma sumR_path (f : R -> R -> R) (z : path) :
  sumR (fun j => f (nthR (map fst z) j) (nthR (map snd z) j)) (range 0 (Z.of_nat (length (map snd z))))
  = sumR (fun sj => f (fst sj) (snd sj)) z.
Proof.
  rewrite map_length, <- (sumR_nth (0, 0) (fun sj => f (fst sj) (snd sj))).
  apply sumR_ext. intros j _. unfold nthR.
  change 0 with (fst (0, 0)) at 1. rewrite map_nth. f_equal.
  change 0 with (snd (0, 0)) at 1. now rewrite map_nth.
Qed.

Lemma fZ_tail_zr z : forall l o p q M,
  fZ_tail k (map fst z) (map snd z) l o p q M = zr z (fun _ => 1) l o p q M.
Proof.
  induction l as [|l1 lr IH]; intros o p q M; [reflexivity|].
  destruct o as [|o1 or]; [reflexivity|]. destruct p as [|p1 pr]; [reflexivity|].
  destruct q as [|q1 qr]; [reflexivity|]. cbn [fZ_tail zr].
  rewrite (sumR_path (fun s j => let M' := Rmax M s in exp (IZR l1 * k * s) * j * pw s o1
     * (exp (IZR p1 * k * M') * pw M' q1) * fZ_tail k (map fst z) (map snd z) lr or pr qr M')).
  apply sumR_ext. intros sj _. cbv zeta. now rewrite IH.
Qed.
Lemma fZ_path_zs z lopq : fZ_path k z lopq = zs z (fun _ => 1) lopq.
Proof.
  destruct lopq as [[[l o] p] q]. unfold fZ_path, fZ_sum, zs.
  destruct l as [|l1 lr]; [reflexivity|]. destruct o as [|o1 or]; [reflexivity|].
  rewrite (sumR_path (fun s j => exp (IZR l1 * k * s) * j * pw s o1
     * fZ_tail k (map fst z) (map snd z) lr or p q s)).
  apply sumR_ext. intros sj _. now rewrite fZ_tail_zr.
Qed.

(** ** dependence on the end function *)
Lemma zr_ext z g h : jumps_ok z -> forall l o p q M, 0 <= M -> (forall m, 0 <= m -> g m = h m) ->
  zr z g l o p q M = zr z h l o p q M.
Proof.
  intro Hz. induction l as [|l1 lr IH]; intros o p q M HM E; [apply E, HM|].
  destruct o as [|o1 or]; [apply E, HM|]. destruct p as [|p1 pr]; [apply E, HM|].
  destruct q as [|q1 qr]; [apply E, HM|]. cbn [zr]. apply sumR_ext. intros sj Hin. cbv zeta.
  f_equal. apply IH; [|assumption]. apply Rle_trans with M; [assumption|apply Rmax_l].
Qed.
Lemma zs_ext z g h lopq : jumps_ok z -> (forall m, 0 <= m -> g m = h m) -> zs z g lopq = zs z h lopq.
Proof.
  intros Hz E. destruct lopq as [[[l o] p] q]. unfold zs.
  destruct l as [|l1 lr]; [apply E, Rle_refl|]. destruct o as [|o1 or]; [apply E, Rle_refl|].
  apply sumR_ext. intros sj Hin. f_equal. apply zr_ext; [assumption| |assumption].
  left. now apply Hz.
Qed.

Lemma zr_plus z g h : forall l o p q M,
  zr z (fun m => g m + h m) l o p q M = zr z g l o p q M + zr z h l o p q M.
Proof.
  induction l as [|l1 lr IH]; intros o p q M; [reflexivity|].
  destruct o as [|o1 or]; [reflexivity|]. destruct p as [|p1 pr]; [reflexivity|].
  destruct q as [|q1 qr]; [reflexivity|]. cbn [zr]. rewrite <- sumR_plus. apply sumR_ext. intros sj _. cbv zeta.
  rewrite IH. ring.
Qed.
Lemma zs_plus z g h lopq : zs z (fun m => g m + h m) lopq = zs z g lopq + zs z h lopq.
Proof.
  destruct lopq as [[[l o] p] q]. unfold zs.
  destruct l as [|l1 lr]; [reflexivity|]. destruct o as [|o1 or]; [reflexivity|].
  rewrite <- sumR_plus. apply sumR_ext. intros sj _. rewrite zr_plus. ring.
Qed.
Lemma zr_scal z c g : forall l o p q M,
  zr z (fun m => c * g m) l o p q M = c * zr z g l o p q M.
Proof.
  induction l as [|l1 lr IH]; intros o p q M; [reflexivity|].
  destruct o as [|o1 or]; [reflexivity|]. destruct p as [|p1 pr]; [reflexivity|].
  destruct q as [|q1 qr]; [reflexivity|]. cbn [zr]. rewrite <- sumR_scal. apply sumR_ext. intros sj _. cbv zeta.
  rewrite IH. ring.
Qed.
Lemma zs_scal z c g lopq : zs z (fun m => c * g m) lopq = c * zs z g lopq.
Proof.
  destruct lopq as [[[l o] p] q]. unfold zs.
  destruct l as [|l1 lr]; [reflexivity|]. destruct o as [|o1 or]; [reflexivity|].
  rewrite <- sumR_scal. apply sumR_ext. intros sj _. rewrite zr_scal. ring.
Qed.
Lemma zs_sum {A} z (g : A -> R -> R) lopq l : jumps_ok z ->
  zs z (fun m => sumR (fun a => g a m) l) lopq = sumR (fun a => zs z (g a) lopq) l.
Proof.
  intro Hz. induction l as [|a r IH]; cbn [sumR].
  - rewrite (zs_ext z _ (fun m => 0 * 0)) by (trivial; intros; ring).
    rewrite (zs_scal z 0 (fun _ => 0)). ring.
  - rewrite (zs_plus z (g a) (fun m => sumR (fun a => g a m) r)). now rewrite IH.
Qed.

(** ** (A) jumps up to time u *)
Lemma sumR_upto (f : R * R -> R) u z :
  sumR f (upto u z) = sumR (fun sj => if Rle_dec (fst sj) u then f sj else 0) z.
Proof.
  unfold upto. rewrite sumR_filter. apply sumR_ext. intros sj _. now destruct (Rle_dec (fst sj) u).
Qed.
Definition ind (u : R) (g : R -> R) (m : R) : R := if Rle_dec m u then g m else 0.

Lemma zr_late z u g : forall l o p q M, u < M -> zr z (ind u g) l o p q M = 0.
Proof.
  induction l as [|l1 lr IH]; intros o p q M HM;
    [|destruct o as [|o1 or]; [|destruct p as [|p1 pr]; [|destruct q as [|q1 qr]]]];
    try (cbn [zr]; unfold ind; destruct (Rle_dec M u); [lra|reflexivity]).
  cbn [zr]. apply sumR_0. intros sj _. cbv zeta. rewrite IH; [ring|].
  apply Rlt_le_trans with M; [assumption|apply Rmax_l].
Qed.
Lemma zr_upto z u g : forall l o p q M, M <= u ->
  zr (upto u z) g l o p q M = zr z (ind u g) l o p q M.
Proof.
  induction l as [|l1 lr IH]; intros o p q M HM;
    [|destruct o as [|o1 or]; [|destruct p as [|p1 pr]; [|destruct q as [|q1 qr]]]];
    try (cbn [zr]; unfold ind; destruct (Rle_dec M u); [reflexivity|lra]).
  cbn [zr]. rewrite sumR_upto. apply sumR_ext. intros sj _. cbv zeta.
  destruct (Rle_dec (fst sj) u) as [h|h].
  - f_equal. apply IH. now apply Rmax_lub.
  - rewrite zr_late; [ring|]. apply Rlt_le_trans with (fst sj); [lra|apply Rmax_r].
Qed.
Lemma zs_upto z u g lopq : 0 <= u -> zs (upto u z) g lopq = zs z (ind u g) lopq.
Proof.
  intro Hu. destruct lopq as [[[l o] p] q]. unfold zs.
  destruct l as [|l1 lr]; [|destruct o as [|o1 or]];
    try (unfold ind; destruct (Rle_dec 0 u); [reflexivity|lra]).
  rewrite sumR_upto. apply sumR_ext. intros sj _.
  destruct (Rle_dec (fst sj) u) as [h|h].
  - f_equal. now apply zr_upto.
  - rewrite zr_late; [ring|lra].
Qed.

Lemma jumps_ok_upto z u : jumps_ok z -> jumps_ok (upto u z).
Proof. intros Hz sj Hin. apply filter_In in Hin. now apply Hz. Qed.

(** ** (B) integration over a parameter of the end function *)
Lemma is_RInt_sumR {A} (f : A -> R -> R) (F : A -> R) (l : list A) (a b : R) :
  (forall x, In x l -> is_RInt (f x) a b (F x)) -> is_RInt (fun s => sumR (fun x => f x s) l) a b (sumR F l).
Proof.
  induction l as [|x r IH]; intro h; cbn [sumR].
  - pose proof (is_RInt_const (V := R_NormedModule) a b 0) as h0. unfold scal in h0. simpl in h0.
    unfold mult in h0. simpl in h0. rewrite Rmult_0_r in h0. exact h0.
  - apply (is_RInt_plus (V := R_NormedModule) (f x) (fun s => sumR (fun x => f x s) r)).
    + apply h. now left.
    + apply IH. intros; apply h; now right.
Qed.
Lemma is_RInt_Rscal (f : R -> R) (c a b x : R) : is_RInt f a b x -> is_RInt (fun s => c * f s) a b (c * x).
Proof. intro h. apply (is_RInt_scal (V := R_NormedModule) f a b c x h). Qed.
Lemma is_RInt_Rplus (f g : R -> R) (a b x y : R) : is_RInt f a b x -> is_RInt g a b y ->
  is_RInt (fun s => f s + g s) a b (x + y).
Proof. intros h1 h2. apply (is_RInt_plus (V := R_NormedModule) f g a b x y h1 h2). Qed.

Lemma zr_RInt z (G : R -> R -> R) (F : R -> R) (a b : R) : jumps_ok z ->
  (forall m, 0 <= m -> is_RInt (fun s => G s m) a b (F m)) ->
  forall l o p q M, 0 <= M -> is_RInt (fun s => zr z (G s) l o p q M) a b (zr z F l o p q M).
Proof.
  intros Hz h. induction l as [|l1 lr IH]; intros o p q M HM; [now apply h|].
  destruct o as [|o1 or]; [now apply h|]. destruct p as [|p1 pr]; [now apply h|].
  destruct q as [|q1 qr]; [now apply h|].
  cbn [zr]. apply is_RInt_sumR. intros sj _. cbv zeta. apply is_RInt_Rscal, IH.
  apply Rle_trans with M; [assumption|apply Rmax_l].
Qed.
Lemma zs_RInt z (G : R -> R -> R) (F : R -> R) (a b : R) lopq : jumps_ok z ->
  (forall m, 0 <= m -> is_RInt (fun s => G s m) a b (F m)) ->
  is_RInt (fun s => zs z (G s) lopq) a b (zs z F lopq).
Proof.
  intros Hz h. destruct lopq as [[[l o] p] q]. unfold zs.
  destruct l as [|l1 lr]; [apply h, Rle_refl|]. destruct o as [|o1 or]; [apply h, Rle_refl|].
  apply is_RInt_sumR. intros sj Hin. apply is_RInt_Rscal, zr_RInt; trivial. left. now apply Hz.
Qed.

(** core: int_0^t [m <= s] g(s) ds = [m <= t] int_m^t g *)
Lemma RInt_ind (g : R -> R) (m t : R) (F : R) : 0 <= m -> 0 <= t ->
  (m <= t -> is_RInt g m t F) ->
  is_RInt (fun s => ind s (fun _ => g s) m) 0 t (ind t (fun _ => F) m).
Proof.
  intros Hm Ht h. unfold ind. destruct (Rle_dec m t) as [Hmt|Hmt].
  - replace F with (0 + F) by ring.
    apply (is_RInt_Chasles (V := R_NormedModule) _ 0 m t).
    + apply (is_RInt_ext (fun _ => 0)).
      * intros x Hx. rewrite Rmin_left, Rmax_right in Hx by assumption.
        destruct (Rle_dec m x); [lra|reflexivity].
      * pose proof (is_RInt_const (V := R_NormedModule) 0 m 0) as h0. unfold scal in h0. simpl in h0.
        unfold mult in h0. simpl in h0. rewrite Rmult_0_r in h0. exact h0.
    + apply (is_RInt_ext g); [|now apply h].
      intros x Hx. rewrite Rmin_left, Rmax_right in Hx by assumption.
      destruct (Rle_dec m x); [reflexivity|lra].
  - apply (is_RInt_ext (fun _ => 0)).
    + intros x Hx. rewrite Rmin_left, Rmax_right in Hx by assumption.
      destruct (Rle_dec m x); [lra|reflexivity].
    + pose proof (is_RInt_const (V := R_NormedModule) 0 t 0) as h0. unfold scal in h0. simpl in h0.
      unfold mult in h0. simpl in h0. rewrite Rmult_0_r in h0. exact h0.
Qed.

(** ** (C) powers of the final maximum *)
Definition addl (d : Z) (l : list Z) : list Z := addat (pred (length l)) d l.

Lemma addl_cons d x y r : addl d (x :: y :: r) = x :: addl d (y :: r).
Proof. reflexivity. Qed.

Lemma zr_shift z n j : jumps_ok z -> forall l o p q M, 0 < M ->
  length o = length l -> length p = length l -> length q = length l -> l <> [] ->
  zr z (fun m => exp (IZR n * k * m) * pw m j) l o p q M
  = zr z (fun _ => 1) l o (addl n p) (addl j q) M.
Proof.
  intro Hz. induction l as [|l1 lr IH]; intros o p q M HM Ho Hp Hq Hl; [congruence|].
  destruct o as [|o1 or]; [discriminate|]. destruct p as [|p1 pr]; [discriminate|].
  destruct q as [|q1 qr]; [discriminate|]. injection Ho as Ho. injection Hp as Hp. injection Hq as Hq.
  destruct lr as [|l2 lr].
  - destruct pr; [|discriminate]. destruct qr; [|discriminate].
    cbn [zr addl addat length pred]. apply sumR_ext. intros sj Hin. cbv zeta.
    set (M' := Rmax M (fst sj)).
    assert (HM' : 0 < M') by (apply Rlt_le_trans with M; [assumption|apply Rmax_l]).
    rewrite plus_IZR. unfold pw. rewrite powerRZ_add by lra.
    replace ((IZR p1 + IZR n) * k * M') with (IZR p1 * k * M' + IZR n * k * M') by ring.
    rewrite exp_plus. ring.
  - destruct or as [|o2 or]; [discriminate|]. destruct pr as [|p2 pr]; [discriminate|].
    destruct qr as [|q2 qr]; [discriminate|]. rewrite !addl_cons. cbn [zr].
    apply sumR_ext. intros sj Hin. cbv zeta. f_equal.
    apply (IH (o2 :: or) (p2 :: pr) (q2 :: qr)); trivial; [|discriminate].
    apply Rlt_le_trans with M; [assumption|apply Rmax_l].
Qed.

Lemma zs_shift1 z n j l o : jumps_ok z ->
  zs z (fun m => exp (IZR n * k * m) * pw m j) ([l], [o], [], [])
  = zs z (fun _ => 1) ([(l + n)%Z], [(o + j)%Z], [], []).
Proof.
  intro Hz. cbn [zs zr]. apply sumR_ext. intros sj Hin. pose proof (Hz sj Hin).
  unfold jw. rewrite plus_IZR. unfold pw. rewrite powerRZ_add by lra.
  replace ((IZR l + IZR n) * k * fst sj) with (IZR l * k * fst sj + IZR n * k * fst sj) by ring.
  rewrite exp_plus. ring.
Qed.
Lemma zs_shift2 z n j l o p q : jumps_ok z -> jshape (l, o, p, q) -> (2 <= length l)%nat ->
  zs z (fun m => exp (IZR n * k * m) * pw m j) (l, o, p, q)
  = zs z (fun _ => 1) (l, o, addl n p, addl j q).
Proof.
  intros Hz (Ho & Hp & Hq) Hl. unfold zs.
  destruct l as [|l1 [|l2 lr]]; cbn [length] in *; [lia|lia|].
  destruct o as [|o1 or]; [discriminate|]. apply sumR_ext. intros sj Hin. f_equal.
  apply zr_shift; cbn [length] in *; try assumption; try lia; [now apply Hz|discriminate].
Qed.

(** ** (D) multiplication by IEZ *)
Lemma zr_times z : forall l o p q M, length o = length l -> length p = length l -> length q = length l ->
  zr z (fun _ => 1) (l ++ [1%Z]) (o ++ [0%Z]) (p ++ [0%Z]) (q ++ [0%Z]) M
  = zr z (fun _ => 1) l o p q M * sumR (fun sj => exp (k * fst sj) * snd sj) z.
Proof.
  induction l as [|l1 lr IH]; intros o p q M Ho Hp Hq.
  - destruct o; [|discriminate]. destruct p; [|discriminate]. destruct q; [|discriminate].
    cbn [app zr]. rewrite Rmult_1_l. apply sumR_ext. intros sj _. unfold jw. cbv zeta.
    rewrite !Rmult_1_l, !pw_0. rewrite !Rmult_0_l, exp_0. ring.
  - destruct o as [|o1 or]; [discriminate|]. destruct p as [|p1 pr]; [discriminate|].
    destruct q as [|q1 qr]; [discriminate|]. injection Ho as Ho. injection Hp as Hp. injection Hq as Hq.
    cbn [app zr]. rewrite <- sumR_scal_r. apply sumR_ext. intros sj _. cbv zeta.
    rewrite IH by assumption. ring.
Qed.

Definition iez_lopq (lopq : list Z * list Z * list Z * list Z) : list Z * list Z * list Z * list Z :=
  let '(l, o, p, q) := lopq in
  (l ++ [1%Z], o ++ [0%Z], match l with [] => [] | _ => p ++ [0%Z] end,
                           match l with [] => [] | _ => q ++ [0%Z] end).

Lemma iez_shape lopq : jshape lopq -> jshape (iez_lopq lopq).
Proof.
  destruct lopq as [[[l o] p] q]. intros (Ho & Hp & Hq). unfold iez_lopq, jshape.
  rewrite !app_length. destruct l as [|l1 lr]; cbn [length pred] in *; [lia|].
  rewrite !app_length. cbn [length]. lia.
Qed.
Lemma zs_times z lopq : jshape lopq ->
  zs z (fun _ => 1) (iez_lopq lopq) = zs z (fun _ => 1) lopq * sumR (fun sj => exp (k * fst sj) * snd sj) z.
Proof.
  destruct lopq as [[[l o] p] q]. intros (Ho & Hp & Hq). unfold iez_lopq.
  destruct l as [|l1 lr].
  - destruct o; [|discriminate]. cbn [app zs zr]. rewrite Rmult_1_l. apply sumR_ext. intros sj _.
    unfold jw. rewrite !Rmult_1_l, pw_0. ring.
  - destruct o as [|o1 or]; [discriminate|]. cbn [app zs]. rewrite <- sumR_scal_r. apply sumR_ext. intros sj _.
    rewrite zr_times; [ring| | |]; cbn [length pred] in *; lia.
Qed.
End Z.
