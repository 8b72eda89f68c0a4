(** The simulators compute truncated Euler schemes. *)
From Coq Require Import Reals Lra.
From Verif.Spec Require Import Euler.
From Verif.Model Require Import Euler.
From Verif.Proof Require Import DecodeProofs SumFacts.
Local Open Scope R_scope.

Lemma msqrt_ok x : 0 <= x -> msqrt x = Ok (sqrt x).
Proof. intro H. unfold msqrt. destruct (Rlt_dec x 0); [lra|reflexivity]. Qed.
Lemma msqrt_err x : x < 0 -> msqrt x = Err ValueError.
Proof. intro H. unfold msqrt. destruct (Rlt_dec x 0); [reflexivity|lra]. Qed.
Lemma normal_ok W a b c : 0 <= b -> normal W a b c = Ok (a + b * wnorm W c, S c).
Proof. intro H. unfold normal. destruct (Rlt_dec b 0); [lra|reflexivity]. Qed.
Lemma rbind_lift {A B} (r : res A) (a : A) (f : A -> rnd B) c : r = Ok a -> rbind (rlift r) f c = f a c.
Proof. intros ->. reflexivity. Qed.
Lemma rbind_ok {A B} (m : rnd A) (f : A -> rnd B) c a c' : m c = Ok (a, c') -> rbind m f c = f a c'.
Proof. intro H. unfold rbind. rewrite H. reflexivity. Qed.
Lemma clip x : (if Rlt_dec x 0 then 0 else x) = Rmax 0 x.
Proof. unfold Rmax. destruct (Rlt_dec x 0), (Rle_dec 0 x); lra. Qed.

Lemma tstep_nonneg k th sg dt dw v : 0 <= tstep k th sg dt dw v.
Proof. apply Rmax_l. Qed.
Lemma tpath_nonneg k th sg dt dw v m : 0 <= v -> 0 <= tpath k th sg dt dw v m.
Proof. intro H. destruct m; [exact H|apply tstep_nonneg]. Qed.
Lemma tpath_ext k th sg dt dw dw' v m : (forall j, (j < m)%nat -> dw j = dw' j) -> tpath k th sg dt dw v m = tpath k th sg dt dw' v m.
Proof.
  induction m as [|m IH]; intro H; [reflexivity|]. cbn [tpath]. rewrite IH by (intros; apply H; lia). now rewrite H by lia.
Qed.
Lemma tpath_add k th sg dt dw v a b : tpath k th sg dt dw v (a + b) = tpath k th sg dt (fun m => dw (a + m)%nat) (tpath k th sg dt dw v a) b.
Proof.
  induction b as [|b IH]; [now rewrite Nat.add_0_r|]. rewrite Nat.add_succ_r. cbn [tpath]. now rewrite IH.
Qed.
Lemma itgr_ext dt V V' n : (forall j, (j < n)%nat -> V j = V' j) -> itgr dt V n = itgr dt V' n.
Proof. intro H. apply sumR_ext. intros j Hj. apply in_seq in Hj. now rewrite H by lia. Qed.
Lemma stoch_ext dw dw' V V' n : (forall j, (j < n)%nat -> V j = V' j) -> (forall j, (j < n)%nat -> dw j = dw' j) -> stoch dw V n = stoch dw' V' n.
Proof. intros H H'. apply sumR_ext. intros j Hj. apply in_seq in Hj. now rewrite H, H' by lia. Qed.
Lemma itgr_S dt V n : itgr dt V (S n) = V O * dt + itgr dt (fun j => V (S j)) n.
Proof. unfold itgr. cbn [seq sumR]. now rewrite <- seq_shift, sumR_map. Qed.
Lemma stoch_S dw V n : stoch dw V (S n) = sqrt (V O) * dw O + stoch (fun j => dw (S j)) (fun j => V (S j)) n.
Proof. unfold stoch. cbn [seq sumR]. now rewrite <- seq_shift, sumR_map. Qed.
Lemma tpath_shift k th sg dt dw v j : tpath k th sg dt dw v (S j) = tpath k th sg dt (fun m => dw (S m)) (tstep k th sg dt (dw O) v) j.
Proof. exact (tpath_add k th sg dt dw v 1 j). Qed.

(** increments of the two Brownian motions of one factor, read from draw c *)
Definition dwa (W : world) (c : nat) (std : R) (m : nat) : R := std * wnorm W (c + 2 * m).
Definition dwb (W : world) (c : nat) (std : R) (m : nat) : R := std * wnorm W (c + 2 * m + 1).

Lemma seg1_ok W k th sg dt std v a b i c z : 0 <= v -> 0 <= std ->
  seg1 W k th sg dt std (v, a, b, i) z c
  = Ok ((tstep k th sg dt (std * wnorm W c) v, a + sqrt v * (std * wnorm W c), b + sqrt v * (std * wnorm W (S c)), i + v * dt), S (S c)).
Proof.
  intros Hv Hs. unfold seg1. rewrite !(msqrt_ok v Hv). rewrite (rbind_lift _ (sqrt v)) by reflexivity.
  rewrite (rbind_ok _ _ _ _ _ (normal_ok W 0 std c Hs)). rewrite (rbind_lift _ (sqrt v)) by reflexivity.
  rewrite (rbind_ok _ _ _ _ _ (normal_ok W 0 std (S c) Hs)). unfold rret. rewrite clip, !Rplus_0_l. reflexivity.
Qed.
Lemma segs1_ok W k th sg dt std : 0 <= std -> forall l v a b i c, 0 <= v ->
  foldR (seg1 W k th sg dt std) l (v, a, b, i) c
  = Ok ((tpath k th sg dt (dwa W c std) v (length l),
         a + stoch (dwa W c std) (tpath k th sg dt (dwa W c std) v) (length l),
         b + stoch (dwb W c std) (tpath k th sg dt (dwa W c std) v) (length l),
         i + itgr dt (tpath k th sg dt (dwa W c std) v) (length l)), (c + 2 * length l)%nat).
Proof.
  intro Hs. induction l as [|z l IH]; intros v a b i c Hv; cbn [foldR length].
  - unfold rret. cbn [tpath]. unfold stoch, itgr. cbn [seq sumR]. rewrite !Rplus_0_r, Nat.mul_0_r, Nat.add_0_r. reflexivity.
  - rewrite (rbind_ok _ _ _ _ _ (seg1_ok W k th sg dt std v a b i c z Hv Hs)). rewrite IH by apply tstep_nonneg.
    assert (e1 : forall j, dwa W (S (S c)) std j = dwa W c std (S j)). { intro j. unfold dwa. do 2 f_equal. lia. }
    assert (e2 : forall j, dwb W (S (S c)) std j = dwb W c std (S j)). { intro j. unfold dwb. do 2 f_equal. lia. }
    assert (e3 : std * wnorm W c = dwa W c std 0). { unfold dwa. do 2 f_equal. lia. }
    assert (e4 : std * wnorm W (S c) = dwb W c std 0). { unfold dwb. do 2 f_equal. lia. }
    rewrite e3, e4.
    assert (P : forall j, tpath k th sg dt (dwa W (S (S c)) std) (tstep k th sg dt (dwa W c std 0) v) j = tpath k th sg dt (dwa W c std) v (S j)).
    { intro j. rewrite tpath_shift. apply tpath_ext. intros; apply e1. }
    rewrite itgr_S, !stoch_S, P.
    rewrite (stoch_ext (dwa W (S (S c)) std) (fun j => dwa W c std (S j)) _ (fun j => tpath k th sg dt (dwa W c std) v (S j))) by (intros; first [apply P|apply e1]).
    rewrite (stoch_ext (dwb W (S (S c)) std) (fun j => dwb W c std (S j)) _ (fun j => tpath k th sg dt (dwa W c std) v (S j))) by (intros; first [apply P|apply e2]).
    rewrite (itgr_ext dt _ (fun j => tpath k th sg dt (dwa W c std) v (S j))) by (intros; apply P).
    cbn [tpath]. rewrite !Rplus_assoc. do 2 f_equal. lia.
Qed.

(** ** rows *)
Definition it {S} (nx : S -> nat -> S * nat) (s : S) (c : nat) (i : nat) : S * nat := Nat.iter i (fun p => nx (fst p) (snd p)) (s, c).
Lemma it_S {S} (nx : S -> nat -> S * nat) s c i : it nx s c (Datatypes.S i) = nx (fst (it nx s c i)) (snd (it nx s c i)).
Proof. reflexivity. Qed.
Lemma it_shift {S} (nx : S -> nat -> S * nat) s c i : it nx s c (Datatypes.S i) = it nx (fst (nx s c)) (snd (nx s c)) i.
Proof.
  induction i as [|i IH]; [unfold it; cbn; now destruct (nx s c)|]. rewrite it_S, IH. reflexivity.
Qed.
Lemma rowsR_ok {S} (f : S -> rnd (R * S)) (P : S -> Prop) (y : S -> nat -> R) (nx : S -> nat -> S * nat) :
  (forall s c, P s -> f s c = Ok ((y s c, fst (nx s c)), snd (nx s c)) /\ P (fst (nx s c))) ->
  forall n s c, P s -> rowsR f n s c = Ok (map (fun i => y (fst (it nx s c i)) (snd (it nx s c i))) (seq 0 n), snd (it nx s c n)).
Proof.
  intros H. induction n as [|n IH]; intros s c Hs; [reflexivity|]. cbn [rowsR]. destruct (H s c Hs) as [E Hn].
  rewrite (rbind_ok _ _ _ _ _ E). cbn [fst snd]. rewrite (rbind_ok _ _ _ _ _ (IH _ (snd (nx s c)) Hn)). unfold rret.
  rewrite it_shift. cbn [seq map]. rewrite <- seq_shift, map_map. do 3 f_equal. apply map_ext. intro i. now rewrite it_shift.
Qed.
Lemma emptyR_ok {S} (f : S -> rnd (R * S)) (P : S -> Prop) (y : S -> nat -> R) (nx : S -> nat -> S * nat) N s c :
  (forall s c, P s -> f s c = Ok ((y s c, fst (nx s c)), snd (nx s c)) /\ P (fst (nx s c))) -> (0 <= N)%Z -> P s ->
  emptyR N f s c = Ok (map (fun i => y (fst (it nx s c i)) (snd (it nx s c i))) (seq 0 (Z.to_nat N)), snd (it nx s c (Z.to_nat N))).
Proof. intros H HN Hs. unfold emptyR. destruct (Z.ltb_spec N 0); [lia|]. now apply (rowsR_ok f P y nx H). Qed.
Lemma range_len n : length (range 0 n) = Z.to_nat n.
Proof. unfold range. now rewrite map_length, seq_length, Z.sub_0_r. Qed.
Lemma dget_ok par s x : par s = Some x -> dget par s = Ok x.
Proof. unfold dget. now intros ->. Qed.
Lemma seg_len h n : (0 < n)%Z -> pydiv h (IZR n) = Ok (h / IZR n).
Proof. intro H. apply pydiv_ok. apply not_0_IZR. lia. Qed.
Lemma seg_nonneg h n : (0 < n)%Z -> 0 <= h -> 0 <= h / IZR n.
Proof. intros Hn Hh. apply Rmult_le_pos; [exact Hh|]. apply Rlt_le, Rinv_0_lt_compat. now apply IZR_lt. Qed.
Lemma rho_nonneg rho : rho ^ 2 <= 1 -> 0 <= 1 - rho ^ 2.
Proof. lra. Qed.

Ltac names := repeat (erewrite rbind_lift by (apply dget_ok; eassumption)).

Section One.
Context (W : world) (mu k th sg rho h : R) (n : Z) (par : dict) (Hn : (0 < n)%Z) (Hh : 0 <= h) (Hr : rho ^ 2 <= 1)
  (h1 : par "mu"%string = Some mu) (h2 : par "k"%string = Some k) (h3 : par "theta"%string = Some th)
  (h4 : par "sigma_v"%string = Some sg) (h5 : par "rho"%string = Some rho).
Let dt := h / IZR n.
Let std := sqrt dt.
Let m := Z.to_nat n.
Let V c v := tpath k th sg dt (dwa W c std) v.
Let Y c v := eret1 mu rho h dt m (dwa W c std) (dwb W c std) (V c v).
Let dt0 : 0 <= dt. Proof. now apply seg_nonneg. Qed.
Let std0 : 0 <= std. Proof. apply sqrt_pos. Qed.

Lemma row1 (f : R -> R -> rnd (R * R)) v c : 0 <= v ->
  (let@ st := foldR (seg1 W k th sg dt std) (range 0 n) (v, 0, 0, 0) in
    let '(v0, I1, I2, IV) := st in
    let@ r := rlift (msqrt (1 - rho ^ 2)) in
    f (mu * h - IV / 2 + rho * I1 + r * I2) v0) c = f (Y c v) (V c v m) (c + 2 * m)%nat.
Proof.
  intro Hv. rewrite (rbind_ok _ _ _ _ _ (segs1_ok W k th sg dt std std0 (range 0 n) v 0 0 0 c Hv)). rewrite range_len.
  rewrite (rbind_lift _ (sqrt (1 - rho ^ 2))) by (apply msqrt_ok; lra). unfold Y, eret1, V. fold m. rewrite !Rplus_0_l.
  rewrite !Rplus_assoc. reflexivity.
Qed.
Lemma r1FSV_ok N v c : (0 <= N)%Z -> 0 <= v ->
  r1FSV W v par N n h c = Ok (map (fun i => Y (c + 2 * m * i) (V c v (m * i)%nat)) (seq 0 (Z.to_nat N)), (c + 2 * m * Z.to_nat N)%nat).
Proof.
  intros HN Hv. unfold r1FSV. names. rewrite (rbind_lift _ dt) by now apply seg_len.
  rewrite (rbind_lift _ std) by now apply msqrt_ok.
  rewrite (emptyR_ok _ (fun v => 0 <= v) (fun v c => Y c v) (fun v c => (V c v m, (c + 2 * m)%nat))); [|intros v' c' Hv'|assumption|assumption].
  - assert (Hi : forall i, it (fun v c => (V c v m, (c + 2 * m)%nat)) v c i = (V c v (m * i)%nat, (c + 2 * m * i)%nat)).
    { induction i as [|i IH]; [unfold it; cbn; rewrite !Nat.mul_0_r, Nat.add_0_r; reflexivity|]. rewrite it_S, IH. cbn [fst snd].
      f_equal; [|lia]. replace (m * S i)%nat with (m * i + m)%nat by lia. unfold V. rewrite tpath_add. apply tpath_ext.
      intros j _. unfold dwa. do 2 f_equal. lia. }
    rewrite Hi. cbn [snd]. f_equal. f_equal. apply map_ext. intro i. now rewrite Hi.
  - split; [|now apply tpath_nonneg]. cbn [fst snd]. exact (row1 (fun y v => rret (y, v)) v' c' Hv').
Qed.
Lemma r1FSV_iid_ok N v c : (0 <= N)%Z -> 0 <= v ->
  r1FSV_iid W v par N n h c = Ok (map (fun i => Y (c + 2 * m * i) v) (seq 0 (Z.to_nat N)), (c + 2 * m * Z.to_nat N)%nat).
Proof.
  intros HN Hv. unfold r1FSV_iid. names. rewrite (rbind_lift _ dt) by now apply seg_len.
  rewrite (rbind_lift _ std) by now apply msqrt_ok.
  rewrite (emptyR_ok _ (fun _ => True) (fun _ c => Y c v) (fun _ c => (V c v m, (c + 2 * m)%nat))); [|intros v' c' Hv'|assumption|exact I].
  - assert (Hi : forall i, snd (it (fun (_ : R) c => (V c v m, (c + 2 * m)%nat)) v c i) = (c + 2 * m * i)%nat).
    { induction i as [|i IH]; [unfold it; cbn; lia|]. rewrite it_S. cbn [snd]. rewrite IH. lia. }
    rewrite Hi. do 2 f_equal. apply map_ext. intro i. now rewrite Hi.
  - split; [|exact I]. cbn [fst snd]. exact (row1 (fun y v => rret (y, v)) v c' Hv).
Qed.
End One.

(** ** jumps of the price *)
Lemma add_normals_ok W mu sg n a c : 0 <= sg -> add_normals W mu sg n a c = Ok (a + nsum mu sg (fun l => wnorm W (c + l)) (Z.to_nat n), (c + Z.to_nat n)%nat).
Proof.
  intro Hs. unfold add_normals. rewrite <- (range_len n). generalize (range 0 n) as l. intro l. revert a c.
  induction l as [|z l IH]; intros a c; cbn [foldR length].
  - unfold rret, nsum. cbn [seq sumR]. now rewrite Rplus_0_r, Nat.add_0_r.
  - unfold rbind at 1. unfold rbind at 1. rewrite (normal_ok W mu sg c Hs). cbn [bind rret fst snd]. rewrite IH. unfold nsum.
    cbn [seq sumR]. rewrite <- seq_shift, sumR_map, Nat.add_0_r, Nat.add_succ_r, Rplus_assoc. do 4 f_equal.
    apply sumR_ext. intros j _. cbn [Nat.add]. now rewrite Nat.add_succ_r.
Qed.
Definition npois (W : world) (c : nat) (lam : R) : nat := Z.to_nat (wpois W c lam).
Lemma jump_part_ok W lmbd h mj sj c : 0 <= lmbd * h -> 0 <= sj ->
  jump_part W lmbd h mj sj c = Ok (nsum mj sj (fun l => wnorm W (S c + l)) (npois W c (lmbd * h)), (S c + npois W c (lmbd * h))%nat).
Proof.
  intros Hl Hs. unfold jump_part. unfold rbind at 1. unfold poisson. destruct (Rlt_dec (lmbd * h) 0); [lra|]. cbn [bind fst snd].
  destruct (Z.ltb_spec 0 (wpois W c (lmbd * h))).
  - rewrite add_normals_ok by assumption. now rewrite Rplus_0_l.
  - unfold npois. replace (Z.to_nat _) with 0%nat by lia. rewrite Nat.add_0_r. reflexivity.
Qed.

Section OneJ.
Context (W : world) (mu k th sg rho lmbd mj sj h : R) (n : Z) (par : dict) (Hn : (0 < n)%Z) (Hh : 0 <= h) (Hr : rho ^ 2 <= 1)
  (Hl : 0 <= lmbd) (Hs : 0 <= sj)
  (h1 : par "mu"%string = Some mu) (h2 : par "k"%string = Some k) (h3 : par "theta"%string = Some th)
  (h4 : par "sigma_v"%string = Some sg) (h5 : par "rho"%string = Some rho)
  (h6 : par "lambda"%string = Some lmbd) (h7 : par "mu_j"%string = Some mj) (h8 : par "sigma_j"%string = Some sj).
Let dt := h / IZR n.
Let std := sqrt dt.
Let m := Z.to_nat n.
Let V c v := tpath k th sg dt (dwa W c std) v.
Definition nj c := npois W c (lmbd * h).
Definition Yj c v := eret1 mu rho h dt m (dwa W c std) (dwb W c std) (V c v) + nsum mj sj (fun l => wnorm W (S (c + 2 * m) + l)) (nj (c + 2 * m)).
Definition nxj v c : R * nat := (V c v m, (S (c + 2 * m) + nj (c + 2 * m))%nat).
Lemma r1FSVJ_ok N v c : (0 <= N)%Z -> 0 <= v ->
  r1FSVJ W v par N n h c = Ok (map (fun i => Yj (snd (it nxj v c i)) (fst (it nxj v c i))) (seq 0 (Z.to_nat N)), snd (it nxj v c (Z.to_nat N))).
Proof.
  intros HN Hv. unfold r1FSVJ. names. rewrite (rbind_lift _ dt) by now apply seg_len.
  rewrite (rbind_lift _ std) by (apply msqrt_ok; now apply seg_nonneg).
  apply (emptyR_ok _ (fun v => 0 <= v) (fun v c => Yj c v) nxj); [|assumption|assumption].
  intros v' c' Hv'. split; [|now apply tpath_nonneg].
  assert (s0 : 0 <= std) by apply sqrt_pos.
  rewrite (rbind_ok _ _ _ _ _ (segs1_ok W k th sg dt std s0 (range 0 n) v' 0 0 0 c' Hv')). rewrite range_len. fold m.
  assert (l0 : 0 <= lmbd * h) by now apply Rmult_le_pos.
  rewrite (rbind_ok _ _ _ _ _ (jump_part_ok W lmbd h mj sj (c' + 2 * m) l0 Hs)).
  rewrite (rbind_lift _ (sqrt (1 - rho ^ 2))) by (apply msqrt_ok; lra).
  unfold rret, nxj, Yj, eret1, nj, V. cbn [fst snd]. rewrite !Rplus_0_l, !Rplus_assoc. reflexivity.
Qed.
End OneJ.

(** ** two factors *)
Definition dw3 (W : world) (c : nat) (std : R) (r : nat) (m : nat) : R := std * wnorm W (c + 3 * m + r).
Lemma seg2_ok W k1 t1 s1 k2 t2 s2 dt std v1 v2 a i1 i2 c z : 0 <= v1 -> 0 <= v2 -> 0 <= std ->
  seg2 W k1 t1 s1 k2 t2 s2 dt std (v1, v2, a, i1, i2) z c
  = Ok ((tstep k1 t1 s1 dt (std * wnorm W (S c)) v1, tstep k2 t2 s2 dt (std * wnorm W (S (S c))) v2,
         a + sqrt (v1 + v2) * (std * wnorm W c), i1 + v1 * dt, i2 + v2 * dt), S (S (S c))).
Proof.
  intros H1 H2 Hs. unfold seg2. rewrite (rbind_lift _ (sqrt (v1 + v2))) by (apply msqrt_ok; lra).
  rewrite (rbind_ok _ _ _ _ _ (normal_ok W 0 std c Hs)). rewrite (rbind_lift _ (sqrt v1)) by now apply msqrt_ok.
  rewrite (rbind_ok _ _ _ _ _ (normal_ok W 0 std (S c) Hs)). rewrite (rbind_lift _ (sqrt v2)) by now apply msqrt_ok.
  rewrite (rbind_ok _ _ _ _ _ (normal_ok W 0 std (S (S c)) Hs)). unfold rret. rewrite !clip, !Rplus_0_l. reflexivity.
Qed.
Lemma segs2_ok W k1 t1 s1 k2 t2 s2 dt std : 0 <= std -> forall l v1 v2 a i1 i2 c, 0 <= v1 -> 0 <= v2 ->
  foldR (seg2 W k1 t1 s1 k2 t2 s2 dt std) l (v1, v2, a, i1, i2) c
  = let V1 := tpath k1 t1 s1 dt (dw3 W c std 1) v1 in let V2 := tpath k2 t2 s2 dt (dw3 W c std 2) v2 in
    Ok ((V1 (length l), V2 (length l), a + stoch (dw3 W c std 0) (fun j => V1 j + V2 j) (length l),
         i1 + itgr dt V1 (length l), i2 + itgr dt V2 (length l)), (c + 3 * length l)%nat).
Proof.
  intro Hs. induction l as [|z l IH]; intros v1 v2 a i1 i2 c H1 H2; cbv zeta;
    set (V1 := tpath k1 t1 s1 dt (dw3 W c std 1) v1); set (V2 := tpath k2 t2 s2 dt (dw3 W c std 2) v2); cbn [foldR length].
  - unfold rret, V1, V2. cbn [tpath]. unfold stoch, itgr. cbn [seq sumR]. rewrite !Rplus_0_r, Nat.mul_0_r, Nat.add_0_r. reflexivity.
  - rewrite (rbind_ok _ _ _ _ _ (seg2_ok W k1 t1 s1 k2 t2 s2 dt std v1 v2 a i1 i2 c z H1 H2 Hs)). rewrite IH by apply tstep_nonneg.
    assert (e : forall r j, dw3 W (S (S (S c))) std r j = dw3 W c std r (S j)). { intros r j. unfold dw3. do 2 f_equal. lia. }
    assert (e0 : std * wnorm W c = dw3 W c std 0 0). { unfold dw3. do 2 f_equal. lia. }
    assert (e1 : std * wnorm W (S c) = dw3 W c std 1 0). { unfold dw3. do 2 f_equal. lia. }
    assert (e2 : std * wnorm W (S (S c)) = dw3 W c std 2 0). { unfold dw3. do 2 f_equal. lia. }
    rewrite e0, e1, e2.
    assert (P1 : forall j, tpath k1 t1 s1 dt (dw3 W (S (S (S c))) std 1) (tstep k1 t1 s1 dt (dw3 W c std 1 0) v1) j = V1 (S j)).
    { intro j. unfold V1. rewrite tpath_shift. apply tpath_ext. intros; apply e. }
    assert (P2 : forall j, tpath k2 t2 s2 dt (dw3 W (S (S (S c))) std 2) (tstep k2 t2 s2 dt (dw3 W c std 2 0) v2) j = V2 (S j)).
    { intro j. unfold V2. rewrite tpath_shift. apply tpath_ext. intros; apply e. }
    cbv zeta. rewrite !itgr_S, !stoch_S, P1, P2.
    rewrite (stoch_ext (dw3 W (S (S (S c))) std 0) (fun j => dw3 W c std 0 (S j)) _ (fun j => V1 (S j) + V2 (S j)))
      by (intros; first [apply e|rewrite P1, P2; reflexivity]).
    rewrite (itgr_ext dt (tpath k1 t1 s1 dt _ _) (fun j => V1 (S j))) by (intros; apply P1).
    rewrite (itgr_ext dt (tpath k2 t2 s2 dt _ _) (fun j => V2 (S j))) by (intros; apply P2).
    change (V1 O) with v1. change (V2 O) with v2. rewrite !Rplus_assoc. do 2 f_equal. lia.
Qed.

Section Two.
Context (W : world) (mu k1 t1 s1 k2 t2 s2 h : R) (n : Z) (par : dict) (Hn : (0 < n)%Z) (Hh : 0 <= h)
  (h1 : par "mu"%string = Some mu) (h2 : par "k1"%string = Some k1) (h3 : par "theta1"%string = Some t1) (h4 : par "sigma_v1"%string = Some s1)
  (h5 : par "k2"%string = Some k2) (h6 : par "theta2"%string = Some t2) (h7 : par "sigma_v2"%string = Some s2).
Let dt := h / IZR n.
Let std := sqrt dt.
Let m := Z.to_nat n.
Let V1 c v := tpath k1 t1 s1 dt (dw3 W c std 1) v.
Let V2 c v := tpath k2 t2 s2 dt (dw3 W c std 2) v.
Let Y c v := eret2 mu h dt m (dw3 W c std 0) (V1 c (fst v)) (V2 c (snd v)).
Let pos (v : R * R) := 0 <= fst v /\ 0 <= snd v.
Lemma r2FSV_ok N v c : (0 <= N)%Z -> pos v ->
  r2FSV W v par N n h c = Ok (map (fun i => Y (c + 3 * m * i) (V1 c (fst v) (m * i)%nat, V2 c (snd v) (m * i)%nat)) (seq 0 (Z.to_nat N)), (c + 3 * m * Z.to_nat N)%nat).
Proof.
  intros HN Hv. unfold r2FSV. names. rewrite (rbind_lift _ dt) by now apply seg_len.
  rewrite (rbind_lift _ std) by (apply msqrt_ok; now apply seg_nonneg).
  rewrite (emptyR_ok _ pos (fun v c => Y c v) (fun v c => ((V1 c (fst v) m, V2 c (snd v) m), (c + 3 * m)%nat))); [|intros v' c' [H1 H2]|assumption|assumption].
  - assert (Hi : forall i, it (fun v c => ((V1 c (fst v) m, V2 c (snd v) m), (c + 3 * m)%nat)) v c i = ((V1 c (fst v) (m * i)%nat, V2 c (snd v) (m * i)%nat), (c + 3 * m * i)%nat)).
    { induction i as [|i IH]; [unfold it; cbn; rewrite !Nat.mul_0_r, Nat.add_0_r; destruct v; reflexivity|]. rewrite it_S, IH. cbn [fst snd].
      replace (m * S i)%nat with (m * i + m)%nat by lia. unfold V1, V2. rewrite !tpath_add. f_equal; [|lia].
      f_equal; apply tpath_ext; intros j _; unfold dw3; do 2 f_equal; lia. }
    rewrite Hi. cbn [snd]. f_equal. f_equal. apply map_ext. intro i. now rewrite Hi.
  - split; [|split; now apply tpath_nonneg]. cbn [fst snd]. assert (s0 : 0 <= std) by apply sqrt_pos.
    rewrite (rbind_ok _ _ _ _ _ (segs2_ok W k1 t1 s1 k2 t2 s2 dt std s0 (range 0 n) (fst v') (snd v') 0 0 0 c' H1 H2)).
    rewrite range_len. unfold rret, Y, eret2, V1, V2. fold m. cbn [fst snd]. rewrite !Rplus_0_l. reflexivity.
Qed.

Context (lmbd mj sj : R) (Hl : 0 <= lmbd) (Hs : 0 <= sj)
  (h8 : par "lambda"%string = Some lmbd) (h9 : par "mu_j"%string = Some mj) (h10 : par "sigma_j"%string = Some sj).
Definition nj2 c := npois W c (lmbd * h).
Definition Yj2 c (v : R * R) := eret2 mu h dt m (dw3 W c std 0) (V1 c (fst v)) (V2 c (snd v)) + nsum mj sj (fun l => wnorm W (S (c + 3 * m) + l)) (nj2 (c + 3 * m)).
Definition nxj2 (v : R * R) c : R * R * nat := ((V1 c (fst v) m, V2 c (snd v) m), (S (c + 3 * m) + nj2 (c + 3 * m))%nat).
Lemma r2FSVJ_ok N v c : (0 <= N)%Z -> pos v ->
  r2FSVJ W v par N n h c = Ok (map (fun i => Yj2 (snd (it nxj2 v c i)) (fst (it nxj2 v c i))) (seq 0 (Z.to_nat N)), snd (it nxj2 v c (Z.to_nat N))).
Proof.
  intros HN Hv. unfold r2FSVJ. names. rewrite (rbind_lift _ dt) by now apply seg_len.
  rewrite (rbind_lift _ std) by (apply msqrt_ok; now apply seg_nonneg).
  apply (emptyR_ok _ pos (fun v c => Yj2 c v) nxj2); [|assumption|assumption].
  intros v' c' [H1 H2]. split; [|split; now apply tpath_nonneg].
  assert (s0 : 0 <= std) by apply sqrt_pos.
  rewrite (rbind_ok _ _ _ _ _ (segs2_ok W k1 t1 s1 k2 t2 s2 dt std s0 (range 0 n) (fst v') (snd v') 0 0 0 c' H1 H2)).
  cbv zeta. rewrite range_len. fold m.
  assert (l0 : 0 <= lmbd * h) by now apply Rmult_le_pos.
  rewrite (rbind_ok _ _ _ _ _ (jump_part_ok W lmbd h mj sj (c' + 3 * m) l0 Hs)).
  unfold rret, nxj2, Yj2, eret2, nj2, V1, V2. cbn [fst snd]. rewrite !Rplus_0_l. reflexivity.
Qed.
End Two.
