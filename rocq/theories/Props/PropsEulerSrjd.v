(** Property C50: rSRD and rSRJD draw the variance exactly: moments of every order. *)
From Coq Require Import Reals Lra Lia List ZArith.
From Coquelicot Require Import Coquelicot.
From Verif.Spec Require Import SrjdPath Chi2.
From Verif.Proof Require Import ItoCondEx Realise.
From Verif.Props Require Import PropsDecode.
From Verif.Model Require Import Euler.
From Verif.Proof Require Import SumFacts ExpectFacts DecodeProofs EulerProofs EulerSv.
From Verif.Proof Require Import Chi2Mom Umbral SrjdExact EulerSrjd.
Import ListNotations.
Local Open Scope R_scope.

(** ** the law the random generator is asked for: mean d + l, variance 2 (d + 2 l) *)
Theorem C50_ncx2_mean_variance : forall d l, ncmom d l 0 = 1 /\ ncmom d l 1 = d + l /\ ncmom d l 2 - ncmom d l 1 ^ 2 = 2 * (d + 2 * l).
Proof.
  intros d l. rewrite !ncmom_closed. cbn [seq sumR cf pow Nat.sub INR]. repeat split; field.
Qed.

(** ** rows: each has, given the earlier rows, the moments of v_T given v_0 and the jumps *)
Section Rows.
Context {Om : Type} (E : (Om -> R) -> R) (W : Om -> world) (C L : nat) (HD : ncx2_draws E (fun c w => wchi (W w) c) C L).
Context (v0 k th sg T : R) (z : path) (N : Z) (c : nat).
Context (HN : (0 <= N)%Z) (Hk : k <> 0) (Hkt : 0 < k * th) (Hs : sg <> 0) (Hv : 0 <= v0) (HT : 0 < T) (Hz : strictly 0 z)
  (HzT : forall sj, In sj z -> fst sj <= T) (HC : (c + S (length z) * Z.to_nat N <= C)%nat).
Let ys w := map (fun i => xrow k th sg (wchi (W w)) v0 T z (c + xdraws T z * i)) (seq 0 (Z.to_nat N)).
Lemma xdraws_le : (xdraws T z <= S (length z))%nat.
Proof. unfold xdraws. destruct (Rlt_dec _ _); lia. Qed.
Lemma ys_nth w i : (i < Z.to_nat N)%nat -> nth i (ys w) 0 = xrow k th sg (wchi (W w)) v0 T z (c + xdraws T z * i).
Proof.
  intro Hi. unfold ys. set (f := fun i => xrow k th sg (wchi (W w)) v0 T z (c + xdraws T z * i)).
  rewrite (nth_indep _ 0 (f O)) by now rewrite map_length, seq_length. rewrite (map_nth f), seq_nth by assumption. reflexivity.
Qed.
Lemma xdraws_pos : (0 < Z.to_nat N)%nat -> (length z <= xdraws T z)%nat.
Proof. intros _. unfold xdraws. lia. Qed.
Lemma row_exact i n (g : list R -> R) : (i < Z.to_nat N)%nat -> (n <= L)%nat ->
  E (fun w => g (firstn i (ys w)) * nth i (ys w) 0 ^ n)
  = E (fun w => g (firstn i (ys w))) * (exp (- (k * T)) ^ n * emom k th sg 0 (fun j => v0 ^ j) z T n).
Proof.
  intros Hi Hn. pose proof (nc_E _ _ _ _ HD) as HE. pose proof xdraws_le as Hx.
  assert (Hc : (c + xdraws T z * i + length z < C)%nat).
  { assert (xdraws T z * i <= S (length z) * i)%nat by (apply Nat.mul_le_mono_r; exact Hx).
    assert (S (length z) * S i <= S (length z) * Z.to_nat N)%nat by (apply Nat.mul_le_mono_l; lia). nia. }
  assert (Kg : known (fun c w => wchi (W w) c) (c + xdraws T z * i) (fun w => g (firstn i (ys w)))).
  { intros w w' H. f_equal. unfold ys. rewrite !firstn_map. apply map_ext_in. intros j Hj.
    assert (Hji : (j < i)%nat).
    { rewrite firstn_seq in Hj || idtac. clear - Hj Hi. replace (Z.to_nat N) with (i + (Z.to_nat N - i))%nat in Hj by lia.
      rewrite seq_app, firstn_app, seq_length, Nat.sub_diag, firstn_O, app_nil_r, firstn_all2 in Hj by (rewrite seq_length; lia).
      apply in_seq in Hj. lia. }
    apply (known_row k th sg (fun c w => wchi (W w) c) v0 T z (c + xdraws T z * j)). intros a d l Ha. apply H. nia. }
  pose proof (row_moment k th sg Hk Hkt Hs E _ C L HD v0 T z (c + xdraws T z * i) _ n Hc Hn Hz HzT ltac:(lra) Hv Kg) as M. cbv beta in M.
  transitivity (exp (- (k * T)) ^ n * (E (fun w => g (firstn i (ys w))) * emom k th sg 0 (fun j => v0 ^ j) z T n)); [|ring].
  rewrite <- M, <- (E_scal E HE). apply (E_ext E HE). intro w. rewrite ys_nth by assumption.
  change (fun c => wchi (W w) c) with (wchi (W w)). rewrite Rpow_mult_distr. transitivity ((exp (- (k * T)) * exp (k * T)) ^ n * (g (firstn i (ys w)) * xrow k th sg (wchi (W w)) v0 T z (c + xdraws T z * i) ^ n)).
  - rewrite <- exp_plus, Rplus_opp_l, exp_0, pow1. ring.
  - rewrite Rpow_mult_distr. ring.
Qed.
End Rows.
Lemma model_exact k v0 th sg T (z : path) M Om (E : (Om -> R) -> R) (IE : Om -> R) n : k <> 0 -> sg <> 0 -> 0 <= T -> strictly 0 z ->
  (forall sj, In sj z -> fst sj <= T) -> cond_moments (mkZpar k v0 th sg) z M -> expectation E ->
  (forall j, (j <= n)%nat -> E (fun w => IE w ^ j) = M (Z.of_nat j, 0, 0)%Z T) ->
  E (fun w => v_path (mkZpar k v0 th sg) z T (IE w) ^ n) = exp (- (k * T)) ^ n * emom k th sg 0 (fun j => v0 ^ j) z T n.
Proof.
  intros Hk Hs HT Hz HzT HM HE HI. rewrite <- (bm_final k v0 th sg Hk Hs z M HM T n Hz HzT HT). unfold bm.
  transitivity (exp (- (k * T)) ^ n * E (fun w => 1 * (wz k v0 th (IEZ_path k z T) T + sg * IE w) ^ n)).
  - rewrite <- (E_scal E HE). apply (E_ext E HE). intro w. rewrite Rmult_1_l, <- Rpow_mult_distr. f_equal.
    unfold v_path, v_given, wz. cbn [zpk zpv zpth zpsg]. rewrite exp_Ropp. pose proof (exp_pos (k * T)). field. lra.
  - f_equal. rewrite (bt_E E HE). apply bt_ext. intros j Hj. unfold mm. rewrite <- HI by assumption.
    rewrite <- (E_scal E HE). apply (E_ext E HE). intro w. rewrite Rpow_mult_distr. ring.
Qed.

Theorem C50_moments : forall Om (E : (Om -> R) -> R) (W : Om -> world) C L v0 k th sg T (z : path) N c,
  ncx2_draws E (fun c w => wchi (W w) c) C L -> (0 <= N)%Z -> k <> 0 -> 0 < k * th -> sg <> 0 -> 0 <= v0 -> 0 < T ->
  strictly 0 z -> (forall sj, In sj z -> fst sj <= T) -> (c + S (length z) * Z.to_nat N <= C)%nat ->
  exists (ys : Om -> list R) c', (forall w, rSRJD (W w) v0 k th sg T (map snd z) (map fst z) N c = Ok (ys w, c') /\ length (ys w) = Z.to_nat N) /\
    forall i n (g : list R -> R), (i < Z.to_nat N)%nat -> (n <= L)%nat ->
    forall M Om' (E' : (Om' -> R) -> R) (IE : Om' -> R), cond_moments (mkZpar k v0 th sg) z M -> expectation E' ->
      (forall j, (j <= n)%nat -> E' (fun w => IE w ^ j) = M (Z.of_nat j, 0, 0)%Z T) ->
      E (fun w => g (firstn i (ys w)) * nth i (ys w) 0 ^ n)
      = E (fun w => g (firstn i (ys w))) * E' (fun w => v_path (mkZpar k v0 th sg) z T (IE w) ^ n).
Proof.
  intros Om E W C L v0 k th sg T z N c HD HN Hk Hkt Hs Hv HT Hz HzT HC.
  exists (fun w => map (fun i => xrow k th sg (wchi (W w)) v0 T z (c + xdraws T z * i)) (seq 0 (Z.to_nat N))), (c + xdraws T z * Z.to_nat N)%nat. split.
  - intro w. split; [|now rewrite map_length, seq_length]. apply rSRJD_ok; try assumption. intros. apply (nc_pos _ _ _ _ HD).
  - intros i n g Hi Hn M Om' E' IE HM HE' HI.
    rewrite (row_exact E W C L HD v0 k th sg T z N c Hk Hkt Hs Hv HT Hz HzT HC i n g Hi Hn).
    f_equal. symmetry. apply (model_exact k v0 th sg T z M); try assumption. lra.
Qed.

(** ** hence what moment_v and cmoment_v of cond2_mom compute are the moments of every row *)
Lemma pw_nat x n : pw x (Z.of_nat n) = x ^ n.
Proof. rewrite pow_powerRZ. reflexivity. Qed.
Lemma strictly_jumps_ok z : strictly 0 z -> jumps_ok z.
Proof. intros Hz sj Hin. exact (strictly_gt 0 z Hz sj Hin). Qed.
Theorem C50_code : forall Om (E : (Om -> R) -> R) (W : Om -> world) C L v0 k th sg T (z : path) N c,
  ncx2_draws E (fun c w => wchi (W w) c) C L -> (0 <= N)%Z -> k <> 0 -> 0 < k * th -> sg <> 0 -> 0 <= v0 -> 0 < T ->
  strictly 0 z -> (forall sj, In sj z -> fst sj <= T) -> (c + S (length z) * Z.to_nat N <= C)%nat ->
  exists (ys : Om -> list R) c', (forall w, rSRJD (W w) v0 k th sg T (map snd z) (map fst z) N c = Ok (ys w, c')) /\
    forall i n, (i < Z.to_nat N)%nat -> (1 <= n <= L)%nat -> let y w := nth i (ys w) 0 in
      srjd_m2 (Z.of_nat n) v0 k th sg T (map fst z) (map snd z) = Ok (E (fun w => y w ^ n)) /\
      srjd_cm2 (Z.of_nat n) v0 k th sg T (map fst z) (map snd z) = Ok (E (fun w => (y w - E y) ^ n)).
Proof.
  intros Om E W C L v0 k th sg T z N c HD HN Hk Hkt Hs Hv HT Hz HzT HC.
  destruct (C50_moments Om E W C L v0 k th sg T z N c HD HN Hk Hkt Hs Hv HT Hz HzT HC) as (ys & c' & R1 & R2).
  exists ys, c'. split; [intro w; apply R1|]. intros i n Hi Hn y.
  pose proof (nc_E _ _ _ _ HD) as HE.
  destruct (cond_exists (mkZpar k v0 th sg) z (strictly_jumps_ok z Hz)) as [M HM].
  set (E' := Efin (realise1 n (fun j => M (Z.of_nat j, 0, 0)%Z T))).
  assert (HE' : expectation E') by apply Efin_expectation.
  assert (HI : forall j, (j <= n)%nat -> E' (fun w => w ^ j) = M (Z.of_nat j, 0, 0)%Z T) by (intros j Hj; now apply realise1_spec).
  set (v := fun x => v_path (mkZpar k v0 th sg) z T x).
  assert (Em : forall j, (j <= n)%nat -> E (fun w => y w ^ j) = E' (fun x => v x ^ j)).
  { intros j Hj. pose proof (R2 i j (fun _ => 1) Hi ltac:(lia) M R E' (fun x => x) HM HE' (fun l Hl => HI l ltac:(lia))) as e.
    cbv beta in e. rewrite (nc_1 _ _ _ _ HD), Rmult_1_l in e. unfold v. rewrite <- e. apply (E_ext E HE). intro w. unfold y. ring. }
  assert (E1 : E y = E' v).
  { transitivity (E (fun w => y w ^ 1)); [apply (E_ext E HE); intro; ring|]. rewrite Em by lia. apply (E_ext E' HE'). intro. ring. }
  assert (Ec : E (fun w => (y w - E y) ^ n) = E' (fun x => (v x - E' v) ^ n)).
  { rewrite E1. transitivity (E (fun w => 1 * (- E' v + y w) ^ n)); [apply (E_ext E HE); intro; rewrite Rmult_1_l; f_equal; ring|].
    transitivity (E' (fun x => 1 * (- E' v + v x) ^ n)); [|apply (E_ext E' HE'); intro; rewrite Rmult_1_l; f_equal; ring].
    rewrite (bt_E E HE), (bt_E E' HE'). apply bt_ext. intros j Hj.
    transitivity (E (fun w => y w ^ j)); [apply (E_ext E HE); intro; ring|]. rewrite Em by assumption. apply (E_ext E' HE'). intro. ring. }
  destruct (C47_srjd_cond2 (Z.of_nat n) (mkZpar k v0 th sg) z M T R E' (fun x => x) ltac:(lia) Hk (strictly_jumps_ok z Hz) HzT HM ltac:(lra) HE') as [A B].
  { intros j Hj. transitivity (E' (fun x => x ^ Z.to_nat j)).
    - apply (E_ext E' HE'). intro x. rewrite <- (pw_nat x (Z.to_nat j)). f_equal. lia.
    - rewrite HI by lia. f_equal. f_equal. f_equal. lia. }
  cbn [zpk zpv zpth zpsg] in A, B. rewrite A, B, Ec, (Em n) by lia. split; f_equal; apply (E_ext E' HE'); intro x; apply pw_nat.
Qed.

(** ** errors *)
Theorem C50_errors : forall W v0 tau k th sg c,
  (sg = 0 -> rSRD W v0 tau k th sg c = Err ZeroDivisionError) /\
  (sg <> 0 -> k = 0 -> rSRD W v0 tau k th sg c = Err ZeroDivisionError) /\
  (sg <> 0 -> k <> 0 -> tau = 0 -> rSRD W v0 tau k th sg c = Err ZeroDivisionError) /\
  (sg <> 0 -> k <> 0 -> 0 < tau -> k * th <= 0 -> rSRD W v0 tau k th sg c = Err ValueError) /\
  (sg <> 0 -> k <> 0 -> 0 < tau -> v0 < 0 -> rSRD W v0 tau k th sg c = Err ValueError) /\
  (forall T js ss N, (N < 0)%Z -> rSRJD W v0 k th sg T js ss N c = Err ValueError).
Proof.
  intros W v0 tau k th sg c.
  assert (D0 : forall x y, y = 0 -> pydiv x y = Err ZeroDivisionError).
  { intros x y ->. unfold pydiv. destruct (Req_EM_T 0 0); [reflexivity|lra]. }
  assert (Sg : sg <> 0 -> sg ^ 2 <> 0) by (intro; now apply pow_nonzero).
  repeat split.
  - intros ->. unfold rSRD. unfold rbind at 1, rlift. rewrite D0 by ring. reflexivity.
  - intros Hs ->. unfold rSRD. rewrite (rbind_lift _ _ _ _ (pydiv_ok _ _ (Sg Hs))). unfold rbind at 1, rlift. rewrite D0 by ring. reflexivity.
  - intros Hs Hk ->. unfold rSRD. rewrite (rbind_lift _ _ _ _ (pydiv_ok _ _ (Sg Hs))). rewrite (rbind_lift _ 0).
    + unfold rbind at 1, rlift. rewrite D0 by ring. reflexivity.
    + rewrite pydiv_ok by lra. f_equal. rewrite Rmult_0_r, exp_0. field. exact Hk.
  - intros Hs Hk Ht Hkt. unfold rSRD. rewrite (rbind_lift _ _ _ _ (pydiv_ok _ _ (Sg Hs))). pose proof (sg2_pos sg Hs).
    pose proof (cz_pos k sg Hk Hs tau Ht) as Hc. rewrite (rbind_lift _ (cz k sg tau)) by (apply pydiv_ok; lra).
    rewrite (rbind_lift _ _ _ _ (pydiv_ok _ _ (Rgt_not_eq _ _ Hc))). unfold rbind at 1, ncx2.
    destruct (Rle_dec (4 * th * k / sg ^ 2) 0) as [h|h]; [reflexivity|]. exfalso. apply h.
    replace (4 * th * k / sg ^ 2) with (- (4 * - (k * th) * / sg ^ 2)) by (field; lra).
    assert (0 <= 4 * - (k * th) * / sg ^ 2) by (apply Rmult_le_pos; [lra|left; now apply Rinv_0_lt_compat]). lra.
  - intros Hs Hk Ht Hv. unfold rSRD. rewrite (rbind_lift _ _ _ _ (pydiv_ok _ _ (Sg Hs))).
    pose proof (cz_pos k sg Hk Hs tau Ht) as Hc. rewrite (rbind_lift _ (cz k sg tau)) by (apply pydiv_ok; lra).
    rewrite (rbind_lift _ _ _ _ (pydiv_ok _ _ (Rgt_not_eq _ _ Hc))). unfold rbind at 1, ncx2.
    destruct (Rle_dec (4 * th * k / sg ^ 2) 0) as [h|h]; [reflexivity|].
    destruct (Rlt_dec (v0 * exp (- k * tau) / cz k sg tau) 0) as [h'|h']; [reflexivity|]. exfalso. apply h'.
    replace (v0 * exp (- k * tau) / cz k sg tau) with (- (- v0 * exp (- k * tau) / cz k sg tau)) by (field; lra).
    assert (0 < - v0 * exp (- k * tau) / cz k sg tau) by (apply Rdiv_lt_0_compat; [apply Rmult_lt_0_compat; [lra|apply exp_pos]|exact Hc]). lra.
  - intros T js ss N HN. unfold rSRJD. replace (N <? 0)%Z with true by (symmetry; now apply Z.ltb_lt). reflexivity.
Qed.
(** two jumps at the same time, or a jump at time 0 *)
Lemma coincide W k th sg (HX : forall c d l, 0 <= wchi W c d l) J r : k <> 0 -> 0 < k * th -> sg <> 0 -> forall zs t, exists l,
  diffs (length (zs ++ (last (map fst zs) t, J) :: r)) t (map fst (zs ++ (last (map fst zs) t, J) :: r)) = Ok l /\
  forall v c, strictly t zs -> 0 <= v ->
    foldR (fun v0 p => let@ x := rSRD W v0 (fst p) k th sg in rret (x + snd p)) (combine l (map snd (zs ++ (last (map fst zs) t, J) :: r))) v c = Err ZeroDivisionError.
Proof.
  intros Hk Hkt Hs. induction zs as [|[s J1] zs IH]; intro t.
  - cbn [app map last fst length]. destruct (diffs_ok k th sg Hk Hkt Hs r t) as (l & e & _). exists (t - t :: l). split; [cbn [diffs]; now rewrite e|].
    intros v c _ _. cbn [map snd combine foldR fst]. unfold rbind at 1.
    unfold rbind at 1. rewrite (proj1 (proj2 (proj2 (C50_errors W v (t - t) k th sg c))) Hs Hk ltac:(ring)). reflexivity.
  - cbn [app map fst length]. replace (last (s :: map fst zs) t) with (last (map fst zs) s).
    2: { destruct zs as [|a zs]; [reflexivity|]. cbn [map]. clear.
         assert (e : forall (l : list R) x d d', last (x :: l) d = last (x :: l) d').
         { induction l as [|y l IHl]; intros x d d'; [reflexivity|]. exact (IHl y d d'). }
         change (last (s :: fst a :: map fst zs) t) with (last (fst a :: map fst zs) t). apply e. }
    destruct (IH s) as (l & e & H). exists (s - t :: l). split; [cbn [diffs]; now rewrite e|].
    intros v c Hz Hv. cbn [map snd combine foldR fst]. cbn [strictly fst snd] in Hz. destruct Hz as (h1 & h2 & h3).
    pose proof (rSRD_ok k th sg Hk Hkt Hs W v (s - t) c Hv ltac:(lra)) as e1.
    rewrite (rbind_ok _ _ c (xstep k th sg (wchi W) c (s - t) v + J1) (S c)) by (rewrite (rbind_ok _ _ _ _ _ e1); reflexivity).
    apply H; [exact h3|]. pose proof (xstep_pos k th sg Hk Hs (wchi W) c (s - t) v HX ltac:(lra)). lra.
Qed.
Theorem C50_coincident : forall W v0 k th sg T (z r : path) J N c, (forall c d l, 0 <= wchi W c d l) -> (0 < N)%Z -> k <> 0 -> 0 < k * th -> sg <> 0 -> 0 <= v0 ->
  strictly 0 z -> let z' := z ++ (last (map fst z) 0, J) :: r in
  rSRJD W v0 k th sg T (map snd z') (map fst z') N c = Err ZeroDivisionError.
Proof.
  intros W v0 k th sg T z r J N c HX HN Hk Hkt Hs Hv Hz z'. unfold rSRJD. replace (N <? 0)%Z with false by (symmetry; apply Z.ltb_ge; lia).
  destruct (coincide W k th sg HX J r Hk Hkt Hs z 0) as (l & e & H). fold z' in e, H.
  rewrite <- (map_length snd z') in e. clearbody z'. destruct (map snd z') as [|a b]; [exfalso; cbn in e; injection e as <-; specialize (H v0 c Hz Hv); discriminate H|].
  rewrite (rbind_lift _ l _ c e).
  destruct (Z.to_nat N) as [|m] eqn:Em; [lia|]. cbn [rowsR]. unfold rbind at 1. unfold rbind at 1. rewrite (H v0 c Hz Hv). reflexivity.
Qed.
(** ** such draws exist *)
Lemma fdiff_nonneg n : forall a x, In (a, x) (fdiff n) -> 0 <= x.
Proof.
  induction n as [|n IH]; intros a x Hin; cbn [fdiff] in Hin.
  - destruct Hin as [[= _ <-]|[]]. lra.
  - unfold scale in Hin at 1. apply in_map_iff in Hin. destruct Hin as ([b y] & [= _ <-] & Hin). cbn [snd]. apply in_app_iff in Hin. destruct Hin as [Hin|Hin].
    + unfold shift in Hin. apply in_map_iff in Hin. destruct Hin as ([b' y'] & [= _ <-] & Hin). cbn [snd]. pose proof (IH _ _ Hin). lra.
    + unfold scale in Hin. apply in_map_iff in Hin. destruct Hin as ([b' y'] & [= _ <-] & Hin). cbn [snd]. exact (IH _ _ Hin).
Qed.
Lemma dual_nonneg n i : forall a x, In (a, x) (dual n i) -> 0 <= x.
Proof.
  induction n as [|n IH]; intros a x Hin; cbn [dual] in Hin.
  - destruct (Nat.eqb i 0); [exact (fdiff_nonneg _ _ _ Hin)|destruct Hin].
  - destruct (Nat.eqb i (S n)); [exact (fdiff_nonneg _ _ _ Hin)|]. apply in_app_iff in Hin. destruct Hin as [Hin|Hin]; [exact (IH _ _ Hin)|].
    unfold scale in Hin. apply in_map_iff in Hin. destruct Hin as ([b y] & [= _ <-] & Hin). exact (fdiff_nonneg _ _ _ Hin).
Qed.
Lemma cf_nonneg x n : 0 <= x -> forall j, 0 <= cf x n j.
Proof.
  intro Hx. induction n as [|n IH]; intro j; cbn [cf]; [destruct j; lra|].
  assert (0 <= (x + INR n + INR j) * cf x n j) by (apply Rmult_le_pos; [pose proof (pos_INR n); pose proof (pos_INR j); lra|apply IH]).
  destruct j as [|j]; [lra|]. pose proof (IH j). lra.
Qed.
Lemma ncmom_nonneg d l n : 0 < d -> 0 <= l -> 0 <= ncmom d l n.
Proof.
  intros Hd Hl. rewrite ncmom_closed. generalize (seq 0 (S n)) as s. induction s as [|j s IH]; cbn [sumR]; [lra|].
  assert (0 <= cf (d / 2) n j * l ^ j * 2 ^ (n - j)); [|lra].
  apply Rmult_le_pos; [apply Rmult_le_pos; [apply cf_nonneg; lra|now apply pow_le]|apply pow_le; lra].
Qed.
(** n-th root of the n-th moment *)
Definition rootm (d l : R) (n : nat) : R := if Rlt_dec 0 (ncmom d l n) then Rpower (ncmom d l n) (/ INR n) else 0.
Lemma rootm_nonneg d l n : 0 <= rootm d l n.
Proof. unfold rootm. destruct (Rlt_dec _ _); [left; apply exp_pos|lra]. Qed.
Lemma rootm_pow d l n : 0 < d -> 0 <= l -> rootm d l n ^ n = ncmom d l n.
Proof.
  intros Hd Hl. pose proof (ncmom_nonneg d l n Hd Hl) as Hp. unfold rootm. destruct n as [|n].
  - destruct (C50_ncx2_mean_variance d l) as [-> _]. reflexivity.
  - destruct (Rlt_dec 0 (ncmom d l (S n))) as [h|h].
    + rewrite <- Rpower_pow by apply exp_pos. rewrite Rpower_mult, Rinv_l, Rpower_1 by (try apply not_0_INR; lia || exact h). reflexivity.
    + rewrite pow_i by lia. lra.
Qed.
(** the points (n, x) with weights; the value drawn at (n, x) is x times the root *)
Definition chipts (L : nat) : list (R * (nat * R)) := flat_map (fun n => map (fun p => (fst p, (n, Rabs (snd p)))) (dual L n)) (seq 0 (S L)).
Definition chival (p : nat * R) (d l : R) : R := Rabs (snd p) * rootm d l (fst p).
Lemma chipts_mom L d l n : (n <= L)%nat -> 0 < d -> 0 <= l -> Efin (chipts L) (fun p => chival p d l ^ n) = ncmom d l n.
Proof.
  intros Hn Hd Hl. unfold chipts. rewrite Efin_flat_map.
  rewrite (sumR_ext _ (fun a => (if Nat.eqb a n then 1 else 0) * rootm d l a ^ n)).
  - rewrite sum_delta_seq by lia. now apply rootm_pow.
  - intros a Ha. apply in_seq in Ha. rewrite <- (dual_spec L a n) by lia. unfold Efin. rewrite sumR_map, <- sumR_scal_r. apply sumR_ext.
    intros [b x] Hin. cbn [fst snd]. unfold chival. cbn [fst snd]. rewrite Rabs_Rabsolu, (Rabs_pos_eq x) by exact (dual_nonneg _ _ _ _ Hin).
    rewrite Rpow_mult_distr. ring.
Qed.
Definition updp (w : nat -> nat * R) (c : nat) (p : nat * R) (i : nat) : nat * R := if Nat.eqb i c then p else w i.
Fixpoint Echi (L C : nat) (F : (nat -> nat * R) -> R) : R :=
  match C with
  | O => F (fun _ => (O, 0))
  | S C => Efin (chipts L) (fun p => Echi L C (fun w => F (updp w C p)))
  end.
Definition chiworld (w : nat -> nat * R) : world := mkWorld (fun _ => 0) (fun _ _ => 0%Z) (fun c d l => chival (w c) d l).
Lemma Echi_E L C : expectation (Echi L C).
Proof.
  induction C as [|C IH]; split; intros; cbn [Echi].
  - apply H. - reflexivity. - reflexivity.
  - apply (E_ext _ (Efin_expectation _)). intro p. apply (E_ext _ IH). intro w. apply H.
  - rewrite <- (E_plus _ (Efin_expectation _)). apply (E_ext _ (Efin_expectation _)). intro p. apply (E_plus _ IH).
  - rewrite <- (E_scal _ (Efin_expectation _)). apply (E_ext _ (Efin_expectation _)). intro p. apply (E_scal _ IH).
Qed.
Lemma chipts_1 L a : Efin (chipts L) (fun _ => a) = a.
Proof.
  pose proof (chipts_mom L 1 0 0 ltac:(lia) ltac:(lra) ltac:(lra)) as e. destruct (C50_ncx2_mean_variance 1 0) as [e0 _]. rewrite e0 in e. cbn [pow] in e.
  transitivity (Efin (chipts L) (fun _ => a * 1)); [apply (E_ext _ (Efin_expectation _)); intro; ring|]. rewrite (E_scal _ (Efin_expectation _)), e. ring.
Qed.
Example C50_draws : forall L C, ncx2_draws (Echi L C) (fun c w => wchi (chiworld w) c) C L.
Proof.
  intros L C. split.
  - apply Echi_E.
  - induction C as [|C IH]; [reflexivity|]. cbn [Echi]. rewrite IH. apply chipts_1.
  - intros c w d l. cbn [chiworld wchi]. unfold chival. apply Rmult_le_pos; [apply Rabs_pos|apply rootm_nonneg].
  - cbn [chiworld wchi]. induction C as [|C IH]; intros c n d l f Hc Hn Hd Hl Kl Kf; [lia|]. cbn [Echi]. destruct (Nat.eq_dec c C) as [->|Hne].
    + assert (ef : forall p w, f (updp w C p) = f w).
      { intros p w. apply Kf. intros i d' l' Hi. unfold updp. destruct (Nat.eqb_spec i C); [lia|reflexivity]. }
      assert (el : forall p w, l (updp w C p) = l w).
      { intros p w. apply Kl. intros i d' l' Hi. unfold updp. destruct (Nat.eqb_spec i C); [lia|reflexivity]. }
      transitivity (Echi L C (fun w => f w * ncmom d (l w) n)).
      * transitivity (Efin (chipts L) (fun p => Echi L C (fun w => f w * chival p d (l w) ^ n))).
        { apply (E_ext _ (Efin_expectation _)). intro p. apply (E_ext _ (Echi_E L C)). intro w. rewrite ef, el. unfold updp. now rewrite Nat.eqb_refl. }
        transitivity (Echi L C (fun w => sumR (fun q => fst q * (f w * chival (snd q) d (l w) ^ n)) (chipts L))).
        { rewrite (E_sumR _ (Echi_E L C) (fun q w => fst q * (f w * chival (snd q) d (l w) ^ n))). unfold Efin. apply sumR_ext. intros q _.
          now rewrite (E_scal _ (Echi_E L C)). }
        apply (E_ext _ (Echi_E L C)). intro w. rewrite <- (chipts_mom L d (l w) n Hn Hd (Hl w)). unfold Efin. rewrite <- sumR_scal. apply sumR_ext. intros. ring.
      * symmetry. rewrite <- (chipts_1 L (Echi L C (fun w => f w * ncmom d (l w) n))). apply (E_ext _ (Efin_expectation _)). intro p. apply (E_ext _ (Echi_E L C)). intro w. now rewrite ef, el.
    + apply (E_ext _ (Efin_expectation _)). intro p.
      assert (ku : forall h, known (fun c w => chival (w c)) c h -> known (fun c w => chival (w c)) c (fun w => h (updp w C p))).
      { intros h Kh w w' H. apply Kh. intros i d' l' Hi. unfold updp. destruct (Nat.eqb_spec i C); [reflexivity|now apply H]. }
      transitivity (Echi L C (fun w => f (updp w C p) * chival (w c) d (l (updp w C p)) ^ n)).
      { apply (E_ext _ (Echi_E L C)). intro w. unfold updp at 2. destruct (Nat.eqb_spec c C); [lia|reflexivity]. }
      apply (IH c n d (fun w => l (updp w C p)) (fun w => f (updp w C p))); try assumption; try lia; [intro; apply Hl| |]; apply ku; assumption.
Qed.
(** two rows with a jump of size 1/2 at time 1/2: mean and third moment of the second row *)
Example C50_example : exists (ys : (nat -> nat * R) -> list R) c',
  (forall w, rSRJD (chiworld w) 1 2 3 1 1 [1/2] [1/2] 2 O = Ok (ys w, c')) /\
  srjd_m2 1 1 2 3 1 1 [1/2] [1/2] = Ok (Echi 3 4 (fun w => nth 1 (ys w) 0 ^ 1)) /\
  srjd_cm2 3 1 2 3 1 1 [1/2] [1/2] = Ok (Echi 3 4 (fun w => (nth 1 (ys w) 0 - Echi 3 4 (fun w => nth 1 (ys w) 0)) ^ 3)).
Proof.
  destruct (C50_code _ _ chiworld 4 3 1 2 3 1 1 [(1/2, 1/2)] 2 O (C50_draws 3 4)) as (ys & c' & R1 & R2); try lra; try lia.
  - cbn. lra.
  - intros sj [<-|[]]. cbn. lra.
  - cbn. lia.
  - exists ys, c'. split; [exact R1|].
    destruct (R2 1%nat 1%nat) as [A _]; [cbn; lia|lia|]. destruct (R2 1%nat 3%nat) as [_ B]; [cbn; lia|lia|].
    change (Z.of_nat 1) with 1%Z in A. change (Z.of_nat 3) with 3%Z in B. split; [exact A|exact B].
Qed.
