(** rIEII of mdl_svvj/euler.py is an Euler scheme on a grid that contains the jump times. *)
From Coq Require Import Reals Lra.
From Verif.Spec Require Import Euler.
From Verif.Model Require Import Euler.
From Verif.Proof Require Import DecodeProofs SumFacts EulerProofs EulerMart.
Local Open Scope R_scope.

Fixpoint taken (t : R) (z : list (R * R)) : list (R * R) :=
  match z with [] => [] | sj :: r => if Rle_dec (fst sj) t then sj :: taken t r else [] end.
Fixpoint rest (t : R) (z : list (R * R)) : list (R * R) :=
  match z with [] => [] | sj :: r => if Rle_dec (fst sj) t then rest t r else z end.
Definition jst (z : list (R * R)) : list estep := map (fun sj => (fst sj, Some (snd sj))) z.
Definition tend (t0 : R) (z : list (R * R)) : R := last (map fst z) t0.

Lemma last_cons {A} (x d : A) l : last (x :: l) d = last l x.
Proof. revert x d. induction l as [|y l IH]; intros x d; [reflexivity|]. change (last (x :: y :: l) d) with (last (y :: l) d). now rewrite !IH. Qed.
Lemma last_app' {A} (d : A) l l' : last (l ++ l') d = last l' (last l d).
Proof. revert d. induction l as [|x l IH]; intro d; [reflexivity|]. cbn [app]. now rewrite !last_cons, IH. Qed.
Lemma tend_cons t0 sj z : tend t0 (sj :: z) = tend (fst sj) z.
Proof. unfold tend. cbn [map]. apply last_cons. Qed.
Lemma ordered_weaken t t' z : t' <= t -> ordered t z -> ordered t' z.
Proof. destruct z as [|sj z]; [easy|]. cbn [ordered]. intros H (a & b & c). repeat split; try assumption. lra. Qed.
Lemma upto_ordered t z t0 : ordered t0 z -> t < t0 -> filter (fun sj : R * R => if Rle_dec (fst sj) t then true else false) z = [].
Proof.
  revert t0. induction z as [|sj z IH]; intros t0 H Ht; [reflexivity|]. cbn [ordered filter] in *. destruct H as (a & b & c).
  destruct (Rle_dec (fst sj) t); [lra|]. apply (IH (fst sj)); [assumption|lra].
Qed.
Lemma taken_upto t z t0 : ordered t0 z -> taken t z = filter (fun sj => if Rle_dec (fst sj) t then true else false) z.
Proof.
  revert t0. induction z as [|sj z IH]; intros t0 H; [reflexivity|]. cbn [ordered taken filter] in *. destruct H as (a & b & c).
  destruct (Rle_dec (fst sj) t); [f_equal; now apply (IH (fst sj))|]. symmetry. apply (upto_ordered _ _ (fst sj)); [assumption|lra].
Qed.
Lemma rest_ordered t z t0 : ordered t0 z -> ordered t (rest t z).
Proof.
  revert t0. induction z as [|sj z IH]; intros t0 H; [exact I|]. cbn [ordered rest] in *. destruct H as (a & b & c).
  destruct (Rle_dec (fst sj) t); [now apply (IH (fst sj))|]. cbn [ordered]. repeat split; try assumption. lra.
Qed.
Lemma taken_le t z t0 : ordered t0 z -> t0 <= t -> t0 <= tend t0 (taken t z) <= t.
Proof.
  revert t0. induction z as [|sj z IH]; intros t0 H Ht; [unfold tend; cbn; lra|]. cbn [ordered taken] in *. destruct H as (a & b & c).
  destruct (Rle_dec (fst sj) t); [|unfold tend; cbn; lra]. rewrite tend_cons. specialize (IH (fst sj) c r). lra.
Qed.
Lemma taken_taken t t' z : t <= t' -> taken t' z = taken t z ++ taken t' (rest t z).
Proof.
  intro H. induction z as [|sj z IH]; [reflexivity|]. cbn [taken rest]. destruct (Rle_dec (fst sj) t).
  - destruct (Rle_dec (fst sj) t'); [|lra]. cbn [app]. now rewrite IH.
  - cbn [app taken]. reflexivity.
Qed.

Section Grid.
Context (W : world) (k th sg : R).
Notation run := (grun k th sg (wnorm W)).
Lemma grun_app l1 : forall l2 c t v a b d, run c t v a b d (l1 ++ l2)
  = let '(v', a', b', d') := run c t v a b d l1 in run (c + 2 * length l1)%nat (last (map fst l1) t) v' a' b' d' l2.
Proof.
  induction l1 as [|s l1 IH]; intros l2 c t v a b d; [cbn; now rewrite Nat.add_0_r|]. cbn [app grun]. rewrite IH. cbn [length map]. rewrite last_cons.
  destruct (run _ _ _ _ _ _ l1) as [[[v' a'] b'] d']. f_equal. lia.
Qed.
Lemma grun_nonneg l : forall c t v a b d, 0 <= v -> Forall (fun s => 0 <= jump_of s) l -> let '(v', _, _, _) := run c t v a b d l in 0 <= v'.
Proof.
  induction l as [|s l IH]; intros c t v a b d Hv Hl; [exact Hv|]. cbn [grun]. inversion Hl; subst. apply IH; [|assumption].
  apply Rplus_le_le_0_compat; [apply tstep_nonneg|assumption].
Qed.
Lemma inc_ok c t0 dt v a b d : 0 <= dt -> 0 <= v ->
  incIEII W t0 dt k th sg (v, a, b, d) c
  = Ok ((tstep k th sg dt (sqrt dt * wnorm W c) v, a + exp (k * t0) * (sqrt v * (sqrt dt * wnorm W c)), b + sqrt v * (sqrt dt * wnorm W c),
         d + sqrt v * (sqrt dt * wnorm W (S c))), S (S c)).
Proof.
  intros Hd Hv. unfold incIEII. rewrite (rbind_lift _ (sqrt dt)) by now apply msqrt_ok.
  rewrite (rbind_ok _ _ _ _ _ (normal_ok W 0 1 c Rle_0_1)). rewrite (rbind_lift _ (sqrt dt)) by now apply msqrt_ok.
  rewrite (rbind_ok _ _ _ _ _ (normal_ok W 0 1 (S c) Rle_0_1)). rewrite (rbind_lift _ (sqrt v)) by now apply msqrt_ok.
  unfold rret. rewrite clip, !Rplus_0_l, !Rmult_1_l. unfold tstep. rewrite !Rmult_assoc. reflexivity.
Qed.
Lemma jumps_to_ok t z : forall t0 v a b d c, 0 <= v -> ordered t0 z ->
  jumps_to W t k th sg t0 (map snd z) (map fst z) (v, a, b, d) c
  = Ok ((tend t0 (taken t z), map snd (rest t z), map fst (rest t z), run c t0 v a b d (jst (taken t z))), (c + 2 * length (taken t z))%nat).
Proof.
  induction z as [|[s J] z IH]; intros t0 v a b d c Hv Hz; cbn [map jumps_to taken rest fst snd].
  - unfold rret. cbn. now rewrite Nat.add_0_r.
  - destruct (Rle_dec s t); [|unfold rret; cbn; now rewrite Nat.add_0_r].
    cbn [ordered fst snd] in Hz. destruct Hz as (h1 & h2 & h3).
    rewrite (rbind_ok _ _ _ _ _ (inc_ok c t0 (s - t0) v a b d ltac:(lra) Hv)).
    rewrite IH by first [assumption | apply Rplus_le_le_0_compat; [apply tstep_nonneg|assumption]].
    rewrite tend_cons. cbn [jst map grun fst snd jump_of length]. do 2 f_equal. lia.
Qed.

Context (dt : R) (Hdt : 0 < dt).
Definition sseg (i : Z) (z : list (R * R)) : list estep :=
  let t := IZR (i + 1) * dt in
  jst (taken t z) ++ (if Rlt_dec (tend (IZR i * dt) (taken t z)) t then [(t, None)] else []).
Fixpoint gsteps (m : nat) (i : Z) (z : list (R * R)) : list estep :=
  match m with O => [] | S m => sseg i z ++ gsteps m (i + 1) (rest (IZR (i + 1) * dt) z) end.
Fixpoint grest (m : nat) (i : Z) (z : list (R * R)) : list (R * R) :=
  match m with O => z | S m => grest m (i + 1) (rest (IZR (i + 1) * dt) z) end.

Lemma jst_pos z t0 : ordered t0 z -> Forall (fun s => 0 <= jump_of s) (jst z).
Proof.
  revert t0. induction z as [|sj z IH]; intros t0 H; constructor; cbn [ordered] in H; [apply H|]. apply (IH (fst sj)). apply H.
Qed.
Lemma taken_ordered t z t0 : ordered t0 z -> ordered t0 (taken t z).
Proof.
  revert t0. induction z as [|sj z IH]; intros t0 H; [exact I|]. cbn [ordered taken] in *. destruct H as (a & b & c).
  destruct (Rle_dec (fst sj) t); [|exact I]. cbn [ordered]. repeat split; try assumption. now apply IH.
Qed.
Lemma jst_fst z : map fst (jst z) = map fst z.
Proof. unfold jst. now rewrite map_map. Qed.
Lemma jst_len z : length (jst z) = length z.
Proof. apply map_length. Qed.
Lemma grid_step i : IZR i * dt < IZR (i + 1) * dt.
Proof. rewrite plus_IZR. lra. Qed.
Lemma sseg_end i z t0 : ordered (IZR i * dt) z -> last (map fst (sseg i z)) t0 = IZR (i + 1) * dt.
Proof.
  intro H. unfold sseg. cbv zeta. set (t := IZR (i + 1) * dt). pose proof (grid_step i) as Hi. fold t in Hi.
  pose proof (taken_le t z _ H (Rlt_le _ _ Hi)) as Ht. rewrite map_app, last_app', jst_fst.
  destruct (Rlt_dec _ t); [reflexivity|]. cbn [map]. destruct (taken t z) as [|sj r] eqn:E; [unfold tend in *; cbn in *; lra|].
  cbn [map]. unfold tend in *. cbn [map] in *. rewrite last_cons in *. cbn [last] in *. lra.
Qed.
Lemma sseg_pos i z t0 : ordered t0 z -> Forall (fun s => 0 <= jump_of s) (sseg i z).
Proof.
  intro H. apply Forall_app. split; [apply (jst_pos _ t0), taken_ordered, H|].
  destruct (Rlt_dec _ _); constructor; [cbn; lra|constructor].
Qed.

Definition body (r : list R * list R * (R * R * R * R)) (i : Z) : rnd (list R * list R * (R * R * R * R)) :=
      let '(js, jt, st) := r in
      let t := IZR (i + 1) * dt in
      let@ q := jumps_to W t k th sg (IZR i * dt) js jt st in
      let '(t0, js, jt, st) := q in
      let@ st := if Rlt_dec t0 t then incIEII W t0 (t - t0) k th sg st else rret st in
      rret (js, jt, st).
Lemma body_ok i z v a b d c : 0 <= v -> ordered (IZR i * dt) z ->
  body (map snd z, map fst z, (v, a, b, d)) i c
  = let z' := rest (IZR (i + 1) * dt) z in
    Ok ((map snd z', map fst z', run c (IZR i * dt) v a b d (sseg i z)), (c + 2 * length (sseg i z))%nat).
Proof.
  intros Hv Hz. unfold body. rewrite (rbind_ok _ _ _ _ _ (jumps_to_ok _ z _ v a b d c Hv Hz)). cbv zeta. unfold sseg. cbv zeta.
  set (t := IZR (i + 1) * dt). rewrite grun_app, app_length, jst_len, jst_fst.
  pose proof (grun_nonneg (jst (taken t z)) c (IZR i * dt) v a b d Hv (jst_pos _ _ (taken_ordered t z _ Hz))) as Hn.
  destruct (run c (IZR i * dt) v a b d (jst (taken t z))) as [[[v' a'] b'] d'].
  change (last (map fst (taken t z)) (IZR i * dt)) with (tend (IZR i * dt) (taken t z)).
  destruct (Rlt_dec (tend (IZR i * dt) (taken t z)) t).
  - rewrite (rbind_ok _ _ _ _ _ (inc_ok _ _ (t - tend (IZR i * dt) (taken t z)) v' a' b' d' ltac:(lra) Hn)).
    unfold rret. cbn [grun fst snd jump_of length]. rewrite Rplus_0_r. do 2 f_equal. lia.
  - unfold rbind, rret. cbn [bind fst snd grun length]. do 2 f_equal. lia.
Qed.
Lemma loop_ok m : forall i z v a b d c, 0 <= v -> ordered (IZR i * dt) z ->
  foldR body (map (fun j => (i + Z.of_nat j)%Z) (seq 0 m)) (map snd z, map fst z, (v, a, b, d)) c
  = let z' := grest m i z in
    Ok ((map snd z', map fst z', run c (IZR i * dt) v a b d (gsteps m i z)), (c + 2 * length (gsteps m i z))%nat).
Proof.
  induction m as [|m IH]; intros i z v a b d c Hv Hz; [cbn; unfold rret; now rewrite Nat.add_0_r|].
  cbn [seq map foldR]. rewrite Z.add_0_r. rewrite (rbind_ok _ _ _ _ _ (body_ok i z v a b d c Hv Hz)). cbv zeta.
  pose proof (grun_nonneg (sseg i z) c (IZR i * dt) v a b d Hv (sseg_pos i z _ Hz)) as Hn. cbn [gsteps grest]. rewrite grun_app.
  destruct (run c (IZR i * dt) v a b d (sseg i z)) as [[[v' a'] b'] d'].
  rewrite <- seq_shift, map_map. rewrite (map_ext (fun x => (i + Z.of_nat (S x))%Z) (fun x => (i + 1 + Z.of_nat x)%Z)) by (intro; lia).
  rewrite (IH (i + 1)%Z (rest (IZR (i + 1) * dt) z) v' a' b' d') by first [assumption | now apply (rest_ordered _ _ _ Hz)].
  cbv zeta. rewrite (sseg_end i z _ Hz), app_length. do 2 f_equal. lia.
Qed.

(** the steps form a grid *)
Lemma incr_app t l1 l2 : incr t l1 -> incr (last (map fst l1) t) l2 -> incr t (l1 ++ l2).
Proof.
  revert t. induction l1 as [|s l1 IH]; intros t H1 H2; [exact H2|]. cbn [incr app map] in *. rewrite last_cons in H2.
  split; [apply H1|]. now apply IH.
Qed.
Lemma incr_jst t0 z : ordered t0 z -> incr t0 (jst z).
Proof.
  revert t0. induction z as [|sj z IH]; intros t0 H; [exact I|]. cbn [ordered jst map incr fst] in *. split; [apply H|]. now apply IH.
Qed.
Lemma sseg_incr i z : ordered (IZR i * dt) z -> incr (IZR i * dt) (sseg i z).
Proof.
  intro H. unfold sseg. cbv zeta. apply incr_app; [apply incr_jst; now apply taken_ordered|]. rewrite jst_fst.
  change (last (map fst (taken (IZR (i + 1) * dt) z)) (IZR i * dt)) with (tend (IZR i * dt) (taken (IZR (i + 1) * dt) z)).
  destruct (Rlt_dec _ _); [|exact I]. cbn [incr fst]. split; [lra|exact I].
Qed.
Lemma gsteps_incr m : forall i z, ordered (IZR i * dt) z -> incr (IZR i * dt) (gsteps m i z) /\ last (map fst (gsteps m i z)) (IZR i * dt) = IZR (i + Z.of_nat m) * dt.
Proof.
  induction m as [|m IH]; intros i z H; [cbn [gsteps]; split; [exact I|]; cbn; do 2 f_equal; lia|]. cbn [gsteps].
  specialize (IH (i + 1)%Z _ (rest_ordered (IZR (i + 1) * dt) _ _ H)). rewrite map_app, last_app', (sseg_end i z _ H). split.
  - apply incr_app; [now apply sseg_incr|]. rewrite (sseg_end i z _ H). apply IH.
  - rewrite (proj2 IH). do 2 f_equal. lia.
Qed.
Lemma last_in {A} (d : A) l : l <> [] -> In (last l d) l.
Proof.
  destruct l as [|x l]; [easy|]. intros _. rewrite last_cons. revert x. induction l as [|y l IH]; intro x; [now left|]. rewrite last_cons. right. apply IH.
Qed.
Lemma gsteps_mesh m : forall i z, ordered (IZR i * dt) z -> forall j, (i < j <= i + Z.of_nat m)%Z -> In (IZR j * dt) (map fst (gsteps m i z)).
Proof.
  induction m as [|m IH]; intros i z H j Hj; [lia|]. cbn [gsteps]. rewrite map_app. apply in_app_iff.
  destruct (Z.eq_dec j (i + 1)) as [->|Hn].
  - left. rewrite <- (sseg_end i z 0 H). apply last_in. intro E. pose proof (sseg_end i z (IZR i * dt) H) as e. rewrite E in e.
    cbn in e. pose proof (grid_step i). lra.
  - right. apply IH; [now apply (rest_ordered _ _ _ H)|lia].
Qed.
Lemma jumps_in_app l1 l2 : jumps_in (l1 ++ l2) = jumps_in l1 ++ jumps_in l2.
Proof. apply flat_map_app. Qed.
Lemma jumps_in_jst z : jumps_in (jst z) = z.
Proof. induction z as [|[s J] z IH]; [reflexivity|]. cbn. unfold jumps_in, jst in IH. now rewrite IH. Qed.
Lemma jumps_in_sseg i z : jumps_in (sseg i z) = taken (IZR (i + 1) * dt) z.
Proof. unfold sseg. cbv zeta. rewrite jumps_in_app, jumps_in_jst. destruct (Rlt_dec _ _); cbn; now rewrite app_nil_r. Qed.
Lemma gsteps_jumps m : forall i z, ordered (IZR i * dt) z -> (0 < m)%nat -> jumps_in (gsteps m i z) = taken (IZR (i + Z.of_nat m) * dt) z.
Proof.
  induction m as [|m IH]; intros i z H Hm; [lia|]. cbn [gsteps]. rewrite jumps_in_app, jumps_in_sseg.
  destruct m as [|m]; [cbn [gsteps jumps_in flat_map]; rewrite app_nil_r; f_equal; do 2 f_equal; lia|].
  rewrite IH by first [lia | now apply (rest_ordered _ _ _ H)].
  replace (i + 1 + Z.of_nat (S m))%Z with (i + Z.of_nat (S (S m)))%Z by lia. symmetry. apply taken_taken.
  apply Rmult_le_compat_r; [lra|]. apply IZR_le. lia.
Qed.
Lemma gsteps_only m : forall i z t, In (t, None) (gsteps m i z) -> exists j, (i < j <= i + Z.of_nat m)%Z /\ t = IZR j * dt.
Proof.
  induction m as [|m IH]; intros i z t H; [destruct H|]. cbn [gsteps] in H. apply in_app_iff in H. destruct H as [H|H].
  - unfold sseg in H. cbv zeta in H. apply in_app_iff in H. destruct H as [H|H].
    + unfold jst in H. apply in_map_iff in H. destruct H as (sj & e & _). discriminate.
    + destruct (Rlt_dec _ _); [|destruct H]. destruct H as [e|[]]. injection e as <-. exists (i + 1)%Z. split; [lia|reflexivity].
  - destruct (IH _ _ _ H) as (j & Hj & e). exists j. split; [lia|exact e].
Qed.
End Grid.

(** no jumps: the grid only *)
Definition plain (dt : R) (m : nat) (i : Z) : list estep := map (fun j => (IZR (i + Z.of_nat j + 1) * dt, None)) (seq 0 m).
Lemma plain_ok W k th sg dt m : 0 < dt -> forall i v a b d c, 0 <= v ->
  foldR (fun st i => incIEII W (IZR i * dt) dt k th sg st) (map (fun j => (i + Z.of_nat j)%Z) (seq 0 m)) (v, a, b, d) c
  = Ok (grun k th sg (wnorm W) c (IZR i * dt) v a b d (gsteps dt m i []), (c + 2 * length (gsteps dt m i []))%nat).
Proof.
  intro Hdt. induction m as [|m IH]; intros i v a b d c Hv; [cbn; unfold rret; now rewrite Nat.add_0_r|].
  cbn [seq map foldR]. rewrite Z.add_0_r. rewrite (rbind_ok _ _ _ _ _ (inc_ok W k th sg c (IZR i * dt) dt v a b d (Rlt_le _ _ Hdt) Hv)).
  rewrite <- seq_shift, map_map. rewrite (map_ext (fun x => (i + Z.of_nat (S x))%Z) (fun x => (i + 1 + Z.of_nat x)%Z)) by (intro; lia).
  rewrite IH by apply tstep_nonneg. cbn [gsteps rest]. unfold sseg. cbn [taken jst map app tend last].
  pose proof (grid_step dt Hdt i). unfold tend. cbn [map last]. destruct (Rlt_dec (IZR i * dt) (IZR (i + 1) * dt)); [|lra]. cbn [app grun fst snd jump_of length].
  replace (IZR (i + 1) * dt - IZR i * dt) with dt by (rewrite plus_IZR; ring). rewrite Rplus_0_r. do 2 f_equal. lia.
Qed.

(** rIEII *)
Definition rsteps (h : R) (n : Z) (z : list (R * R)) : list estep := gsteps (h / IZR n) (Z.to_nat n) 0 z.
Lemma rIEII_ok W v0 k th sg h z n c : (0 < n)%Z -> 0 < h -> 0 <= v0 -> ordered 0 z ->
  let '(v, IE, I1, I2) := grun k th sg (wnorm W) c 0 v0 0 0 0 (rsteps h n z) in
  rIEII W v0 k th sg h (map snd z) (map fst z) n c = Ok ((IE, I1, I2), (c + 2 * length (rsteps h n z))%nat).
Proof.
  intros Hn Hh Hv Hz. assert (Hdt : 0 < h / IZR n) by (apply Rdiv_lt_0_compat; [exact Hh|now apply IZR_lt]).
  destruct (grun k th sg (wnorm W) c 0 v0 0 0 0 (rsteps h n z)) as [[[v IE] I1] I2] eqn:E.
  unfold rIEII. rewrite (rbind_lift _ (h / IZR n)) by now apply seg_len. unfold range. rewrite Z.sub_0_r.
  assert (Hz0 : ordered (IZR 0 * (h / IZR n)) z) by now rewrite Rmult_0_l.
  destruct z as [|sj z'].
  - cbn [map]. rewrite (rbind_ok _ _ _ _ _ (plain_ok W k th sg (h / IZR n) (Z.to_nat n) Hdt 0 v0 0 0 0 c Hv)).
    rewrite Rmult_0_l. unfold rsteps in E. rewrite E. reflexivity.
  - remember (sj :: z') as z. assert (Hm : exists x l, map fst z = x :: l) by (subst z; now eexists; eexists). destruct Hm as (x & l & Hm). rewrite Hm.
    cbv beta iota. rewrite <- Hm.
    pose proof (loop_ok W k th sg (h / IZR n) Hdt (Z.to_nat n) 0 z v0 0 0 0 c Hv Hz0) as L. cbv zeta in L. rewrite Rmult_0_l in L.
    unfold rsteps in E. rewrite E in L.
    exact (rbind_ok _ _ _ _ _ L).
Qed.
Lemma rsteps_grid h n z : (0 < n)%Z -> 0 < h -> ordered 0 z -> grid h (Z.to_nat n) z (rsteps h n z).
Proof.
  intros Hn Hh Hz. assert (Hdt : 0 < h / IZR n) by (apply Rdiv_lt_0_compat; [exact Hh|now apply IZR_lt]).
  assert (Hz0 : ordered (IZR 0 * (h / IZR n)) z) by now rewrite Rmult_0_l.
  assert (en : INR (Z.to_nat n) = IZR n) by (rewrite INR_IZR_INZ, Z2Nat.id; [reflexivity|lia]).
  assert (eh : IZR n * (h / IZR n) = h) by (field; apply not_0_IZR; lia).
  destruct (gsteps_incr (h / IZR n) Hdt (Z.to_nat n) 0 z Hz0) as [A B]. rewrite Rmult_0_l, Z2Nat.id in * by lia. cbn [Z.add] in B.
  split; unfold rsteps.
  - exact A.
  - rewrite B. exact eh.
  - intros i Hi. rewrite en, INR_IZR_INZ. apply gsteps_mesh; [exact Hdt|now rewrite Rmult_0_l|lia].
  - rewrite gsteps_jumps; [|exact Hdt|now rewrite Rmult_0_l|lia]. rewrite Z2Nat.id by lia. cbn [Z.add]. rewrite eh. now apply (taken_upto _ _ 0).
  - intros t Ht. destruct (gsteps_only _ _ _ _ _ Ht) as (j & Hj & ->). exists (Z.to_nat j). split; [lia|].
    rewrite en, (INR_IZR_INZ (Z.to_nat j)), Z2Nat.id by lia. reflexivity.
Qed.
Lemma gsteps_pos dt m : forall i z t0, 0 < dt -> ordered t0 z -> Forall (fun s => 0 <= jump_of s) (gsteps dt m i z).
Proof.
  induction m as [|m IH]; intros i z t0 Hdt H; [constructor|]. cbn [gsteps]. apply Forall_app. split; [now apply (sseg_pos dt i z t0)|].
  apply (IH _ _ (IZR (i + 1) * dt) Hdt). now apply (rest_ordered _ _ t0).
Qed.

(** the noise of the scheme: linear combinations of IE, I, I-star *)
Lemma grun_noise (a b d k th sg : R) z steps : forall c t v IE I1 I2,
  let '(_, IE', I1', I2') := grun k th sg z c t v IE I1 I2 steps in
  a * IE' + b * I1' + d * I2' = a * IE + b * I1 + d * I2 + gnoise (fun s => a * exp (k * s) + b) d k th sg z c t v steps.
Proof.
  induction steps as [|s steps IH]; intros c t v IE I1 I2; cbn [grun gnoise]; [ring|].
  specialize (IH (S (S c)) (fst s) (tstep k th sg (fst s - t) (sqrt (fst s - t) * z c) v + jump_of s)
    (IE + exp (k * t) * (sqrt v * (sqrt (fst s - t) * z c))) (I1 + sqrt v * (sqrt (fst s - t) * z c)) (I2 + sqrt v * (sqrt (fst s - t) * z (S c)))).
  destruct (grun k th sg z (S (S c)) _ _ _ _ _ steps) as [[[v' IE'] I1'] I2']. rewrite IH. ring.
Qed.

Section Noise.
Context {Om : Type} (E : (Om -> R) -> R) (Z : nat -> Om -> R) (C : nat) (HW : white E Z C).
Context (g : R -> R) (b k th sg : R).
Let HE := wh_E E Z C HW.
Lemma gnoise_mart steps : forall c t (v M : Om -> R), (c + 2 * length steps <= C)%nat -> incr t steps -> Forall (fun s => 0 <= jump_of s) steps ->
  (forall w, 0 <= v w) -> before Z c v -> before Z c M ->
  E (fun w => M w + gnoise g b k th sg (fun i => Z i w) c t (v w) steps) = E M /\
  E (fun w => (M w + gnoise g b k th sg (fun i => Z i w) c t (v w) steps) ^ 2)
  = E (fun w => M w ^ 2) + E (fun w => eint (fun s => g s ^ 2 + b ^ 2) k th sg (fun i => Z i w) c t (v w) steps).
Proof.
  induction steps as [|s steps IH]; intros c t v M HC Hi Hp Hv Bv BM; cbn [gnoise eint length incr] in *.
  - split; [apply (E_ext E HE); intro; ring|].
    rewrite (E_ext E HE (fun _ => 0) (fun _ => 0 * 1)) by (intro; ring). rewrite (E_scal E HE), Rmult_0_l, Rplus_0_r. apply (E_ext E HE); intro; ring.
  - destruct Hi as [Hi1 Hi2]. inversion Hp as [|? ? Hp1 Hp2]; subst. set (dt := fst s - t) in *.
    set (v1 := fun w => tstep k th sg dt (sqrt dt * Z c w) (v w) + jump_of s).
    set (u := fun w => sqrt (v w) * (g t * (sqrt dt * Z c w) + b * (sqrt dt * Z (S c) w))).
    assert (Bc : forall f, before Z c f -> before Z (S c) f) by (intros f; apply before_le; lia).
    assert (Bcc : forall f, before Z c f -> before Z (S (S c)) f) by (intros f; apply before_le; lia).
    assert (dt0 : 0 <= dt) by (unfold dt; lra).
    destruct (IH (S (S c)) (fst s) v1 (fun w => M w + u w)) as [I1 I2]; try assumption.
    { lia. }
    { intro w. apply Rplus_le_le_0_compat; [apply tstep_nonneg|assumption]. }
    { apply (before_2 Z _ (Z c) v (fun x y => tstep k th sg dt (sqrt dt * x) y + jump_of s)); [apply before_draw; lia|now apply Bcc]. }
    { apply (before_2 Z _ M u Rplus); [now apply Bcc|]. unfold u.
      apply (before_2 Z _ (fun w => sqrt (v w)) (fun w => g t * (sqrt dt * Z c w) + b * (sqrt dt * Z (S c) w)) Rmult).
      - apply (before_1 Z _ v sqrt). now apply Bcc.
      - apply (before_2 Z _ (Z c) (Z (S c)) (fun x y => g t * (sqrt dt * x) + b * (sqrt dt * y))); apply before_draw; lia. }
    assert (m1 : forall f, before Z c f -> E (fun w => f w * Z c w) = 0) by (intros f Hf; apply (wh_mean E Z C HW); [lia|exact Hf]).
    assert (m2 : forall f, before Z (S c) f -> E (fun w => f w * Z (S c) w) = 0) by (intros f Hf; apply (wh_mean E Z C HW); [lia|exact Hf]).
    assert (q1 : forall f, before Z c f -> E (fun w => f w * Z c w ^ 2) = E f) by (intros f Hf; apply (wh_var E Z C HW); [lia|exact Hf]).
    assert (q2 : forall f, before Z (S c) f -> E (fun w => f w * Z (S c) w ^ 2) = E f) by (intros f Hf; apply (wh_var E Z C HW); [lia|exact Hf]).
    split.
    + transitivity (E (fun w => M w + u w)).
      { rewrite <- I1. apply (E_ext E HE). intro w. unfold u, v1. ring. }
      transitivity (E M + (E (fun w => (g t * sqrt dt * sqrt (v w)) * Z c w) + E (fun w => (b * sqrt dt * sqrt (v w)) * Z (S c) w))).
      { rewrite <- !(E_plus E HE). apply (E_ext E HE). intro w. unfold u. ring. }
      rewrite (m1 (fun w => g t * sqrt dt * sqrt (v w))), (m2 (fun w => b * sqrt dt * sqrt (v w))); [ring| |].
      * apply Bc. now apply (before_1 Z _ v (fun x => b * sqrt dt * sqrt x)).
      * now apply (before_1 Z _ v (fun x => g t * sqrt dt * sqrt x)).
    + transitivity (E (fun w => (M w + u w) ^ 2) + E (fun w => eint (fun s => g s ^ 2 + b ^ 2) k th sg (fun i => Z i w) (S (S c)) (fst s) (v1 w) steps)).
      { rewrite <- I2. apply (E_ext E HE). intro w. unfold u, v1. ring. }
      rewrite (E_plus E HE (fun w => (g t ^ 2 + b ^ 2) * v w * dt)). rewrite <- Rplus_assoc. f_equal.
      transitivity (E (fun w => M w ^ 2) + (E (fun w => (2 * M w * (g t * sqrt dt * sqrt (v w))) * Z c w) + (E (fun w => (2 * M w * (b * sqrt dt * sqrt (v w))) * Z (S c) w)
        + (E (fun w => (g t ^ 2 * v w * dt) * Z c w ^ 2) + (E (fun w => (b ^ 2 * v w * dt) * Z (S c) w ^ 2)
        + E (fun w => (2 * g t * b * v w * dt * Z c w) * Z (S c) w)))))).
      { rewrite <- !(E_plus E HE). apply (E_ext E HE). intro w. unfold u.
        pose proof (sqrt_sqrt (v w) (Hv w)) as e1. pose proof (sqrt_sqrt dt dt0) as e2. set (x := sqrt (v w)) in *. set (y := sqrt dt) in *.
        rewrite <- e1, <- e2. ring. }
      rewrite (m1 (fun w => 2 * M w * (g t * sqrt dt * sqrt (v w)))), (m2 (fun w => 2 * M w * (b * sqrt dt * sqrt (v w)))),
        (q1 (fun w => g t ^ 2 * v w * dt)), (q2 (fun w => b ^ 2 * v w * dt)), (m2 (fun w => 2 * g t * b * v w * dt * Z c w)).
      * rewrite !Rplus_0_l, Rplus_0_r. f_equal. rewrite <- (E_plus E HE). apply (E_ext E HE). intro w. ring.
      * apply (before_2 Z _ v (Z c) (fun x y => 2 * g t * b * x * dt * y)); [now apply Bc|apply before_draw; lia].
      * apply Bc. now apply (before_1 Z _ v (fun x => b ^ 2 * x * dt)).
      * now apply (before_1 Z _ v (fun x => g t ^ 2 * x * dt)).
      * apply Bc. now apply (before_2 Z _ M v (fun m x => 2 * m * (b * sqrt dt * sqrt x))).
      * now apply (before_2 Z _ M v (fun m x => 2 * m * (g t * sqrt dt * sqrt x))).
Qed.
End Noise.
Lemma taken_rest_len t z : (length (taken t z) + length (rest t z) = length z)%nat.
Proof. induction z as [|sj z IH]; [reflexivity|]. cbn [taken rest]. destruct (Rle_dec (fst sj) t); cbn [length]; lia. Qed.
Lemma rsteps_len h n z : (length (rsteps h n z) <= Z.to_nat n + length z)%nat.
Proof.
  unfold rsteps. generalize 0%Z as i. generalize (h / IZR n) as dt. intro dt. revert z. induction (Z.to_nat n) as [|m IH]; intros z i; [cbn; lia|].
  cbn [gsteps]. rewrite app_length. unfold sseg. cbv zeta. rewrite app_length, jst_len. specialize (IH (rest (IZR (i + 1) * dt) z) (i + 1)%Z).
  pose proof (taken_rest_len (IZR (i + 1) * dt) z). destruct (Rlt_dec _ _); cbn [length]; lia.
Qed.
