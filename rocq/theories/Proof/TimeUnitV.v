(** From the degrees of the keys to the values. *)
From Coq Require Import Lra.
From Verif.Proof Require Import TimeUnit TimeUnit2.
From Verif.Proof Require Import DpolyProofs.
From Verif.Spec Require Export Units.
From Verif.Model Require Export Scalar.
Local Open Scope Z_scope.

(** dimension of d/d wrt *)
Definition ddim (s : string) : Z := if is_rate s then 1 else 0.

(** ** the derivatives *)
Lemma d_loop_hom rules kf p (P P' : list Z -> Prop) : allp P p ->
  (forall k (r : rule), P k -> In r rules -> P' (snd r k)) -> allp P' (d_loop rules kf p).
Proof.
  intros hp hr. unfold d_loop, allp. cbn [items]. apply fold_left_inv; [|apply allk_nil]. intros s [k v] Hin Hs. cbn [fst snd].
  pose proof (allk_in _ _ _ _ hp Hin) as D. apply fold_left_inv; [|exact Hs]. intros s' r Hr Hs'.
  destruct (fst r k =? 0); [exact Hs'|]. apply allk_add_kv; [exact Hs'|]. now apply hr.
Qed.
Ltac dl := match goal with |- oks (if ?b then _ else _) _ => let E := fresh "E" in destruct b eqn:E; [apply String.eqb_eq in E; subst|] end.
Ltac dr hp := apply (d_loop_hom _ _ _ _ _ hp); let k := fresh in let r := fresh in let h := fresh in let Hr := fresh in
  intros k r h Hr; repeat (destruct Hr as [<-|Hr]; [homs; cbn [snd addat]; split; [reflexivity|
     match goal with |- _ = ddim ?s => let v := eval compute in (ddim s) in change (ddim s) with v end; cbn [deg]; lia]|]); destruct Hr.
Lemma dpoly_m1_hom p wrt : allp (hom w_8 0) p -> oks (dpoly_m1 p wrt) (allp (hom w_8 (ddim wrt))).
Proof. intro hp. unfold dpoly_m1. do 5 (dl; [cbn [oks]; dr hp|]). exact Logic.I. Qed.
Lemma dpoly_cm1_hom p wrt : allp (hom w_c7 0) p -> oks (dpoly_cm1 p wrt) (allp (hom w_c7 (ddim wrt))).
Proof. intro hp. unfold dpoly_cm1. dl; [apply allk_nil|]. do 4 (dl; [cbn [oks]; dr hp|]). exact Logic.I. Qed.
Lemma dpoly_mj_hom p wrt : allp (hom w_j11 0) p -> oks (dpoly_mj p wrt) (allp (hom w_j11 (ddim wrt))).
Proof. intro hp. unfold dpoly_mj. do 8 (dl; [cbn [oks]; dr hp|]). exact Logic.I. Qed.
Lemma dpoly_cmj_hom p wrt : allp (hom w_j10 0) p -> oks (dpoly_cmj p wrt) (allp (hom w_j10 (ddim wrt))).
Proof. intro hp. unfold dpoly_cmj. dl; [apply allk_nil|]. do 7 (dl; [cbn [oks]; dr hp|]). exact Logic.I. Qed.

Lemma dden_app a b : dden (a ++ b) = dden a + dden b.
Proof. induction a as [|[[? ?] ?] r IH]; cbn [app dden]; [reflexivity|]. rewrite IH. lia. Qed.
Lemma dt0_go_deg n pre t0 d v : In (d, v) (dt0_go n pre t0) -> dden d = dden pre + dden t0 + 1.
Proof.
  revert pre. induction t0 as [|[[a b] c] r IH]; intros pre h; cbn [dt0_go] in h; [destruct h|].
  apply in_app_or in h. destruct h as [h|h].
  - destruct (_ && _); [|destruct h]. destruct h as [E|[]]. inversion E; subst. rewrite dden_app. cbn [dden]. lia.
  - apply IH in h. rewrite h, dden_app. cbn [dden]. lia.
Qed.
Lemma dt0_deg t0 wrt : oks (dt0 t0 wrt) (fun l => forall d v, In (d, v) l -> dden d = dden t0 + 1).
Proof.
  unfold dt0. do 2 (destruct (String.eqb _ _); [cbn [oks]; intros d v h; apply dt0_go_deg in h; cbn [dden] in h; lia|]). exact Logic.I.
Qed.
Lemma d2_k_hom w wrt kf p : allp (fhom (1 :: w) 0) p -> oks (d2_k wrt kf p) (allp (fhom (1 :: w) 1)).
Proof.
  intro hp. unfold d2_k. eapply oks_bind with (P := allk (fhom (1 :: w) 1)).
  - apply oks_foldM; [|apply allk_nil]. intros s [[t0 t1x] v] Hin Hs. cbn [fst snd].
    pose proof (allk_in _ _ _ _ hp Hin) as D. eapply oks_bind; [apply dt0_deg|]. intros l hl. cbn beta in hl.
    cbn [oks]. apply allk_fold_kv; [exact Hs|]. intros [d z] Hd. specialize (hl _ _ Hd).
    unfold fhom in *. cbn [fst snd] in *. replace (1 - dden d) with (0 - dden t0) by lia. exact D.
  - intros a Ha. cbv zeta. cbn [oks]. unfold allp. cbn [items]. apply fold_left_inv; [|exact Ha]. intros s [[t0 [[n1 n2] x]] v] Hin Hs. cbn [fst snd].
    pose proof (allk_in _ _ _ _ hp Hin) as D. match goal with |- context [if ?z =? 0 then _ else _] => destruct (z =? 0) end; [exact Hs|].
    apply allk_add_kv; [exact Hs|]. unfold fhom in *. cbn [fst snd] in *. destruct D as [L E].
    destruct x as [|x0 x]; [discriminate L|]. cbn [addat]. split; [exact L|]. cbn [deg] in *. lia.
Qed.
Lemma deg_addat w : forall i d k, length k = length w -> deg w (addat i d k) = deg w k + nthZ w i * d.
Proof.
  induction w as [|a w IH]; intros i d [|x k] L; try discriminate.
  - unfold nthZ. destruct i; simpl; lia.
  - destruct i; cbn [addat deg]; unfold nthZ; cbn [nth]; [lia|]. fold (nthZ w i). rewrite IH by (now injection L). lia.
Qed.
Lemma addat_len i d k : length (addat i d k) = length k.
Proof. revert i. induction k as [|x k IH]; intros [|i]; simpl; auto. Qed.
Lemma d2_plain_hom w i kf p : allp (fhom w 0) p -> oks (d2_plain i kf p) (allp (fhom w (- nthZ w i))).
Proof.
  intro hp. unfold d2_plain, oks, allp. cbn [items]. apply fold_left_inv; [|apply allk_nil]. intros s [[t0 [t1 x]] v] Hin Hs. cbn [fst snd].
  pose proof (allk_in _ _ _ _ hp Hin) as D. destruct (nthZ x i =? 0); [exact Hs|].
  apply allk_add_kv; [exact Hs|]. unfold fhom in *. cbn [fst snd] in *. destruct D as [L E].
  split; [now rewrite addat_len|]. rewrite deg_addat by exact L. lia.
Qed.
Lemma k12_dim wrt : ((wrt =? "k1") || (wrt =? "k2"))%string%bool = true -> ddim wrt = 1.
Proof. intro E. apply Bool.orb_true_iff in E. destruct E as [E|E]; apply String.eqb_eq in E; subst; reflexivity. Qed.
Ltac d2k hp := match goal with |- oks (if ?b then _ else _) _ => let E := fresh "E" in destruct b eqn:E;
  [rewrite (k12_dim _ E); apply d2_k_hom, hp|clear E] end.
Ltac d2p hp := dl; [exact (d2_plain_hom _ _ _ _ hp)|].
Lemma dpoly2_m_hom p wrt : allp (fhom w2_8 0) p -> oks (dpoly2_m p wrt) (allp (fhom w2_8 (ddim wrt))).
Proof. intro hp. unfold dpoly2_m. d2k hp. do 5 d2p hp. exact Logic.I. Qed.
Lemma dpoly2_cm_hom p wrt : allp (fhom w2_7 0) p -> oks (dpoly2_cm p wrt) (allp (fhom w2_7 (ddim wrt))).
Proof. intro hp. unfold dpoly2_cm. dl; [apply allk_nil|]. d2k hp. do 4 d2p hp. exact Logic.I. Qed.
Lemma dpoly2_mj_hom p wrt : allp (fhom w2_11 0) p -> oks (dpoly2_mj p wrt) (allp (fhom w2_11 (ddim wrt))).
Proof. intro hp. unfold dpoly2_mj. d2k hp. do 8 d2p hp. exact Logic.I. Qed.
Lemma dpoly2_cmj_hom p wrt : allp (fhom w2_c10 0) p -> oks (dpoly2_cmj p wrt) (allp (fhom w2_c10 (ddim wrt))).
Proof. intro hp. unfold dpoly2_cmj. dl; [apply allk_nil|]. d2k hp. do 7 d2p hp. exact Logic.I. Qed.

(** ** values *)
Local Open Scope R_scope.
Lemma pz_mul x c n : powerRZ (c * x) n = powerRZ x n * powerRZ c n.
Proof. rewrite powerRZ_mult. ring. Qed.
Lemma pz_div x c n : powerRZ (x / c) n = powerRZ x n * powerRZ c (- n).
Proof. unfold Rdiv. rewrite powerRZ_mult, powerRZ_inv', powerRZ_neg'. reflexivity. Qed.
Lemma sumR_scale {A} (f g : A -> R) (l : list A) (x : R) : (forall a, In a l -> f a = x * g a) -> sumR f l = x * sumR g l.
Proof.
  induction l as [|a r IH]; intro h; cbn [sumR]; [ring|]. rewrite (h a) by now left. rewrite IH by (intros; apply h; now right). ring.
Qed.
Lemma tu_rate c par s : is_rate s = true -> time_unit c par s = par s / c.
Proof.
  intro E. unfold time_unit. destruct (String.eqb_spec s "h") as [->|_]; [discriminate E|]. now rewrite E.
Qed.
Ltac tu c par := change (time_unit c par "h"%string) with (c * par "h"%string);
  repeat match goal with |- context [time_unit c par ?s] =>
    first [change (time_unit c par s) with (par s / c) | change (time_unit c par s) with (par s)] end.
Lemma kh_inv c k h x : c <> 0 -> x * (k / c) * (c * h) = x * k * h.
Proof. intro. field. assumption. Qed.
Lemma pow_group c a b : c <> 0 -> powerRZ c a * powerRZ c b = powerRZ c (a + b).
Proof. intro. now rewrite powerRZ_add. Qed.

(** collect the powers of c *)
Ltac pcs c := rewrite ?powerRZ_add by assumption;
  repeat match goal with
  | |- context [powerRZ c (0 * ?z)] => change (0 * z)%Z with 0%Z
  | |- context [powerRZ c (1 * ?z)] => replace (1 * z)%Z with z by lia
  | |- context [powerRZ c (-1 * ?z)] => replace (-1 * z)%Z with (- z)%Z by lia
  end; rewrite ?Z.opp_involutive, ?powerRZ_O; ring.
Ltac p2n c par d := cbv zeta; rewrite !fold_sum, !Rplus_0_l; apply sumR_scale; intros [k v] Hin;
  match goal with hp : allp (hom _ d) _ |- _ => pose proof (allk_in _ _ _ _ hp Hin) as D end;
  homs; cbn [fst snd]; unfold pint, nthZ; cbn [nth]; tu c par; rewrite kh_inv by assumption; rewrite !pz_div, !pz_mul;
  match goal with E : (_ = d)%Z |- _ => rewrite <- E; clear E end; pcs c.
Lemma p2n_m1 c par p d : c <> 0 -> allp (hom w_8 d) p ->
  poly2num_m1 p (time_unit c par) = powerRZ c d * poly2num_m1 p par.
Proof. intros. unfold poly2num_m1. p2n c par d. Qed.
Lemma p2n_cm1 c par p d : c <> 0 -> allp (hom w_c7 d) p ->
  poly2num_cm1 p (time_unit c par) = powerRZ c d * poly2num_cm1 p par.
Proof. intros. unfold poly2num_cm1. p2n c par d. Qed.
Lemma p2n_mj c par p d : c <> 0 -> allp (hom w_j11 d) p ->
  poly2num_mj p (time_unit c par) = powerRZ c d * poly2num_mj p par.
Proof. intros. unfold poly2num_mj. p2n c par d. Qed.
Lemma p2n_cmj c par p d : c <> 0 -> allp (hom w_j10 d) p ->
  poly2num_cmj p (time_unit c par) = powerRZ c d * poly2num_cmj p par.
Proof. intros. unfold poly2num_cmj. p2n c par d. Qed.

Lemma head_fold k1 k2 c t0 : forall v, c <> 0 ->
  fold_left (fun val t => let '(a, b, e) := t in val * powerRZ (IZR a * (k1 / c) + IZR b * (k2 / c)) (- e)) t0 v
  = powerRZ c (dden t0) * fold_left (fun val t => let '(a, b, e) := t in val * powerRZ (IZR a * k1 + IZR b * k2) (- e)) t0 v.
Proof.
  induction t0 as [|[[a b] e] r IH]; intros v Hc; cbn [fold_left dden]; [simpl; ring|].
  assert (S : forall (l : den) x y, fold_left (fun val t => let '(a, b, e) := t in val * powerRZ (IZR a * k1 + IZR b * k2) (- e)) l (x * y)
    = x * fold_left (fun val t => let '(a, b, e) := t in val * powerRZ (IZR a * k1 + IZR b * k2) (- e)) l y).
  { induction l as [|[[a' b'] e'] r' IH']; intros x y; cbn [fold_left]; [reflexivity|]. rewrite <- IH'. f_equal. ring. }
  rewrite IH by assumption. rewrite powerRZ_add by assumption.
  replace (IZR a * (k1 / c) + IZR b * (k2 / c)) with ((IZR a * k1 + IZR b * k2) / c) by (field; assumption).
  rewrite pz_div, Z.opp_involutive.
  replace (v * (powerRZ (IZR a * k1 + IZR b * k2) (- e) * powerRZ c e)) with (powerRZ c e * (v * powerRZ (IZR a * k1 + IZR b * k2) (- e))) by ring.
  rewrite S. ring.
Qed.
Lemma head_scale c k1 k2 h t0 n1 n2 x v : c <> 0 ->
  p2n_head (k1 / c) (k2 / c) (c * h) (t0, ((n1, n2), x), v) = powerRZ c (dden t0) * powerRZ c (nthZ x 0) * p2n_head k1 k2 h (t0, ((n1, n2), x), v).
Proof.
  intro Hc. unfold p2n_head. cbv zeta. rewrite head_fold by assumption. rewrite pz_mul.
  replace (- (IZR n1 * (k1 / c) + IZR n2 * (k2 / c)) * (c * h)) with (- (IZR n1 * k1 + IZR n2 * k2) * h) by (field; assumption). ring.
Qed.
Ltac p2n2 c par d := cbv zeta; rewrite !fold_sum, !Rplus_0_l; apply sumR_scale; intros [[t0 [[n1 n2] x]] v] Hin;
  match goal with hp : allp (fhom _ d) _ |- _ => pose proof (allk_in _ _ _ _ hp Hin) as D end; clear Hin;
  unfold fhom in *; cbn [fst snd] in *; homs; unfold kint; cbn [fst snd]; tu c par; rewrite head_scale by assumption;
  match goal with |- context [p2n_head ?a ?b ?e ?f] => generalize (p2n_head a b e f); intro end; unfold nthZ; cbn [nth];
  rewrite !pz_div; match goal with E : (_ = d - ?t)%Z |- _ => replace d with (t + (d - t))%Z by lia; rewrite <- E; clear E end; pcs c.
Lemma p2n2_m c par p d : c <> 0 -> allp (fhom w2_8 d) p ->
  poly2num2_m p (time_unit c par) = powerRZ c d * poly2num2_m p par.
Proof. intros. unfold poly2num2_m. p2n2 c par d. Qed.
Lemma p2n2_cm c par p d : c <> 0 -> allp (fhom w2_7 d) p ->
  poly2num2_cm p (time_unit c par) = powerRZ c d * poly2num2_cm p par.
Proof. intros. unfold poly2num2_cm. p2n2 c par d. Qed.
Lemma p2n2_mj c par p d : c <> 0 -> allp (fhom w2_11 d) p ->
  poly2num2_mj p (time_unit c par) = powerRZ c d * poly2num2_mj p par.
Proof. intros. unfold poly2num2_mj. p2n2 c par d. Qed.
Lemma p2n2_cmj c par p d : c <> 0 -> allp (fhom w2_c10 d) p ->
  poly2num2_cmj p (time_unit c par) = powerRZ c d * poly2num2_cmj p par.
Proof. intros. unfold poly2num2_cmj. p2n2 c par d. Qed.

(** ** the scalar functions *)
Section Scal.
Context {K : Type} `{Key K}.
Variables (P : Z -> K -> Prop) (p2n : Poly K -> (string -> R) -> R) (dp : Poly K -> string -> res (Poly K)).
Hypothesis Hp2n : forall c par p d, c <> 0 -> allp (P d) p -> p2n p (time_unit c par) = powerRZ c d * p2n p par.
Hypothesis Hdp : forall p wrt, allp (P 0%Z) p -> oks (dp p wrt) (allp (P (ddim wrt))).
Lemma scalar_tu c par r : c <> 0 -> oks r (allp (P 0%Z)) -> scalar r p2n (time_unit c par) = scalar r p2n par.
Proof.
  intros Hc hr. unfold scalar. destruct r as [p|]; [|reflexivity]. cbn [bind oks] in *. rewrite (Hp2n c par p 0%Z Hc hr). simpl. now rewrite Rmult_1_l.
Qed.
Lemma dscalar_tu c par r wrt : c <> 0 -> oks r (allp (P 0%Z)) ->
  dscalar r dp p2n (time_unit c par) wrt = rmap (fun x => (if is_rate wrt then c * x else x)) (dscalar r dp p2n par wrt).
Proof.
  intros Hc hr. unfold dscalar. destruct r as [p|]; [|reflexivity]. cbn [bind oks] in *.
  pose proof (Hdp p wrt hr) as hd. destruct (dp p wrt) as [q|]; [|reflexivity]. cbn [bind oks rmap] in *.
  rewrite (Hp2n c par q _ Hc hd). unfold ddim. destruct (is_rate wrt); simpl; f_equal; ring.
Qed.
End Scal.
