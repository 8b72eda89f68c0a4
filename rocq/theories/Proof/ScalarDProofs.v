(** Proofs about the scalar functions of the one- and two-factor models over partial dicts
    (Model/ScalarD.v). *)
From Coq Require Import Reals Lra.
From Coquelicot Require Import Coquelicot.
From Verif.Spec Require Import Params Dict.
From Verif.Proof Require Import ItoProofs KeyInv MonTac SumFacts DpolyProofs DecodeProofs Fsv1Proofs ConvProofs Fsv2Proofs Fsv2jProofs Dpoly2Proofs ScalarProofs EvenKeys.
From Verif.Model Require Import ScalarD.
Local Open Scope R_scope.

(** ** powers *)
Definition badp (xn : R * Z) : Prop := fst xn = 0 /\ (snd xn < 0)%Z.
Definition pval (l : list (R * Z)) : R := prodR (fun xn => pw (fst xn) (snd xn)) l.
Lemma pypow_bad x n : badp (x, n) -> pypow x n = Err ZeroDivisionError.
Proof. intros [h1 h2]. cbn [fst snd] in *. unfold pypow. destruct (Req_EM_T x 0); [|contradiction]. destruct (Z.ltb_spec n 0); [reflexivity|lia]. Qed.
Lemma badp_dec x n : badp (x, n) \/ (x <> 0 \/ (0 <= n)%Z).
Proof. unfold badp. cbn [fst snd]. destruct (Req_EM_T x 0); [|tauto]. destruct (Z.lt_ge_cases n 0); [tauto|right; right; lia]. Qed.
Lemma pows_bad l : Exists badp l -> pows l = Err ZeroDivisionError.
Proof.
  induction l as [|[x n] l IH]; intro H; [inversion H|]. cbn [pows].
  destruct (badp_dec x n) as [B|B]; [now rewrite pypow_bad|]. rewrite pypow_ok by exact B. cbn [bind].
  inversion H as [? ? h|? ? h]; subst; [destruct h; cbn [fst snd] in *; destruct B; [contradiction|lia]|]. now rewrite IH.
Qed.
Lemma pows_good l : ~ Exists badp l -> pows l = Ok (pval l).
Proof.
  intro H. apply pows_ok. apply Forall_forall. intros [x n] Hin. cbn [fst snd].
  destruct (badp_dec x n) as [B|B]; [|exact B]. exfalso. apply H. apply Exists_exists. eauto.
Qed.
Lemma Exists_badp_dec l : Exists badp l \/ ~ Exists badp l.
Proof. induction l as [|[x n] l IH]; [right; intro H; inversion H|].
  destruct (badp_dec x n) as [B|B]; [left; now left|]. destruct IH as [IH|IH]; [left; now right|]. right. intro H. inversion H as [? ? h|? ? h]; subst; [|contradiction].
  destruct h; cbn [fst snd] in *. destruct B; [contradiction|lia].
Qed.
Lemma pows_app (e : R) a b : (let! d := pows a in let! w := pows b in Ok (d * e * w)) = let! w := pows (a ++ b) in Ok (e * w).
Proof.
  destruct (Exists_badp_dec a) as [B|B].
  - rewrite (pows_bad a B), (pows_bad (a ++ b)) by (apply Exists_app; now left). reflexivity.
  - rewrite (pows_good a B). cbn [bind]. destruct (Exists_badp_dec b) as [D|D].
    + rewrite (pows_bad b D), (pows_bad (a ++ b)) by (apply Exists_app; now right). reflexivity.
    + rewrite (pows_good b D), (pows_good (a ++ b)) by (intro H; apply Exists_app in H; tauto). cbn [bind]. f_equal.
      unfold pval. assert (E : forall l, prodR (fun xn : R * Z => pw (fst xn) (snd xn)) (l ++ b)
        = prodR (fun xn : R * Z => pw (fst xn) (snd xn)) l * prodR (fun xn : R * Z => pw (fst xn) (snd xn)) b).
      { induction l as [|x l IH]; cbn [app prodR]; [ring|]. rewrite IH. ring. }
      rewrite E. ring.
Qed.

(** ** the loop over the monomials *)
Definition nf {K} (f : K -> list (R * Z)) (e : K -> R) (p : Poly K) : res R :=
  p2n_loop (fun k => let! w := pows (f k) in Ok (e k * w)) p.
Lemma p2n_loop_ext {K} (u v : K -> res R) p : (forall k, u k = v k) -> p2n_loop u p = p2n_loop v p.
Proof.
  intro H. unfold p2n_loop. generalize 0. induction (items p) as [|[k c] l IH]; intro a; cbn [foldM]; [reflexivity|].
  cbn [fst snd]. rewrite H. destruct (v k); cbn [bind]; [apply IH|reflexivity].
Qed.
Lemma nf_ok {K} f e (p : Poly K) : allk (fun k => ~ Exists badp (f k)) (items p) -> nf f e p = Ok (eval (fun k => e k * pval (f k)) (items p)).
Proof.
  intro A. unfold nf, p2n_loop. assert (H : forall l a, allk (fun k => ~ Exists badp (f k)) l ->
    foldM (fun g (kv : K * Q) => let! x := (let! w := pows (f (fst kv)) in Ok (e (fst kv) * w)) in Ok (g + x * Q2R (snd kv))) l a
    = Ok (a + eval (fun k => e k * pval (f k)) l)).
  { induction l as [|[k c] l IH]; intros a Al; cbn [foldM eval]; [now rewrite Rplus_0_r|]. cbn [fst snd].
    rewrite pows_good by exact (allk_in _ _ k c Al (or_introl eq_refl)). cbn [bind]. rewrite IH by (intros k' Hk'; apply Al; now right). f_equal. ring. }
  rewrite H by exact A. now rewrite Rplus_0_l.
Qed.
Lemma nf_bad {K} f e (p : Poly K) k c : In (k, c) (items p) -> Exists badp (f k) -> nf f e p = Err ZeroDivisionError.
Proof.
  intros Hin B. unfold nf, p2n_loop. generalize 0. induction (items p) as [|[k' c'] l IH]; intro a; [destruct Hin|]. cbn [foldM fst snd].
  destruct (Exists_badp_dec (f k')) as [D|D]; [now rewrite pows_bad|]. rewrite pows_good by exact D. cbn [bind].
  destruct Hin as [h|Hin]; [injection h as -> ->; contradiction|]. now apply IH.
Qed.

(** ** dicts *)
Lemma dget_agrees ns par q s : agrees ns par q -> In s ns -> dget par s = Ok (q s).
Proof. intros H Hin. unfold dget. now rewrite (H s Hin). Qed.
Ltac dgeta H := repeat match goal with |- context [dget ?par ?s] =>
  erewrite (dget_agrees _ par _ s H) by (cbn [In]; tauto); cbn [bind] end.
Ltac nokey := let s := fresh in let Hs := fresh in let Hn := fresh in intros s Hs Hn; unfold dget;
  repeat match goal with |- context [match ?par ?n with Some _ => _ | None => _ end] => let E := fresh in destruct (par n) eqn:E; cbn [bind]; [|reflexivity] end;
  exfalso; cbn [In] in Hs; repeat (destruct Hs as [<-|Hs]; [congruence|]); destruct Hs.
Ltac numnf := etransitivity; [apply fold_sum|]; rewrite Rplus_0_l, sumR_eval; apply sumR_ext;
  intros [K c] _; cbn [fst snd]; unfold pval, pw; cbn [prodR fst snd]; ring.

Notation ns_m1 := ["k"; "h"; "mu"; "theta"; "sigma_v"; "rho"]%string.
Notation ns_cm1 := ["k"; "h"; "theta"; "sigma_v"; "rho"]%string.
Notation ns_c1 := ["v0"; "k"; "h"; "theta"; "sigma_v"; "rho"]%string.
Notation ns_mj := ["k"; "h"; "mu"; "theta"; "sigma_v"; "rho"; "lambda"; "mu_j"; "sigma_j"]%string.
Notation ns_cmj := ["k"; "h"; "theta"; "sigma_v"; "rho"; "lambda"; "mu_j"; "sigma_j"]%string.
Notation ns2_m := ["k1"; "k2"; "h"; "mu"; "theta1"; "theta2"; "sigma_v1"; "sigma_v2"]%string.
Notation ns2_cm := ["k1"; "k2"; "h"; "theta1"; "theta2"; "sigma_v1"; "sigma_v2"]%string.
Notation ns2_mj := ["k1"; "k2"; "h"; "mu"; "theta1"; "theta2"; "sigma_v1"; "sigma_v2"; "lambda"; "mu_j"; "sigma_j"]%string.
Notation ns2_cmj := ["k1"; "k2"; "h"; "theta1"; "theta2"; "sigma_v1"; "sigma_v2"; "lambda"; "mu_j"; "sigma_j"]%string.

Lemma p2n_m1_key p par : forall s, In s ns_m1 -> par s = None -> p2n_m1 p par = Err KeyError.
Proof. unfold p2n_m1. nokey. Qed.
Lemma p2n_cm1_key p par : forall s, In s ns_cm1 -> par s = None -> p2n_cm1 p par = Err KeyError.
Proof. unfold p2n_cm1. nokey. Qed.
Lemma p2n_c1_key p par : forall s, In s ns_c1 -> par s = None -> p2n_c1 p par = Err KeyError.
Proof. unfold p2n_c1. nokey. Qed.
Lemma p2n_mj_key p par : forall s, In s ns_mj -> par s = None -> p2n_mj p par = Err KeyError.
Proof. unfold p2n_mj. nokey. Qed.
Lemma p2n_cmj_key p par : forall s, In s ns_cmj -> par s = None -> p2n_cmj p par = Err KeyError.
Proof. unfold p2n_cmj. nokey. Qed.
Lemma p2n2_m_key p par : forall s, In s ns2_m -> par s = None -> p2n2_m p par = Err KeyError.
Proof. unfold p2n2_m. nokey. Qed.
Lemma p2n2_cm_key p par : forall s, In s ns2_cm -> par s = None -> p2n2_cm p par = Err KeyError.
Proof. unfold p2n2_cm. nokey. Qed.
Lemma p2n2_mj_key p par : forall s, In s ns2_mj -> par s = None -> p2n2_mj p par = Err KeyError.
Proof. unfold p2n2_mj. nokey. Qed.
Lemma p2n2_cmj_key p par : forall s, In s ns2_cmj -> par s = None -> p2n2_cmj p par = Err KeyError.
Proof. unfold p2n2_cmj. nokey. Qed.

(** ** the factors of one monomial *)
Section Factors.
Variable q : string -> R.
Definition e1 (K : list Z) : R := exp (- pint K 0 * q "k"%string * q "h"%string).
Definition f_hk (K : list Z) : list (R * Z) := [(q "h"%string, nthZ K 1); (q "k"%string, (- nthZ K 2)%Z)].
Definition f_m1 (K : list Z) := f_hk K ++ [(q "mu"%string, nthZ K 3); (q "theta"%string, nthZ K 4); (q "sigma_v"%string, nthZ K 5);
  (q "rho"%string, nthZ K 6); (1 - q "rho"%string ^ 2, (nthZ K 7 / 2)%Z)].
Definition f_cm1 (K : list Z) := f_hk K ++ [(q "theta"%string, nthZ K 3); (q "sigma_v"%string, nthZ K 4);
  (q "rho"%string, nthZ K 5); (1 - q "rho"%string ^ 2, (nthZ K 6 / 2)%Z)].
Definition f_c1 (K : list Z) := f_hk K ++ [(q "v0"%string - q "theta"%string, nthZ K 3); (q "theta"%string, nthZ K 4); (q "sigma_v"%string, nthZ K 5);
  (q "rho"%string, nthZ K 6)].
Definition f_j (n : nat) (K : list Z) := [(q "lambda"%string, nthZ K n); (q "mu_j"%string, nthZ K (S n)); (q "sigma_j"%string, nthZ K (S (S n)))].
Definition f_mj (K : list Z) := f_m1 K ++ f_j 8 K.
Definition f_cmj (K : list Z) := f_cm1 K ++ f_j 7 K.
Definition e2 (K : fkey) : R := let '(t0, ((n1, n2), x)) := K in exp (- (IZR n1 * q "k1"%string + IZR n2 * q "k2"%string) * q "h"%string).
Definition f_den (K : fkey) : list (R * Z) := map (fun t => let '(a, b, e) := t in (IZR a * q "k1"%string + IZR b * q "k2"%string, (- e)%Z)) (fst K).
Definition x2_m (x : list Z) := [(q "h"%string, nthZ x 0); (q "mu"%string, nthZ x 1); (q "theta1"%string, nthZ x 2); (q "sigma_v1"%string, nthZ x 3);
  (q "theta2"%string, nthZ x 4); (q "sigma_v2"%string, nthZ x 5)].
Definition x2_cm (x : list Z) := [(q "h"%string, nthZ x 0); (q "theta1"%string, nthZ x 1); (q "sigma_v1"%string, nthZ x 2);
  (q "theta2"%string, nthZ x 3); (q "sigma_v2"%string, nthZ x 4)].
Definition x2_mj (x : list Z) := x2_m x ++ f_j 6 x.
Definition x2_cmj (x : list Z) := x2_cm x ++ f_j 5 x.
Definition f2 (g : list Z -> list (R * Z)) (K : fkey) : list (R * Z) := f_den K ++ g (snd (snd K)).
End Factors.

(** the exponent of sqrt(1-rho^2) is even; the correlation is one *)
Definition evk (i : nat) (K : list Z) : Prop := (nthZ K i mod 2 = 0)%Z.
Definition corr (q : string -> R) : Prop := -1 <= q "rho"%string <= 1.
Lemma half_even x n : (n mod 2 = 0)%Z -> halfpow x n = pypow x (n / 2).
Proof. intro E. unfold halfpow. now rewrite Zeven_mod, E. Qed.
Lemma pows_cat l1 l2 : pows (l1 ++ l2) = let! a := pows l1 in let! b := pows l2 in Ok (a * b).
Proof.
  induction l1 as [|[x n] l1 IH]; cbn [app pows].
  - cbn [bind]. destruct (pows l2); cbn [bind]; [f_equal; ring|reflexivity].
  - rewrite IH. destruct (pypow x n); cbn [bind]; [|reflexivity]. destruct (pows l1); cbn [bind]; [|reflexivity].
    destruct (pows l2); cbn [bind]; [f_equal; ring|reflexivity].
Qed.
Lemma p2n_loop_ext_in {K} (u v : K -> res R) p : allk (fun k => u k = v k) (items p) -> p2n_loop u p = p2n_loop v p.
Proof.
  unfold p2n_loop. generalize 0. induction (items p) as [|[k c] l IH]; intros a A; cbn [foldM]; [reflexivity|].
  cbn [fst snd]. rewrite (allk_in _ _ k c A (or_introl eq_refl)). destruct (v k); cbn [bind]; [apply IH|reflexivity]. intros k' Hk'; apply A; now right.
Qed.
Lemma half_end (e x : R) n l : (n mod 2 = 0)%Z ->
  (let! w := pows l in let! s := halfpow x n in Ok (e * (w * s))) = let! w := pows (l ++ [(x, (n / 2)%Z)]) in Ok (e * w).
Proof.
  intro E. rewrite pows_cat, half_even by exact E. cbn [pows]. destruct (pows l); cbn [bind]; [|reflexivity].
  destruct (pypow x (n / 2)); cbn [bind]; [f_equal; ring|reflexivity].
Qed.
Lemma half_mid (e x : R) n l j : (n mod 2 = 0)%Z ->
  (let! w := pows l in let! s := halfpow x n in let! j := pows j in Ok (e * (w * s * j))) = let! w := pows ((l ++ [(x, (n / 2)%Z)]) ++ j) in Ok (e * w).
Proof.
  intro E. rewrite !pows_cat, half_even by exact E. cbn [pows]. destruct (pows l); cbn [bind]; [|reflexivity].
  destruct (pypow x (n / 2)); cbn [bind]; [|reflexivity]. destruct (pows j); cbn [bind]; [f_equal; ring|reflexivity].
Qed.
Ltac half1 He := apply p2n_loop_ext_in; apply (allk_weaken _ _ _ He); let K := fresh "K" in let E := fresh "E" in intros K E;
  first [exact (half_end _ _ _ _ E)|exact (half_mid _ _ _ _ _ E)].
Lemma corr_sq q : corr q -> 0 <= 1 - q "rho"%string ^ 2.
Proof. unfold corr. nra. Qed.
Ltac numnfe Hc He := etransitivity; [apply fold_sum|]; rewrite Rplus_0_l, sumR_eval; apply sumR_ext;
  intros [K c] Hin; cbn [fst snd]; pose proof (allk_in _ _ K c He Hin) as E; cbv beta in E; unfold evk in E;
  rewrite (sqrt_even _ _ (corr_sq _ Hc) E); unfold pval, pw; cbn [prodR fst snd]; ring.
Lemma p2n_m1_nf par q p : allk (evk 7) (items p) -> agrees ns_m1 par q -> p2n_m1 p par = nf (f_m1 q) (e1 q) p.
Proof. intros He H. unfold p2n_m1. dgeta H. half1 He. Qed.
Lemma p2n_cm1_nf par q p : allk (evk 6) (items p) -> agrees ns_cm1 par q -> p2n_cm1 p par = nf (f_cm1 q) (e1 q) p.
Proof. intros He H. unfold p2n_cm1. dgeta H. half1 He. Qed.
Lemma p2n_c1_nf par q p : agrees ns_c1 par q -> p2n_c1 p par = nf (f_c1 q) (e1 q) p.
Proof. intro H. unfold p2n_c1. dgeta H. reflexivity. Qed.
Lemma p2n_mj_nf par q p : allk (evk 7) (items p) -> agrees ns_mj par q -> p2n_mj p par = nf (f_mj q) (e1 q) p.
Proof. intros He H. unfold p2n_mj. dgeta H. half1 He. Qed.
Lemma p2n_cmj_nf par q p : allk (evk 6) (items p) -> agrees ns_cmj par q -> p2n_cmj p par = nf (f_cmj q) (e1 q) p.
Proof. intros He H. unfold p2n_cmj. dgeta H. half1 He. Qed.
Lemma p2n_loop2_nf q g p : p2n_loop2 (q "k1"%string) (q "k2"%string) (q "h"%string) g p = nf (f2 q g) (e2 q) p.
Proof. unfold p2n_loop2, nf. apply p2n_loop_ext. intros [t0 [[n1 n2] x]]. unfold f2, e2, f_den. cbn [fst snd]. apply pows_app. Qed.
Lemma p2n2_m_nf par q p : agrees ns2_m par q -> p2n2_m p par = nf (f2 q (x2_m q)) (e2 q) p.
Proof. intro H. unfold p2n2_m. dgeta H. exact (p2n_loop2_nf q (x2_m q) p). Qed.
Lemma p2n2_cm_nf par q p : agrees ns2_cm par q -> p2n2_cm p par = nf (f2 q (x2_cm q)) (e2 q) p.
Proof. intro H. unfold p2n2_cm. dgeta H. exact (p2n_loop2_nf q (x2_cm q) p). Qed.
Lemma p2n2_mj_nf par q p : agrees ns2_mj par q -> p2n2_mj p par = nf (f2 q (x2_mj q)) (e2 q) p.
Proof. intro H. unfold p2n2_mj. dgeta H. exact (p2n_loop2_nf q (x2_mj q) p). Qed.
Lemma p2n2_cmj_nf par q p : agrees ns2_cmj par q -> p2n2_cmj p par = nf (f2 q (x2_cmj q)) (e2 q) p.
Proof. intro H. unfold p2n2_cmj. dgeta H. exact (p2n_loop2_nf q (x2_cmj q) p). Qed.

(** the total functions are the same sums *)
Lemma num_m1 q p : corr q -> allk (evk 7) (items p) -> poly2num_m1 p q = eval (fun K => e1 q K * pval (f_m1 q K)) (items p).
Proof. intros Hc He. unfold poly2num_m1, f_m1, f_hk, e1, app. numnfe Hc He. Qed.
Lemma num_cm1 q p : corr q -> allk (evk 6) (items p) -> poly2num_cm1 p q = eval (fun K => e1 q K * pval (f_cm1 q K)) (items p).
Proof. intros Hc He. unfold poly2num_cm1, f_cm1, f_hk, e1, app. numnfe Hc He. Qed.
Lemma num_c1 q p : poly2num_c1 p q = eval (fun K => e1 q K * pval (f_c1 q K)) (items p).
Proof. unfold poly2num_c1, f_c1, f_hk, e1, app. numnf. Qed.
Lemma num_mj q p : corr q -> allk (evk 7) (items p) -> poly2num_mj p q = eval (fun K => e1 q K * pval (f_mj q K)) (items p).
Proof. intros Hc He. unfold poly2num_mj, f_mj, f_j, f_m1, f_hk, e1, app. numnfe Hc He. Qed.
Lemma num_cmj q p : corr q -> allk (evk 6) (items p) -> poly2num_cmj p q = eval (fun K => e1 q K * pval (f_cmj q K)) (items p).
Proof. intros Hc He. unfold poly2num_cmj, f_cmj, f_j, f_cm1, f_hk, e1, app. numnfe Hc He. Qed.

Lemma pval_app a b : pval (a ++ b) = pval a * pval b.
Proof. unfold pval. induction a as [|x l IH]; cbn [app prodR]; [ring|]. rewrite IH. ring. Qed.
Lemma head_nf q kv : p2n_head (q "k1"%string) (q "k2"%string) (q "h"%string) kv
  = Q2R (snd kv) * (e2 q (fst kv) * pval (f_den q (fst kv))) * pw (q "h"%string) (kint kv 0).
Proof.
  destruct kv as [[t0 [[n1 n2] x]] c]. unfold p2n_head, e2, f_den, kint. cbn [fst snd].
  assert (E : forall u a, fold_left (fun (val : R) (t : Z * Z * Z) => let '(a, b, e) := t in
     val * powerRZ (IZR a * q "k1"%string + IZR b * q "k2"%string) (- e)) u a
   = a * pval (map (fun t => let '(a, b, e) := t in (IZR a * q "k1"%string + IZR b * q "k2"%string, (- e)%Z)) u)).
  { induction u as [|[[a b] e] r IH]; intro y; cbn [fold_left map]; [unfold pval; cbn [prodR]; ring|]. rewrite IH. unfold pval. cbn [prodR fst snd]. unfold pw. ring. }
  rewrite E. unfold pw. ring.
Qed.
Ltac numnf2 q := etransitivity; [apply fold_sum|]; rewrite Rplus_0_l, sumR_eval; apply sumR_ext;
  intros kv _; cbv zeta; rewrite (head_nf q); unfold f2; rewrite pval_app; unfold kint;
  set (X := snd (snd (fst kv))); set (D := pval (f_den q (fst kv))); unfold pval, pw; cbn [prodR fst snd app]; ring.
Lemma num2_m q p : poly2num2_m p q = eval (fun K => e2 q K * pval (f2 q (x2_m q) K)) (items p).
Proof. unfold poly2num2_m, x2_m. numnf2 q. Qed.
Lemma num2_cm q p : poly2num2_cm p q = eval (fun K => e2 q K * pval (f2 q (x2_cm q) K)) (items p).
Proof. unfold poly2num2_cm, x2_cm. numnf2 q. Qed.
Lemma num2_mj q p : poly2num2_mj p q = eval (fun K => e2 q K * pval (f2 q (x2_mj q) K)) (items p).
Proof. unfold poly2num2_mj, x2_mj, x2_m, f_j. numnf2 q. Qed.
Lemma num2_cmj q p : poly2num2_cmj p q = eval (fun K => e2 q K * pval (f2 q (x2_cmj q) K)) (items p).
Proof. unfold poly2num2_cmj, x2_cmj, x2_cm, f_j. numnf2 q. Qed.

(** ** from the polynomial to the scalar function *)
Lemma spec_poly {K} (P : Poly K) (p2nD : Poly K -> dict -> res R) (num : Poly K -> (string -> R) -> R) ns f e (dom : (string -> R) -> Prop) bad :
  (forall par s, In s ns -> par s = None -> p2nD P par = Err KeyError) ->
  (forall par q, agrees ns par q -> p2nD P par = nf (f q) (e q) P) ->
  (forall q, dom q -> num P q = eval (fun k => e q k * pval (f q k)) (items P)) ->
  (forall q, dom q -> allk (fun k => Exists badp (f q k) <-> bad q k) (items P)) ->
  dict_spec ns dom (p2nD P) (undef_poly bad (Ok P)) (fun q => Ok (num P q)).
Proof.
  intros H1 H2 H3 H4. split; [exact H1|]. intros par q HA HD. rewrite (H2 par q HA). split.
  - intros (r & k & c & [= <-] & Hin & B). apply (nf_bad _ _ P k c Hin). apply (allk_in _ _ k c (H4 q HD) Hin). exact B.
  - intro U. rewrite (H3 q HD). apply nf_ok. intros k Hk B. apply U. apply in_map_iff in Hk. destruct Hk as ([k' c] & <- & Hin). cbn [fst] in *.
    exists P, k', c. split; [reflexivity|]. split; [exact Hin|]. apply (allk_in _ _ k' c (H4 q HD) Hin). exact B.
Qed.
Lemma spec_ext ns dom f f' undef undef' g g' : (forall par, f' par = f par) -> (forall q, undef' q <-> undef q) -> (forall q, g' q = g q) ->
  dict_spec ns dom f undef g -> dict_spec ns dom f' undef' g'.
Proof.
  intros Hf Hu Hg [A B]. split; [intros par s h1 h2; rewrite Hf; eauto|]. intros par q h1 h2. destruct (B par q h1 h2) as [B1 B2].
  rewrite Hf, Hg, Hu. auto.
Qed.
Lemma spec_scal {K} (poly : res (Poly K)) P (p2nD : Poly K -> dict -> res R) num ns dom bad : poly = Ok P ->
  dict_spec ns dom (p2nD P) (undef_poly bad (Ok P)) (fun q => Ok (num P q)) ->
  dict_spec ns dom (scal poly p2nD) (undef_poly bad poly) (scalar poly num).
Proof. intros ->. apply spec_ext; reflexivity. Qed.
Lemma spec_dscal {K} (poly : res (Poly K)) M P (dp : Poly K -> string -> res (Poly K)) (p2nD : Poly K -> dict -> res R) num ns dom bad wrt :
  poly = Ok M -> dp M wrt = Ok P ->
  dict_spec ns dom (p2nD P) (undef_poly bad (Ok P)) (fun q => Ok (num P q)) ->
  dict_spec ns dom (fun par => dscal poly dp p2nD par wrt) (undef_poly bad (let! m := poly in dp m wrt)) (fun q => dscalar poly dp num q wrt).
Proof. intros -> E. unfold dscal, dscalar. cbn [bind]. rewrite E. apply spec_ext; reflexivity. Qed.

(** ** which monomials are not defined *)
Definition okp (xn : R * Z) : Prop := fst xn <> 0 \/ (0 <= snd xn)%Z.
Lemma ok_not_bad l : Forall okp l -> ~ Exists badp l.
Proof.
  intros F B. apply Exists_exists in B. destruct B as (x & Hin & h1 & h2). pose proof (proj1 (Forall_forall _ _) F x Hin) as [h|h]; [contradiction|lia].
Qed.
Lemma bad_hk q (a b c : Z) r rest : (0 <= b)%Z -> Forall okp rest ->
  (Exists badp (f_hk q (a :: b :: c :: r) ++ rest) <-> neg_k q (a :: b :: c :: r)).
Proof.
  intros Hb F. unfold f_hk, neg_k, nthZ. cbn [nth nth_error app]. split.
  - intro H. inversion H as [? ? [h1 h2]|? ? h]; subst; cbn [fst snd] in *; [lia|]. inversion h as [? ? [h1 h2]|? ? h']; subst; cbn [fst snd] in *.
    + split; [exact h1|]. exists c. split; [reflexivity|lia].
    + destruct (ok_not_bad _ F h').
  - intros [h1 (n & [= <-] & h2)]. right. left. split; cbn [fst snd]; [exact h1|lia].
Qed.
Lemma bad_den q g K : Forall okp (g (snd (snd K))) -> (Exists badp (f2 q g K) <-> zero_den q K).
Proof.
  intro F. unfold f2, f_den, zero_den. rewrite Exists_app. split.
  - intros [h|h]; [|destruct (ok_not_bad _ F h)]. apply Exists_exists in h. destruct h as (x & Hin & h1 & h2).
    apply in_map_iff in Hin. destruct Hin as ([[a b] e] & <- & Hin). cbn [fst snd] in *. exists a, b, e. split; [exact Hin|]. split; [lia|exact h1].
  - intros (a & b & e & Hin & He & h). left. apply Exists_exists. eexists. split; [apply in_map_iff; exists (a, b, e); split; [reflexivity|exact Hin]|].
    split; cbn [fst snd]; [exact h|lia].
Qed.

Ltac okrest := repeat (constructor; [unfold okp, nthZ; cbn [fst snd nth]; first [right; assumption|right; apply Z.div_pos; [assumption|lia]|tauto]|]); constructor.
Lemma bad_m1 q K : wfs [false; true; true; true; true; true; true; true] K -> (Exists badp (f_m1 q K) <-> neg_k q K).
Proof. intro W. wfs_destruct. unfold f_m1. apply bad_hk; [assumption|]. okrest. Qed.
Lemma bad_cm1 q K : wfs [false; true; true; true; true; true; true] K -> (Exists badp (f_cm1 q K) <-> neg_k q K).
Proof. intro W. wfs_destruct. unfold f_cm1. apply bad_hk; [assumption|]. okrest. Qed.
Lemma bad_mj q K : wfs [false; true; true; true; true; true; true; true; true; true; true] K -> (Exists badp (f_mj q K) <-> neg_k q K).
Proof. intro W. wfs_destruct. unfold f_mj, f_m1. rewrite <- app_assoc. apply bad_hk; [assumption|]. okrest. Qed.
Lemma bad_cmj q K : wfs [false; true; true; true; true; true; true; true; true; true] K -> (Exists badp (f_cmj q K) <-> neg_k q K).
Proof. intro W. wfs_destruct. unfold f_cmj, f_cm1. rewrite <- app_assoc. apply bad_hk; [assumption|]. okrest. Qed.
(** the last entries of a two-factor key are non-negative *)
Definition wfx (s : list bool) (K : fkey) : Prop := wfs s (snd (snd K)).
Lemma fwf_wfx s B l : allk (fwf s B) l -> allk (wfx s) l.
Proof. intro A. apply (allk_weaken _ _ _ A). intros [t0 [t1 x]] (_ & W & _). exact W. Qed.
Lemma bad2_m q K : wfx T6 K -> (Exists badp (f2 q (x2_m q) K) <-> zero_den q K).
Proof. destruct K as [t0 [t1 x]]. unfold wfx. cbn [fst snd]. intro W. apply bad_den. cbn [fst snd]. unfold T6 in W. wfs_destruct. okrest. Qed.
Lemma bad2_cm q K : wfx T5 K -> (Exists badp (f2 q (x2_cm q) K) <-> zero_den q K).
Proof. destruct K as [t0 [t1 x]]. unfold wfx. cbn [fst snd]. intro W. apply bad_den. cbn [fst snd]. unfold T5 in W. wfs_destruct. okrest. Qed.
Lemma bad2_mj q K : wfx T9 K -> (Exists badp (f2 q (x2_mj q) K) <-> zero_den q K).
Proof. destruct K as [t0 [t1 x]]. unfold wfx. cbn [fst snd]. intro W. apply bad_den. cbn [fst snd]. unfold T9 in W. wfs_destruct. okrest. Qed.
Lemma bad2_cmj q K : wfx T8 K -> (Exists badp (f2 q (x2_cmj q) K) <-> zero_den q K).
Proof. destruct K as [t0 [t1 x]]. unfold wfx. cbn [fst snd]. intro W. apply bad_den. cbn [fst snd]. unfold T8 in W. wfs_destruct. okrest. Qed.

(** ** the derivatives have no negative exponents either *)
Lemma d_loop_allk (P Q : list Z -> Prop) rules kf p :
  (forall r k, In r rules -> P k -> fst r k <> 0%Z -> Q (snd r k)) -> allk P (items p) -> allk Q (items (d_loop rules kf p)).
Proof.
  intros Hr Hp. unfold d_loop. cbn [items].
  assert (W : forall l a, allk P l -> allk Q a ->
    allk Q (fold_left (fun a kv => fold_left (fun a (r : rule) =>
      if (fst r (fst kv) =? 0)%Z then a else add_kv (snd r (fst kv)) (qmul (qz (fst r (fst kv))) (snd kv)) a) rules a) l a)).
  { induction l as [|[k v] l IH]; intros a Hl Ha; cbn [fold_left fst snd]; [assumption|].
    pose proof (allk_in _ _ k v Hl (or_introl eq_refl)) as Hk. cbv beta in Hk.
    assert (Hl' : allk P l) by (intros k' Hk'; apply Hl; now right). apply IH; [assumption|]. clear IH Hl Hl'.
    revert a Ha. induction rules as [|r rs IHr]; intros a Ha; cbn [fold_left]; [assumption|].
    apply IHr; [intros; apply Hr; [now right|assumption|assumption]|]. destruct (Z.eqb_spec (fst r k) 0); [assumption|].
    apply allk_add_kv; [assumption|]. apply Hr; [now left|assumption|assumption]. }
  apply W; [assumption|apply allk_nil].
Qed.
Ltac d_shape := match goal with A : allk _ (items ?p) |- allk _ (items (d_loop _ _ ?p)) => apply (d_loop_allk _ _ _ _ p) with (2 := A);
    let r := fresh "r" in let K := fresh "K" in let Hi := fresh "Hi" in let W := fresh "W" in let Hne := fresh "Hne" in
    intros r K Hi W Hne; wfs_destruct; cbn [In r_k r_rho r_plain] in Hi;
    repeat (destruct Hi as [<-|Hi]; [cbn [fst snd] in *; unfold nthZ in *; cbn [nth addat wfs] in *; repeat split; try assumption; lia|]); destruct Hi end.
Lemma wfs_addat i d s : forall x, (i < length s)%nat -> wfs s x -> (0 <= nthZ x i + d)%Z -> wfs s (addat i d x).
Proof.
  revert i. induction s as [|b s IH]; intros i [|n x] Hi W H; cbn [length] in Hi; try lia; [destruct W|]. destruct W as [W1 W2].
  destruct i as [|i]; cbn [addat wfs].
  - split; [destruct b; [exact H|constructor]|assumption].
  - split; [exact W1|]. apply IH; [lia|assumption|exact H].
Qed.
Lemma wfs_nn i s : forall x, (i < length s)%nat -> Forall (fun b => b = true) s -> wfs s x -> (0 <= nthZ x i)%Z.
Proof.
  revert i. induction s as [|b s IH]; intros i [|n x] Hi F W; cbn [length] in Hi; try lia; [destruct W|]. destruct W as [W1 W2]. inversion F; subst.
  destruct i as [|i]; [exact W1|]. apply (IH i x); [lia|assumption|assumption].
Qed.
Lemma e_wfx s : Forall (fun b => b = true) s -> (0 < length s)%nat ->
  (forall i k e, (i < length s)%nat -> wfx s k -> In e (e_plain i k) -> wfx s (fst e)) /\
  (forall m k e, wfx s k -> In e (e_dt m k) -> wfx s (fst e)) /\
  (forall m k e, wfx s k -> In e (e_exp m k) -> wfx s (fst e)).
Proof.
  intros F H0. unfold wfx. repeat split.
  - intros i [t0 [t1 x]] e Hi Hk. cbn [e_plain fst snd] in *. destruct (Z.eqb_spec (nthZ x i) 0); [intros []|]. intros [<-|[]]. cbn [fst snd].
    apply wfs_addat; [assumption|assumption|]. pose proof (wfs_nn i s x Hi F Hk). lia.
  - intros m [t0 [t1 x]] e Hk Hin. unfold e_dt in Hin. apply in_map_iff in Hin. destruct Hin as (t & <- & _). exact Hk.
  - intros m [t0 [t1 x]] e Hk. cbn [e_exp fst snd] in *. destruct (m t1 =? 0)%Z; [intros []|]. intros [<-|[]]. cbn [fst snd].
    apply wfs_addat; [assumption|assumption|]. pose proof (wfs_nn 0 s x H0 F Hk). lia.
Qed.
