(** The values of the one-factor functions and their derivatives for every rho. *)
From Coq Require Import Reals Lra.
From Coquelicot Require Import Coquelicot.
From Verif.Spec Require Import Params Dict AnyRho.
From Verif.Proof Require Import ItoProofs KeyInv MonTac SumFacts DpolyProofs DecodeProofs ScalarDProofs.
Local Open Scope R_scope.

(** ** powers of 1-rho^2 instead of sqrt(1-rho^2): halve one entry of the key *)
Definition half (j : nat) (K : list Z) : list Z := firstn j K ++ (nthZ K j / 2)%Z :: skipn (S j) K.
Definition pmap (f : list Z -> list Z) (p : Poly (list Z)) : Poly (list Z) := mkPoly (map (fun kv => (f (fst kv), snd kv)) (items p)) (keyfor p).
Lemma eval_pmap mon f p : eval mon (items (pmap f p)) = eval (fun k => mon (f k)) (items p).
Proof. cbn [pmap items]. induction (items p) as [|[k c] l IH]; cbn [map eval fst snd]; [reflexivity|]. now rewrite IH. Qed.
Lemma d_loop_half f mon rules rules' kf kf' p :
  allk (fun k => Forall2 (fun r r' : rule => fst r k = fst r' (f k) /\ f (snd r k) = snd r' (f k)) rules rules') (items p) ->
  eval (fun k => mon (f k)) (items (d_loop rules kf p)) = eval mon (items (d_loop rules' kf' (pmap f p))).
Proof.
  intro A. rewrite !d_loop_eval, eval_pmap. apply eval_ext_in. intros k c Hin. pose proof (allk_in _ _ k c A Hin) as F. cbv beta in F. clear A.
  induction F as [|r r' rs rs' [h1 h2] _ IH]; cbn [sumR]; [reflexivity|]. rewrite h1, h2, IH. reflexivity.
Qed.

Definition r_rho2 (i j : nat) : list rule :=
  [(fun k => nthZ k i, addat i (-1)); (fun k => (- (2 * nthZ k j))%Z, fun k => addat j (-1) (addat i 1 k))].
Lemma der_sq (r : R) : is_derive (fun r => 1 - r ^ 2) r (- (2 * r)).
Proof.
  eapply is_derive_val; [apply is_derive_Rminus; [apply is_derive_Rconst|apply is_derive_Rpow, is_derive_Rid]|]. cbn [pred pow INR]. ring.
Qed.
Lemma rho2_derive (rho : R) (pre rest : list R) kf p :
  (forall k c, In (k, c) (items p) -> Forall2 (fun x n => x <> 0 \/ (0 <= n)%Z) pre (firstn (length pre) k) /\
     exists a m r, skipn (length pre) k = a :: m :: r /\ (0 <= a)%Z /\ (0 <= m)%Z /\ Forall2 (fun x n => x <> 0 \/ (0 <= n)%Z) rest r) ->
  is_derive (fun r => eval (monx (pre ++ r :: (1 - r ^ 2) :: rest)) (items p)) rho
    (eval (monx (pre ++ rho :: (1 - rho ^ 2) :: rest)) (items (d_loop (r_rho2 (length pre) (S (length pre))) kf p))).
Proof.
  intro Hf.
  set (fs := map c_ pre ++ (fun r => r) :: (fun r => 1 - r ^ 2) :: map c_ rest).
  assert (Em : forall x, map (fun f => f x) fs = pre ++ x :: (1 - x ^ 2) :: rest).
  { intro x. unfold fs. rewrite map_app. cbn [map]. now rewrite !map_c. }
  apply (is_derive_ext_loc_all (fun t => eval (monx (map (fun f => f t) fs)) (items p))).
  { intro t. now rewrite Em. }
  rewrite <- Em.
  apply (d_loop_derive fs rho (map (fun _ => 0) pre ++ 1 :: (- (2 * rho)) :: map (fun _ => 0) rest)).
  - intros k c Hin. destruct (Hf k c Hin) as (F1 & a & m & r & Ek & Ha & Hm & F2). unfold fs. clear - F1 F2 Ek Ha Hm. revert k F1 Ek.
    induction pre as [|y pre IH]; intros k F1 Ek; cbn [app map length firstn skipn] in *.
    + subst k. apply ders_cons; [apply is_derive_Rid|now right|]. apply ders_cons; [apply der_sq|now right|]. now apply ders_consts.
    + destruct k as [|n k]; [discriminate Ek|]. inversion F1; subst. apply ders_cons; [apply is_derive_Rconst|assumption|]. now apply IH.
  - intros k c Hin. destruct (Hf k c Hin) as (F1 & a & m & r & Ek & Ha & Hm & F2). rewrite Em. unfold r_rho2, nthZ. cbn [sumR fst snd].
    clear - F1 F2 Ek Ha Hm. revert k F1 Ek.
    induction pre as [|y pre IH]; intros k F1 Ek; cbn [app map length firstn skipn] in *.
    + subst k. cbn [nth addat monx dmonx]. rewrite dmonx_0, opp_IZR, mult_IZR.
      rewrite (pow_lemma_pw rho a 1) by (right; split; lia). unfold Z.sub. change (- (1))%Z with (-1)%Z. rewrite pw_p1. ring.
    + destruct k as [|n k]; [discriminate Ek|]. inversion F1; subst. cbn [nth addat monx dmonx].
      match goal with h : Forall2 _ pre _ |- _ => specialize (IH k h Ek) end. cbn [addat] in IH. rewrite <- IH. ring.
Qed.

(** ** the value lists *)
Section V.
Variable q : string -> R.
Local Notation R2 := (1 - q "rho"%string ^ 2).
Definition w8 : list R := [exp (- (q "k"%string * q "h"%string)); q "h"%string; / q "k"%string; q "mu"%string; q "theta"%string; q "sigma_v"%string; q "rho"%string; R2].
Definition w7 : list R := [exp (- (q "k"%string * q "h"%string)); q "h"%string; / q "k"%string; q "theta"%string; q "sigma_v"%string; q "rho"%string; R2].
Definition w11 : list R := w8 ++ v_jump q.
Definition w10 : list R := w7 ++ v_jump q.
End V.
Ltac vk W := wfs_destruct; unfold half, w11, w10, w8, w7, val11, val10, val8, val7, v_jump, nthZ; cbn [nth firstn skipn app monx];
  repeat match goal with |- context [powerRZ ?x ?n] => change (powerRZ x n) with (pw x n) end;
  rewrite (Rmult_assoc (- _)), exp_pw, pw_inv_neg; ring.
Lemma val8_monx q K : wfs [false; true; true; true; true; true; true; true] K -> val8 q K = monx (w8 q) (half 7 K).
Proof. intro W. vk W. Qed.
Lemma val7_monx q K : wfs [false; true; true; true; true; true; true] K -> val7 q K = monx (w7 q) (half 6 K).
Proof. intro W. vk W. Qed.
Lemma val11_monx q K : wfs [false; true; true; true; true; true; true; true; true; true; true] K -> val11 q K = monx (w11 q) (half 7 K).
Proof. intro W. vk W. Qed.
Lemma val10_monx q K : wfs [false; true; true; true; true; true; true; true; true; true] K -> val10 q K = monx (w10 q) (half 6 K).
Proof. intro W. vk W. Qed.

(** ** the normal forms of the loops *)
Ltac vf W := wfs_destruct; unfold e1, f_mj, f_cmj, f_m1, f_cm1, f_j, f_hk, val11, val10, val8, val7, pint, nthZ; cbn [nth app pval prodR fst snd]; unfold pval; cbn [prodR fst snd]; unfold pw; ring.
Lemma nf_val8 q K : wfs [false; true; true; true; true; true; true; true] K -> e1 q K * pval (f_m1 q K) = val8 q K.
Proof. intro W. vf W. Qed.
Lemma nf_val7 q K : wfs [false; true; true; true; true; true; true] K -> e1 q K * pval (f_cm1 q K) = val7 q K.
Proof. intro W. vf W. Qed.
Lemma nf_val11 q K : wfs [false; true; true; true; true; true; true; true; true; true; true] K -> e1 q K * pval (f_mj q K) = val11 q K.
Proof. intro W. vf W. Qed.
Lemma nf_val10 q K : wfs [false; true; true; true; true; true; true; true; true; true] K -> e1 q K * pval (f_cmj q K) = val10 q K.
Proof. intro W. vf W. Qed.
