(** All keys of the moments of the one-factor models, also those of the jump models with a zero
    coefficient, have an even power of sqrt(1-rho^2). *)
From Coq Require Import Reals Lra.
From Verif.Proof Require Import Parity Parity3.
From Verif.Model Require Import Scalar.
Local Open Scope Z_scope.

(** a result without zero coefficients *)
Definition clean {K} (r : res (Poly K)) : Prop := oks r (fun p => forall k c, In (k, c) (items p) -> ~ (c == 0)%Q).
Lemma clean_rm {K} (p : Poly K) : clean (Ok (remove_zero p)).
Proof.
  intros k c Hin. apply filter_In in Hin. destruct Hin as [_ Hc]. intro E. cbn [snd] in Hc. unfold qzero in Hc.
  rewrite (proj2 (Qeq_bool_iff c 0)) in Hc; [discriminate Hc|exact E].
Qed.
Lemma clean_bind {A K} (r : res A) (f : A -> res (Poly K)) : (forall a, clean (f a)) -> clean (let! a := r in f a).
Proof. intro h. destruct r; cbn [bind]; [apply h|exact Logic.I]. Qed.
Lemma clean_sup {K} `{Key K} (P : K -> Prop) r : clean r -> oks r (sup P) -> oks r (allp P).
Proof.
  destruct r as [p|e]; [|exact (fun _ h => h)]. cbn [clean oks]. intros hc hs k Hk. apply in_map_iff in Hk. destruct Hk as ([k' c] & <- & Hin).
  exact (hs k' c Hin (hc k' c Hin)).
Qed.
Ltac cl := repeat (apply clean_bind; intro); apply clean_rm.
Lemma moment_y_even l : oks (moment_y l) (allp (hom2 s_8 0)).
Proof. apply clean_sup; [unfold moment_y; cl|apply moment_y_ev]. Qed.
Lemma cmoment_y_even l : oks (cmoment_y l) (allp (hom2 s_c7 0)).
Proof. apply clean_sup; [unfold cmoment_y; cl|apply cmoment_y_ev]. Qed.
Lemma cov_yy_even l1 l2 : oks (cov_yy l1 l2) (allp (hom2 s_8 0)).
Proof. apply clean_sup; [unfold cov_yy; cl|apply cov_yy_ev]. Qed.
Lemma jcov_yy_even l1 l2 : oks (jcov_yy l1 l2) (allp (hom2 s_j11 0)).
Proof. apply clean_sup; [unfold jcov_yy; cl|apply jcov_yy_ev]. Qed.
Lemma jmoment_y_even l : oks (jmoment_y l) (allp (hom2 s_j11 0)).
Proof.
  apply oks_foldM; [|apply allk_nil]. intros s i _ Hs. apply oks_bind0. intro c.
  eapply oks_bind; [apply moment_y_even|]. intros p hp. eapply oks_bind; [apply mcpp_par|]. intros q hq.
  eapply oks_bind; [apply (mul_poly_allp _ _ (hom2 s_j11 0) _ _ _ _ _ hp hq); mul2k|]. intros r hr.
  apply merge_allp; [exact Hs|]. now apply rmulZ_allp.
Qed.
Lemma jcmoment_y_even l : oks (jcmoment_y l) (allp (hom2 s_j10 0)).
Proof.
  apply oks_foldM; [|apply allk_nil]. intros s i _ Hs. apply oks_bind0. intro c.
  eapply oks_bind; [apply cmoment_y_even|]. intros p hp. eapply oks_bind; [apply cmcpp_par|]. intros q hq.
  eapply oks_bind; [apply (mul_poly_allp _ _ (hom2 s_j10 0) _ _ _ _ _ hp hq); mul2k|]. intros r hr.
  apply merge_allp; [exact Hs|]. now apply rmulZ_allp.
Qed.

Local Open Scope R_scope.
(** the same as integer powers of 1-rho^2 *)
Lemma sqrt_even x n : 0 <= x -> (n mod 2 = 0)%Z -> powerRZ (sqrt x) n = powerRZ x (n / 2).
Proof.
  intros Hx E. assert (H : n = (2 * (n / 2))%Z) by (Z.div_mod_to_equations; lia). rewrite H at 1. generalize (n / 2)%Z. clear H E. intro m.
  assert (S : forall s, powerRZ s (2 * m) = powerRZ (s * s) m).
  { intro s. rewrite powerRZ_mult. destruct m as [|q|q].
    - simpl. ring.
    - change (2 * Z.pos q)%Z with (Z.pos (q~0)). cbn [powerRZ]. rewrite Pos2Nat.inj_xO. replace (2 * Pos.to_nat q)%nat with (Pos.to_nat q + Pos.to_nat q)%nat by lia. apply pow_add.
    - change (2 * Z.neg q)%Z with (Z.neg (q~0)). cbn [powerRZ]. rewrite Pos2Nat.inj_xO. replace (2 * Pos.to_nat q)%nat with (Pos.to_nat q + Pos.to_nat q)%nat by lia.
      rewrite pow_add. apply Rinv_mult. }
  rewrite S. rewrite sqrt_sqrt by assumption. reflexivity.
Qed.
