(** C57: odd powers of the integral of the independent Brownian motion have expectation 0, and so
    sqrt(1-rho^2) only occurs with an even power. *)
From Coq Require Import Lra.
From Verif.Proof Require Import Parity Parity3.
From Verif.Proof Require Import DpolyProofs TimeUnitV EvenKeys.
From Verif.Model Require Import Scalar.
From Verif.Spec Require Import AnyRho.
Local Open Scope R_scope.

Lemma sup_in {K} `{Key K} (P : K -> Prop) (r : res (Poly K)) p k a : oks r (sup P) -> r = Ok p -> In (k, a) (items p) -> ~ (a == 0)%Q -> P k.
Proof. intros h -> Hin Hnz. exact (h k a Hin Hnz). Qed.

(** ito_mom.py and itos_mom.py: E[... I^n] = 0 for odd n *)
Theorem C57_integrals n3 n4 n5 p k a : (n5 mod 2 = 1)%Z -> moment_IEII n3 n4 n5 = Ok p -> In (k, a) (items p) -> (a == 0)%Q.
Proof.
  intros Ho E Hin. destruct (Qeq_dec a 0) as [Z0|Nz]; [exact Z0|]. pose proof (sup_in _ _ _ _ _ (moment_IEII_ev n3 n4 n5) E Hin Nz) as D.
  red in D. lia.
Qed.
Theorem C57_integrals2 n4 n5 n6 n7 n8 p : (n8 mod 2 = 1)%Z -> moment_IEI_IEII n4 n5 n6 n7 n8 = Ok p -> items p = [].
Proof.
  intros Ho E. pose proof (moment_IEI_IEII_ev n4 n5 n6 n7 n8) as h. rewrite E in h. cbn [oks] in h.
  destruct (items p) as [|[k v] r] eqn:Ei; [reflexivity|exfalso]. assert (Hk : Parity3.ev n8 k) by (apply h; rewrite Ei; now left). red in Hk. lia.
Qed.
(** the exponent of sqrt(1-rho^2) is [nthZ k 7], in the central moments [nthZ k 6] *)
Theorem C57_keys l l1 l2 p k a : In (k, a) (items p) -> ~ (a == 0)%Q ->
  (moment_y l = Ok p \/ moment_yy l1 l2 = Ok p \/ cov_yy l1 l2 = Ok p \/
   jmoment_y l = Ok p \/ jmoment_yy l1 l2 = Ok p \/ jcov_yy l1 l2 = Ok p -> (nthZ k 7 mod 2 = 0)%Z) /\
  (cmoment_y l = Ok p \/ jcmoment_y l = Ok p -> (nthZ k 6 mod 2 = 0)%Z).
Proof.
  intros Hin Hnz. split; intro E; repeat (destruct E as [E|E]);
  match type of E with ?r = _ => match r with
    | moment_y _ => pose proof (sup_in _ _ _ _ _ (moment_y_ev _) E Hin Hnz) as D
    | moment_yy _ _ => pose proof (sup_in _ _ _ _ _ (moment_yy_ev _ _) E Hin Hnz) as D
    | cov_yy _ _ => pose proof (sup_in _ _ _ _ _ (cov_yy_ev _ _) E Hin Hnz) as D
    | jmoment_y _ => pose proof (sup_in _ _ _ _ _ (jmoment_y_ev _) E Hin Hnz) as D
    | jmoment_yy _ _ => pose proof (sup_in _ _ _ _ _ (jmoment_yy_ev _ _) E Hin Hnz) as D
    | jcov_yy _ _ => pose proof (sup_in _ _ _ _ _ (jcov_yy_ev _ _) E Hin Hnz) as D
    | cmoment_y _ => pose proof (sup_in _ _ _ _ _ (cmoment_y_ev _) E Hin Hnz) as D
    | jcmoment_y _ => pose proof (sup_in _ _ _ _ _ (jcmoment_y_ev _) E Hin Hnz) as D
    end end; clear E Hin; hom2s; unfold nthZ; cbn [nth]; mod2.
Qed.
Lemma sumR_ext_in {A} (f g : A -> R) l : (forall a, In a l -> f a = g a) -> sumR f l = sumR g l.
Proof. induction l as [|a r IH]; intro h; cbn [sumR]; [reflexivity|]. rewrite h by now left. rewrite IH; [reflexivity|]. intros; apply h; now right. Qed.
Theorem C57_value l l1 l2 par : -1 <= par "rho"%string <= 1 ->
  (forall p, moment_y l = Ok p -> m_1fsv l par = Ok (sumR (fun kv => Q2R (snd kv) * val8 par (fst kv)) (items p))) /\
  (forall p, cov_yy l1 l2 = Ok p -> cov_1fsv l1 l2 par = Ok (sumR (fun kv => Q2R (snd kv) * val8 par (fst kv)) (items p))) /\
  (forall p, cmoment_y l = Ok p -> cm_1fsv l par = Ok (sumR (fun kv => Q2R (snd kv) * val7 par (fst kv)) (items p))).
Proof.
  intro Hr. assert (H1 : 0 <= 1 - par "rho"%string ^ 2) by nra.
  repeat split; intros p E; unfold m_1fsv, cov_1fsv, cm_1fsv, scalar; rewrite E; cbn [bind]; unfold poly2num_m1, poly2num_cm1; cbv zeta;
    rewrite fold_sum, Rplus_0_l; f_equal; apply sumR_ext_in; intros [k v] Hin; cbn [fst snd];
    (destruct (Qeq_dec v 0) as [Ev|Nv]; [rewrite (proj1 (Q2R_eq0 v) Ev); ring|]).
  - rewrite (sqrt_even _ (nthZ k 7)) by (try assumption; now apply (C57_keys l l1 l2 p k v Hin Nv); auto). unfold val8, pint. ring.
  - rewrite (sqrt_even _ (nthZ k 7)) by (try assumption; now apply (C57_keys l l1 l2 p k v Hin Nv); auto). unfold val8, pint. ring.
  - rewrite (sqrt_even _ (nthZ k 6)) by (try assumption; now apply (C57_keys l l1 l2 p k v Hin Nv); auto). unfold val7, pint. ring.
Qed.

Example C57_ex_odd : exists p, moment_IEII 1 1 1 = Ok p /\ items p = [].
Proof. eexists. split; [vm_compute; reflexivity|reflexivity]. Qed.
Example C57_ex_even : exists p, moment_IEII 1 0 2 = Ok p /\ length (items p) = 6%nat.
Proof. eexists. split; [vm_compute; reflexivity|reflexivity]. Qed.
Example C57_ex_odd2 : exists p, moment_IEI_IEII 1 1 0 0 1 = Ok p /\ items p = [].
Proof. eexists. split; [vm_compute; reflexivity|reflexivity]. Qed.
(** the even power does occur *)
Example C57_ex_key : exists p, cmoment_y 2 = Ok p /\ In ([0; 1; 0; 1; 0; 0; 2]%Z, 1%Q) (items p).
Proof. eexists. split; [vm_compute; reflexivity|]. vm_compute. tauto. Qed.
Example C57_ex_rho : -1 <= (fun _ : string => 1 / 2) "rho"%string <= 1.
Proof. cbv beta. lra. Qed.
