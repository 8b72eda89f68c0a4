(** Properties C11, C17, C18: normal and compound Poisson moments. *)
From Coq Require Import Reals Lra.
From Coquelicot Require Import Coquelicot.
From Verif.Model Require Import Utils.
From Verif.Spec Require Import Cpp.
From Verif.Proof Require Import CppProofs UtilsProofs.
Local Open Scope R_scope.

Lemma monx2 x y k : length k = 2%nat -> monx [x; y] k = monN x y k.
Proof.
  intro Hk. destruct k as [|a [|b [|c k]]]; try discriminate. unfold monN, nthZ. simpl. ring.
Qed.
Lemma monx3 x y z k : length k = 3%nat -> monx [x; y; z] k = mon3 x y z k.
Proof.
  intro Hk. destruct k as [|a [|b [|c [|d k]]]]; try discriminate. unfold mon3, nthZ. simpl. ring.
Qed.
Lemma eval_monx3 x y z l : nn3 l -> eval (monx [x; y; z]) l = eval (mon3 x y z) l.
Proof. intro Hl. apply eval_ext_in. intros k v Hin. apply monx3. apply (in_keys _ _ _) in Hin. now apply Hl. Qed.

Lemma normal_derive_n mu s2 n : forall s, Derive_n (mgf_normal mu s2) n s = G mu s2 n s.
Proof.
  induction n as [|n IH]; intro s.
  - simpl. unfold G, mgf_normal. rewrite V_0. ring.
  - simpl Derive_n. rewrite (Derive_ext _ (G mu s2 n) s IH). apply is_derive_unique, G_derive.
Qed.

(** C11 *)
Theorem C11_mnorm : forall (n : Z), (0 <= n)%Z ->
  exists p, mnorm n = Ok p /\ keyfor p = ["mu"; "sigma^2"]%string /\
    forall mu s2, eval (monx [mu; s2]) (items p) = Derive_n (mgf_normal mu s2) (Z.to_nat n) 0.
Proof.
  intros n Hn. exists (mn (Z.to_nat n)). split; [|split].
  - rewrite <- mnorm_mn. f_equal. lia.
  - apply mn_keyfor.
  - intros mu s2. rewrite normal_derive_n, G_at0. unfold V. apply eval_ext_in.
    intros k v Hin. apply monx2. apply (in_keys _ _ _) in Hin. now apply mn_nn2 in Hin.
Qed.

Theorem C11_mnorm_negative : forall n, (n < 0)%Z -> mnorm n = Err ValueError.
Proof. intros n Hn. unfold mnorm. destruct (Z.ltb_spec n 0); [reflexivity|lia]. Qed.

Theorem C11_mnorm_stein : forall n, (0 <= n)%Z -> exists p0 p1 p2,
  mnorm n = Ok p0 /\ mnorm (n + 1) = Ok p1 /\ mnorm (n + 2) = Ok p2 /\
  forall mu s2, eval (monx [mu; s2]) (items p2) =
    mu * eval (monx [mu; s2]) (items p1) + IZR (n + 1) * s2 * eval (monx [mu; s2]) (items p0).
Proof.
  intros n Hn. exists (mn (Z.to_nat n)), (mn (S (Z.to_nat n))), (mn (S (S (Z.to_nat n)))).
  split; [rewrite <- mnorm_mn; f_equal; lia|]. split; [rewrite <- mnorm_mn; f_equal; lia|].
  split; [rewrite <- mnorm_mn; f_equal; lia|].
  intros mu s2.
  assert (E : forall m, eval (monx [mu; s2]) (items (mn m)) = V m mu s2).
  { intro m. apply eval_ext_in. intros k v Hin. apply monx2. apply (in_keys _ _ _) in Hin. now apply mn_nn2 in Hin. }
  rewrite !E, V_stein. rewrite INR_IZR_INZ. replace (Z.of_nat (S (Z.to_nat n))) with (n + 1)%Z by lia.
  ring.
Qed.

Lemma cm_V sigma n : cm_val sigma (Z.of_nat n) = V n 0 (sigma ^ 2).
Proof.
  enough (H : cm_val sigma (Z.of_nat n) = V n 0 (sigma ^ 2) /\
              cm_val sigma (Z.of_nat (S n)) = V (S n) 0 (sigma ^ 2)) by apply H.
  induction n as [|n [IH1 IH2]].
  - split; [rewrite V_0; apply cm_val_0|]. rewrite V_1. apply cm_val_odd; [lia|]. discriminate.
  - split; [assumption|]. replace (Z.of_nat (S (S n))) with (Z.of_nat n + 2)%Z by lia.
    rewrite cm_val_rec by lia. rewrite V_stein, IH1. rewrite INR_IZR_INZ.
    replace (Z.of_nat (S n)) with (Z.of_nat n + 1)%Z by lia. ring.
Qed.

Theorem C11_cmnorm : forall (n : Z) (sigma : R), (0 <= n)%Z ->
  keyfor (cmnorm n) = ["sigma"]%string /\
  eval (monx [sigma]) (items (cmnorm n)) = Derive_n (mgf_normal 0 (sigma ^ 2)) (Z.to_nat n) 0.
Proof.
  intros n sigma Hn. split.
  - unfold cmnorm. destruct (n =? 0)%Z; [reflexivity|]. now destruct (negb _).
  - rewrite normal_derive_n, G_at0, <- cm_V, Z2Nat.id by assumption. unfold cm_val.
    apply eval_ext_in. intros k v Hin.
    assert (Hl : length k = 1%nat).
    { unfold cmnorm in Hin. destruct (n =? 0)%Z; [|destruct (negb _)]; destruct Hin as [E|[]];
        inversion E; reflexivity. }
    destruct k as [|a [|b k]]; try discriminate. unfold nthZ. simpl. ring.
Qed.

(** C17 *)
Theorem C17_mcpp : forall (n : Z), (0 <= n)%Z ->
  exists p, mcpp n = Ok p /\ keyfor p = ["lambda*h"; "mu"; "sigma"]%string /\ uniq (items p) /\
    forall L mu sigma, eval (monx [L; mu; sigma]) (items p)
      = Derive_n (mgf_cpp L mu (sigma ^ 2)) (Z.to_nat n) 0.
Proof.
  intros n Hn. destruct (returns_inv _ _ (mcpp_spec (Z.to_nat n))) as (p & E & h1 & h2 & h3 & h4).
  rewrite Z2Nat.id in E by assumption. exists p. repeat (split; [assumption|]).
  intros L mu sigma. rewrite eval_monx3, h4 by assumption.
  change (mgf_cpp L mu (sigma ^ 2)) with (Fm L mu (sigma ^ 2)).
  rewrite mgf_derivative, Fm_0. ring.
Qed.

Theorem C17_mcpp_original : forall (n : Z), (0 <= n)%Z ->
  exists p, mcpp_original n = Ok p /\ keyfor p = ["lambda*h"; "mu"; "sigma^2"]%string /\ uniq (items p) /\
    forall L mu s2, eval (monx [L; mu; s2]) (items p)
      = Derive_n (mgf_cpp L mu s2) (Z.to_nat n) 0.
Proof.
  intros n Hn. destruct (returns_inv _ _ (mcpp_original_spec (Z.to_nat n))) as (p & E & h1 & h2 & h3 & h4).
  rewrite Z2Nat.id in E by assumption. exists p. repeat (split; [assumption|]).
  intros L mu s2. rewrite eval_monx3, h4 by assumption.
  change (mgf_cpp L mu s2) with (Fm L mu s2). rewrite mgf_derivative, Fm_0. ring.
Qed.

(** moment recurrence of a compound Poisson sum, jump moments taken from mnorm *)
Theorem C17_recurrence : forall L mu s2 n,
  Derive_n (mgf_cpp L mu s2) (S n) 0 =
  L * sumR (fun k => IZR (combN n k) *
              (Derive_n (mgf_normal mu s2) (S k) 0 * Derive_n (mgf_cpp L mu s2) (n - k) 0))
           (seq 0 (S n)).
Proof.
  intros. change (mgf_cpp L mu s2) with (Fm L mu s2). rewrite mgf_derivative, Fm_0, mm_rec.
  rewrite Rmult_1_l. f_equal. apply sumR_ext. intros k _.
  rewrite normal_derive_n, mgf_derivative, Fm_0. ring.
Qed.

Theorem C17_negative : forall n, (n < 0)%Z ->
  mcpp n = Err ValueError /\ mcpp_original n = Err ValueError /\ cmcpp n = Err ValueError.
Proof.
  intros n Hn. unfold mcpp, mcpp_original, cmcpp. destruct (Z.ltb_spec n 0); [auto|lia].
Qed.

(** C18: for every expectation operator whose first n moments of X are those of the
    compound Poisson sum, cmcpp(n) is the n-th moment of X - L*mu. *)
Theorem C18_cmcpp : forall (n : Z), (0 <= n)%Z ->
  exists p, cmcpp n = Ok p /\ keyfor p = ["lambda*h"; "mu"; "sigma"]%string /\ uniq (items p) /\
    forall (L mu sigma : R) (Om : Type) (E : (Om -> R) -> R) (X : Om -> R), expectation E ->
      (forall i, (i <= Z.to_nat n)%nat ->
         E (fun w => X w ^ i) = Derive_n (mgf_cpp L mu (sigma ^ 2)) i 0) ->
      eval (monx [L; mu; sigma]) (items p) = E (fun w => (X w - L * mu) ^ Z.to_nat n).
Proof.
  intros n Hn. destruct (returns_inv _ _ (cmcpp_spec (Z.to_nat n))) as (p & Ep & h1 & h2 & h3 & h4).
  rewrite Z2Nat.id in Ep by assumption. exists p. repeat (split; [assumption|]).
  intros L mu sigma Om E X HE HX. rewrite eval_monx3, h4 by assumption.
  set (N := Z.to_nat n) in *.
  rewrite (E_ext _ HE _ (fun w => sumR (fun i => IZR (combN N i) * ((- (L * mu)) ^ (N - i) * X w ^ i)) (seq 0 (S N)))).
  - rewrite (E_sumR E HE (fun i w => IZR (combN N i) * ((- (L * mu)) ^ (N - i) * X w ^ i))).
    apply sumR_ext. intros i Hi. apply in_seq in Hi.
    rewrite (E_scal _ HE), (E_scal _ HE), HX by lia.
    change (mgf_cpp L mu (sigma ^ 2)) with (Fm L mu (sigma ^ 2)). rewrite mgf_derivative, Fm_0. ring.
  - intro w. pose proof (binomial_range (X w) (- (L * mu)) n Hn) as B. fold N in B.
    replace (X w - L * mu) with (X w + - (L * mu)) by ring. rewrite B.
    unfold range. replace (Z.to_nat (n + 1 - 0)) with (S N) by lia.
    rewrite sumR_map. apply sumR_ext. intros i Hi. apply in_seq in Hi.
    unfold mcomb. rewrite Z.add_0_l, Nat2Z.id. fold N.
    replace (Z.to_nat (n - Z.of_nat i)) with (N - i)%nat by lia. ring.
Qed.

Theorem C18_cmcpp_01 : exists p0 p1, cmcpp 0 = Ok p0 /\ cmcpp 1 = Ok p1 /\
  forall L mu sigma, eval (monx [L; mu; sigma]) (items p0) = 1 /\
                     eval (monx [L; mu; sigma]) (items p1) = 0.
Proof.
  eexists; eexists. split; [vm_compute; reflexivity|]. split; [vm_compute; reflexivity|].
  intros. cbn [eval items]. split; [|reflexivity]. unfold monx. rewrite !pw_0, Q2R_1. ring.
Qed.

(** *** Concrete cases *)
Example C11_ex : mnorm 3 = Ok (mkPoly [([3; 0]%Z, 1%Q); ([1; 1]%Z, 3%Q)] ["mu"; "sigma^2"]%string)
  /\ cmnorm 4 = mkPoly [([4]%Z, 3%Q)] ["sigma"]%string.
Proof. split; reflexivity. Qed.
Example C17_ex : mcpp 2 =
  Ok (mkPoly [([2; 2; 0]%Z, 1%Q); ([1; 2; 0]%Z, 1%Q); ([1; 0; 2]%Z, 1%Q)] ["lambda*h"; "mu"; "sigma"]%string).
Proof. vm_compute. reflexivity. Qed.
Example C18_ex : cmcpp 3 =
  Ok (mkPoly [([1; 3; 0]%Z, 1%Q); ([1; 1; 2]%Z, 3%Q)] ["lambda*h"; "mu"; "sigma"]%string).
Proof. vm_compute. reflexivity. Qed.
(** hypotheses of C18_cmcpp are satisfiable with the required first moments: L = 1/2, mu = 1,
    sigma = 0, order 2: E X = 1/2, E X^2 = 3/4. *)
Example C18_ex_hyp : exists E : (R -> R) -> R, expectation E /\
  E (fun w => w ^ 0) = 1 /\ E (fun w => w ^ 1) = 1/2 /\ E (fun w => w ^ 2) = 3/4.
Proof.
  exists (Efin [(5/8, 0); (1/4, 1); (1/8, 2)]). split; [apply Efin_expectation|].
  unfold Efin; simpl. repeat split; lra.
Qed.

Print Assumptions C11_mnorm.
Print Assumptions C11_mnorm_stein.
Print Assumptions C11_cmnorm.
Print Assumptions C17_mcpp.
Print Assumptions C17_mcpp_original.
Print Assumptions C17_recurrence.
Print Assumptions C17_negative.
Print Assumptions C18_cmcpp.
Print Assumptions C18_cmcpp_01.
