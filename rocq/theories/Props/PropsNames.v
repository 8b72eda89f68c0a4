(** Property C66: the attribute names (keyfor) of the intermediate polynomials.  Whenever a helper
    returns, its result carries the names in the order in which its keys list the powers. *)
From Coq Require Import Reals.
From Verif.Model Require Import Fsv1 Fsv2 SrjdIez SrjdStat SvcjMom SvcjCond CondCmom1 ItoCond.
From Verif.Proof Require Import PolyFacts.
Local Open Scope Z_scope.
Local Open Scope list_scope.

Lemma bind_ok {A B} (r : res A) (f : A -> res B) b : bind r f = Ok b -> exists a, r = Ok a /\ f a = Ok b.
Proof. destruct r; cbn [bind]; [eauto|discriminate]. Qed.
Lemma merge_kf {K} `{Key K} (p q r : Poly K) : merge p q = Ok r -> keyfor r = keyfor p.
Proof. unfold merge. destruct (is_exact_type p q); [|discriminate]. now intros [= <-]. Qed.
Lemma pmul_kf (p q r : Poly (list Z)) : pmul p q = Ok r -> keyfor r = keyfor p.
Proof. unfold pmul, pmul_gen. destruct (is_exact_type p q); [|discriminate]. intro h. apply bind_ok in h. destruct h as (l & _ & [= <-]). reflexivity. Qed.
Lemma foldM_kf {K A} (f : Poly K -> A -> res (Poly K)) l : (forall s x r, f s x = Ok r -> keyfor r = keyfor s) ->
  forall s r, foldM f l s = Ok r -> keyfor r = keyfor s.
Proof.
  intro Hf. induction l as [|x l IH]; intros s r; cbn [foldM]; [now intros [= <-]|].
  intro h. apply bind_ok in h. destruct h as (a & e & h). rewrite (IH _ _ h). now apply (Hf s x).
Qed.

(** unfold a computation that returned *)
Ltac run H :=
  lazymatch type of H with
  | bind _ _ = Ok _ => let a := fresh "a" in let e := fresh "e" in apply bind_ok in H; destruct H as (a & e & H); cbv beta in H; run H
  | Ok _ = Ok _ => injection H as <-
  | _ => idtac
  end.
Ltac names := intros; match goal with H : _ = Ok _ |- _ => run H end; reflexivity.

(** mdl_1fsv: cmom.py, mom.py, cov.py *)
Theorem C66_1fsv :
  (forall n1 n2 n3 n4 n5 p, cb_n n1 n2 n3 n4 n5 = Ok p ->
     keyfor p = ["e^{-kh}"; "k^{-}"; "theta"; "sigma_v"; "rho"; "sqrt(1-rho^2)"]%string) /\
  (forall n2 n3 n4 n5 p, ve_IEII n2 n3 n4 n5 = Ok p ->
     keyfor p = ["e^{-kh}"; "h"; "v_{n-1}"; "k^{-}"; "theta"; "sigma_v"]%string) /\
  (forall n n1 n2 n3 n4 n5 p, cmoment_comb n n1 n2 n3 n4 n5 = Ok p ->
     keyfor p = ["e^{-kh}"; "h"; "v_{n-1}"; "k^{-}"; "theta"; "sigma_v"; "rho"; "sqrt(1-rho^2)"]%string) /\
  (forall n1 n2 n3 n4 n5 p, b_n n1 n2 n3 n4 n5 = Ok p ->
     keyfor p = ["e^{-kh}"; "h"; "k^{-}"; "mu"; "theta"; "sigma_v"; "rho"; "sqrt(1-rho^2)"]%string) /\
  (forall n n1 n2 n3 n4 n5 p, moment_comb n n1 n2 n3 n4 n5 = Ok p ->
     keyfor p = ["e^{-kh}"; "h"; "v_{n-1}"; "k^{-}"; "mu"; "theta"; "sigma_v"; "rho"; "sqrt(1-rho^2)"]%string) /\
  (forall l p, exp_vn l = Ok p ->
     keyfor p = ["e^{-knh}eI_n"; "e^{-kh}"; "v_{n-1}"; "theta"; "sigma_v"]%string) /\
  (forall q l1 m1 m2 m3 m4 m5 p, moment_inner_comb q l1 m1 m2 m3 m4 m5 = Ok p ->
     keyfor p = ["e^{-kh}"; "h"; "v_{n-1}"; "k^{-}"; "mu"; "theta"; "sigma_v"; "rho"; "sqrt(1-rho^2)"]%string) /\
  (forall l1 l2 n1 n2 n3 n4 n5 p, moment_outer_comb l1 l2 n1 n2 n3 n4 n5 = Ok p ->
     keyfor p = ["e^{-kh}"; "h"; "v_{n-1}"; "k^{-}"; "mu"; "theta"; "sigma_v"; "rho"; "sqrt(1-rho^2)"]%string).
Proof.
  unfold cb_n, cmoment_comb, moment_comb, b_n, exp_vn, moment_inner_comb, moment_outer_comb, ve_IEII, mul_poly.
  repeat apply conj; intros; match goal with H : _ = Ok _ |- _ => run H end;
    repeat match goal with H : bind _ _ = Ok _ |- _ => run H end; reflexivity.
Qed.
(** mdl_2fsv: cmom.py, mom.py, cov.py; a key (x1, x2, t0, t1, ...) of vvee_IEI_IEII_vnvn is represented
    with t0, t1 in front, the names are in the order of the code *)
Definition den2 := "(n_1m*k1+n_2m*k2)^{-i_m},...,(n_11*k1+n_21*k2)^{-i_1}"%string.
Theorem C66_2fsv :
  (forall n1 n2 n3 n4 n5 n6 n7 p, cb2_n n1 n2 n3 n4 n5 n6 n7 = Ok p ->
     keyfor p = ["e^{-k1h}"; "k1^{-}"; "theta1"; "sigma_v1"; "e^{-k2h}"; "k2^{-}"; "theta2"; "sigma_v2"]%string) /\
  (forall n2 n3 n4 n5 n6 n7 n8 p, vvee n2 n3 n4 n5 n6 n7 n8 = Ok p ->
     keyfor p = [den2; "e^{-(n1*k1+n2*k2)h}"; "h"; "v_{1,n-1}"; "theta1"; "sigma_v1"; "v_{2,n-1}"; "theta2"; "sigma_v2"]%string) /\
  (forall n n1 n2 n3 n4 n5 n6 n7 n8 p, cmoment_comb2 n n1 n2 n3 n4 n5 n6 n7 n8 = Ok p ->
     keyfor p = [den2; "e^{-(n1*k1+n2*k2)h}"; "h"; "v_{1,n-1}"; "theta1"; "sigma_v1"; "v_{2,n-1}"; "theta2"; "sigma_v2"]%string) /\
  (forall n1 n2 n3 n4 n5 n6 n7 p, b2_n n1 n2 n3 n4 n5 n6 n7 = Ok p ->
     keyfor p = ["e^{-k1h}"; "k1^{-}"; "theta1"; "sigma_v1"; "e^{-k2h}"; "k2^{-}"; "theta2"; "sigma_v2"; "h"; "mu"]%string) /\
  (forall n n1 n2 n3 n4 n5 n6 n7 n8 p, moment_comb2 n n1 n2 n3 n4 n5 n6 n7 n8 = Ok p ->
     keyfor p = [den2; "e^{-(n1*k1+n2*k2)h}"; "h"; "mu"; "v_{1,n-1}"; "theta1"; "sigma_v1"; "v_{2,n-1}"; "theta2"; "sigma_v2"]%string) /\
  (forall n2 n3 n4 n5 n6 n7 n8 p, vvee_vn n2 n3 n4 n5 n6 n7 n8 = Ok p ->
     keyfor p = ["e^{-k1*nh}eI_{1,n}"; "e^{-k2*nh}eI_{2,n}"; den2; "e^{-(n1*k1+n2*k2)h}"; "h";
                 "v_{1,n-1}"; "theta1"; "sigma_v1"; "v_{2,n-1}"; "theta2"; "sigma_v2"]%string) /\
  (forall q l1 m1 m2 m3 m4 m5 m6 m7 m8 p, moment_inner_comb2 q l1 m1 m2 m3 m4 m5 m6 m7 m8 = Ok p ->
     keyfor p = [den2; "e^{-(n1*k1+n2*k2)h}"; "h"; "mu"; "v_{1,n-1}"; "theta1"; "sigma_v1"; "v_{2,n-1}"; "theta2"; "sigma_v2"]%string) /\
  (forall l1 l2 n1 n2 n3 n4 n5 n6 n7 n8 p, moment_outer_comb2 l1 l2 n1 n2 n3 n4 n5 n6 n7 n8 = Ok p ->
     keyfor p = [den2; "e^{-(n1*k1+n2*k2)h}"; "h"; "mu"; "v_{1,n-1}"; "theta1"; "sigma_v1"; "v_{2,n-1}"; "theta2"; "sigma_v2"]%string).
Proof.
  unfold cb2_n, cmoment_comb2, moment_comb2, b2_n, vvee_vn, moment_inner_comb2, moment_outer_comb2, vvee, gpoly.
  repeat apply conj; intros; match goal with H : _ = Ok _ |- _ => run H end;
    repeat match goal with H : bind _ _ = Ok _ |- _ => run H end; reflexivity.
Qed.

(** mdl_srjd: iez_mom.py and cmom.py *)
Lemma ej_kf n p : moment_EJ n = Ok p -> keyfor p = ["e^{kt}"; "e^{ks}"; "t-s"; "k^{-}"; "mu_v"]%string.
Proof. unfold moment_EJ. destruct (n <? 0); [discriminate|]. destruct (n =? 0); now intros [= <-]. Qed.
Theorem C66_srjd :
  (forall n p, moment_EJ n = Ok p -> keyfor p = ["e^{kt}"; "e^{ks}"; "t-s"; "k^{-}"; "mu_v"]%string) /\
  (forall ps p, ej_prod ps = Ok p -> keyfor p = ["e^{kt}"; "e^{ks}"; "t-s"; "k^{-}"; "mu_v"]%string) /\
  (forall n p, stat_cond_cmoment_v n = Ok p -> keyfor p = ["e^{kt}"; "k^{-}"; "v0-E[v]"; "E[v]"; "sigma"; "lmbd"; "mu_v"]%string) /\
  (forall c k q, keyfor (stat_key_times_poly c k q) = ["e^{kt}"; "k^{-}"; "E[v]"; "sigma"; "lmbd"; "mu_v"]%string) /\
  (forall q u p, last_expectation q u = Ok p -> keyfor p = ["e^{kt}"; "k^{-}"; "E[v]"; "sigma"; "lmbd"; "mu_v"]%string).
Proof.
  split; [exact ej_kf|]. split; [|split; [|split; [reflexivity|]]].
  - intros ps p h. unfold ej_prod in h. apply foldM_kf in h; [exact h|]. intros s x r e. run e. now apply pmul_kf in e.
  - intros n p h. unfold stat_cond_cmoment_v in h. destruct (n =? 0); [now run h|]. destruct (n =? 1); run h; reflexivity.
  - intros q u p h. unfold last_expectation in h. apply foldM_kf in h; [exact h|]. intros s x r e. cbv zeta in e.
    destruct (_ =? 0); [now run e|]. destruct (1 <? _); [|now run e]. run e. now apply merge_kf in e.
Qed.

(** mdl_svcj: cond_mom.py, cond_cmom.py, mom.py, cmom.py *)
Definition nm13 (v : string) : list string :=
  ["e^{kt}"; "t"; "k^{-}"; "mu"; v; "theta"; "sigma"; "rho"; "lmbd"; "mu_v"; "rhoJ"; "mu_s"; "sigma_s"]%string.
Lemma loop_kf mom one mean kf n p : central_loop mom one mean kf n = Ok p -> keyfor p = kf.
Proof. intro h. unfold central_loop in h. apply foldM_kf in h; [exact h|]. intros s x r e. run e. now apply merge_kf in e. Qed.
Lemma expand_kf q p : svcj_expand_sqrt q = Ok p -> keyfor p = nm13 "v0-theta".
Proof. intro h. unfold svcj_expand_sqrt in h. now run h. Qed.
Theorem C66_svcj :
  (forall n1 n2 n3 n4 n5 n6 n7 n8 p, svcj_b_n n1 n2 n3 n4 n5 n6 n7 n8 = Ok p ->
     keyfor p = ["e^{kt}"; "t"; "k^{-}"; "mu"; "v0-theta"; "theta"; "sigma"; "rho"; "sqrt(1-rho^2)"; "lmbd"; "mu_v"; "rhoJ"; "mu_s"; "sigma_s"]%string) /\
  (forall q kf p, enlarge q kf = Ok p -> keyfor p = kf) /\
  (forall q p, svcj_expand_sqrt q = Ok p -> keyfor p = nm13 "v0-theta") /\
  (forall n p, svcj_moment_y n = Ok p -> keyfor p = nm13 "v0-theta") /\
  (forall n p, svcj_cmoment_y n = Ok p -> keyfor p = nm13 "v0-theta") /\
  (forall n p, moment_v_theta n = Ok p -> keyfor p = ["k^{-}"; "E[v]"; "sigma"; "lmbd"; "mu_v"]%string) /\
  (forall c k q, keyfor (svcj_stat_key_times c k q) = nm13 "E[v]") /\
  (forall n p, svcj_stat_moment_y n = Ok p -> keyfor p = nm13 "E[v]") /\
  (forall n p, svcj_stat_cmoment_y n = Ok p -> keyfor p = nm13 "E[v]") /\
  (forall q, keyfor (ieziziz_to_ieii q) = ["e^{kt}"; "t"; "k^{-}"; "v0-theta"; "theta"; "sigma"; "lmbd"; "mu_v"; "mu_s"; "sigma_s"]%string) /\
  (forall q p, expand_ieziziz q = Ok p -> keyfor p = ["e^{kt}"; "t"; "e^{ks}"; "s"; "k^{-}"; "lmbd"; "mu_v"; "mu_s"; "sigma_s"]%string).
Proof.
  split; [intros n1 n2 n3 n4 n5 n6 n7 n8 p h; unfold svcj_b_n in h; now run h|].
  split; [intros q kf p h; unfold enlarge in h; now run h|]. split; [exact expand_kf|].
  split; [|split; [|split; [|split; [reflexivity|split; [|split; [|split; [reflexivity|]]]]]]].
  - intros n p h. unfold svcj_moment_y in h. destruct (n <? 0); [discriminate|]. destruct (n =? 0); [now run h|]. run h. now apply expand_kf in h.
  - intros n p h. unfold svcj_cmoment_y in h. run h. destruct (n <? 0); [discriminate|]. destruct (n =? 0); [now run h|]. now apply loop_kf in h.
  - intros n p h. unfold moment_v_theta in h. now run h.
  - intros n p h. unfold svcj_stat_moment_y in h. run h. apply foldM_kf in h; [exact h|]. intros s x r e'. run e'. now apply merge_kf in e'.
  - intros n p h. unfold svcj_stat_cmoment_y in h. destruct (n <? 0); [discriminate|]. run h. destruct (n =? 0); [now run h|].
    destruct (n =? 1); [now run h|]. now apply loop_kf in h.
  - intros q p h. unfold expand_ieziziz in h. now run h.
Qed.

(** cond_cmom.py of mdl_1fsv and ito_cond_mom.py *)
Lemma c1_merge_kf C c p tp m i r : c1_merge C c p tp m i = Ok r -> keyfor r = keyfor p.
Proof. intro h. unfold c1_merge in h. run h. now apply merge_kf in h. Qed.
Lemma c1_branch_kf C c p m1 m2 m3 i j r : c1_branch C c p m1 m2 m3 i j = Ok r -> keyfor r = keyfor p.
Proof.
  intro h. unfold c1_branch in h. run h. apply c1_merge_kf in h. apply c1_merge_kf in e. apply c1_merge_kf in e0. congruence.
Qed.
Lemma jbranch_kf iez C c p m1 m2 i j r : jbranch iez C c p m1 m2 i j = Ok r -> keyfor r = keyfor p.
Proof. intro h. unfold jbranch in h. run h. repeat match goal with H : merge _ _ = Ok _ |- _ => apply merge_kf in H end. congruence. Qed.
Ltac four f := repeat match goal with
  | H : (if ?b then _ else _) = Ok _ |- _ => destruct b; [apply f in H|injection H as H] end; subst; cbn [keyfor] in *; unfold kf_c1, kf_jIEII in *; congruence.
Theorem C66_cond :
  (forall n3 n4 n5 C p, c1_recursive n3 n4 n5 C = Ok p -> keyfor p = ["e^{kt}"; "t"; "k^{-}"; "v_0-theta"; "theta"; "sigma"]%string) /\
  (forall q, keyfor (c1_expand q) = ["e^{-kt}"; "t"; "k^{-}"; "v_0-theta"; "theta"; "sigma"; "rho"; "sqrt(1-rho^2)"]%string) /\
  (forall n m N p, int_et_fZ n m N = Ok p ->
     keyfor p = ["e^{kt}"; "t"; "k^{-}"; "e^{k(s_i1 v...v s_in)}"; "(s_i1 v...v s_in)"]%string) /\
  (forall iez n1 n2 n3 C p, jrecursive_IEII_with iez n1 n2 n3 C = Ok p ->
     keyfor p = ["e^{kt}"; "t"; "k^{-}"; "v0-theta"; "theta"; "sigma"; "l_{1:n}"; "o_{1:n}"; "p_{2:n}"; "q_{2:n}"]%string) /\
  (forall n1 n2 n3 p, jmoment_IEII n1 n2 n3 = Ok p ->
     keyfor p = ["e^{kt}"; "t"; "k^{-}"; "v0-theta"; "theta"; "sigma"; "l_{1:n}"; "o_{1:n}"; "p_{2:n}"; "q_{2:n}"]%string).
Proof.
  assert (J : forall iez n1 n2 n3 C p, jrecursive_IEII_with iez n1 n2 n3 C = Ok p ->
     keyfor p = ["e^{kt}"; "t"; "k^{-}"; "v0-theta"; "theta"; "sigma"; "l_{1:n}"; "o_{1:n}"; "p_{2:n}"; "q_{2:n}"]%string).
  { intros iez n1 n2 n3 C p h. unfold jrecursive_IEII_with in h. cbv zeta in h. run h. four jbranch_kf. }
  split; [|split; [reflexivity|split; [|split; [exact J|]]]].
  - intros n3 n4 n5 C p h. unfold c1_recursive in h. cbv zeta in h. run h. four c1_branch_kf.
  - intros n m N p h. unfold int_et_fZ in h.
    repeat match type of h with (if ?b then _ else _) = _ => destruct b end; try discriminate; run h; reflexivity.
  - intros n1 n2 n3 p h. unfold jmoment_IEII, jmoment_IEII_with in h. destruct (_ <? 0); [discriminate|]. destruct (_ <=? 2).
    + unfold cget, jinit in h. cbn [lookup] in h.
      repeat match type of h with context [if ?b then _ else _] => destruct b; [injection h as <-; reflexivity|] end. discriminate.
    + run h. cbn [remove_zero keyfor]. eauto.
Qed.

(** every one of these does return *)
Example C66_ex : (exists p, exp_vn 2 = Ok p) /\ (exists p, vvee_vn 1 0 1 0 0 1 0 = Ok p) /\ (exists p, ej_prod [(1, 2)] = Ok p) /\
  (exists p, svcj_moment_y 1 = Ok p) /\ (exists p, jmoment_IEII 2 1 0 = Ok p).
Proof. repeat apply conj; eexists; vm_compute; reflexivity. Qed.
