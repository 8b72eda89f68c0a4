(** Property C38: moments and central moments of the return of mdl_svcj, conditional and stationary. *)
From Coq Require Import Reals Lra.
From Coquelicot Require Import Coquelicot.
From Verif.Model Require Import SvcjMom.
From Verif.Spec Require Import Srjd Svcj.
From Verif.Proof Require Import ItoProofs SrjdStatProofs Realise SvcjCondTable SvcjMomProofs SvcjStatProofs.
From Verif.Props Require Import PropsSrjdCond PropsSrjdStat PropsSvcjCond.
Import Verif.Model.SvcjCond Verif.Proof.SvcjAna Verif.Proof.SvcjCondProofs Verif.Model.SvcjMom Verif.Proof.SvcjMomProofs Verif.Proof.SvcjStatProofs.
Local Open Scope R_scope.

Definition jx (p : svcj) (mu rho rhoJ t a : R) : x13 :=
  mkX (exp (jk p * t)) (exp_neq0 _) t (/ jk p) mu a (jth p) (jsg p) rho (jlam p) (jmv p) rhoJ (jms p) (jss p).
Definition inZ (n1 n2 n3 n4 n5 n6 : nat) : cj_idx := (Z.of_nat n1, Z.of_nat n2, Z.of_nat n3, Z.of_nat n4, Z.of_nat n5, Z.of_nat n6).

Lemma zl_eval {K} (f : K -> R) (l : list (K * Q)) : zl l -> eval f l = 0.
Proof.
  induction l as [|[k v] l IH]; intro h; [reflexivity|]. cbn [eval]. rewrite (h k v (or_introl eq_refl)), IH; [ring|].
  intros k2 v2 H2. apply (h k2). now right.
Qed.
(** the value of moment_ieii_ieziziz is the solution of the moment equations *)
Lemma m6_sol p mu rho rhoJ t M n1 n2 n3 n4 n5 n6 : jk p <> 0 -> 0 <= t -> svcj_moments p M -> cj_dom (n1, n2, n3, n4, n5, n6) ->
  m6val (jx p mu rho rhoJ t (jv0 p - jth p)) n1 n2 n3 n4 n5 n6 = M (n1, n2, n3, n4, n5, n6) t.
Proof.
  intros Hk Ht HM D. unfold cj_dom in D.
  destruct (C37_moment_ieii_ieziziz n1 n2 n3 n4 n5 n6) as (q & Eq & _ & _ & _ & _ & V); try lia.
  unfold m6val. rewrite Eq. exact (V p M t Hk Ht HM).
Qed.
Lemma m6_odd x n1 n2 n3 n4 n5 n6 : cj_dom (n1, n2, n3, n4, n5, n6) -> Z.odd n3 = true -> m6val x n1 n2 n3 n4 n5 n6 = 0.
Proof.
  intros D O. unfold cj_dom in D. destruct (C37_moment_ieii_ieziziz n1 n2 n3 n4 n5 n6) as (q & Eq & _ & _ & _ & H & _); try lia.
  unfold m6val. rewrite Eq. apply zl_eval. exact (H O).
Qed.
(** the powers of sqrt(1-rho^2) *)
Lemma sqrt_rr x n1 n2 n3 n4 n5 n6 : cj_dom (n1, n2, n3, n4, n5, n6) -> xrho x ^ 2 <= 1 ->
  pw (sqrt (1 - xrho x ^ 2)) n3 * m6val x n1 n2 n3 n4 n5 n6 = rr x n3 * m6val x n1 n2 n3 n4 n5 n6.
Proof.
  intros D Hr. destruct (Z.odd n3) eqn:O; [rewrite m6_odd by assumption; ring|].
  f_equal. assert (Ev : Z.even n3 = true) by (rewrite <- Z.negb_odd, O; reflexivity). apply Z.even_spec in Ev. destruct Ev as [m ->].
  unfold rr. rewrite (Z.mul_comm 2 m), Z.div_mul, Z.mul_comm by lia. unfold cj_dom in D. rewrite pw_mul2 by lia. rewrite sqrt_sqrt by lra.
  f_equal. ring.
Qed.

Lemma y_split p mu rho rhoJ t IE II IIs IEZ IZ IZs : jk p <> 0 ->
  let x := jx p mu rho rhoJ t (jv0 p - jth p) in
  svcj_y p mu rho rhoJ t IE II IIs IEZ IZ IZs
  = A1 x * IE + A2 x * II + sqrt (1 - rho ^ 2) * IIs + A4 x * IEZ + A5 x * IZ + IZs + A7 x + A8 x.
Proof.
  intros Hk x. unfold svcj_y, svcj_iv, A1, A2, A4, A5, A7, A8, x, jx. cbn [xe xt xi xmu xa xth xsg xrho xlam xmv xrj xms xss].
  rewrite exp_Ropp. field. split; [assumption|apply exp_neq0].
Qed.
Lemma prod_nat {Om} (E : (Om -> R) -> R) (HE : expectation E) (C X1 X2 X3 X4 X5 X6 : Om -> R) (s : R) n1 n2 n3 n4 n5 n6 :
  cj_dom (n1, n2, n3, n4, n5, n6) ->
  E (fun w => C w * (pw (X1 w) n1 * (pw (X2 w) n2 * (pw (s * X3 w) n3 * (pw (X4 w) n4 * (pw (X5 w) n5 * pw (X6 w) n6))))))
  = pw s n3 * E (fun w => C w * (X1 w ^ Z.to_nat n1 * X2 w ^ Z.to_nat n2 * X3 w ^ Z.to_nat n3 * X4 w ^ Z.to_nat n4 * X5 w ^ Z.to_nat n5 * X6 w ^ Z.to_nat n6)).
Proof.
  intro D. unfold cj_dom in D. rewrite <- (E_scal E HE). apply (E_ext E HE). intro w. rewrite pw_mult by lia. rewrite !pw_Zpos by lia. ring.
Qed.

(** ** conditional moments *)
Section Cond.
Context {Om : Type} (E : (Om -> R) -> R) (HE : expectation E) (p : svcj) (mu rho rhoJ t : R) (Hk : jk p <> 0) (Ht : 0 <= t) (Hr : rho ^ 2 <= 1)
  (IE II IIs IEZ IZ IZs : Om -> R) (N : nat) (HM : has_moments6 p t E IE II IIs IEZ IZ IZs N).
Let x := jx p mu rho rhoJ t (jv0 p - jth p).
Let Y := fun w => svcj_y p mu rho rhoJ t (IE w) (II w) (IIs w) (IEZ w) (IZ w) (IZs w).
Lemma cond_value m : (0 <= m <= Z.of_nat N)%Z -> E (fun w => Y w ^ Z.to_nat m) = mvalue m x.
Proof.
  intro Hm. rewrite mvalue_eq. destruct HM as (M & SM & h).
  rewrite <- (mval_E E HE IE II (fun w => sqrt (1 - rho ^ 2) * IIs w) IEZ IZ IZs x m ltac:(lia)).
  - apply (E_ext E HE). intro w. f_equal. unfold Y. rewrite y_split by assumption. reflexivity.
  - intros n1 n2 n3 n4 n5 n6 D Hs. rewrite <- sqrt_rr by assumption.
    pose proof (prod_nat E HE (fun _ => 1) IE II IIs IEZ IZ IZs (sqrt (1 - rho ^ 2)) n1 n2 n3 n4 n5 n6 D) as Q.
    rewrite (E_ext E HE _ (fun w => 1 * (pw (IE w) n1 * (pw (II w) n2 * (pw (sqrt (1 - rho ^ 2) * IIs w) n3 * (pw (IEZ w) n4 * (pw (IZ w) n5 * pw (IZs w) n6))))))) by (intro; ring).
    rewrite Q. f_equal. unfold cj_dom in D.
    rewrite (E_ext E HE _ (fun w => IE w ^ Z.to_nat n1 * II w ^ Z.to_nat n2 * IIs w ^ Z.to_nat n3 * IEZ w ^ Z.to_nat n4 * IZ w ^ Z.to_nat n5 * IZs w ^ Z.to_nat n6)) by (intro; ring).
    rewrite h by lia. rewrite !Z2Nat.id by lia. symmetry. apply m6_sol; assumption.
Qed.
Lemma cond_cvalue n : (0 <= n <= Z.of_nat N)%Z ->
  E (fun w => (Y w - E Y) ^ Z.to_nat n) = if (n =? 0)%Z then 1 else cval mvalue n x.
Proof.
  intro Hn. destruct (Z.eqb_spec n 0) as [->|n0].
  - exact (cond_value 0 ltac:(lia)).
  - rewrite (cval_E E HE Y mvalue n x) by (intros; try apply cond_value; lia).
    assert (EY : E Y = mvalue 1 x). { rewrite <- (cond_value 1) by lia. apply (E_ext E HE). intro. simpl. ring. }
    now rewrite EY.
Qed.
End Cond.

Definition kf_y (a : string) : list string :=
  ["e^{kt}"; "t"; "k^{-}"; "mu"; a; "theta"; "sigma"; "rho"; "lmbd"; "mu_v"; "rhoJ"; "mu_s"; "sigma_s"]%string.

(** C38: cond_mom.moment_y(n) returns for every n >= 0 (the check that the power of sqrt(1-rho^2) is even never
    fails, no lookup fails) a polynomial whose value is the conditional moment of the return *)
Theorem C38_cond_moment_y : forall n, (0 <= n)%Z -> exists q, svcj_moment_y n = Ok q /\
  keyfor q = kf_y "v0-theta" /\ NoDup (map fst (items q)) /\
  (forall key c, In (key, c) (items q) -> length key = 13%nat /\ (forall e, In e (tl key) -> (0 <= e)%Z) /\ (nthZ key 4 <= n)%Z) /\
  forall p mu rho rhoJ t Om (E : (Om -> R) -> R) IE II IIs IEZ IZ IZs, jk p <> 0 -> 0 <= t -> rho ^ 2 <= 1 ->
    expectation E -> has_moments6 p t E IE II IIs IEZ IZ IZs (Z.to_nat n) ->
    eval (monx (svcj_vals p mu rho rhoJ t (jv0 p - jth p))) (items q)
    = E (fun w => svcj_y p mu rho rhoJ t (IE w) (II w) (IIs w) (IEZ w) (IZ w) (IZs w) ^ Z.to_nat n).
Proof.
  intros n Hn. destruct (returns_inv _ _ (moment_y_spec n Hn)) as (q & Eq & (K & U & A) & V).
  exists q. split; [assumption|]. split; [exact K|]. split; [exact U|]. split.
  - intros key c Hin. destruct (allk_in _ _ _ _ A Hin) as [W Wd]. unfold s13 in W. wfs_destruct.
    split; [reflexivity|]. split; [|exact Wd]. cbn [tl]. intros e He. simpl in He.
    repeat (destruct He as [<-|He]; [assumption|]). destruct He.
  - intros p mu rho rhoJ t Om E IE II IIs IEZ IZ IZs Hk Ht Hr HE HM.
    rewrite (cond_value E HE p mu rho rhoJ t Hk Ht Hr IE II IIs IEZ IZ IZs _ HM n ltac:(lia)).
    exact (V (jx p mu rho rhoJ t (jv0 p - jth p))).
Qed.

(** C38: cond_cmom.cmoment_y(n) is the conditional central moment *)
Theorem C38_cond_cmoment_y : forall n, (0 <= n)%Z -> exists q, svcj_cmoment_y n = Ok q /\ keyfor q = kf_y "v0-theta" /\
  forall p mu rho rhoJ t Om (E : (Om -> R) -> R) IE II IIs IEZ IZ IZs, jk p <> 0 -> 0 <= t -> rho ^ 2 <= 1 ->
    expectation E -> has_moments6 p t E IE II IIs IEZ IZ IZs (Z.to_nat n) ->
    let Y := fun w => svcj_y p mu rho rhoJ t (IE w) (II w) (IIs w) (IEZ w) (IZ w) (IZs w) in
    eval (monx (svcj_vals p mu rho rhoJ t (jv0 p - jth p))) (items q) = E (fun w => (Y w - E Y) ^ Z.to_nat n).
Proof.
  intros n Hn. destruct (returns_inv _ _ (cmoment_y_spec n Hn)) as (q & Eq & (K & U & A) & V).
  exists q. split; [assumption|]. split; [exact K|].
  intros p mu rho rhoJ t Om E IE II IIs IEZ IZ IZs Hk Ht Hr HE HM Y. unfold Y.
  rewrite (cond_cvalue E HE p mu rho rhoJ t Hk Ht Hr IE II IIs IEZ IZ IZs _ HM n ltac:(lia)).
  exact (V (jx p mu rho rhoJ t (jv0 p - jth p))).
Qed.

(** ** stationary moments *)
Definition jsrjd (p : svcj) : srjd := mkSrjd (jk p) (jv0 p) (jth p) (jsg p) (jlam p) (jmv p).

Section Stat.
Context {Om : Type} (E : (Om -> R) -> R) (HE : expectation E) (p : svcj) (mu rho rhoJ t : R) (Hk : jk p <> 0) (Ht : 0 <= t) (Hr : rho ^ 2 <= 1)
  (V0 IE II IIs IEZ IZ IZs : Om -> R) (N : nat) (HM : joint_moments6 p t E V0 IE II IIs IEZ IZ IZs N)
  (HV : code_cmoments (jsrjd p) E V0 N).
Let x := jx p mu rho rhoJ t (mean_v (jsrjd p)).
Let Y := fun w => svcj_y (with_jv0 p (V0 w)) mu rho rhoJ t (IE w) (II w) (IIs w) (IEZ w) (IZ w) (IZs w).
Let A := fun w => V0 w - jth p.

Lemma A_moments j : (0 <= j <= Z.of_nat N)%Z -> E (fun w => pw (A w) j) = wval x j.
Proof.
  intro Hj. unfold wval.
  rewrite (E_ext E HE _ (fun w => sumR (fun i => (IZR (mcomb j i) * pw (xi x * xlam x * xmv x) i) * pw (V0 w - mean_v (jsrjd p)) (j - i)) (range 0 (j + 1)))).
  - rewrite (E_sumR E HE). apply sumR_ext. intros i Hi. apply in_range in Hi. rewrite (E_scal E HE), Rmult_assoc. do 2 f_equal.
    destruct (HV (Z.to_nat (j - i)) ltac:(lia)) as (q & Eq & V). rewrite Z2Nat.id in Eq by lia.
    rewrite (E_ext E HE _ (fun w => (V0 w - mean_v (jsrjd p)) ^ Z.to_nat (j - i))) by (intro; apply pw_Zpos; lia).
    rewrite V. unfold sval. rewrite Eq. reflexivity.
  - intro w. replace (A w) with (xi x * xlam x * xmv x + (V0 w - mean_v (jsrjd p))).
    + rewrite <- binomial_pw by lia. apply sumR_ext. intros. ring.
    + unfold A, x, jx, mean_v, jsrjd. cbn [xi xlam xmv sk sth slam smu]. field. assumption.
Qed.
Lemma joint_A c : forall d n1 n2 n3 n4 n5 n6, (c + d + n1 + n2 + n3 + n4 + n5 + n6 <= N)%nat -> forall M,
  (forall y, svcj_moments (with_jv0 p y) (M y)) ->
  E (fun w => V0 w ^ d * A w ^ c * (IE w ^ n1 * II w ^ n2 * IIs w ^ n3 * IEZ w ^ n4 * IZ w ^ n5 * IZs w ^ n6))
  = E (fun w => V0 w ^ d * A w ^ c * M (V0 w) (inZ n1 n2 n3 n4 n5 n6) t).
Proof.
  destruct HM as (M0 & SM0 & h). induction c as [|c IH]; intros d n1 n2 n3 n4 n5 n6 H M SM.
  - etransitivity; [|etransitivity; [apply (h d n1 n2 n3 n4 n5 n6); lia|]]; apply (E_ext E HE); intro w; simpl; [ring|].
    assert (D : cj_dom (inZ n1 n2 n3 n4 n5 n6)) by (unfold cj_dom, inZ; lia).
    pose proof (m6_sol (with_jv0 p (V0 w)) mu rho rhoJ t (M0 (V0 w)) _ _ _ _ _ _ Hk Ht (SM0 (V0 w)) D) as Q1.
    pose proof (m6_sol (with_jv0 p (V0 w)) mu rho rhoJ t (M (V0 w)) _ _ _ _ _ _ Hk Ht (SM (V0 w)) D) as Q2. unfold inZ. rewrite <- Q1, <- Q2. ring.
  - set (P := fun w => IE w ^ n1 * II w ^ n2 * IIs w ^ n3 * IEZ w ^ n4 * IZ w ^ n5 * IZs w ^ n6).
    transitivity (E (fun w => V0 w ^ S d * A w ^ c * P w) + (- jth p) * E (fun w => V0 w ^ d * A w ^ c * P w)).
    { rewrite <- (E_scal E HE), <- (E_plus E HE). apply (E_ext E HE). intro w. unfold P, A. simpl. ring. }
    unfold P. rewrite (IH (S d) n1 n2 n3 n4 n5 n6 ltac:(lia) M SM), (IH d n1 n2 n3 n4 n5 n6 ltac:(lia) M SM).
    rewrite <- (E_scal E HE), <- (E_plus E HE). apply (E_ext E HE). intro w. unfold A. simpl. ring.
Qed.
Lemma joint_m6 n8 n1 n2 n3 n4 n5 n6 : (0 <= n8)%Z -> cj_dom (n1, n2, n3, n4, n5, n6) -> (n8 + n1 + n2 + n3 + n4 + n5 + n6 <= Z.of_nat N)%Z ->
  E (fun w => pw (A w) n8 * (pw (IE w) n1 * (pw (II w) n2 * (pw (sqrt (1 - rho ^ 2) * IIs w) n3 * (pw (IEZ w) n4 * (pw (IZ w) n5 * pw (IZs w) n6))))))
  = E (fun w => pw (A w) n8 * (rr x n3 * m6val (xset x (A w)) n1 n2 n3 n4 n5 n6)).
Proof.
  intros h8 D Hs. rewrite (prod_nat E HE (fun w => pw (A w) n8) IE II IIs IEZ IZ IZs (sqrt (1 - rho ^ 2)) n1 n2 n3 n4 n5 n6 D).
  destruct HM as (M & SM & _). unfold cj_dom in D.
  pose proof (joint_A (Z.to_nat n8) 0 (Z.to_nat n1) (Z.to_nat n2) (Z.to_nat n3) (Z.to_nat n4) (Z.to_nat n5) (Z.to_nat n6) ltac:(lia) M SM) as Q.
  rewrite (E_ext E HE _ (fun w => V0 w ^ 0 * A w ^ Z.to_nat n8 * (IE w ^ Z.to_nat n1 * II w ^ Z.to_nat n2 * IIs w ^ Z.to_nat n3 * IEZ w ^ Z.to_nat n4 * IZ w ^ Z.to_nat n5 * IZs w ^ Z.to_nat n6))).
  2: { intro w. rewrite (pw_Zpos (A w)) by lia. simpl. ring. }
  rewrite Q, <- (E_scal E HE). apply (E_ext E HE). intro w. unfold inZ. rewrite !Z2Nat.id by lia.
  rewrite <- (m6_sol (with_jv0 p (V0 w)) mu rho rhoJ t (M (V0 w)) n1 n2 n3 n4 n5 n6 Hk Ht (SM (V0 w)) D).
  change (m6val (xset x (A w)) n1 n2 n3 n4 n5 n6) with (m6val (jx (with_jv0 p (V0 w)) mu rho rhoJ t (jv0 (with_jv0 p (V0 w)) - jth (with_jv0 p (V0 w)))) n1 n2 n3 n4 n5 n6).
  set (y := jx (with_jv0 p (V0 w)) mu rho rhoJ t (jv0 (with_jv0 p (V0 w)) - jth (with_jv0 p (V0 w)))).
  change (rr x n3) with (rr y n3). rewrite <- sqrt_rr; [|unfold cj_dom; lia|exact Hr]. change (xrho y) with rho. rewrite (pw_Zpos (A w)) by lia. simpl. ring.
Qed.
Lemma stat_mvalue m : (0 <= m <= Z.of_nat N)%Z -> E (fun w => Y w ^ Z.to_nat m) = E (fun w => mval m (xset x (A w))).
Proof.
  intro Hm.
  rewrite (E_ext E HE _ (fun w => sumR (fun z => z) [A1 x * IE w; A2 x * II w; sqrt (1 - rho ^ 2) * IIs w; A4 x * IEZ w; A5 x * IZ w; IZs w; A7 x; A8 (xset x 1) * A w] ^ Z.to_nat m)).
  2: { intro w. f_equal. unfold Y. rewrite (y_split (with_jv0 p (V0 w))) by assumption. cbn [sumR].
    unfold A1, A2, A4, A5, A7, A8, A, x, jx, xset, with_jv0. cbn [jk jv0 jth jsg jlam jmv jms jss xe xt xi xmu xa xth xsg xrho xlam xmv xrj xms xss]. field.
    split; [assumption|apply exp_neq0]. }
  rewrite (E_multinomial_u E HE _ 7 m ltac:(lia)) by reflexivity. unfold mval. rewrite (E_sumR E HE). apply sumR_ext. intros ns Hns. apply in_ucomp in Hns; [|lia].
  destruct Hns as (a1 & a2 & a3). destruct (comp8 ns m a1 a2 a3) as (n1 & n2 & n3 & n4 & n5 & n6 & n7 & n8 & -> & h1 & h2 & h3 & h4 & h5 & h6 & h7 & h8 & en).
  unfold tval. rewrite (E_scal E HE). f_equal. set (c := pw (A1 x) n1 * pw (A2 x) n2 * pw (A4 x) n4 * pw (A5 x) n5 * pw (A7 x) n7 * pw (A8 (xset x 1)) n8).
  transitivity (c * E (fun w => pw (A w) n8 * (pw (IE w) n1 * (pw (II w) n2 * (pw (sqrt (1 - rho ^ 2) * IIs w) n3 * (pw (IEZ w) n4 * (pw (IZ w) n5 * pw (IZs w) n6))))))).
  - rewrite <- (E_scal E HE). apply (E_ext E HE). intro w. rewrite powprod_monx by assumption. unfold c. cbn [monx]. 
    rewrite (pw_mult (A1 x)), (pw_mult (A2 x)), (pw_mult (A4 x)), (pw_mult (A5 x)), (pw_mult (A8 _)) by assumption. ring.
  - rewrite joint_m6; [|assumption|unfold cj_dom; lia|lia]. rewrite <- (E_scal E HE). apply (E_ext E HE). intro w. unfold bval, c.
    replace (A8 (xset x (A w))) with (A8 (xset x 1) * A w) by (unfold A8, xset, Rdiv; cbn [xe xi xa]; ring). rewrite (pw_mult (A8 _)) by assumption.
    change (A1 (xset x (A w))) with (A1 x). change (A2 (xset x (A w))) with (A2 x). change (A4 (xset x (A w))) with (A4 x).
    change (A5 (xset x (A w))) with (A5 x). change (A7 (xset x (A w))) with (A7 x). change (rr (xset x (A w)) n3) with (rr x n3). ring.
Qed.
Lemma stat_svalue m : (0 <= m <= Z.of_nat N)%Z -> E (fun w => Y w ^ Z.to_nat m) = smval m x.
Proof.
  intro Hm. rewrite stat_mvalue by assumption.
  destruct (returns_inv _ _ (moment_y_spec m ltac:(lia))) as (q & _ & Wq & Vq).
  rewrite (E_ext E HE _ (fun w => evp mon13 (xset x (A w)) q)) by (intro w; rewrite <- mvalue_eq; symmetry; apply Vq).
  rewrite <- (stat_value E HE A x m q Wq) by (intros j Hj; apply A_moments; lia).
  unfold smval. rewrite (E_ext _ (Fa_exp m x) _ (fun a => evp mon13 (xset x a) q)) by (intro a; symmetry; apply Vq).
  symmetry. rewrite <- (stat_value _ (Fa_exp m x) (fun a => a) x m q Wq); [reflexivity|]. intros j Hj. now apply Fa_pw.
Qed.
Lemma stat_csvalue n : (0 <= n <= Z.of_nat N)%Z -> E (fun w => (Y w - E Y) ^ Z.to_nat n) = csval n x.
Proof.
  intro Hn. unfold csval. destruct (Z.eqb_spec n 0) as [->|n0].
  - transitivity (smval 0 x); [|apply smval_0]. rewrite <- (stat_svalue 0) by lia. reflexivity.
  - rewrite (cval_E E HE Y smval n x) by (intros; try apply stat_svalue; lia).
    assert (EY : E Y = smval 1 x). { rewrite <- (stat_svalue 1) by lia. apply (E_ext E HE). intro. simpl. ring. }
    now rewrite EY.
Qed.
End Stat.

(** C38: mom.moment_y(n) is the moment of the return when the initial variance has the stationary moments
    returned by mdl_srjd (E[v] = theta + lmbd mu_v / k) *)
Theorem C38_moment_y : forall n, (0 <= n)%Z -> exists q, svcj_stat_moment_y n = Ok q /\ keyfor q = kf_y "E[v]" /\
  forall p mu rho rhoJ t Om (E : (Om -> R) -> R) V0 IE II IIs IEZ IZ IZs, jk p <> 0 -> 0 <= t -> rho ^ 2 <= 1 ->
    expectation E -> joint_moments6 p t E V0 IE II IIs IEZ IZ IZs (Z.to_nat n) -> code_cmoments (jsrjd p) E V0 (Z.to_nat n) ->
    eval (monx (svcj_vals p mu rho rhoJ t (jth p + jlam p * jmv p / jk p))) (items q)
    = E (fun w => svcj_y (with_jv0 p (V0 w)) mu rho rhoJ t (IE w) (II w) (IIs w) (IEZ w) (IZ w) (IZs w) ^ Z.to_nat n).
Proof.
  intros n Hn. destruct (returns_inv _ _ (stat_moment_y_spec n Hn)) as (q & Eq & (K & U & A) & V).
  exists q. split; [assumption|]. split; [exact K|].
  intros p mu rho rhoJ t Om E V0 IE II IIs IEZ IZ IZs Hk Ht Hr HE HM HV.
  rewrite (stat_svalue E HE p mu rho rhoJ t Hk Ht Hr V0 IE II IIs IEZ IZ IZs _ HM HV n ltac:(lia)).
  exact (V (jx p mu rho rhoJ t (mean_v (jsrjd p)))).
Qed.

(** C38: cmom.cmoment_y(n) is the central moment, it does not depend on mu, and remove_mu_column of it never
    raises: every item with a non-zero coefficient has exponent 0 of mu; its result has the same value *)
Theorem C38_cmoment_y : forall n, (0 <= n)%Z -> exists q r, svcj_stat_cmoment_y n = Ok q /\ keyfor q = kf_y "E[v]" /\
  remove_mu_column q = Ok r /\ NoDup (map fst (items r)) /\
  keyfor r = ["e^{-kt}"; "t"; "k^{-}"; "E[v]"; "theta"; "sigma"; "rho"; "lmbd"; "mu_v"; "rhoJ"; "mu_s"; "sigma_s"]%string /\
  (forall key c, In (key, c) (items r) -> length key = 12%nat /\ forall e, In e (tl key) -> (0 <= e)%Z) /\
  forall p mu rho rhoJ t Om (E : (Om -> R) -> R) V0 IE II IIs IEZ IZ IZs, jk p <> 0 -> 0 <= t -> rho ^ 2 <= 1 ->
    expectation E -> joint_moments6 p t E V0 IE II IIs IEZ IZ IZs (Z.to_nat n) -> code_cmoments (jsrjd p) E V0 (Z.to_nat n) ->
    let Y := fun w => svcj_y (with_jv0 p (V0 w)) mu rho rhoJ t (IE w) (II w) (IIs w) (IEZ w) (IZ w) (IZs w) in
    eval (monx (svcj_vals p mu rho rhoJ t (jth p + jlam p * jmv p / jk p))) (items q) = E (fun w => (Y w - E Y) ^ Z.to_nat n) /\
    eval (monx (svcj_vals12 p rho rhoJ t (jth p + jlam p * jmv p / jk p))) (items r) = E (fun w => (Y w - E Y) ^ Z.to_nat n).
Proof.
  intros n Hn. destruct (returns_inv _ _ (stat_cmoment_y_spec n Hn)) as (q & Eq & Wq & V).
  assert (Mu : forall x m, evp mon13 (xmuset x m) q = evp mon13 x q).
  { intros x m. rewrite !V. unfold csval. destruct (n =? 0)%Z; [reflexivity|]. now apply cval_mu. }
  destruct (returns_inv _ _ (remove_mu_spec q Wq Mu)) as (r & Er & (Kr & Ur & Ar) & Vr).
  exists q, r. split; [assumption|]. split; [exact (proj1 Wq)|]. split; [assumption|]. split; [exact Ur|]. split; [exact Kr|]. split.
  - intros key c Hin. pose proof (allk_in _ _ _ _ Ar Hin) as W. unfold s12 in W. wfs_destruct.
    split; [reflexivity|]. cbn [tl]. intros e He. simpl in He. repeat (destruct He as [<-|He]; [assumption|]). destruct He.
  - intros p mu rho rhoJ t Om E V0 IE II IIs IEZ IZ IZs Hk Ht Hr HE HM HV Y. unfold Y.
    rewrite (stat_csvalue E HE p mu rho rhoJ t Hk Ht Hr V0 IE II IIs IEZ IZ IZs _ HM HV n ltac:(lia)).
    split; [exact (V (jx p mu rho rhoJ t (mean_v (jsrjd p))))|].
    rewrite <- V, <- Vr. unfold svcj_vals12. rewrite exp_Ropp. reflexivity.
Qed.

Theorem C38_negative : forall n, (n < 0)%Z -> svcj_moment_y n = Err ValueError /\ svcj_cmoment_y n = Err ValueError /\
  svcj_stat_moment_y n = Err ValueError /\ svcj_stat_cmoment_y n = Err ValueError.
Proof.
  intros n Hn. unfold svcj_stat_moment_y, svcj_cmoment_y, svcj_stat_cmoment_y.
  destruct (returns_inv _ _ (moment_y_spec 1 ltac:(lia))) as (q & Eq & _). rewrite Eq. cbn [bind].
  unfold svcj_moment_y. destruct (Z.ltb_spec n 0); [|lia]. repeat split.
Qed.

(** ** the hypotheses can be met: laws exist for every order *)
Lemma kern6 n (M : cj_idx -> R -> R) t :
  let tab := fun ns => match ns with [a; b; c; d; e; f] => M (a, b, c, d, e, f) t | _ => 0 end in
  forall n1 n2 n3 n4 n5 n6, (n1 + n2 + n3 + n4 + n5 + n6 <= n)%nat ->
  Efin (realise n 6 tab) (fun w => nth 0 w 0 ^ n1 * nth 1 w 0 ^ n2 * nth 2 w 0 ^ n3 * nth 3 w 0 ^ n4 * nth 4 w 0 ^ n5 * nth 5 w 0 ^ n6)
  = M (inZ n1 n2 n3 n4 n5 n6) t.
Proof.
  intros tab n1 n2 n3 n4 n5 n6 H.
  change (M (inZ n1 n2 n3 n4 n5 n6) t) with (tab [Z.of_nat n1; Z.of_nat n2; Z.of_nat n3; Z.of_nat n4; Z.of_nat n5; Z.of_nat n6]).
  rewrite <- (realise_spec n 6 tab _); [|reflexivity|repeat (apply Forall_cons; [lia|]); apply Forall_nil].
  unfold Efin. apply sumR_ext. intros [r xs] Hin. cbn [fst snd]. f_equal. pose proof (realise_len _ _ _ _ _ Hin) as Hl.
  destruct xs as [|z1 [|z2 [|z3 [|z4 [|z5 [|z6 [|? ?]]]]]]]; try discriminate. cbn [powprod nth]. rewrite !Nat2Z.id. ring.
Qed.
Example C38_cond_law_exists : forall n p t, jk p <> 0 -> exists Om (E : (Om -> R) -> R) IE II IIs IEZ IZ IZs,
  expectation E /\ has_moments6 p t E IE II IIs IEZ IZ IZs n.
Proof.
  intros n p t Hk. destruct (C37_moments_exist p Hk) as [M HM].
  exists (list R), (Efin (realise n 6 (fun ns => match ns with [a; b; c; d; e; f] => M (a, b, c, d, e, f) t | _ => 0 end))),
    (fun w => nth 0 w 0), (fun w => nth 1 w 0), (fun w => nth 2 w 0), (fun w => nth 3 w 0), (fun w => nth 4 w 0), (fun w => nth 5 w 0).
  split; [apply Efin_expectation|]. exists M. split; [assumption|]. intros. now apply kern6.
Qed.
Example C38_law_exists : forall n p t, jk p <> 0 -> 0 <= t -> exists Om (E : (Om -> R) -> R) V0 IE II IIs IEZ IZ IZs,
  expectation E /\ joint_moments6 p t E V0 IE II IIs IEZ IZ IZs n /\ code_cmoments (jsrjd p) E V0 n.
Proof.
  intros n p t Hk Ht. pose (par := jsrjd p). assert (Hs : sk par <> 0) by exact Hk.
  set (E0 := Efin (realise1 n (cst (scv par Hs)))). assert (H0 : expectation E0) by apply Efin_expectation.
  set (V := fun a => mean_v par + a).
  pose (v := fun x => mkCj (jk p) Hk (x - jth p) (jth p) (jsg p) (jlam p) (jmv p) (jms p) (jss p)).
  assert (SM : forall x, svcj_moments (with_jv0 p x) (JM6 (v x))).
  { intro x. exact (vsol_exists cj_dom (csys6 (v x)) cj_init cord6 (csys6_tri (v x)) (csys6_cont (v x))). }
  set (Kn := fun a => realise n 6 (fun ns => match ns with [i; b; c; d; e; f] => JM6 (v (V a)) (i, b, c, d, e, f) t | _ => 0 end)).
  assert (H1 : forall a, Efin (Kn a) (fun _ => 1) = 1).
  { intro a. transitivity (JM6 (v (V a)) (inZ 0 0 0 0 0 0) t).
    - etransitivity; [|exact (kern6 n (JM6 (v (V a))) t 0 0 0 0 0 0 ltac:(lia))]. apply (E_ext _ (Efin_expectation _)). intro. simpl. ring.
    - unfold inZ. rewrite <- (m6_sol (with_jv0 p (V a)) 0 0 0 t (JM6 (v (V a))) _ _ _ _ _ _ Hk Ht (SM (V a))) by (unfold cj_dom; lia). apply m6val_0. }
  exists (R * list R)%type, (Ekern E0 Kn), (fun q => V (fst q)), (fun q => nth 0 (snd q) 0), (fun q => nth 1 (snd q) 0),
    (fun q => nth 2 (snd q) 0), (fun q => nth 3 (snd q) 0), (fun q => nth 4 (snd q) 0), (fun q => nth 5 (snd q) 0).
  split; [now apply Ekern_expectation|]. split.
  - exists (fun x => JM6 (v x)). split; [exact SM|]. intros c n1 n2 n3 n4 n5 n6 H.
    rewrite (Ekern_tower E0 Kn (fun x => V x ^ c) (fun w => nth 0 w 0 ^ n1 * nth 1 w 0 ^ n2 * nth 2 w 0 ^ n3 * nth 3 w 0 ^ n4 * nth 4 w 0 ^ n5 * nth 5 w 0 ^ n6)
      (fun a => JM6 (v (V a)) (inZ n1 n2 n3 n4 n5 n6) t) H0) by (intro a; apply kern6; lia).
    symmetry. apply (Ekern_old E0 Kn (fun x => V x ^ c * JM6 (v (V x)) (inZ n1 n2 n3 n4 n5 n6) t) H0 H1).
  - apply (code_cmoments_iff par Hs). intros i Hi.
    rewrite (E_ext _ (Ekern_expectation E0 Kn H0) _ (fun q => fst q ^ i)) by (intro w; unfold V; f_equal; ring).
    rewrite (Ekern_old E0 Kn (fun a => a ^ i) H0 H1). now apply realise1_spec.
Qed.

(** E[y|v0] = (mu - theta/2) t - (v0-theta)(1-e^{-kt})/(2k) + lmbd (...): 13 items *)
Example C38_example : exists q, svcj_moment_y 1 = Ok q /\ In ([0; 1; 0; 1; 0; 0; 0; 0; 0; 0; 0; 0; 0]%Z, 1%Q) (items q) /\
  In ([0; 0; 1; 0; 1; 0; 0; 0; 0; 0; 0; 0; 0]%Z, (-1 # 2)%Q) (items q) /\ In ([0; 1; 0; 0; 0; 0; 0; 0; 1; 1; 1; 0; 0]%Z, 1%Q) (items q).
Proof. eexists. split; [vm_compute; reflexivity|]. cbn [items In]. tauto. Qed.
Example C38_example_cmom : match (let! q := svcj_stat_cmoment_y 2 in remove_mu_column q) with Ok r => (length (items r) > 10)%nat | Err _ => False end.
Proof. vm_compute. repeat constructor. Qed.
