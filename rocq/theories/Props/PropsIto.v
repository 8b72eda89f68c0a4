(** Properties C12-C16: ito_mom.py. *)
From Coq Require Import Reals Lra.
From Coquelicot Require Import Coquelicot.
From Verif.Spec Require Import Names.
From Verif.Proof Require Import ItoProofs MomentV.
Local Open Scope R_scope.

(** ** C12 *)
Theorem C12_int_et : forall (n m : Z), (0 <= m)%Z ->
  exists p, int_et n m = Ok p /\ keyfor p = ["e^{k[t-(n-1)h]}"; "[t-(n-1)h]"; "k^{-}"]%string /\
    forall k t, k <> 0 ->
      is_RInt (fun s => exp (IZR n * k * s) * s ^ Z.to_nat m) 0 t
        (eval (monx [exp (k * t); t; / k]) (items p)).
Proof.
  intros n m Hm. pose proof (int_et_spec n m Hm) as h.
  apply returns_inv in h. destruct h as (p & Ep & h1 & h2 & h3).
  exists p. split; [assumption|]. split; [assumption|]. intros k t Hk.
  destruct (h3 k Hk) as [z d].
  apply (is_RInt_ext (fun s => exp (IZR n * (k * s)) * pw s m)).
  { intros s _. rewrite pw_Zpos by assumption. f_equal. f_equal. ring. }
  assert (E : eval (monx [exp (k * t); t; / k]) (items p) = eval (etmon k t) (items p) - eval (etmon k 0) (items p)).
  { rewrite z. unfold etmon. ring. }
  rewrite E.
  apply (RInt_of_derive (fun t => eval (etmon k t) (items p))); [exact d|].
  intro s. apply continuous_Rmult.
  - apply continuous_Rexp, continuous_Rmult; [apply continuous_Rconst|].
    apply continuous_Rmult; [apply continuous_Rconst|apply continuous_Rid].
  - eapply continuous_of_derive, (is_derive_pw (fun t => t)); [apply is_derive_Rid|now right].
Qed.
Theorem C12_negative : forall n m, (m < 0)%Z -> int_et n m = Err ValueError.
Proof. intros n m Hm. unfold int_et. destruct (Z.ltb_spec m 0); [reflexivity|lia]. Qed.
Example C12_example :
  int_et 2 2 = Ok (mkPoly [([2; 2; 1], 1 # 2); ([2; 1; 2], -1 # 2); ([2; 0; 3], 1 # 4); ([0; 0; 3], -1 # 4)]%Z
    ["e^{k[t-(n-1)h]}"; "[t-(n-1)h]"; "k^{-}"]%string).
Proof. reflexivity. Qed.

(** ** C13 *)
Theorem C13_moment_v : forall (n : Z), (0 <= n)%Z ->
  exists p, moment_v n = Ok p /\ keyfor p = ["theta"; "sigma_v^2/k"]%string /\
    forall theta sigma k, k <> 0 ->
      eval (monx [theta; sigma ^ 2 / k]) (items p)
      = prodR (fun i => theta + INR i * (sigma ^ 2 / (2 * k))) (seq 0 (Z.to_nat n)).
Proof.
  intros n Hn. pose proof (moment_v_spec n Hn) as h. apply returns_inv in h.
  destruct h as (p & Ep & h1 & _ & _ & h4). exists p. split; [assumption|]. split; [assumption|].
  intros th sg k Hk. rewrite h4. generalize (Z.to_nat n) as m.
  assert (PS : forall f l (x : nat), prodR f (l ++ [x]) = prodR f l * f x).
  { intros f l x. induction l as [|a r IH]; simpl; [ring|rewrite IH; ring]. }
  induction m as [|m IH]; [reflexivity|]. rewrite seq_S, PS, <- IH. cbn [gmom]. rewrite Nat.add_0_l.
  f_equal. field. assumption.
Qed.
(** these are the moments of the Gamma law with mean theta and variance theta sigma^2/(2k) *)
Theorem C13_gamma_law : forall (n : Z), (0 <= n)%Z ->
  exists p, moment_v n = Ok p /\
    forall theta sigma k, 0 < k -> sigma <> 0 ->
      let b := sigma ^ 2 / (2 * k) in
      eval (monx [theta; sigma ^ 2 / k]) (items p)
      = Derive_n (fun s => exp (- (theta / b) * ln (1 - b * s))) (Z.to_nat n) 0.
Proof.
  intros n Hn. pose proof (moment_v_spec n Hn) as h. apply returns_inv in h.
  destruct h as (p & Ep & _ & _ & _ & h4). exists p. split; [assumption|].
  intros th sg k Hk Hs b.
  assert (Hb : 0 < b).
  { unfold b. apply Rdiv_lt_0_compat; [|lra]. rewrite <- Rsqr_pow2. now apply Rsqr_pos_lt. }
  change (fun s => exp (- (th / b) * ln (1 - b * s))) with (mgf_gamma th b).
  rewrite mgf_gamma_derive_n by (assumption || lra).
  rewrite h4, Rmult_0_r, Rminus_0_r, ln_1, Rmult_0_r, exp_0, Rmult_1_r. f_equal.
  unfold b. field. lra.
Qed.
Theorem C13_negative : forall n, (n < 0)%Z -> moment_v n = Err UnboundLocalError.
Proof.
  intros n Hn. unfold moment_v. destruct (Z.eqb_spec n 0); [lia|].
  destruct (Z.eqb_spec n 1); [lia|]. destruct (Z.ltb_spec n 2); [reflexivity|lia].
Qed.
Example C13_example : moment_v 3 = Ok (mkPoly [([3; 0], 1%Q); ([2; 1], 3 # 2); ([1; 2], 1 # 2)]%Z
    ["theta"; "sigma_v^2/k"]%string).
Proof. reflexivity. Qed.

(** ** C14-C16 *)
(** C15: no exception for any non-negative order *)
Theorem C15_never_raises : forall a b d : Z, (0 <= a)%Z -> (0 <= b)%Z -> (0 <= d)%Z ->
  exists q, moment_IEII a b d = Ok q /\ keyfor q = nm_ito.
Proof.
  intros a b d Ha Hb Hd. pose proof (moment_IEII_spec a b d Ha Hb Hd) as h.
  apply returns_inv in h. destruct h as (q & E & (h1 & _) & _). eauto.
Qed.
Theorem C15_negative_total : forall a b d : Z, (a + b + d < 0)%Z -> moment_IEII a b d = Err ValueError.
Proof.
  intros a b d Hs. unfold moment_IEII. destruct (Z.ltb_spec (a + b + d) 0); [reflexivity|lia].
Qed.
(** the guard checks only the sum of the orders *)
Theorem C15_negative_component_refuted :
  exists a b d : Z, (0 <= a + b + d)%Z /\ moment_IEII a b d = Err KeyError.
Proof. exists (-1)%Z, 1%Z, 1%Z. split; [lia|reflexivity]. Qed.

(** C14: the moment equations have a solution, and moment_IEII is one *)
Theorem C14_solution : forall p : par, pk p <> 0 -> ito_moments p (ito_val p).
Proof. exact ito_solution. Qed.
Theorem C14_unique : forall (p : par) M N, ito_moments p M -> ito_moments p N ->
  forall i, ito_dom i -> forall t, 0 <= t -> M i t = N i t.
Proof.
  intros p M N. apply (vsol_unique ito_dom (ito_sys p) ito_init (fun i => Z.to_nat (ord3 i)) (ito_tri p)).
Qed.
(** initial values and differential equation *)
Theorem C14_ode : forall (p : par) i, pk p <> 0 -> ito_dom i ->
  ito_val p i 0 = ito_init i /\
  forall t : R, 0 < t -> is_derive (ito_val p i) t (lin_rhs (ito_sys p) (ito_val p) i t).
Proof.
  intros p i Hp Hi. split.
  - pose proof (C14_solution p Hp i Hi 0 (Rle_refl 0)) as h.
    pose proof (is_RInt_point (lin_rhs (ito_sys p) (ito_val p) i) 0) as h0.
    pose proof (is_RInt_uniq _ _ _ _ _ h h0) as E. unfold zero in E; simpl in E. lra.
  - apply (vsol_derive ito_dom _ ito_init); [now apply C14_solution|assumption|].
    intros c j Hin t. split; [eapply ito_cont, Hin|].
    destruct (ito_tri p i Hi c j Hin) as [Hj _]. destruct j as [[a b] d].
    destruct Hj as (h1 & h2 & h3).
    pose proof (moment_IEII_spec a b d h1 h2 h3) as h.
    unfold ito_val. destruct (moment_IEII a b d) as [q|]; [|destruct h].
    destruct h as ((_ & _ & W & _) & _). now apply imon_continuous.
Qed.
(** the order-0 moment is 1 *)
Theorem C14_order0 : forall (p : par) t, ito_val p (0, 0, 0)%Z t = 1.
Proof. intros p t. unfold ito_val. simpl. unfold Q2R; simpl. field. Qed.

(** C16 *)
Theorem C16_odd_vanish : forall a b d : Z, (0 <= a)%Z -> (0 <= b)%Z -> (0 <= d)%Z -> Z.odd d = true ->
  exists q, moment_IEII a b d = Ok q /\
    (forall k v, In (k, v) (items q) -> (v == 0)%Q) /\
    ((3 <= a + b + d)%Z -> items q = []).
Proof.
  intros a b d Ha Hb Hd Ho. pose proof (moment_IEII_spec a b d Ha Hb Hd) as h.
  apply returns_inv in h. destruct h as (q & E & (_ & _ & _ & S & _) & _). exists q. split; [assumption|].
  assert (Z0 : forall k v, In (k, v) (items q) -> (v == 0)%Q).
  { intros k v Hin. destruct (Qeq_dec v 0) as [e|n]; [assumption|].
    destruct (S k v Hin n) as [_ s]. rewrite <- Z.negb_odd, Ho in s. discriminate. }
  split; [assumption|]. intro H3. unfold moment_IEII in E.
  destruct (Z.ltb_spec (a + b + d) 0); [discriminate|]. destruct (Z.leb_spec (a + b + d) 2); [lia|].
  destruct (if (3 <? a + b + d)%Z then foldM IEII_round (range 3 (a + b + d)) IEII_init else Ok IEII_init) as [C|]; [|discriminate].
  cbn [bind] in E. destruct (recursive_IEII a b d C) as [r|]; [|discriminate]. cbn [bind] in E.
  inversion E; subst q. cbn [remove_zero items] in *.
  destruct (rm_zero (items r)) as [|[k v] l] eqn:El; [reflexivity|].
  exfalso. assert (Hin : In (k, v) (rm_zero (items r))) by (rewrite El; now left).
  apply rm_zero_in in Hin. apply Hin. apply (Z0 k v). now left.
Qed.
Theorem C16_first_slot : forall a b d : Z, (0 <= a)%Z -> (0 <= b)%Z -> (0 <= d)%Z ->
  exists q, moment_IEII a b d = Ok q /\
    forall k v, In (k, v) (items q) -> ~ (v == 0)%Q -> nthZ k 0 = a.
Proof.
  intros a b d Ha Hb Hd. pose proof (moment_IEII_spec a b d Ha Hb Hd) as h.
  apply returns_inv in h. destruct h as (q & E & (_ & _ & _ & S & _) & _). exists q. split; [assumption|].
  intros k v Hin Hv. now destruct (S k v Hin Hv).
Qed.

Example C15_example :
  match moment_IEII 1 2 0 with Ok q => length (items q) = 9%nat | Err _ => False end.
Proof. reflexivity. Qed.
Example C14_example : ito_dom (2, 1, 2)%Z /\ pk (mkPar 1 0 1 1 1) <> 0.
Proof. split; [unfold ito_dom; lia|simpl; lra]. Qed.

Print Assumptions C12_int_et. Print Assumptions C13_moment_v. Print Assumptions C13_gamma_law.
Print Assumptions C14_moments. Print Assumptions C14_solution. Print Assumptions C14_unique.
Print Assumptions C14_ode. Print Assumptions C15_never_raises. Print Assumptions C16_odd_vanish.
