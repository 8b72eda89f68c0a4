(** C32, C33, C41: moments given the jump path of the variance (ito_cond_mom.py). *)
From Coq Require Import Reals Lra.
From Coquelicot Require Import Coquelicot.
From Verif.Proof Require Import ItoCondEx.
Local Open Scope R_scope.

(** ** C32: integration of jump sums *)

(** int_et_fZ(n, m, N): integral of e^{nks} s^m from tau to t, where tau is the running
    maximum of the jump times (0 if there is no sum, N = 0) *)
Theorem C32_int_et_fZ : forall n m N : Z, (0 <= m)%Z ->
  returns (int_et_fZ n m N) (fun r => keyfor r = kf_fZ /\
    forall k t tau : R, k <> 0 -> (N = 0%Z -> tau = 0) ->
      is_RInt (fun s => exp (IZR n * (k * s)) * pw s m) tau t
        (eval (monx [exp (k * t); t; / k; exp (k * tau); tau]) (items r))).
Proof.
  intros n m N Hm. eapply returns_weaken; [now apply int_et_fZ_spec|].
  intros r (h1 & _ & _ & h4). split; [assumption|]. intros k t tau Hk Ht.
  pose proof (h4 k t tau Hk Ht) as E. unfold fmon in E. rewrite E. now apply Fp_RInt.
Qed.
Theorem C32_int_et_fZ_negative : forall n m N : Z, (m < 0)%Z -> int_et_fZ n m N = Err ValueError.
Proof. intros n m N Hm. unfold int_et_fZ. now rewrite (proj2 (Z.ltb_lt m 0) Hm). Qed.
Example C32_int_et_fZ_example : int_et_fZ 2 1 1 = Ok (mkPoly
  [([2; 1; 1; 0; 0]%Z, 1 # 2); ([0; 0; 1; 2; 1]%Z, -1 # 2); ([2; 0; 2; 0; 0]%Z, -1 # 4); ([0; 0; 2; 2; 0]%Z, 1 # 4)] kf_fZ).
Proof. vm_compute. reflexivity. Qed.

(** int_e_poly(coef, tp, m, poly): coef * factor * integral_0^t e^{mks} poly(s) ds for every
    jump path, the factor being v_0 - theta, theta or sigma for tp = 1, 2, other *)
Theorem C32_int_e_poly : forall (c : Q) (tp m : Z) (poly : Poly jkey),
  (forall k, In k (keys (items poly)) -> jkey_ok k) ->
  returns (jint_e_poly c tp m poly) (fun r => keyfor r = keyfor poly /\ uniq (items r) /\
    (forall k, In k (keys (items r)) -> jkey_ok k) /\
    forall p z t, zpk p <> 0 -> jumps_ok z -> 0 <= t ->
      is_RInt (fun s => Q2R c * (if (tp =? 1)%Z then zpv p - zpth p else if (tp =? 2)%Z then zpth p else zpsg p)
                          * exp (IZR m * (zpk p * s)) * eval (jmon p z s) (items poly)) 0 t
        (eval (jmon p z t) (items r))).
Proof.
  intros c tp m poly W.
  pose proof (jint_total c tp m poly True W (fun _ _ _ _ => Logic.I)) as h1.
  pose proof (jint_right false c tp m poly (allk_jok_false _ W) ltac:(discriminate)) as h2.
  destruct (returns_inv _ _ h1) as (r & E & r1 & r2 & r3 & _). rewrite E in *. cbn [returns] in *.
  split; [assumption|]. split; [assumption|]. split; [assumption|]. now destruct h2.
Qed.
(** a path with two jumps, and a poly with nested sums *)
Example C32_int_e_poly_example :
  jumps_ok [(1, 2); (3, 1)] /\
  jint_e_poly 1 2 1 (mkPoly [(([0; 0; 0; 0; 0; 0]%Z, ([1; 1]%Z, [0; 0]%Z, [0]%Z, [0]%Z)), 1%Q)] kf_jIEII)
  = Ok (mkPoly [(([1; 0; 1; 0; 1; 0]%Z, ([1; 1]%Z, [0; 0]%Z, [0]%Z, [0]%Z)), 1%Q);
                (([0; 0; 1; 0; 1; 0]%Z, ([1; 1]%Z, [0; 0]%Z, [1]%Z, [0]%Z)), (-1)%Q)] kf_jIEII).
Proof.
  split; [|vm_compute; reflexivity]. intros sj [<-|[<-|[]]]; cbn [fst]; lra.
Qed.

(** ** C33: integration of IEZ times jump sums *)

(** Where every term has either no power of t or no exponential left, the code is right. *)
Theorem C33_int_e_IEZ_poly_partial : forall (c : Q) (m : Z) (poly : Poly jkey),
  (forall k, In k (keys (items poly)) -> jkey_ok k) ->
  (forall k, In k (keys (items poly)) -> (nth 1 (fst k) 0 = 0 \/ m + nth 0 (fst k) 0 = 0)%Z) ->
  returns (int_e_IEZ_poly c m poly) (fun r => keyfor r = keyfor poly /\ uniq (items r) /\
    (forall k, In k (keys (items r)) -> jkey_ok k) /\
    forall p z t, zpk p <> 0 -> jumps_ok z -> 0 <= t ->
      is_RInt (fun s => Q2R c * exp (IZR m * (zpk p * s)) * IEZ_path (zpk p) z s * eval (jmon p z s) (items poly)) 0 t
        (eval (jmon p z t) (items r))).
Proof.
  intros c m poly W Hs. rewrite (code_iez_safe c m poly W Hs).
  pose proof (fixed_total c m poly True W (fun _ _ _ _ => Logic.I)) as h1.
  pose proof (fixed_right false c m poly (allk_jok_false _ W) ltac:(discriminate)) as h2.
  destruct (returns_inv _ _ h1) as (r & E & r1 & r2 & r3 & _). rewrite E in *. cbn [returns] in *.
  split; [assumption|]. split; [assumption|]. split; [assumption|]. now destruct h2.
Qed.
Example C33_int_e_IEZ_poly_example :
  match int_e_IEZ_poly 1 1 (mkPoly [(([0; 0; 1; 0; 0; 0]%Z, ([2]%Z, [0]%Z, [], [])), 1%Q);
                                    (([-1; 2; 0; 0; 1; 0]%Z, ([], [], [], [])), 1%Q)] kf_jIEII) with
  | Ok r => length (items r) = 4%nat
  | Err _ => False
  end.
Proof. vm_compute. reflexivity. Qed.

(** It never raises on any Poly of that keyfor. *)
Theorem C33_total : forall (c : Q) (m : Z) (poly : Poly jkey),
  (forall k, In k (keys (items poly)) -> jkey_ok k) ->
  returns (int_e_IEZ_poly c m poly) (fun r => keyfor r = keyfor poly /\ uniq (items r) /\
    forall k, In k (keys (items r)) -> jkey_ok k).
Proof.
  intros c m poly W. eapply returns_weaken; [apply (code_iez_total c m poly True W (fun _ _ _ _ => Logic.I))|].
  intros r (h1 & h2 & h3 & _). exact (conj h1 (conj h2 h3)).
Qed.

(** In general it is wrong: the tuples k6..k9 are rebound inside the loop over the terms of
    int_et_fZ, so that the increments of earlier terms accumulate.  Integrand e^{ks} s IEZ_s. *)
Definition C33_poly : Poly jkey := mkPoly [(([0; 1; 0; 0; 0; 0]%Z, ([], [], [], [])), 1%Q)] kf_jIEII.
Theorem C33_int_e_IEZ_poly_refuted : exists (c : Q) (m : Z) (poly r : Poly jkey) (p : zpar) (z : path) (t : R),
  (forall k, In k (keys (items poly)) -> jkey_ok k) /\ zpk p <> 0 /\ jumps_ok z /\ 0 <= t /\
  int_e_IEZ_poly c m poly = Ok r /\
  ~ is_RInt (fun s => Q2R c * exp (IZR m * (zpk p * s)) * IEZ_path (zpk p) z s * eval (jmon p z s) (items poly)) 0 t
      (eval (jmon p z t) (items r)).
Proof.
  assert (W : allk jkey_ok (items C33_poly)).
  { intros k [<-|[]]. split; [reflexivity|]. split; [|now repeat split].
    intros [|[|[|[|[|[|[|j]]]]]]] _; cbn; lia. }
  pose proof (C33_total 1 1 C33_poly W) as h0.
  destruct (returns_inv _ _ h0) as (r & E & _ & U & _).
  exists 1%Q, 1%Z, C33_poly, r, p2, z2, 2.
  split; [exact W|]. split; [apply ln2_nz|]. split; [apply z2_ok|]. split; [lra|]. split; [exact E|]. intro H.
  pose proof (fixed_total 1 1 C33_poly True W (fun _ _ _ _ => Logic.I)) as h1.
  pose proof (fixed_right false 1 1 C33_poly (allk_jok_false _ W) ltac:(discriminate)) as h2.
  destruct (returns_inv _ _ h1) as (r' & E' & _ & U' & _ & _). rewrite E' in h2. cbn [returns] in h2. destruct h2 as [_ h2].
  pose proof (is_RInt_uniq _ _ _ _ _ H (h2 p2 z2 2 ln2_nz z2_ok ltac:(lra))) as Eq.
  assert (D : pdiff (Ok r) (Ok r') = pdiff (int_e_IEZ_poly 1 1 C33_poly) (iez_fixed 1 1 C33_poly)) by now rewrite E, E'.
  vm_compute (pdiff (int_e_IEZ_poly 1 1 C33_poly) (iez_fixed 1 1 C33_poly)) in D.
  pose proof (pdiff_val (jmon p2 z2 2) _ _ _ U U' D) as D'. rewrite Eq in D'.
  cbn [items eval] in D'. rewrite !jmon_2 in D'. unfold pw in D'. cbn [powerRZ] in D'.
  change (Pos.to_nat 1) with 1%nat in D'. change (Pos.to_nat 2) with 2%nat in D'.
  change (Pos.to_nat 3) with 3%nat in D'. cbn [pow] in D'.
  replace (Q2R 1) with 1 in D' by (unfold Q2R; simpl; lra).
  replace (Q2R (-1)) with (-1) in D' by (unfold Q2R; simpl; lra).
  assert (L : / ln 2 * (/ ln 2 * 1) <> 0).
  { apply Rmult_integral_contrapositive. split; [apply Rinv_neq_0_compat, ln2_nz|].
    rewrite Rmult_1_r. apply Rinv_neq_0_compat, ln2_nz. }
  apply L. set (x := / ln 2 * (/ ln 2 * 1)) in *. lra.
Qed.

(** With the tuples rebuilt for every term, as int_e_poly does, it is right for every Poly. *)
Theorem C33_corrected : forall (c : Q) (m : Z) (poly : Poly jkey),
  (forall k, In k (keys (items poly)) -> jkey_ok k) ->
  returns (iez_fixed c m poly) (fun r => keyfor r = keyfor poly /\
    forall p z t, zpk p <> 0 -> jumps_ok z -> 0 <= t ->
      is_RInt (fun s => Q2R c * exp (IZR m * (zpk p * s)) * IEZ_path (zpk p) z s * eval (jmon p z s) (items poly)) 0 t
        (eval (jmon p z t) (items r))).
Proof.
  intros c m poly W.
  pose proof (fixed_total c m poly True W (fun _ _ _ _ => Logic.I)) as h1.
  pose proof (fixed_right false c m poly (allk_jok_false _ W) ltac:(discriminate)) as h2.
  destruct (returns_inv _ _ h1) as (r & E & r1 & r2 & r3 & _). rewrite E in *. cbn [returns] in *.
  split; [assumption|]. now destruct h2.
Qed.

(** ** C41: joint moments of (IE, I, Is) given the jump path *)

(** The moments given the path exist and are unique. *)
Theorem C41_moments_exist : forall p z, jumps_ok z -> exists M, cond_moments p z M.
Proof. exact cond_exists. Qed.
Theorem C41_moments_unique : forall p z M N, cond_moments p z M -> cond_moments p z N ->
  forall a b d : Z, (0 <= a)%Z -> (0 <= b)%Z -> (0 <= d)%Z -> forall t, 0 <= t -> M (a, b, d) t = N (a, b, d) t.
Proof. intros p z M N HM HN a b d h1 h2 h3 t Ht. apply (cond_unique p z M N HM HN (a, b, d)); [now repeat split|assumption]. Qed.

(** moment_IEII never raises for non-negative orders; the result is well formed, and has no
    nonzero coefficient if n3 is odd *)
Theorem C41_moment_IEII_total : forall n1 n2 n3 : Z, (0 <= n1)%Z -> (0 <= n2)%Z -> (0 <= n3)%Z ->
  returns (jmoment_IEII n1 n2 n3) (fun q => keyfor q = kf_jIEII /\ uniq (items q) /\
    (forall k, In k (keys (items q)) -> jkey_ok k) /\
    (Z.even n3 = false -> forall k v, In (k, v) (items q) -> (v == 0)%Q)).
Proof.
  intros n1 n2 n3 h1 h2 h3. eapply returns_weaken; [now apply jmoment_code|].
  intros q [(w1 & w2 & w3 & w4) _]. split; [assumption|]. split; [assumption|]. split; [assumption|].
  intros Ev k v Hin. destruct (Qeq_dec v 0) as [E|N]; [assumption|]. pose proof (w4 k v Hin N) as h. cbn in h. congruence.
Qed.
Theorem C41_moment_IEII_negative : forall n1 n2 n3 : Z, (n1 + n2 + n3 < 0)%Z ->
  jmoment_IEII n1 n2 n3 = Err ValueError.
Proof.
  intros n1 n2 n3 H. unfold jmoment_IEII, jmoment_IEII_with. now rewrite (proj2 (Z.ltb_lt _ 0) H).
Qed.

(** The code is right up to order 3, and for the powers of IE alone at every order. *)
Theorem C41_moment_IEII_partial : forall n1 n2 n3 : Z, (0 <= n1)%Z -> (0 <= n2)%Z -> (0 <= n3)%Z ->
  (n1 + n2 + n3 <= 3 \/ n2 = 0 /\ n3 = 0)%Z ->
  returns (jmoment_IEII n1 n2 n3) (fun q => forall p z M, zpk p <> 0 -> jumps_ok z -> cond_moments p z M ->
    forall t, 0 <= t -> eval (jmon p z t) (items q) = M (n1, n2, n3) t).
Proof.
  intros n1 n2 n3 h1 h2 h3 [H|[-> ->]].
  - rewrite jmoment_code_3 by assumption. eapply returns_weaken; [now apply jmoment_fixed|].
    intros q [_ G] p z M Hp Hz HM t Ht. apply G; [discriminate|now repeat split|assumption].
  - eapply returns_weaken; [now apply jmoment_code|].
    intros q [_ G] p z M Hp Hz HM t Ht. apply G; [intros _; now split|now repeat split|assumption].
Qed.

(** From order 4 on it is wrong, because of the defect of int_e_IEZ_poly (C33). *)
Theorem C41_moment_IEII_refuted : exists (n1 n2 n3 : Z) (q : Poly jkey) (p : zpar) (z : path) M (t : R),
  (0 <= n1)%Z /\ (0 <= n2)%Z /\ (0 <= n3)%Z /\ jmoment_IEII n1 n2 n3 = Ok q /\
  zpk p <> 0 /\ jumps_ok z /\ cond_moments p z M /\ 0 <= t /\
  eval (jmon p z t) (items q) <> M (n1, n2, n3) t.
Proof.
  destruct (cond_exists p2 z2 z2_ok) as [M HM].
  destruct (returns_inv _ _ (jmoment_code 0 4 0 ltac:(lia) ltac:(lia) ltac:(lia))) as (q & E & (_ & U & _) & _).
  destruct (returns_inv _ _ (jmoment_fixed 0 4 0 ltac:(lia) ltac:(lia) ltac:(lia))) as (q' & E' & (_ & U' & _) & G).
  exists 0%Z, 4%Z, 0%Z, q, p2, z2, M, 2. repeat (split; [lia|]). split; [exact E|].
  split; [apply ln2_nz|]. split; [apply z2_ok|]. split; [exact HM|]. split; [lra|].
  destruct G as [_ G]; [discriminate|].
  rewrite <- (G p2 z2 M); [now apply code_040|now repeat split; [apply ln2_nz|apply z2_ok|]|lra].
Qed.

(** The recursion itself is right at every order: with any integration routine in the place of
    int_e_IEZ_poly that computes the integral of C33, moment_IEII gives the moments. *)
Theorem C41_recursion_right : forall iez : Q -> Z -> Poly jkey -> res (Poly jkey),
  (forall c m poly, (forall k, In k (keys (items poly)) -> jkey_ok k) ->
     returns (iez c m poly) (fun r => keyfor r = keyfor poly /\ uniq (items r) /\
       (forall k, In k (keys (items r)) -> jkey_ok k) /\
       ((forall k v, In (k, v) (items poly) -> (v == 0)%Q) -> forall k v, In (k, v) (items r) -> (v == 0)%Q) /\
       forall p z t, zpk p <> 0 -> jumps_ok z -> 0 <= t ->
         is_RInt (fun s => Q2R c * exp (IZR m * (zpk p * s)) * IEZ_path (zpk p) z s * eval (jmon p z s) (items poly)) 0 t
           (eval (jmon p z t) (items r)))) ->
  forall n1 n2 n3 : Z, (0 <= n1)%Z -> (0 <= n2)%Z -> (0 <= n3)%Z ->
  returns (jmoment_IEII_with iez n1 n2 n3) (fun q => forall p z M, zpk p <> 0 -> jumps_ok z -> cond_moments p z M ->
    forall t, 0 <= t -> eval (jmon p z t) (items q) = M (n1, n2, n3) t).
Proof.
  intros iez H n1 n2 n3 h1 h2 h3.
  eapply returns_weaken; [apply (jmoment_right iez); trivial|].
  - intros c m poly Pc W S. eapply returns_weaken; [apply H, W|]. intros r (r1 & r2 & r3 & r4 & _).
    split; [assumption|]. split; [assumption|]. split; [assumption|].
    intros k v Hin Hv.
    assert (Dec : forall l : list (jkey * Q), (forall k v, In (k, v) l -> (v == 0)%Q) \/ exists k v, In (k, v) l /\ ~ (v == 0)%Q).
    { induction l as [|[k1 v1] l IH]; [left; intros ? ? []|]. destruct (Qeq_dec v1 0) as [E|N].
      - destruct IH as [IH|(k2 & v2 & IH1 & IH2)].
        + left. intros k' v' [E'|Hin']; [injection E' as <- <-; exact E|now apply (IH k')].
        + right. exists k2, v2. split; [now right|assumption].
      - right. exists k1, v1. split; [now left|assumption]. }
    destruct (Dec (items poly)) as [D|(k1 & v1 & D1 & D2)]; [|exact (S k1 v1 D1 D2)].
    contradiction Hv. exact (r4 D k v Hin).
  - intros c m poly W _. eapply returns_weaken; [apply H; intros k Hk; now apply W|].
    intros r (_ & _ & r3 & _ & r5). split; [now apply allk_jok_false|exact r5].
  - intros q [_ G] p z M Hp Hz HM t Ht. apply G; [discriminate|now repeat split|assumption].
Qed.

Theorem C41_corrected : forall n1 n2 n3 : Z, (0 <= n1)%Z -> (0 <= n2)%Z -> (0 <= n3)%Z ->
  returns (jmoment_IEII_with iez_fixed n1 n2 n3) (fun q => forall p z M, zpk p <> 0 -> jumps_ok z -> cond_moments p z M ->
    forall t, 0 <= t -> eval (jmon p z t) (items q) = M (n1, n2, n3) t).
Proof.
  intros n1 n2 n3 h1 h2 h3. eapply returns_weaken; [now apply jmoment_fixed|].
  intros q [_ G] p z M Hp Hz HM t Ht. apply G; [discriminate|now repeat split|assumption].
Qed.

Example C41_example :
  match jmoment_IEII 3 0 0 with Ok q => length (items q) = 9%nat | Err _ => False end /\
  exists M, cond_moments p2 z2 M.
Proof. split; [vm_compute; reflexivity|]. apply cond_exists, z2_ok. Qed.
