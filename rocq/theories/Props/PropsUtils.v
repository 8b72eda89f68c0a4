(** Properties C07-C10: combinatorics, the nested jump sum, simplify_rho. *)
From Coq Require Import Lra Psatz.
From Verif.Proof Require Import UtilsProofs.
Local Open Scope R_scope.

(** C07: comb is the multinomial coefficient *)
Theorem C07_comb : forall ns : list Z,
  Forall (fun x => 0 <= x)%Z ns ->
  exists c, comb (sumZ ns) ns = Ok c /\
    IZR c * prodR (fun k => INR (Factorial.fact (Z.to_nat k))) ns
    = INR (Factorial.fact (Z.to_nat (sumZ ns))).
Proof.
  intros ns Hns. exists (cmb (sumZ ns) ns). split; [apply comb_ok; auto; lia|].
  pose proof (cmb_fact ns (sumZ ns) Hns eq_refl) as E. apply (f_equal IZR) in E.
  rewrite mult_IZR in E. unfold fact in E at 1. rewrite factN_fact in E. rewrite <- E. f_equal.
  clear. induction ns as [|k r IH]; simpl; [reflexivity|].
  rewrite IH, mult_IZR. f_equal. unfold fact. now rewrite factN_fact.
Qed.

(** comb never asks for more than is left *)
Theorem C07_comb_partial_sum : forall (n : Z) (ns : list Z),
  Forall (fun x => 0 <= x)%Z ns -> (sumZ ns <= n)%Z ->
  exists c, comb n ns = Ok c /\
    IZR c * prodR (fun k => INR (Factorial.fact (Z.to_nat k))) ns
          * INR (Factorial.fact (Z.to_nat (n - sumZ ns)))
    = INR (Factorial.fact (Z.to_nat n)).
Proof.
  intros n ns Hns Hle. exists (cmb n ns). split; [apply comb_ok; auto|].
  assert (Hns2 : Forall (fun x => 0 <= x)%Z (ns ++ [n - sumZ ns]%Z)).
  { apply Forall_app. split; [assumption|]. constructor; [lia|constructor]. }
  assert (Hs : forall l a, sumZ (l ++ [a]) = (sumZ l + a)%Z).
  { induction l as [|b l IH]; intro a; simpl; [lia|]. rewrite IH. lia. }
  pose proof (cmb_fact (ns ++ [n - sumZ ns]%Z) n Hns2 ltac:(rewrite Hs; lia)) as E.
  assert (Hp : forall l a, prodfact (l ++ [a]) = (prodfact l * fact a)%Z).
  { induction l as [|b l IH]; intro a; cbn [prodfact app]; [ring|]. rewrite IH. ring. }
  assert (Hc : forall l m, cmb m (l ++ [m - sumZ l]%Z) = cmb m l).
  { induction l as [|b l IH]; intro m; cbn [cmb app sumZ].
    - simpl. rewrite Z.sub_0_r. unfold mcomb. rewrite combN_nn. ring.
    - f_equal. simpl sumZ. replace (m - (b + sumZ l))%Z with (m - b - sumZ l)%Z by lia. apply IH. }
  rewrite Hc, Hp in E. apply (f_equal IZR) in E. rewrite !mult_IZR in E.
  unfold fact in E. rewrite !factN_fact in E. rewrite <- E. rewrite Rmult_assoc. f_equal. f_equal.
  clear. induction ns as [|k r IH]; simpl; [reflexivity|].
  rewrite IH, mult_IZR. f_equal. unfold fact. now rewrite factN_fact.
Qed.

(** Multinomial theorem over the very enumeration returned by multilevel_comb. *)
Theorem C07_multinomial : forall (xs : list R) (m : Z),
  (2 <= length xs)%nat -> (0 <= m)%Z ->
  exists L, multilevel_comb (Z.of_nat (length xs)) m = Ok (inr L) /\
    sumR (fun t => match comb m t with Ok c => IZR c | Err _ => 0 end * powprod xs t) L
    = sumR (fun x => x) xs ^ Z.to_nat m.
Proof.
  intros xs m Hx Hm. exists (wcomp (length xs) m). split.
  - rewrite multilevel_comb_correct by lia. now rewrite Nat2Z.id.
  - rewrite <- multinomial by assumption. apply sumR_ext. intros t Ht. apply in_wcomp in Ht.
    destruct Ht as (_ & h1 & h2). rewrite comb_ok; auto. lia.
Qed.

(** C08: the stack machines enumerate exactly *)
Theorem C08_multilevel_comb : forall n m : Z, (2 <= n)%Z -> (0 <= m)%Z ->
  exists L, multilevel_comb n m = Ok (inr L) /\ NoDup L /\
    forall t, In t L <-> Z.of_nat (length t) = n /\ Forall (fun x => 0 <= x)%Z t /\ sumZ t = m.
Proof.
  intros n m Hn Hm. exists (wcomp (Z.to_nat n) m).
  split; [now apply multilevel_comb_correct|]. split; [apply NoDup_wcomp|].
  intro t. rewrite in_wcomp. intuition lia.
Qed.

Theorem C08_multilevel_index : forall n m : Z, (1 <= n)%Z -> (1 <= m)%Z ->
  exists L, multilevel_index n m = Ok L /\ NoDup L /\
    forall t, In t L <-> Z.of_nat (length t) = n /\ Forall (fun x => 0 <= x < m)%Z t.
Proof.
  intros n m Hn Hm. exists (tuples m (Z.to_nat n)).
  split; [now apply multilevel_index_correct|]. split; [apply NoDup_tuples|].
  intro t. rewrite in_tuples. intuition lia.
Qed.

(** Edge behaviours outside the documented domain. *)
Theorem C08_comb_one_returns_int : forall m, multilevel_comb 1 m = Ok (inl m).
Proof. reflexivity. Qed.

(** multilevel_index(n, 0) with n >= 2 never leaves its loop. *)
Theorem C08_index_m0_never_ends : forall n k, (2 <= n)%Z ->
  exists st, iterk (index_step n 0 (fun idx a => a ++ [idx])) k (mkSt true [] []) = Running st.
Proof. intros. now apply index_m0_diverges. Qed.

(** C09: fZ *)
Theorem C09_fZ : forall (l o p q : list Z) (k : R) (s J : list R),
  l <> [] -> J <> [] ->
  length o = length l -> S (length p) = length l -> S (length q) = length l ->
  length s = length J ->
  fZ l o p q k s J = Ok (fZ_sum k s J l o p q).
Proof. intros. now apply fZ_correct. Qed.

Theorem C09_fZ_no_level : forall o p q k s J, fZ [] o p q k s J = Ok 1.
Proof. reflexivity. Qed.
Theorem C09_fZ_no_jump : forall l o p q k s, l <> [] -> fZ l o p q k s [] = Ok 0.
Proof. intros [|a l] o p q k s H; [contradiction|reflexivity]. Qed.

(** C10: simplify_rho *)
Theorem C10_simplify_rho : forall (p : Poly (list Z)) (n : nat) (xs : list R),
  (1 <= n < length xs)%nat ->
  Rabs (nth (n - 1) xs 0) <= 1 ->
  nth n xs 0 = sqrt (1 - nth (n - 1) xs 0 ^ 2) ->
  (forall k v, In (k, v) (items p) -> length k = length xs /\
     (0 <= nthZ k n)%Z /\ (nthZ k n mod 2 = 0)%Z /\
     (nth (n - 1) xs 0 <> 0 \/ (0 <= nthZ k (n - 1))%Z)) ->
  exists r, simplify_rho p n = Ok r /\
    keyfor r = dropat n (keyfor p) /\ uniq (items r) /\ nonzero (items r) /\
    eval (monx (dropat n xs)) (items r) = eval (monx xs) (items p).
Proof. intros. apply returns_inv. now apply simplify_rho_spec. Qed.

Theorem C10_raises_iff_odd : forall (p : Poly (list Z)) (n : nat),
  simplify_rho p n = Err BareException <->
  exists k v, In (k, v) (items p) /\ (nthZ k n mod 2 <> 0)%Z.
Proof. intros. apply simplify_rho_gen_raises. Qed.

(** Without the non-negativity hypothesis the value is not kept: a negative even power
    of sqrt(1-rho^2) is silently dropped. *)
Theorem C10_negative_power_dropped_refuted : exists (p : Poly (list Z)) r,
  simplify_rho p 1 = Ok r /\ items r = [] /\
  eval (monx [0; sqrt (1 - 0 ^ 2)]) (items p) = 1.
Proof.
  exists (mkPoly [([0; -2]%Z, 1%Q)] ["rho"; "sqrt(1-rho^2)"]%string), (mkPoly [] ["rho"]%string).
  split; [reflexivity|]. split; [reflexivity|].
  cbn [items eval monx]. rewrite Q2R_1. rewrite pow_i by lia. rewrite Rminus_0_r, sqrt_1.
  unfold pw. simpl. lra.
Qed.

(** *** Concrete cases *)
Example C07_ex : comb 5 [1; 2; 2]%Z = Ok 30%Z /\ Forall (fun x => 0 <= x)%Z [1; 2; 2]%Z.
Proof. split; [reflexivity|]. repeat constructor; lia. Qed.
Example C08_ex_comb : multilevel_comb 3 2 =
  Ok (inr [[0;0;2];[0;1;1];[0;2;0];[1;0;1];[1;1;0];[2;0;0]]%Z).
Proof. vm_compute. reflexivity. Qed.
Example C08_ex_index : multilevel_index 2 2 = Ok [[0;0];[0;1];[1;0];[1;1]]%Z.
Proof. vm_compute. reflexivity. Qed.
Example C09_ex : fZ [1;2]%Z [0;1]%Z [1]%Z [2]%Z 1 [2; 3] [5; 7] =
  Ok (fZ_sum 1 [2; 3] [5; 7] [1;2]%Z [0;1]%Z [1]%Z [2]%Z).
Proof. apply C09_fZ; try discriminate; reflexivity. Qed.
Definition ex_rho : Poly (list Z) :=
  mkPoly [([1; 0; 2]%Z, 1%Q); ([0; 1; 0]%Z, 1%Q)] ["v"; "rho"; "sqrt(1-rho^2)"]%string.
Example C10_ex : (forall k v, In (k, v) (items ex_rho) -> length k = 3%nat /\
     (0 <= nthZ k 2)%Z /\ (nthZ k 2 mod 2 = 0)%Z /\ (1/2 <> 0 \/ (0 <= nthZ k 1)%Z)) /\
  simplify_rho ex_rho 2 =
    Ok (mkPoly [([1; 0]%Z, 1%Q); ([1; 2]%Z, (-1)%Q); ([0; 1]%Z, 1%Q)] ["v"; "rho"]%string).
Proof.
  split; [|reflexivity].
  intros k v [E|[E|[]]]; inversion E; subst; cbn; repeat split; try lia; right; lia.
Qed.

Print Assumptions C07_comb.
Print Assumptions C07_comb_partial_sum.
Print Assumptions C07_multinomial.
Print Assumptions C08_multilevel_comb.
Print Assumptions C08_multilevel_index.
Print Assumptions C08_index_m0_never_ends.
Print Assumptions C09_fZ.
Print Assumptions C10_simplify_rho.
Print Assumptions C10_raises_iff_odd.
Print Assumptions C10_negative_power_dropped_refuted.
