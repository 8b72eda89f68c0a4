(** C42: moments of the square-root jump diffusion given the jump path
    (mdl_srjd/cond2_mom.py, cond2_cmom.py). *)
From Coq Require Import Reals Lra.
From Coquelicot Require Import Coquelicot.
From Verif.Proof Require Import Realise ItoCondEx SrjdCond2V.
Local Open Scope R_scope.

(** moment_IE(m) = E[IE_t^m | v_0, z] for every order, parameters and jump path *)
Theorem C42_moment_IE : forall m : Z, (0 <= m)%Z ->
  returns (c2_moment_IE m) (fun r => keyfor r = ["v_0"; "k^{-}"; "theta"; "sigma"; "e^{kt}"; "l_{1:n}"; "o_{2:n}"]%string /\ uniq (items r) /\
    (forall key, In key (keys (items r)) -> c2ok key) /\
    forall p z M t, zpk p <> 0 -> jumps_ok z -> cond_moments p z M -> 0 <= t ->
      eval (c2mon p z t) (items r) = M (m, 0, 0)%Z t).
Proof.
  intros m Hm. eapply returns_weaken; [now apply c2_moment_IE_spec|]. intros r [(h1 & h2 & h3) h4].
  split; [assumption|]. split; [assumption|]. split; [intros key Hk; now apply (h3 key)|].
  intros p z M t Hp Hz HM Ht. apply (h4 p z M); trivial. now repeat split.
Qed.

(** moment_v(m) = E[v_t^m | v_0, z], v_t = v_given + sigma e^{-kt} IE_t *)
Theorem C42_moment_v : forall m : Z, (0 <= m)%Z ->
  returns (c2_moment_v m) (fun r => keyfor r = ["v_0"; "k^{-}"; "theta"; "sigma"; "e^{kt}"; "l_{1:n}"; "o_{2:n}"]%string /\ uniq (items r) /\
    (forall key, In key (keys (items r)) -> c2ok key) /\
    forall p z M t Om (E : (Om -> R) -> R) (IE : Om -> R),
      zpk p <> 0 -> jumps_ok z -> cond_moments p z M -> 0 <= t -> expectation E ->
      (forall n, (0 <= n <= m)%Z -> E (fun w => pw (IE w) n) = M (n, 0, 0)%Z t) ->
      eval (c2mon p z t) (items r) = E (fun w => pw (v_given p z t + zpsg p * exp (- (zpk p * t)) * IE w) m)).
Proof.
  intros m Hm. eapply returns_weaken; [now apply c2_moment_v_spec|]. intros r [(h1 & h2 & h3) h4].
  split; [assumption|]. split; [assumption|]. split; [exact h3|].
  intros p z M t Om E IE Hp Hz HM Ht HE HI. apply (h4 p z M t Om E IE).
  exact (conj (conj Hp (conj Hz HM)) (conj Ht (conj HE HI))).
Qed.

(** cmoment_v(m) = E[(v_t - E v_t)^m | v_0, z] *)
Theorem C42_cmoment_v : forall m : Z, (0 <= m)%Z ->
  returns (c2_cmoment_v m) (fun r => keyfor r = ["v_0"; "k^{-}"; "theta"; "sigma"; "e^{kt}"; "l_{1:n}"; "o_{2:n}"]%string /\ uniq (items r) /\
    (forall key, In key (keys (items r)) -> c2ok key) /\
    forall p z M t Om (E : (Om -> R) -> R) (IE : Om -> R),
      zpk p <> 0 -> jumps_ok z -> cond_moments p z M -> 0 <= t -> expectation E ->
      (forall n, (0 <= n <= m)%Z -> E (fun w => pw (IE w) n) = M (n, 0, 0)%Z t) ->
      let v w := v_given p z t + zpsg p * exp (- (zpk p * t)) * IE w in
      eval (c2mon p z t) (items r) = E (fun w => pw (v w - E v) m)).
Proof.
  intros m Hm. eapply returns_weaken; [now apply c2_cmoment_v_spec|]. intros r [(h1 & h2 & h3) h4].
  split; [assumption|]. split; [assumption|]. split; [exact h3|].
  intros p z M t Om E IE Hp Hz HM Ht HE HI v. apply (h4 p z M t Om E IE).
  exact (conj (conj Hp (conj Hz HM)) (conj Ht (conj HE HI))).
Qed.

(** orders below zero *)
Theorem C42_negative : forall m : Z, (m < 0)%Z ->
  c2_moment_IE m = Err KeyError /\ c2_cmoment_v m = Err KeyError /\ c2_moment_v m = Ok (mkPoly [] ["v_0"; "k^{-}"; "theta"; "sigma"; "e^{kt}"; "l_{1:n}"; "o_{2:n}"]%string).
Proof.
  intros m Hm. split; [now apply c2_moment_IE_negative|]. split; [now apply c2_cmoment_v_negative|now apply c2_moment_v_negative].
Qed.

(** fZ(l, o, k, s, J): the nested sum over all tuples of jumps, for every number of levels *)
Theorem C42_fZ : forall (l o : list Z) (k : R) (s J : list R),
  length o = pred (length l) -> length s = length J ->
  c2_fZ l o k s J = Ok (fZ_sum k s J l (map (fun _ => 0%Z) l) o (map (fun _ => 0%Z) o)).
Proof.
  intros l o k s J h1 h2.
  pose proof (c2_fZ_spec (l, o) k (combine s J) h1) as h. cbn [fst snd] in h.
  assert (E1 : map fst (combine s J) = s).
  { clear h. revert J h2. induction s as [|x s IH]; intros [|y J] h2; try discriminate; [reflexivity|].
    injection h2 as h2. cbn [combine map fst]. f_equal. now apply IH. }
  assert (E2 : map snd (combine s J) = J).
  { clear h E1. revert J h2. induction s as [|x s IH]; intros [|y J] h2; try discriminate; [reflexivity|].
    injection h2 as h2. cbn [combine map snd]. f_equal. now apply IH. }
  unfold fZ2_path, fZ_path in h. rewrite E1, E2 in h. exact h.
Qed.
(** poly2num(poly, par): the value of the poly at the parameters, jump times in [0, h] *)
Theorem C42_poly2num : forall (poly : Poly (list Z * (list Z * list Z))) (v0 k theta sigma h : R) (z : list (R * R)),
  (forall key, In key (keys (items poly)) -> c2ok key) -> k <> 0 -> (forall sj, In sj z -> fst sj <= h) ->
  c2_poly2num poly v0 k theta sigma h (map fst z) (map snd z)
  = Ok (eval (c2mon (mkZpar k v0 theta sigma) z h) (items poly)).
Proof. exact c2_poly2num_spec. Qed.

(** For every parameters and jump path the moments exist, and a variable IE with the moments
    exists for every order, so the hypotheses of the theorems hold of something. *)
Theorem C42_hypotheses_hold : forall p z t (N : nat), zpk p <> 0 -> jumps_ok z -> 0 <= t ->
  exists M, cond_moments p z M /\ exists (E : (R -> R) -> R), expectation E /\
    forall n, (0 <= n <= Z.of_nat N)%Z -> E (fun x => pw x n) = M (n, 0, 0)%Z t.
Proof.
  intros p z t N Hp Hz Ht. destruct (cond_exists p z Hz) as [M HM].
  exists M. split; [exact HM|]. exists (Efin (realise1 N (fun n => M (Z.of_nat n, 0, 0)%Z t))).
  split; [apply Efin_expectation|]. intros n Hn.
  rewrite (E_ext _ (Efin_expectation _) _ (fun x => x ^ Z.to_nat n)) by (intro x; now rewrite pw_Zpos by lia).
  rewrite realise1_spec by lia. now rewrite Z2Nat.id by lia.
Qed.

(** E[v^2 | z] for a path with two jumps: a term with a double sum over the jumps *)
Example C42_example : jumps_ok [(1, 2); (3, 1)] /\
  match c2_moment_v 2 with
  | Ok q => In ([0; 0; 0; 0; -2]%Z, ([1; 1]%Z, [0]%Z)) (keys (items q)) /\ length (items q) = 17%nat
  | Err _ => False
  end /\
  match c2_cmoment_v 4 with
  | Ok q => In ([0; 2; 0; 4; -4]%Z, ([2; 1]%Z, [1]%Z)) (keys (items q))
  | Err _ => False
  end.
Proof.
  split; [intros sj [<-|[<-|[]]]; cbn [fst]; lra|]. split.
  - vm_compute. split; [|reflexivity]. repeat (first [now left|right]).
  - vm_compute. repeat (first [now left|right]).
Qed.
