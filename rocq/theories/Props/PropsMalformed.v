(** C29, C32: inputs that the callers inside the package never produce. *)
From Coq Require Import Lia.
From Verif.Model Require Import SrjdIez ItoCond.
Local Open Scope Z_scope.

(** decode of mdl_srjd/iez_mom.py: a power of t-s that does not cancel raises ValueError *)
Theorem C29_decode_power : forall (i : Z) (c : Q) (kf : list string), i <> 0 -> ~ (c == 0)%Q ->
  decode_iez (mkPoly [((i, []), c)] kf) = Err ValueError.
Proof.
  intros i c kf Hi Hc. unfold decode_iez. cbn [foldM items fst snd ej_prod bind fold_left add_kv].
  assert (e : qzero (qmul c 1) = false).
  { unfold qzero, qmul. destruct (Qeq_bool (Qred (c * 1)) 0) eqn:E; [|reflexivity]. apply Qeq_bool_eq in E.
    rewrite Qred_correct, Qmult_1_r in E. contradiction. }
  unfold rm_zero. cbn [filter snd]. rewrite e. cbn [negb forallb fst]. unfold nthZ at 1. cbn [nth].
  unfold nthZ. cbn [nth]. destruct (Z.eqb_spec (0 + i) 0); [lia|reflexivity].
Qed.
(** with i = 0 it is accepted *)
Example C29_decode_ex : decode_iez (mkPoly [((3, []), 1%Q)] []) = Err ValueError /\
  decode_iez (mkPoly [((0, []), 1%Q)] []) = Ok (mkPoly [([0; 0; 0; 0; 0], 1%Q)] kf_iez).
Proof. split; [now apply C29_decode_power|reflexivity]. Qed.

(** int_e_poly of ito_cond_mom.py: keys whose last part has missing exponents raise IndexError *)
Theorem C32_missing_exponents : forall (l o p q kk : list Z),
  (length l = 1%nat -> o = [] -> jkey2 (l, o, p, q) kk = Err IndexError) /\
  ((2 <= length l)%nat -> p = [] \/ q = [] -> jkey2 (l, o, p, q) kk = Err IndexError).
Proof.
  intros l o p q kk. split.
  - intros Hl ->. destruct l as [|x [|? ?]]; try discriminate. reflexivity.
  - intros Hl H. destruct l as [|x [|y l]]; [cbn in Hl; lia|cbn in Hl; lia|]. unfold jkey2. cbn [length Nat.eqb].
    destruct H as [->| ->]; [reflexivity|]. destruct p; reflexivity.
Qed.
Example C32_missing_ex : jkey2 ([1], [], [], []) [0; 0; 0; 1; 1] = Err IndexError /\ jkey2 ([1], [2], [], []) [0; 0; 0; 1; 1] = Ok ([2], [3], [], []).
Proof. split; [exact (proj1 (C32_missing_exponents [1] [] [] [] _) eq_refl eq_refl)|reflexivity]. Qed.
