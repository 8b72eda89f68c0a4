(** Keys of the polys of mdl_srjd/cond2_mom.py: five ints, the powers of v_0, 1/k, theta,
    sigma, e^{kt}, and the tuples l, o of f_{Z_t}(l, o), the nested sum over the jumps
    without powers of the jump times. *)
From Verif.Spec Require Export JumpPath.
Local Open Scope R_scope.

Definition zero_like (l : list Z) : list Z := map (fun _ => 0%Z) l.
Definition fZ2_path (k : R) (z : path) (lo : list Z * list Z) : R :=
  fZ_path k z (fst lo, zero_like (fst lo), snd lo, zero_like (snd lo)).
Definition c2mon (p : zpar) (z : path) (t : R) (key : list Z * (list Z * list Z)) : R :=
  monx [zpv p; / zpk p; zpth p; zpsg p; exp (zpk p * t)] (fst key) * fZ2_path (zpk p) (upto t z) (snd key).

(** shape of the keys: no negative power but of e^{kt}, one entry of l per level of
    summation, one of o per level from the second on *)
Definition c2ok (key : list Z * (list Z * list Z)) : Prop :=
  length (fst key) = 5%nat /\ (forall i, i <> 4%nat -> (0 <= nth i (fst key) 0)%Z) /\
  length (snd (snd key)) = pred (length (fst (snd key))).

(** v_t = v_given + sigma e^{-kt} IE_t *)
Definition v_path (p : zpar) (z : path) (t ie : R) : R := v_given p z t + zpsg p * exp (- (zpk p * t)) * ie.
