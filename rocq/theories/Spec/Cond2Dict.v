(** Functions of a parameter dict with numbers and the tuples 'jumptime' and 'jumpsize', and the
    value of the polynomials given the jumps at any rho. *)
From Coq Require Import Reals.
From Verif.Base Require Import Prelude.
From Verif.Spec Require Import Eval SvcjPath.
From Verif.Spec Require Export Dict.
From Verif.Model Require Import Poly.
Local Open Scope R_scope.

(** [f nums tups], with the numbers [nums] and the tuples [tups] of the dict, raises KeyError as soon as
    one of the names [ns], 'jumpsize' or 'jumptime' is missing.  Otherwise let [q] be the numbers, [t]
    the jump times and [J] the jump sizes.
    [zd q J]: some factor is not defined; [uses J]: some monomial has a sum over the jumps.
    Then [f] raises IndexError when there are fewer times than sizes and a sum over the jumps is
    computed, ZeroDivisionError when a factor is not defined (one of the two when both hold), and
    returns [g q t J] in all other cases. *)
Definition jumps_spec (ns : list string) (f : (string -> option R) -> (string -> option (list R)) -> res R)
    (zd : (string -> R) -> list R -> Prop) (uses : list R -> Prop) (g : (string -> R) -> list R -> list R -> R) : Prop :=
  (forall nums tups s, In s ns -> nums s = None -> f nums tups = Err KeyError) /\
  (forall nums tups s, In s ["jumpsize"; "jumptime"]%string -> tups s = None -> f nums tups = Err KeyError) /\
  (forall nums tups q t J, agrees ns nums q -> tups "jumptime"%string = Some t -> tups "jumpsize"%string = Some J ->
    let short := (length t < length J)%nat /\ uses J in
    (~ zd q J -> ~ short -> f nums tups = Ok (g q t J)) /\
    (zd q J -> ~ short -> f nums tups = Err ZeroDivisionError) /\
    (~ zd q J -> short -> f nums tups = Err IndexError) /\
    (zd q J -> short -> f nums tups = Err ZeroDivisionError \/ f nums tups = Err IndexError)).

(** some key of the polynomial has a sum over the jumps: its tuple l is not empty *)
Definition has_key {K} (P : K -> Prop) (p : res (Poly K)) : Prop := exists r k c, p = Ok r /\ In (k, c) (items r) /\ P k.
Definition sv_sum (key : svkey) : Prop := fst (fst (fst (snd (fst key)))) <> [].
Definition cj_sum (key : svkey * option (list Z)) : Prop := sv_sum (fst key).
Definition c2_sum (key : list Z * (list Z * list Z)) : Prop := fst (snd key) <> [].

(** a negative power of k = 0; the second entry of the key is the power of 1/k *)
Definition c2_zd (k : R) (key : list Z * (list Z * list Z)) : Prop := k = 0 /\ (0 < nth 1 (fst key) 0)%Z.

(** the sum over the jumps (t_j, J_j), j < len(J); further jump times do not matter *)
Definition fZ_at (k : R) (t J : list R) (lopq : list Z * list Z * list Z * list Z) : R :=
  let '(l, o, p, q) := lopq in fZ_sum k t J l o p q.
(** the value of a key: the powers of the numbers [a], the sum over the jumps, the powers of
    sigma/2k and rho - sigma/2k, (1-rho^2)^(n/2), and the powers of the numbers [b] *)
Definition sv_at (a b : list R) (q : string -> R) (t J : list R) (key : svkey) : R :=
  let x := q "sigma"%string / (2 * q "k"%string) in
  let rho := q "rho"%string in
  monx a (fst (fst key)) * fZ_at (q "k"%string) t J (snd (fst key))
  * (monx [x; rho - x] (snd key) * pw (1 - rho ^ 2) (nth 2 (snd key) 0%Z / 2) * monx b (skipn 3 (snd key))).
Section At.
Local Open Scope string_scope.
Definition a6 (q : string -> R) : list R :=
  [exp (q "k" * q "h")%R; q "h"; (/ q "k")%R; (q "v0" - q "theta")%R; q "theta"; q "sigma"].
Definition a8 (q : string -> R) : list R :=
  [exp (q "k" * q "h")%R; q "h"; (/ q "k")%R; ((1 - exp (- (q "k" * q "h"))) / (2 * q "k"))%R; (q "mu" - q "theta" / 2)%R;
   (q "v0" - q "theta")%R; q "theta"; q "sigma"].
Definition at_svvj_cm q t J key := sv_at (a6 q) [] q t J key.
Definition at_svvj_m q t J key := sv_at (a8 q) [] q t J key.
Definition at_svij_cm q t J key := sv_at (a6 q) [q "lmbd_s"; q "mu_s"; q "sigma_s"] q t J key.
Definition at_svij_m q t J key := sv_at (a8 q) [q "lmbd_s"; q "mu_s"; q "sigma_s"] q t J key.
Definition at_svcj_cm q t J key := sv_at (a6 q) [q "sigma_s"] q t J key.
Definition at_svcj_m q t J (key : svkey * option (list Z)) :=
  (sv_at (a8 q) [q "mu_s"; q "rho_J"; q "sigma_s"] q t J (fst key) * match snd key with Some js => monx J js | None => 1 end)%R.
Definition at_srjd (q : string -> R) (t J : list R) (key : list Z * (list Z * list Z)) : R :=
  (monx [q "v0"; / q "k"; q "theta"; q "sigma"; exp (q "k" * q "h")] (fst key) * fZ_at (q "k") t J (fst (snd key), map (fun _ => 0%Z) (fst (snd key)), snd (snd key), map (fun _ => 0%Z) (snd (snd key))))%R.
(** the value of the polynomial *)
Definition value {K} (mon : (string -> R) -> list R -> list R -> K -> R) (p : list R -> res (Poly K)) (q : string -> R) (t J : list R) : R :=
  match p J with Ok r => eval (mon q t J) (items r) | Err _ => 0%R end.

(** the names that are read *)
Definition ns_sc : list string := ["v0"; "k"; "theta"; "sigma"; "rho"; "h"].
Definition ns_sm : list string := ["v0"; "mu"; "k"; "theta"; "sigma"; "rho"; "h"].
Definition ns_srjd : list string := ["v0"; "k"; "theta"; "sigma"; "h"].
Definition ns_ij : list string := ["lmbd_s"; "mu_s"; "sigma_s"].
Definition ns_cj : list string := ["mu_s"; "rho_J"; "sigma_s"].
End At.

(** the dict holds these numbers, and the jump path [z] *)
Definition holds (nums : string -> option R) (l : list (string * R)) : Prop := Forall (fun sx => nums (fst sx) = Some (snd sx)) l.
Definition holds_path (tups : string -> option (list R)) (z : list (R * R)) : Prop :=
  tups "jumptime"%string = Some (map fst z) /\ tups "jumpsize"%string = Some (map snd z).
Definition sv_dict (p : svpar) : list (string * R) :=
  [("v0", zpv (svz p)); ("mu", svmu p); ("k", svk p); ("theta", zpth (svz p)); ("sigma", zpsg (svz p)); ("rho", svrho p); ("h", svh p)]%string.
Definition z_dict (p : zpar) (h : R) : list (string * R) :=
  [("v0", zpv p); ("k", zpk p); ("theta", zpth p); ("sigma", zpsg p); ("h", h)]%string.
