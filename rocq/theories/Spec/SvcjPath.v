(** The SVCJ model given v_0 and the jump path z of the variance: with the i-th jump J_i of the
    variance the price jumps by X_i ~ N(mu_s + rho_J J_i, sigma_s^2), independently of everything else. *)
From Coquelicot Require Import Coquelicot.
From Verif.Spec Require Export Svvj Cpp.
Local Open Scope R_scope.

(** i-th moment of N(m, s^2) *)
Definition nmom (m s : R) (i : Z) : R := Derive_n (mgf_normal m (s ^ 2)) (Z.to_nat i) 0.

Section J.
Variables (mus rhoJ sgs : R).
Definition jmean (sj : R * R) : R := mus + rhoJ * snd sj.
(** E[X_1^{a_1} ... X_n^{a_n}] *)
Fixpoint jprod (z : path) (al : list Z) : R :=
  match z, al with
  | sj :: z, a :: al => nmom (jmean sj) sgs a * jprod z al
  | _, _ => 1
  end.
(** The X_i are independent normal and independent of the return without price jumps: the joint
    moments up to total order n are the products. *)
Definition price_jumps {Om} (E : (Om -> R) -> R) (p : svpar) (z : path) (n : Z) (IE I Is : Om -> R) (Xs : list (Om -> R)) : Prop :=
  length Xs = length z /\
  forall i al, (0 <= i)%Z -> length al = length z -> Forall (fun a => 0 <= a)%Z al -> (i + fold_right Z.add 0 al <= n)%Z ->
    E (fun w => sv_ret p z (IE w) (I w) (Is w) ^ Z.to_nat i * powprod (map (fun X => X w) Xs) al)
    = E (fun w => sv_ret p z (IE w) (I w) (Is w) ^ Z.to_nat i) * jprod z al.
(** the mean of the sum of the X_i *)
Definition jumps_mean (z : path) : R := sumR jmean z.
End J.

(** Keys with the tuple of the powers of the J_i, which may be missing. *)
Notation cjkey := (svkey * option (list Z))%type.
Definition cjmon (a b : list R) (p : svpar) (z : path) (key : cjkey) : R :=
  svmon a b p z (fst key) * match snd key with Some js => monx (map snd z) js | None => 1 end.
(** shape of a key *)
Definition cjok (nJ : nat) (key : cjkey) : Prop :=
  svok 8 6 (fst key) /\ exists js, snd key = Some js /\ length js = nJ /\ Forall (fun x => (0 <= x)%Z) js.
