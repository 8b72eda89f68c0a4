(** Model of the dpoly and poly2num functions of mdl_2fsv and mdl_2fsvj.  Keys as in Fsv2.v:
    (t0, (t1, [k[2]; k[3]; ...])). *)
From Coq Require Import Reals Qreals.
From Verif.Model Require Export Fsv2.
From Verif.Base Require Export Prelude.
Local Open Scope Z_scope.

Definition kd_m : list string :=
  ["(n_1m*k1+n_2m*k2)^{-i_m},...,(n_11*k1+n_21*k2)^{-i_1}"; "e^{-(n1*k1+n2*k2)h}"; "h"; "mu";
   "theta1"; "sigma_v1"; "theta2"; "sigma_v2"]%string.
Definition kd_cm : list string :=
  ["(n_1m*k1+n_2m*k2)^{-i_m},...,(n_11*k1+n_21*k2)^{-i_1}"; "e^{-(n1*k1+n2*k2)h}"; "h";
   "theta1"; "sigma_v1"; "theta2"; "sigma_v2"]%string.
Definition kd_mj : list string := kd_m ++ ["lambda"; "mu_j"; "sigma_j"]%string.
Definition kd_cmj : list string := kd_cm ++ ["lambda"; "mu_j"; "sigma_j"]%string.

(** [for i in range(len(t0)): key = list(t0); k = t0[i]; if k[2] != 0 and n(k) != 0:
       key[i] = (k[0], k[1], k[2] + 1); val = -k[2] * n(k); deriv.append((tuple(key), val))]
    where n(k) is k[0] or k[1]; [pre] are the factors before the current one *)
Fixpoint dt0_go (n : Z * Z * Z -> Z) (pre t0 : den) : list (den * Z) :=
  match t0 with
  | [] => []
  | k :: r =>
      let '(a, b, c) := k in
      (if negb (c =? 0) && negb (n k =? 0)
       then [(pre ++ (a, b, c + 1) :: r, - c * n k)] else [])
      ++ dt0_go n (pre ++ [k]) r
  end.

(** mdl_2fsv/cmom.py:219-251 dt0 *)
Definition dt0 (t0 : den) (wrt : string) : res (list (den * Z)) :=
  if (wrt =? "k1")%string then Ok (dt0_go (fun '(a, _, _) => a) [] t0)
  else if (wrt =? "k2")%string then Ok (dt0_go (fun '(_, b, _) => b) [] t0)
  else Err ValueError.

(** the branch [wrt == 'k1' or wrt == 'k2'] of all four dpoly: mdl_2fsv/cmom.py:276-297,
    mdl_2fsv/mom.py:202-222, mdl_2fsvj/mom.py:73-93, mdl_2fsvj/cmom.py:72-92.
    [if len(t0) != 0] and [if len(deriv) != 0] only skip empty loops. *)
Definition d2_k (wrt : string) (kf : list string) (p : Poly fkey) : res (Poly fkey) :=
  let! a := foldM (fun a kv =>
    let '(t0, t1x) := fst kv in
    let! deriv := dt0 t0 wrt in
    Ok (fold_left (fun a t => add_kv (fst t, t1x) (qmul (qz (snd t)) (snd kv)) a) deriv a))
    (items p) [] in
  let a := fold_left (fun a kv =>
    let '(t0, ((n1, n2), x)) := fst kv in
    let n := if (wrt =? "k1")%string then n1 else n2 in
    if n =? 0 then a
    else add_kv (t0, ((n1, n2), addat 0 1 x)) (qmul (qz (- n)) (snd kv)) a) (items p) a in
  Ok (mkPoly a kf).

(** the loop [for k in poly: if k[i] != 0: knw[i] -= 1; val = k[i] * poly[k]; ...] of all four
    dpoly; here [i] is Python's index minus 2 *)
Definition d2_plain (i : nat) (kf : list string) (p : Poly fkey) : res (Poly fkey) :=
  Ok (mkPoly (fold_left (fun a kv =>
    let '(t0, (t1, x)) := fst kv in
    if nthZ x i =? 0 then a
    else add_kv (t0, (t1, addat i (-1) x)) (qmul (qz (nthZ x i)) (snd kv)) a) (items p) []) kf).

(** mdl_2fsv/mom.py:183-239 dpoly *)
Definition dpoly2_m (p : Poly fkey) (wrt : string) : res (Poly fkey) :=
  if ((wrt =? "k1") || (wrt =? "k2"))%string then d2_k wrt kd_m p
  else if (wrt =? "mu")%string then d2_plain 1 kd_m p
  else if (wrt =? "theta1")%string then d2_plain 2 kd_m p
  else if (wrt =? "sigma_v1")%string then d2_plain 3 kd_m p
  else if (wrt =? "theta2")%string then d2_plain 4 kd_m p
  else if (wrt =? "sigma_v2")%string then d2_plain 5 kd_m p
  else Err ValueError.

(** mdl_2fsv/cmom.py:254-311 dpoly *)
Definition dpoly2_cm (p : Poly fkey) (wrt : string) : res (Poly fkey) :=
  if (wrt =? "mu")%string then Ok (mkPoly [] kd_cm)
  else if ((wrt =? "k1") || (wrt =? "k2"))%string then d2_k wrt kd_cm p
  else if (wrt =? "theta1")%string then d2_plain 1 kd_cm p
  else if (wrt =? "sigma_v1")%string then d2_plain 2 kd_cm p
  else if (wrt =? "theta2")%string then d2_plain 3 kd_cm p
  else if (wrt =? "sigma_v2")%string then d2_plain 4 kd_cm p
  else Err ValueError.

(** mdl_2fsvj/mom.py:50-114 dpoly *)
Definition dpoly2_mj (p : Poly fkey) (wrt : string) : res (Poly fkey) :=
  if ((wrt =? "k1") || (wrt =? "k2"))%string then d2_k wrt kd_mj p
  else if (wrt =? "mu")%string then d2_plain 1 kd_mj p
  else if (wrt =? "theta1")%string then d2_plain 2 kd_mj p
  else if (wrt =? "sigma_v1")%string then d2_plain 3 kd_mj p
  else if (wrt =? "theta2")%string then d2_plain 4 kd_mj p
  else if (wrt =? "sigma_v2")%string then d2_plain 5 kd_mj p
  else if (wrt =? "lambda")%string then d2_plain 6 kd_mj p
  else if (wrt =? "mu_j")%string then d2_plain 7 kd_mj p
  else if (wrt =? "sigma_j")%string then d2_plain 8 kd_mj p
  else Err ValueError.

(** mdl_2fsvj/cmom.py:48-113 dpoly *)
Definition dpoly2_cmj (p : Poly fkey) (wrt : string) : res (Poly fkey) :=
  if (wrt =? "mu")%string then Ok (mkPoly [] kd_cmj)
  else if ((wrt =? "k1") || (wrt =? "k2"))%string then d2_k wrt kd_cmj p
  else if (wrt =? "theta1")%string then d2_plain 1 kd_cmj p
  else if (wrt =? "sigma_v1")%string then d2_plain 2 kd_cmj p
  else if (wrt =? "theta2")%string then d2_plain 3 kd_cmj p
  else if (wrt =? "sigma_v2")%string then d2_plain 4 kd_cmj p
  else if (wrt =? "lambda")%string then d2_plain 5 kd_cmj p
  else if (wrt =? "mu_j")%string then d2_plain 6 kd_cmj p
  else if (wrt =? "sigma_j")%string then d2_plain 7 kd_cmj p
  else Err ValueError.

(** ** poly2num, with real numbers for floats; [par] is the parameter dict *)
Local Open Scope R_scope.

(** the first three factors, the same in all four:
    [val = poly[k]; for t in t0: val *= (t[0]*k1 + t[1]*k2)**(-t[2]);
     val *= exp(-(t1[0]*k1 + t1[1]*k2)*h); val *= h**k[2]] *)
Definition p2n_head (k1 k2 h : R) (kv : fkey * Q) : R :=
  let '((t0, ((n1, n2), x)), c) := kv in
  let val := fold_left (fun val t => let '(a, b, e) := t in
    val * powerRZ (IZR a * k1 + IZR b * k2) (- e)) t0 (Q2R c) in
  let val := val * exp (- (IZR n1 * k1 + IZR n2 * k2) * h) in
  val * powerRZ h (nthZ x 0).
(** k[2+i] *)
Definition kint (kv : fkey * Q) (i : nat) : Z := nthZ (snd (snd (fst kv))) i.

(** mdl_2fsv/mom.py:242-276 poly2num *)
Definition poly2num2_m (p : Poly fkey) (par : string -> R) : R :=
  let k1 := par "k1"%string in let k2 := par "k2"%string in let h := par "h"%string in
  let mu := par "mu"%string in let theta1 := par "theta1"%string in let theta2 := par "theta2"%string in
  let sigma_v1 := par "sigma_v1"%string in let sigma_v2 := par "sigma_v2"%string in
  fold_left (fun value kv =>
    let val := p2n_head k1 k2 h kv in
    let val := val * powerRZ mu (kint kv 1) in
    let val := val * powerRZ theta1 (kint kv 2) in
    let val := val * powerRZ sigma_v1 (kint kv 3) in
    let val := val * powerRZ theta2 (kint kv 4) in
    let val := val * powerRZ sigma_v2 (kint kv 5) in
    value + val) (items p) 0.

(** mdl_2fsv/cmom.py:314-346 poly2num *)
Definition poly2num2_cm (p : Poly fkey) (par : string -> R) : R :=
  let k1 := par "k1"%string in let k2 := par "k2"%string in let h := par "h"%string in
  let theta1 := par "theta1"%string in let theta2 := par "theta2"%string in
  let sigma_v1 := par "sigma_v1"%string in let sigma_v2 := par "sigma_v2"%string in
  fold_left (fun value kv =>
    let val := p2n_head k1 k2 h kv in
    let val := val * powerRZ theta1 (kint kv 1) in
    let val := val * powerRZ sigma_v1 (kint kv 2) in
    let val := val * powerRZ theta2 (kint kv 3) in
    let val := val * powerRZ sigma_v2 (kint kv 4) in
    value + val) (items p) 0.

(** mdl_2fsvj/mom.py:117-158 poly2num *)
Definition poly2num2_mj (p : Poly fkey) (par : string -> R) : R :=
  let k1 := par "k1"%string in let k2 := par "k2"%string in let h := par "h"%string in
  let mu := par "mu"%string in let theta1 := par "theta1"%string in let theta2 := par "theta2"%string in
  let sigma_v1 := par "sigma_v1"%string in let sigma_v2 := par "sigma_v2"%string in
  let lmbd := par "lambda"%string in let mu_j := par "mu_j"%string in let sigma_j := par "sigma_j"%string in
  fold_left (fun value kv =>
    let val := p2n_head k1 k2 h kv in
    let val := val * powerRZ mu (kint kv 1) in
    let val := val * powerRZ theta1 (kint kv 2) in
    let val := val * powerRZ sigma_v1 (kint kv 3) in
    let val := val * powerRZ theta2 (kint kv 4) in
    let val := val * powerRZ sigma_v2 (kint kv 5) in
    let val := val * powerRZ lmbd (kint kv 6) in
    let val := val * powerRZ mu_j (kint kv 7) in
    let val := val * powerRZ sigma_j (kint kv 8) in
    value + val) (items p) 0.

(** mdl_2fsvj/cmom.py:116-155 poly2num *)
Definition poly2num2_cmj (p : Poly fkey) (par : string -> R) : R :=
  let k1 := par "k1"%string in let k2 := par "k2"%string in let h := par "h"%string in
  let theta1 := par "theta1"%string in let theta2 := par "theta2"%string in
  let sigma_v1 := par "sigma_v1"%string in let sigma_v2 := par "sigma_v2"%string in
  let lmbd := par "lambda"%string in let mu_j := par "mu_j"%string in let sigma_j := par "sigma_j"%string in
  fold_left (fun value kv =>
    let val := p2n_head k1 k2 h kv in
    let val := val * powerRZ theta1 (kint kv 1) in
    let val := val * powerRZ sigma_v1 (kint kv 2) in
    let val := val * powerRZ theta2 (kint kv 3) in
    let val := val * powerRZ sigma_v2 (kint kv 4) in
    let val := val * powerRZ lmbd (kint kv 5) in
    let val := val * powerRZ mu_j (kint kv 6) in
    let val := val * powerRZ sigma_j (kint kv 7) in
    value + val) (items p) 0.
