(** Model of the dpoly and poly2num functions of mdl_1fsv and mdl_1fsvj. *)
From Coq Require Import Reals Qreals.
From Verif.Model Require Export Nest.
From Verif.Base Require Export Prelude.
Local Open Scope Z_scope.

(** The dpoly functions all have the loop
      [for k in poly: if k[i] != 0: knw = list(k); knw[a] += da; ...;
                         val = (+-k[i]) * poly[k]; pold.add_keyval(tuple(knw), val)]
    with one or two such [if]s.  A rule is the factor (k[i] or -k[i]; the guard is
    k[i] <> 0 in both cases) and the edit of the key.  [knw[a]] with [a] beyond the
    length of the key raises IndexError in Python; [addat] leaves the key alone, and the
    theorems are about keys of the length of [keyfor]. *)
Definition rule : Type := (list Z -> Z) * (list Z -> list Z).
Definition d_loop (rules : list rule) (kf : list string) (p : Poly (list Z)) : Poly (list Z) :=
  mkPoly (fold_left (fun a kv =>
    fold_left (fun a (r : rule) =>
      if fst r (fst kv) =? 0 then a
      else add_kv (snd r (fst kv)) (qmul (qz (fst r (fst kv))) (snd kv)) a) rules a) (items p) []) kf.

(** d/dx of x^{k[i]} *)
Definition r_plain (i : nat) : list rule := [(fun k => nthZ k i, addat i (-1))].
(** d/dk of e^{-kh k[0]} h^{k[1]} k^{-k[2]} *)
Definition r_k : list rule :=
  [(fun k => - nthZ k 0, addat 1 1); (fun k => - nthZ k 2, addat 2 1)].
(** d/drho of rho^{k[i]} sqrt(1-rho^2)^{k[j]} *)
Definition r_rho (i j : nat) : list rule :=
  [(fun k => nthZ k i, addat i (-1)); (fun k => - nthZ k j, fun k => addat j (-2) (addat i 1 k))].

Definition kf_m1 : list string :=
  ["e^{-kh}"; "h"; "k^{-}"; "mu"; "theta"; "sigma_v"; "rho"; "sqrt(1-rho^2)"]%string.
Definition kf_cm1 : list string :=
  ["e^{-kh}"; "h"; "k^{-}"; "theta"; "sigma_v"; "rho"; "sqrt(1-rho^2)"]%string.
Definition kf_mj : list string := kf_m1 ++ ["lambda"; "mu_j"; "sigma_j"]%string.
Definition kf_cmj : list string := kf_cm1 ++ ["lambda"; "mu_j"; "sigma_j"]%string.

(** mdl_1fsv/mom.py:126-181 dpoly *)
Definition dpoly_m1 (p : Poly (list Z)) (wrt : string) : res (Poly (list Z)) :=
  if (wrt =? "k")%string then Ok (d_loop r_k kf_m1 p)
  else if (wrt =? "mu")%string then Ok (d_loop (r_plain 3) kf_m1 p)
  else if (wrt =? "theta")%string then Ok (d_loop (r_plain 4) kf_m1 p)
  else if (wrt =? "sigma_v")%string then Ok (d_loop (r_plain 5) kf_m1 p)
  else if (wrt =? "rho")%string then Ok (d_loop (r_rho 6 7) kf_m1 p)
  else Err ValueError.

(** mdl_1fsv/cmom.py:135-194 dpoly *)
Definition dpoly_cm1 (p : Poly (list Z)) (wrt : string) : res (Poly (list Z)) :=
  if (wrt =? "mu")%string then Ok (mkPoly [] kf_cm1)
  else if (wrt =? "k")%string then Ok (d_loop r_k kf_cm1 p)
  else if (wrt =? "theta")%string then Ok (d_loop (r_plain 3) kf_cm1 p)
  else if (wrt =? "sigma_v")%string then Ok (d_loop (r_plain 4) kf_cm1 p)
  else if (wrt =? "rho")%string then Ok (d_loop (r_rho 5 6) kf_cm1 p)
  else Err ValueError.

(** mdl_1fsvj/mom.py:44-105 dpoly *)
Definition dpoly_mj (p : Poly (list Z)) (wrt : string) : res (Poly (list Z)) :=
  if (wrt =? "k")%string then Ok (d_loop r_k kf_mj p)
  else if (wrt =? "rho")%string then Ok (d_loop (r_rho 6 7) kf_mj p)
  else if (wrt =? "mu")%string then Ok (d_loop (r_plain 3) kf_mj p)
  else if (wrt =? "theta")%string then Ok (d_loop (r_plain 4) kf_mj p)
  else if (wrt =? "sigma_v")%string then Ok (d_loop (r_plain 5) kf_mj p)
  else if (wrt =? "lambda")%string then Ok (d_loop (r_plain 8) kf_mj p)
  else if (wrt =? "mu_j")%string then Ok (d_loop (r_plain 9) kf_mj p)
  else if (wrt =? "sigma_j")%string then Ok (d_loop (r_plain 10) kf_mj p)
  else Err ValueError.

(** mdl_1fsvj/cmom.py:46-114 dpoly *)
Definition dpoly_cmj (p : Poly (list Z)) (wrt : string) : res (Poly (list Z)) :=
  if (wrt =? "mu")%string then Ok (mkPoly [] kf_cmj)
  else if (wrt =? "k")%string then Ok (d_loop r_k kf_cmj p)
  else if (wrt =? "theta")%string then Ok (d_loop (r_plain 3) kf_cmj p)
  else if (wrt =? "sigma_v")%string then Ok (d_loop (r_plain 4) kf_cmj p)
  else if (wrt =? "lambda")%string then Ok (d_loop (r_plain 7) kf_cmj p)
  else if (wrt =? "mu_j")%string then Ok (d_loop (r_plain 8) kf_cmj p)
  else if (wrt =? "sigma_j")%string then Ok (d_loop (r_plain 9) kf_cmj p)
  else if (wrt =? "rho")%string then Ok (d_loop (r_rho 5 6) kf_cmj p)
  else Err ValueError.

(** ** poly2num, with real numbers for floats; [par] is the parameter dict.
    [x ** (n/2)] for x >= 0 is [powerRZ (sqrt x) n]. *)
Local Open Scope R_scope.
Definition pint (K : list Z) (i : nat) : R := IZR (nthZ K i).

(** mdl_1fsv/mom.py:184-207 poly2num *)
Definition poly2num_m1 (p : Poly (list Z)) (par : string -> R) : R :=
  let k := par "k"%string in let h := par "h"%string in let mu := par "mu"%string in
  let theta := par "theta"%string in let sigma_v := par "sigma_v"%string in let rho := par "rho"%string in
  fold_left (fun value kv =>
    let K := fst kv in
    let val := Q2R (snd kv) * exp (- pint K 0 * k * h) * powerRZ h (nthZ K 1) * powerRZ k (- nthZ K 2) in
    let val := val * powerRZ mu (nthZ K 3) in
    let val := val * (powerRZ theta (nthZ K 4) * powerRZ sigma_v (nthZ K 5) * powerRZ rho (nthZ K 6)) in
    let val := val * powerRZ (sqrt (1 - rho ^ 2)) (nthZ K 7) in
    value + val) (items p) 0.

(** mdl_1fsv/cmom.py:197-219 poly2num *)
Definition poly2num_cm1 (p : Poly (list Z)) (par : string -> R) : R :=
  let k := par "k"%string in let h := par "h"%string in
  let theta := par "theta"%string in let sigma_v := par "sigma_v"%string in let rho := par "rho"%string in
  fold_left (fun value kv =>
    let K := fst kv in
    let val := Q2R (snd kv) * exp (- pint K 0 * k * h) * powerRZ h (nthZ K 1) * powerRZ k (- nthZ K 2) in
    let val := val * (powerRZ theta (nthZ K 3) * powerRZ sigma_v (nthZ K 4) * powerRZ rho (nthZ K 5)) in
    let val := val * powerRZ (sqrt (1 - rho ^ 2)) (nthZ K 6) in
    value + val) (items p) 0.

(** mdl_1fsvj/mom.py:107-135 poly2num *)
Definition poly2num_mj (p : Poly (list Z)) (par : string -> R) : R :=
  let k := par "k"%string in let h := par "h"%string in let mu := par "mu"%string in
  let theta := par "theta"%string in let sigma_v := par "sigma_v"%string in let rho := par "rho"%string in
  let lmbd := par "lambda"%string in let mu_j := par "mu_j"%string in let sigma_j := par "sigma_j"%string in
  fold_left (fun value kv =>
    let K := fst kv in
    let val := Q2R (snd kv) * exp (- pint K 0 * k * h) * powerRZ h (nthZ K 1) * powerRZ k (- nthZ K 2) in
    let val := val * powerRZ mu (nthZ K 3) in
    let val := val * (powerRZ theta (nthZ K 4) * powerRZ sigma_v (nthZ K 5) * powerRZ rho (nthZ K 6)) in
    let val := val * powerRZ (sqrt (1 - rho ^ 2)) (nthZ K 7) in
    let val := val * (powerRZ lmbd (nthZ K 8) * powerRZ mu_j (nthZ K 9) * powerRZ sigma_j (nthZ K 10)) in
    value + val) (items p) 0.

(** mdl_1fsvj/cmom.py:117-143 poly2num *)
Definition poly2num_cmj (p : Poly (list Z)) (par : string -> R) : R :=
  let k := par "k"%string in let h := par "h"%string in
  let theta := par "theta"%string in let sigma_v := par "sigma_v"%string in let rho := par "rho"%string in
  let lmbd := par "lambda"%string in let mu_j := par "mu_j"%string in let sigma_j := par "sigma_j"%string in
  fold_left (fun value kv =>
    let K := fst kv in
    let val := Q2R (snd kv) * exp (- pint K 0 * k * h) * powerRZ h (nthZ K 1) * powerRZ k (- nthZ K 2) in
    let val := val * (powerRZ theta (nthZ K 3) * powerRZ sigma_v (nthZ K 4) * powerRZ rho (nthZ K 5)) in
    let val := val * powerRZ (sqrt (1 - rho ^ 2)) (nthZ K 6) in
    let val := val * (powerRZ lmbd (nthZ K 7) * powerRZ mu_j (nthZ K 8) * powerRZ sigma_j (nthZ K 9)) in
    value + val) (items p) 0.
