(** Model of the poly2num functions and of the scalar functions built on them in mdl_srjd and
    mdl_svcj.  Floats are real numbers.  The dict [par] is a partial function, so that a missing
    name raises KeyError; a division by zero and a negative power of zero raise ZeroDivisionError.
    The association of products of reals is simplified. *)
From Coq Require Import Reals Qreals.
From Verif.Spec Require Import Eval.
From Verif.Model Require Export SrjdCond SrjdCond2 SvcjMom.
Local Open Scope R_scope.

Definition dict := string -> option R.
(** [par[s]] *)
Definition dget (par : dict) (s : string) : res R :=
  match par s with Some x => Ok x | None => Err KeyError end.
(** [x ** n] for a float x and an int n *)
Definition pypow (x : R) (n : Z) : res R :=
  if Req_EM_T x 0 then if (n <? 0)%Z then Err ZeroDivisionError else Ok (powerRZ x n) else Ok (powerRZ x n).
(** [x / y] *)
Definition pydiv (x y : R) : res R := if Req_EM_T y 0 then Err ZeroDivisionError else Ok (x / y).
(** product of powers *)
Fixpoint pows (l : list (R * Z)) : res R :=
  match l with
  | [] => Ok 1
  | (x, n) :: r => let! a := pypow x n in let! b := pows r in Ok (a * b)
  end.
(** [f = 0; for K, v in poly.items(): val = ...; f += val * v; return f] *)
Definition p2n_loop {K} (val : K -> res R) (poly : Poly K) : res R :=
  foldM (fun f kv => let! x := val (fst kv) in Ok (f + x * Q2R (snd kv))) (items poly) 0.
(** the scalar functions: [moment = ...; value = poly2num(moment, par); return value] *)
Definition scal {K} (poly : res (Poly K)) (poly2num : Poly K -> dict -> res R) (par : dict) : res R :=
  let! moment := poly in
  poly2num moment par.

(** ** mdl_srjd *)
(** iez_mom.py:98-107 poly2num *)
Definition p2n_iez (poly : Poly (list Z)) (par : dict) : res R :=
  let! k := dget par "k" in let! lmbd := dget par "lmbd" in let! mu_v := dget par "mu_v" in
  let! s := dget par "lb" in let! t := dget par "ub" in
  p2n_loop (fun K =>
    let val := exp (IZR (nthZ K 0) * k * t) * exp (IZR (nthZ K 1) * k * s) in
    let! w := pows [(k, (- nthZ K 2)%Z); (lmbd, nthZ K 3); (mu_v, nthZ K 4)] in
    Ok (val * w)) poly.
(** iez_mom.py:109-112 m *)
Definition iez_m (n : Z) (par : dict) : res R := scal (moment_IEZ n) p2n_iez par.
(** iez_cmom.py:41-44 cm: poly2num is called without [par] *)
Definition iez_cm (n : Z) (par : dict) : res R :=
  let! cmoment := cmoment_IEZ n in
  Err TypeError.

(** cond_mom.py:63-74 and cond_ie_iez_mom.py:220-231 poly2num (same formula) *)
Definition p2n_ie (poly : Poly (list Z)) (par : dict) : res R :=
  let! v0 := dget par "v0" in let! k := dget par "k" in let! theta := dget par "theta" in
  let! sigma := dget par "sigma" in let! lmbd := dget par "lmbd" in let! mu_v := dget par "mu_v" in
  let! h := dget par "h" in
  p2n_loop (fun K =>
    let! kk := pypow k (nthZ K 1) in
    let! val := pydiv (exp (IZR (nthZ K 0) * k * h)) kk in
    let! w := pows [(v0 - theta, nthZ K 2); (theta, nthZ K 3); (sigma, nthZ K 4); (lmbd, nthZ K 5); (mu_v, nthZ K 6)] in
    Ok (val * w)) poly.
(** cond_ie_iez_cmom.py:216-229 poly2num *)
Definition p2n_cie (poly : Poly (list Z)) (par : dict) : res R :=
  let! v0 := dget par "v0" in let! k := dget par "k" in let! theta := dget par "theta" in
  let! sigma := dget par "sigma" in let! lmbd := dget par "lmbd" in let! mu_v := dget par "mu_v" in
  let! h := dget par "h" in
  let! d := pydiv (lmbd * mu_v) k in
  let meanv := theta + d in
  p2n_loop (fun K =>
    let! kk := pypow k (nthZ K 1) in
    let! val := pydiv (exp (IZR (nthZ K 0) * k * h)) kk in
    let! w := pows [(v0 - meanv, nthZ K 2); (meanv, nthZ K 3); (sigma, nthZ K 4); (lmbd, nthZ K 5); (mu_v, nthZ K 6)] in
    Ok (val * w)) poly.

(** cond_mom.py:76-84 m_x, m *)
Definition srjd_m_x (n : Z) (par : dict) : res R := scal (srjd_moment_x n) p2n_ie par.
Definition srjd_m (n : Z) (par : dict) : res R := scal (srjd_cond_moment_v n) p2n_ie par.
(** cond_cmom.py:69-77 cm_x, cm *)
Definition srjd_cm_x (n : Z) (par : dict) : res R := scal (srjd_cmoment_x n) p2n_ie par.
Definition srjd_cm (n : Z) (par : dict) : res R := scal (srjd_cond_cmoment_v n) p2n_ie par.
(** cond_ie_iez_mom.py:233-241 m_ie, m_ie_iez *)
Definition srjd_m_ie (n : Z) (par : dict) : res R := scal (moment_ie n) p2n_ie par.
Definition srjd_m_ie_iez (n1 n2 : Z) (par : dict) : res R := scal (moment_ie_iez n1 n2) p2n_ie par.
(** cond_ie_iez_cmom.py:231-239 m_ie, cm_ie_iez *)
Definition srjd_c_m_ie (n : Z) (par : dict) : res R := scal (cmoment_ie n) p2n_cie par.
Definition srjd_cm_ie_iez (n1 n2 : Z) (par : dict) : res R := scal (cmoment_ie_iez n1 n2) p2n_cie par.
(** cond2_mom.py:389-400 m, cond2_cmom.py:39-50 cm; parameters passed one by one, s and J are the jump times and sizes *)
Definition srjd_m2 (l : Z) (v0 k theta sigma h : R) (s J : list R) : res R :=
  let! moment := c2_moment_v l in c2_poly2num moment v0 k theta sigma h s J.
Definition srjd_cm2 (l : Z) (v0 k theta sigma h : R) (s J : list R) : res R :=
  let! cmoment := c2_cmoment_v l in c2_poly2num cmoment v0 k theta sigma h s J.

(** ** mdl_svcj *)
(** ieziziz_mom.py:413-425 poly2num: at s = 0 *)
Definition p2n_ieziziz (poly : Poly (list Z)) (par : dict) : res R :=
  let! k := dget par "k" in let! h := dget par "h" in let! lmbd := dget par "lmbd" in
  let! mu_v := dget par "mu_v" in let! mu_s := dget par "mu_s" in let! sigma_s := dget par "sigma_s" in
  p2n_loop (fun K =>
    let! hh := pypow h (nthZ K 2) in
    let! kk := pypow k (nthZ K 3) in
    let! val := pydiv (exp (IZR (nthZ K 0) * k * h) * hh) kk in
    let! w := pows [(lmbd, nthZ K 4); (mu_v, nthZ K 5); (mu_s, nthZ K 6); (sigma_s, nthZ K 7)] in
    Ok (val * w)) poly.
(** ieziziz_mom.py:427-431 m_ieziziz *)
Definition svcj_m_ieziziz (n1 n2 n3 : Z) (par : dict) : res R := scal (moment_ieziziz n1 n2 n3) p2n_ieziziz par.

(** cond_ieii_ieziziz_mom.py:349-362 poly2num *)
Definition p2n_ieii (poly : Poly (list Z)) (par : dict) : res R :=
  let! v0 := dget par "v0" in let! k := dget par "k" in let! theta := dget par "theta" in
  let! sigma := dget par "sigma" in let! lmbd := dget par "lmbd" in let! mu_v := dget par "mu_v" in
  let! h := dget par "h" in let! mu_s := dget par "mu_s" in let! sigma_s := dget par "sigma_s" in
  p2n_loop (fun K =>
    let! hh := pypow h (nthZ K 1) in
    let! kk := pypow k (nthZ K 2) in
    let! val := pydiv (exp (IZR (nthZ K 0) * k * h) * hh) kk in
    let! w := pows [(v0 - theta, nthZ K 3); (theta, nthZ K 4); (sigma, nthZ K 5); (lmbd, nthZ K 6); (mu_v, nthZ K 7);
                    (mu_s, nthZ K 8); (sigma_s, nthZ K 9)] in
    Ok (val * w)) poly.
(** cond_ieii_ieziziz_mom.py:365-369 m_ieii_ieziziz *)
Definition svcj_m_ieii (n1 n2 n3 n4 n5 n6 : Z) (par : dict) : res R := scal (moment_ieii6 n1 n2 n3 n4 n5 n6) p2n_ieii par.

(** The loop of cond_mom.py:136-143 and mom.py:105-112; [a] is v0-theta or mean_v *)
Definition p2n_13 (k h mu a theta sigma rho lmbd mu_v rhoJ mu_s sigma_s : R) (poly : Poly (list Z)) : res R :=
  p2n_loop (fun K =>
    let! hh := pypow h (nthZ K 1) in
    let! kk := pypow k (nthZ K 2) in
    let! val := pydiv (exp (IZR (nthZ K 0) * k * h) * hh) kk in
    let! w := pows [(mu, nthZ K 3); (a, nthZ K 4); (theta, nthZ K 5); (sigma, nthZ K 6); (rho, nthZ K 7); (lmbd, nthZ K 8);
                    (mu_v, nthZ K 9); (rhoJ, nthZ K 10); (mu_s, nthZ K 11); (sigma_s, nthZ K 12)] in
    Ok (val * w)) poly.
(** cond_mom.py:126-144 poly2num *)
Definition p2n_svcj_cond (poly : Poly (list Z)) (par : dict) : res R :=
  let! k := dget par "k" in let! mu := dget par "mu" in let! v0 := dget par "v0" in let! theta := dget par "theta" in
  let! sigma := dget par "sigma" in let! rho := dget par "rho" in let! lmbd := dget par "lmbd" in
  let! mu_v := dget par "mu_v" in let! rhoJ := dget par "rhoJ" in let! mu_s := dget par "mu_s" in
  let! sigma_s := dget par "sigma_s" in let! h := dget par "h" in
  p2n_13 k h mu (v0 - theta) theta sigma rho lmbd mu_v rhoJ mu_s sigma_s poly.
(** mom.py:94-113 poly2num *)
Definition p2n_svcj (poly : Poly (list Z)) (par : dict) : res R :=
  let! k := dget par "k" in let! mu := dget par "mu" in let! theta := dget par "theta" in
  let! sigma := dget par "sigma" in let! rho := dget par "rho" in let! lmbd := dget par "lmbd" in
  let! mu_v := dget par "mu_v" in let! rhoJ := dget par "rhoJ" in let! mu_s := dget par "mu_s" in
  let! sigma_s := dget par "sigma_s" in let! h := dget par "h" in
  let! d := pydiv (lmbd * mu_v) k in
  p2n_13 k h mu (theta + d) theta sigma rho lmbd mu_v rhoJ mu_s sigma_s poly.
(** cond_mom.py:146-149 m_y, cond_cmom.py:41-44 cm_y *)
Definition svcj_cond_m_y (n : Z) (par : dict) : res R := scal (svcj_moment_y n) p2n_svcj_cond par.
Definition svcj_cond_cm_y (n : Z) (par : dict) : res R := scal (svcj_cmoment_y n) p2n_svcj_cond par.
(** mom.py:115-118 unm_y, cmom.py:48-51 cm_y *)
Definition svcj_unm_y (n : Z) (par : dict) : res R := scal (svcj_stat_moment_y n) p2n_svcj par.
Definition svcj_cm_y (n : Z) (par : dict) : res R := scal (svcj_stat_cmoment_y n) p2n_svcj par.
