(** The scalar and derivative functions of mdl_1fsv, mdl_1fsvj, mdl_2fsv and mdl_2fsvj with the
    errors of their poly2num: the dict [par] is a partial function, so that a missing name raises
    KeyError, and a negative power of zero raises ZeroDivisionError.  Model/Scalar.v has the same
    functions for dicts that hold all names and defined powers only.
    Floats are real numbers.  A power of a negative number with a half-integer exponent, which is a
    complex number in Python, is the error ComplexResult here.  The association of products is
    simplified. *)
From Coq Require Import Reals Qreals.
From Verif.Model Require Export Scalar Decode CondCmom1.
Local Open Scope R_scope.

(** [moment = moment_y(l); pold = dpoly(moment, wrt); value = poly2num(pold, par); return value] *)
Definition dscal {K} (poly : res (Poly K)) (dpoly : Poly K -> string -> res (Poly K))
    (poly2num : Poly K -> dict -> res R) (par : dict) (wrt : string) : res R :=
  let! moment := poly in
  let! pold := dpoly moment wrt in
  poly2num pold par.

(** [x ** (n / 2)] for a float x and an int n *)
Definition halfpow (x : R) (n : Z) : res R :=
  if Z.even n then pypow x (n / 2)
  else if Rlt_dec x 0 then Err ComplexResult else pypow (sqrt x) n.

(** ** one factor *)
(** mdl_1fsv/mom.py:184-207 poly2num *)
Definition p2n_m1 (p : Poly (list Z)) (par : dict) : res R :=
  let! k := dget par "k" in let! h := dget par "h" in let! mu := dget par "mu" in
  let! theta := dget par "theta" in let! sigma_v := dget par "sigma_v" in let! rho := dget par "rho" in
  p2n_loop (fun K =>
    let! w := pows [(h, nthZ K 1); (k, (- nthZ K 2)%Z); (mu, nthZ K 3); (theta, nthZ K 4); (sigma_v, nthZ K 5);
                    (rho, nthZ K 6)] in
    let! s := halfpow (1 - rho ^ 2) (nthZ K 7) in
    Ok (exp (- pint K 0 * k * h) * (w * s))) p.
(** mdl_1fsv/cmom.py:197-219 poly2num *)
Definition p2n_cm1 (p : Poly (list Z)) (par : dict) : res R :=
  let! k := dget par "k" in let! h := dget par "h" in
  let! theta := dget par "theta" in let! sigma_v := dget par "sigma_v" in let! rho := dget par "rho" in
  p2n_loop (fun K =>
    let! w := pows [(h, nthZ K 1); (k, (- nthZ K 2)%Z); (theta, nthZ K 3); (sigma_v, nthZ K 4);
                    (rho, nthZ K 5)] in
    let! s := halfpow (1 - rho ^ 2) (nthZ K 6) in
    Ok (exp (- pint K 0 * k * h) * (w * s))) p.
(** mdl_1fsvj/mom.py:107-135 poly2num *)
Definition p2n_mj (p : Poly (list Z)) (par : dict) : res R :=
  let! k := dget par "k" in let! h := dget par "h" in let! mu := dget par "mu" in
  let! theta := dget par "theta" in let! sigma_v := dget par "sigma_v" in let! rho := dget par "rho" in
  let! lmbd := dget par "lambda" in let! mu_j := dget par "mu_j" in let! sigma_j := dget par "sigma_j" in
  p2n_loop (fun K =>
    let! w := pows [(h, nthZ K 1); (k, (- nthZ K 2)%Z); (mu, nthZ K 3); (theta, nthZ K 4); (sigma_v, nthZ K 5);
                    (rho, nthZ K 6)] in
    let! s := halfpow (1 - rho ^ 2) (nthZ K 7) in
    let! j := pows [(lmbd, nthZ K 8); (mu_j, nthZ K 9); (sigma_j, nthZ K 10)] in
    Ok (exp (- pint K 0 * k * h) * (w * s * j))) p.
(** mdl_1fsvj/cmom.py:117-143 poly2num *)
Definition p2n_cmj (p : Poly (list Z)) (par : dict) : res R :=
  let! k := dget par "k" in let! h := dget par "h" in
  let! theta := dget par "theta" in let! sigma_v := dget par "sigma_v" in let! rho := dget par "rho" in
  let! lmbd := dget par "lambda" in let! mu_j := dget par "mu_j" in let! sigma_j := dget par "sigma_j" in
  p2n_loop (fun K =>
    let! w := pows [(h, nthZ K 1); (k, (- nthZ K 2)%Z); (theta, nthZ K 3); (sigma_v, nthZ K 4);
                    (rho, nthZ K 5)] in
    let! s := halfpow (1 - rho ^ 2) (nthZ K 6) in
    let! j := pows [(lmbd, nthZ K 7); (mu_j, nthZ K 8); (sigma_j, nthZ K 9)] in
    Ok (exp (- pint K 0 * k * h) * (w * s * j))) p.
(** mdl_1fsv/cond_cmom.py:293-315 poly2num *)
Definition p2n_c1 (p : Poly (list Z)) (par : dict) : res R :=
  let! v0 := dget par "v0" in let! k := dget par "k" in let! h := dget par "h" in
  let! theta := dget par "theta" in let! sigma := dget par "sigma_v" in let! rho := dget par "rho" in
  p2n_loop (fun K =>
    let! w := pows [(h, nthZ K 1); (k, (- nthZ K 2)%Z); (v0 - theta, nthZ K 3); (theta, nthZ K 4); (sigma, nthZ K 5);
                    (rho, nthZ K 6)] in
    Ok (exp (- pint K 0 * k * h) * w)) p.

(** mdl_1fsv/mom.py:210-235 m, dm; cmom.py:222-247 cm, dcm; cov.py:194-220 cov, dcov *)
Definition m_1fsv_d (l : Z) (par : dict) : res R := scal (moment_y l) p2n_m1 par.
Definition dm_1fsv_d (l : Z) (par : dict) (wrt : string) : res R := dscal (moment_y l) dpoly_m1 p2n_m1 par wrt.
Definition cm_1fsv_d (l : Z) (par : dict) : res R := scal (cmoment_y l) p2n_cm1 par.
Definition dcm_1fsv_d (l : Z) (par : dict) (wrt : string) : res R := dscal (cmoment_y l) dpoly_cm1 p2n_cm1 par wrt.
Definition cov_1fsv_d (l1 l2 : Z) (par : dict) : res R := scal (cov_yy l1 l2) p2n_m1 par.
Definition dcov_1fsv_d (l1 l2 : Z) (par : dict) (wrt : string) : res R := dscal (cov_yy l1 l2) dpoly_m1 p2n_m1 par wrt.
(** mdl_1fsv/cond_cmom.py:317-330 cond_cm *)
Definition cond_cm_d (l : Z) (par : dict) : res R :=
  let! cmoments := cmoments_y_to l in
  match last (map Some cmoments) None with
  | Some cmoment => let! q := c1_simplify cmoment 2 in p2n_c1 q par
  | None => Err IndexError
  end.
(** mdl_1fsvj/mom.py:138-163 m, dm; cmom.py:146-171 cm, dcm; cov.py:64-91 cov, dcov *)
Definition m_1fsvj_d (l : Z) (par : dict) : res R := scal (jmoment_y l) p2n_mj par.
Definition dm_1fsvj_d (l : Z) (par : dict) (wrt : string) : res R := dscal (jmoment_y l) dpoly_mj p2n_mj par wrt.
Definition cm_1fsvj_d (l : Z) (par : dict) : res R := scal (jcmoment_y l) p2n_cmj par.
Definition dcm_1fsvj_d (l : Z) (par : dict) (wrt : string) : res R := dscal (jcmoment_y l) dpoly_cmj p2n_cmj par wrt.
Definition cov_1fsvj_d (l1 l2 : Z) (par : dict) : res R := scal (jcov_yy l1 l2) p2n_mj par.
Definition dcov_1fsvj_d (l1 l2 : Z) (par : dict) (wrt : string) : res R := dscal (jcov_yy l1 l2) dpoly_mj p2n_mj par wrt.

(** ** two factors *)
(** the part that is the same in all four poly2num:
    [val = poly[k]; for t in t0: val *= (t[0]*k1 + t[1]*k2)**(-t[2]); val *= exp(-(t1[0]*k1 + t1[1]*k2)*h)]
    and then the powers of the other symbols *)
Definition p2n_loop2 (k1 k2 h : R) (vals : list Z -> list (R * Z)) (p : Poly fkey) : res R :=
  p2n_loop (fun K =>
    let '(t0, ((n1, n2), x)) := K in
    let! d := pows (map (fun t => let '(a, b, e) := t in (IZR a * k1 + IZR b * k2, (- e)%Z)) t0) in
    let! w := pows (vals x) in
    Ok (d * exp (- (IZR n1 * k1 + IZR n2 * k2) * h) * w)) p.
(** mdl_2fsv/mom.py:242-276 poly2num *)
Definition p2n2_m (p : Poly fkey) (par : dict) : res R :=
  let! k1 := dget par "k1" in let! k2 := dget par "k2" in let! h := dget par "h" in
  let! mu := dget par "mu" in let! theta1 := dget par "theta1" in let! theta2 := dget par "theta2" in
  let! sigma_v1 := dget par "sigma_v1" in let! sigma_v2 := dget par "sigma_v2" in
  p2n_loop2 k1 k2 h (fun x => [(h, nthZ x 0); (mu, nthZ x 1); (theta1, nthZ x 2); (sigma_v1, nthZ x 3); (theta2, nthZ x 4);
    (sigma_v2, nthZ x 5)]) p.
(** mdl_2fsv/cmom.py:314-346 poly2num *)
Definition p2n2_cm (p : Poly fkey) (par : dict) : res R :=
  let! k1 := dget par "k1" in let! k2 := dget par "k2" in let! h := dget par "h" in
  let! theta1 := dget par "theta1" in let! theta2 := dget par "theta2" in
  let! sigma_v1 := dget par "sigma_v1" in let! sigma_v2 := dget par "sigma_v2" in
  p2n_loop2 k1 k2 h (fun x => [(h, nthZ x 0); (theta1, nthZ x 1); (sigma_v1, nthZ x 2); (theta2, nthZ x 3);
    (sigma_v2, nthZ x 4)]) p.
(** mdl_2fsvj/mom.py:117-158 poly2num *)
Definition p2n2_mj (p : Poly fkey) (par : dict) : res R :=
  let! k1 := dget par "k1" in let! k2 := dget par "k2" in let! h := dget par "h" in
  let! mu := dget par "mu" in let! theta1 := dget par "theta1" in let! theta2 := dget par "theta2" in
  let! sigma_v1 := dget par "sigma_v1" in let! sigma_v2 := dget par "sigma_v2" in
  let! lmbd := dget par "lambda" in let! mu_j := dget par "mu_j" in let! sigma_j := dget par "sigma_j" in
  p2n_loop2 k1 k2 h (fun x => [(h, nthZ x 0); (mu, nthZ x 1); (theta1, nthZ x 2); (sigma_v1, nthZ x 3); (theta2, nthZ x 4);
    (sigma_v2, nthZ x 5); (lmbd, nthZ x 6); (mu_j, nthZ x 7); (sigma_j, nthZ x 8)]) p.
(** mdl_2fsvj/cmom.py:116-155 poly2num *)
Definition p2n2_cmj (p : Poly fkey) (par : dict) : res R :=
  let! k1 := dget par "k1" in let! k2 := dget par "k2" in let! h := dget par "h" in
  let! theta1 := dget par "theta1" in let! theta2 := dget par "theta2" in
  let! sigma_v1 := dget par "sigma_v1" in let! sigma_v2 := dget par "sigma_v2" in
  let! lmbd := dget par "lambda" in let! mu_j := dget par "mu_j" in let! sigma_j := dget par "sigma_j" in
  p2n_loop2 k1 k2 h (fun x => [(h, nthZ x 0); (theta1, nthZ x 1); (sigma_v1, nthZ x 2); (theta2, nthZ x 3);
    (sigma_v2, nthZ x 4); (lmbd, nthZ x 5); (mu_j, nthZ x 6); (sigma_j, nthZ x 7)]) p.

(** mdl_2fsv/mom.py:279-304 m, dm; cmom.py:349-374 cm, dcm; cov.py:308-335 cov, dcov *)
Definition m_2fsv_d (l : Z) (par : dict) : res R := scal (moment_y2 l) p2n2_m par.
Definition dm_2fsv_d (l : Z) (par : dict) (wrt : string) : res R := dscal (moment_y2 l) dpoly2_m p2n2_m par wrt.
Definition cm_2fsv_d (l : Z) (par : dict) : res R := scal (cmoment_y2 l) p2n2_cm par.
Definition dcm_2fsv_d (l : Z) (par : dict) (wrt : string) : res R := dscal (cmoment_y2 l) dpoly2_cm p2n2_cm par wrt.
Definition cov_2fsv_d (l1 l2 : Z) (par : dict) : res R := scal (cov_yy2 l1 l2) p2n2_m par.
Definition dcov_2fsv_d (l1 l2 : Z) (par : dict) (wrt : string) : res R := dscal (cov_yy2 l1 l2) dpoly2_m p2n2_m par wrt.
(** mdl_2fsvj/mom.py:161-186 m, dm; cmom.py:158-183 cm, dcm; cov.py:92-119 cov, dcov *)
Definition m_2fsvj_d (l : Z) (par : dict) : res R := scal (jmoment_y2 l) p2n2_mj par.
Definition dm_2fsvj_d (l : Z) (par : dict) (wrt : string) : res R := dscal (jmoment_y2 l) dpoly2_mj p2n2_mj par wrt.
Definition cm_2fsvj_d (l : Z) (par : dict) : res R := scal (jcmoment_y2 l) p2n2_cmj par.
Definition dcm_2fsvj_d (l : Z) (par : dict) (wrt : string) : res R := dscal (jcmoment_y2 l) dpoly2_cmj p2n2_cmj par wrt.
Definition cov_2fsvj_d (l1 l2 : Z) (par : dict) : res R := scal (jcov_yy2 l1 l2) p2n2_mj par.
Definition dcov_2fsvj_d (l1 l2 : Z) (par : dict) (wrt : string) : res R := dscal (jcov_yy2 l1 l2) dpoly2_mj p2n2_mj par wrt.
