(** Model of the scalar and derivative functions m/cm/cov and dm/dcm/dcov of mdl_1fsv, mdl_1fsvj,
    mdl_2fsv and mdl_2fsvj.  All are
      [moment = moment_y(l); (pold = dpoly(moment, wrt);) value = poly2num(..., par); return value]
    with real numbers for floats and a total function for the dict [par] (a missing name, which
    raises KeyError, is not modelled). *)
From Coq Require Import Reals.
From Verif.Model Require Export Fsv1j Dpoly Dpoly2.

Definition scalar {K} (poly : res (Poly K)) (poly2num : Poly K -> (string -> R) -> R) (par : string -> R) : res R :=
  let! moment := poly in
  Ok (poly2num moment par).
Definition dscalar {K} (poly : res (Poly K)) (dpoly : Poly K -> string -> res (Poly K))
    (poly2num : Poly K -> (string -> R) -> R) (par : string -> R) (wrt : string) : res R :=
  let! moment := poly in
  let! pold := dpoly moment wrt in
  Ok (poly2num pold par).

(** ** mdl_1fsv *)
(** mdl_1fsv/mom.py:210-220 m *)
Definition m_1fsv (l : Z) (par : string -> R) : res R := scalar (moment_y l) poly2num_m1 par.
(** mdl_1fsv/mom.py:223-235 dm *)
Definition dm_1fsv (l : Z) (par : string -> R) (wrt : string) : res R := dscalar (moment_y l) dpoly_m1 poly2num_m1 par wrt.
(** mdl_1fsv/cmom.py:222-232 cm *)
Definition cm_1fsv (l : Z) (par : string -> R) : res R := scalar (cmoment_y l) poly2num_cm1 par.
(** mdl_1fsv/cmom.py:235-247 dcm *)
Definition dcm_1fsv (l : Z) (par : string -> R) (wrt : string) : res R := dscalar (cmoment_y l) dpoly_cm1 poly2num_cm1 par wrt.
(** mdl_1fsv/cov.py:194-205 cov (dpoly and poly2num are those of mom.py) *)
Definition cov_1fsv (l1 l2 : Z) (par : string -> R) : res R := scalar (cov_yy l1 l2) poly2num_m1 par.
(** mdl_1fsv/cov.py:208-220 dcov *)
Definition dcov_1fsv (l1 l2 : Z) (par : string -> R) (wrt : string) : res R := dscalar (cov_yy l1 l2) dpoly_m1 poly2num_m1 par wrt.

(** ** mdl_1fsvj *)
(** mdl_1fsvj/mom.py:138-148 m *)
Definition m_1fsvj (l : Z) (par : string -> R) : res R := scalar (jmoment_y l) poly2num_mj par.
(** mdl_1fsvj/mom.py:151-163 dm *)
Definition dm_1fsvj (l : Z) (par : string -> R) (wrt : string) : res R := dscalar (jmoment_y l) dpoly_mj poly2num_mj par wrt.
(** mdl_1fsvj/cmom.py:146-156 cm *)
Definition cm_1fsvj (l : Z) (par : string -> R) : res R := scalar (jcmoment_y l) poly2num_cmj par.
(** mdl_1fsvj/cmom.py:159-171 dcm *)
Definition dcm_1fsvj (l : Z) (par : string -> R) (wrt : string) : res R := dscalar (jcmoment_y l) dpoly_cmj poly2num_cmj par wrt.
(** mdl_1fsvj/cov.py:64-75 cov *)
Definition cov_1fsvj (l1 l2 : Z) (par : string -> R) : res R := scalar (jcov_yy l1 l2) poly2num_mj par.
(** mdl_1fsvj/cov.py:78-91 dcov *)
Definition dcov_1fsvj (l1 l2 : Z) (par : string -> R) (wrt : string) : res R := dscalar (jcov_yy l1 l2) dpoly_mj poly2num_mj par wrt.

(** ** mdl_2fsv *)
(** mdl_2fsv/mom.py:279-289 m *)
Definition m_2fsv (l : Z) (par : string -> R) : res R := scalar (moment_y2 l) poly2num2_m par.
(** mdl_2fsv/mom.py:292-304 dm *)
Definition dm_2fsv (l : Z) (par : string -> R) (wrt : string) : res R := dscalar (moment_y2 l) dpoly2_m poly2num2_m par wrt.
(** mdl_2fsv/cmom.py:349-359 cm *)
Definition cm_2fsv (l : Z) (par : string -> R) : res R := scalar (cmoment_y2 l) poly2num2_cm par.
(** mdl_2fsv/cmom.py:362-374 dcm *)
Definition dcm_2fsv (l : Z) (par : string -> R) (wrt : string) : res R := dscalar (cmoment_y2 l) dpoly2_cm poly2num2_cm par wrt.
(** mdl_2fsv/cov.py:308-319 cov *)
Definition cov_2fsv (l1 l2 : Z) (par : string -> R) : res R := scalar (cov_yy2 l1 l2) poly2num2_m par.
(** mdl_2fsv/cov.py:322-335 dcov *)
Definition dcov_2fsv (l1 l2 : Z) (par : string -> R) (wrt : string) : res R := dscalar (cov_yy2 l1 l2) dpoly2_m poly2num2_m par wrt.

(** ** mdl_2fsvj *)
(** mdl_2fsvj/mom.py:161-171 m *)
Definition m_2fsvj (l : Z) (par : string -> R) : res R := scalar (jmoment_y2 l) poly2num2_mj par.
(** mdl_2fsvj/mom.py:174-186 dm *)
Definition dm_2fsvj (l : Z) (par : string -> R) (wrt : string) : res R := dscalar (jmoment_y2 l) dpoly2_mj poly2num2_mj par wrt.
(** mdl_2fsvj/cmom.py:158-168 cm *)
Definition cm_2fsvj (l : Z) (par : string -> R) : res R := scalar (jcmoment_y2 l) poly2num2_cmj par.
(** mdl_2fsvj/cmom.py:171-183 dcm *)
Definition dcm_2fsvj (l : Z) (par : string -> R) (wrt : string) : res R := dscalar (jcmoment_y2 l) dpoly2_cmj poly2num2_cmj par wrt.
(** mdl_2fsvj/cov.py:92-103 cov *)
Definition cov_2fsvj (l1 l2 : Z) (par : string -> R) : res R := scalar (jcov_yy2 l1 l2) poly2num2_mj par.
(** mdl_2fsvj/cov.py:106-119 dcov *)
Definition dcov_2fsvj (l1 l2 : Z) (par : string -> R) (wrt : string) : res R := dscalar (jcov_yy2 l1 l2) dpoly2_mj poly2num2_mj par wrt.
