(** Model of src/ajdmom/mdl_1fsvj/{mom,cmom,cov}.py (dpoly and poly2num in Dpoly.v). *)
From Verif.Model Require Export Fsv1 CppMom.
Local Open Scope Z_scope.

Definition kf_j11 : list string :=
  ["e^{-kh}"; "h"; "k^{-}"; "mu"; "theta"; "sigma_v"; "rho"; "sqrt(1-rho^2)"; "lambda"; "mu_j"; "sigma_j"]%string.
Definition kf_j10 : list string :=
  ["e^{-kh}"; "h"; "k^{-}"; "theta"; "sigma_v"; "rho"; "sqrt(1-rho^2)"; "lambda"; "mu_j"; "sigma_j"]%string.

(** mdl_1fsvj/mom.py:14-37 moment_y *)
Definition jmoment_y (l : Z) : res (Poly (list Z)) :=
  foldM (fun poly i =>
    let! coef := math_comb l i in
    let! pol1 := moment_y i in
    let! pol2 := mcpp (l - i) in
    let! poln := mul_poly pol1 pol2 [0;1;2;3;4;5;6;7;-1;-1;-1] [-1;0;-1;-1;-1;-1;-1;-1;0;1;2] kf_j11 in
    merge poly (rmulZ coef poln)) (range 0 (l + 1)) (mkPoly [] kf_j11).

(** mdl_1fsvj/cmom.py:14-39 cmoment_y *)
Definition jcmoment_y (l : Z) : res (Poly (list Z)) :=
  foldM (fun poly i =>
    let! coef := math_comb l i in
    let! pol1 := cmoment_y i in
    let! pol2 := cmcpp (l - i) in
    let! poln := mul_poly pol1 pol2 [0;1;2;3;4;5;6;-1;-1;-1] [-1;0;-1;-1;-1;-1;-1;0;1;2] kf_j10 in
    merge poly (rmulZ coef poln)) (range 0 (l + 1)) (mkPoly [] kf_j10).

(** mdl_1fsvj/cov.py:17-42 moment_yy *)
Definition jmoment_yy (l1 l2 : Z) : res (Poly (list Z)) :=
  foldM (fun poly i =>
    foldM (fun poly j =>
      let! c2 := math_comb l2 i in
      let! c1 := math_comb l1 j in
      let coef := c2 * c1 in
      let! pol1 := moment_yy j i in
      let! pol2 := mcpp (l2 - i) in
      let! pol3 := mcpp (l1 - j) in
      let! pol23 := pmul pol2 pol3 in
      let! poln := mul_poly pol1 pol23 [0;1;2;3;4;5;6;7;-1;-1;-1] [-1;0;-1;-1;-1;-1;-1;-1;0;1;2] kf_j11 in
      merge poly (rmulZ coef poln)) (range 0 (l1 + 1)) poly) (range 0 (l2 + 1)) (mkPoly [] kf_j11).

(** mdl_1fsvj/cov.py:45-57 cov_yy *)
Definition jcov_yy (l1 l2 : Z) : res (Poly (list Z)) :=
  let! a := jmoment_yy l1 l2 in
  let! b := jmoment_y l1 in
  let! c := jmoment_y l2 in
  let! bc := pmul b c in
  let! r := psub a bc in
  Ok (remove_zero r).
