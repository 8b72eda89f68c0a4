(** Model of src/ajdmom/mdl_1fsv/{cmom,mom,cov}.py (dpoly and poly2num in Dpoly.v). *)
From Verif.Model Require Export Nest.
Local Open Scope Z_scope.

(** ** mdl_1fsv/cmom.py *)
Definition kf_cb : list string := ["e^{-kh}"; "k^{-}"; "theta"; "sigma_v"; "rho"; "sqrt(1-rho^2)"]%string.

(** mdl_1fsv/cmom.py:13-33 b_n *)
Definition cb_n (n1 n2 n3 n4 n5 : Z) : res (Poly (list Z)) :=
  let! a := foldM (fun a i => foldM (fun a j =>
    let key := [i; n1 + n2 + n3 + j; n1; n3 + j; n4 - j; n5] in
    let! c1 := math_comb (n1 + n2) i in
    let! c2 := math_comb n4 j in
    let num := c1 * c2 * sgn1 (n2 + i + j) in
    let den := 2 ^ (n1 + n2 + n3 + j) in
    Ok (add_kv key (Frac num den) a))
    (range 0 (n4 + 1)) a) (range 0 (n1 + n2 + 1)) [] in
  Ok (mkPoly a kf_cb).

Definition kf_ve : list string := ["e^{-kh}"; "h"; "v_{n-1}"; "k^{-}"; "theta"; "sigma_v"]%string.

(** mdl_1fsv/cmom.py:36-59 ve_IEII *)
Definition ve_IEII (n2 n3 n4 n5 : Z) : res (Poly (list Z)) :=
  let! poly := moment_IEII n3 n4 n5 in
  Ok (mkPoly (fold_left (fun a kv =>
        let k := fst kv in
        add_kv [n3 - nthZ k 1; nthZ k 2; n2 + nthZ k 3; nthZ k 4; nthZ k 5; nthZ k 6] (snd kv) a)
      (items poly) []) kf_ve).

Definition kf_c8 : list string :=
  ["e^{-kh}"; "h"; "v_{n-1}"; "k^{-}"; "theta"; "sigma_v"; "rho"; "sqrt(1-rho^2)"]%string.

(** mdl_1fsv/cmom.py:62-85 moment_comb *)
Definition cmoment_comb (n n1 n2 n3 n4 n5 : Z) : res (Poly (list Z)) :=
  let! poly := ve_IEII n2 n3 n4 n5 in
  let! b := cb_n n1 n2 n3 n4 n5 in
  let! poly := mul_poly poly b [0;1;2;3;4;5;-1;-1] [0;-1;-1;1;2;3;4;5] kf_c8 in
  let! c := comb n [n1; n2; n3; n4; n5] in
  Ok (rmulZ c poly).

Definition kf_c7 : list string :=
  ["e^{-kh}"; "h"; "k^{-}"; "theta"; "sigma_v"; "rho"; "sqrt(1-rho^2)"]%string.

(** mdl_1fsv/cmom.py:88-107 sub_v *)
Definition csub_v (p : Poly (list Z)) : res (Poly (list Z)) :=
  subst_v (fun k => nthZ k 2)
    (fun k i j => [nthZ k 0; nthZ k 1; nthZ k 3 + j; nthZ k 4 + i; nthZ k 5 + 2 * j; nthZ k 6; nthZ k 7])
    kf_c7 p.

(** mdl_1fsv/cmom.py:110-129 cmoment_y *)
Definition cmoment_y (l : Z) : res (Poly (list Z)) :=
  let! poly := nest 4 l [] (fun poly ns =>
    let! q := on5 (cmoment_comb l) ns in merge poly q) (mkPoly [] kf_c8) in
  let! s := csub_v poly in
  Ok (remove_zero s).

(** ** mdl_1fsv/mom.py *)
Definition kf_8 : list string :=
  ["e^{-kh}"; "h"; "k^{-}"; "mu"; "theta"; "sigma_v"; "rho"; "sqrt(1-rho^2)"]%string.

(** mdl_1fsv/mom.py:13-43 b_n *)
Definition b_n (n1 n2 n3 n4 n5 : Z) : res (Poly (list Z)) :=
  let! a := nest 3 n1 [] (fun a => on4 (fun i1 i2 i3 i4 =>
    foldM (fun a i => foldM (fun a j =>
      let! c1 := comb n1 [i1; i2; i3; i4] in
      let! c2 := math_comb n2 i in
      let! c3 := math_comb n4 j in
      let key := [i4 + i; i1 + i2; i3 + i4 + n2 + n3 + j; i1; n1 - i1; n3 + j; n4 - j; n5] in
      let num := c1 * c2 * c3 * sgn1 (i2 + i4 + n2 + i + j) in
      let den := 2 ^ (n1 - i1 + n2 + n3 + j) in
      Ok (add_kv key (Frac num den) a))
      (range 0 (n4 + 1)) a) (range 0 (n2 + 1)) a)) [] in
  Ok (mkPoly a kf_8).

Definition kf_9 : list string :=
  ["e^{-kh}"; "h"; "v_{n-1}"; "k^{-}"; "mu"; "theta"; "sigma_v"; "rho"; "sqrt(1-rho^2)"]%string.

(** mdl_1fsv/mom.py:46-73 moment_comb *)
Definition moment_comb (n n1 n2 n3 n4 n5 : Z) : res (Poly (list Z)) :=
  let! poly := ve_IEII n2 n3 n4 n5 in
  let! b := b_n n1 n2 n3 n4 n5 in
  let! poly := mul_poly poly b [0;1;2;3;-1;4;5;-1;-1] [0;1;-1;2;3;4;5;6;7] kf_9 in
  let! c := comb n [n1; n2; n3; n4; n5] in
  Ok (rmulZ c poly).

(** mdl_1fsv/mom.py:76-97 sub_v *)
Definition sub_v (p : Poly (list Z)) : res (Poly (list Z)) :=
  subst_v (fun k => nthZ k 2)
    (fun k i j => [nthZ k 0; nthZ k 1; nthZ k 3 + j; nthZ k 4; nthZ k 5 + i; nthZ k 6 + 2 * j;
                   nthZ k 7; nthZ k 8]) kf_8 p.

(** mdl_1fsv/mom.py:100-120 moment_y *)
Definition moment_y (l : Z) : res (Poly (list Z)) :=
  let! poly := nest 4 l [] (fun poly ns =>
    let! q := on5 (moment_comb l) ns in merge poly q) (mkPoly [] kf_9) in
  let! s := sub_v poly in
  Ok (remove_zero s).

(** ** mdl_1fsv/cov.py *)
Definition kf_vn : list string := ["e^{-knh}eI_n"; "e^{-kh}"; "v_{n-1}"; "theta"; "sigma_v"]%string.

(** mdl_1fsv/cov.py:16-34 exp_vn *)
Definition exp_vn (l : Z) : res (Poly (list Z)) :=
  let! a := nest 3 l [] (fun a => on4 (fun i j p q =>
    let! c := comb l [i; j; p; q] in
    Ok (add_kv [q; i + p; i; j + p; q] (qz (c * sgn1 p)) a))) [] in
  Ok (mkPoly a kf_vn).

Definition kf_eIv : list string :=
  ["e^{-knh}eI_n"; "e^{-kh}"; "h"; "v_{n-1}"; "k^{-}"; "theta"; "sigma_v"]%string.

(** mdl_1fsv/cov.py:37-64 ve_IEII_vn *)
Definition ve_IEII_vn (n2 n3 n4 n5 : Z) : res (Poly (list Z)) :=
  let! poly := ve_IEII n2 n3 n4 n5 in
  let! a := foldM (fun a kv1 =>
    let k1 := fst kv1 in
    let! polv := exp_vn (nthZ k1 2) in
    Ok (fold_left (fun a kv2 =>
          let k2 := fst kv2 in
          add_kv [nthZ k2 0; nthZ k1 0 + nthZ k2 1; nthZ k1 1; nthZ k2 2; nthZ k1 3;
                  nthZ k1 4 + nthZ k2 3; nthZ k1 5 + nthZ k2 4] (qmul (snd kv1) (snd kv2)) a)
        (items polv) a)) (items poly) [] in
  Ok (mkPoly a kf_eIv).

(** mdl_1fsv/cov.py:67-106 moment_inner_comb *)
Definition moment_inner_comb (poly_eIv : Poly (list Z)) (l1 m1 m2 m3 m4 m5 : Z) : res (Poly (list Z)) :=
  let! a := foldM (fun a kv1 =>
    let k1 := fst kv1 in
    let! poln := ve_IEII (m2 + nthZ k1 3) (m3 + nthZ k1 0) m4 m5 in
    Ok (fold_left (fun a kv2 =>
          let k2 := fst kv2 in
          add_kv [nthZ k1 1 + nthZ k2 0; nthZ k1 2 + nthZ k2 1; nthZ k2 2; nthZ k1 4 + nthZ k2 3;
                  nthZ k1 5 + nthZ k2 4; nthZ k1 6 + nthZ k2 5] (qmul (snd kv1) (snd kv2)) a)
        (items poln) a)) (items poly_eIv) [] in
  let! b := b_n m1 m2 m3 m4 m5 in
  let! poly := mul_poly (mkPoly a kf_ve) b [0;1;2;3;-1;4;5;-1;-1] [0;1;-1;2;3;4;5;6;7] kf_9 in
  let! c := comb l1 [m1; m2; m3; m4; m5] in
  Ok (rmulZ c poly).

(** mdl_1fsv/cov.py:109-145 moment_outer_comb *)
Definition moment_outer_comb (l1 l2 n1 n2 n3 n4 n5 : Z) : res (Poly (list Z)) :=
  let! c := comb l2 [n1; n2; n3; n4; n5] in
  let! b := b_n n1 n2 n3 n4 n5 in
  let! poly_eIv := ve_IEII_vn n2 n3 n4 n5 in
  let! poly := nest 4 l1 [] (fun poly ms =>
    let! q := on5 (moment_inner_comb poly_eIv l1) ms in merge poly q) (mkPoly [] kf_9) in
  let! poly := mul_poly poly b [0;1;2;3;4;5;6;7;8] [0;1;-1;2;3;4;5;6;7] kf_9 in
  Ok (rmulZ c poly).

(** mdl_1fsv/cov.py:148-170 moment_yy *)
Definition moment_yy (l1 l2 : Z) : res (Poly (list Z)) :=
  let! poly := nest 4 l2 [] (fun poly ns =>
    let! q := on5 (moment_outer_comb l1 l2) ns in merge poly q) (mkPoly [] kf_9) in
  let! s := sub_v poly in
  Ok (remove_zero s).

(** mdl_1fsv/cov.py:173-187 cov_yy *)
Definition cov_yy (l1 l2 : Z) : res (Poly (list Z)) :=
  let! a := moment_yy l1 l2 in
  let! b := moment_y l1 in
  let! c := moment_y l2 in
  let! bc := pmul b c in
  let! r := psub a bc in
  Ok (remove_zero r).
