(** Model of src/ajdmom/mdl_2fsv/{cmom,mom,cov}.py and mdl_2fsvj/{mom,cmom,cov}.py (dpoly and
    poly2num in Dpoly2.v).  A key (t0, t1, h, ...) of Python is represented as
    (t0, (t1, [h; ...])): the nested tuples t0 and t1 are kept, the integers k[2], k[3], ...
    are collected in a list, so that k[2+i] is [nthZ x i]. *)
From Verif.Model Require Export Nest ItosMom CppMom Fsv1.
Local Open Scope Z_scope.

Notation fkey := (list (Z * Z * Z) * ((Z * Z) * list Z))%type.

(** [for k1 in p: q = sub(k1); for k2 in q: r.add_keyval(mk(k1,k2), cf(p[k1], q[k2]))] *)
Definition gloop {K1 K2 K3 : Type} `{Key K3} (sub : K1 -> res (Poly K2)) (mk : K1 -> K2 -> res K3)
  (cf : Q -> Q -> Q) (l : list (K1 * Q)) (a : list (K3 * Q)) : res (list (K3 * Q)) :=
  foldM (fun a kv1 =>
    let! q := sub (fst kv1) in
    foldM (fun a kv2 =>
      let! k := mk (fst kv1) (fst kv2) in
      Ok (add_kv k (cf (snd kv1) (snd kv2)) a)) (items q) a) l a.
Definition gpoly {K1 K2 K3 : Type} `{Key K3} (sub : K1 -> res (Poly K2)) (mk : K1 -> K2 -> res K3)
  (kf : list string) (p : Poly K1) : res (Poly K3) :=
  let! a := gloop sub mk qmul (items p) [] in Ok (mkPoly a kf).

(** [t0 = a; for t in b: t0 = t_mul_t0(t, t0)] *)
Definition tt_mul (a b : den) : res den := foldM (fun t0 t => t_mul_t0 t t0) b a.

(** bodies of nested loops with 7 and 8 loop variables *)
Definition on7 {A} (f : Z -> Z -> Z -> Z -> Z -> Z -> Z -> res A) (ns : list Z) : res A :=
  match ns with [a; b; c; d; e; g; i] => f a b c d e g i | _ => Err IndexError end.
Definition on8 {A} (f : Z -> Z -> Z -> Z -> Z -> Z -> Z -> Z -> res A) (ns : list Z) : res A :=
  match ns with [a; b; c; d; e; g; i; j] => f a b c d e g i j | _ => Err IndexError end.

(** ** mdl_2fsv/cmom.py *)
Definition kf2_cb : list string :=
  ["e^{-k1h}"; "k1^{-}"; "theta1"; "sigma_v1"; "e^{-k2h}"; "k2^{-}"; "theta2"; "sigma_v2"]%string.

(** mdl_2fsv/cmom.py:13-49 b_n *)
Definition cb2_n (n1 n2 n3 n4 n5 n6 n7 : Z) : res (Poly (list Z)) :=
  let! a := nest 3 n1 [] (fun a => on4 (fun i1 i2 i3 i4 =>
    foldM (fun a j => foldM (fun a q =>
      let! c1 := math_comb n1 i1 in
      let! c2 := math_comb (n1 - i1) i2 in
      let! c3 := math_comb (n1 - i1 - i2) i3 in
      let! c4 := math_comb n2 j in
      let! c5 := math_comb n3 q in
      let key := [i2 + j; i1 + i2 + n2 + n4 + n5; i1 + i2; n4 + n5;
                  i4 + q; i3 + i4 + n3 + n6 + n7; i3 + i4; n6 + n7] in
      let num := c1 * c2 * c3 * c4 * c5 * sgn1 (i2 + i4 + (n2 + j) + (n3 + q) + n5 + n7) in
      let den := 2 ^ (n1 + n2 + n3 + n4 + n5 + n6 + n7) in
      Ok (add_kv key (Frac num den) a))
      (range 0 (n3 + 1)) a) (range 0 (n2 + 1)) a)) [] in
  Ok (mkPoly a kf2_cb).

Definition kf2_ve : list string :=
  ["(n_1m*k1+n_2m*k2)^{-i_m},...,(n_11*k1+n_21*k2)^{-i_1}"; "e^{-(n1*k1+n2*k2)h}"; "h";
   "v_{1,n-1}"; "theta1"; "sigma_v1"; "v_{2,n-1}"; "theta2"; "sigma_v2"]%string.

(** mdl_2fsv/cmom.py:52-92 vvee_IEI_IEII *)
Definition vvee (n2 n3 n4 n5 n6 n7 n8 : Z) : res (Poly fkey) :=
  let! poly := moment_IEI_IEII n4 n5 n6 n7 n8 in
  Ok (mkPoly (fold_left (fun a kv =>
        let '(d, (_, ((j1, j2), x))) := fst kv in
        add_kv (d, ((n4 - j1, n6 - j2),
                 [nthZ x 0; nthZ x 1 + n2; nthZ x 2; nthZ x 3; nthZ x 4 + n3; nthZ x 5; nthZ x 6]))
          (snd kv) a) (items poly) []) kf2_ve).

(** [t0 = t_mul_t0((1,0,k2[1]), k1[0]); t0 = t_mul_t0((0,1,k2[5]), t0);
     t1 = (k1[1][0] + k2[0], k1[1][1] + k2[4]); key = (t0, t1, ...)] *)
Definition b_key (mk : list Z -> list Z -> list Z) (k1 : fkey) (k2 : list Z) : res fkey :=
  let '(d, ((a, b), x)) := k1 in
  let! t0 := t_mul_t0 (1, 0, nthZ k2 1) d in
  let! t0 := t_mul_t0 (0, 1, nthZ k2 5) t0 in
  Ok (t0, ((a + nthZ k2 0, b + nthZ k2 4), mk x k2)).

(** mdl_2fsv/cmom.py:95-142 moment_comb *)
Definition cmoment_comb2 (n n1 n2 n3 n4 n5 n6 n7 n8 : Z) : res (Poly fkey) :=
  let! poly := vvee n2 n3 n4 n5 n6 n7 n8 in
  let! b := cb2_n n1 n2 n3 n4 n5 n6 n7 in
  let! poln := gpoly (fun _ => Ok b) (b_key (fun x k2 =>
    [nthZ x 0; nthZ x 1; nthZ x 2 + nthZ k2 2; nthZ x 3 + nthZ k2 3;
     nthZ x 4; nthZ x 5 + nthZ k2 6; nthZ x 6 + nthZ k2 7])) kf2_ve poly in
  let! c := comb n [n1; n2; n3; n4; n5; n6; n7; n8] in
  Ok (rmul (qz c) poln).

Definition kf2_7 : list string :=
  ["(n_1m*k1+n_2m*k2)^{-i_m},...,(n_11*k1+n_21*k2)^{-i_1}"; "e^{-(n1*k1+n2*k2)h}"; "h";
   "theta1"; "sigma_v1"; "theta2"; "sigma_v2"]%string.

(** [t0 = t_mul_t0((f1,f2,j), k[0]); knw = (t0, k[1], ...)] for (i, j) in moment_v *)
Definition v_key (f1 f2 : Z) (mk : list Z -> Z -> Z -> list Z) (k : fkey) (ij : list Z) : res fkey :=
  let '(d, (t1, x)) := k in
  let! t0 := t_mul_t0 (f1, f2, nthZ ij 1) d in
  Ok (t0, (t1, mk x (nthZ ij 0) (nthZ ij 1))).

(** mdl_2fsv/cmom.py:145-183 sub_v; [poln] there has no keyfor *)
Definition csub_v2 (p : Poly fkey) : res (Poly fkey) :=
  let! poln := gpoly (fun k => moment_v (nthZ (snd (snd k)) 1)) (v_key 1 0 (fun x i j =>
    [nthZ x 0; nthZ x 2 + i; nthZ x 3 + 2 * j; nthZ x 4; nthZ x 5; nthZ x 6])) [] p in
  gpoly (fun k => moment_v (nthZ (snd (snd k)) 3)) (v_key 0 1 (fun x i j =>
    [nthZ x 0; nthZ x 1; nthZ x 2; nthZ x 4 + i; nthZ x 5 + 2 * j])) kf2_7 poln.

(** mdl_2fsv/cmom.py:186-212 cmoment_y *)
Definition cmoment_y2 (l : Z) : res (Poly fkey) :=
  let! poly := nest 7 l [] (fun poly ns =>
    let! q := on8 (cmoment_comb2 l) ns in merge poly q) (mkPoly [] kf2_ve) in
  let! s := csub_v2 poly in
  Ok (remove_zero s).

(** ** mdl_2fsv/mom.py *)
Definition kf2_b : list string :=
  ["e^{-k1h}"; "k1^{-}"; "theta1"; "sigma_v1"; "e^{-k2h}"; "k2^{-}"; "theta2"; "sigma_v2"; "h"; "mu"]%string.

(** mdl_2fsv/mom.py:17-56 b_n *)
Definition b2_n (n1 n2 n3 n4 n5 n6 n7 : Z) : res (Poly (list Z)) :=
  let! a := nest 6 n1 [] (fun a => on7 (fun i1 i2 i3 i4 i5 i6 i7 =>
    foldM (fun a j => foldM (fun a q =>
      let! c1 := comb n1 [i1; i2; i3; i4; i5; i6; i7] in
      let! c2 := math_comb n2 j in
      let! c3 := math_comb n3 q in
      let key := [i2 + j; i1 + i2 + n2 + n4 + n5; i1 + i2 + i5; n4 + n5;
                  i4 + q; i3 + i4 + n3 + n6 + n7; i3 + i4 + i6; n6 + n7; i5 + i6 + i7; i7] in
      let num := c1 * c2 * c3 * sgn1 (i2 + i4 + i5 + i6 + (n2 + j) + (n3 + q) + n5 + n7) in
      let den := 2 ^ (n1 - i7 + n2 + n3 + n4 + n5 + n6 + n7) in
      Ok (add_kv key (Frac num den) a))
      (range 0 (n3 + 1)) a) (range 0 (n2 + 1)) a)) [] in
  Ok (mkPoly a kf2_b).

Definition kf2_10 : list string :=
  ["(n_1m*k1+n_2m*k2)^{-i_m},...,(n_11*k1+n_21*k2)^{-i_1}"; "e^{-(n1*k1+n2*k2)h}"; "h"; "mu";
   "v_{1,n-1}"; "theta1"; "sigma_v1"; "v_{2,n-1}"; "theta2"; "sigma_v2"]%string.

(** mdl_2fsv/mom.py:59-106 moment_comb *)
Definition moment_comb2 (n n1 n2 n3 n4 n5 n6 n7 n8 : Z) : res (Poly fkey) :=
  let! poly := vvee n2 n3 n4 n5 n6 n7 n8 in
  let! b := b2_n n1 n2 n3 n4 n5 n6 n7 in
  let! poln := gpoly (fun _ => Ok b) (b_key (fun x k2 =>
    [nthZ x 0 + nthZ k2 8; nthZ k2 9; nthZ x 1; nthZ x 2 + nthZ k2 2; nthZ x 3 + nthZ k2 3;
     nthZ x 4; nthZ x 5 + nthZ k2 6; nthZ x 6 + nthZ k2 7])) kf2_10 poly in
  let! c := comb n [n1; n2; n3; n4; n5; n6; n7; n8] in
  Ok (rmul (qz c) poln).

Definition kf2_8 : list string :=
  ["(n_1m*k1+n_2m*k2)^{-i_m},...,(n_11*k1+n_21*k2)^{-i_1}"; "e^{-(n1*k1+n2*k2)h}"; "h"; "mu";
   "theta1"; "sigma_v1"; "theta2"; "sigma_v2"]%string.

(** mdl_2fsv/mom.py:109-147 sub_v; [poln] there has no keyfor *)
Definition sub_v2 (p : Poly fkey) : res (Poly fkey) :=
  let! poln := gpoly (fun k => moment_v (nthZ (snd (snd k)) 2)) (v_key 1 0 (fun x i j =>
    [nthZ x 0; nthZ x 1; nthZ x 3 + i; nthZ x 4 + 2 * j; nthZ x 5; nthZ x 6; nthZ x 7])) [] p in
  gpoly (fun k => moment_v (nthZ (snd (snd k)) 4)) (v_key 0 1 (fun x i j =>
    [nthZ x 0; nthZ x 1; nthZ x 2; nthZ x 3; nthZ x 5 + i; nthZ x 6 + 2 * j])) kf2_8 poln.

(** mdl_2fsv/mom.py:150-176 moment_y *)
Definition moment_y2 (l : Z) : res (Poly fkey) :=
  let! poly := nest 7 l [] (fun poly ns =>
    let! q := on8 (moment_comb2 l) ns in merge poly q) (mkPoly [] kf2_10) in
  let! s := sub_v2 poly in
  Ok (remove_zero s).

(** ** mdl_2fsv/cov.py *)
Definition kf2_eIv : list string :=
  ["e^{-k1*nh}eI_{1,n}"; "e^{-k2*nh}eI_{2,n}";
   "(n_1m*k1+n_2m*k2)^{-i_m},...,(n_11*k1+n_21*k2)^{-i_1}"; "e^{-(n1*k1+n2*k2)h}"; "h";
   "v_{1,n-1}"; "theta1"; "sigma_v1"; "v_{2,n-1}"; "theta2"; "sigma_v2"]%string.

(** mdl_2fsv/cov.py:19-89 vvee_IEI_IEII_vnvn; a key (x1, x2, t0, t1, h, ...) of Python is
    represented as (t0, (t1, [x1; x2; h; ...])).  [poln] there has no keyfor. *)
Definition vvee_vn (n2 n3 n4 n5 n6 n7 n8 : Z) : res (Poly fkey) :=
  let! poly := vvee n2 n3 n4 n5 n6 n7 n8 in
  let! poln := gpoly (fun k => exp_vn (nthZ (snd (snd k)) 1)) (fun (k : fkey) k1 =>
    let '(d, ((a, b), x)) := k in
    Ok (d, ((a + nthZ k1 1, b),
            [nthZ k1 0; 0; nthZ x 0; 0 + nthZ k1 2; nthZ x 2 + nthZ k1 3; nthZ x 3 + nthZ k1 4;
             nthZ x 4; nthZ x 5; nthZ x 6]))) [] poly in
  gpoly (fun k => exp_vn (nthZ (snd (snd k)) 6)) (fun (k : fkey) k1 =>
    let '(d, ((a, b), x)) := k in
    Ok (d, ((a, b + nthZ k1 1),
            [nthZ x 0; nthZ k1 0; nthZ x 2; nthZ x 3; nthZ x 4; nthZ x 5;
             0 + nthZ k1 2; nthZ x 7 + nthZ k1 3; nthZ x 8 + nthZ k1 4]))) kf2_eIv poln.

(** [t0 = k1[.]; for t in k2[0]: t0 = t_mul_t0(t, t0); t1 = componentwise sum; key = (t0, t1, ...)] *)
Definition p_key (mk : list Z -> list Z -> list Z) (k1 k2 : fkey) : res fkey :=
  let '(d1, ((a1, b1), x1)) := k1 in
  let '(d2, ((a2, b2), x2)) := k2 in
  let! t0 := tt_mul d1 d2 in
  Ok (t0, ((a1 + a2, b1 + b2), mk x1 x2)).

(** the last product in moment_inner_comb and moment_outer_comb: cov.py:154-170, 218-234 *)
Definition b10_key : fkey -> list Z -> res fkey := b_key (fun x k2 =>
  [nthZ x 0 + nthZ k2 8; nthZ x 1 + nthZ k2 9; nthZ x 2; nthZ x 3 + nthZ k2 2; nthZ x 4 + nthZ k2 3;
   nthZ x 5; nthZ x 6 + nthZ k2 6; nthZ x 7 + nthZ k2 7]).

(** mdl_2fsv/cov.py:92-173 moment_inner_comb *)
Definition moment_inner_comb2 (poly_eIv : Poly fkey) (l1 m1 m2 m3 m4 m5 m6 m7 m8 : Z) : res (Poly fkey) :=
  let! poly := gpoly (fun k1 => let x := snd (snd k1) in
      vvee (m2 + nthZ x 3) (m3 + nthZ x 6) (m4 + nthZ x 0) m5 (m6 + nthZ x 1) m7 m8)
    (p_key (fun x1 x2 =>
      [nthZ x2 0 + nthZ x1 2; 0; nthZ x2 1; nthZ x2 2 + nthZ x1 4; nthZ x2 3 + nthZ x1 5;
       nthZ x2 4; nthZ x2 5 + nthZ x1 7; nthZ x2 6 + nthZ x1 8])) kf2_10 poly_eIv in
  let! b := b2_n m1 m2 m3 m4 m5 m6 m7 in
  let! poln := gpoly (fun _ => Ok b) b10_key kf2_10 poly in
  let! c := comb l1 [m1; m2; m3; m4; m5; m6; m7; m8] in
  Ok (rmul (qz c) poln).

(** mdl_2fsv/cov.py:176-237 moment_outer_comb *)
Definition moment_outer_comb2 (l1 l2 n1 n2 n3 n4 n5 n6 n7 n8 : Z) : res (Poly fkey) :=
  let! poly_eIv := vvee_vn n2 n3 n4 n5 n6 n7 n8 in
  let! poly := nest 7 l1 [] (fun poly ms =>
    let! q := on8 (moment_inner_comb2 poly_eIv l1) ms in merge poly q) (mkPoly [] kf2_10) in
  let! b := b2_n n1 n2 n3 n4 n5 n6 n7 in
  let! poln := gpoly (fun _ => Ok b) b10_key kf2_10 poly in
  let! c := comb l2 [n1; n2; n3; n4; n5; n6; n7; n8] in
  Ok (rmul (qz c) poln).

(** mdl_2fsv/cov.py:240-268 moment_yy *)
Definition moment_yy2 (l1 l2 : Z) : res (Poly fkey) :=
  let! poly := nest 7 l2 [] (fun poly ns =>
    let! q := on8 (moment_outer_comb2 l1 l2) ns in merge poly q) (mkPoly [] kf2_10) in
  let! s := sub_v2 poly in
  Ok (remove_zero s).

(** [tuple(k1[i] + k2[i] for i in range(2, 2+n))] *)
Definition add_n (n : nat) (x1 x2 : list Z) : list Z := map (fun i => nthZ x1 i + nthZ x2 i) (seq 0 n).

(** mdl_2fsv/cov.py:271-301 cov_yy *)
Definition cov_yy2 (l1 l2 : Z) : res (Poly fkey) :=
  let! pol1 := moment_y2 l1 in
  let! pol2 := moment_y2 l2 in
  let! poln := gpoly (fun _ => Ok pol2) (p_key (add_n 6)) kf2_8 pol1 in
  let! m := moment_yy2 l1 l2 in
  let! c := psub m poln in
  Ok (remove_zero c).

(** ** mdl_2fsvj *)
Definition kf2_11 : list string :=
  ["(n_1m*k1+n_2m*k2)^{-i_m},...,(n_11*k1+n_21*k2)^{-i_1}"; "e^{-(n1*k1+n2*k2)h}"; "h"; "mu";
   "theta1"; "sigma_v1"; "theta2"; "sigma_v2"; "lambda"; "mu_j"; "sigma_j"]%string.
Definition kf2_c10 : list string :=
  ["(n_1m*k1+n_2m*k2)^{-i_m},...,(n_11*k1+n_21*k2)^{-i_1}"; "e^{-(n1*k1+n2*k2)h}"; "h";
   "theta1"; "sigma_v1"; "theta2"; "sigma_v2"; "lambda"; "mu_j"; "sigma_j"]%string.

(** [key = (k1[0], k1[1], k1[2] + k2[0], k1[3], ..., k2[0], k2[1], k2[2])] *)
Definition j_key (n : nat) (k1 : fkey) (k2 : list Z) : res fkey :=
  let '(d, (t1, x)) := k1 in
  Ok (d, (t1, nthZ x 0 + nthZ k2 0 :: map (nthZ x) (seq 1 n) ++ [nthZ k2 0; nthZ k2 1; nthZ k2 2])).
(** [val = c * pol1[k1] * pol2[k2]] *)
Definition j_val (c : Z) (v1 v2 : Q) : Q := qmul (qmul (qz c) v1) v2.

(** mdl_2fsvj/mom.py:12-43 moment_y *)
Definition jmoment_y2 (l : Z) : res (Poly fkey) :=
  let! a := foldM (fun a i =>
    let! pol1 := moment_y2 i in
    let! pol2 := mcpp (l - i) in
    let! c := math_comb l i in
    gloop (fun _ => Ok pol2) (j_key 5) (j_val c) (items pol1) a) (range_down l) [] in
  Ok (remove_zero (mkPoly a kf2_11)).

(** mdl_2fsvj/cmom.py:12-41 cmoment_y *)
Definition jcmoment_y2 (l : Z) : res (Poly fkey) :=
  let! a := foldM (fun a i =>
    let! pol1 := cmoment_y2 i in
    let! pol2 := cmcpp (l - i) in
    let! c := math_comb l i in
    gloop (fun _ => Ok pol2) (j_key 4) (j_val c) (items pol1) a) (range_down l) [] in
  Ok (remove_zero (mkPoly a kf2_c10)).

(** mdl_2fsvj/cov.py:17-51 moment_yy *)
Definition jmoment_yy2 (l1 l2 : Z) : res (Poly fkey) :=
  let! a := foldM (fun a i => foldM (fun a j =>
    let! pol1 := moment_yy2 i j in
    let! pol2 := mcpp (l1 - i) in
    let! pol3 := mcpp (l2 - j) in
    let! poln := pmul pol2 pol3 in
    let! c1 := math_comb l1 i in
    let! c2 := math_comb l2 j in
    gloop (fun _ => Ok poln) (j_key 5) (j_val (c1 * c2)) (items pol1) a) (range_down l2) a) (range_down l1) [] in
  Ok (remove_zero (mkPoly a kf2_11)).

(** mdl_2fsvj/cov.py:54-85 cov_yy *)
Definition jcov_yy2 (l1 l2 : Z) : res (Poly fkey) :=
  let! pol1 := jmoment_y2 l1 in
  let! pol2 := jmoment_y2 l2 in
  let! poly := gpoly (fun _ => Ok pol2) (p_key (add_n 9)) kf2_11 pol1 in
  let! m := jmoment_yy2 l1 l2 in
  let! c := psub m poly in
  Ok (remove_zero c).
