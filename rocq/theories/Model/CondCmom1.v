(** Model of src/ajdmom/mdl_1fsv/cond_cmom.py. *)
From Coq Require Import Reals Qreals.
From Verif.Model Require Export Dpoly.
Local Open Scope Z_scope.

(** cond_cmom.py:76-86: key and value of one produced term *)
Definition c1_key (tp : Z) (k1 k2 : list Z) : list Z :=
  let key := [nthZ k2 0; nthZ k2 1; nthZ k2 2 + nthZ k1 2; nthZ k1 3; nthZ k1 4; nthZ k1 5] in
  if tp =? 1 then addat 3 1 key else if tp =? 2 then addat 4 1 key else addat 5 1 key.

(** cond_cmom.py:51-88 int_mIEII *)
Definition c1_int (c : Q) (tp m : Z) (p : Poly (list Z)) : res (Poly (list Z)) :=
  let! a := foldM (fun a kv1 =>
    let k1 := fst kv1 in
    let! sub := int_et (m + nthZ k1 0) (nthZ k1 1) in
    Ok (fold_left (fun a kv2 =>
          add_kv (c1_key tp k1 (fst kv2)) (qmul (qmul c (snd kv1)) (snd kv2)) a)
        (items sub) a)) (items p) [] in
  Ok (mkPoly a (keyfor p)).

Definition kf_c1 : list string := ["e^{kt}"; "t"; "k^{-}"; "v_0-theta"; "theta"; "sigma"]%string.

(** [poly.merge(int_mIEII(c, tp, m, IEII[idx]))] *)
Definition c1_merge (C : IEII_cache) (c : Q) (poly : Poly (list Z)) (tp m : Z) (idx : idx3)
  : res (Poly (list Z)) :=
  let! q := cget idx C in
  let! r := c1_int c tp m q in
  merge poly r.

(** the three merges of one branch *)
Definition c1_branch (C : IEII_cache) (c : Q) (poly : Poly (list Z)) (m1 m2 m3 : Z) (idx idx3 : idx3)
  : res (Poly (list Z)) :=
  let! p := c1_merge C c poly 1 m1 idx in
  let! p := c1_merge C c p 2 m2 idx in
  c1_merge C c p 3 m3 idx3.

(** cond_cmom.py:91-129 recursive_IEII *)
Definition c1_recursive (n3 n4 n5 : Z) (C : IEII_cache) : res (Poly (list Z)) :=
  let poly := mkPoly [] kf_c1 in
  let! poly := if (2 <=? n3) && (0 <=? n4) && (0 <=? n5)
    then c1_branch C (Frac (n3 * (n3 - 1)) 2) poly 1 2 1 (n3 - 2, n4, n5) (n3 - 1, n4, n5)
    else Ok poly in
  let! poly := if (0 <=? n3) && (2 <=? n4) && (0 <=? n5)
    then c1_branch C (Frac (n4 * (n4 - 1)) 2) poly (-1) 0 (-1) (n3, n4 - 2, n5) (n3 + 1, n4 - 2, n5)
    else Ok poly in
  let! poly := if (1 <=? n3) && (1 <=? n4) && (0 <=? n5)
    then c1_branch C (Frac (n3 * n4) 1) poly 0 1 0 (n3 - 1, n4 - 1, n5) (n3, n4 - 1, n5)
    else Ok poly in
  if (0 <=? n3) && (0 <=? n4) && (2 <=? n5)
    then c1_branch C (Frac (n5 * (n5 - 1)) 2) poly (-1) 0 (-1) (n3, n4, n5 - 2) (n3 + 1, n4, n5 - 2)
    else Ok poly.

(** cond_cmom.py:202-235: the initial memo table *)
Definition c1_P1 : Poly (list Z) := mkPoly [([0;0;0;0;0;0], Frac 1 1)] kf_c1.
Definition c1_P0 : Poly (list Z) := mkPoly [([0;0;0;0;0;0], Frac 0 1)] kf_c1.
Definition c1_P200 : Poly (list Z) := mkPoly
  [([1;0;1;1;0;0], Frac 1 1); ([0;0;1;1;0;0], qopp (Frac 1 1));
   ([2;0;1;0;1;0], Frac 1 2); ([0;0;1;0;1;0], qopp (Frac 1 2))] kf_c1.
Definition c1_P110 : Poly (list Z) := mkPoly
  [([0;1;0;1;0;0], Frac 1 1); ([1;0;1;0;1;0], Frac 1 1); ([0;0;1;0;1;0], qopp (Frac 1 1))] kf_c1.
Definition c1_P020 : Poly (list Z) := mkPoly
  [([-1;0;1;1;0;0], qopp (Frac 1 1)); ([0;0;1;1;0;0], Frac 1 1); ([0;1;0;0;1;0], Frac 1 1)] kf_c1.
Definition c1_init : IEII_cache :=
  [((0,0,0), c1_P1); ((1,0,0), c1_P0); ((0,1,0), c1_P0); ((0,0,1), c1_P0);
   ((2,0,0), c1_P200); ((1,1,0), c1_P110); ((1,0,1), c1_P0); ((0,2,0), c1_P020);
   ((0,1,1), c1_P0); ((0,0,2), c1_P020)].

(** cond_cmom.py:236 *)
Definition kf_c9 : list string := kf_c1 ++ ["sigma/2k"; "rho-sigma/2k"; "sqrt(1-rho^2)"]%string.

(** cond_cmom.py:258-279: one combination (i, j, n-i-j); the state is the table and the
    polynomial under construction *)
Definition c1_cell (l n i j : Z) (st : IEII_cache * list (list Z * Q)) : res (IEII_cache * list (list Z * Q)) :=
  let '(C, a) := st in
  let! c := comb n [i; j; n - i - j] in
  let! poln := if n <? 3 then cget (i, j, n - i - j) C else c1_recursive i j (n - i - j) C in
  let a := fold_left (fun a kv =>
      let k := fst kv in
      add_kv ((nthZ k 0 - i) :: tl k ++ [i; j; n - i - j]) (qmul (qz c) (snd kv)) a) (items poln) a in
  Ok (if (3 <=? n) && (n <? l) then cset (i, j, n - i - j) poln C else C, a).

(** cond_cmom.py:254-288: the round of order n.  After [del IEII] (n == l, the last round)
    the table is never read again; the model empties it. *)
Definition c1_round (l : Z) (st : IEII_cache * list (Poly (list Z))) (n : Z)
  : res (IEII_cache * list (Poly (list Z))) :=
  let '(C, cmoms) := st in
  let! st := foldM (fun st i =>
    foldM (fun st j => c1_cell l n i j st) (range_down (n - i)) st) (range_down n) (C, []) in
  let '(C, a) := st in
  let C := if n =? l then [] else cdel (fun key => ord3 key =? n - 2) C in
  Ok (C, cmoms ++ [remove_zero (mkPoly a kf_c9)]).

(** cond_cmom.py:188-290 cmoments_y_to *)
Definition cmoments_y_to (l : Z) : res (list (Poly (list Z))) :=
  let P1 := mkPoly [([0;0;0;0;0;0;0;0;0], Frac 1 1)] kf_c9 in
  let P0 := mkPoly [([0;0;0;0;0;0;0;0;0], Frac 0 1)] kf_c9 in
  let! st := foldM (c1_round l) (range 2 (l + 1)) (c1_init, [P1; P0]) in
  Ok (snd st).

(** cond_cmom.py:159, 175: attribute names after simplification *)
Definition kf_s8 : list string :=
  ["e^{-kt}"; "t"; "k^{-}"; "v_0-theta"; "theta"; "sigma"; "rho"; "sqrt(1-rho^2)"]%string.
Definition kf_s7v : list string := ["e^{-kt}"; "t"; "k^{-}"; "v_0"; "theta"; "sigma"; "rho"]%string.

(** cond_cmom.py:153-156: e^{kt} to e^{-kt} *)
Definition c1_simplify1 (p : Poly (list Z)) : Poly (list Z) :=
  mkPoly (fold_left (fun a kv => add_kv (- nthZ (fst kv) 0 :: tl (fst kv)) (snd kv) a) (items p) [])
    ("e^{-kt}"%string :: tl (keyfor p)).

(** cond_cmom.py:158-168: expand rho - sigma/2k.  2 ** p is an int for p >= 0
    (a negative k[6] would give Fraction(1, float), a TypeError; not modelled). *)
Definition c1_expand (p : Poly (list Z)) : Poly (list Z) :=
  remove_zero (mkPoly (fold_left (fun a kv =>
    let k := fst kv in
    fold_left (fun a i =>
      let p := nthZ k 6 + i in
      add_kv [- nthZ k 0; nthZ k 1; nthZ k 2 + p; nthZ k 3; nthZ k 4; nthZ k 5 + p; nthZ k 7 - i; nthZ k 8]
        (qmul (qmul (qmul (qz (mcomb (nthZ k 7) i)) (qz (sgn1 i))) (Frac 1 (2 ^ p))) (snd kv)) a)
      (range 0 (nthZ k 7 + 1)) a) (items p) []) kf_s8).

(** cond_cmom.py:171-184: expand v_0 - theta *)
Definition c1_expand_v (p : Poly (list Z)) : Poly (list Z) :=
  mkPoly (fold_left (fun a kv =>
    let k := fst kv in
    fold_left (fun a i =>
      add_kv [nthZ k 0; nthZ k 1; nthZ k 2; nthZ k 3 - i; nthZ k 4 + i; nthZ k 5; nthZ k 6]
        (qmul (qmul (snd kv) (qz (mcomb (nthZ k 3) i))) (qz (sgn1 i))) a)
      (range 0 (nthZ k 3 + 1)) a) (items p) []) kf_s7v.

(** cond_cmom.py:132-185 simplify *)
Definition c1_simplify (p : Poly (list Z)) (tp : Z) : res (Poly (list Z)) :=
  if tp =? 1 then Ok (c1_simplify1 p)
  else if tp =? 2 then simplify_rho (c1_expand p) 7
  else if tp =? 3 then let! q := simplify_rho (c1_expand p) 7 in Ok (c1_expand_v q)
  else Err BareException.

Local Open Scope R_scope.
(** cond_cmom.py:293-315 poly2num, with real numbers for floats *)
Definition poly2num_c1 (p : Poly (list Z)) (par : string -> R) : R :=
  let v0 := par "v0"%string in let k := par "k"%string in let h := par "h"%string in
  let theta := par "theta"%string in let sigma := par "sigma_v"%string in let rho := par "rho"%string in
  fold_left (fun value kv =>
    let K := fst kv in
    let val := Q2R (snd kv) * exp (- pint K 0 * k * h) * powerRZ h (nthZ K 1) * powerRZ k (- nthZ K 2) in
    let val := val * (powerRZ (v0 - theta) (nthZ K 3) * powerRZ theta (nthZ K 4) * powerRZ sigma (nthZ K 5)) in
    let val := val * powerRZ rho (nthZ K 6) in
    value + val) (items p) 0.

(** cond_cmom.py:317-330 cond_cm.  The list is never empty, so [cmoments[-1]] exists. *)
Definition cond_cm (l : Z) (par : string -> R) : res R :=
  let! cmoments := cmoments_y_to l in
  match last (map Some cmoments) None with
  | Some cmoment => let! q := c1_simplify cmoment 2 in Ok (poly2num_c1 q par)
  | None => Err IndexError
  end.
