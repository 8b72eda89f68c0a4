(** Model of src/ajdmom/ito_mom.py. *)
From Verif.Model Require Export Cache.
Local Open Scope Z_scope.

(** ito_mom.py:197-211 c_nmi (called with n <> 0 and 0 <= i) *)
Definition c_nmi (n m i : Z) : Q :=
  let prod := fold_left (fun p j => p * j) (range (m - i + 1) (m + 1)) 1 in
  let den := n ^ (i + 1) in
  qmul (qz (sgn1 i)) (Frac prod den).

Definition kf_et : list string := ["e^{k[t-(n-1)h]}"; "[t-(n-1)h]"; "k^{-}"]%string.

(** ito_mom.py:214-242 int_et *)
Definition int_et (n m : Z) : res (Poly (list Z)) :=
  if m <? 0 then Err ValueError
  else if n =? 0 then Ok (mkPoly (set_kv [0; m + 1; 0] (Frac 1 (m + 1)) []) kf_et)
  else if m =? 0 then
    Ok (mkPoly (set_kv [0; 0; 1] (qopp (Frac 1 n)) (set_kv [n; 0; 1] (Frac 1 n) [])) kf_et)
  else
    Ok (mkPoly (fold_left (fun a i =>
          let c := c_nmi n m i in
          let a := set_kv [n; m - i; i + 1] c a in
          if i =? m then set_kv [0; 0; i + 1] (qopp c) a else a)
        (range 1 (m + 1)) (set_kv [n; m; 1] (Frac 1 n) [])) kf_et).

(** ito_mom.py:281-298: key and value of one produced term *)
Definition iep_key (tp m : Z) (k1 k2 : list Z) : list Z :=
  let key := [nthZ k1 0 + m; nthZ k2 0; nthZ k2 1; nthZ k1 3; nthZ k1 4 + nthZ k2 2;
              nthZ k1 5; nthZ k1 6] in
  if tp =? 1 then addat 3 1 (addat 0 1 key)
  else if tp =? 2 then addat 5 1 (addat 0 1 key)
  else if tp =? 3 then addat 5 1 key
  else addat 6 1 key.
Definition iep_val (tp : Z) (c v1 v2 : Q) : Q :=
  let val := qmul (qmul c v1) v2 in if tp =? 2 then qopp val else val.

(** ito_mom.py:245-300 int_e_poly *)
Definition int_e_poly (c : Q) (tp m : Z) (p : Poly (list Z)) : res (Poly (list Z)) :=
  let! a := foldM (fun a kv1 =>
    let k1 := fst kv1 in
    let! sub := int_et (m + nthZ k1 1) (nthZ k1 2) in
    Ok (fold_left (fun a kv2 =>
          add_kv (iep_key tp m k1 (fst kv2)) (iep_val tp c (snd kv1) (snd kv2)) a)
        (items sub) a)) (items p) [] in
  Ok (mkPoly a (keyfor p)).

Definition kf_IEII : list string :=
  ["e^{k(n-1)h}"; "e^{k[t-(n-1)h]}"; "[t-(n-1)h]"; "v_{n-1}"; "k^{-}"; "theta"; "sigma_v"]%string.

Notation idx3 := (Z * Z * Z)%type.
Definition IEII_cache := list (idx3 * Poly (list Z)).

(** [poly.merge(int_e_poly(c, tp, m, IEII[idx]))] *)
Definition merge_int (C : IEII_cache) (c : Q) (poly : Poly (list Z)) (tp m : Z) (idx : idx3)
  : res (Poly (list Z)) :=
  let! q := cget idx C in
  let! r := int_e_poly c tp m q in
  merge poly r.

(** the four merges of one branch: m is 1+e, 1+e, 2+e, 1+e; the last term reads [idx2] *)
Definition branch (C : IEII_cache) (c : Q) (poly : Poly (list Z)) (m1 m3 : Z) (idx idx2 : idx3)
  : res (Poly (list Z)) :=
  let! p := merge_int C c poly 1 m1 idx in
  let! p := merge_int C c p 2 m1 idx in
  let! p := merge_int C c p 3 m3 idx in
  merge_int C c p 4 m1 idx2.

(** ito_mom.py:303-347 recursive_IEII *)
Definition recursive_IEII (n3 n4 n5 : Z) (C : IEII_cache) : res (Poly (list Z)) :=
  let poly := mkPoly [] kf_IEII in
  let! poly := if (2 <=? n3) && (0 <=? n4) && (0 <=? n5)
    then branch C (Frac (n3 * (n3 - 1)) 2) poly 1 2 (n3 - 2, n4, n5) (n3 - 1, n4, n5)
    else Ok poly in
  let! poly := if (0 <=? n3) && (2 <=? n4) && (0 <=? n5)
    then branch C (Frac (n4 * (n4 - 1)) 2) poly (-1) 0 (n3, n4 - 2, n5) (n3 + 1, n4 - 2, n5)
    else Ok poly in
  let! poly := if (1 <=? n3) && (1 <=? n4) && (0 <=? n5)
    then branch C (Frac (n3 * n4) 1) poly 0 1 (n3 - 1, n4 - 1, n5) (n3, n4 - 1, n5)
    else Ok poly in
  if (0 <=? n3) && (0 <=? n4) && (2 <=? n5)
    then branch C (Frac (n5 * (n5 - 1)) 2) poly (-1) 0 (n3, n4, n5 - 2) (n3 + 1, n4, n5 - 2)
    else Ok poly.

(** ito_mom.py:377-408.  P0 and P1 have 8-component keys, as in the code. *)
Definition P0 : Poly (list Z) := mkPoly [([0;0;0;0;0;0;0;0], 0%Q)] kf_IEII.
Definition P1 : Poly (list Z) := mkPoly [([0;0;0;0;0;0;0;0], 1%Q)] kf_IEII.
Definition P200 : Poly (list Z) := mkPoly
  [([2;2;0;0;1;1;0], Frac 1 2); ([2;1;0;1;1;0;0], Frac 1 1); ([2;1;0;0;1;1;0], Frac (-1) 1);
   ([2;0;0;1;1;0;0], Frac (-1) 1); ([2;0;0;0;1;1;0], Frac 1 2)] kf_IEII.
Definition P110 : Poly (list Z) := mkPoly
  [([1;1;0;0;1;1;0], Frac 1 1); ([1;0;1;1;0;0;0], Frac 1 1); ([1;0;1;0;0;1;0], Frac (-1) 1);
   ([1;0;0;0;1;1;0], Frac (-1) 1)] kf_IEII.
Definition P020 : Poly (list Z) := mkPoly
  [([0;-1;0;1;1;0;0], Frac (-1) 1); ([0;-1;0;0;1;1;0], Frac 1 1); ([0;0;1;0;0;1;0], Frac 1 1);
   ([0;0;0;1;1;0;0], Frac 1 1); ([0;0;0;0;1;1;0], Frac (-1) 1)] kf_IEII.

(** ito_mom.py:382-416: the initial memo table *)
Definition IEII_init : IEII_cache :=
  [((0,0,0), P1); ((1,0,0), P0); ((0,1,0), P0); ((0,0,1), P0);
   ((2,0,0), P200); ((1,1,0), P110); ((1,0,1), P0); ((0,2,0), P020);
   ((0,1,1), P0); ((0,0,2), P020)].

Definition ord3 (i : idx3) : Z := fst (fst i) + snd (fst i) + snd i.

(** ito_mom.py:426-436: one round n of the loop over the orders *)
Definition IEII_round (C : IEII_cache) (n : Z) : res IEII_cache :=
  let! C := foldM (fun C i =>
    foldM (fun C j =>
      let! poly := recursive_IEII i j (n - i - j) C in
      Ok (cset (i, j, n - i - j) (remove_zero poly) C)) (range_down (n - i)) C)
    (range_down n) C in
  Ok (cdel (fun key => ord3 key =? n - 2) C).

(** ito_mom.py:350-443 moment_IEII *)
Definition moment_IEII (n3 n4 n5 : Z) : res (Poly (list Z)) :=
  if n3 + n4 + n5 <? 0 then Err ValueError
  else if n3 + n4 + n5 <=? 2 then cget (n3, n4, n5) IEII_init
  else
    let! C := if 3 <? n3 + n4 + n5
              then foldM IEII_round (range 3 (n3 + n4 + n5)) IEII_init
              else Ok IEII_init in
    let! poly := recursive_IEII n3 n4 n5 C in
    Ok (remove_zero poly).

Definition kf_v : list string := ["theta"; "sigma_v^2/k"]%string.

(** ito_mom.py:466-473: from the (i-1)-th to the i-th moment *)
Definition moment_v_step (p : Poly (list Z)) (i : Z) : Poly (list Z) :=
  mkPoly (fold_left (fun a kv =>
    let k := fst kv in
    add_kv [nthZ k 0; nthZ k 1 + 1] (qmul (snd kv) (Frac (i - 1) 2))
      (add_kv [nthZ k 0 + 1; nthZ k 1] (snd kv) a)) (items p) []) kf_v.

(** ito_mom.py:446-475 moment_v; [poln] is unbound if the loop body never ran *)
Definition moment_v (n : Z) : res (Poly (list Z)) :=
  if n =? 0 then Ok (mkPoly [([0; 0], 1%Q)] kf_v)
  else if n =? 1 then Ok (mkPoly [([1; 0], 1%Q)] kf_v)
  else if n <? 2 then Err UnboundLocalError
  else Ok (fold_left moment_v_step (range 2 (n + 1)) (mkPoly [([1; 0], 1%Q)] kf_v)).
