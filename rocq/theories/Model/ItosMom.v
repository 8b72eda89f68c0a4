(** Model of src/ajdmom/itos_mom.py (two factors).  A key
      (t0, (a,b), (j1,j2), h, v1, theta1, sigma1, v2, theta2, sigma2)
    is represented as (t0, ((a,b), ((j1,j2), [h; v1; theta1; sigma1; v2; theta2; sigma2]))). *)
From Verif.Model Require Export Cache ItoMom.
Local Open Scope Z_scope.

(** (n1, n2, i) stands for (n1*k1 + n2*k2)^{-i} *)
Notation fac := (Z * Z * Z)%type.
Notation den := (list (Z * Z * Z)).
Notation skey := (list (Z * Z * Z) * ((Z * Z) * ((Z * Z) * list Z)))%type.

(** itos_mom.py:265-281 c *)
Definition c2 (n1 n2 m i : Z) : fac * Z :=
  let prod := fold_left (fun p j => p * j) (range (m - i + 1) (m + 1)) 1 in
  ((n1, n2, i + 1), sgn1 i * prod).

Notation ekey := (Z * Z * Z * ((Z * Z) * Z))%type.
Definition kf_et2 : list string :=
  ["(n1*k1+n2*k2)^{-}"; "e^{(n1*k1+n2*k2)[t-(n-1)h]}"; "[t-(n-1)h]"]%string.

(** itos_mom.py:284-328 int_et: note the tests [n1 + n2 == 0] *)
Definition int_et2 (n1 n2 m : Z) : res (Poly ekey) :=
  if m <? 0 then Err ValueError
  else if (n1 + n2 =? 0) && (m =? 0) then
    Ok (mkPoly (add_kv ((0, 0, 0), ((0, 0), 1)) 1%Q []) kf_et2)
  else if (n1 + n2 =? 0) && negb (m =? 0) then
    Ok (mkPoly (add_kv ((0, 0, 0), ((0, 0), m + 1)) (Frac 1 (m + 1)) []) kf_et2)
  else if negb (n1 + n2 =? 0) && (m =? 0) then
    Ok (mkPoly (add_kv ((n1, n2, 1), ((0, 0), 0)) (-1)%Q
                 (add_kv ((n1, n2, 1), ((n1, n2), 0)) 1%Q [])) kf_et2)
  else
    Ok (mkPoly (fold_left (fun a i =>
          let '(kei, val) := c2 n1 n2 m i in
          let a := add_kv (kei, ((n1, n2), m - i)) (qz val) a in
          if i =? m then add_kv (kei, ((0, 0), 0)) (qz (- val)) a else a)
        (range 1 (m + 1)) (add_kv ((n1, n2, 1), ((n1, n2), m)) 1%Q [])) kf_et2).

(** itos_mom.py:344-350: first component with the same n1, n2 *)
Fixpoint t0_match (n1 n2 i : Z) (t0 : den) : option den :=
  match t0 with
  | [] => None
  | (m1, m2, j) :: r =>
      if (n1 =? m1) && (n2 =? m2) then Some ((n1, n2, i + j) :: r)
      else match t0_match n1 n2 i r with Some r' => Some ((m1, m2, j) :: r') | None => None end
  end.

(** itos_mom.py:331-355 t_mul_t0 *)
Definition t_mul_t0 (t : fac) (t0 : den) : res den :=
  let '(n1, n2, i) := t in
  if i =? 0 then Ok t0
  else match t0_match n1 n2 i t0 with
       | Some r => Ok r
       | None =>
           match t0 with
           | [] => Err IndexError
           | (m1, m2, j) :: r => if negb (j =? 0) then Ok (t :: t0) else Ok (t :: r)
           end
       end.

Definition kf_s : list string :=
  ["(n_1m*k1+n_2m*k2)^{-i_m},...,(n_11*k1+n_21*k2)^{-i_1}";
   "e^{(m_4*k1+m_6*k2)(n-1)h}"; "e^{(j_1*k1+j_2*k2)[t-(n-1)h]}"; "[t-(n-1)h]";
   "v_{1,n-1}"; "theta1"; "sigma_v1"; "v_{2,n-1}"; "theta2"; "sigma_v2"]%string.

Notation idx5 := (Z * Z * Z * Z * Z)%type.
Definition S_cache := list (idx5 * Poly skey).

(** itos_mom.py:358-408 int_mIEI_IEII, after the lookup b = IEI_IEII[...] *)
Definition int_ms (i m : Z) (b : Poly skey) : res (Poly skey) :=
  let! a := foldM (fun a kv1 =>
    let '(d, ((e1, e2), ((m4, m6), x))) := fst kv1 in
    let n1 := if i =? 1 then m4 + m else m4 in
    let n2 := if i =? 1 then m6 else m6 + m in
    let! c := int_et2 n1 n2 (nthZ x 0) in
    foldM (fun a kv2 =>
      let '(t, (t2, t3)) := fst kv2 in
      let! t0 := t_mul_t0 t d in
      let t1 := if i =? 1 then (e1 + m, e2) else (e1, e2 + m) in
      Ok (add_kv (t0, (t1, (t2, t3 :: tl x))) (qmul (snd kv1) (snd kv2)) a)) (items c) a)
    (items b) [] in
  Ok (mkPoly a kf_s).
Definition int_mIEI_IEII (i m : Z) (n : idx5) (C : S_cache) : res (Poly skey) :=
  let! b := cget n C in int_ms i m b.

(** itos_mom.py:434-486: key and coefficient for type tp *)
Definition cp_key (tp : Z) (k : skey) : skey :=
  let '(d, ((e1, e2), (t2, x))) := k in
  if tp =? 1 then (d, ((e1 + 1, e2), (t2, addat 1 1 x)))
  else if tp =? 2 then (d, ((e1 + 1, e2), (t2, addat 2 1 x)))
  else if tp =? 3 then (d, ((e1, e2), (t2, addat 2 1 x)))
  else if tp =? 4 then (d, ((e1, e2), (t2, addat 3 1 x)))
  else if tp =? 5 then (d, ((e1, e2 + 1), (t2, addat 4 1 x)))
  else if tp =? 6 then (d, ((e1, e2 + 1), (t2, addat 5 1 x)))
  else if tp =? 7 then (d, ((e1, e2), (t2, addat 5 1 x)))
  else (d, ((e1, e2), (t2, addat 6 1 x))).
Definition cp_val (tp : Z) (coef v : Q) : Q :=
  qmul (if (tp =? 2) || (tp =? 6) then qopp coef else coef) v.

(** itos_mom.py:411-487 coef_poly (for tp outside 1..8 the result is empty; it is always
    called with 1 <= tp <= 8) *)
Definition coef_poly (coef : Q) (p : Poly skey) (tp : Z) : Poly skey :=
  if (1 <=? tp) && (tp <=? 8) then
    mkPoly (fold_left (fun a kv => add_kv (cp_key tp (fst kv)) (cp_val tp coef (snd kv)) a)
              (items p) []) kf_s
  else mkPoly [] kf_s.

(** [poly.merge(coef_poly(c, int_mIEI_IEII(i, m, *n, IEI_IEII), tp))] *)
Definition merge_s (C : S_cache) (c : Q) (poly : Poly skey) (i m : Z) (n : idx5) (tp : Z)
  : res (Poly skey) :=
  let! q := int_mIEI_IEII i m n C in
  merge poly (coef_poly c q tp).

(** the four merges of one branch for factor i: types 1,2,3,4 (i = 1) or 5,6,7,8 (i = 2) *)
Definition branch_s (C : S_cache) (c : Q) (poly : Poly skey) (i m1 m3 : Z) (n n' : idx5)
  : res (Poly skey) :=
  let o := if i =? 1 then 0 else 4 in
  let! p := merge_s C c poly i m1 n (o + 1) in
  let! p := merge_s C c p i m1 n (o + 2) in
  let! p := merge_s C c p i m3 n (o + 3) in
  merge_s C c p i m1 n' (o + 4).

(** itos_mom.py:490-561 recursive_IEI_IEII (an if/elif chain: only the first branch runs) *)
Definition recursive_s (n4 n5 n6 n7 n8 : Z) (C : S_cache) : res (Poly skey) :=
  let poly := mkPoly [] kf_s in
  if (2 <=? n4) && (0 <=? n5) && (0 <=? n6) && (0 <=? n7) && (0 <=? n8) then
    branch_s C (Frac (n4 * (n4 - 1)) 2) poly 1 1 2 (n4 - 2, n5, n6, n7, n8) (n4 - 1, n5, n6, n7, n8)
  else if (0 <=? n4) && (2 <=? n5) && (0 <=? n6) && (0 <=? n7) && (0 <=? n8) then
    branch_s C (Frac (n5 * (n5 - 1)) 2) poly 1 (-1) 0 (n4, n5 - 2, n6, n7, n8) (n4 + 1, n5 - 2, n6, n7, n8)
  else if (1 <=? n4) && (1 <=? n5) && (0 <=? n6) && (0 <=? n7) && (0 <=? n8) then
    branch_s C (qz (n4 * n5)) poly 1 0 1 (n4 - 1, n5 - 1, n6, n7, n8) (n4, n5 - 1, n6, n7, n8)
  else if (0 <=? n4) && (0 <=? n5) && (2 <=? n6) && (0 <=? n7) && (0 <=? n8) then
    branch_s C (Frac (n6 * (n6 - 1)) 2) poly 2 1 2 (n4, n5, n6 - 2, n7, n8) (n4, n5, n6 - 1, n7, n8)
  else if (0 <=? n4) && (0 <=? n5) && (0 <=? n6) && (2 <=? n7) && (0 <=? n8) then
    branch_s C (Frac (n7 * (n7 - 1)) 2) poly 2 (-1) 0 (n4, n5, n6, n7 - 2, n8) (n4, n5, n6 + 1, n7 - 2, n8)
  else if (0 <=? n4) && (0 <=? n5) && (1 <=? n6) && (1 <=? n7) && (0 <=? n8) then
    branch_s C (qz (n6 * n7)) poly 2 0 1 (n4, n5, n6 - 1, n7 - 1, n8) (n4, n5, n6, n7 - 1, n8)
  else if (0 <=? n4) && (0 <=? n5) && (0 <=? n6) && (0 <=? n7) && (2 <=? n8) then
    let c := Frac (n8 * (n8 - 1)) 2 in
    let! p := branch_s C c poly 1 (-1) 0 (n4, n5, n6, n7, n8 - 2) (n4 + 1, n5, n6, n7, n8 - 2) in
    branch_s C c p 2 (-1) 0 (n4, n5, n6, n7, n8 - 2) (n4, n5, n6 + 1, n7, n8 - 2)
  else Ok poly.

(** itos_mom.py:592-681: the initial memo table *)
Definition S_1 : Poly skey := mkPoly [(([(0,0,0)], ((0,0), ((0,0), [0;0;0;0;0;0;0]))), 1%Q)] kf_s.
Definition S_0 : Poly skey := mkPoly [] kf_s.
Definition S_20000 : Poly skey := mkPoly
  [(([(2,0,1)], ((2,0), ((2,0), [0;0;1;0;0;0;0]))), 1%Q);
   (([(1,0,1)], ((2,0), ((1,0), [0;1;0;0;0;0;0]))), 1%Q);
   (([(1,0,1)], ((2,0), ((1,0), [0;0;1;0;0;0;0]))), (-1)%Q);
   (([(1,0,1)], ((2,0), ((0,0), [0;1;0;0;0;0;0]))), (-1)%Q);
   (([(2,0,1)], ((2,0), ((0,0), [0;0;1;0;0;0;0]))), 1%Q)] kf_s.
Definition S_11000 : Poly skey := mkPoly
  [(([(1,0,1)], ((1,0), ((1,0), [0;0;1;0;0;0;0]))), 1%Q);
   (([(0,0,0)], ((1,0), ((0,0), [1;1;0;0;0;0;0]))), 1%Q);
   (([(0,0,0)], ((1,0), ((0,0), [1;0;1;0;0;0;0]))), (-1)%Q);
   (([(1,0,1)], ((1,0), ((0,0), [0;0;1;0;0;0;0]))), (-1)%Q)] kf_s.
Definition S_02000 : Poly skey := mkPoly
  [(([(1,0,1)], ((0,0), ((-1,0), [0;1;0;0;0;0;0]))), (-1)%Q);
   (([(1,0,1)], ((0,0), ((-1,0), [0;0;1;0;0;0;0]))), 1%Q);
   (([(0,0,0)], ((0,0), ((0,0), [1;0;1;0;0;0;0]))), 1%Q);
   (([(1,0,1)], ((0,0), ((0,0), [0;1;0;0;0;0;0]))), 1%Q);
   (([(1,0,1)], ((0,0), ((0,0), [0;0;1;0;0;0;0]))), (-1)%Q)] kf_s.
Definition S_00200 : Poly skey := mkPoly
  [(([(0,2,1)], ((0,2), ((0,2), [0;0;0;0;0;1;0]))), 1%Q);
   (([(0,1,1)], ((0,2), ((0,1), [0;0;0;0;1;0;0]))), 1%Q);
   (([(0,1,1)], ((0,2), ((0,1), [0;0;0;0;0;1;0]))), (-1)%Q);
   (([(0,1,1)], ((0,2), ((0,0), [0;0;0;0;1;0;0]))), (-1)%Q);
   (([(0,2,1)], ((0,2), ((0,0), [0;0;0;0;0;1;0]))), 1%Q)] kf_s.
Definition S_00110 : Poly skey := mkPoly
  [(([(0,1,1)], ((0,1), ((0,1), [0;0;0;0;0;1;0]))), 1%Q);
   (([(0,0,0)], ((0,1), ((0,0), [1;0;0;0;1;0;0]))), 1%Q);
   (([(0,0,0)], ((0,1), ((0,0), [1;0;0;0;0;1;0]))), (-1)%Q);
   (([(0,1,1)], ((0,1), ((0,0), [0;0;0;0;0;1;0]))), (-1)%Q)] kf_s.
Definition S_00020 : Poly skey := mkPoly
  [(([(0,1,1)], ((0,0), ((0,-1), [0;0;0;0;1;0;0]))), (-1)%Q);
   (([(0,1,1)], ((0,0), ((0,-1), [0;0;0;0;0;1;0]))), 1%Q);
   (([(0,0,0)], ((0,0), ((0,0), [1;0;0;0;0;1;0]))), 1%Q);
   (([(0,1,1)], ((0,0), ((0,0), [0;0;0;0;1;0;0]))), 1%Q);
   (([(0,1,1)], ((0,0), ((0,0), [0;0;0;0;0;1;0]))), (-1)%Q)] kf_s.

(** itos_mom.py:588-683; the last entry merges copies of two earlier ones *)
Definition S_init : res S_cache :=
  let! p := merge S_02000 S_00020 in
  Ok [((0,0,0,0,0), S_1);
      ((1,0,0,0,0), S_0); ((0,1,0,0,0), S_0); ((0,0,1,0,0), S_0); ((0,0,0,1,0), S_0); ((0,0,0,0,1), S_0);
      ((2,0,0,0,0), S_20000); ((1,1,0,0,0), S_11000); ((0,2,0,0,0), S_02000);
      ((1,0,1,0,0), S_0); ((1,0,0,1,0), S_0); ((1,0,0,0,1), S_0);
      ((0,1,1,0,0), S_0); ((0,1,0,1,0), S_0); ((0,1,0,0,1), S_0);
      ((0,0,2,0,0), S_00200); ((0,0,1,1,0), S_00110); ((0,0,0,2,0), S_00020);
      ((0,0,1,0,1), S_0); ((0,0,0,1,1), S_0);
      ((0,0,0,0,2), p)].

(** itos_mom.py:687-697: one round n of the loop over the orders *)
Definition S_round (C : S_cache) (n : Z) : res S_cache :=
  foldM (fun C i4 => foldM (fun C i5 => foldM (fun C i6 => foldM (fun C i7 =>
    let i8 := n - i4 - i5 - i6 - i7 in
    let! poly := recursive_s i4 i5 i6 i7 i8 C in
    Ok (cset (i4, i5, i6, i7, i8) (remove_zero poly) C))
    (range_down (n - i4 - i5 - i6)) C) (range_down (n - i4 - i5)) C)
    (range_down (n - i4)) C) (range_down n) C.

(** itos_mom.py:564-702 moment_IEI_IEII; the f-string of the guard at 585-586 names the
    unbound variable n_4 *)
Definition moment_IEI_IEII (n4 n5 n6 n7 n8 : Z) : res (Poly skey) :=
  let n := n4 + n5 + n6 + n7 + n8 in
  if n <? 0 then Err NameError
  else
    let! C := S_init in
    if n <=? 2 then cget (n4, n5, n6, n7, n8) C
    else
      let! C := if 3 <? n then foldM S_round (range 3 n) C else Ok C in
      let! poly := recursive_s n4 n5 n6 n7 n8 C in
      Ok (remove_zero poly).
