(** Model of src/ajdmom/ito_cond_mom.py.  A key is a pair: the six ints, and the four
    int tuples (l, o, p, q) = (k[6], k[7], k[8], k[9]). *)
From Verif.Model Require Export ItoMom.

Local Open Scope Z_scope.

Notation jkey := (list Z * (list Z * list Z * list Z * list Z))%type.


Definition kf_fZ : list string :=
  ["e^{kt}"; "t"; "k^{-}"; "e^{k(s_i1 v...v s_in)}"; "(s_i1 v...v s_in)"]%string.

(** ito_cond_mom.py:316-367 int_et_fZ *)
Definition int_et_fZ (n m N_sum : Z) : res (Poly (list Z)) :=
  if m <? 0 then Err ValueError
  else if N_sum =? 0 then
    if n =? 0 then Ok (mkPoly (set_kv [0; m + 1; 0; 0; 0] (Frac 1 (m + 1)) []) kf_fZ)
    else if m =? 0 then
      Ok (mkPoly (set_kv [0; 0; 1; 0; 0] (qopp (Frac 1 n)) (set_kv [n; 0; 1; 0; 0] (Frac 1 n) [])) kf_fZ)
    else
      Ok (mkPoly (fold_left (fun a i =>
            let c := c_nmi n m i in
            let a := set_kv [n; m - i; i + 1; 0; 0] c a in
            if i =? m then set_kv [0; 0; i + 1; 0; 0] (qopp c) a else a)
          (range 1 (m + 1)) (set_kv [n; m; 1; 0; 0] (Frac 1 n) [])) kf_fZ)
  else
    if n =? 0 then
      Ok (mkPoly (set_kv [0; 0; 0; 0; m + 1] (qopp (Frac 1 (m + 1)))
                   (set_kv [0; m + 1; 0; 0; 0] (Frac 1 (m + 1)) [])) kf_fZ)
    else if m =? 0 then
      Ok (mkPoly (set_kv [0; 0; 1; n; 0] (qopp (Frac 1 n)) (set_kv [n; 0; 1; 0; 0] (Frac 1 n) [])) kf_fZ)
    else
      Ok (mkPoly (fold_left (fun a i =>
            let c := c_nmi n m i in
            set_kv [0; 0; i + 1; n; m - i] (qopp c) (set_kv [n; m - i; i + 1; 0; 0] c a))
          (range 1 (m + 1))
          (set_kv [0; 0; 1; n; m] (qopp (Frac 1 n)) (set_kv [n; m; 1; 0; 0] (Frac 1 n) []))) kf_fZ).

(** [x[-1] += d] on a list made from a tuple *)
Definition addlast (d : Z) (l : list Z) : res (list Z) :=
  match l with
  | [] => Err IndexError
  | _ => Ok (addat (pred (length l)) d l)
  end.
(** [(x[0] + d,)] *)
Definition addfst (d : Z) (l : list Z) : res (list Z) :=
  match l with
  | [] => Err IndexError
  | x :: _ => Ok [x + d]
  end.

(** ito_cond_mom.py:397-402 *)
Definition jkey1 (tp : Z) (k kk : list Z) : list Z :=
  let key := [nthZ kk 0; nthZ kk 1; nthZ kk 2 + nthZ k 2; nthZ k 3; nthZ k 4; nthZ k 5] in
  if tp =? 1 then addat 3 1 key else if tp =? 2 then addat 4 1 key else addat 5 1 key.

(** ito_cond_mom.py:404-422 *)
Definition jkey2 (lopq : list Z * list Z * list Z * list Z) (kk : list Z)
  : res (list Z * list Z * list Z * list Z) :=
  let '(l, o, p, q) := lopq in
  if (length l =? 0)%nat then Ok ([], [], [], [])
  else if (length l =? 1)%nat then
    let! k6 := addfst (nthZ kk 3) l in
    let! k7 := addfst (nthZ kk 4) o in
    Ok (k6, k7, [], [])
  else
    let! k8 := addlast (nthZ kk 3) p in
    let! k9 := addlast (nthZ kk 4) q in
    Ok (l, o, k8, k9).

(** ito_cond_mom.py:370-424 int_e_poly *)
Definition jint_e_poly (coef : Q) (tp m : Z) (poly : Poly jkey) : res (Poly jkey) :=
  let! a := foldM (fun a kv =>
    let k := fst (fst kv) in let lopq := snd (fst kv) in
    let! sub := int_et_fZ (m + nthZ k 0) (nthZ k 1) (Z.of_nat (length (fst (fst (fst lopq))))) in
    foldM (fun a kv2 =>
      let! key2 := jkey2 lopq (fst kv2) in
      Ok (add_kv (jkey1 tp k (fst kv2), key2) (qmul (qmul coef (snd kv)) (snd kv2)) a))
      (items sub) a) (items poly) [] in
  Ok (mkPoly a (keyfor poly)).

(** ito_cond_mom.py:444-469: the loop over the terms of int_et_fZ.  k6, k7, k8, k9 are
    rebound in the loop body, so they are part of the state of the loop. *)
Definition iez_state : Type := list Z * list Z * list Z * list Z.
Definition iez_step (st : iez_state) (kk : list Z) : res (iez_state * iez_state) :=
  let '(k6, k7, k8, k9) := st in
  if (length k6 =? 1)%nat then
    let! k6 := addfst (nthZ kk 3) k6 in
    let! k7 := addfst (nthZ kk 4) k7 in
    Ok ((k6, k7, k8, k9), (k6, k7, [], []))
  else
    let! k8 := addlast (nthZ kk 3) k8 in
    let! k9 := addlast (nthZ kk 4) k9 in
    Ok ((k6, k7, k8, k9), (k6, k7, k8, k9)).

(** ito_cond_mom.py:427-470 int_e_IEZ_poly.  k8, k9 are only bound when len(k6) >= 2
    and only read in that case; the model binds them to () otherwise. *)
Definition int_e_IEZ_poly (coef : Q) (m : Z) (poly : Poly jkey) : res (Poly jkey) :=
  let! a := foldM (fun a kv =>
    let k := fst (fst kv) in
    let '(l, o, p, q) := snd (fst kv) in
    let k6 := l ++ [1] in
    let k7 := o ++ [0] in
    let k8 := if (2 <=? length k6)%nat then p ++ [0] else [] in
    let k9 := if (2 <=? length k6)%nat then q ++ [0] else [] in
    let! sub := int_et_fZ (m + nthZ k 0) (nthZ k 1) (Z.of_nat (length k6)) in
    let! r := foldM (fun (s : list (jkey * Q) * iez_state) kv2 =>
      let kk := fst kv2 in
      let! x := iez_step (snd s) kk in
      Ok (add_kv ([nthZ kk 0; nthZ kk 1; nthZ kk 2 + nthZ k 2; nthZ k 3; nthZ k 4; nthZ k 5], snd x)
            (qmul (qmul coef (snd kv)) (snd kv2)) (fst s), fst x))
      (items sub) (a, (k6, k7, k8, k9)) in
    Ok (fst r)) (items poly) [] in
  Ok (mkPoly a (keyfor poly)).

Definition kf_jIEII : list string :=
  ["e^{kt}"; "t"; "k^{-}"; "v0-theta"; "theta"; "sigma"; "l_{1:n}"; "o_{1:n}"; "p_{2:n}"; "q_{2:n}"]%string.

Definition jcache := list (idx3 * Poly jkey).

Definition jk (k : list Z) (l o : list Z) : jkey := (k, (l, o, [], [])).

(** ito_cond_mom.py:543-584: the special polys *)
Definition jP0 : Poly jkey := mkPoly [(jk [0;0;0;0;0;0] [] [], 0%Q)] kf_jIEII.
Definition jP1 : Poly jkey := mkPoly [(jk [0;0;0;0;0;0] [] [], 1%Q)] kf_jIEII.
Definition jP200 : Poly jkey := mkPoly
  [(jk [1;0;1;1;0;0] [] [], Frac 1 1);
   (jk [0;0;1;1;0;0] [] [], qopp (Frac 1 1));
   (jk [2;0;1;0;1;0] [] [], Frac 1 2);
   (jk [0;0;1;0;1;0] [] [], qopp (Frac 1 2));
   (jk [1;0;1;0;0;0] [1] [0], Frac 1 1);
   (jk [0;0;1;0;0;0] [2] [0], qopp (Frac 1 1))] kf_jIEII.
Definition jP110 : Poly jkey := mkPoly
  [(jk [0;1;0;1;0;0] [] [], Frac 1 1);
   (jk [1;0;1;0;1;0] [] [], Frac 1 1);
   (jk [0;0;1;0;1;0] [] [], qopp (Frac 1 1));
   (jk [0;1;0;0;0;0] [1] [0], Frac 1 1);
   (jk [0;0;0;0;0;0] [1] [1], qopp (Frac 1 1))] kf_jIEII.
Definition jP020 : Poly jkey := mkPoly
  [(jk [-1;0;1;1;0;0] [] [], qopp (Frac 1 1));
   (jk [0;0;1;1;0;0] [] [], Frac 1 1);
   (jk [0;1;0;0;1;0] [] [], Frac 1 1);
   (jk [-1;0;1;0;0;0] [1] [0], qopp (Frac 1 1));
   (jk [0;0;1;0;0;0] [0] [0], Frac 1 1)] kf_jIEII.

(** ito_cond_mom.py:550-590: the initial memo table *)
Definition jinit : jcache :=
  [((0,0,0), jP1); ((1,0,0), jP0); ((0,1,0), jP0); ((0,0,1), jP0);
   ((2,0,0), jP200); ((1,1,0), jP110); ((1,0,1), jP0); ((0,2,0), jP020);
   ((0,1,1), jP0); ((0,0,2), jP020)].

(** recursive_IEII and moment_IEII are modelled with the function they call as
    int_e_IEZ_poly as a parameter, so that it can be exchanged; the code is the instance
    [jmoment_IEII] below. *)
Section Iez.
Context (iez : Q -> Z -> Poly jkey -> res (Poly jkey)).

(** the four merges of one branch of ito_cond_mom.py:494-515 *)
Definition jbranch (C : jcache) (c : Q) (poly : Poly jkey) (m1 m2 : Z) (idx idx2 : idx3)
  : res (Poly jkey) :=
  let! q := cget idx C in let! r := jint_e_poly c 1 m1 q in let! poly := merge poly r in
  let! q := cget idx C in let! r := jint_e_poly c 2 m2 q in let! poly := merge poly r in
  let! q := cget idx2 C in let! r := jint_e_poly c 3 m1 q in let! poly := merge poly r in
  let! q := cget idx C in let! r := iez c m1 q in merge poly r.

(** ito_cond_mom.py:473-516 recursive_IEII *)
Definition jrecursive_IEII_with (n1 n2 n3 : Z) (C : jcache) : res (Poly jkey) :=
  let poly := mkPoly [] kf_jIEII in
  let! poly := if (2 <=? n1) && (0 <=? n2) && (0 <=? n3)
    then jbranch C (Frac (n1 * (n1 - 1)) 2) poly 1 2 (n1 - 2, n2, n3) (n1 - 1, n2, n3)
    else Ok poly in
  let! poly := if (0 <=? n1) && (2 <=? n2) && (0 <=? n3)
    then jbranch C (Frac (n2 * (n2 - 1)) 2) poly (-1) 0 (n1, n2 - 2, n3) (n1 + 1, n2 - 2, n3)
    else Ok poly in
  let! poly := if (1 <=? n1) && (1 <=? n2) && (0 <=? n3)
    then jbranch C (Frac (n1 * n2) 1) poly 0 1 (n1 - 1, n2 - 1, n3) (n1, n2 - 1, n3)
    else Ok poly in
  if (0 <=? n1) && (0 <=? n2) && (2 <=? n3)
    then jbranch C (Frac (n3 * (n3 - 1)) 2) poly (-1) 0 (n1, n2, n3 - 2) (n1 + 1, n2, n3 - 2)
    else Ok poly.

(** ito_cond_mom.py:598-606: one round n of the loop over the orders *)
Definition jround_with (C : jcache) (n : Z) : res jcache :=
  let! C := foldM (fun C i =>
    foldM (fun C j =>
      let! poly := jrecursive_IEII_with i j (n - i - j) C in
      Ok (cset (i, j, n - i - j) (remove_zero poly) C)) (range_down (n - i)) C)
    (range_down n) C in
  Ok (cdel (fun key => ord3 key =? n - 2) C).

(** ito_cond_mom.py:519-610 moment_IEII *)
Definition jmoment_IEII_with (n1 n2 n3 : Z) : res (Poly jkey) :=
  if n1 + n2 + n3 <? 0 then Err ValueError
  else if n1 + n2 + n3 <=? 2 then cget (n1, n2, n3) jinit
  else
    let! C := if 3 <? n1 + n2 + n3
              then foldM jround_with (range 3 (n1 + n2 + n3)) jinit
              else Ok jinit in
    let! poly := jrecursive_IEII_with n1 n2 n3 C in
    Ok (remove_zero poly).
End Iez.

(** the code *)
Definition jrecursive_IEII := jrecursive_IEII_with int_e_IEZ_poly.
Definition jmoment_IEII := jmoment_IEII_with int_e_IEZ_poly.
