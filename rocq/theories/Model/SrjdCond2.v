(** Model of src/ajdmom/mdl_srjd/cond2_mom.py and cond2_cmom.py: moments of the square-root jump
    diffusion given the jump path.  A key (5 ints, l, o) is the pair of the list of the ints and
    the pair of the tuples. *)
From Coq Require Import Reals.
From Verif.Model Require Export Nest Cache ItoCond FZ.
Local Open Scope Z_scope.

Notation c2key := (list Z * (list Z * list Z))%type.

Definition kf_c2 : list string := ["v_0"; "k^{-}"; "theta"; "sigma"; "e^{kt}"; "l_{1:n}"; "o_{2:n}"]%string.

(** cond2_mom.py:34-52: the tuples of the term at the lower end of the integral *)
Definition c2_low (n : Z) (lo : list Z * list Z) : res (list Z * list Z) :=
  match fst lo with
  | [] => Ok lo
  | [l1] => Ok ([l1 + n], snd lo)
  | _ => let! o := addlast n (snd lo) in Ok (fst lo, o)
  end.

(** cond2_mom.py:13-55 int_e_poly *)
Definition c2_int_e_poly (i : Z) (poly : Poly c2key) : res (Poly c2key) :=
  let! a := foldM (fun a kv =>
    let k := fst (fst kv) in
    let lo := snd (fst kv) in
    let n := nthZ k 4 + i in
    if n =? 0 then Err ZeroDivisionError else
    let val := qmul (snd kv) (Frac 1 n) in
    let a := add_kv ([nthZ k 0; nthZ k 1 + 1; nthZ k 2; nthZ k 3; n], lo) val a in
    let! lo' := c2_low n lo in
    Ok (add_kv ([nthZ k 0; nthZ k 1 + 1; nthZ k 2; nthZ k 3; 0], lo') (qopp val) a)) (items poly) [] in
  Ok (mkPoly a kf_c2).

(** cond2_mom.py:58-68 int_e_IE *)
Definition c2_int_e_IE (i m : Z) (IE : list (Z * Poly c2key)) : res (Poly c2key) :=
  let! b := cget m IE in c2_int_e_poly i b.

(** cond2_mom.py:71-98 int_e_IEZ_IE *)
Definition c2_times_IEZ (poly : Poly c2key) : Poly c2key :=
  mkPoly (fold_left (fun a kv =>
    let k := fst (fst kv) in
    let '(l, o) := snd (fst kv) in
    let k6 := match l with [] => [] | _ => o ++ [0] end in
    add_kv ([nthZ k 0; nthZ k 1; nthZ k 2; nthZ k 3; nthZ k 4], (l ++ [1], k6)) (snd kv) a) (items poly) []) kf_c2.
Definition c2_int_e_IEZ_IE (m : Z) (IE : list (Z * Poly c2key)) : res (Poly c2key) :=
  let! b := cget m IE in c2_int_e_poly 1 (c2_times_IEZ b).

(** cond2_mom.py:101-151 coef_poly; any other tp gives the empty Poly *)
Definition c2_coef_poly (coef : Q) (poly : Poly c2key) (tp : Z) : Poly c2key :=
  mkPoly (fold_left (fun a kv =>
    let k := fst (fst kv) in
    let lo := snd (fst kv) in
    let val := qmul coef (snd kv) in
    if tp =? 1 then
      add_kv ([nthZ k 0; nthZ k 1; nthZ k 2 + 1; nthZ k 3; nthZ k 4], lo) (qopp val)
        (add_kv ([nthZ k 0 + 1; nthZ k 1; nthZ k 2; nthZ k 3; nthZ k 4], lo) val a)
    else if tp =? 2 then add_kv ([nthZ k 0; nthZ k 1; nthZ k 2 + 1; nthZ k 3; nthZ k 4], lo) val a
    else if tp =? 3 then add_kv (fst kv) val a
    else if tp =? 4 then add_kv ([nthZ k 0; nthZ k 1; nthZ k 2; nthZ k 3 + 1; nthZ k 4], lo) val a
    else a) (items poly) []) kf_c2.

(** cond2_mom.py:154-173 recursive_IE *)
Definition c2_recursive_IE (m : Z) (IE : list (Z * Poly c2key)) : res (Poly c2key) :=
  let poly := mkPoly [] kf_c2 in
  let c := Frac (m * (m - 1)) 2 in
  let! r := c2_int_e_IE 1 (m - 2) IE in let! poly := merge poly (c2_coef_poly c r 1) in
  let! r := c2_int_e_IE 2 (m - 2) IE in let! poly := merge poly (c2_coef_poly c r 2) in
  let! r := c2_int_e_IEZ_IE (m - 2) IE in let! poly := merge poly (c2_coef_poly c r 3) in
  let! r := c2_int_e_IE 1 (m - 1) IE in merge poly (c2_coef_poly c r 4).

(** cond2_mom.py:191-211: the initial table *)
Definition c2_P1 : Poly c2key := mkPoly [(([0;0;0;0;0], ([], [])), Frac 1 1)] kf_c2.
Definition c2_P0 : Poly c2key := mkPoly [(([0;0;0;0;0], ([], [])), Frac 0 1)] kf_c2.
Definition c2_P2 : Poly c2key := mkPoly
  [(([0;1;1;0;2], ([], [])), Frac 1 2);
   (([1;1;0;0;1], ([], [])), Frac 1 1);
   (([0;1;1;0;1], ([], [])), qopp (Frac 1 1));
   (([0;1;1;0;0], ([], [])), Frac 1 2);
   (([1;1;0;0;0], ([], [])), qopp (Frac 1 1));
   (([0;1;0;0;1], ([1], [])), Frac 1 1);
   (([0;1;0;0;0], ([2], [])), qopp (Frac 1 1))] kf_c2.
Definition c2_init : list (Z * Poly c2key) := [(0, c2_P1); (1, c2_P0); (2, c2_P2)].

(** cond2_mom.py:217-224: one round of the loop *)
Definition c2_round (IE : list (Z * Poly c2key)) (n : Z) : res (list (Z * Poly c2key)) :=
  let! poly := c2_recursive_IE n IE in
  Ok (cdel (fun key => key =? n - 2) (cset n (remove_zero poly) IE)).

(** cond2_mom.py:176-228 moment_IE *)
Definition c2_moment_IE (m : Z) : res (Poly c2key) :=
  if m <=? 2 then cget m c2_init
  else
    let! IE := if 3 <? m then foldM c2_round (range 3 m) c2_init else Ok c2_init in
    let! poly := c2_recursive_IE m IE in
    Ok (remove_zero poly).

Definition ones (n : Z) : list Z := map (fun _ => 1) (range 0 n).
Definition zeros (n : Z) : list Z := map (fun _ => 0) (range 0 n).

(** cond2_mom.py:259-274: pol1 *)
Definition c2_pol1 (m j : Z) : res (Poly c2key) :=
  let! C1 := math_comb m j in
  let! a := nest 3 j [] (fun a => on4 (fun j1 j2 j3 j4 =>
    let '(k5, k6) := if j4 =? 0 then ([], []) else (ones j4, zeros (j4 - 1)) in
    let! c1 := math_comb j j1 in
    let! c2 := math_comb (j - j1) j2 in
    let! c3 := math_comb (j - j1 - j2) j3 in
    Ok (add_kv ([j1; 0; j2 + j3; m - j; j3 - m], (k5, k6)) (qz (C1 * (c1 * c2 * c3) * sgn1 j2)) a))) [] in
  Ok (mkPoly a kf_c2).

(** cond2_mom.py:278-288: one product of keys *)
Definition c2_kmul (k1 k2 : c2key) : c2key :=
  let '(a1, (l1, o1)) := k1 in
  let '(a2, (l2, o2)) := k2 in
  let k6 := match l2 with
            | [] => zeros (Z.of_nat (length l1) - 1)
            | _ => o2 ++ zeros (Z.of_nat (length l1))
            end in
  ([nthZ a2 0 + nthZ a1 0; nthZ a2 1 + nthZ a1 1; nthZ a2 2 + nthZ a1 2; nthZ a2 3 + nthZ a1 3; nthZ a2 4 + nthZ a1 4],
   (l2 ++ l1, k6)).

(** cond2_mom.py:231-290 moment_v *)
Definition c2_moment_v (m : Z) : res (Poly c2key) :=
  if m =? 0 then Ok (mkPoly (add_kv ([0;0;0;0;0], ([], [])) (Frac 1 1) []) kf_c2)
  else if m =? 1 then
    Ok (mkPoly (add_kv ([0;0;0;0;-1], ([1], [])) (Frac 1 1)
               (add_kv ([0;0;1;0;0], ([], [])) (Frac 1 1)
               (add_kv ([0;0;1;0;-1], ([], [])) (qopp (Frac 1 1))
               (add_kv ([1;0;0;0;-1], ([], [])) (Frac 1 1) [])))) kf_c2)
  else
    let! a := foldM (fun a j =>
      let! pol1 := c2_pol1 m j in
      let! pol2 := c2_moment_IE (m - j) in
      Ok (fold_left (fun a kv1 =>
            fold_left (fun a kv2 => add_kv (c2_kmul (fst kv1) (fst kv2)) (qmul (snd kv1) (snd kv2)) a)
              (items pol2) a) (items pol1) a)) (range 0 (m + 1)) [] in
    Ok (remove_zero (mkPoly a kf_c2)).

(** cond2_cmom.py:11-33 cmoment_v *)
Definition c2_cmoment_v (m : Z) : res (Poly c2key) :=
  let! poln := c2_moment_IE m in
  Ok (mkPoly (fold_left (fun a kv =>
    add_kv (addat 4 (- m) (addat 3 m (fst (fst kv))), snd (fst kv)) (snd kv) a) (items poln) []) kf_c2).

(** cond2_mom.py:296-356 fZ, over the reals; the loop over the indices is the one of utils.fZ *)
Section Fz2.
Local Open Scope R_scope.
Fixpoint fz2_loop (l o : list Z) (k : R) (s J : list R) (idx : list Z) (ii : nat) (f smax : R) : R :=
  match idx with
  | [] => f
  | j :: r =>
      let s_j := nthR s j in
      let f := f * (exp (IZR (nthZ l ii) * k * s_j) * nthR J j) in
      match ii with
      | O => fz2_loop l o k s J r (S ii) f smax
      | S i1 =>
          let smax := if Rgt_dec smax s_j then smax else s_j in
          fz2_loop l o k s J r (S ii) (f * exp (IZR (nthZ o i1) * k * smax)) smax
      end
  end.
Definition c2_fZ (l o : list Z) (k : R) (s J : list R) : res R :=
  if Nat.eqb (length l) 0 then Ok 1
  else if Nat.eqb (length J) 0 then Ok 0
  else
    let n := Z.of_nat (length l) in
    let m := Z.of_nat (length J) in
    to_res (run (index_fuel n m)
      (index_step n m (fun idx val => val + fz2_loop l o k s J idx 0 1 (nthR s (nthZ idx 0))))
      (mkSt true [] 0)).
(** cond2_mom.py:359-386 poly2num *)
Definition c2_poly2num (poly : Poly c2key) (v0 k theta sigma h : R) (s J : list R) : res R :=
  foldM (fun f kv =>
    let K := fst (fst kv) in
    let val := pw v0 (nthZ K 0) * pw k (- nthZ K 1) * pw theta (nthZ K 2) * pw sigma (nthZ K 3) in
    let val := val * exp (IZR (nthZ K 4) * k * h) in
    let! z := c2_fZ (fst (snd (fst kv))) (snd (snd (fst kv))) k s J in
    Ok (f + val * z * Q2R (snd kv))) (items poly) 0.
End Fz2.
