(** Model of src/ajdmom/mdl_svvj/{cond2_cmom,cond2_mom}.py and mdl_svij/{cond2_cmom,cond2_mom}.py. *)
From Coq Require Import Reals Qreals.
From Verif.Model Require Export ItoCond CppMom FZ.
Local Open Scope Z_scope.

(** keys (k0,...,k5, l, o, p, q, k10,...): ints, four tuples, ints *)
Notation svkey := (jkey * list Z)%type.

(** svvj/cond2_cmom.py:122 *)
Definition kf_sv : list string := kf_jIEII ++ ["sigma/2k"; "rho-sigma/2k"; "sqrt(1-rho^2)"]%string.

(** cond2_cmom.py:89-120: the table is that of ito_cond_mom.py (ItoCond.v: jinit).
    recursive_IEII is imported from ito_cond_mom; as there, int_e_IEZ_poly is a parameter. *)
Section Iez.
Context (iez : Q -> Z -> Poly jkey -> res (Poly jkey)).

(** svvj/cond2_cmom.py:147-165: one combination (i, j, n-i-j); the state is the table and the
    polynomial under construction *)
Definition sv_cell (l n i j : Z) (st : jcache * list (svkey * Q)) : res (jcache * list (svkey * Q)) :=
  let '(C, a) := st in
  let! c := comb n [i; j; n - i - j] in
  let! poln := if n <? 3 then cget (i, j, n - i - j) C else jrecursive_IEII_with iez i j (n - i - j) C in
  let a := fold_left (fun a kv =>
      let k := fst (fst kv) in
      add_kv (((nthZ k 0 - i) :: tl k, snd (fst kv)), [i; j; n - i - j]) (qmul (qz c) (snd kv)) a) (items poln) a in
  Ok (if (3 <=? n) && (n <? l) then cset (i, j, n - i - j) poln C else C, a).

(** svvj/cond2_cmom.py:140-174: the round of order n.  After [del IEII] (n == l, the last
    round) the table is never read again; the model empties it. *)
Definition sv_round (l : Z) (st : jcache * list (Poly svkey)) (n : Z) : res (jcache * list (Poly svkey)) :=
  let '(C, cmoms) := st in
  let! st := foldM (fun st i =>
    foldM (fun st j => sv_cell l n i j st) (range_down (n - i)) st) (range_down n) (C, []) in
  let '(C, a) := st in
  let C := if n =? l then [] else cdel (fun key => ord3 key =? n - 2) C in
  Ok (C, cmoms ++ [remove_zero (mkPoly a kf_sv)]).

(** svvj/cond2_cmom.py:61-175 cmoments_y_to *)
Definition sv_P1 : Poly svkey := mkPoly [(jk [0;0;0;0;0;0] [] [], [0;0;0], Frac 1 1)] kf_sv.
Definition sv_P0 : Poly svkey := mkPoly [(jk [0;0;0;0;0;0] [] [], [0;0;0], Frac 0 1)] kf_sv.
Definition sv_cmoments_with (l : Z) : res (list (Poly svkey)) :=
  let! st := foldM (sv_round l) (range 2 (l + 1)) (jinit, [sv_P1; sv_P0]) in
  Ok (snd st).

(** [cmoms[-1]]; svvj/cond2_cmom.py:178-189, cond2_mom.py:99-101 and svij *)
Definition lastp {A} (l : list A) : res A :=
  match last (map Some l) None with Some q => Ok q | None => Err IndexError end.
Definition sv_cmoment_with (l : Z) : res (Poly svkey) :=
  let! cs := sv_cmoments_with l in lastp cs.

(** [1 for i in range(n)] and [0 for i in range(n)] *)
Definition rep (x n : Z) : list Z := map (fun _ => x) (range 0 n).

(** svvj/cond2_mom.py:40-57: the new key *)
Definition sv_mkey (n1 n2 n3 n4 : Z) (key : svkey) : svkey :=
  let k := fst (fst key) in
  let '(l, o, p, q) := snd (fst key) in
  let key1 := [nthZ k 0 - n3; nthZ k 1 + n1; nthZ k 2 + n3 + n4; n2; n1; nthZ k 3 + n2; nthZ k 4; nthZ k 5] in
  let ne := if (length l =? 0)%nat then n3 + n4 - 1 else n3 + n4 in
  ((key1, (l ++ (rep 1 n3 ++ rep 0 n4), o ++ rep 0 (n3 + n4), p ++ rep 0 ne, q ++ rep 0 ne)), snd key).

(** svvj/cond2_mom.py:28, 75 *)
Definition kf_mom (kf : list string) : list string :=
  firstn 3 kf ++ ["beta_t"; "mu-theta/2"]%string ++ skipn 3 kf.

(** svvj/cond2_mom.py:13-59 moment_comb.  2 ** (n3 + n4) is an int for n3 + n4 >= 0. *)
Definition moment_comb (n n1 n2 n3 n4 : Z) (PY : Poly svkey) : res (Poly svkey) :=
  let n5 := n - n1 - n2 - n3 - n4 in
  let! c := comb n [n1; n2; n3; n4; n5] in
  let c := qmul (qz c) (qmul (qz (sgn1 (n2 + n4))) (Frac 1 (2 ^ (n3 + n4)))) in
  Ok (mkPoly (fold_left (fun a kv => add_kv (sv_mkey n1 n2 n3 n4 (fst kv)) (qmul c (snd kv)) a) (items PY) [])
        (kf_mom (keyfor PY))).

(** [cmoms[n]] for n >= 0 *)
Definition getp {A} (l : list A) (n : Z) : res A :=
  match nth_error l (Z.to_nat n) with Some q => Ok q | None => Err IndexError end.

(** svvj/cond2_mom.py:85-95: the n-th moment *)
Definition sv_mom_n (kf : list string) (cmoms : list (Poly svkey)) (n : Z) : res (Poly svkey) :=
  let! poly := foldM (fun poly n1 =>
    foldM (fun poly n2 =>
      foldM (fun poly n3 =>
        foldM (fun poly n4 =>
          let n5 := n - n1 - n2 - n3 - n4 in
          let! c := getp cmoms n5 in
          let! r := moment_comb n n1 n2 n3 n4 c in
          merge poly r) (range_down (n - n1 - n2 - n3)) poly) (range_down (n - n1 - n2)) poly)
      (range_down (n - n1)) poly) (range_down n) (mkPoly [] kf) in
  Ok (remove_zero poly).

(** svvj/cond2_mom.py:62-96 moments_y_to *)
Definition sv_moments_with (l : Z) : res (list (Poly svkey)) :=
  let! cmoms := sv_cmoments_with l in
  let! c0 := getp cmoms 0 in
  let kf := kf_mom (keyfor c0) in
  let P1 := mkPoly [((([0;0;0;0;0;0;0;0], ([], [], [], [])), [0;0;0]), Frac 1 1)] kf in
  foldM (fun moms n => let! p := sv_mom_n kf cmoms n in Ok (moms ++ [p])) (range 1 (l + 1)) [P1].
Definition sv_moment_with (l : Z) : res (Poly svkey) :=
  let! ms := sv_moments_with l in lastp ms.

(** svij/cond2_cmom.py:44-54 and cond2_mom.py:41-51: the convolution with the moments of
    the compound Poisson sum; [cpp] is cmcpp or mcpp *)
Definition svij_key (k1 : svkey) (k2 : list Z) : svkey :=
  let k := fst (fst k1) in
  ((nthZ k 0 :: (nthZ k 1 + nthZ k2 0) :: tl (tl k), snd (fst k1)), snd k1 ++ k2).
Definition svij_n (cpp : Z -> res (Poly (list Z))) (kf : list string) (cs : list (Poly svkey)) (n : Z) : res (Poly svkey) :=
  let! a := foldM (fun a n1 =>
    let! c := math_comb n n1 in
    let! pol1 := getp cs n1 in
    let! pol2 := cpp (n - n1) in
    Ok (fold_left (fun a kv1 => fold_left (fun a kv2 =>
          add_kv (svij_key (fst kv1) (fst kv2)) (qmul (qmul (qz c) (snd kv1)) (snd kv2)) a) (items pol2) a)
        (items pol1) a)) (range_down n) [] in
  Ok (remove_zero (mkPoly a kf)).

Definition kf_ij (kf : list string) : list string := kf ++ ["lmbd_s"; "mu_s"; "sigma_s"]%string.

(** svij/cond2_cmom.py:15-56 cmoments_y_to *)
Definition svij_cmoments_with (l : Z) : res (list (Poly svkey)) :=
  let! cs := sv_cmoments_with l in
  let! c0 := getp cs 0 in
  let kf := kf_ij (keyfor c0) in
  let P1 := mkPoly [(jk [0;0;0;0;0;0] [] [], [0;0;0;0;0;0], Frac 1 1)] kf in
  let P0 := mkPoly [(jk [0;0;0;0;0;0] [] [], [0;0;0;0;0;0], Frac 0 1)] kf in
  foldM (fun cm n => let! p := svij_n cmcpp kf cs n in Ok (cm ++ [p])) (range 2 (l + 1)) [P1; P0].
Definition svij_cmoment_with (l : Z) : res (Poly svkey) :=
  let! cs := svij_cmoments_with l in lastp cs.

(** svij/cond2_mom.py:15-53 moments_y_to *)
Definition svij_moments_with (l : Z) : res (list (Poly svkey)) :=
  let! ms := sv_moments_with l in
  let! m0 := getp ms 0 in
  let kf := kf_ij (keyfor m0) in
  let P1 := mkPoly [((([0;0;0;0;0;0;0;0], ([], [], [], [])), [0;0;0;0;0;0]), Frac 1 1)] kf in
  foldM (fun cm n => let! p := svij_n mcpp kf ms n in Ok (cm ++ [p])) (range 1 (l + 1)) [P1].
Definition svij_moment_with (l : Z) : res (Poly svkey) :=
  let! ms := svij_moments_with l in lastp ms.
End Iez.

(** the code *)
Definition sv_cmoments_y_to := sv_cmoments_with int_e_IEZ_poly.
Definition sv_cmoment_y := sv_cmoment_with int_e_IEZ_poly.
Definition sv_moments_y_to := sv_moments_with int_e_IEZ_poly.
Definition sv_moment_y := sv_moment_with int_e_IEZ_poly.
Definition svij_cmoments_y_to := svij_cmoments_with int_e_IEZ_poly.
Definition svij_cmoment_y := svij_cmoment_with int_e_IEZ_poly.
Definition svij_moments_y_to := svij_moments_with int_e_IEZ_poly.
Definition svij_moment_y := svij_moment_with int_e_IEZ_poly.

(** svvj/cond2_cmom.py:45-55: expand rho - sigma/2k.  2 ** p is an int for p >= 0 (a negative
    k[10] + i would give Fraction(1, float), a TypeError; not modelled). *)
Definition sv_expand (poly : Poly svkey) : Poly svkey :=
  mkPoly (fold_left (fun a kv =>
    let k := fst (fst (fst kv)) in let x := snd (fst kv) in
    fold_left (fun a i =>
      let p := nthZ x 0 + i in
      add_kv (([- nthZ k 0; nthZ k 1; nthZ k 2 + p; nthZ k 3; nthZ k 4; nthZ k 5 + p], snd (fst (fst kv))), [nthZ x 1 - i; nthZ x 2])
        (qmul (qmul (qmul (qz (mcomb (nthZ x 1) i)) (qz (sgn1 i))) (Frac 1 (2 ^ p))) (snd kv)) a)
      (range 0 (nthZ x 1 + 1)) a) (items poly) [])
    (let kf := "e^{-kt}"%string :: tl (keyfor poly) in firstn 10 kf ++ ["rho"%string] ++ skipn 12 kf).

(** svvj/cond2_cmom.py:16-58 simplify *)
Definition sv_simplify (poly : Poly svkey) (tp : Z) : res (Poly svkey) :=
  if tp =? 0 then
    Ok (mkPoly (fold_left (fun a kv =>
        let k := fst (fst (fst kv)) in
        add_kv ((- nthZ k 0 :: tl k, snd (fst (fst kv))), snd (fst kv)) (snd kv) a) (items poly) [])
      ("e^{-kt}"%string :: tl (keyfor poly)))
  else
    let r := sv_expand poly in
    simplify_rho_gen (fun key : svkey => nthZ (snd key) 1)
      (fun key => (fst key, dropat 1 (snd key)))
      (fun d key => (fst key, addat 0 d (snd key))) (dropat 11 (keyfor r)) (items r).

(** Keys of the sub-polys: level 0 without the tuples, the others unchanged. *)
Definition sum_eqb {A B} `{Key A} `{Key B} (x y : A + B) : bool :=
  match x, y with inl a, inl b => keqb a b | inr a, inr b => keqb a b | _, _ => false end.
Lemma sum_eqb_spec {A B} `{Key A} `{Key B} (x y : A + B) : sum_eqb x y = true <-> x = y.
Proof.
  destruct x as [x|x], y as [y|y]; cbn [sum_eqb]; try (split; discriminate);
    (split; [intro E; apply keqb_spec in E; now subst|intro E; injection E as ->; now apply keqb_spec]).
Qed.
#[global] Instance Key_sum {A B} `{Key A} `{Key B} : Key (A + B) :=
  {| keqb := sum_eqb; keqb_spec := sum_eqb_spec |}.
Definition subkey : Type := (list Z + svkey)%type.

Definition level (k : svkey) : nat := let '(l, _, _, _) := snd (fst k) in length l.

(** svvj/cond2_cmom.py:204-207: the distinct levels; only their number and the least are used *)
Definition levels (poly : Poly svkey) : list nat :=
  fold_left (fun acc kv => if existsb (Nat.eqb (level (fst kv))) acc then acc else acc ++ [level (fst kv)])
    (items poly) [].
Definition least (l : list nat) : nat := match l with [] => O | x :: r => fold_left Nat.min r x end.

Fixpoint upd {A} (i : nat) (f : A -> A) (l : list A) : list A :=
  match l, i with [], _ => [] | x :: r, O => f x :: r | x :: r, S j => x :: upd j f r end.

(** svvj/cond2_cmom.py:192-222 classify *)
Definition classify (poly : Poly svkey) : res (list (Poly subkey)) :=
  let kf := keyfor poly in
  let kf0 := firstn 6 kf ++ skipn 10 kf in
  let N := levels poly in
  match N with
  | [] => Err IndexError
  | _ :: r =>
      let subs := mkPoly [] (if (least N =? 0)%nat then kf0 else kf) :: map (fun _ => mkPoly [] kf) r in
      foldM (fun subs kv =>
        let k := fst kv in
        if (level k <? length subs)%nat then
          let key := if (level k =? 0)%nat then inl (fst (fst k) ++ snd k) else inr k in
          Ok (upd (level k) (fun s => mkPoly (set_kv key (snd kv) (items s)) (keyfor s)) subs)
        else Err IndexError) (items poly) subs
  end.

Local Open Scope R_scope.
(** svvj/cond2_cmom.py:248-282 poly2num, with real numbers for floats.  (1-rho**2)**(K/2) is
    the K-th power of the square root. *)
Definition sv_cm2num (poly : Poly svkey) (v0 k theta sigma rho h : R) (s J : list R) : res R :=
  foldM (fun f kv =>
    let K := fst (fst (fst kv)) in let X := snd (fst kv) in
    let val := exp (IZR (nthZ K 0) * k * h) * pw h (nthZ K 1) * pw k (- nthZ K 2) in
    let val := val * (pw (v0 - theta) (nthZ K 3) * pw theta (nthZ K 4) * pw sigma (nthZ K 5)) in
    let '(l, o, p, q) := snd (fst (fst kv)) in
    let! z := fZ l o p q k s J in
    let val := val * z in
    let val := val * pw (sigma / (2 * k)) (nthZ X 0) in
    let val := val * pw (rho - sigma / (2 * k)) (nthZ X 1) in
    let val := val * pw (sqrt (1 - rho ^ 2)) (nthZ X 2) in
    Ok (f + val * Q2R (snd kv))) (items poly) 0.

(** svvj/cond2_mom.py:108-146 poly2num *)
Definition sv_m2num (poly : Poly svkey) (v0 mu k theta sigma rho h : R) (s J : list R) : res R :=
  let beta_t := (1 - exp (- k * h)) / (2 * k) in
  foldM (fun f kv =>
    let K := fst (fst (fst kv)) in let X := snd (fst kv) in
    let val := exp (IZR (nthZ K 0) * k * h) * pw h (nthZ K 1) * pw k (- nthZ K 2) in
    let val := val * (pw beta_t (nthZ K 3) * pw (mu - theta / 2) (nthZ K 4) * pw (v0 - theta) (nthZ K 5)) in
    let val := val * (pw theta (nthZ K 6) * pw sigma (nthZ K 7)) in
    let '(l, o, p, q) := snd (fst (fst kv)) in
    let! z := fZ l o p q k s J in
    let val := val * z in
    let val := val * (pw (sigma / (2 * k)) (nthZ X 0) * pw (rho - sigma / (2 * k)) (nthZ X 1)) in
    let val := val * pw (sqrt (1 - rho ^ 2)) (nthZ X 2) in
    Ok (f + val * Q2R (snd kv))) (items poly) 0.

(** svij/cond2_cmom.py:68-108 poly2num and svij/cond2_mom.py:63-108 poly2num: as above with the factor
    lmbd_s ** K[-3] * mu_s ** K[-2] * sigma_s ** K[-1] *)
Definition svij_cm2num (poly : Poly svkey) (v0 k theta sigma rho h lam mus sgs : R) (s J : list R) : res R :=
  foldM (fun f kv =>
    let X := snd (fst kv) in
    let! val := sv_cm2num (mkPoly [(fst kv, 1%Q)] (keyfor poly)) v0 k theta sigma rho h s J in
    let val := val * (pw lam (nthZ X 3) * pw mus (nthZ X 4) * pw sgs (nthZ X 5)) in
    Ok (f + val * Q2R (snd kv))) (items poly) 0.
Definition svij_m2num (poly : Poly svkey) (v0 mu k theta sigma rho h lam mus sgs : R) (s J : list R) : res R :=
  foldM (fun f kv =>
    let X := snd (fst kv) in
    let! val := sv_m2num (mkPoly [(fst kv, 1%Q)] (keyfor poly)) v0 mu k theta sigma rho h s J in
    let val := val * (pw lam (nthZ X 3) * pw mus (nthZ X 4) * pw sgs (nthZ X 5)) in
    Ok (f + val * Q2R (snd kv))) (items poly) 0.
