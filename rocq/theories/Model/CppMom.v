(** Model of src/ajdmom/cpp_mom.py. *)
From Verif.Model Require Export Poly.
Local Open Scope Z_scope.

Definition kf_norm : list string := ["mu"; "sigma^2"]%string.
Definition kf_cpp2 : list string := ["lambda*h"; "mu"; "sigma^2"]%string.
Definition kf_cpp : list string := ["lambda*h"; "mu"; "sigma"]%string.

(** cpp_mom.py:133-150 dmgf *)
Definition dmgf (p : Poly (list Z)) : Poly (list Z) :=
  mkPoly (fold_left (fun a kv =>
    let k := fst kv in
    let a := add_kv [nthZ k 0 + 1; nthZ k 1] (snd kv) a in
    if 0 <? nthZ k 0
    then add_kv [nthZ k 0 - 1; nthZ k 1 + 1] (qmul (snd kv) (qz (nthZ k 0))) a
    else a) (items p) []) kf_norm.

(** cpp_mom.py:181-183: only M[-1] is ever read *)
Fixpoint iter_dmgf (n : nat) (p : Poly (list Z)) : Poly (list Z) :=
  match n with O => p | S m => iter_dmgf m (dmgf p) end.

(** cpp_mom.py:153-184 mnorm *)
Definition mnorm (n : Z) : res (Poly (list Z)) :=
  if n <? 0 then Err ValueError
  else if n =? 0 then Ok (mkPoly [([0; 0], 1%Q)] kf_norm)
  else if n =? 1 then Ok (mkPoly [([1; 0], 1%Q)] kf_norm)
  else Ok (iter_dmgf (Z.to_nat (n - 1)) (mkPoly [([1; 0], 1%Q)] kf_norm)).

(** Nested key (i,(n1,m1),...,(nl,ml)) *)
Definition ckey : Type := Z * list (Z * Z).

(** cpp_mom.py:191-207 d1_times_key; [key[1]] is IndexError on a key without pairs *)
Definition d1_times_key (key : ckey) : res ckey :=
  match snd key with
  | [] => Err IndexError
  | (n1, m1) :: r =>
      if n1 =? 1 then Ok (fst key + 1, (1, m1 + 1) :: r)
      else Ok (fst key + 1, (1, 1) :: (n1, m1) :: r)
  end.

(** cpp_mom.py:223-237: the new list of pairs for position j; [pre] are the pairs
    before j, [post] those after it. *)
Definition dterm_key (i : Z) (pre : list (Z * Z)) (nj mj : Z) (post : list (Z * Z)) : ckey :=
  let mid := if mj - 1 =? 0 then [] else [(nj, mj - 1)] in
  let nxt := match post with
             | (nn, mn) :: r => if nn =? nj + 1 then (nn, mn + 1) :: r
                                else (nj + 1, 1) :: post
             | [] => [(nj + 1, 1)]
             end in
  (i, pre ++ mid ++ nxt).

(** cpp_mom.py:210-239 dterm *)
Fixpoint dterm_loop (i : Z) (coef : Q) (pre post : list (Z * Z)) (a : list (ckey * Q))
  : list (ckey * Q) :=
  match post with
  | [] => a
  | (nj, mj) :: r =>
      dterm_loop i coef (pre ++ [(nj, mj)]) r
        (add_kv (dterm_key i pre nj mj r) (qmul coef (qz mj)) a)
  end.
Definition dterm (key : ckey) (coef : Q) : Poly ckey :=
  mkPoly (dterm_loop (fst key) coef [] (snd key) []) [].

(** cpp_mom.py:242-259 dmgf_cpp; keyfor of the intermediate Polys is () *)
Definition dmgf_cpp (p : Poly ckey) : res (Poly ckey) :=
  let! a := foldM (fun a kv => let! k := d1_times_key (fst kv) in
                               Ok (add_kv k (snd kv) a)) (items p) [] in
  foldM (fun s kv => merge s (dterm (fst kv) (snd kv))) (items p) (mkPoly a []).

(** cpp_mom.py:278-280: product of mnorm(n_j)**m_j *)
Definition decode_key (ps : list (Z * Z)) : res (Poly (list Z)) :=
  foldM (fun pol1 nm =>
    let! q := mnorm (fst nm) in
    let! qm := ppow q (snd nm) in
    pmul pol1 qm) ps (mkPoly [([0; 0], 1%Q)] kf_norm).

(** cpp_mom.py:262-287 decode *)
Definition decode (p : Poly ckey) : res (Poly (list Z)) :=
  let! a := foldM (fun a kv =>
    let! pol1 := decode_key (snd (fst kv)) in
    Ok (fold_left (fun a kv1 =>
          add_kv [fst (fst kv); nthZ (fst kv1) 0; nthZ (fst kv1) 1]
                 (qmul (snd kv) (snd kv1)) a) (items pol1) a)) (items p) [] in
  Ok (mkPoly (rm_zero a) kf_cpp2).

Fixpoint iter_dmgf_cpp (n : nat) (p : Poly ckey) : res (Poly ckey) :=
  match n with
  | O => Ok p
  | S m => let! q := dmgf_cpp p in iter_dmgf_cpp m q
  end.

(** cpp_mom.py:290-322 mcpp_original; the keyfor of the two start polys is a single
    string, irrelevant because dmgf_cpp never compares it. *)
Definition mcpp_original (n : Z) : res (Poly (list Z)) :=
  if n <? 0 then Err ValueError
  else if n =? 0 then Ok (mkPoly [([0; 0; 0], 1%Q)] kf_cpp2)
  else if n =? 1 then Ok (mkPoly [([1; 1; 0], 1%Q)] kf_cpp2)
  else let! m := iter_dmgf_cpp (Z.to_nat (n - 1))
                   (mkPoly [((1, [(1, 1)]), 1%Q)]
                           ["(lambda h)^{i} M^{(n_1)m_1}(s) ... M^{(n_l)m_l}(s)"%string]) in
       decode m.

(** cpp_mom.py:325-339 mcpp *)
Definition mcpp (n : Z) : res (Poly (list Z)) :=
  let! p := mcpp_original n in
  Ok (mkPoly (add_all [] (map (fun kv =>
        ([nthZ (fst kv) 0; nthZ (fst kv) 1; 2 * nthZ (fst kv) 2], snd kv)) (items p))) kf_cpp).

(** cpp_mom.py:342-362 cmcpp *)
Definition cmcpp (n : Z) : res (Poly (list Z)) :=
  if n <? 0 then Err ValueError
  else
    let! a := foldM (fun a i =>
      let coef := mcomb n i * sgn1 (n - i) in
      let! poln := mcpp i in
      Ok (add_all a (map (fun kv =>
            ([nthZ (fst kv) 0 + n - i; nthZ (fst kv) 1 + n - i; nthZ (fst kv) 2],
             qmul (snd kv) (qz coef))) (items poln)))) (range 0 (n + 1)) [] in
    Ok (mkPoly (rm_zero a) kf_cpp).
