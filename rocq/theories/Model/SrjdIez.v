(** Model of src/ajdmom/mdl_srjd/iez_mom.py and iez_cmom.py: moments of
    IEZ_{s,t} = int_s^t e^{ku} dZ_u for a compound Poisson process Z with exponential jumps. *)
From Verif.Model Require Export CppMom Utils.
Local Open Scope Z_scope.

(** iez_mom.py:12 *)
Definition kf_ej : list string := ["e^{kt}"; "e^{ks}"; "t-s"; "k^{-}"; "mu_v"]%string.
(** iez_mom.py:50 *)
Definition kf_iez : list string := ["e^{kt}"; "e^{ks}"; "k^{-}"; "lmbd"; "mu_v"]%string.

(** iez_mom.py:10-29 moment_EJ *)
Definition moment_EJ (n : Z) : res (Poly (list Z)) :=
  if n <? 0 then Err ValueError
  else if n =? 0 then Ok (mkPoly [([0; 0; 0; 0; 0], 1%Q)] kf_ej)
  else Ok (mkPoly (add_kv [0; n; -1; 1; n] (qz (- fact (n - 1)))
                    (add_kv [n; 0; -1; 1; n] (qz (fact (n - 1))) [])) kf_ej).

(** iez_mom.py:37-41: product of moment_EJ(n_j)**m_j *)
Definition ej_prod (ps : list (Z * Z)) : res (Poly (list Z)) :=
  foldM (fun pol1 nm =>
    let! q := moment_EJ (fst nm) in
    let! qm := ppow q (snd nm) in
    pmul pol1 qm) ps (mkPoly [([0; 0; 0; 0; 0], 1%Q)] kf_ej).

(** iez_mom.py:31-57 decode *)
Definition decode_iez (p : Poly ckey) : res (Poly (list Z)) :=
  let! a := foldM (fun a kv =>
    let i := fst (fst kv) in
    let! pol1 := ej_prod (snd (fst kv)) in
    Ok (fold_left (fun a kv1 =>
          let key := fst kv1 in
          add_kv [nthZ key 0; nthZ key 1; nthZ key 2 + i; nthZ key 3; i; nthZ key 4]
                 (qmul (snd kv) (snd kv1)) a) (items pol1) a)) (items p) [] in
  let poln := rm_zero a in
  if forallb (fun kv => nthZ (fst kv) 2 =? 0) poln
  then Ok (mkPoly (add_all [] (map (fun kv => (dropat 2 (fst kv), snd kv)) poln)) kf_iez)
  else Err ValueError.

(** iez_mom.py:59-96 moment_IEZ; dmgf_cpp is the one of cpp_mom.py *)
Definition moment_IEZ (n : Z) : res (Poly (list Z)) :=
  if n <? 0 then Err ValueError
  else if n =? 0 then Ok (mkPoly [([0; 0; 0; 0; 0], 1%Q)] kf_iez)
  else if n =? 1 then Ok (mkPoly [([1; 0; 1; 1; 1], 1%Q); ([0; 1; 1; 1; 1], (-1)%Q)] kf_iez)
  else let! m := iter_dmgf_cpp (Z.to_nat (n - 1))
                   (mkPoly [((1, [(1, 1)]), 1%Q)]
                           ["[lmbd(t-s)]^{i} M^{(n_1)m_1}(s) ... M^{(n_l)m_l}(s)"%string]) in
       decode_iez m.

(** iez_cmom.py:10-38 cmoment_IEZ *)
Definition cmoment_IEZ (n : Z) : res (Poly (list Z)) :=
  let p1 := mkPoly [([0; 0; 0; 0; 0], 1%Q)] kf_iez in
  if n <? 0 then Err ValueError
  else if n =? 0 then Ok p1
  else if n =? 1 then Ok (mkPoly [([0; 0; 0; 0; 0], 0%Q)] kf_iez)
  else
    let! mean := moment_IEZ 1 in
    foldM (fun poly i =>
      let! pol1 := if i =? 0 then Ok p1 else ppow mean i in
      let! q := moment_IEZ (n - i) in
      let! pq := pmul pol1 q in
      merge poly (rmul (qz (sgn1 i * mcomb n i)) pq)) (range 0 (n + 1)) (mkPoly [] kf_iez).
