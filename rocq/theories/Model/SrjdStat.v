(** Model of src/ajdmom/mdl_srjd/cmom.py and mom.py: stationary moments of the square-root jump
    diffusion. *)
From Verif.Model Require Export SrjdCond.
Local Open Scope Z_scope.

(** cmom.py:12-47 cond_cmoment_v *)
Definition stat_cond_cmoment_v (n : Z) : res (Poly (list Z)) :=
  if n =? 0 then Ok (mkPoly [([0; 0; 0; 0; 0; 0; 0], 1%Q)] kf_cie)
  else if n =? 1 then Ok (mkPoly [([-1; 0; 1; 0; 0; 0; 0], 1%Q)] kf_cie)
  else
    let! l := foldM (fun a i1 =>
      foldM (fun a i2 =>
        let i3 := n - i1 - i2 in
        let! b1 := math_comb n i1 in
        let! b2 := math_comb (n - i1) i2 in
        let! poln := cmoment_ie_iez i1 i2 in
        Ok (fold_left (fun a kv =>
              add_kv (addat 4 i1 (addat 2 i3 (addat 0 (- n) (fst kv)))) (qmul (snd kv) (qz (b1 * b2))) a)
              (items poln) a)) (range 0 (n - i1 + 1)) a) (range 0 (n + 1)) [] in
    Ok (mkPoly l kf_cie).

(** cmom.py:49-69 find_same_order; [poly[target_key]] is read only if the count is one *)
Definition find_same_order (poly : Poly (list Z)) (n : Z) : res bool :=
  let count := Z.of_nat (length (filter (fun kv => nthZ (fst kv) 2 =? n) (items poly))) in
  if count =? 1 then
    let! v := cget [- n; 0; n; 0; 0; 0; 0] (items poly) in
    if Qeq_bool v 1%Q then Ok true else Err BareException
  else Err BareException.

(** cmom.py:78 and 96 *)
Definition kf_stat6 : list string := ["e^{kt}"; "k^{-}"; "E[v]"; "sigma"; "lmbd"; "mu_v"]%string.
(** cmom.py:114 and 178 *)
Definition kf_stat : list string := ["k^{-}"; "E[v]"; "sigma"; "lmbd"; "mu_v"]%string.

(** cmom.py:71-90 key_times_poly *)
Definition stat_key_times_poly (coef : Q) (k : list Z) (poly : Poly (list Z)) : Poly (list Z) :=
  mkPoly (fold_left (fun a kv =>
    let K := fst kv in
    add_kv [nthZ k 0; nthZ k 1 + nthZ K 0; nthZ k 3 + nthZ K 1; nthZ k 4 + nthZ K 2; nthZ k 5 + nthZ K 3; nthZ k 6 + nthZ K 4]
           (qmul coef (snd kv)) a) (items poly) []) kf_stat6.

(** list access [l[i]] for i >= 0 *)
Definition lget {A} (l : list A) (i : Z) : res A :=
  match nth_error l (Z.to_nat i) with Some a => Ok a | None => Err IndexError end.

(** cmom.py:92-109 last_expectation *)
Definition last_expectation (poly : list (list Z * Q)) (uncond_cm : list (Poly (list Z))) : res (Poly (list Z)) :=
  foldM (fun poln kv =>
    let k := fst kv in
    let order := nthZ k 2 in
    if order =? 0 then Ok (add_keyval poln (dropat 2 k) (snd kv))
    else if 1 <? order then
      let! u := lget uncond_cm order in
      merge poln (stat_key_times_poly (snd kv) k u)
    else Ok poln) poly (mkPoly [] kf_stat6).

(** cmom.py:120-129: the two parts, at e^{0} and at e^{-nkt} *)
Definition divide_split (n : Z) (poly : list (list Z * Q)) : res (list (list Z * Q) * list (list Z * Q)) :=
  foldM (fun '(p1, p2) kv =>
    let k := fst kv in
    if qzero (snd kv) then Ok (p1, p2)
    else if nthZ k 0 =? 0 then Ok (add_kv (tl k) (snd kv) p1, p2)
    else if nthZ k 0 =? - n then Ok (p1, add_kv (tl k) (snd kv) p2)
    else Err ValueError) poly ([], []).

(** cmom.py:134-140: [p[k] != -q[k]] raises *)
Definition divide_check (p q : list (list Z * Q)) : res unit :=
  foldM (fun _ kv =>
    let! a := cget (fst kv) p in
    let! b := cget (fst kv) q in
    if Qeq_bool a (qopp b) then Ok tt else Err ValueError) p tt.

(** cmom.py:111-142 divide *)
Definition divide (n : Z) (poly : Poly (list Z)) : res (Poly (list Z)) :=
  let! s := divide_split n (items poly) in
  let '(p1, p2) := s in
  if negb (Nat.eqb (length p1) (length p2)) then Err ValueError
  else
    let! _ := divide_check p1 p2 in
    let! _ := divide_check p2 p1 in
    Ok (mkPoly p1 kf_stat).

(** cmom.py:144-165 solve_polynomial *)
Definition solve_polynomial (n : Z) (uncond_cm : list (Poly (list Z))) : res (Poly (list Z)) :=
  let! cond_cm := stat_cond_cmoment_v n in
  let! b := find_same_order cond_cm n in
  let! l := if b then cdel1 [- n; 0; n; 0; 0; 0; 0] (items cond_cm) else Err BareException in
  let! left := last_expectation l uncond_cm in
  divide n left.

(** cmom.py:167-195 cmoment_v *)
Definition stat_cmoment_v (n : Z) : res (Poly (list Z)) :=
  if n <? 0 then Err ValueError
  else
    let uncond_cm := [mkPoly [([0; 0; 0; 0; 0], 1%Q)] kf_stat; mkPoly [([0; 0; 0; 0; 0], 0%Q)] kf_stat] in
    if n <? 2 then lget uncond_cm n
    else
      let! uncond_cm := foldM (fun u i =>
        let! poly := solve_polynomial i u in
        Ok (u ++ [poly])) (range 2 n) uncond_cm in
      solve_polynomial n uncond_cm.

(** mom.py:22 *)
Definition kf_srjd : list string := ["k^{-}"; "theta"; "sigma"; "lmbd"; "mu_v"]%string.

(** mom.py:12-36 expand: E[v] = theta + lmbd mu_v / k *)
Definition stat_expand (poly : Poly (list Z)) : res (Poly (list Z)) :=
  let! l := foldM (fun a kv =>
    let k := fst kv in
    let n := nthZ k 1 in
    if n =? 0 then Ok (add_kv k (snd kv) a)
    else
      foldM (fun a i =>
        let! bino := math_comb n i in
        Ok (add_kv [nthZ k 0 + i; n - i; nthZ k 2; nthZ k 3 + i; nthZ k 4 + i] (qmul (qz bino) (snd kv)) a))
        (range 0 (n + 1)) a) (items poly) [] in
  Ok (mkPoly l kf_srjd).

(** mom.py:38-72 moment_v *)
Definition stat_moment_v (n : Z) (simplify : bool) : res (Poly (list Z)) :=
  if n <? 0 then Err ValueError
  else
    let! l :=
      if n =? 0 then Ok [([0; 0; 0; 0; 0], 1%Q)]
      else if n =? 1 then Ok [([0; 1; 0; 0; 0], 1%Q)]
      else
        foldM (fun a i =>
          let! bino := math_comb n i in
          let! poln := stat_cmoment_v i in
          Ok (fold_left (fun a kv => add_kv (addat 1 (n - i) (fst kv)) (qmul (qz bino) (snd kv)) a) (items poln) a))
          (range 0 (n + 1)) [] in
    if simplify then stat_expand (mkPoly l kf_stat) else Ok (mkPoly l kf_stat).
