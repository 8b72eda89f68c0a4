(** Model of src/ajdmom/mdl_svcj/ieziziz_mom.py: joint moments of
    (IEZ_{s,t}, IZ_{s,t}, IZ*_{s,t}) = (int_s^t e^{ku} dZ_u, int_s^t dZ_u, int_s^t dZ*_u)
    for a compound Poisson process with exponential marks J (for Z) and normal marks J* (for Z* ). *)
From Verif.Model Require Export CppMom Utils Cache.
Local Open Scope Z_scope.

(** ieziziz_mom.py:319, :350 *)
Definition kf_ieziziz : list string :=
  ["e^{kt}"; "e^{ks}"; "t-s"; "k^{-}"; "lmbd"; "mu_v"; "mu_s"; "sigma_s"]%string.

(** ieziziz_mom.py:225-244: the terms in e^{kt}, e^{ks}, t-s, k^{-}, lmbd, mu_v.  The four
    [if]s exclude each other. *)
Definition ejj (n1 n2 : Z) : list (list Z * Q) :=
  if (1 <=? n1) && (n2 =? 0) then
    add_kv [0; n1; -1; 1; 0; n1] (qopp (qz (fact (n1 - 1))))
      (add_kv [n1; 0; -1; 1; 0; n1] (qz (fact (n1 - 1))) [])
  else if (1 <=? n1) && (1 <=? n2) then
    add_kv [0; n1; -1; 1; 0; n1 + n2] (qopp (Frac (fact (n1 + n2)) n1))
      (add_kv [n1; 0; -1; 1; 0; n1 + n2] (Frac (fact (n1 + n2)) n1) [])
  else if (n1 =? 0) && (1 <=? n2) then add_kv [0; 0; 0; 0; 0; n2] (qz (fact n2)) []
  else if (n1 =? 0) && (n2 =? 0) then add_kv [0; 0; 0; 0; 0; 0] 1%Q []
  else [].

(** ieziziz_mom.py:221-253 moment_ejjj *)
Definition moment_ejjj (n1 n2 n3 : Z) : res (Poly (list Z)) :=
  if (n1 <? 0) || (n2 <? 0) || (n3 <? 0) then Err ValueError
  else
    let! pol1 := mnorm n3 in
    Ok (mkPoly (fold_left (fun a kv =>
          fold_left (fun a KV =>
            add_kv (fst kv ++ [nthZ (fst KV) 0; 2 * nthZ (fst KV) 1]) (qmul (snd kv) (snd KV)) a)
            (items pol1) a) (ejj n1 n2) []) kf_ieziziz).

(** Nested key (i, (n11,n21,n31,m1), ..., (n1l,n2l,n3l,ml)) *)
Definition tri : Type := Z * Z * Z.
Definition tkey : Type := Z * list (tri * Z).

(** the loops of :268-273 and :294-299: the first entry with triple [t] gets one more power *)
Fixpoint bump (t : tri) (ps : list (tri * Z)) : option (list (tri * Z)) :=
  match ps with
  | [] => None
  | (t', m) :: r =>
      if keqb t' t then Some ((t', m + 1) :: r)
      else match bump t r with Some r' => Some ((t', m) :: r') | None => None end
  end.

(** ieziziz_mom.py:261-266 *)
Definition unit_of (wrt : Z) : tri :=
  if wrt =? 1 then (1, 0, 0) else if wrt =? 2 then (0, 1, 0) else (0, 0, 1).

(** ieziziz_mom.py:255-276 d1_times_key; not found: [knw.insert(1, ...)] *)
Definition d1_times_key3 (key : tkey) (wrt : Z) : tkey :=
  (fst key + 1, match bump (unit_of wrt) (snd key) with
                | Some ps => ps
                | None => (unit_of wrt, 1) :: snd key
                end).

(** ieziziz_mom.py:288-293 *)
Definition inc (wrt : Z) (t : tri) : tri :=
  match t with
  | (n1, n2, n3) => if wrt =? 1 then (n1 + 1, n2, n3) else if wrt =? 2 then (n1, n2 + 1, n3) else (n1, n2, n3 + 1)
  end.

(** ieziziz_mom.py:281-302: the new list of entries for position j; [pre] are the entries
    before j, [post] those after it. *)
Definition dterm3_ps (wrt : Z) (pre : list (tri * Z)) (t : tri) (m : Z) (post : list (tri * Z)) : list (tri * Z) :=
  let knw := pre ++ (t, m - 1) :: post in
  let knw := match bump (inc wrt t) knw with
             | Some l => l
             | None => knw ++ [(inc wrt t, 1)]
             end in
  match nth_error knw (length pre) with
  | Some (_, 0) => firstn (length pre) knw ++ skipn (S (length pre)) knw
  | _ => knw
  end.

(** ieziziz_mom.py:278-304 dterm *)
Fixpoint dterm3_loop (wrt i : Z) (coef : Q) (pre post : list (tri * Z)) (a : list (tkey * Q))
  : list (tkey * Q) :=
  match post with
  | [] => a
  | (t, m) :: r =>
      dterm3_loop wrt i coef (pre ++ [(t, m)]) r
        (add_kv (i, dterm3_ps wrt pre t m r) (qmul coef (qz m)) a)
  end.
Definition dterm3 (key : tkey) (coef : Q) (wrt : Z) : Poly tkey :=
  mkPoly (dterm3_loop wrt (fst key) coef [] (snd key) []) [].

(** ieziziz_mom.py:306-315 dmgf_ieziziz; keyfor of the intermediate Polys is () *)
Definition dmgf_ieziziz (p : Poly tkey) (wrt : Z) : res (Poly tkey) :=
  let a := fold_left (fun a kv => add_kv (d1_times_key3 (fst kv) wrt) (snd kv) a) (items p) [] in
  foldM (fun s kv => merge s (dterm3 (fst kv) (snd kv) wrt)) (items p) (mkPoly a []).

(** ieziziz_mom.py:324-328 (inside decode): product of moment_ejjj(n1,n2,n3)**m *)
Definition ejjj_prod (ps : list (tri * Z)) : res (Poly (list Z)) :=
  foldM (fun pol1 nm =>
    let! q := moment_ejjj (fst (fst (fst nm))) (snd (fst (fst nm))) (snd (fst nm)) in
    let! qm := ppow q (snd nm) in
    pmul pol1 qm) ps (mkPoly [([0; 0; 0; 0; 0; 0; 0; 0], 1%Q)] kf_ieziziz).

(** ieziziz_mom.py:317-336 decode *)
Definition decode3 (p : Poly tkey) : res (Poly (list Z)) :=
  let! a := foldM (fun a kv =>
    let i := fst (fst kv) in
    let! pol1 := ejjj_prod (snd (fst kv)) in
    Ok (fold_left (fun a kv1 =>
          add_kv (addat 4 i (addat 2 i (fst kv1))) (qmul (snd kv) (snd kv1)) a) (items pol1) a))
    (items p) [] in
  Ok (mkPoly (rm_zero a) kf_ieziziz).

(** ieziziz_mom.py:352 *)
Definition kf_tree : list string := ["(i, (n11, n21, n31, m1), ..., (n1l, n2l, n3l, ml))"%string].

(** ieziziz_mom.py:395-402 and :403-410: one derivative more *)
Definition dstep (M : list (tri * Poly tkey)) (i j l : Z) : res (Poly tkey) :=
  if (0 <? i) && (j =? 0) then let! p := cget (i - 1, j, l) M in dmgf_ieziziz p 1
  else if (i =? 0) && (0 <? j) then let! p := cget (i, j - 1, l) M in dmgf_ieziziz p 2
  else if (i =? 0) && (j =? 0) then let! p := cget (i, j, l - 1) M in dmgf_ieziziz p 3
  else let! p := cget (i, j - 1, l) M in dmgf_ieziziz p 2.

(** ieziziz_mom.py:338-411 moment_ieziziz *)
Definition moment_ieziziz (n1 n2 n3 : Z) : res (Poly (list Z)) :=
  if (n1 <? 0) || (n2 <? 0) || (n3 <? 0) then Err ValueError
  else
    let M := [((0, 0, 0), mkPoly [((0, []), 1%Q)] kf_tree)] in
    if (n1 =? 0) && (n2 =? 0) && (n3 =? 0)
    then Ok (mkPoly [([0; 0; 0; 0; 0; 0; 0; 0], 1%Q)] kf_ieziziz)
    else
      let M := cset (1, 0, 0) (mkPoly [((1, [((1, 0, 0), 1)]), 1%Q)] kf_tree) M in
      let M := cset (0, 1, 0) (mkPoly [((1, [((0, 1, 0), 1)]), 1%Q)] kf_tree) M in
      let M := cset (0, 0, 1) (mkPoly [((1, [((0, 0, 1), 1)]), 1%Q)] kf_tree) M in
      if (n1 =? 1) && (n2 =? 0) && (n3 =? 0)
      then Ok (mkPoly [([1; 0; 0; 1; 1; 1; 0; 0], 1%Q); ([0; 1; 0; 1; 1; 1; 0; 0], (-1)%Q)] kf_ieziziz)
      else if (n1 =? 0) && (n2 =? 1) && (n3 =? 0)
      then Ok (mkPoly [([0; 0; 1; 0; 1; 1; 0; 0], 1%Q)] kf_ieziziz)
      else if (n1 =? 0) && (n2 =? 0) && (n3 =? 1)
      then Ok (mkPoly [([0; 0; 1; 0; 1; 0; 1; 0], 1%Q)] kf_ieziziz)
      else
        let! M := foldM (fun M n =>
          foldM (fun M i =>
            foldM (fun M j =>
              let! q := dstep M i j (n - i - j) in
              Ok (cset (i, j, n - i - j) q M)) (range 0 (n - i + 1)) M) (range 0 (n + 1)) M)
          (range 2 (n1 + n2 + n3)) M in
        let! poln := dstep M n1 n2 n3 in
        decode3 poln.
