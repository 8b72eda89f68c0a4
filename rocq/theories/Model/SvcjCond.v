(** Model of src/ajdmom/mdl_svcj/cond_ieii_ieziziz_mom.py: conditional joint moments of
    IE_t, I_t, I*_t, IEZ_t, IZ_t, IZ*_t given v_0. *)
From Verif.Model Require Export SvcjIez ItoMom.
Local Open Scope Z_scope.

(** 165-166, 191-192, 217-218, 236-237, 308-309 *)
Definition kf_ieii6 : list string :=
  ["e^{kt}"; "t"; "k^{-}"; "v0-theta"; "theta"; "sigma"; "lmbd"; "mu_v"; "mu_s"; "sigma_s"]%string.
(** 179 *)
Definition kf_ex9 : list string :=
  ["e^{kt}"; "t"; "e^{ks}"; "s"; "k^{-}"; "lmbd"; "mu_v"; "mu_s"; "sigma_s"]%string.

(** 162-172 ieziziz_to_ieii_ieziziz *)
Definition ieziziz_to_ieii (poly : Poly (list Z)) : Poly (list Z) :=
  mkPoly (fold_left (fun a kv =>
    let k := fst kv in
    add_kv [nthZ k 0; nthZ k 2; nthZ k 3; 0; 0; 0; nthZ k 4; nthZ k 5; nthZ k 6; nthZ k 7] (snd kv) a)
    (items poly) []) kf_ieii6.

(** 175-187 expand_ieziziz *)
Definition expand_ieziziz (poly : Poly (list Z)) : res (Poly (list Z)) :=
  let! l := foldM (fun a kv =>
    let k := fst kv in
    foldM (fun a i =>
      let! bino := math_comb (nthZ k 2) i in
      let j := nthZ k 2 - i in
      Ok (add_kv ([nthZ k 0; i; nthZ k 1; j] ++ skipn 3 k) (qmul (qz (bino * sgn1 j)) (snd kv)) a))
      (range 0 (nthZ k 2 + 1)) a) (items poly) [] in
  Ok (mkPoly l kf_ex9).

(** 201-206: the key of one produced term; K is a key of int_et; [key[tp+2] += 1] for tp in [1,2,3] *)
Definition ies_key (tp : Z) (k K : list Z) : list Z :=
  let key := addat 2 (nthZ k 2) K ++ skipn 3 k in
  if (1 <=? tp) && (tp <=? 3) then addat (Z.to_nat (tp + 2)) 1 key else key.

(** 190-208 int_e_s_poly *)
Definition int_e_s_poly (c : Q) (tp m1 m2 : Z) (poly : Poly (list Z)) : res (Poly (list Z)) :=
  let! l := foldM (fun a kv =>
    let k := fst kv in
    let n1 := nthZ k 0 + m1 in
    let n2 := nthZ k 1 + m2 in
    let! pol1 := int_et n1 n2 in
    Ok (fold_left (fun a KV => add_kv (ies_key tp k (fst KV)) (qmul (qmul c (snd kv)) (snd KV)) a)
        (items pol1) a)) (items poly) [] in
  Ok (mkPoly l kf_ieii6).

(** 211-232 key_times_poly *)
Definition svcj_key_times_poly (k : list Z) (poly : Poly (list Z)) : Poly (list Z) :=
  mkPoly (fold_left (fun a kv =>
    let key := fst kv in
    add_kv [nthZ key 0 + nthZ k 0; nthZ key 1 + nthZ k 1; nthZ key 2 + nthZ k 4; nthZ key 3; nthZ key 4;
            nthZ key 5; nthZ key 6 + nthZ k 5; nthZ key 7 + nthZ k 6; nthZ key 8 + nthZ k 7;
            nthZ key 9 + nthZ k 8] (snd kv) a) (items poly) []) kf_ieii6.

Notation idx6 := (Z * Z * Z * Z * Z * Z)%type.
Definition cache6 := list (idx6 * Poly (list Z)).

(** One of the four branches 254-260, 261-267, 268-274, 275-281 (each after the line that computes c).
    They have the same text except for the orders read from the table and the shift m of the power
    of e^{ks}: (n1-2,n2,n3) and 1, (n1,n2-2,n3) and -1, (n1-1,n2-1,n3) and 0, (n1,n2,n3-2) and -1. *)
Definition svcj_branch (T : cache6) (k : list Z) (c : Q) (m a1 a2 a3 i1 i2 i3 : Z) (poly : Poly (list Z))
  : res (Poly (list Z)) :=
  let! d := cget (a1, a2, a3, i1, i2, i3) T in
  let! pol2 := int_e_s_poly c 1 (nthZ k 2 + m) (nthZ k 3) d in
  let! d := cget (a1, a2, a3, i1, i2, i3) T in
  let! q := int_e_s_poly c 2 (nthZ k 2 + (m + 1)) (nthZ k 3) d in
  let! pol2 := padd pol2 q in
  let! d := cget (a1 + 1, a2, a3, i1, i2, i3) T in
  let! q := int_e_s_poly c 3 (nthZ k 2 + m) (nthZ k 3) d in
  let! pol2 := padd pol2 q in
  let! d := cget (a1, a2, a3, i1 + 1, i2, i3) T in
  let! q := int_e_s_poly c 4 (nthZ k 2 + m) (nthZ k 3) d in
  let! pol2 := padd pol2 q in
  merge poly (svcj_key_times_poly k pol2).

(** 253-282: the body of the loop over one term of pol1 *)
Definition svcj_item (T : cache6) (bino n1 n2 n3 i1 i2 i3 : Z) (poly : Poly (list Z)) (kv : list Z * Q)
  : res (Poly (list Z)) :=
  let k := fst kv in
  let v := snd kv in
  let! poly :=
    if (2 <=? n1) && (0 <=? n2) && (0 <=? n3) then
      let c := qmul (qmul (qz bino) (Frac (n1 * (n1 - 1)) 2)) v in
      svcj_branch T k c 1 (n1 - 2) n2 n3 i1 i2 i3 poly
    else Ok poly in
  let! poly :=
    if (0 <=? n1) && (2 <=? n2) && (0 <=? n3) then
      let c := qmul (qmul (qz bino) (Frac (n2 * (n2 - 1)) 2)) v in
      svcj_branch T k c (-1) n1 (n2 - 2) n3 i1 i2 i3 poly
    else Ok poly in
  let! poly :=
    if (1 <=? n1) && (1 <=? n2) && (0 <=? n3) then
      let c := qmul (qz (bino * n1 * n2)) v in
      svcj_branch T k c 0 (n1 - 1) (n2 - 1) n3 i1 i2 i3 poly
    else Ok poly in
  if (0 <=? n1) && (0 <=? n2) && (2 <=? n3) then
    let c := qmul (qmul (qz bino) (Frac (n3 * (n3 - 1)) 2)) v in
    svcj_branch T k c (-1) n1 n2 (n3 - 2) i1 i2 i3 poly
  else Ok poly.

(** 235-284 recursive_ieii_ieziziz *)
Definition recursive_ieii6 (n1 n2 n3 n4 n5 n6 : Z) (T : cache6) : res (Poly (list Z)) :=
  if (n1 =? 0) && (n2 =? 0) && (n3 =? 0) then
    let! z := moment_ieziziz n4 n5 n6 in Ok (ieziziz_to_ieii z)
  else
    foldM (fun poly i1 =>
      foldM (fun poly i2 =>
        foldM (fun poly i3 =>
          let! bino1 := math_comb n4 i1 in
          let! bino2 := math_comb n5 i2 in
          let! bino3 := math_comb n6 i3 in
          let bino := bino1 * bino2 * bino3 in
          let! z := moment_ieziziz (n4 - i1) (n5 - i2) (n6 - i3) in
          let! pol1 := expand_ieziziz z in
          match items pol1 with
          | [] => Err BareException
          | _ => foldM (svcj_item T bino n1 n2 n3 i1 i2 i3) (items pol1) poly
          end) (range 0 (n6 + 1)) poly) (range 0 (n5 + 1)) poly) (range 0 (n4 + 1)) (mkPoly [] kf_ieii6).

(** 313-316 P0 and P1 *)
Definition svcj_p0 : Poly (list Z) := mkPoly [([0; 0; 0; 0; 0; 0; 0; 0; 0; 0], 0%Q)] kf_ieii6.
Definition svcj_p1 : Poly (list Z) := mkPoly [([0; 0; 0; 0; 0; 0; 0; 0; 0; 0], 1%Q)] kf_ieii6.

(** 287-346 moment_ieii_ieziziz *)
Definition moment_ieii6 (n1 n2 n3 n4 n5 n6 : Z) : res (Poly (list Z)) :=
  if (n1 <? 0) || (n2 <? 0) || (n3 <? 0) || (n4 <? 0) || (n5 <? 0) || (n6 <? 0) then Err ValueError
  else
    let T := cset (0, 0, 1, 0, 0, 0) svcj_p0 (cset (0, 1, 0, 0, 0, 0) svcj_p0
      (cset (1, 0, 0, 0, 0, 0) svcj_p0 (cset (0, 0, 0, 0, 0, 0) svcj_p1 []))) in
    let! z := moment_ieziziz 1 0 0 in
    let T := cset (0, 0, 0, 1, 0, 0) (ieziziz_to_ieii z) T in
    let! z := moment_ieziziz 0 1 0 in
    let T := cset (0, 0, 0, 0, 1, 0) (ieziziz_to_ieii z) T in
    let! z := moment_ieziziz 0 0 1 in
    let T := cset (0, 0, 0, 0, 0, 1) (ieziziz_to_ieii z) T in
    let! T := foldM (fun T n =>
      foldM (fun T i1 =>
        foldM (fun T i2 =>
          foldM (fun T i3 =>
            foldM (fun T i4 =>
              foldM (fun T i5 =>
                let i6 := n - i1 - i2 - i3 - i4 - i5 in
                let! poly := recursive_ieii6 i1 i2 i3 i4 i5 i6 T in
                Ok (cset (i1, i2, i3, i4, i5, i6) poly T))
                (range 0 (n - i1 - i2 - i3 - i4 + 1)) T)
              (range 0 (n - i1 - i2 - i3 + 1)) T)
            (range 0 (n - i1 - i2 + 1)) T)
          (range 0 (n - i1 + 1)) T)
        (range 0 (n + 1)) T)
      (range 2 (n1 + n2 + n3 + n4 + n5 + n6)) T in
    recursive_ieii6 n1 n2 n3 n4 n5 n6 T.
