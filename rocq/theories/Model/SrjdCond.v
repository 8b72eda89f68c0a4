(** Model of src/ajdmom/mdl_srjd/cond_ie_iez_mom.py, cond_ie_iez_cmom.py, cond_mom.py and cond_cmom.py:
    moments of v_t given v_0 in the square-root jump diffusion.

    cond_ie_iez_mom.py and cond_ie_iez_cmom.py have the same text except for the keyfor strings, the
    function that gives the jump moments (moment_IEZ, cmoment_IEZ) and the constant P2; these are the
    parameters [kf], [mz] and [p2] below.  Line numbers are those of cond_ie_iez_mom.py; "c:" marks the
    lines of cond_ie_iez_cmom.py. *)
From Verif.Model Require Export SrjdIez Cache.
Local Open Scope Z_scope.

(** cond_ie_iez_mom.py:15 *)
Definition kf_ie : list string := ["e^{kt}"; "k^{-}"; "v0-theta"; "theta"; "sigma"; "lmbd"; "mu_v"]%string.
(** c:15 *)
Definition kf_cie : list string := ["e^{kt}"; "k^{-}"; "v0-E[v]"; "E[v]"; "sigma"; "lmbd"; "mu_v"]%string.

(** [del d[k]] *)
Definition cdel1 {I A} `{Key I} (i : I) (c : list (I * A)) : res (list (I * A)) :=
  let! _ := cget i c in Ok (cdel (fun j => keqb j i) c).

Section Ie.
Context (kf : list string) (mz : Z -> res (Poly (list Z))) (p2 : list (list Z * Q)).

(** 11-21 (c:11-21) iez_to_ie_iez *)
Definition iez_to_ie_iez (poly : Poly (list Z)) : Poly (list Z) :=
  mkPoly (fold_left (fun a kv =>
    let k := fst kv in
    add_kv [nthZ k 0; nthZ k 2; 0; 0; 0; nthZ k 3; nthZ k 4] (snd kv) a) (items poly) []) kf.

(** 30-34: the key of the integral; [key[tp+1] += 1] for tp in [1,2,3] *)
Definition ie_key (tp n : Z) (k : list Z) : list Z :=
  let key := addat 1 1 (n :: tl k) in
  if (1 <=? tp) && (tp <=? 3) then addat (Z.to_nat (tp + 1)) 1 key else key.

(** 23-43 (c:23-43) int_e_poly *)
Definition srjd_int_e_poly (c : Q) (tp m : Z) (poly : Poly (list Z)) : res (Poly (list Z)) :=
  let! l := foldM (fun a kv =>
    let k := fst kv in
    let n := nthZ k 0 + m in
    if n =? 0 then Err ValueError
    else Ok (add_kv (ie_key tp 0 k) (qmul (qmul c (snd kv)) (Frac (-1) n))
              (add_kv (ie_key tp n k) (qmul (qmul c (snd kv)) (Frac 1 n)) a))) (items poly) [] in
  Ok (mkPoly l kf).

(** 45-54 (c:45-54) recursive_ie *)
Definition recursive_ie (n : Z) (IE : list (Z * Poly (list Z))) (IEZ : list ((Z * Z) * Poly (list Z)))
  : res (Poly (list Z)) :=
  let poly := mkPoly [] kf in
  if 2 <=? n then
    let c := Frac (n * (n - 1)) 2 in
    let! d := cget (n - 2) IE in
    let! q := srjd_int_e_poly c 1 1 d in
    let! poly := merge poly q in
    let! d := cget (n - 2) IE in
    let! q := srjd_int_e_poly c 2 2 d in
    let! poly := merge poly q in
    let! d := cget (n - 1) IE in
    let! q := srjd_int_e_poly c 3 1 d in
    let! poly := merge poly q in
    let! d := cget (n - 2, 1) IEZ in
    let! q := srjd_int_e_poly c 4 1 d in
    merge poly q
  else Ok poly.

(** 76-79 P0 and P1 *)
Definition ie_p0 : Poly (list Z) := mkPoly [([0; 0; 0; 0; 0; 0; 0], 0%Q)] kf.
Definition ie_p1 : Poly (list Z) := mkPoly [([0; 0; 0; 0; 0; 0; 0], 1%Q)] kf.

(** 115-121: one pass of the loop of moment_ie; [rec] is moment_ie_iez *)
Definition moment_ie_step (rec : Z -> Z -> res (Poly (list Z)))
  (st : list (Z * Poly (list Z)) * list ((Z * Z) * Poly (list Z))) (i : Z)
  : res (list (Z * Poly (list Z)) * list ((Z * Z) * Poly (list Z))) :=
  let '(IE, IEZ) := st in
  let! IEZ := if 3 <? i then let! q := rec (i - 2) 1 in Ok (cset (i - 2, 1) q IEZ) else Ok IEZ in
  let! poly := recursive_ie i IE IEZ in
  let IE := cset i (remove_zero poly) IE in
  let! IE := cdel1 (i - 2) IE in
  let! IEZ := cdel1 (i - 2, 1) IEZ in
  Ok (IE, IEZ).

(** 56-126 (c:56-122) moment_ie; P2 is created without keyfor *)
Definition moment_ie_body (rec : Z -> Z -> res (Poly (list Z))) (n : Z) : res (Poly (list Z)) :=
  if n <? 0 then Err ValueError
  else
    let IE := cset 2 (mkPoly p2 []) (cset 1 ie_p0 (cset 0 ie_p1 [])) in
    if n <=? 2 then cget n IE
    else
      let! z1 := mz 1 in
      let IEZ := cset (1, 1) ie_p0 (cset (0, 1) (iez_to_ie_iez z1) []) in
      let! st := if 3 <? n then foldM (moment_ie_step rec) (range 3 n) (IE, IEZ) else Ok (IE, IEZ) in
      let '(IE, IEZ) := st in
      let! IEZ := if 3 <? n then let! q := rec (n - 2) 1 in Ok (cset (n - 2, 1) q IEZ) else Ok IEZ in
      let! poly := recursive_ie n IE IEZ in
      Ok (remove_zero poly).

(** 128-137 (c:124-133) key_times_poly *)
Definition srjd_key_times_poly (k : list Z) (poly : Poly (list Z)) : Poly (list Z) :=
  mkPoly (fold_left (fun a kv =>
    let key := fst kv in
    add_kv [nthZ k 0 + nthZ key 0; nthZ k 2 + nthZ key 1; nthZ key 2; nthZ key 3; nthZ key 4;
            nthZ k 3 + nthZ key 5; nthZ k 4 + nthZ key 6] (snd kv) a) (items poly) []) kf.

(** 139-160 (c:135-156) recursive_ie_iez; [mie] is moment_ie *)
Definition recursive_ie_iez (mie : Z -> res (Poly (list Z))) (n1 n2 : Z) (IEZ : list ((Z * Z) * Poly (list Z)))
  : res (Poly (list Z)) :=
  let! poly :=
    if (2 <=? n1) && (1 <=? n2) then
      foldM (fun poly i =>
        let! bino := math_comb n2 i in
        let! pol1 := mz (n2 - i) in
        foldM (fun poly kv =>
          let k := fst kv in
          let f := Frac (n1 * (n1 - 1)) 2 in
          let coef := qmul (qmul (qz bino) f) (snd kv) in
          let! d := cget (n1 - 2, i) IEZ in
          let! pol2 := srjd_int_e_poly coef 1 (1 + nthZ k 1) d in
          let! d := cget (n1 - 2, i) IEZ in
          let! q := srjd_int_e_poly coef 2 (2 + nthZ k 1) d in
          let! pol2 := padd pol2 q in
          let! d := cget (n1 - 1, i) IEZ in
          let! q := srjd_int_e_poly coef 3 (1 + nthZ k 1) d in
          let! pol2 := padd pol2 q in
          let! d := cget (n1 - 2, i + 1) IEZ in
          let! q := srjd_int_e_poly coef 4 (1 + nthZ k 1) d in
          let! pol2 := padd pol2 q in
          merge poly (srjd_key_times_poly k pol2)) (items pol1) poly) (range 0 (n2 + 1)) (mkPoly [] kf)
    else Ok (mkPoly [] kf) in
  let! poly := if (2 <=? n1) && (n2 =? 0) then mie n1 else Ok poly in
  let poly := if n1 =? 1 then add_keyval poly [0; 0; 0; 0; 0; 0; 0] 0%Q else poly in
  if n1 =? 0 then let! z := mz n2 in Ok (iez_to_ie_iez z) else Ok poly.

(** 162-219 (c:158-214) moment_ie_iez *)
Definition moment_ie_iez_body (mie : Z -> res (Poly (list Z))) (n1 n2 : Z) : res (Poly (list Z)) :=
  if negb ((0 <=? n1) && (0 <=? n2)) then Err ValueError
  else
    let! z1 := mz 1 in
    let! m2 := mie 2 in
    let! z2 := mz 2 in
    let IEZ := cset (0, 2) (iez_to_ie_iez z2) (cset (1, 1) ie_p0 (cset (2, 0) m2
      (cset (0, 1) (iez_to_ie_iez z1) (cset (1, 0) ie_p0 (cset (0, 0) ie_p1 []))))) in
    if n1 + n2 <=? 2 then cget (n1, n2) IEZ
    else
      let! IEZ :=
        if 3 <? n1 + n2 then
          foldM (fun IEZ n =>
            foldM (fun IEZ i =>
              let! poly := recursive_ie_iez mie i (n - i) IEZ in
              Ok (cset (i, n - i) (remove_zero poly) IEZ)) (range 0 (n + 1)) IEZ) (range 3 (n1 + n2)) IEZ
        else Ok IEZ in
      let! poly := recursive_ie_iez mie n1 n2 IEZ in
      Ok (remove_zero poly).

(** moment_ie(n) and moment_ie_iez(n1, n2) call each other: moment_ie(n) calls moment_ie_iez at total
    order at most n - 1 and moment_ie_iez calls moment_ie at order at most n1 + n2.  The recursion is
    bounded by [fuel]; running out is the error OutOfFuel. *)
Fixpoint miz (fuel : nat) (n1 n2 : Z) : res (Poly (list Z)) :=
  match fuel with
  | O => Err OutOfFuel
  | S f => moment_ie_iez_body (moment_ie_body (miz f)) n1 n2
  end.
Definition mie_f (n : Z) : res (Poly (list Z)) := moment_ie_body (miz (Z.to_nat n)) n.
Definition miz_f (n1 n2 : Z) : res (Poly (list Z)) := miz (S (Z.to_nat (n1 + n2))) n1 n2.
End Ie.

(** 89-97 *)
Definition ie_p2 : list (list Z * Q) :=
  [([1; 1; 1; 0; 0; 0; 0], 1%Q); ([0; 1; 1; 0; 0; 0; 0], (-1)%Q);
   ([2; 1; 0; 1; 0; 0; 0], (1 # 2)%Q); ([0; 1; 0; 1; 0; 0; 0], (- 1 # 2)%Q);
   ([2; 2; 0; 0; 0; 1; 1], (1 # 2)%Q); ([1; 2; 0; 0; 0; 1; 1], (-1)%Q); ([0; 2; 0; 0; 0; 1; 1], (1 # 2)%Q)].
(** c:89-94 *)
Definition cie_p2 : list (list Z * Q) :=
  [([1; 1; 1; 0; 0; 0; 0], 1%Q); ([0; 1; 1; 0; 0; 0; 0], (-1)%Q);
   ([2; 1; 0; 1; 0; 0; 0], (1 # 2)%Q); ([0; 1; 0; 1; 0; 0; 0], (- 1 # 2)%Q)].

(** cond_ie_iez_mom.py: moment_ie, moment_ie_iez *)
Definition moment_ie : Z -> res (Poly (list Z)) := mie_f kf_ie moment_IEZ ie_p2.
Definition moment_ie_iez : Z -> Z -> res (Poly (list Z)) := miz_f kf_ie moment_IEZ ie_p2.
(** cond_ie_iez_cmom.py: moment_ie, cmoment_ie_iez *)
Definition cmoment_ie : Z -> res (Poly (list Z)) := mie_f kf_cie cmoment_IEZ cie_p2.
Definition cmoment_ie_iez : Z -> Z -> res (Poly (list Z)) := miz_f kf_cie cmoment_IEZ cie_p2.

(** cond_mom.py:10-34 moment_x *)
Definition srjd_moment_x (n : Z) : res (Poly (list Z)) :=
  let! l := foldM (fun a i =>
    let! bino := math_comb n i in
    let! poln := moment_ie_iez i (n - i) in
    Ok (fold_left (fun a kv => add_kv (addat 4 i (fst kv)) (qmul (qz bino) (snd kv)) a) (items poln) a))
    (range 0 (n + 1)) [] in
  Ok (mkPoly (rm_zero l) kf_ie).

(** cond_mom.py:36-61 moment_v *)
Definition srjd_cond_moment_v (n : Z) : res (Poly (list Z)) :=
  let! l := foldM (fun a i =>
    let! bino1 := math_comb n i in
    foldM (fun a j =>
      let! bino2 := math_comb (n - i) j in
      let! poln := srjd_moment_x (n - i - j) in
      Ok (fold_left (fun a kv =>
            add_kv (addat 3 j (addat 2 i (addat 0 (- (n - j)) (fst kv))))
                   (qmul (qz (bino1 * bino2)) (snd kv)) a) (items poln) a))
      (range 0 (n - i + 1)) a) (range 0 (n + 1)) [] in
  Ok (mkPoly (rm_zero l) kf_ie).

(** cond_cmom.py:10-39 cmoment_x *)
Definition srjd_cmoment_x (n : Z) : res (Poly (list Z)) :=
  let! l := foldM (fun a i =>
    let! bino1 := math_comb n i in
    let! poln := srjd_moment_x i in
    foldM (fun a j =>
      let! bino2 := math_comb (n - i) j in
      Ok (fold_left (fun a kv =>
            add_kv (addat 6 (n - i) (addat 5 (n - i) (addat 1 (n - i) (addat 0 j (fst kv)))))
                   (qmul (qmul (qz (bino1 * bino2)) (snd kv)) (qz (sgn1 j))) a) (items poln) a))
      (range 0 (n - i + 1)) a) (range 0 (n + 1)) [] in
  Ok (mkPoly (rm_zero l) kf_ie).

(** cond_cmom.py:41-67 cmoment_v *)
Definition srjd_cond_cmoment_v (n : Z) : res (Poly (list Z)) :=
  let! l := foldM (fun a i =>
    let! bino1 := math_comb n i in
    foldM (fun a j =>
      let! bino2 := math_comb (n - i) j in
      let! poln := srjd_moment_x i in
      Ok (fold_left (fun a kv =>
            add_kv (addat 6 (n - i) (addat 5 (n - i) (addat 1 (n - i) (addat 0 (- (i + j)) (fst kv)))))
                   (qmul (qz (bino1 * bino2 * sgn1 (n - i - j))) (snd kv)) a) (items poln) a))
      (range 0 (n - i + 1)) a) (range 0 (n + 1)) [] in
  Ok (mkPoly (rm_zero l) kf_ie).
