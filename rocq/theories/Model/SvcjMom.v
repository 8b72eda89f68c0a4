(** Model of src/ajdmom/mdl_svcj/cond_mom.py, cond_cmom.py, mom.py and cmom.py: conditional and
    stationary moments and central moments of the return of the SVCJ model. *)
From Verif.Model Require Export SvcjCond SrjdStat Utils.
Local Open Scope Z_scope.

(** cond_mom.py:59-61, 87-89 *)
Definition kf13 : list string :=
  ["e^{kt}"; "t"; "k^{-}"; "mu"; "v0-theta"; "theta"; "sigma"; "rho"; "lmbd"; "mu_v"; "rhoJ"; "mu_s"; "sigma_s"]%string.
(** cond_mom.py:13-15 and 98 [kf.insert(8, 'sqrt(1-rho^2)')] *)
Definition kf14 : list string :=
  ["e^{kt}"; "t"; "k^{-}"; "mu"; "v0-theta"; "theta"; "sigma"; "rho"; "sqrt(1-rho^2)"; "lmbd"; "mu_v"; "rhoJ"; "mu_s"; "sigma_s"]%string.

(** cond_mom.py:12-34 b_n *)
Definition svcj_b_n (n1 n2 n3 n4 n5 n6 n7 n8 : Z) : res (Poly (list Z)) :=
  let! l := foldM (fun a i1 =>
    foldM (fun a i2 =>
      foldM (fun a i3 =>
        foldM (fun a i4 =>
          let! bino1 := math_comb n2 i1 in
          let! bino2 := math_comb n5 i2 in
          let! bino3 := math_comb n7 i3 in
          let! bino4 := math_comb n8 i4 in
          let bino := bino1 * bino2 * bino3 * bino4 in
          let c := qmul (qz (sgn1 (i1 + i2 + i3 + i4))) (Frac bino (2 ^ (n1 + n4 + i1 + i2 + i3 + n8))) in
          Ok (add_kv [- (n1 + n4 + n8 - i4); n7; n1 + n4 + i1 + i2 + n8; n7 - i3; n8; i3; n1 + i1; n2 - i1; n3;
                      0; 0; n5 - i2; 0; 0] c a))
          (range 0 (n8 + 1)) a) (range 0 (n7 + 1)) a) (range 0 (n5 + 1)) a) (range 0 (n2 + 1)) [] in
  Ok (mkPoly l kf14).

(** [list.index], used at cond_mom.py:42; ValueError if absent *)
Fixpoint index_of (s : string) (l : list string) : res nat :=
  match l with
  | [] => Err ValueError
  | x :: r => if String.eqb x s then Ok O else let! i := index_of s r in Ok (S i)
  end.
(** [key[i] = v], cond_mom.py:49 *)
Fixpoint setat (i : nat) (v : Z) (l : list Z) : list Z :=
  match l, i with
  | [], _ => []
  | _ :: r, O => v :: r
  | x :: r, S i => x :: setat i v r
  end.
(** cond_mom.py:40-42 [new_keyfor.index(k) for k in poly.keyfor] *)
Fixpoint indexes (kf new_kf : list string) : res (list nat) :=
  match kf with
  | [] => Ok []
  | s :: r => let! i := index_of s new_kf in let! t := indexes r new_kf in Ok (i :: t)
  end.
(** cond_mom.py:48-49 [for i in range(n): key[index[i]] = k[i]] *)
Fixpoint place (idx : list nat) (k key : list Z) : list Z :=
  match idx, k with
  | i :: idx, x :: k => place idx k (setat i x key)
  | _, _ => key
  end.

(** cond_mom.py:37-51 enlarge *)
Definition enlarge (poly : Poly (list Z)) (new_kf : list string) : res (Poly (list Z)) :=
  let! idx := indexes (keyfor poly) new_kf in
  Ok (mkPoly (fold_left (fun a kv => add_kv (place idx (fst kv) (map (fun _ => 0) new_kf)) (snd kv) a) (items poly) []) new_kf).

(** cond_mom.py:54-75 expand_sqrt *)
Definition svcj_expand_sqrt (poly : Poly (list Z)) : res (Poly (list Z)) :=
  let! l := foldM (fun a kv =>
    let k := fst kv in
    if negb (nthZ k 8 mod 2 =? 0) then Err BareException
    else
      foldM (fun a i =>
        let! b := math_comb (nthZ k 8 / 2) i in
        Ok (add_kv (dropat 8 (addat 7 (2 * i) k)) (qmul (qz (sgn1 i * b)) (snd kv)) a))
        (range 0 (nthZ k 8 / 2 + 1)) a) (items poly) [] in
  Ok (mkPoly l kf13).

(** cond_mom.py:101-108: [m] nested loops [for n1 in range(n+1): for n2 in range(n-n1+1): ...] followed by
    [n_{m+1} = n - n1 - ... - n_m] *)
Fixpoint nestu {S : Type} (m : nat) (l : Z) (acc : list Z) (body : S -> list Z -> res S) (s : S) : res S :=
  match m with
  | O => body s (acc ++ [l])
  | Datatypes.S m' => foldM (fun s n => nestu m' (l - n) (acc ++ [n]) body s) (range 0 (l + 1)) s
  end.

(** cond_mom.py:109-122: the body of the loops *)
Definition svcj_body (n : Z) (poly : Poly (list Z)) (ns : list Z) : res (Poly (list Z)) :=
  match ns with
  | [n1; n2; n3; n4; n5; n6; n7; n8] =>
      let! c := comb n [n1; n2; n3; n4; n5; n6; n7; n8] in
      let! pol1 := svcj_b_n n1 n2 n3 n4 n5 n6 n7 n8 in
      let! pol2 := moment_ieii6 n1 n2 n3 n4 n5 n6 in
      let! pol2 := enlarge pol2 (keyfor pol1) in
      let! q := pmul pol1 pol2 in
      merge poly (rmul (qz c) q)
  | _ => Err IndexError
  end.

(** cond_mom.py:92-93 and cond_cmom.py:27-28 *)
Definition svcj_one : Poly (list Z) := mkPoly [([0; 0; 0; 0; 0; 0; 0; 0; 0; 0; 0; 0; 0], 1%Q)] kf13.

(** cond_mom.py:78-123 moment_y *)
Definition svcj_moment_y (n : Z) : res (Poly (list Z)) :=
  if n <? 0 then Err ValueError
  else if n =? 0 then Ok svcj_one
  else
    let! poly := nestu 7 n [] (svcj_body n) (mkPoly [] kf14) in
    svcj_expand_sqrt poly.

(** The loop of cond_cmom.py:33-38 and cmom.py:40-45, [mom] is moment_y, [one] the poly 1 *)
Definition central_loop (mom : Z -> res (Poly (list Z))) (one mean : Poly (list Z)) (kf : list string) (n : Z)
  : res (Poly (list Z)) :=
  foldM (fun poly i =>
    let! bino := math_comb n i in
    let! pol1 := if i =? 0 then Ok one else ppow mean i in
    let! m := mom (n - i) in
    let! q := pmul pol1 m in
    merge poly (rmul (qz (bino * sgn1 i)) q)) (range 0 (n + 1)) (mkPoly [] kf).

(** cond_cmom.py:10-39 cmoment_y *)
Definition svcj_cmoment_y (n : Z) : res (Poly (list Z)) :=
  let! mean := svcj_moment_y 1 in
  if n <? 0 then Err ValueError
  else if n =? 0 then Ok svcj_one
  else central_loop svcj_moment_y svcj_one mean kf13 n.

(** mom.py:11-36 moment_v_theta *)
Definition moment_v_theta (n : Z) : res (Poly (list Z)) :=
  let! l := foldM (fun a i =>
    let! bino := math_comb n i in
    let! u := stat_cmoment_v (n - i) in
    Ok (fold_left (fun a kv => add_kv (addat 4 i (addat 3 i (addat 0 i (fst kv)))) (qmul (snd kv) (qz bino)) a) (items u) a))
    (range 0 (n + 1)) [] in
  Ok (mkPoly l kf_stat).

(** mom.py:46-48, 81-83 *)
Definition kf13s : list string :=
  ["e^{kt}"; "t"; "k^{-}"; "mu"; "E[v]"; "theta"; "sigma"; "rho"; "lmbd"; "mu_v"; "rhoJ"; "mu_s"; "sigma_s"]%string.

(** mom.py:38-67 key_times_poly *)
Definition svcj_stat_key_times (coef : Q) (k : list Z) (poly : Poly (list Z)) : Poly (list Z) :=
  mkPoly (fold_left (fun a kv =>
    let K := fst kv in
    add_kv [nthZ k 0; nthZ k 1; nthZ k 2 + nthZ K 0; nthZ k 3; nthZ K 1; nthZ k 5; nthZ k 6 + nthZ K 2; nthZ k 7;
            nthZ k 8 + nthZ K 3; nthZ k 9 + nthZ K 4; nthZ k 10; nthZ k 11; nthZ k 12]
           (qmul coef (snd kv)) a) (items poly) []) kf13s.

(** mom.py:69-92 moment_y *)
Definition svcj_stat_moment_y (n : Z) : res (Poly (list Z)) :=
  let! poly := svcj_moment_y n in
  foldM (fun poln kv =>
    let! pol1 := moment_v_theta (nthZ (fst kv) 4) in
    merge poln (svcj_stat_key_times (snd kv) (fst kv) pol1)) (items poly) (mkPoly [] kf13s).

(** cmom.py:30-33 *)
Definition svcj_stat_zero : Poly (list Z) := mkPoly [([0; 0; 0; 0; 0; 0; 0; 0; 0; 0; 0; 0; 0], 0%Q)] kf13s.
Definition svcj_stat_one : Poly (list Z) := mkPoly [([0; 0; 0; 0; 0; 0; 0; 0; 0; 0; 0; 0; 0], 1%Q)] kf13s.

(** cmom.py:10-46 cmoment_y *)
Definition svcj_stat_cmoment_y (n : Z) : res (Poly (list Z)) :=
  if n <? 0 then Err ValueError
  else
    let! mean := svcj_stat_moment_y 1 in
    if n =? 0 then Ok svcj_stat_one
    else if n =? 1 then Ok svcj_stat_zero
    else central_loop svcj_stat_moment_y svcj_stat_one mean kf13s n.

(** cmom.py:55-59 *)
Definition kf12 : list string :=
  ["e^{-kt}"; "t"; "k^{-}"; "E[v]"; "theta"; "sigma"; "rho"; "lmbd"; "mu_v"; "rhoJ"; "mu_s"; "sigma_s"]%string.

(** cmom.py:53-68 remove_mu_column *)
Definition remove_mu_column (poly : Poly (list Z)) : res (Poly (list Z)) :=
  let! l := foldM (fun a kv =>
    let k := fst kv in
    if nthZ k 3 =? 0 then Ok (add_kv ([- nthZ k 0; nthZ k 1; nthZ k 2] ++ skipn 4 k) (snd kv) a)
    else Err BareException) (items (remove_zero poly)) [] in
  Ok (mkPoly l kf12).
