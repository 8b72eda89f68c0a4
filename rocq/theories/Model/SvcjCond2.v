(** Model of src/ajdmom/mdl_svcj/{cond2_mom,cond2_cmom}.py: the SVCJ model given v_0 and the
    jumps of the variance.  Of the argument J the functions only use len(J), here [nJ]. *)
From Coq Require Import Reals Qreals.
From Verif.Model Require Export Svvj.
Local Open Scope Z_scope.

(** cond2_mom.py:22, 51, 79 *)
Definition kf_ncond : list string := ["mu_s"; "rho_J"; "sigma_s"; "J_i"]%string.
Definition kf_izs : list string := ["mu_s"; "rho_J"; "sigma_s"; "J_{1:n}"]%string.

(** cond2_mom.py:14-39 mnorm_cond; math.comb(k[0], i) never raises since 0 <= i <= k[0] *)
Definition mnorm_cond (n : Z) : res (Poly (list Z)) :=
  if n =? 0 then Ok (mkPoly [([0; 0; 0; 0], Frac 1 1)] kf_ncond)
  else
    let! poln := mnorm n in
    Ok (mkPoly (fold_left (fun a kv =>
      let k0 := nthZ (fst kv) 0 in
      fold_left (fun a i =>
        add_kv [i; k0 - i; 2 * nthZ (fst kv) 1; k0 - i] (qmul (qz (mcomb k0 i)) (snd kv)) a)
        (range 0 (k0 + 1)) a) (items poln) []) kf_ncond).

(** keys ('mu_s', 'rho_J', 'sigma_s', 'J_{1:n}'): three ints and a tuple *)
Definition izkey : Type := (list Z * list Z)%type.

(** cond2_mom.py:61-65: one factor *)
Definition comb_poly_step (poly : Poly izkey) (i : Z) : res (Poly izkey) :=
  let! pol1 := mnorm_cond i in
  Ok (mkPoly (fold_left (fun a kv1 => fold_left (fun a kv2 =>
        let k1 := fst kv1 in let k2 := fst (fst kv2) in
        add_kv ([nthZ k1 0 + nthZ k2 0; nthZ k1 1 + nthZ k2 1; nthZ k1 2 + nthZ k2 2], snd (fst kv2) ++ [nthZ k1 3])
          (qmul (snd kv1) (snd kv2)) a) (items poly) a) (items pol1) []) kf_izs).
(** cond2_mom.py:42-67 comb_poly *)
Definition comb_poly (index : list Z) : res (Poly izkey) :=
  foldM comb_poly_step index (mkPoly [(([0; 0; 0], []), Frac 1 1)] kf_izs).

(** cond2_mom.py:126-130: what is done with one index *)
Definition izs_leaf (m : Z) (index : list Z) (a : res (Poly izkey)) : res (Poly izkey) :=
  let! poly := a in
  let! c := comb m index in
  let! poln := comb_poly index in
  padd poly (rmul (qz c) poln).

(** cond2_mom.py:70-146 moment_IZs; the while loop 115-145 is that of multilevel_comb (comb_step) *)
Definition moment_IZs (m : Z) (nJ : nat) : res (Poly izkey) :=
  if m =? 0 then Ok (mkPoly [(([0; 0; 0], rep 0 (Z.of_nat nJ)), Frac 1 1)] kf_izs)
  else match nJ with
  | O => Ok (mkPoly [(([0; 0; 0], []), Frac 0 1)] kf_izs)
  | 1%nat =>
      let! poln := mnorm_cond m in
      Ok (mkPoly (fold_left (fun a kv => let k := fst kv in
        add_kv ([nthZ k 0; nthZ k 1; nthZ k 2], [nthZ k 3]) (snd kv) a) (items poln) []) kf_izs)
  | 2%nat =>
      let! a := foldM (fun a i =>
        let! c := math_comb m i in
        let! pol1 := mnorm_cond i in
        let! pol2 := mnorm_cond (m - i) in
        Ok (fold_left (fun a kv1 => fold_left (fun a kv2 =>
          let k1 := fst kv1 in let k2 := fst kv2 in
          add_kv ([nthZ k1 0 + nthZ k2 0; nthZ k1 1 + nthZ k2 1; nthZ k1 2 + nthZ k2 2], [nthZ k1 3; nthZ k2 3])
            (qmul (qmul (qz c) (snd kv1)) (snd kv2)) a) (items pol2) a) (items pol1) a)) (range 0 (m + 1)) [] in
      Ok (mkPoly a kf_izs)
  | _ =>
      let n := Z.of_nat nJ in
      let! r := to_res (run (index_fuel n m) (comb_step n m (izs_leaf m)) (mkSt true [] (Ok (mkPoly [] kf_izs)))) in r
  end.

(** ** conditional moments.  Keys: those of svvj with 'mu_s', 'rho_J', 'sigma_s' appended, and the
    tuple 'J_{1:n}', absent in the key of the order-0 entry. *)
Definition option_eqb {A} `{Key A} (x y : option A) : bool :=
  match x, y with Some a, Some b => keqb a b | None, None => true | _, _ => false end.
Lemma option_eqb_spec {A} `{Key A} (x y : option A) : option_eqb x y = true <-> x = y.
Proof.
  destruct x as [x|], y as [y|]; cbn [option_eqb]; try (split; [discriminate|discriminate]).
  - split; [intro E; apply keqb_spec in E; now subst|intro E; injection E as ->; now apply keqb_spec].
  - now split.
Qed.
#[global] Instance Key_option {A} `{Key A} : Key (option A) :=
  {| keqb := option_eqb; keqb_spec := option_eqb_spec |}.
Notation cjkey := (svkey * option (list Z))%type.

Section Iez.
Context (iez : Q -> Z -> Poly jkey -> res (Poly jkey)).

(** cond2_mom.py:183: k1 + k2 *)
Definition cj_mkey (k1 : svkey) (k2 : izkey) : cjkey := ((fst k1, snd k1 ++ fst k2), Some (snd k2)).
(** cond2_cmom.py:132: k1 + k2 *)
Definition cj_ckey (k1 : svkey) (k2 : list Z) : svkey := (fst k1, snd k1 ++ k2).

(** cond2_mom.py:175-185 and cond2_cmom.py:124-134: the entry of order n *)
Definition cj_n {K2 K} `{Key K} (jm : Z -> res (Poly K2)) (key : svkey -> K2 -> K) (kf : list string)
  (cs : list (Poly svkey)) (n : Z) : res (Poly K) :=
  let! a := foldM (fun a n1 =>
    let! c := math_comb n n1 in
    let! pol1 := getp cs n1 in
    let! pol2 := jm (n - n1) in
    Ok (fold_left (fun a kv1 => fold_left (fun a kv2 =>
          add_kv (key (fst kv1) (fst kv2)) (qmul (qmul (qz c) (snd kv1)) (snd kv2)) a) (items pol2) a)
        (items pol1) a)) (range_down n) [] in
  Ok (remove_zero (mkPoly a kf)).

(** cond2_mom.py:149-187 moments_y_to *)
Definition kf_cjm (kf : list string) : list string := kf ++ kf_izs.
Definition cj_moments_with (l : Z) (nJ : nat) : res (list (Poly cjkey)) :=
  let! ms := sv_moments_with iez l in
  let! m0 := getp ms 0 in
  let kf := kf_cjm (keyfor m0) in
  let P1 := mkPoly [(((([0;0;0;0;0;0;0;0], ([], [], [], [])), [0;0;0;0]), None), Frac 1 1)] kf in
  foldM (fun moms n => let! p := cj_n (fun m => moment_IZs m nJ) cj_mkey kf ms n in Ok (moms ++ [p])) (range 1 (l + 1)) [P1].
(** cond2_mom.py:190-192 moment_y *)
Definition cj_moment_with (l : Z) (nJ : nat) : res (Poly cjkey) :=
  let! ms := cj_moments_with l nJ in lastp ms.

(** ** conditional central moments *)
Definition kf_sgs : list string := ["sigma_s"]%string.
Definition set_kf {K} (kf : list string) (p : Poly K) : Poly K := mkPoly (items p) kf.

(** cond2_cmom.py:65-73: what is done with one index *)
Definition cizs_leaf (m : Z) (index : list Z) (a : res (Poly (list Z))) : res (Poly (list Z)) :=
  let! poly := a in
  let! c := comb m index in
  let! poln := foldM (fun poln i => pmul poln (cmnorm i)) index (mkPoly [([0], Frac 1 1)] ["sigma"%string]) in
  padd poly (rmul (qz c) (set_kf kf_sgs poln)).

(** cond2_cmom.py:13-89 cmoment_IZs *)
Definition cmoment_IZs (m : Z) (nJ : nat) : res (Poly (list Z)) :=
  if m =? 0 then Ok (mkPoly [([0], Frac 1 1)] kf_sgs)
  else match nJ with
  | O => Ok (mkPoly [([0], Frac 0 1)] kf_sgs)
  | 1%nat => Ok (set_kf kf_sgs (cmnorm m))
  | 2%nat =>
      foldM (fun poly i =>
        let! c := math_comb m i in
        let! poln := pmul (cmnorm i) (cmnorm (m - i)) in
        merge poly (rmul (qz c) (set_kf kf_sgs poln))) (range 0 (m + 1)) (mkPoly [] kf_sgs)
  | _ =>
      let n := Z.of_nat nJ in
      let! r := to_res (run (index_fuel n m) (comb_step n m (cizs_leaf m)) (mkSt true [] (Ok (mkPoly [] kf_sgs)))) in r
  end.

(** cond2_cmom.py:92-136 cmoments_y_to *)
Definition kf_cjc (kf : list string) : list string := kf ++ kf_sgs.
Definition cj_cmoments_with (l : Z) (nJ : nat) : res (list (Poly svkey)) :=
  let! cs := sv_cmoments_with iez l in
  let! c0 := getp cs 0 in
  let kf := kf_cjc (keyfor c0) in
  let P1 := mkPoly [(jk [0;0;0;0;0;0] [] [], [0;0;0;0], Frac 1 1)] kf in
  let P0 := mkPoly [(jk [0;0;0;0;0;0] [] [], [0;0;0;0], Frac 0 1)] kf in
  foldM (fun cm n => let! p := cj_n (fun m => cmoment_IZs m nJ) cj_ckey kf cs n in Ok (cm ++ [p])) (range 2 (l + 1)) [P1; P0].
(** cond2_cmom.py:139-141 cmoment_y *)
Definition cj_cmoment_with (l : Z) (nJ : nat) : res (Poly svkey) :=
  let! cs := cj_cmoments_with l nJ in lastp cs.
End Iez.

(** the code *)
Definition cj_moments_y_to := cj_moments_with int_e_IEZ_poly.
Definition cj_moment_y := cj_moment_with int_e_IEZ_poly.
Definition cj_cmoments_y_to := cj_cmoments_with int_e_IEZ_poly.
Definition cj_cmoment_y := cj_cmoment_with int_e_IEZ_poly.

Local Open Scope R_scope.
(** K[i] of a tuple *)
Definition geti (l : list Z) (i : nat) : res Z :=
  match nth_error l i with Some x => Ok x | None => Err IndexError end.

(** cond2_cmom.py:147-185 poly2num: as for svvj, with the factor sigma_s ** K[13] *)
Definition cj_cm2num (poly : Poly svkey) (v0 k theta sigma rho h sgs : R) (s J : list R) : res R :=
  foldM (fun f kv =>
    let! val := sv_cm2num (mkPoly [(fst kv, 1%Q)] (keyfor poly)) v0 k theta sigma rho h s J in
    let! x := geti (snd (fst kv)) 3 in
    Ok (f + val * pw sgs x * Q2R (snd kv))) (items poly) 0.

(** cond2_mom.py:242-244: the product of J[i] ** K[18][i]; a longer K[18] is not an error *)
Fixpoint prodJ (J : list R) (js : list Z) (f : R) : res R :=
  match J, js with
  | [], _ => Ok f
  | _ :: _, [] => Err IndexError
  | x :: J, j :: js => prodJ J js (f * pw x j)
  end.
(** cond2_mom.py:199-248 poly2num: as for svvj, with the factors
    mu_s ** K[15] * rho_J ** K[16] * sigma_s ** K[17] and those of K[18] *)
Definition cj_m2num (poly : Poly cjkey) (v0 mu k theta sigma rho h mus rhoJ sgs : R) (s J : list R) : res R :=
  foldM (fun f kv =>
    let key := fst (fst kv) in
    let! val := sv_m2num (mkPoly [(key, 1%Q)] (keyfor poly)) v0 mu k theta sigma rho h s J in
    let! x := geti (snd key) 3 in
    let! y := geti (snd key) 4 in
    let! w := geti (snd key) 5 in
    let val := val * (pw mus x * pw rhoJ y * pw sgs w) in
    let! fJ := match snd (fst kv), J with
               | Some js, _ => prodJ J js 1
               | None, [] => Ok 1
               | None, _ => Err IndexError
               end in
    Ok (f + val * fJ * Q2R (snd kv))) (items poly) 0.

(** cond2_mom.py:251-264 m and cond2_cmom.py:188-201 cm *)
Definition cj_m (l : Z) (v0 mu k theta sigma rho h mus rhoJ sgs : R) (s J : list R) : res R :=
  let! p := cj_moment_y l (length J) in cj_m2num p v0 mu k theta sigma rho h mus rhoJ sgs s J.
Definition cj_cm (l : Z) (v0 k theta sigma rho h sgs : R) (s J : list R) : res R :=
  let! p := cj_cmoment_y l (length J) in cj_cm2num p v0 k theta sigma rho h sgs s J.
