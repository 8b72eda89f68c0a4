(** The functions m(l, par) and cm(l, par) given the jumps of the variance, of mdl_svvj, mdl_svij,
    mdl_svcj and mdl_srjd (cond2_mom.py and cond2_cmom.py), with the errors of their poly2num and of
    utils.fZ: a missing name raises KeyError, a division by zero or a negative power of zero
    ZeroDivisionError, a missing jump time IndexError.  Model/Svvj.v, Model/SvcjCond2.v and
    Model/SrjdCond2.v have the same functions for given numbers, without these errors.
    The dict [par] has numbers and, under 'jumpsize' and 'jumptime', tuples of numbers; here it
    is a pair of partial functions.  A number in place of a tuple or a tuple in place of a number
    is not modelled.  Floats are real numbers; the association of products is simplified. *)
From Coq Require Import Reals Qreals.
From Verif.Model Require Export ScalarD SvcjCond2.
Local Open Scope R_scope.

Record jpar := mkJpar { nums : dict; tups : string -> option (list R) }.
(** [par[s]] *)
Definition nget (par : jpar) (s : string) : res R := dget (nums par) s.
Definition tget (par : jpar) (s : string) : res (list R) := match tups par s with Some x => Ok x | None => Err KeyError end.
(** [s[j]] for j >= 0 *)
Definition getr (l : list R) (j : Z) : res R := match nth_error l (Z.to_nat j) with Some x => Ok x | None => Err IndexError end.

(** ** utils.py:223-231: the body of the innermost loop of fZ, for the index [idx] *)
Fixpoint fzd_loop (l o p q : list Z) (k : R) (s J : list R) (idx : list Z) (ii : nat) (f smax : R) : res R :=
  match idx with
  | [] => Ok f
  | j :: r =>
      let! s_j := getr s j in
      let! li := geti l ii in
      let! J_j := getr J j in
      let! oi := geti o ii in
      let! w := pypow s_j oi in
      let f := f * (exp (IZR li * k * s_j) * J_j * w) in
      match ii with
      | O => fzd_loop l o p q k s J r (S ii) f smax
      | S i1 =>
          let smax := if Rgt_dec smax s_j then smax else s_j in
          let! pi := geti p i1 in
          let! qi := geti q i1 in
          let! w := pypow smax qi in
          fzd_loop l o p q k s J r (S ii) (f * (exp (IZR pi * k * smax) * w)) smax
      end
  end.
Definition fzd_leaf (l o p q : list Z) (k : R) (s J : list R) (idx : list Z) (a : res R) : res R :=
  let! val := a in
  let! i0 := geti idx 0 in
  let! smax := getr s i0 in
  let! f := fzd_loop l o p q k s J idx 0 1 smax in
  Ok (val + f).
(** utils.py:186-249 fZ *)
Definition fZ_d (l o p q : list Z) (k : R) (s J : list R) : res R :=
  if Nat.eqb (length l) 0 then Ok 1
  else if Nat.eqb (length J) 0 then Ok 0
  else
    let n := Z.of_nat (length l) in
    let m := Z.of_nat (length J) in
    let! r := to_res (run (index_fuel n m) (index_step n m (fzd_leaf l o p q k s J)) (mkSt true [] (Ok 0))) in r.

(** ** mdl_svvj *)
(** cond2_cmom.py:270-281: the body of the loop of poly2num *)
Definition svc_val (v0 k theta sigma rho h : R) (s J : list R) (key : svkey) : res R :=
  let K := fst (fst key) in let X := snd key in
  let! a := pows [(h, nthZ K 1); (k, (- nthZ K 2)%Z)] in
  let! b := pows [(v0 - theta, nthZ K 3); (theta, nthZ K 4); (sigma, nthZ K 5)] in
  let '(l, o, p, q) := snd (fst key) in
  let! z := fZ_d l o p q k s J in
  let! x := pydiv sigma (2 * k) in
  let! c := pypow x (nthZ X 0) in
  let! d := pypow (rho - x) (nthZ X 1) in
  let! e := halfpow (1 - rho ^ 2) (nthZ X 2) in
  Ok (exp (IZR (nthZ K 0) * k * h) * a * b * z * (c * d * e)).
(** cond2_cmom.py:248-282 poly2num *)
Definition p2n_svc (poly : Poly svkey) (par : jpar) : res R :=
  let! v0 := nget par "v0" in let! k := nget par "k" in let! theta := nget par "theta" in
  let! sigma := nget par "sigma" in let! rho := nget par "rho" in let! h := nget par "h" in
  let! J := tget par "jumpsize" in let! s := tget par "jumptime" in
  p2n_loop (svc_val v0 k theta sigma rho h s J) poly.
(** cond2_mom.py:133-145: the body of the loop of poly2num *)
Definition svm_val (beta_t v0 mu k theta sigma rho h : R) (s J : list R) (key : svkey) : res R :=
  let K := fst (fst key) in let X := snd key in
  let! a := pows [(h, nthZ K 1); (k, (- nthZ K 2)%Z)] in
  let! b := pows [(beta_t, nthZ K 3); (mu - theta / 2, nthZ K 4); (v0 - theta, nthZ K 5); (theta, nthZ K 6); (sigma, nthZ K 7)] in
  let '(l, o, p, q) := snd (fst key) in
  let! z := fZ_d l o p q k s J in
  let! x := pydiv sigma (2 * k) in
  let! c := pypow x (nthZ X 0) in
  let! d := pypow (rho - x) (nthZ X 1) in
  let! e := halfpow (1 - rho ^ 2) (nthZ X 2) in
  Ok (exp (IZR (nthZ K 0) * k * h) * a * b * z * (c * d * e)).
(** cond2_mom.py:108-146 poly2num *)
Definition p2n_svm (poly : Poly svkey) (par : jpar) : res R :=
  let! v0 := nget par "v0" in let! mu := nget par "mu" in let! k := nget par "k" in let! theta := nget par "theta" in
  let! sigma := nget par "sigma" in let! rho := nget par "rho" in let! h := nget par "h" in
  let! J := tget par "jumpsize" in let! s := tget par "jumptime" in
  let! beta_t := pydiv (1 - exp (- k * h)) (2 * k) in
  p2n_loop (svm_val beta_t v0 mu k theta sigma rho h s J) poly.
(** cond2_cmom.py:285-297 cm and cond2_mom.py:149-161 m *)
Definition cm_svvj (l : Z) (par : jpar) : res R := let! p := sv_cmoment_y l in p2n_svc p par.
Definition m_svvj (l : Z) (par : jpar) : res R := let! p := sv_moment_y l in p2n_svm p par.

(** ** mdl_svij *)
(** cond2_cmom.py:68-108 poly2num; the last factors are lmbd_s ** K[13], mu_s ** K[14], sigma_s ** K[15] *)
Definition p2n_ijc (poly : Poly svkey) (par : jpar) : res R :=
  let! v0 := nget par "v0" in let! k := nget par "k" in let! theta := nget par "theta" in
  let! sigma := nget par "sigma" in let! rho := nget par "rho" in let! h := nget par "h" in
  let! J := tget par "jumpsize" in let! s := tget par "jumptime" in
  let! lmbd_s := nget par "lmbd_s" in let! mu_s := nget par "mu_s" in let! sigma_s := nget par "sigma_s" in
  p2n_loop (fun key =>
    let! val := svc_val v0 k theta sigma rho h s J key in
    let! w := pows [(lmbd_s, nthZ (snd key) 3); (mu_s, nthZ (snd key) 4); (sigma_s, nthZ (snd key) 5)] in
    Ok (val * w)) poly.
(** cond2_mom.py:63-108 poly2num; the last factors are lmbd_s ** K[15], mu_s ** K[16], sigma_s ** K[17] *)
Definition p2n_ijm (poly : Poly svkey) (par : jpar) : res R :=
  let! v0 := nget par "v0" in let! mu := nget par "mu" in let! k := nget par "k" in let! theta := nget par "theta" in
  let! sigma := nget par "sigma" in let! rho := nget par "rho" in let! h := nget par "h" in
  let! J := tget par "jumpsize" in let! s := tget par "jumptime" in
  let! lmbd_s := nget par "lmbd_s" in let! mu_s := nget par "mu_s" in let! sigma_s := nget par "sigma_s" in
  let! beta_t := pydiv (1 - exp (- k * h)) (2 * k) in
  p2n_loop (fun key =>
    let! val := svm_val beta_t v0 mu k theta sigma rho h s J key in
    let! w := pows [(lmbd_s, nthZ (snd key) 3); (mu_s, nthZ (snd key) 4); (sigma_s, nthZ (snd key) 5)] in
    Ok (val * w)) poly.
(** cond2_cmom.py:111-122 cm and cond2_mom.py:111-122 m *)
Definition cm_svij (l : Z) (par : jpar) : res R := let! p := svij_cmoment_y l in p2n_ijc p par.
Definition m_svij (l : Z) (par : jpar) : res R := let! p := svij_moment_y l in p2n_ijm p par.

(** ** mdl_svcj *)
(** cond2_cmom.py:147-185 poly2num; the last factor is sigma_s ** K[13] *)
Definition p2n_cjc (poly : Poly svkey) (par : jpar) : res R :=
  let! v0 := nget par "v0" in let! k := nget par "k" in let! theta := nget par "theta" in
  let! sigma := nget par "sigma" in let! rho := nget par "rho" in let! h := nget par "h" in
  let! J := tget par "jumpsize" in let! s := tget par "jumptime" in let! sigma_s := nget par "sigma_s" in
  p2n_loop (fun key =>
    let! val := svc_val v0 k theta sigma rho h s J key in
    let! x := geti (snd key) 3 in
    let! w := pypow sigma_s x in
    Ok (val * w)) poly.
(** cond2_mom.py:242-244: [for i in range(len(J)): f_J *= J[i] ** K[18][i]]; K[18] is absent in the key of
    moments_y_to(l, J)[0] *)
Fixpoint prodJ_d (J : list R) (js : list Z) (f : R) : res R :=
  match J, js with
  | [], _ => Ok f
  | _ :: _, [] => Err IndexError
  | x :: J, j :: js => let! w := pypow x j in prodJ_d J js (f * w)
  end.
(** cond2_mom.py:199-248 poly2num; the further factors are mu_s ** K[15], rho_J ** K[16], sigma_s ** K[17] *)
Definition p2n_cjm (poly : Poly cjkey) (par : jpar) : res R :=
  let! v0 := nget par "v0" in let! mu := nget par "mu" in let! k := nget par "k" in let! theta := nget par "theta" in
  let! sigma := nget par "sigma" in let! rho := nget par "rho" in let! h := nget par "h" in
  let! J := tget par "jumpsize" in let! s := tget par "jumptime" in
  let! mu_s := nget par "mu_s" in let! rho_J := nget par "rho_J" in let! sigma_s := nget par "sigma_s" in
  let! beta_t := pydiv (1 - exp (- k * h)) (2 * k) in
  p2n_loop (fun key =>
    let X := snd (fst key) in
    let! val := svm_val beta_t v0 mu k theta sigma rho h s J (fst key) in
    let! x := geti X 3 in let! a := pypow mu_s x in
    let! y := geti X 4 in let! b := pypow rho_J y in
    let! w := geti X 5 in let! c := pypow sigma_s w in
    let! fJ := match snd key, J with
               | Some js, _ => prodJ_d J js 1
               | None, [] => Ok 1
               | None, _ => Err IndexError
               end in
    Ok (val * (a * b * c) * fJ)) poly.
(** cond2_cmom.py:188-201 cm and cond2_mom.py:251-264 m: [par['jumpsize']] is read first *)
Definition cm_svcj (l : Z) (par : jpar) : res R :=
  let! J := tget par "jumpsize" in let! p := cj_cmoment_y l (length J) in p2n_cjc p par.
Definition m_svcj (l : Z) (par : jpar) : res R :=
  let! J := tget par "jumpsize" in let! p := cj_moment_y l (length J) in p2n_cjm p par.

(** ** mdl_srjd *)
(** cond2_mom.py:329-338: the body of the innermost loop of fZ *)
Fixpoint fz2d_loop (l o : list Z) (k : R) (s J : list R) (idx : list Z) (ii : nat) (f smax : R) : res R :=
  match idx with
  | [] => Ok f
  | j :: r =>
      let! s_j := getr s j in
      let! li := geti l ii in
      let! J_j := getr J j in
      let f := f * (exp (IZR li * k * s_j) * J_j) in
      match ii with
      | O => fz2d_loop l o k s J r (S ii) f smax
      | S i1 =>
          let smax := if Rgt_dec smax s_j then smax else s_j in
          let! oi := geti o i1 in
          fz2d_loop l o k s J r (S ii) (f * exp (IZR oi * k * smax)) smax
      end
  end.
Definition fz2d_leaf (l o : list Z) (k : R) (s J : list R) (idx : list Z) (a : res R) : res R :=
  let! val := a in
  let! i0 := geti idx 0 in
  let! smax := getr s i0 in
  let! f := fz2d_loop l o k s J idx 0 1 smax in
  Ok (val + f).
(** cond2_mom.py:296-356 fZ *)
Definition c2_fZ_d (l o : list Z) (k : R) (s J : list R) : res R :=
  if Nat.eqb (length l) 0 then Ok 1
  else if Nat.eqb (length J) 0 then Ok 0
  else
    let n := Z.of_nat (length l) in
    let m := Z.of_nat (length J) in
    let! r := to_res (run (index_fuel n m) (index_step n m (fz2d_leaf l o k s J)) (mkSt true [] (Ok 0))) in r.
(** cond2_mom.py:359-386 poly2num *)
Definition p2n_c2 (poly : Poly c2key) (par : jpar) : res R :=
  let! v0 := nget par "v0" in let! k := nget par "k" in let! theta := nget par "theta" in
  let! sigma := nget par "sigma" in let! h := nget par "h" in
  let! J := tget par "jumpsize" in let! s := tget par "jumptime" in
  p2n_loop (fun key =>
    let K := fst key in
    let! a := pows [(v0, nthZ K 0); (k, (- nthZ K 1)%Z); (theta, nthZ K 2); (sigma, nthZ K 3)] in
    let! z := c2_fZ_d (fst (snd key)) (snd (snd key)) k s J in
    Ok (a * exp (IZR (nthZ K 4) * k * h) * z)) poly.
(** cond2_mom.py:389-400 m and cond2_cmom.py:39-50 cm *)
Definition m_srjd2 (l : Z) (par : jpar) : res R := let! p := c2_moment_v l in p2n_c2 p par.
Definition cm_srjd2 (l : Z) (par : jpar) : res R := let! p := c2_cmoment_v l in p2n_c2 p par.
