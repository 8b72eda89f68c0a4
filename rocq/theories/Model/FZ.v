(** Model of fZ_each_index and fZ (src/ajdmom/utils.py:159-249) over the reals. *)
From Coq Require Export Reals.
From Verif.Model Require Export Utils.
From Verif.Spec Require Export Sums.
Local Open Scope R_scope.

(** utils.py:179 / 227 *)
Definition fz_factor (k : R) (s J : list R) (l o j : Z) : R :=
  exp (IZR l * k * nthR s j) * nthR J j * pw (nthR s j) o.
(** utils.py:182 / 230 *)
Definition fz_maxfactor (k : R) (p q : Z) (smax : R) : R :=
  exp (IZR p * k * smax) * pw smax q.

(** utils.py:176-182 / 224-230: loop over the positions of an index, ii >= 1.
    State (f, s_max). *)
Fixpoint fz_loop (l o p q : list Z) (k : R) (s J : list R) (idx : list Z) (ii : nat)
  (f smax : R) : R :=
  match idx with
  | [] => f
  | j :: r =>
      let f := f * fz_factor k s J (nthZ l ii) (nthZ o ii) j in
      let s_j := nthR s j in
      match ii with
      | O => fz_loop l o p q k s J r (S ii) f smax
      | S i1 =>
          let smax := if Rgt_dec smax s_j then smax else s_j in
          let f := f * fz_maxfactor k (nthZ p i1) (nthZ q i1) smax in
          fz_loop l o p q k s J r (S ii) f smax
      end
  end.

(** utils.py:159-183 fZ_each_index; [index[0]] on an empty index is IndexError,
    here the value of an unspecified [s_max]. *)
Definition fZ_each_index (l o p q : list Z) (k : R) (s J : list R) (idx : list Z) : R :=
  fz_loop l o p q k s J idx 0 1 (nthR s (nthZ idx 0)).

(** utils.py:186-249 fZ *)
Definition fZ (l o p q : list Z) (k : R) (s J : list R) : res R :=
  if Nat.eqb (length l) 0 then Ok 1
  else if Nat.eqb (length J) 0 then Ok 0
  else
    let n := Z.of_nat (length l) in
    let m := Z.of_nat (length J) in
    to_res (run (index_fuel n m)
      (index_step n m (fun idx val => val + fZ_each_index l o p q k s J idx))
      (mkSt true [] 0)).
