(** Loop shapes shared by the model packages mdl_*. *)
From Verif.Model Require Export Utils ItoMom.
Local Open Scope Z_scope.

(** [m] nested loops [for n1 in range(l,-1,-1): for n2 in range(l-n1,-1,-1): ...]
    followed by [n_{m+1} = l - n1 - ... - n_m] and the body on [n1; ...; n_{m+1}]. *)
Fixpoint nest {S : Type} (m : nat) (l : Z) (acc : list Z) (body : S -> list Z -> res S) (s : S)
  : res S :=
  match m with
  | O => body s (acc ++ [l])
  | Datatypes.S m' =>
      foldM (fun s n => nest m' (l - n) (acc ++ [n]) body s) (range_down l) s
  end.

(** bodies of such loops, on the tuple of loop variables *)
Definition on4 {A} (f : Z -> Z -> Z -> Z -> res A) (ns : list Z) : res A :=
  match ns with [a; b; c; d] => f a b c d | _ => Err IndexError end.
Definition on5 {A} (f : Z -> Z -> Z -> Z -> Z -> res A) (ns : list Z) : res A :=
  match ns with [a; b; c; d; e] => f a b c d e | _ => Err IndexError end.

(** [for k in poly: poln = moment_v(get(k)); for (i,j) in poln:
       poly_sum.add_keyval(mk(k,i,j), poln[(i,j)] * poly[k])] *)
Definition subst_v (get : list Z -> Z) (mk : list Z -> Z -> Z -> list Z) (kf : list string)
  (p : Poly (list Z)) : res (Poly (list Z)) :=
  let! a := foldM (fun a kv =>
    let! poln := moment_v (get (fst kv)) in
    Ok (fold_left (fun a kv2 =>
          add_kv (mk (fst kv) (nthZ (fst kv2) 0) (nthZ (fst kv2) 1)) (qmul (snd kv2) (snd kv)) a)
        (items poln) a)) (items p) [] in
  Ok (mkPoly a kf).

(** [c * poly] for an int c *)
Definition rmulZ (c : Z) (p : Poly (list Z)) : Poly (list Z) := rmul (qz c) p.
