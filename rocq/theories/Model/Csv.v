(** poly.py: write_to_csv (278-347).  The result is the list of the lines written, without the
    line ends.  A key is a tuple of ints and of tuples of ints; values are Fractions (numerator
    and denominator).  Not modelled: the file name, the print, and keys with deeper nesting. *)
From Coq Require Import String Decimal DecimalString.
From Verif.Model Require Export Utils.
Import ListNotations.
Local Open Scope Z_scope.

Inductive cell := CI (z : Z) | CT (l : list Z).

(** str of an int and of a tuple of ints *)
Definition str_Z (z : Z) : string := NilZero.string_of_int (Z.to_int z).
Definition str_cell (c : cell) : string :=
  match c with
  | CI z => str_Z z
  | CT [] => "()"
  | CT [z] => "(" ++ str_Z z ++ ",)"
  | CT l => "(" ++ String.concat ", " (map str_Z l) ++ ")"
  end.
Definition join (l : list string) : string := String.concat "," l.

Definition has (s : string) (kf : list string) : bool := existsb (String.eqb s) kf.
(** poly.py:299-304: the index of 'l_{1:n}' *)
Fixpoint index_l (kf : list string) : nat :=
  match kf with [] => O | x :: r => if String.eqb x "l_{1:n}" then O else S (index_l r) end.

(** [k[j]], used as a tuple *)
Definition tupat (k : list cell) (j : nat) : res (list Z) :=
  match nth_error k j with Some (CT l) => Ok l | Some (CI _) => Err TypeError | None => Err IndexError end.

(** f"{c}{j}" for j in range(a, n+1) *)
Definition subnames (c : string) (a n : Z) : list string := map (fun j => (c ++ str_Z j)%string) (range a (n + 1)).
Definition tail_numden (s : string) (v : Q) : string :=
  (s ++ "," ++ str_Z (Qnum v) ++ "," ++ str_Z (Zpos (Qden v)))%string.

Definition write_to_csv (kf : list string) (its : list (list cell * Q)) : res (list string) :=
  if negb (has "l_{1:n}" kf) then
    (* 284-294 *)
    Ok ((join kf ++ ",num,den")%string :: map (fun kv => tail_numden (join (map str_cell (fst kv))) (snd kv)) its)
  else
    let i := index_l kf in
    match its with
    | [] => Err UnboundLocalError  (* [l] is unset at 321 and 336 *)
    | kv0 :: _ =>
        (* 306-318 *)
        let! n := foldM (fun n kv => let! l := tupat (fst kv) i in
                    let! l0 := tupat (fst kv0) i in
                    if (length l =? length l0)%nat then Ok (length l0) else Err BareException) its O in
        let n := Z.of_nat n in
        if negb (has "p_{2:n}" kf) then
          (* 322-333 *)
          let title := (join (firstn i kf) ++ "," ++ join (subnames "l" 1 n ++ subnames "o" 2 n) ++ ","
                        ++ join (skipn (i + 2) kf) ++ ",num,den")%string in
          let! rows := foldM (fun rows kv =>
            let k := fst kv in
            let! l := tupat k i in let! o := tupat k (i + 1) in
            Ok (rows ++ [tail_numden (join (map str_cell (firstn i k) ++ map str_Z l ++ map str_Z o ++ map str_cell (skipn (i + 2) k))) (snd kv)])) its [] in
          Ok (title :: rows)
        else
          (* 336-349 *)
          let title := (join (firstn i kf) ++ "," ++ join (subnames "l" 1 n ++ subnames "o" 1 n ++ subnames "p" 2 n ++ subnames "q" 2 n) ++ ","
                        ++ join (skipn (i + 4) kf) ++ ",num,den")%string in
          let! rows := foldM (fun rows kv =>
            let k := fst kv in
            let! l := tupat k i in let! o := tupat k (i + 1) in let! p := tupat k (i + 2) in let! q := tupat k (i + 3) in
            Ok (rows ++ [tail_numden (join (map str_cell (firstn i k) ++ map str_Z l ++ map str_Z o ++ map str_Z p ++ map str_Z q
                                            ++ map str_cell (skipn (i + 4) k))) (snd kv)])) its [] in
          Ok (title :: rows)
    end.
