(** Reading a csv line: the columns between the commas. *)
From Coq Require Import ZArith List String Ascii.
Import ListNotations.
Local Open Scope string_scope.

Fixpoint columns (s : string) : list string :=
  match s with
  | "" => [""]
  | String c r => if Ascii.eqb c "," then "" :: columns r
                  else match columns r with [] => [] | x :: l => String c x :: l end
  end.
Fixpoint no_comma (s : string) : bool :=
  match s with "" => true | String c r => negb (Ascii.eqb c ",") && no_comma r end.
