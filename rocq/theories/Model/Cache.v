(** Python dicts used as memo tables (insertion-ordered, KeyError on a missing key). *)
From Verif.Model Require Export Poly.
Local Open Scope Z_scope.

Section Cache.
Context {I A : Type} `{Key I}.

(** [d[i]] *)
Fixpoint cget (i : I) (c : list (I * A)) : res A :=
  match c with
  | [] => Err KeyError
  | (j, a) :: r => if keqb j i then Ok a else cget i r
  end.

(** [d[i] = a] *)
Fixpoint cset (i : I) (a : A) (c : list (I * A)) : list (I * A) :=
  match c with
  | [] => [(i, a)]
  | (j, b) :: r => if keqb j i then (j, a) :: r else (j, b) :: cset i a r
  end.

(** [for key in [key for key in d if f(key)]: del d[key]] *)
Definition cdel (f : I -> bool) (c : list (I * A)) : list (I * A) :=
  filter (fun ia => negb (f (fst ia))) c.
End Cache.
