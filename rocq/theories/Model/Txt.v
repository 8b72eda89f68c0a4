(** poly.py: write_to_txt (266-276) and the first branch of write_to_csv (284-294) for keys with nested
    tuples; mdl_svvj/cond2_cmom.py: write_to_subpolys (225-242).  A file is a pair of its name and its
    text.  Not modelled: the encoding, the prints.  The names in keyfor contain neither quotes nor
    backslashes nor control characters, so their repr is the name between single quotes. *)
From Coq Require Import String Ascii.
From Verif.Model Require Export Csv Svvj Fsv2.
Import ListNotations.
Local Open Scope Z_scope.

(** ints and tuples, as they occur in keys *)
Inductive pyv := PInt (z : Z) | PTup (l : list pyv).

(** str of a tuple, from the reprs of its members *)
Definition str_tuple (xs : list string) : string :=
  match xs with
  | [] => "()"
  | [x] => "(" ++ x ++ ",)"
  | _ => "(" ++ String.concat ", " xs ++ ")"
  end.
(** str of an int or a tuple *)
Fixpoint str_py (v : pyv) : string :=
  match v with
  | PInt z => str_Z z
  | PTup l => str_tuple (map str_py l)
  end.
(** str of a tuple of names *)
Definition str_names (kf : list string) : string := str_tuple (map (fun s => "'" ++ s ++ "'")%string kf).
Definition nl : string := String (ascii_of_nat 10) "".

(** poly.py:272,275: the title and a line, with the line ends *)
Definition txt_title (kf : list string) : string := (str_names kf ++ ": value(in fraction)" ++ nl)%string.
Definition txt_line (kv : list pyv * Q) : string :=
  (str_py (PTup (fst kv)) ++ ": (" ++ str_Z (Qnum (snd kv)) ++ "," ++ str_Z (Zpos (Qden (snd kv))) ++ ")" ++ nl)%string.
Definition txt_text (kf : list string) (its : list (list pyv * Q)) : string :=
  (txt_title kf ++ String.concat "" (map txt_line its))%string.
(** filename.endswith(suf) *)
Definition endswith (suf s : string) : bool :=
  ((String.length suf <=? String.length s)%nat
   && String.eqb (substring (String.length s - String.length suf) (String.length suf) s) suf)%bool.
Definition write_to_txt (fname : string) (kf : list string) (its : list (list pyv * Q)) : string * string :=
  (if endswith ".txt" fname then fname else (fname ++ ".txt")%string, txt_text kf its).

(** poly.py:284-294 *)
Definition csv_plain (kf : list string) (its : list (list pyv * Q)) : list string :=
  (join kf ++ ",num,den")%string :: map (fun kv => tail_numden (join (map str_py (fst kv))) (snd kv)) its.

(** keys as tuples: the two-factor models, the keys of the sub-polys of classify *)
Definition pf2 (k : fkey) : list pyv :=
  let '(d, ((a, b), x)) := k in
  PTup (map (fun t : Z * Z * Z => PTup [PInt (fst (fst t)); PInt (snd (fst t)); PInt (snd t)]) d) :: PTup [PInt a; PInt b] :: map PInt x.
Definition pysub (k : subkey) : list pyv :=
  match k with
  | inl z => map PInt z
  | inr (pre, (l, o, p, q), post) => map PInt pre ++ [PTup (map PInt l); PTup (map PInt o); PTup (map PInt p); PTup (map PInt q)] ++ map PInt post
  end.
Definition pitems {K} (f : K -> list pyv) (l : list (K * Q)) : list (list pyv * Q) := map (fun kv => (f (fst kv), snd kv)) l.

(** svvj/cond2_cmom.py:225-242 write_to_subpolys *)
Definition write_to_subpolys (poly : Poly svkey) (nth : Z) : res (list (string * string)) :=
  let! p := sv_simplify poly 0 in
  let! subs := classify p in
  Ok (map (fun nq => write_to_txt ("svvj-cond-cmoment-" ++ str_Z nth ++ "-formula-" ++ str_Z (Z.of_nat (fst nq)) ++ ".txt")
             (keyfor (snd nq)) (pitems pysub (items (snd nq)))) (combine (seq 0 (length subs)) subs)).
