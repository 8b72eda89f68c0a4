(** Model of src/ajdmom/poly.py: the class [Poly] (a UserDict with a [keyfor]
    attribute).  Keys range over any type with decidable equality. *)
From Verif.Base Require Export Prelude.
Local Open Scope Z_scope.

(** poly.py:75-79 -- insertion-ordered dict plus [keyfor]. *)
Record Poly (K : Type) := mkPoly {
  items : list (K * Q);
  keyfor : list string
}.
Arguments mkPoly {K}. Arguments items {K}. Arguments keyfor {K}.

Section PolyOps.
Context {K : Type} `{Key K}.

Definition keys (l : list (K * Q)) : list K := map fst l.

(** dict membership and lookup *)
Fixpoint lookup (k : K) (l : list (K * Q)) : option Q :=
  match l with
  | [] => None
  | (k', v) :: r => if keqb k' k then Some v else lookup k r
  end.

(** poly.py:191-200 add_keyval: insert a new key or add to the existing one. *)
Fixpoint add_kv (k : K) (v : Q) (l : list (K * Q)) : list (K * Q) :=
  match l with
  | [] => [(k, v)]
  | (k', v') :: r =>
      if keqb k' k then (k', qadd v' v) :: r else (k', v') :: add_kv k v r
  end.

(** dict assignment [self[k] = v] *)
Fixpoint set_kv (k : K) (v : Q) (l : list (K * Q)) : list (K * Q) :=
  match l with
  | [] => [(k, v)]
  | (k', v') :: r =>
      if keqb k' k then (k', v) :: r else (k', v') :: set_kv k v r
  end.

(** loop [for (k,v) in l: self.add_keyval(k, v)] *)
Definition add_all (l0 l : list (K * Q)) : list (K * Q) :=
  fold_left (fun a kv => add_kv (fst kv) (snd kv) a) l l0.

(** poly.py:202-207 remove_zero *)
Definition rm_zero (l : list (K * Q)) : list (K * Q) :=
  filter (fun kv => negb (qzero (snd kv))) l.

Definition empty_poly (kf : list string) : Poly K := mkPoly [] kf.

(** poly.py:248-264 is_exact_type (for two Poly arguments) *)
Definition is_exact_type (p q : Poly K) : bool :=
  listb String.eqb (keyfor p) (keyfor q).

(** poly.py:202-207 as a method *)
Definition remove_zero (p : Poly K) : Poly K :=
  mkPoly (rm_zero (items p)) (keyfor p).

(** poly.py:191-200 as a method *)
Definition add_keyval (p : Poly K) (k : K) (v : Q) : Poly K :=
  mkPoly (add_kv k v (items p)) (keyfor p).

(** poly.py:81-97 __add__ *)
Definition padd (p q : Poly K) : res (Poly K) :=
  if is_exact_type p q
  then Ok (mkPoly (rm_zero (add_all (items p) (items q))) (keyfor p))
  else Err NotImplementedError.

(** poly.py:99-115 merge: the updated [self]. *)
Definition merge (p q : Poly K) : res (Poly K) :=
  if is_exact_type p q
  then Ok (mkPoly (rm_zero (add_all (items p) (items q))) (keyfor p))
  else Err NotImplementedError.

(** poly.py:129-133: the loop of __sub__; [k in self] tests the original. *)
Definition sub_all (l0 l : list (K * Q)) : list (K * Q) :=
  fold_left (fun a kv =>
    match lookup (fst kv) l0 with
    | Some _ => match lookup (fst kv) a with
                | Some v => set_kv (fst kv) (qsub v (snd kv)) a
                | None => a (* unreachable: keys of self are never removed here *)
                end
    | None => set_kv (fst kv) (qopp (snd kv)) a
    end) l l0.

(** poly.py:117-136 __sub__ *)
Definition psub (p q : Poly K) : res (Poly K) :=
  if is_exact_type p q
  then Ok (mkPoly (rm_zero (sub_all (items p) (items q))) (keyfor p))
  else Err NotImplementedError.

(** poly.py:159-174 __rmul__ : c * self *)
Definition rmul (c : Q) (p : Poly K) : Poly K :=
  mkPoly (rm_zero (add_all [] (map (fun kv => (fst kv, qmul (snd kv) c)) (items p))))
         (keyfor p).

(** poly.py:150-154: double loop with key combination [kadd], which may raise. *)
Definition mul_items (kadd : K -> K -> res K) (l1 l2 : list (K * Q))
  : res (list (K * Q)) :=
  foldM (fun a kv1 =>
    foldM (fun a kv2 =>
      let! key := kadd (fst kv1) (fst kv2) in
      Ok (add_kv key (qmul (snd kv1) (snd kv2)) a)) l2 a) l1 [].

(** poly.py:138-157 __mul__, relative to the component-wise key sum. *)
Definition pmul_gen (kadd : K -> K -> res K) (p q : Poly K) : res (Poly K) :=
  if is_exact_type p q
  then let! l := mul_items kadd (items p) (items q) in
       Ok (mkPoly (rm_zero l) (keyfor p))
  else Err NotImplementedError.

(** poly.py:187-188: repeat [poly = poly * self] *)
Fixpoint pow_loop (kadd : K -> K -> res K) (n : nat) (acc self : Poly K)
  : res (Poly K) :=
  match n with
  | O => Ok acc
  | S m => let! acc' := pmul_gen kadd acc self in pow_loop kadd m acc' self
  end.

(** poly.py:176-189 __pow__ *)
Definition ppow_gen (kadd : K -> K -> res K) (p : Poly K) (n : Z) : res (Poly K) :=
  if n <=? 0 then Err NotImplementedError
  else pow_loop kadd (Z.to_nat (n - 1)) p p.

End PolyOps.

(** poly.py:152: [tuple(k1[i] + k2[i] for i in range(len(k1)))] on int tuples *)
Fixpoint kadd (k1 k2 : list Z) : res (list Z) :=
  match k1, k2 with
  | [], _ => Ok []
  | _ :: _, [] => Err IndexError
  | a :: r, b :: s => let! t := kadd r s in Ok ((a + b) :: t)
  end.

Definition pmul (p q : Poly (list Z)) := pmul_gen kadd p q.
Definition ppow (p : Poly (list Z)) (n : Z) := ppow_gen kadd p n.

(** poly.py:61-72 kv *)
Definition kv_at (i : Z) (key : list Z) : Z :=
  if (0 <=? i) && (i <? Z.of_nat (length key)) then nthZ key (Z.to_nat i) else 0.

(** poly.py:241: combined key; [kN = len(idx1)], IndexError if idx2 is shorter. *)
Fixpoint kcomb (idx1 idx2 : list Z) (k1 k2 : list Z) : res (list Z) :=
  match idx1, idx2 with
  | [], _ => Ok []
  | _ :: _, [] => Err IndexError
  | i :: r, j :: s =>
      let! t := kcomb r s k1 k2 in Ok ((kv_at i k1 + kv_at j k2) :: t)
  end.

(** poly.py:218-246 mul_poly *)
Definition mul_poly (p q : Poly (list Z)) (idx1 idx2 : list Z) (kf : list string)
  : res (Poly (list Z)) :=
  let! l := mul_items (kcomb idx1 idx2) (items p) (items q) in
  Ok (mkPoly (rm_zero l) kf).
