(** Model of src/ajdmom/utils.py (fZ is in FZ.v since it needs real numbers). *)
From Verif.Model Require Export Loop Poly.
Local Open Scope Z_scope.

(** [math.comb(n, k)]: ValueError on a negative argument. *)
Definition math_comb (n k : Z) : res Z :=
  if (n <? 0) || (k <? 0) then Err ValueError else Ok (mcomb n k).

(** utils.py:10-22 comb *)
Fixpoint comb_loop (n : Z) (ns : list Z) (f : Z) : res Z :=
  match ns with
  | [] => Ok f
  | k :: r => let! c := math_comb n k in comb_loop (n - k) r (f * c)
  end.
Definition comb (n : Z) (ns : list Z) : res Z := comb_loop n ns 1.

Definition sumZ (l : list Z) : Z := fold_right Z.add 0 l.

(** State of the stack machines: direction, stack (top of the Python list is the
    head here), accumulated result. *)
Record mstate (A : Type) := mkSt { fwd : bool; stk : list Z; acc : A }.
Arguments mkSt {A}. Arguments fwd {A}. Arguments stk {A}. Arguments acc {A}.

(** utils.py:37-62 (multilevel_index) and utils.py:210-248 (fZ): one iteration of
    the odometer loop over [n] levels with [m] choices each; [leaf idx a] is what the
    innermost loop does with a complete index. *)
Definition index_step {A} (n m : Z) (leaf : list Z -> A -> A) (s : mstate A)
  : outcome (mstate A) A :=
  let len := Z.of_nat (length (stk s)) in
  if len <? n then
    if fwd s then
      if len <? n - 1 then Running (mkSt true (0 :: stk s) (acc s))
      else
        let a := fold_left (fun a i => leaf (rev (i :: stk s)) a) (range 0 m) (acc s) in
        if forallb (fun x => x =? m - 1) (stk s) then Done a
        else Running (mkSt false (stk s) a)
    else
      match stk s with
      | [] => Fail IndexError
      | i :: r => if i =? m - 1 then Running (mkSt false r (acc s))
                  else Running (mkSt true (i + 1 :: r) (acc s))
      end
  else Done (acc s).

(** Fuel exponent; proved sufficient whenever the Python loop terminates. *)
Definition index_fuel (n m : Z) : nat := Z.to_nat (n * (m + 3) + 3).

(** utils.py:25-63 multilevel_index (the [show] printing is not modelled) *)
Definition multilevel_index (n m : Z) : res (list (list Z)) :=
  to_res (run (index_fuel n m) (index_step n m (fun idx a => a ++ [idx]))
              (mkSt true [] [])).

(** utils.py:85-110: one iteration of the loop of multilevel_comb, n > 2.
    [stack[0]] is the last element here; IndexError if the stack is empty. *)
Definition comb_step {A} (n m : Z) (leaf : list Z -> A -> A) (s : mstate A)
  : outcome (mstate A) A :=
  let len := Z.of_nat (length (stk s)) in
  if len <? n then
    if fwd s then
      if len <? n - 2 then Running (mkSt true (0 :: stk s) (acc s))
      else
        let left := m - sumZ (stk s) in
        let a := fold_left (fun a i => leaf (rev (left - i :: i :: stk s)) a)
                           (range 0 (left + 1)) (acc s) in
        match rev (stk s) with
        | [] => Fail IndexError
        | x0 :: _ => if x0 =? m then Done a else Running (mkSt false (stk s) a)
        end
    else
      let left := m - sumZ (stk s) in
      match stk s with
      | [] => Fail IndexError
      | i :: r => if left =? 0 then Running (mkSt false r (acc s))
                  else Running (mkSt true (i + 1 :: r) (acc s))
      end
  else Done (acc s).

(** utils.py:66-111 multilevel_comb; for n = 1 Python returns the int [m] itself,
    not a list: modelled by the left alternative. *)
Definition multilevel_comb (n m : Z) : res (Z + list (list Z)) :=
  if n =? 1 then Ok (inl m)
  else if n =? 2 then Ok (inr (map (fun i => [i; m - i]) (range 0 (m + 1))))
  else let! l := to_res (run (index_fuel n m) (comb_step n m (fun idx a => a ++ [idx]))
                             (mkSt true [] [])) in
       Ok (inr l).

(** utils.py:115-132 dbfactorial: [while n > 2: n -= 2; f *= n] *)
Fixpoint dbf_loop (fuel : nat) (n f : Z) : Z :=
  match fuel with
  | O => f
  | S u => if 2 <? n then dbf_loop u (n - 2) (f * (n - 2)) else f
  end.
Definition dbfactorial (n : Z) : Z :=
  if (n =? 0) || (n =? 1) then 1
  else if n =? 2 then 2
  else dbf_loop (Z.to_nat n) n n.

(** utils.py:135-155 cmnorm *)
Definition cmnorm (n : Z) : Poly (list Z) :=
  if n =? 0 then mkPoly [([0], Frac 1 1)] ["sigma"%string]
  else if negb (n mod 2 =? 0) then mkPoly (add_kv [0] (Frac 0 1) []) ["sigma"%string]
  else mkPoly (add_kv [n] (Frac (dbfactorial (n - 1)) 1) []) ["sigma"%string].

(** utils.py:252-282 simplify_rho, generic in the key type: [get k] is k[n],
    [drop k] is k[0:n] + k[n+1:], [bump d k] adds d to component n-1. *)
Definition simplify_rho_step {K K'} `{Key K'} (get : K -> Z) (drop : K -> K')
  (bump : Z -> K' -> K') (a : list (K' * Q)) (kv : K * Q) : res (list (K' * Q)) :=
  let k := fst kv in
  if get k =? 0 then Ok (add_kv (drop k) (snd kv) a)
  else if get k mod 2 =? 0 then
    let p := get k / 2 in
    Ok (fold_left (fun a i =>
          add_kv (bump (2 * i) (drop k))
                 (qmul (qmul (snd kv) (qz (mcomb p i))) (qz (sgn1 i))) a)
        (range 0 (p + 1)) a)
  else Err BareException.

Definition simplify_rho_gen {K K'} `{Key K'} (get : K -> Z) (drop : K -> K')
  (bump : Z -> K' -> K') (kf : list string) (l : list (K * Q)) : res (Poly K') :=
  let! a := foldM (simplify_rho_step get drop bump) l [] in
  Ok (mkPoly (rm_zero a) kf).

(** [l[0:n] + l[n+1:]] *)
Definition dropat {A} (n : nat) (l : list A) : list A := firstn n l ++ skipn (S n) l.

(** simplify_rho on int-tuple keys; [n] is a valid index, 1 <= n < len(key)
    (for n = 0 Python would touch component -1; not modelled). *)
Definition simplify_rho (p : Poly (list Z)) (n : nat) : res (Poly (list Z)) :=
  simplify_rho_gen (fun k => nthZ k n) (dropat n) (addat (n - 1))
                   (dropat n (keyfor p)) (items p).
