(** The nested jump sum f_Z (documented in the package's theory pages). *)
From Verif.Spec Require Export Sums.
Local Open Scope R_scope.

(** Spec of the nested sum: running maximum M of the jump times so far. *)
Fixpoint fZ_tail (k : R) (s J : list R) (l o p q : list Z) (M : R) : R :=
  match l, o, p, q with
  | l1 :: lr, o1 :: or, p1 :: pr, q1 :: qr =>
      sumR (fun j => let M' := Rmax M (nthR s j) in
              exp (IZR l1 * k * nthR s j) * nthR J j * pw (nthR s j) o1
              * (exp (IZR p1 * k * M') * pw M' q1)
              * fZ_tail k s J lr or pr qr M')
           (range 0 (Z.of_nat (length J)))
  | _, _, _, _ => 1
  end.
Definition fZ_sum (k : R) (s J : list R) (l o p q : list Z) : R :=
  match l, o with
  | l1 :: lr, o1 :: or =>
      sumR (fun j => exp (IZR l1 * k * nthR s j) * nthR J j * pw (nthR s j) o1
                     * fZ_tail k s J lr or p q (nthR s j))
           (range 0 (Z.of_nat (length J)))
  | _, _ => 1
  end.

