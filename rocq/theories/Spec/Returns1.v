(** The moments of the returns of the one-factor models, without and with jumps, as relations:
    the number is the moment for some expectation operator under which the model holds. *)
From Verif.Spec Require Export Fsv1 Cpp Params.
Local Open Scope R_scope.

(** the model parameters in a dict *)
Definition fpar_of (par : string -> R) : fpar :=
  mkF (par "k"%string) (par "h"%string) (par "mu"%string) (par "theta"%string) (par "sigma_v"%string) (par "rho"%string).

Definition ymom (l : Z) (par : string -> R) (m : R) : Prop :=
  exists (Om : Type) (E : (Om -> R) -> R) (L : Z) (s0 : R) (V IE I Is : Om -> R), let p := fpar_of par in
    expectation E /\ stationary E p L V /\ tower E p s0 L [] V IE I Is /\ (l <= L)%Z /\
    m = E (fun w => ret p s0 (V w) (IE w) (I w) (Is w) ^ Z.to_nat l).
Definition ycmom (l : Z) (par : string -> R) (m : R) : Prop :=
  exists (Om : Type) (E : (Om -> R) -> R) (L : Z) (s0 : R) (V IE I Is : Om -> R), let p := fpar_of par in
    let y w := ret p s0 (V w) (IE w) (I w) (Is w) in
    expectation E /\ stationary E p L V /\ tower E p s0 L [] V IE I Is /\ (l <= L)%Z /\ (1 <= L)%Z /\
    m = E (fun w => (y w - E y) ^ Z.to_nat l).
Definition ycov (l1 l2 : Z) (par : string -> R) (m : R) : Prop :=
  exists (Om : Type) (E : (Om -> R) -> R) (L : Z) (s0 : R) (V IE I Is IE1 I1 Is1 : Om -> R), let p := fpar_of par in
    let y0 w := ret p s0 (V w) (IE w) (I w) (Is w) in
    let v1 w := v_end p s0 (V w) (IE w) in
    let y1 w := ret p (s0 + fh p) (v1 w) (IE1 w) (I1 w) (Is1 w) in
    expectation E /\ stationary E p L V /\ tower E p s0 L [] V IE I Is /\
    tower E p (s0 + fh p) L [V; IE; I; Is] v1 IE1 I1 Is1 /\ (l1 + l2 <= L)%Z /\
    m = E (fun w => y0 w ^ Z.to_nat l1 * y1 w ^ Z.to_nat l2) - E (fun w => y0 w ^ Z.to_nat l1) * E (fun w => y1 w ^ Z.to_nat l2).

(** with an independent compound Poisson sum added to the return *)
Definition yjmom (l : Z) (par : string -> R) (m : R) : Prop :=
  exists (Om : Type) (E : (Om -> R) -> R) (L : Z) (s0 : R) (V IE I Is J : Om -> R), let p := fpar_of par in
    let y w := ret p s0 (V w) (IE w) (I w) (Is w) in
    expectation E /\ stationary E p L V /\ tower E p s0 L [] V IE I Is /\
    cpp_moments E (Z.to_nat L) (par "lambda"%string * fh p) (par "mu_j"%string) (par "sigma_j"%string) J /\ indep E (Z.to_nat L) y J /\ (l <= L)%Z /\
    m = E (fun w => (y w + J w) ^ Z.to_nat l).
Definition yjcmom (l : Z) (par : string -> R) (m : R) : Prop :=
  exists (Om : Type) (E : (Om -> R) -> R) (L : Z) (s0 : R) (V IE I Is J : Om -> R), let p := fpar_of par in
    let y w := ret p s0 (V w) (IE w) (I w) (Is w) in let yj w := y w + J w in
    expectation E /\ stationary E p L V /\ tower E p s0 L [] V IE I Is /\
    cpp_moments E (Z.to_nat L) (par "lambda"%string * fh p) (par "mu_j"%string) (par "sigma_j"%string) J /\ indep E (Z.to_nat L) y J /\
    (l <= L)%Z /\ (1 <= L)%Z /\ m = E (fun w => (yj w - E yj) ^ Z.to_nat l).
Definition yjcov (l1 l2 : Z) (par : string -> R) (m : R) : Prop :=
  exists (Om : Type) (E : (Om -> R) -> R) (L : Z) (s0 : R) (V IE I Is IE1 I1 Is1 J0 J1 : Om -> R), let p := fpar_of par in
    let r0 w := ret p s0 (V w) (IE w) (I w) (Is w) in
    let v1 w := v_end p s0 (V w) (IE w) in
    let r1 w := ret p (s0 + fh p) (v1 w) (IE1 w) (I1 w) (Is1 w) in
    let y0 w := r0 w + J0 w in let y1 w := r1 w + J1 w in
    expectation E /\ stationary E p L V /\ tower E p s0 L [] V IE I Is /\
    tower E p (s0 + fh p) L [V; IE; I; Is] v1 IE1 I1 Is1 /\
    cpp_moments E (Z.to_nat L) (par "lambda"%string * fh p) (par "mu_j"%string) (par "sigma_j"%string) J0 /\
    cpp_moments E (Z.to_nat L) (par "lambda"%string * fh p) (par "mu_j"%string) (par "sigma_j"%string) J1 /\
    indep3 E (Z.to_nat L) r0 r1 J0 J1 /\ (l1 + l2 <= L)%Z /\
    m = E (fun w => y0 w ^ Z.to_nat l1 * y1 w ^ Z.to_nat l2) - E (fun w => y0 w ^ Z.to_nat l1) * E (fun w => y1 w ^ Z.to_nat l2).
