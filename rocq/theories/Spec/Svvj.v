(** The SVVJ and SVIJ models given v_0 and the jump path z of the variance, over [0, t]:
      v_s as in JumpPath.v,  dv = k(theta - v)ds + sigma sqrt(v) dw^v + dz,
      y_t = mu t - 1/2 int_0^t v_s ds + rho I_t + sqrt(1-rho^2) I*_t,
    where I = int sqrt(v) dw^v, I* = int sqrt(v) dw, IE = int e^{ks} sqrt(v) dw^v.
    In the SVIJ model an independent compound Poisson sum is added to y_t. *)
From Verif.Spec Require Export SrjdPath Expect.
Local Open Scope R_scope.

Record svpar := mkSv { svz : zpar; svmu : R; svrho : R; svh : R }.
Definition svk (p : svpar) : R := zpk (svz p).

(** IZ_t, sum of the jump sizes up to time t *)
Definition IZ_path (z : path) (t : R) : R := sumR snd (upto t z).

(** int_0^t v_s ds, from the equation of v *)
Definition sv_intv (p : svpar) (z : path) (ie i : R) : R :=
  let t := svh p in let v0 := zpv (svz p) in
  (svk p * zpth (svz p) * t + zpsg (svz p) * i + IZ_path z t - (v_path (svz p) z t ie - v0)) / svk p.
Definition sv_ret (p : svpar) (z : path) (ie i is : R) : R :=
  svmu p * svh p - sv_intv p z ie i / 2 + svrho p * i + sqrt (1 - svrho p ^ 2) * is.

(** IE, I, I* have, up to total order L, the joint moments val *)
Definition joint3 {Om} (E : (Om -> R) -> R) (val : zidx -> R) (L : Z) (IE I Is : Om -> R) : Prop :=
  forall a b d, (0 <= a)%Z -> (0 <= b)%Z -> (0 <= d)%Z -> (a + b + d <= L)%Z ->
    E (fun w => IE w ^ Z.to_nat a * I w ^ Z.to_nat b * Is w ^ Z.to_nat d) = val (a, b, d).
(** they are the moments at time h given v_0 and z *)
Definition cond_path {Om} (E : (Om -> R) -> R) (p : svpar) (z : path) (L : Z) (IE I Is : Om -> R) : Prop :=
  exists M, cond_moments (svz p) z M /\ joint3 E (fun i => M i (svh p)) L IE I Is.

(** the mean of y_t given v_0 and z *)
Definition sv_beta (p : svpar) : R := (1 - exp (- (svk p * svh p))) / (2 * svk p).
Definition sv_mean (p : svpar) (z : path) : R :=
  (svmu p - zpth (svz p) / 2) * svh p - (zpv (svz p) - zpth (svz p)) * sv_beta p
  + (exp (- (svk p * svh p)) * IEZ_path (svk p) z (svh p) - IZ_path z (svh p)) / (2 * svk p).

(** Keys: ints, the tuples l, o, p, q of f_{Z_t}, ints. *)
Notation svkey := (jkey * list Z)%type.
(** 'sigma/2k', 'rho-sigma/2k', 'sqrt(1-rho^2)' *)
Definition sv3 (p : svpar) : list R :=
  let x := zpsg (svz p) / (2 * svk p) in [x; svrho p - x; sqrt (1 - svrho p ^ 2)].
(** 'e^{kt}','t','k^{-}','beta_t','mu-theta/2','v0-theta','theta','sigma' *)
Definition sv8 (p : svpar) : list R :=
  let t := svh p in
  [exp (svk p * t); t; / svk p; sv_beta p; svmu p - zpth (svz p) / 2; zpv (svz p) - zpth (svz p); zpth (svz p); zpsg (svz p)].
(** a key with the values a of the first ints and b of the last ints *)
Definition svmon (a b : list R) (p : svpar) (z : path) (key : svkey) : R :=
  monx a (fst (fst key)) * fZ_path (svk p) (upto (svh p) z) (snd (fst key)) * monx b (snd key).
Definition cmon_sv (p : svpar) : path -> svkey -> R := svmon (zvals (svz p) (svh p)) (sv3 p) p.
Definition mon_sv (p : svpar) : path -> svkey -> R := svmon (sv8 p) (sv3 p) p.

(** shape of a key with m first and w last ints: no negative power but of e^{kt}, and an even
    power of sqrt(1-rho^2) *)
Definition svok (m w : nat) (key : svkey) : Prop :=
  length (fst (fst key)) = m /\ (forall i, i <> O -> (0 <= nth i (fst (fst key)) 0)%Z) /\ jshape (snd (fst key)) /\
  length (snd key) = w /\ Forall (fun x => (0 <= x)%Z) (snd key) /\ Z.even (nth 2 (snd key) 0%Z) = true.

(** the SVIJ model: 'lmbd_s', 'mu_s', 'sigma_s' of the compound Poisson sum *)
Definition svij_lst (p : svpar) (lam mus sgs : R) : list R := sv3 p ++ [lam; mus; sgs].
