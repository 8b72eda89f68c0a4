(** Model of the simulators: euler.py of mdl_1fsv, mdl_1fsvj, mdl_2fsv, mdl_2fsvj, mdl_srjd, mdl_svvj,
    mdl_svij and mdl_svcj.  Floats are real numbers.  The random generators are an arbitrary [world]:
    what the c-th call to a generator returns, as a function of the arguments of the call.  numpy
    arrays are lists, and the pointer of a while loop over two tuples is the pair of their suffixes. *)
From Coq Require Import Reals.
From Verif.Model Require Export Decode.
Local Open Scope R_scope.

(** [wnorm c]: a standard normal draw (normal(a, b) is a + b times it); [wpois c lam], [wchi c df nonc] *)
Record world := mkWorld { wnorm : nat -> R; wpois : nat -> R -> Z; wchi : nat -> R -> R -> R }.

(** computations that draw numbers; the state is the number of draws so far *)
Definition rnd (A : Type) := nat -> res (A * nat).
Definition rret {A} (a : A) : rnd A := fun c => Ok (a, c).
Definition rbind {A B} (m : rnd A) (f : A -> rnd B) : rnd B := fun c => let! p := m c in f (fst p) (snd p).
Definition rlift {A} (r : res A) : rnd A := fun c => let! a := r in Ok (a, c).
Notation "'let@' x := m 'in' b" := (rbind m (fun x => b)) (at level 200, x pattern, right associativity).
Fixpoint foldR {A B} (f : A -> B -> rnd A) (l : list B) (a : A) : rnd A :=
  match l with
  | [] => rret a
  | b :: l => let@ a := f a b in foldR f l a
  end.
(** [x = np.empty(N); for i in range(N): x[i] = ...] with a state [s] threaded through the iterations *)
Fixpoint rowsR {S} (f : S -> rnd (R * S)) (n : nat) (s : S) : rnd (list R) :=
  match n with
  | O => rret []
  | S n => let@ r := f s in let@ l := rowsR f n (snd r) in rret (fst r :: l)
  end.
Definition emptyR {S} (N : Z) (f : S -> rnd (R * S)) (s : S) : rnd (list R) :=
  if (N <? 0)%Z then rlift (Err ValueError) else rowsR f (Z.to_nat N) s.

(** math.sqrt *)
Definition msqrt (x : R) : res R := if Rlt_dec x 0 then Err ValueError else Ok (sqrt x).
(** np.random.normal(loc, scale), rng.normal(loc, scale) *)
Definition normal (W : world) (loc scale : R) : rnd R :=
  fun c => if Rlt_dec scale 0 then Err ValueError else Ok (loc + scale * wnorm W c, S c).
(** np.random.poisson(lam), rng.poisson(lam) *)
Definition poisson (W : world) (lam : R) : rnd Z :=
  fun c => if Rlt_dec lam 0 then Err ValueError else Ok (wpois W c lam, S c).
(** rng.noncentral_chisquare(df, nonc) *)
Definition ncx2 (W : world) (df nonc : R) : rnd R :=
  fun c => if Rle_dec df 0 then Err ValueError else if Rlt_dec nonc 0 then Err ValueError else Ok (wchi W c df nonc, S c).
(** [sum of n draws from normal(mu, sigma)], starting from [a] *)
Definition add_normals (W : world) (mu sigma : R) (n : Z) (a : R) : rnd R :=
  foldR (fun a _ => let@ x := normal W mu sigma in rret (a + x)) (range 0 n) a.

(** ** one factor *)
(** mdl_1fsv/euler.py:43-52 (also :86-95 and mdl_1fsvj/euler.py:43-52): one segment; the state is (v0, I1, I2, IV) *)
Definition seg1 (W : world) (k theta sigma dlt std : R) (st : R * R * R * R) (_ : Z) : rnd (R * R * R * R) :=
  let '(v0, I1, I2, IV) := st in
  let@ s := rlift (msqrt v0) in let@ z := normal W 0 std in
  let eps := s * z in
  let@ s := rlift (msqrt v0) in let@ z := normal W 0 std in
  let eps2 := s * z in
  let v := v0 + k * (theta - v0) * dlt + sigma * eps in
  let v := if Rlt_dec v 0 then 0 else v in
  rret (v, I1 + eps, I2 + eps2, IV + v0 * dlt).
(** mdl_1fsv/euler.py:17-55 r1FSV: the variance is carried over from one row to the next *)
Definition r1FSV (W : world) (v0 : R) (par : dict) (N n_segment : Z) (h : R) : rnd (list R) :=
  let@ mu := rlift (dget par "mu") in let@ k := rlift (dget par "k") in let@ theta := rlift (dget par "theta") in
  let@ sigma := rlift (dget par "sigma_v") in let@ rho := rlift (dget par "rho") in
  let@ dlt := rlift (pydiv h (IZR n_segment)) in let@ std := rlift (msqrt dlt) in
  emptyR N (fun v0 =>
    let@ st := foldR (seg1 W k theta sigma dlt std) (range 0 n_segment) (v0, 0, 0, 0) in
    let '(v0, I1, I2, IV) := st in
    let@ r := rlift (msqrt (1 - rho ^ 2)) in
    rret (mu * h - IV / 2 + rho * I1 + r * I2, v0)) v0.
(** mdl_1fsv/euler.py:58-97 r1FSV_iid: every row starts from v0 *)
Definition r1FSV_iid (W : world) (v0 : R) (par : dict) (N n_segment : Z) (tau : R) : rnd (list R) :=
  let@ mu := rlift (dget par "mu") in let@ k := rlift (dget par "k") in let@ theta := rlift (dget par "theta") in
  let@ sigma := rlift (dget par "sigma_v") in let@ rho := rlift (dget par "rho") in
  let@ dlt := rlift (pydiv tau (IZR n_segment)) in let@ std := rlift (msqrt dlt) in
  let v0_original := v0 in
  emptyR N (fun _ =>
    let@ st := foldR (seg1 W k theta sigma dlt std) (range 0 n_segment) (v0_original, 0, 0, 0) in
    let '(v0, I1, I2, IV) := st in
    let@ r := rlift (msqrt (1 - rho ^ 2)) in
    rret (mu * tau - IV / 2 + rho * I1 + r * I2, v0)) v0.
(** mdl_1fsvj/euler.py:54-59 and mdl_2fsvj/euler.py:65-70: the jump part *)
Definition jump_part (W : world) (lmbd h mu_j sigma_j : R) : rnd R :=
  let@ n := poisson W (lmbd * h) in
  if (0 <? n)%Z then add_normals W mu_j sigma_j n 0 else rret 0.
(** mdl_1fsvj/euler.py:14-64 r1FSVJ *)
Definition r1FSVJ (W : world) (v0 : R) (par : dict) (N n_segment : Z) (h : R) : rnd (list R) :=
  let@ mu := rlift (dget par "mu") in let@ k := rlift (dget par "k") in let@ theta := rlift (dget par "theta") in
  let@ sigma := rlift (dget par "sigma_v") in let@ rho := rlift (dget par "rho") in
  let@ lmbd := rlift (dget par "lambda") in let@ mu_j := rlift (dget par "mu_j") in let@ sigma_j := rlift (dget par "sigma_j") in
  let@ dlt := rlift (pydiv h (IZR n_segment)) in let@ std := rlift (msqrt dlt) in
  emptyR N (fun v0 =>
    let@ st := foldR (seg1 W k theta sigma dlt std) (range 0 n_segment) (v0, 0, 0, 0) in
    let '(v0, I1, I2, IV) := st in
    let@ J_n := jump_part W lmbd h mu_j sigma_j in
    let@ r := rlift (msqrt (1 - rho ^ 2)) in
    rret (mu * h - IV / 2 + rho * I1 + r * I2 + J_n, v0)) v0.

(** ** two factors *)
(** mdl_2fsv/euler.py:44-60 and mdl_2fsvj/euler.py:47-63: one segment; the state is (v1_0, v2_0, I1, IV1, IV2) *)
Definition seg2 (W : world) (k1 theta1 sigma1 k2 theta2 sigma2 dlt std : R) (st : R * R * R * R * R) (_ : Z) : rnd (R * R * R * R * R) :=
  let '(v1_0, v2_0, I1, IV1, IV2) := st in
  let@ s := rlift (msqrt (v1_0 + v2_0)) in let@ z := normal W 0 std in
  let eps := s * z in
  let@ s := rlift (msqrt v1_0) in let@ z := normal W 0 std in
  let eps1 := s * z in
  let@ s := rlift (msqrt v2_0) in let@ z := normal W 0 std in
  let eps2 := s * z in
  let v1 := v1_0 + k1 * (theta1 - v1_0) * dlt + sigma1 * eps1 in
  let v2 := v2_0 + k2 * (theta2 - v2_0) * dlt + sigma2 * eps2 in
  let v1 := if Rlt_dec v1 0 then 0 else v1 in
  let v2 := if Rlt_dec v2 0 then 0 else v2 in
  rret (v1, v2, I1 + eps, IV1 + v1_0 * dlt, IV2 + v2_0 * dlt).
(** mdl_2fsv/euler.py:13-63 r2FSV (v0 is a pair) *)
Definition r2FSV (W : world) (v0 : R * R) (par : dict) (N n_segment : Z) (h : R) : rnd (list R) :=
  let@ mu := rlift (dget par "mu") in
  let@ k1 := rlift (dget par "k1") in let@ theta1 := rlift (dget par "theta1") in let@ sigma1 := rlift (dget par "sigma_v1") in
  let@ k2 := rlift (dget par "k2") in let@ theta2 := rlift (dget par "theta2") in let@ sigma2 := rlift (dget par "sigma_v2") in
  let@ dlt := rlift (pydiv h (IZR n_segment)) in let@ std := rlift (msqrt dlt) in
  emptyR N (fun v0 =>
    let@ st := foldR (seg2 W k1 theta1 sigma1 k2 theta2 sigma2 dlt std) (range 0 n_segment) (fst v0, snd v0, 0, 0, 0) in
    let '(v1_0, v2_0, I1, IV1, IV2) := st in
    rret (mu * h - (IV1 + IV2) / 2 + I1, (v1_0, v2_0))) v0.
(** mdl_2fsvj/euler.py:13-74 r2FSVJ *)
Definition r2FSVJ (W : world) (v0 : R * R) (par : dict) (N n_segment : Z) (h : R) : rnd (list R) :=
  let@ mu := rlift (dget par "mu") in
  let@ k1 := rlift (dget par "k1") in let@ theta1 := rlift (dget par "theta1") in let@ sigma1 := rlift (dget par "sigma_v1") in
  let@ k2 := rlift (dget par "k2") in let@ theta2 := rlift (dget par "theta2") in let@ sigma2 := rlift (dget par "sigma_v2") in
  let@ lmbd := rlift (dget par "lambda") in let@ mu_j := rlift (dget par "mu_j") in let@ sigma_j := rlift (dget par "sigma_j") in
  let@ dlt := rlift (pydiv h (IZR n_segment)) in let@ std := rlift (msqrt dlt) in
  emptyR N (fun v0 =>
    let@ st := foldR (seg2 W k1 theta1 sigma1 k2 theta2 sigma2 dlt std) (range 0 n_segment) (fst v0, snd v0, 0, 0, 0) in
    let '(v1_0, v2_0, I1, IV1, IV2) := st in
    let@ J_n := jump_part W lmbd h mu_j sigma_j in
    rret (mu * h - (IV1 + IV2) / 2 + I1 + J_n, (v1_0, v2_0))) v0.

(** ** mdl_srjd *)
(** euler.py:13-27 rSRD *)
Definition rSRD (W : world) (v0 tau k theta sigma : R) : rnd R :=
  let@ d := rlift (pydiv (4 * theta * k) (sigma ^ 2)) in
  let@ c := rlift (pydiv (sigma ^ 2 * (1 - exp (- k * tau))) (4 * k)) in
  let@ lmbd := rlift (pydiv (v0 * exp (- k * tau)) c) in
  let@ x := ncx2 W d lmbd in
  rret (c * x).
(** euler.py:56 the differences of the first [n] jump times; [prev] is the previous one *)
Fixpoint diffs (n : nat) (prev : R) (jumptime : list R) : res (list R) :=
  match n with
  | O => Ok []
  | S n => match jumptime with
           | [] => Err IndexError
           | s :: r => let! l := diffs n s r in Ok (s - prev :: l)
           end
  end.
(** euler.py:30-67 rSRJD; the differences start from jumptime[0] itself *)
Definition rSRJD (W : world) (v0 k theta sigma T : R) (jumpsize jumptime : list R) (n : Z) : rnd (list R) :=
  if (n <? 0)%Z then rlift (Err ValueError)
  else match jumpsize with
  | [] => rowsR (fun _ : unit => let@ x := rSRD W v0 T k theta sigma in rret (x, tt)) (Z.to_nat n) tt
  | _ =>
    let@ dt := rlift (diffs (length jumpsize) 0 jumptime) in
    rowsR (fun _ : unit =>
      let@ vt := foldR (fun v0 p => let@ x := rSRD W v0 (fst p) k theta sigma in rret (x + snd p)) (combine dt jumpsize) v0 in
      let t_residual := T - last jumptime 0 in
      let@ vt := if Rlt_dec 0 t_residual then rSRD W vt t_residual k theta sigma else rret vt in
      rret (vt, tt)) (Z.to_nat n) tt
  end.

(** ** mdl_svvj *)
(** euler.py:14-21 IZ *)
Fixpoint eIZ (t : R) (jumpsize jumptime : list R) : res R :=
  match jumpsize with
  | [] => Ok 0
  | J :: js => match jumptime with
    | [] => Err IndexError
    | s :: ss => if Rle_dec s t then let! r := eIZ t js ss in Ok (J + r) else Ok 0
    end
  end.
(** euler.py:24-31 IEZ *)
Fixpoint eIEZ (t : R) (jumpsize jumptime : list R) (k : R) : res R :=
  match jumpsize with
  | [] => Ok 0
  | J :: js => match jumptime with
    | [] => Err IndexError
    | s :: ss => if Rle_dec s t then let! r := eIEZ t js ss k in Ok (exp (k * s) * J + r) else Ok 0
    end
  end.
(** euler.py:34-49 incIEII, added to the sums: the state is (v0, IE, I1, I2) *)
Definition incIEII (W : world) (t0 dt k theta sigma : R) (st : R * R * R * R) : rnd (R * R * R * R) :=
  let '(v0, IE, I1, I2) := st in
  let@ s := rlift (msqrt dt) in let@ z := normal W 0 1 in
  let eps_v := s * z in
  let@ s := rlift (msqrt dt) in let@ z := normal W 0 1 in
  let eps_y := s * z in
  let@ sv := rlift (msqrt v0) in
  let vt := v0 + k * (theta - v0) * dt + sigma * sv * eps_v in
  let vt := if Rlt_dec vt 0 then 0 else vt in
  rret (vt, IE + exp (k * t0) * sv * eps_v, I1 + sv * eps_v, I2 + sv * eps_y).
(** euler.py:70-84 the inner while loop: jumps up to time t; returns t0, the remaining jumps and the state *)
Fixpoint jumps_to (W : world) (t k theta sigma t0 : R) (js jt : list R) (st : R * R * R * R) : rnd (R * list R * list R * (R * R * R * R)) :=
  match jt with
  | s :: jt' =>
    if Rle_dec s t
    then let@ st := incIEII W t0 (s - t0) k theta sigma st in
         match js with
         | [] => rlift (Err IndexError)
         | J :: js' => let '(vt, IE, I1, I2) := st in jumps_to W t k theta sigma s js' jt' (vt + J, IE, I1, I2)
         end
    else rret (t0, js, jt, st)
  | [] => rret (t0, js, jt, st)
  end.
(** euler.py:52-93 rIEII *)
Definition rIEII (W : world) (v0 k theta sigma h : R) (jumpsize jumptime : list R) (n_segment : Z) : rnd (R * R * R) :=
  let@ dt := rlift (pydiv h (IZR n_segment)) in
  match jumptime with
  | [] =>
    let@ st := foldR (fun st i => incIEII W (IZR i * dt) dt k theta sigma st) (range 0 n_segment) (v0, 0, 0, 0) in
    let '(_, IE, I1, I2) := st in rret (IE, I1, I2)
  | _ =>
    let@ r := foldR (fun r i =>
      let '(js, jt, st) := r in
      let t := IZR (i + 1) * dt in
      let@ q := jumps_to W t k theta sigma (IZR i * dt) js jt st in
      let '(t0, js, jt, st) := q in
      let@ st := if Rlt_dec t0 t then incIEII W t0 (t - t0) k theta sigma st else rret st in
      rret (js, jt, st)) (range 0 n_segment) (jumpsize, jumptime, (v0, 0, 0, 0)) in
    let '(_, _, (_, IE, I1, I2)) := r in rret (IE, I1, I2)
  end.
(** euler.py:96-124 rSVVJ *)
Definition rSVVJ (W : world) (v0 mu k theta sigma rho T : R) (jumpsize jumptime : list R) (n n_segment : Z) : rnd (list R) :=
  if (n <? 0)%Z then rlift (Err ValueError) else
  let@ beta := rlift (pydiv (1 - exp (- k * T)) (2 * k)) in
  let c := (mu - theta / 2) * T - (v0 - theta) * beta in
  let@ iez := rlift (eIEZ T jumpsize jumptime k) in
  let@ d := rlift (pydiv (exp (- k * T) * iez) (2 * k)) in
  let c := c + d in
  let@ iz := rlift (eIZ T jumpsize jumptime) in
  let@ d := rlift (pydiv iz (2 * k)) in
  let c := c - d in
  rowsR (fun _ : unit =>
    let@ q := rIEII W v0 k theta sigma T jumpsize jumptime n_segment in
    let '(IE, I1, I2) := q in
    let@ a := rlift (pydiv (exp (- k * T) * IE * sigma) (2 * k)) in
    let@ b := rlift (pydiv sigma (2 * k)) in
    let@ r := rlift (msqrt (1 - rho ^ 2)) in
    rret (c + a + (rho - b) * I1 + r * I2, tt)) (Z.to_nat n) tt.

(** element-wise sum of two arrays of the same length *)
Definition vadd (a b : list R) : list R := map (fun p => fst p + snd p) (combine a b).
(** [sum(rng.normal(mu, sigma, n))]: the scale is checked also when n = 0 *)
Definition sum_normals (W : world) (mu sigma : R) (n : Z) : rnd R :=
  fun c => if Rlt_dec sigma 0 then Err ValueError else add_normals W mu sigma n 0 c.
(** mdl_svij/euler.py:15-44 rSVIJ; rng.normal(mu_s, sigma_s, numJ) are numJ draws.  The svvj generator
    and this one are separate generators; here one counter numbers the calls to both. *)
Definition rSVIJ (W : world) (v0 mu k theta sigma rho T : R) (jsize_v jtime_v : list R) (lmbd_s mu_s sigma_s : R) (n n_segment : Z) : rnd (list R) :=
  let@ y_svvj := rSVVJ W v0 mu k theta sigma rho T jsize_v jtime_v n n_segment in
  let@ IZ := rowsR (fun _ : unit =>
    let@ numJ := poisson W (lmbd_s * T) in
    let@ s := sum_normals W mu_s sigma_s numJ in
    rret (s, tt)) (Z.to_nat n) tt in
  rret (vadd y_svvj IZ).
(** mdl_svcj/euler.py:16-45 rSVCJ *)
Definition rSVCJ (W : world) (v0 mu k theta sigma rho T : R) (jsize_v jtime_v : list R) (mu_s sigma_s rho_J : R) (n n_segment : Z) : rnd (list R) :=
  let@ y_svvj := rSVVJ W v0 mu k theta sigma rho T jsize_v jtime_v n n_segment in
  let@ IZ := rowsR (fun _ : unit =>
    let@ s := foldR (fun a J => let@ x := normal W (mu_s + rho_J * J) sigma_s in rret (a + x)) jsize_v 0 in
    rret (s, tt)) (Z.to_nat n) tt in
  rret (vadd y_svvj IZ).
