(** Truncated Euler schemes for square-root processes, as sequences indexed by the step. *)
From Verif.Spec Require Export Expect.
Local Open Scope R_scope.

(** one step of dv = k (theta - v) dt + sigma sqrt(v) dw, truncated at 0 *)
Definition tstep (k th sg dt dw v : R) : R := Rmax 0 (v + k * (th - v) * dt + sg * (sqrt v * dw)).
(** the path from v with increments dw 0, dw 1, ... *)
Fixpoint tpath (k th sg dt : R) (dw : nat -> R) (v : R) (m : nat) : R :=
  match m with
  | O => v
  | S m => tstep k th sg dt (dw m) (tpath k th sg dt dw v m)
  end.
(** int V dt and int sqrt(V) dw over n steps *)
Definition itgr (dt : R) (V : nat -> R) (n : nat) : R := sumR (fun j => V j * dt) (seq 0 n).
Definition stoch (dw V : nat -> R) (n : nat) : R := sumR (fun j => sqrt (V j) * dw j) (seq 0 n).
(** the return of the one-factor model over n steps *)
Definition eret1 (mu rho h dt : R) (n : nat) (dw dw2 V : nat -> R) : R :=
  mu * h - itgr dt V n / 2 + (rho * stoch dw V n + sqrt (1 - rho ^ 2) * stoch dw2 V n).
(** the return of the two-factor model *)
Definition eret2 (mu h dt : R) (n : nat) (dw V1 V2 : nat -> R) : R :=
  mu * h - (itgr dt V1 n + itgr dt V2 n) / 2 + stoch dw (fun j => V1 j + V2 j) n.
(** the jumps of the price: n normal draws z 0, z 1, ... *)
Definition nsum (mu sg : R) (z : nat -> R) (n : nat) : R := sumR (fun l => mu + sg * z l) (seq 0 n).

(** Draws Z 0, ..., Z (C-1) are white noise for E: mean 0 and variance 1 given the earlier draws. *)
Definition before {Om} (Z : nat -> Om -> R) (c : nat) (f : Om -> R) : Prop :=
  forall w w', (forall i, (i < c)%nat -> Z i w = Z i w') -> f w = f w'.
Record white {Om} (E : (Om -> R) -> R) (Z : nat -> Om -> R) (C : nat) : Prop := {
  wh_E : expectation E;
  wh_1 : E (fun _ => 1) = 1;
  wh_mean : forall c f, (c < C)%nat -> before Z c f -> E (fun w => f w * Z c w) = 0;
  wh_var : forall c f, (c < C)%nat -> before Z c f -> E (fun w => f w * Z c w ^ 2) = E f;
}.

(** ** Euler scheme on a time grid that contains the jump times of the variance *)
(** a step: its end time, and the jump of the variance at that time *)
Notation estep := (R * option R)%type.
Definition jump_of (s : estep) : R := match snd s with Some J => J | None => 0 end.
(** (v, IE, I, I-star) after the steps, from time t and these values; step number c + i uses the draws z (c + 2 i), z (c + 2 i + 1):
    IE = int e^{ks} sqrt(v) dw^v, I = int sqrt(v) dw^v, I-star = int sqrt(v) dw *)
Fixpoint grun (k th sg : R) (z : nat -> R) (c : nat) (t v IE I Is : R) (steps : list estep) : R * R * R * R :=
  match steps with
  | [] => (v, IE, I, Is)
  | s :: r =>
    let dt := fst s - t in
    let dw := sqrt dt * z c in
    let dw' := sqrt dt * z (S c) in
    grun k th sg z (S (S c)) (fst s) (tstep k th sg dt dw v + jump_of s)
      (IE + exp (k * t) * (sqrt v * dw)) (I + sqrt v * dw) (Is + sqrt v * dw') r
  end.
Fixpoint incr (t : R) (steps : list estep) : Prop :=
  match steps with [] => True | s :: r => t <= fst s /\ incr (fst s) r end.
Definition jumps_in (steps : list estep) : list (R * R) :=
  flat_map (fun s => match snd s with Some J => [(fst s, J)] | None => [] end) steps.
(** the steps cover [0, h], stop at every multiple of h/n and at every jump of z up to h, and nowhere else *)
Record grid (h : R) (n : nat) (z : list (R * R)) (steps : list estep) : Prop := {
  g_incr : incr 0 steps;
  g_end : last (map fst steps) 0 = h;
  g_mesh : forall i, (0 < i <= n)%nat -> In (INR i * (h / INR n)) (map fst steps);
  g_jumps : jumps_in steps = filter (fun sj => if Rle_dec (fst sj) h then true else false) z;
  g_only : forall t, In (t, None) steps -> exists i, (0 < i <= n)%nat /\ t = INR i * (h / INR n);
}.
(** jump times in order from t on, sizes >= 0 *)
Fixpoint ordered (t : R) (z : list (R * R)) : Prop :=
  match z with [] => True | sj :: r => t <= fst sj /\ 0 <= snd sj /\ ordered (fst sj) r end.

(** along the same scheme: the left sums of int f(s) v_s ds, and of int sqrt(v) (g(s) dw^v + b dw) *)
Fixpoint eint (f : R -> R) (k th sg : R) (z : nat -> R) (c : nat) (t v : R) (steps : list estep) : R :=
  match steps with
  | [] => 0
  | s :: r =>
    let dt := fst s - t in
    f t * v * dt + eint f k th sg z (S (S c)) (fst s) (tstep k th sg dt (sqrt dt * z c) v + jump_of s) r
  end.
Fixpoint gnoise (g : R -> R) (b k th sg : R) (z : nat -> R) (c : nat) (t v : R) (steps : list estep) : R :=
  match steps with
  | [] => 0
  | s :: r =>
    let dt := fst s - t in
    sqrt v * (g t * (sqrt dt * z c) + b * (sqrt dt * z (S c)))
    + gnoise g b k th sg z (S (S c)) (fst s) (tstep k th sg dt (sqrt dt * z c) v + jump_of s) r
  end.
