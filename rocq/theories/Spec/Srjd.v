(** The square-root jump diffusion of mdl_srjd:
      dv_t = k (theta - v_t) dt + sigma sqrt(v_t) dw_t + dZ_t,
    Z compound Poisson with rate lmbd and exponential jumps of mean mu_v. *)
From Coquelicot Require Import Coquelicot.
From Verif.Spec Require Export Expect Volterra.
Local Open Scope R_scope.

(** moment generating function of IEZ_{s,t} = int_s^t e^{ku} dZ_u (Campbell's formula; an
    exponential jump of mean mu has moment generating function 1/(1 - mu y)) *)
Definition mgf_iez (k lam mu s t x : R) : R :=
  exp (lam * RInt (fun u => / (1 - mu * (exp (k * u) * x)) - 1) s t).

(** values of the symbols of the keys of moment_IEZ, in the order of [keyfor]:
    e^{kt}, e^{ks}, 1/k, lmbd, mu_v *)
Definition iez_vals (k lam mu s t : R) : list R := [exp (k * t); exp (k * s); / k; lam; mu].

(** Ito's formula for IE_t^n1 Z_t^n2, where IE_t = int_0^t e^{ks} sqrt(v_s) dw_s, Z_t = int_0^t e^{ks} dZ_s
    (j0 = 1) or that integral minus its mean (j0 = 2: the compensator removes the first jump term), and
      v_s = e^{-ks} a + b + sg e^{-ks} IE_s + e^{-ks} Z_s.
    The square bracket of IE is e^{2ks} v_s ds; a jump of size J adds e^{ks} J to Z and E[J^j] = j! mu^j. *)
Notation jd_idx := (Z * Z)%type.
Definition jd_dom (i : jd_idx) : Prop := (0 <= fst i)%Z /\ (0 <= snd i)%Z.
Definition jd_init (i : jd_idx) : R := match i with (0, 0)%Z => 1 | _ => 0 end.
Definition jd_sys (k a b sg lam mu : R) (j0 : Z) (i : jd_idx) : list ((R -> R) * jd_idx) :=
  let '(n1, n2) := i in
  (if (2 <=? n1)%Z
   then let c s := IZR (n1 * (n1 - 1)) / 2 * exp (k * s) ^ 2 in
        [ (fun s => c s * (exp (- (k * s)) * a + b), (n1 - 2, n2)%Z);
          (fun s => c s * (sg * exp (- (k * s))), (n1 - 1, n2)%Z);
          (fun s => c s * exp (- (k * s)), (n1 - 2, n2 + 1)%Z) ]
   else [])
  ++ map (fun j => (fun s => IZR (mcomb n2 j) * (lam * IZR (fact j) * mu ^ Z.to_nat j * exp (IZR j * (k * s))),
                    (n1, n2 - j)%Z)) (range j0 (n2 + 1)).

(** parameters of the model: k, v_0, theta, sigma, lmbd, mu_v *)
Record srjd := mkSrjd { sk : R; sv0 : R; sth : R; ssg : R; slam : R; smu : R }.
Definition mean_v (p : srjd) : R := sth p + slam p * smu p / sk p.

(** [M (n1,n2) t] are the conditional moments E[IE_t^n1 IEZ_t^n2 | v_0] *)
Definition srjd_moments (p : srjd) (M : jd_idx -> R -> R) : Prop :=
  vsol jd_dom (jd_sys (sk p) (sv0 p - sth p) (sth p) (ssg p) (slam p) (smu p) 1) jd_init M.
(** [M (n1,n2) t] are the conditional moments E[IE_t^n1 (IEZ_t - E IEZ_t)^n2 | v_0] *)
Definition srjd_cmoments (p : srjd) (M : jd_idx -> R -> R) : Prop :=
  vsol jd_dom (jd_sys (sk p) (sv0 p - mean_v p) (mean_v p) (ssg p) (slam p) (smu p) 2) jd_init M.

(** values of the symbols of the keys of moment_ie_iez and cmoment_ie_iez *)
Definition ie_vals (p : srjd) (t : R) : list R :=
  [exp (sk p * t); / sk p; sv0 p - sth p; sth p; ssg p; slam p; smu p].
Definition cie_vals (p : srjd) (t : R) : list R :=
  [exp (sk p * t); / sk p; sv0 p - mean_v p; mean_v p; ssg p; slam p; smu p].
