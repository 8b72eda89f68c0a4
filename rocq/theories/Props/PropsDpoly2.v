(** Property C27: the dpoly functions of mdl_2fsv and mdl_2fsvj. *)
From Coq Require Import Reals Lra.
From Coquelicot Require Import Coquelicot.
From Verif.Spec Require Import Names.
From Verif.Proof Require Import Dpoly2Proofs.
Local Open Scope R_scope.

Lemma derive_switch2 (f g : R -> R) (x a b : R) : (forall t, g t = f t) -> a = b -> is_derive f x a -> is_derive g x b.
Proof. intros Hfg <- Hd. apply (is_derive_ext_loc_all f); [intro; symmetry; apply Hfg|exact Hd]. Qed.
Lemma e_len2 n : (forall i k e, len2 n k -> In e (e_plain i k) -> len2 n (fst e)) /\
  (forall m k e, len2 n k -> In e (e_dt m k) -> len2 n (fst e)) /\
  (forall m k e, len2 n k -> In e (e_exp m k) -> len2 n (fst e)).
Proof.
  unfold len2. repeat split.
  - intros i [t0 [t1 x]] e Hk. cbn [e_plain]. destruct (nthZ x i =? 0)%Z; [intros []|]. intros [<-|[]]. cbn [fst snd]. now rewrite addat_length.
  - intros m [t0 [t1 x]] e Hk Hin. unfold e_dt in Hin. apply in_map_iff in Hin. destruct Hin as (t & <- & _). exact Hk.
  - intros m [t0 [t1 x]] e Hk. cbn [e_exp]. destruct (m t1 =? 0)%Z; [intros []|]. intros [<-|[]]. cbn [fst snd]. now rewrite addat_length.
Qed.
Ltac lens2 L := cbn [items]; first [exact L | exact (allk_nil _)
  | apply ed_items_allk; [first [exact (proj1 (e_len2 _) _)|exact (proj1 (proj2 (e_len2 _)) _)|exact (proj2 (proj2 (e_len2 _)) _)]|exact L|lens2 L]].
Ltac switch2 EV L := eapply derive_switch2;
  [intro t; rewrite EV by lens2 L; reflexivity | symmetry; apply EV; lens2 L|].
Ltac casek2 := match goal with H : In _ [] |- _ => destruct H | H : In _ (_ :: _) |- _ => destruct H as [<-|H]; [|casek2] end.

Lemma lin_k1 a b (k1 k2 : R) : is_derive (fun t : R => IZR a * t + IZR b * k2) k1 (IZR a).
Proof. eapply is_derive_val; [apply is_derive_Rplus; [apply is_derive_lin|apply is_derive_Rconst]|]. ring. Qed.
Lemma lin_k2 a b (k1 k2 : R) : is_derive (fun t : R => IZR a * k1 + IZR b * t) k2 (IZR b).
Proof. eapply is_derive_val; [apply is_derive_Rplus; [apply is_derive_Rconst|apply is_derive_lin]|]. ring. Qed.
Lemma d2_k1 kf p : d2_k "k1" kf p = Ok (mkPoly (ed_items (e_exp fst) (items p) (ed_items (e_dt (fun '(a, _, _) => a)) (items p) [])) kf).
Proof. apply d2_k_eq; reflexivity. Qed.
Lemma d2_k2 kf p : d2_k "k2" kf p = Ok (mkPoly (ed_items (e_exp snd) (items p) (ed_items (e_dt (fun '(_, b, _) => b)) (items p) [])) kf).
Proof. apply d2_k_eq; reflexivity. Qed.

Ltac go2 := first [etransitivity; [apply d2_k1|reflexivity] | etransitivity; [apply d2_k2|reflexivity]
  | etransitivity; [apply d2_plain_eq|reflexivity] | reflexivity].
Ltac k1_case par vals Hf :=
  exact (k2_derive (fun t => t) (fun _ => par "k2"%string) (par "k1"%string) (fun '(a, _, _) => a) fst par (par "h"%string) (tl vals) _
    eq_refl eq_refl (fun a b _ => lin_k1 a b _ _) (fun a b => lin_k1 a b _ _) Hf).
Ltac k2_case par vals Hf :=
  exact (k2_derive (fun _ => par "k1"%string) (fun t => t) (par "k2"%string) (fun '(_, b, _) => b) snd par (par "h"%string) (tl vals) _
    eq_refl eq_refl (fun a b _ => lin_k2 a b _ _) (fun a b => lin_k2 a b _ _) Hf).

(** mdl_2fsv/mom.py *)
Theorem C27_dpoly_m : forall (p : Poly fkey) (par : string -> R) (wrt : string),
  In wrt ["k1"; "k2"; "mu"; "theta1"; "sigma_v1"; "theta2"; "sigma_v2"]%string ->
  fits2 par (v2_m par) (items p) ->
  exists q, dpoly2_m p wrt = Ok q /\ keyfor q = nm2_m /\
    is_derive (fun x => poly2num2_m p (upd par wrt x)) (par wrt) (poly2num2_m q par).
Proof.
  intros p par wrt Hw Hf. pose proof (fits2_len par (v2_m par) _ 6 eq_refl Hf) as L.
  casek2; (eexists; split; [unfold dpoly2_m; cbn [String.eqb Ascii.eqb Bool.eqb orb]; go2|split; [reflexivity|]]);
    switch2 poly2num2_m_eval L.
  - k1_case par (v2_m par) Hf.
  - k2_case par (v2_m par) Hf.
  - exact (plain2_derive par (v2_m par) 0 _ ltac:(cbn; lia) Hf).
  - exact (plain2_derive par (v2_m par) 1 _ ltac:(cbn; lia) Hf).
  - exact (plain2_derive par (v2_m par) 2 _ ltac:(cbn; lia) Hf).
  - exact (plain2_derive par (v2_m par) 3 _ ltac:(cbn; lia) Hf).
  - exact (plain2_derive par (v2_m par) 4 _ ltac:(cbn; lia) Hf).
Qed.

(** mdl_2fsv/cmom.py *)
Theorem C27_dpoly_cm : forall (p : Poly fkey) (par : string -> R) (wrt : string),
  In wrt ["mu"; "k1"; "k2"; "theta1"; "sigma_v1"; "theta2"; "sigma_v2"]%string ->
  fits2 par (v2_cm par) (items p) ->
  exists q, dpoly2_cm p wrt = Ok q /\ keyfor q = nm2_cm /\
    is_derive (fun x => poly2num2_cm p (upd par wrt x)) (par wrt) (poly2num2_cm q par).
Proof.
  intros p par wrt Hw Hf. pose proof (fits2_len par (v2_cm par) _ 5 eq_refl Hf) as L.
  casek2; (eexists; split; [unfold dpoly2_cm; cbn [String.eqb Ascii.eqb Bool.eqb orb]; go2|split; [reflexivity|]]);
    switch2 poly2num2_cm_eval L.
  - exact (is_derive_Rconst (eval (mon2 (par "k1"%string) (par "k2"%string) (v2_cm par)) (items p)) _).
  - k1_case par (v2_cm par) Hf.
  - k2_case par (v2_cm par) Hf.
  - exact (plain2_derive par (v2_cm par) 0 _ ltac:(cbn; lia) Hf).
  - exact (plain2_derive par (v2_cm par) 1 _ ltac:(cbn; lia) Hf).
  - exact (plain2_derive par (v2_cm par) 2 _ ltac:(cbn; lia) Hf).
  - exact (plain2_derive par (v2_cm par) 3 _ ltac:(cbn; lia) Hf).
Qed.

(** mdl_2fsvj/mom.py *)
Theorem C27_dpoly_mj : forall (p : Poly fkey) (par : string -> R) (wrt : string),
  In wrt ["k1"; "k2"; "mu"; "theta1"; "sigma_v1"; "theta2"; "sigma_v2"; "lambda"; "mu_j"; "sigma_j"]%string ->
  fits2 par (v2_m par ++ v_jump par) (items p) ->
  exists q, dpoly2_mj p wrt = Ok q /\ keyfor q = nm2_mj /\
    is_derive (fun x => poly2num2_mj p (upd par wrt x)) (par wrt) (poly2num2_mj q par).
Proof.
  intros p par wrt Hw Hf. pose proof (fits2_len par (v2_m par ++ v_jump par) _ 9 eq_refl Hf) as L.
  casek2; (eexists; split; [unfold dpoly2_mj; cbn [String.eqb Ascii.eqb Bool.eqb orb]; go2|split; [reflexivity|]]);
    switch2 poly2num2_mj_eval L.
  - k1_case par (v2_m par ++ v_jump par) Hf.
  - k2_case par (v2_m par ++ v_jump par) Hf.
  - exact (plain2_derive par (v2_m par ++ v_jump par) 0 _ ltac:(cbn; lia) Hf).
  - exact (plain2_derive par (v2_m par ++ v_jump par) 1 _ ltac:(cbn; lia) Hf).
  - exact (plain2_derive par (v2_m par ++ v_jump par) 2 _ ltac:(cbn; lia) Hf).
  - exact (plain2_derive par (v2_m par ++ v_jump par) 3 _ ltac:(cbn; lia) Hf).
  - exact (plain2_derive par (v2_m par ++ v_jump par) 4 _ ltac:(cbn; lia) Hf).
  - exact (plain2_derive par (v2_m par ++ v_jump par) 5 _ ltac:(cbn; lia) Hf).
  - exact (plain2_derive par (v2_m par ++ v_jump par) 6 _ ltac:(cbn; lia) Hf).
  - exact (plain2_derive par (v2_m par ++ v_jump par) 7 _ ltac:(cbn; lia) Hf).
Qed.

(** mdl_2fsvj/cmom.py *)
Theorem C27_dpoly_cmj : forall (p : Poly fkey) (par : string -> R) (wrt : string),
  In wrt ["mu"; "k1"; "k2"; "theta1"; "sigma_v1"; "theta2"; "sigma_v2"; "lambda"; "mu_j"; "sigma_j"]%string ->
  fits2 par (v2_cm par ++ v_jump par) (items p) ->
  exists q, dpoly2_cmj p wrt = Ok q /\ keyfor q = nm2_cmj /\
    is_derive (fun x => poly2num2_cmj p (upd par wrt x)) (par wrt) (poly2num2_cmj q par).
Proof.
  intros p par wrt Hw Hf. pose proof (fits2_len par (v2_cm par ++ v_jump par) _ 8 eq_refl Hf) as L.
  casek2; (eexists; split; [unfold dpoly2_cmj; cbn [String.eqb Ascii.eqb Bool.eqb orb]; go2|split; [reflexivity|]]);
    switch2 poly2num2_cmj_eval L.
  - exact (is_derive_Rconst (eval (mon2 (par "k1"%string) (par "k2"%string) (v2_cm par ++ v_jump par)) (items p)) _).
  - k1_case par (v2_cm par ++ v_jump par) Hf.
  - k2_case par (v2_cm par ++ v_jump par) Hf.
  - exact (plain2_derive par (v2_cm par ++ v_jump par) 0 _ ltac:(cbn; lia) Hf).
  - exact (plain2_derive par (v2_cm par ++ v_jump par) 1 _ ltac:(cbn; lia) Hf).
  - exact (plain2_derive par (v2_cm par ++ v_jump par) 2 _ ltac:(cbn; lia) Hf).
  - exact (plain2_derive par (v2_cm par ++ v_jump par) 3 _ ltac:(cbn; lia) Hf).
  - exact (plain2_derive par (v2_cm par ++ v_jump par) 4 _ ltac:(cbn; lia) Hf).
  - exact (plain2_derive par (v2_cm par ++ v_jump par) 5 _ ltac:(cbn; lia) Hf).
  - exact (plain2_derive par (v2_cm par ++ v_jump par) 6 _ ltac:(cbn; lia) Hf).
Qed.

(** any other name raises ValueError *)
Theorem C27_unknown_name : forall (p : Poly fkey) (wrt : string),
  (~ In wrt ["k1"; "k2"; "mu"; "theta1"; "sigma_v1"; "theta2"; "sigma_v2"]%string ->
     dpoly2_m p wrt = Err ValueError /\ dpoly2_cm p wrt = Err ValueError) /\
  (~ In wrt ["k1"; "k2"; "mu"; "theta1"; "sigma_v1"; "theta2"; "sigma_v2"; "lambda"; "mu_j"; "sigma_j"]%string ->
     dpoly2_mj p wrt = Err ValueError /\ dpoly2_cmj p wrt = Err ValueError) /\
  (~ In wrt ["k1"; "k2"]%string -> forall t0, dt0 t0 wrt = Err ValueError).
Proof.
  intros p wrt. unfold dpoly2_m, dpoly2_cm, dpoly2_mj, dpoly2_cmj, dt0.
  split; [|split]; intro Hn; [split|split|intro];
    repeat match goal with |- context [(wrt =? ?s)%string] =>
      let e := fresh in destruct (String.eqb_spec wrt s) as [e|_]; [exfalso; apply Hn; subst wrt; cbn; tauto|] end; reflexivity.
Qed.

(** the accepted names are exactly those *)
Theorem C27_names : forall (p : Poly fkey) (wrt : string),
  ((exists q, dpoly2_m p wrt = Ok q) <->
     In wrt ["k1"; "k2"; "mu"; "theta1"; "sigma_v1"; "theta2"; "sigma_v2"]%string) /\
  ((exists q, dpoly2_cm p wrt = Ok q) <->
     In wrt ["k1"; "k2"; "mu"; "theta1"; "sigma_v1"; "theta2"; "sigma_v2"]%string) /\
  ((exists q, dpoly2_mj p wrt = Ok q) <->
     In wrt ["k1"; "k2"; "mu"; "theta1"; "sigma_v1"; "theta2"; "sigma_v2"; "lambda"; "mu_j"; "sigma_j"]%string) /\
  ((exists q, dpoly2_cmj p wrt = Ok q) <->
     In wrt ["k1"; "k2"; "mu"; "theta1"; "sigma_v1"; "theta2"; "sigma_v2"; "lambda"; "mu_j"; "sigma_j"]%string).
Proof.
  intros p wrt. destruct (C27_unknown_name p wrt) as [h1 [h2 _]].
  split; [|split; [|split]]; (split; [intros [q e]|intro Hi;
    casek2; eexists; unfold dpoly2_m, dpoly2_cm, dpoly2_mj, dpoly2_cmj; cbn [String.eqb Ascii.eqb Bool.eqb orb]; go2]).
  all: match goal with |- In _ ?l => destruct (in_dec string_dec wrt l) as [|Hn]; [assumption|] end;
    first [destruct (h1 Hn) as [e' e'']|destruct (h2 Hn) as [e' e'']]; congruence.
Qed.

(** hypotheses are met with a vanishing factor of exponent 0, a zero drift, and two denominators *)
Example C27_example : let p := mkPoly [(([(1, 2, 3); (2, -2, 0); (0, 1, 1)], ((1, 0), [2; 0; 1; 2; 0; 2]))%Z, 3 # 4)] kd_m in
  let par := fun s : string => if (s =? "mu")%string then 0 else 2 in
  fits2 par (v2_m par) (items p) /\
  dpoly2_m p "k2" = Ok (mkPoly [(([(1, 2, 4); (2, -2, 0); (0, 1, 1)], ((1, 0), [2; 0; 1; 2; 0; 2]))%Z, -9 # 2);
                                (([(1, 2, 3); (2, -2, 0); (0, 1, 2)], ((1, 0), [2; 0; 1; 2; 0; 2]))%Z, -3 # 4)] kd_m) /\
  dpoly2_m p "h" = Err ValueError.
Proof.
  cbv zeta. split; [|split; reflexivity].
  intros t0 t1 x c [e|[]]. injection e as <- <- <- <-. split.
  - intros a b e [h|[h|[h|[]]]]; injection h as <- <- <-; cbn; first [left; lra|right; lia].
  - unfold v2_m. repeat (apply Forall2_cons; [right; lia|]). apply Forall2_nil.
Qed.
