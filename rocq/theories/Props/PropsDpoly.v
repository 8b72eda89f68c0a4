(** Property C22: the dpoly functions of mdl_1fsv and mdl_1fsvj. *)
From Coq Require Import Reals Lra.
From Coquelicot Require Import Coquelicot.
From Verif.Spec Require Import Names.
From Verif.Proof Require Import DpolyProofs.
Local Open Scope R_scope.

Lemma derive_switch (f g : R -> R) (x a b : R) : (forall t, g t = f t) -> a = b -> is_derive f x a -> is_derive g x b.
Proof. intros Hfg <- Hd. apply (is_derive_ext_loc_all f); [intro; symmetry; apply Hfg|exact Hd]. Qed.

Ltac rules_len := let r := fresh in let Hi := fresh in let k := fresh in intros r Hi k; cbn [In r_k r_rho r_plain] in Hi;
  repeat (destruct Hi as [<-|Hi]; [cbn [snd]; now rewrite ?addat_length|]); destruct Hi.
Ltac lens L := first [exact L | apply d_loop_len; [rules_len|exact L] | apply allk_nil].
(** [p]'s value is the generic one, and so is that of its derivative *)
Ltac switch EV L := eapply derive_switch;
  [intro t; rewrite EV by lens L; reflexivity | symmetry; apply EV; lens L|].
Ltac casek := match goal with H : In _ [] |- _ => destruct H | H : In _ (_ :: _) |- _ => destruct H as [<-|H]; [|casek] end.

(** mdl_1fsv/mom.py *)
Theorem C22_dpoly_m1 : forall (p : Poly (list Z)) (par : string -> R) (wrt : string),
  In wrt ["k"; "mu"; "theta"; "sigma_v"; "rho"]%string ->
  par "k"%string <> 0 -> -1 < par "rho"%string < 1 -> fits (v_m1 par) (items p) ->
  exists q, dpoly_m1 p wrt = Ok q /\ keyfor q = nm_m1 /\
    is_derive (fun x => poly2num_m1 p (upd par wrt x)) (par wrt) (poly2num_m1 q par).
Proof.
  intros p par wrt Hw Hk Hr Hf. pose proof (fits_len (v_m1 par) _ 8 eq_refl Hf) as L.
  casek; (eexists; split; [reflexivity|split; [reflexivity|]]); switch poly2num_m1_eval L.
  - exact (k_derive par Hk _ kf_m1 p Hf).
  - exact (plain_derive (v_m1 par) 3 kf_m1 p ltac:(cbn; lia) Hf).
  - exact (plain_derive (v_m1 par) 4 kf_m1 p ltac:(cbn; lia) Hf).
  - exact (plain_derive (v_m1 par) 5 kf_m1 p ltac:(cbn; lia) Hf).
  - exact (rho_derive par Hr (firstn 6 (v_m1 par)) [] kf_m1 p Hf).
Qed.

(** mdl_1fsv/cmom.py *)
Theorem C22_dpoly_cm1 : forall (p : Poly (list Z)) (par : string -> R) (wrt : string),
  In wrt ["mu"; "k"; "theta"; "sigma_v"; "rho"]%string ->
  par "k"%string <> 0 -> -1 < par "rho"%string < 1 -> fits (v_cm1 par) (items p) ->
  exists q, dpoly_cm1 p wrt = Ok q /\ keyfor q = nm_cm1 /\
    is_derive (fun x => poly2num_cm1 p (upd par wrt x)) (par wrt) (poly2num_cm1 q par).
Proof.
  intros p par wrt Hw Hk Hr Hf. pose proof (fits_len (v_cm1 par) _ 7 eq_refl Hf) as L.
  casek; (eexists; split; [reflexivity|split; [reflexivity|]]); switch poly2num_cm1_eval L.
  - exact (is_derive_Rconst (eval (monx (v_cm1 par)) (items p)) _).
  - exact (k_derive par Hk _ kf_cm1 p Hf).
  - exact (plain_derive (v_cm1 par) 3 kf_cm1 p ltac:(cbn; lia) Hf).
  - exact (plain_derive (v_cm1 par) 4 kf_cm1 p ltac:(cbn; lia) Hf).
  - exact (rho_derive par Hr (firstn 5 (v_cm1 par)) [] kf_cm1 p Hf).
Qed.

(** mdl_1fsvj/mom.py *)
Theorem C22_dpoly_mj : forall (p : Poly (list Z)) (par : string -> R) (wrt : string),
  In wrt ["k"; "rho"; "mu"; "theta"; "sigma_v"; "lambda"; "mu_j"; "sigma_j"]%string ->
  par "k"%string <> 0 -> -1 < par "rho"%string < 1 -> fits (v_m1 par ++ v_jump par) (items p) ->
  exists q, dpoly_mj p wrt = Ok q /\ keyfor q = nm_mj /\
    is_derive (fun x => poly2num_mj p (upd par wrt x)) (par wrt) (poly2num_mj q par).
Proof.
  intros p par wrt Hw Hk Hr Hf. pose proof (fits_len (v_m1 par ++ v_jump par) _ 11 eq_refl Hf) as L.
  casek; (eexists; split; [reflexivity|split; [reflexivity|]]); switch poly2num_mj_eval L.
  - exact (k_derive par Hk _ kf_mj p Hf).
  - exact (rho_derive par Hr (firstn 6 (v_m1 par)) (v_jump par) kf_mj p Hf).
  - exact (plain_derive (v_m1 par ++ v_jump par) 3 kf_mj p ltac:(cbn; lia) Hf).
  - exact (plain_derive (v_m1 par ++ v_jump par) 4 kf_mj p ltac:(cbn; lia) Hf).
  - exact (plain_derive (v_m1 par ++ v_jump par) 5 kf_mj p ltac:(cbn; lia) Hf).
  - exact (plain_derive (v_m1 par ++ v_jump par) 8 kf_mj p ltac:(cbn; lia) Hf).
  - exact (plain_derive (v_m1 par ++ v_jump par) 9 kf_mj p ltac:(cbn; lia) Hf).
  - exact (plain_derive (v_m1 par ++ v_jump par) 10 kf_mj p ltac:(cbn; lia) Hf).
Qed.

(** mdl_1fsvj/cmom.py *)
Theorem C22_dpoly_cmj : forall (p : Poly (list Z)) (par : string -> R) (wrt : string),
  In wrt ["mu"; "k"; "theta"; "sigma_v"; "lambda"; "mu_j"; "sigma_j"; "rho"]%string ->
  par "k"%string <> 0 -> -1 < par "rho"%string < 1 -> fits (v_cm1 par ++ v_jump par) (items p) ->
  exists q, dpoly_cmj p wrt = Ok q /\ keyfor q = nm_cmj /\
    is_derive (fun x => poly2num_cmj p (upd par wrt x)) (par wrt) (poly2num_cmj q par).
Proof.
  intros p par wrt Hw Hk Hr Hf. pose proof (fits_len (v_cm1 par ++ v_jump par) _ 10 eq_refl Hf) as L.
  casek; (eexists; split; [reflexivity|split; [reflexivity|]]); switch poly2num_cmj_eval L.
  - exact (is_derive_Rconst (eval (monx (v_cm1 par ++ v_jump par)) (items p)) _).
  - exact (k_derive par Hk _ kf_cmj p Hf).
  - exact (plain_derive (v_cm1 par ++ v_jump par) 3 kf_cmj p ltac:(cbn; lia) Hf).
  - exact (plain_derive (v_cm1 par ++ v_jump par) 4 kf_cmj p ltac:(cbn; lia) Hf).
  - exact (plain_derive (v_cm1 par ++ v_jump par) 7 kf_cmj p ltac:(cbn; lia) Hf).
  - exact (plain_derive (v_cm1 par ++ v_jump par) 8 kf_cmj p ltac:(cbn; lia) Hf).
  - exact (plain_derive (v_cm1 par ++ v_jump par) 9 kf_cmj p ltac:(cbn; lia) Hf).
  - exact (rho_derive par Hr (firstn 5 (v_cm1 par)) (v_jump par) kf_cmj p Hf).
Qed.

(** any other name raises ValueError *)
Theorem C22_unknown_name : forall (p : Poly (list Z)) (wrt : string),
  (~ In wrt ["k"; "mu"; "theta"; "sigma_v"; "rho"]%string -> dpoly_m1 p wrt = Err ValueError /\ dpoly_cm1 p wrt = Err ValueError) /\
  (~ In wrt ["k"; "mu"; "theta"; "sigma_v"; "rho"; "lambda"; "mu_j"; "sigma_j"]%string ->
     dpoly_mj p wrt = Err ValueError /\ dpoly_cmj p wrt = Err ValueError).
Proof.
  intros p wrt. unfold dpoly_m1, dpoly_cm1, dpoly_mj, dpoly_cmj.
  split; intro Hn; split;
    repeat match goal with |- context [(wrt =? ?s)%string] =>
      let e := fresh in destruct (String.eqb_spec wrt s) as [e|_]; [exfalso; apply Hn; subst wrt; cbn; tauto|] end; reflexivity.
Qed.

(** the accepted names are exactly those *)
Theorem C22_names : forall (p : Poly (list Z)) (wrt : string),
  ((exists q, dpoly_m1 p wrt = Ok q) <-> In wrt ["k"; "mu"; "theta"; "sigma_v"; "rho"]%string) /\
  ((exists q, dpoly_mj p wrt = Ok q) <-> In wrt ["k"; "mu"; "theta"; "sigma_v"; "rho"; "lambda"; "mu_j"; "sigma_j"]%string).
Proof.
  intros p wrt. destruct (C22_unknown_name p wrt) as [h1 h2]. split; (split; [intros [q e]|intro Hi]).
  - destruct (in_dec string_dec wrt ["k"; "mu"; "theta"; "sigma_v"; "rho"]%string) as [|Hn]; [assumption|].
    destruct (h1 Hn) as [e' _]. congruence.
  - casek; eexists; reflexivity.
  - destruct (in_dec string_dec wrt ["k"; "mu"; "theta"; "sigma_v"; "rho"; "lambda"; "mu_j"; "sigma_j"]%string) as [|Hn]; [assumption|].
    destruct (h2 Hn) as [e' _]. congruence.
  - casek; eexists; reflexivity.
Qed.

(** hypotheses are met with a zero drift and a zero correlation, and the derivative is not trivial *)
Example C22_example : let p := mkPoly [([1; 2; 3; 0; 1; 2; 0; 2]%Z, 3 # 4)] kf_m1 in
  let par := fun s : string => if (s =? "mu")%string then 0 else if (s =? "rho")%string then 0 else 2 in
  par "k"%string <> 0 /\ -1 < par "rho"%string < 1 /\ fits (v_m1 par) (items p) /\
  dpoly_m1 p "k" = Ok (mkPoly [([1; 3; 3; 0; 1; 2; 0; 2]%Z, -3 # 4); ([1; 2; 4; 0; 1; 2; 0; 2]%Z, -9 # 4)] kf_m1) /\
  dpoly_m1 p "rho" = Ok (mkPoly [([1; 2; 3; 0; 1; 2; 1; 0]%Z, -3 # 2)] kf_m1) /\
  dpoly_m1 p "h" = Err ValueError.
Proof.
  cbv zeta. cbn. split; [lra|]. split; [lra|]. split; [|split; [reflexivity|split; reflexivity]].
  intros k c [e|[]]. injection e as <- <-. repeat (apply Forall2_cons; [right; lia|]). apply Forall2_nil.
Qed.
