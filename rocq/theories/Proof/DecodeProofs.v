(** Proofs about the poly2num functions of mdl_srjd and mdl_svcj (Model/Decode.v). *)
From Coq Require Import Reals Lra.
From Coquelicot Require Import Coquelicot.
From Verif.Spec Require Import Sums Srjd Svcj.
From Verif.Model Require Import Decode.
From Verif.Proof Require Import KeyInv MonTac SumFacts DpolyProofs.
Local Open Scope R_scope.

Lemma exp_pwp n x : exp (IZR n * x) = pw (exp x) n.
Proof.
  transitivity (pw (exp (- - x)) n); [|now rewrite Ropp_involutive].
  rewrite <- exp_pw. f_equal. ring.
Qed.
Lemma pypow_ok x n : x <> 0 \/ (0 <= n)%Z -> pypow x n = Ok (pw x n).
Proof.
  intro H. unfold pypow. destruct (Req_EM_T x 0) as [->|]; [|reflexivity].
  destruct H; [congruence|]. destruct (Z.ltb_spec n 0); [lia|reflexivity].
Qed.
Lemma pydiv_ok x y : y <> 0 -> pydiv x y = Ok (x / y).
Proof. intro H. unfold pydiv. destruct (Req_EM_T y 0); [contradiction|reflexivity]. Qed.
Lemma pw_nz x n : x <> 0 -> pw x n <> 0.
Proof. intro H. now apply powerRZ_NOR. Qed.
Lemma pw_div k n : / pw k n = pw (/ k) n.
Proof. rewrite <- pw_inv_neg. unfold pw. symmetry. apply powerRZ_neg'. Qed.
Lemma pypow_div e k n : k <> 0 -> (let! kk := pypow k n in pydiv e kk) = Ok (e * pw (/ k) n).
Proof.
  intro H. rewrite pypow_ok by now left. cbn [bind]. rewrite pydiv_ok by now apply pw_nz.
  f_equal. unfold Rdiv. f_equal. rewrite <- pw_inv_neg. unfold pw. symmetry. apply powerRZ_neg'.
Qed.
Lemma pows_ok l : Forall (fun xn : R * Z => fst xn <> 0 \/ (0 <= snd xn)%Z) l -> pows l = Ok (prodR (fun xn => pw (fst xn) (snd xn)) l).
Proof.
  induction l as [|[x n] l IH]; intro H; [reflexivity|]. inversion H as [|? ? h1 h2]; subst. cbn [pows prodR fst snd].
  rewrite pypow_ok by exact h1. cbn [bind]. rewrite IH by exact h2. reflexivity.
Qed.

Lemma p2n_loop_eval (P : list Z -> Prop) val vals p : (forall K, P K -> val K = Ok (monx vals K)) -> allk P (items p) ->
  p2n_loop val p = Ok (eval (monx vals) (items p)).
Proof.
  intros Hv A. unfold p2n_loop. destruct p as [l kf]. cbn [items] in *.
  assert (H : forall f, foldM (fun f kv => let! x := val (fst kv) in Ok (f + x * Q2R (snd kv))) l f = Ok (f + eval (monx vals) l)).
  { induction l as [|[K c] l IH]; intro f; cbn [foldM eval]; [now rewrite Rplus_0_r|].
    cbn [fst snd]. rewrite Hv by (apply A; left; reflexivity). cbn [bind]. rewrite IH; [f_equal; ring|].
    intros k Hk. apply A. right. exact Hk. }
  rewrite H. now rewrite Rplus_0_l.
Qed.

(** ** dicts *)
Definition has (par : dict) (l : list (string * R)) : Prop := Forall (fun sx => par (fst sx) = Some (snd sx)) l.
Lemma dget_has par l s x : has par l -> In (s, x) l -> dget par s = Ok x.
Proof. intros H Hin. unfold dget. pose proof (proj1 (Forall_forall _ _) H (s, x) Hin) as h. cbn [fst snd] in h. now rewrite h. Qed.

Ltac dgets H := repeat match goal with |- context [dget ?par ?s] =>
  erewrite (dget_has par _ s _ H) by (cbn [In]; repeat (first [left; reflexivity|right])); cbn [bind] end.
Ltac monk Hk := intros K HK; wfs_destruct; unfold nthZ; cbn [nth];
  rewrite ?(Rmult_assoc (IZR _)), ?exp_pwp.

Lemma p2n_iez_eval par p k lam mu s t : k <> 0 ->
  has par [("k", k); ("lmbd", lam); ("mu_v", mu); ("lb", s); ("ub", t)]%string ->
  allk (wfs [true; true; true; true; true]) (items p) ->
  p2n_iez p par = Ok (eval (monx (iez_vals k lam mu s t)) (items p)).
Proof.
  intros Hk H A. unfold p2n_iez. dgets H.
  apply (p2n_loop_eval _ _ _ p) with (2 := A). monk Hk.
  rewrite pows_ok by (repeat constructor; cbn [fst snd]; tauto). cbn [bind prodR fst snd monx iez_vals]. f_equal.
  rewrite pw_inv_neg. ring.
Qed.
Lemma p2n_ie_eval par p v0 k th sg lam mu h : k <> 0 ->
  has par [("v0", v0); ("k", k); ("theta", th); ("sigma", sg); ("lmbd", lam); ("mu_v", mu); ("h", h)]%string ->
  allk (wfs [false; true; true; true; true; true; true]) (items p) ->
  p2n_ie p par = Ok (eval (monx (ie_vals (mkSrjd k v0 th sg lam mu) h)) (items p)).
Proof.
  intros Hk H A. unfold p2n_ie. dgets H.
  apply (p2n_loop_eval _ _ _ p) with (2 := A). monk Hk.
  rewrite pypow_ok by now left. cbn [bind]. rewrite pydiv_ok by now apply pw_nz. cbn [bind].
  rewrite pows_ok by (repeat constructor; cbn [fst snd]; tauto). cbn [bind prodR fst snd monx ie_vals sk sv0 sth ssg slam smu]. f_equal.
  unfold Rdiv at 1. rewrite pw_div. ring.
Qed.
Lemma p2n_cie_eval par p v0 k th sg lam mu h : k <> 0 ->
  has par [("v0", v0); ("k", k); ("theta", th); ("sigma", sg); ("lmbd", lam); ("mu_v", mu); ("h", h)]%string ->
  allk (wfs [false; true; true; true; true; true; true]) (items p) ->
  p2n_cie p par = Ok (eval (monx (cie_vals (mkSrjd k v0 th sg lam mu) h)) (items p)).
Proof.
  intros Hk H A. unfold p2n_cie. dgets H. rewrite pydiv_ok by assumption. cbn [bind].
  apply (p2n_loop_eval _ _ _ p) with (2 := A). monk Hk.
  rewrite pypow_ok by now left. cbn [bind]. rewrite pydiv_ok by now apply pw_nz. cbn [bind].
  rewrite pows_ok by (repeat constructor; cbn [fst snd]; tauto).
  unfold cie_vals, mean_v. cbn [bind prodR fst snd monx sk sv0 sth ssg slam smu]. f_equal.
  unfold Rdiv at 1. rewrite pw_div. ring.
Qed.
Lemma p2n_ieziziz_eval par p k h lam mv ms ss : k <> 0 ->
  has par [("k", k); ("h", h); ("lmbd", lam); ("mu_v", mv); ("mu_s", ms); ("sigma_s", ss)]%string ->
  allk (wfs [true; true; true; true; true; true; true; true]) (items p) ->
  p2n_ieziziz p par = Ok (eval (monx (ieziziz_vals k lam mv ms ss 0 h)) (items p)).
Proof.
  intros Hk H A. unfold p2n_ieziziz. dgets H.
  apply (p2n_loop_eval _ _ _ p) with (2 := A). monk Hk.
  rewrite pypow_ok by now right. cbn [bind]. rewrite pypow_ok by now left. cbn [bind]. rewrite pydiv_ok by now apply pw_nz. cbn [bind].
  rewrite pows_ok by (repeat constructor; cbn [fst snd]; tauto).
  unfold ieziziz_vals. cbn [bind prodR fst snd monx]. f_equal.
  rewrite Rmult_0_r, exp_0, Rminus_0_r.
  match goal with |- context [pw 1 ?n] => replace (pw 1 n) with 1 by (unfold pw; symmetry; apply powerRZ_R1) end.
  unfold Rdiv at 1. rewrite pw_div. ring.
Qed.
Lemma p2n_ieii_eval par p v0 k th sg lam mv h ms ss : k <> 0 ->
  has par [("v0", v0); ("k", k); ("theta", th); ("sigma", sg); ("lmbd", lam); ("mu_v", mv); ("h", h); ("mu_s", ms); ("sigma_s", ss)]%string ->
  allk (wfs [false; true; true; true; true; true; true; true; true; true]) (items p) ->
  p2n_ieii p par = Ok (eval (monx (ieii6_vals (mkSvcj k v0 th sg lam mv ms ss) h)) (items p)).
Proof.
  intros Hk H A. unfold p2n_ieii. dgets H.
  apply (p2n_loop_eval _ _ _ p) with (2 := A). monk Hk.
  rewrite pypow_ok by now right. cbn [bind]. rewrite pypow_ok by now left. cbn [bind]. rewrite pydiv_ok by now apply pw_nz. cbn [bind].
  rewrite pows_ok by (repeat constructor; cbn [fst snd]; tauto).
  unfold ieii6_vals. cbn [bind prodR fst snd monx Svcj.jk jv0 jth jsg jlam jmv jms jss]. f_equal.
  unfold Rdiv at 1. rewrite pw_div. ring.
Qed.
Definition s13 := [false; true; true; true; true; true; true; true; true; true; true; true; true].
Lemma p2n_13_eval p k h mu a th sg rho lam mv rJ ms ss v0 : k <> 0 -> allk (wfs s13) (items p) ->
  p2n_13 k h mu a th sg rho lam mv rJ ms ss p = Ok (eval (monx (svcj_vals (mkSvcj k v0 th sg lam mv ms ss) mu rho rJ h a)) (items p)).
Proof.
  intros Hk A. unfold p2n_13.
  apply (p2n_loop_eval _ _ _ p) with (2 := A). unfold s13. monk Hk.
  rewrite pypow_ok by now right. cbn [bind]. rewrite pypow_ok by now left. cbn [bind]. rewrite pydiv_ok by now apply pw_nz. cbn [bind].
  rewrite pows_ok by (repeat constructor; cbn [fst snd]; tauto).
  unfold svcj_vals. cbn [bind prodR fst snd monx Svcj.jk jv0 jth jsg jlam jmv jms jss]. f_equal.
  unfold Rdiv at 1. rewrite pw_div. ring.
Qed.
Lemma p2n_svcj_cond_eval par p k mu v0 th sg rho lam mv rJ ms ss h : k <> 0 ->
  has par [("k", k); ("mu", mu); ("v0", v0); ("theta", th); ("sigma", sg); ("rho", rho); ("lmbd", lam); ("mu_v", mv);
           ("rhoJ", rJ); ("mu_s", ms); ("sigma_s", ss); ("h", h)]%string -> allk (wfs s13) (items p) ->
  p2n_svcj_cond p par = Ok (eval (monx (svcj_vals (mkSvcj k v0 th sg lam mv ms ss) mu rho rJ h (v0 - th))) (items p)).
Proof. intros Hk H A. unfold p2n_svcj_cond. dgets H. now apply p2n_13_eval. Qed.
Lemma p2n_svcj_eval par p k mu v0 th sg rho lam mv rJ ms ss h : k <> 0 ->
  has par [("k", k); ("mu", mu); ("theta", th); ("sigma", sg); ("rho", rho); ("lmbd", lam); ("mu_v", mv);
           ("rhoJ", rJ); ("mu_s", ms); ("sigma_s", ss); ("h", h)]%string -> allk (wfs s13) (items p) ->
  p2n_svcj p par = Ok (eval (monx (svcj_vals (mkSvcj k v0 th sg lam mv ms ss) mu rho rJ h (th + lam * mv / k))) (items p)).
Proof. intros Hk H A. unfold p2n_svcj. dgets H. rewrite pydiv_ok by assumption. cbn [bind]. now apply p2n_13_eval. Qed.

(** ** missing names *)
Lemma dget_none par s : par s = None -> dget par s = Err KeyError.
Proof. unfold dget. now intros ->. Qed.
(** every lookup either fails with KeyError or the code goes on; the missing one is reached *)
Ltac missing Hs Hn := cbn [In] in Hs;
  repeat (destruct Hs as [<-|Hs]; [apply dget_none in Hn;
    repeat match goal with
    | |- (let! _ := dget ?par ?s in _) = _ => first [rewrite Hn; reflexivity|unfold dget at 1; destruct (par s); cbn [bind]; [|reflexivity]]
    end|]); destruct Hs.
Lemma p2n_iez_missing par p s : In s ["k"; "lmbd"; "mu_v"; "lb"; "ub"]%string -> par s = None -> p2n_iez p par = Err KeyError.
Proof. intros Hs Hn. unfold p2n_iez. missing Hs Hn. Qed.
Lemma p2n_ie_missing par p s : In s ["v0"; "k"; "theta"; "sigma"; "lmbd"; "mu_v"; "h"]%string -> par s = None ->
  p2n_ie p par = Err KeyError /\ p2n_cie p par = Err KeyError.
Proof. intros Hs Hn. unfold p2n_ie, p2n_cie. split; missing Hs Hn. Qed.
Lemma p2n_ieziziz_missing par p s : In s ["k"; "h"; "lmbd"; "mu_v"; "mu_s"; "sigma_s"]%string -> par s = None ->
  p2n_ieziziz p par = Err KeyError.
Proof. intros Hs Hn. unfold p2n_ieziziz. missing Hs Hn. Qed.
Lemma p2n_ieii_missing par p s : In s ["v0"; "k"; "theta"; "sigma"; "lmbd"; "mu_v"; "h"; "mu_s"; "sigma_s"]%string -> par s = None ->
  p2n_ieii p par = Err KeyError.
Proof. intros Hs Hn. unfold p2n_ieii. missing Hs Hn. Qed.
Lemma p2n_svcj_missing par p s : In s ["k"; "mu"; "theta"; "sigma"; "rho"; "lmbd"; "mu_v"; "rhoJ"; "mu_s"; "sigma_s"; "h"]%string -> par s = None ->
  p2n_svcj p par = Err KeyError.
Proof. intros Hs Hn. unfold p2n_svcj. missing Hs Hn. Qed.
Lemma p2n_svcj_cond_missing par p s :
  In s ["k"; "mu"; "v0"; "theta"; "sigma"; "rho"; "lmbd"; "mu_v"; "rhoJ"; "mu_s"; "sigma_s"; "h"]%string -> par s = None ->
  p2n_svcj_cond p par = Err KeyError.
Proof. intros Hs Hn. unfold p2n_svcj_cond. missing Hs Hn. Qed.
