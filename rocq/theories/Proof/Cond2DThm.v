(** C59: the theorems for every order. *)
From Coq Require Import Reals Lra FunctionalExtensionality.
From Verif.Spec Require Import Cond2Dict SvcjPath.
From Verif.Proof Require Import ItoProofs KeyInv MonTac SumFacts DecodeProofs ScalarDProofs StackProofs UtilsProofs SrjdCond2V SvvjW SvcjCond2W TimeUnit JumpTimes Cond2DProofs.
From Verif.Model Require Import Cond2D.
Local Open Scope R_scope.

(** ** the polynomials of the code, at every order *)
Definition code_ok {K} (p : res (Poly K)) (P : K -> Prop) : Prop := exists r, p = Ok r /\ allk P (items r).
Lemma code_ok_intro {K} (p : res (Poly K)) (P Q : K -> Prop) (T : Poly K -> Prop) :
  returns p T -> (forall r, T r -> allk P (items r)) -> oks p (allp Q) -> code_ok p (fun k => P k /\ Q k).
Proof.
  intros h1 h2 h3. destruct p as [r|]; [|destruct h1]. exists r. split; [reflexivity|]. intros k Hk. split; [now apply (h2 r h1)|now apply h3].
Qed.
Notation two P Q := (fun k => P k /\ Q k).
Lemma code_svc l : code_ok (sv_cmoment_y l) (two (svok 6 (3 + 0)) nsv).
Proof.
  apply code_ok_intro with (T := is_cmoment given_code (Z.max 1 l)); [|intros r (_ & _ & h & _); exact h|apply sv_cmoment_nn].
  exact (table_last (Z.max 1 l) (Z.max 1 l) _ _ ltac:(lia) (w_sv_c _ HJ_code _ _ (HW_code _) l)).
Qed.
Lemma code_svm l : code_ok (sv_moment_y l) (two (svok 8 (3 + 0)) nsv).
Proof.
  apply code_ok_intro with (T := is_moment given_code (Z.max 0 l)); [|intros r (_ & _ & h & _); exact h|apply sv_moment_nn].
  exact (table_last (Z.max 0 l) (Z.max 0 l) _ _ ltac:(lia) (w_sv_m _ HJ_code _ _ (HW_code _) l)).
Qed.
Lemma code_ijc l : code_ok (svij_cmoment_y l) (two (svok 6 (3 + 3)) nsv).
Proof.
  apply code_ok_intro with (T := is_ij_cmoment given_code (Z.max 1 l)); [|intros r (_ & _ & h & _); exact h|apply svij_cmoment_nn].
  exact (table_last (Z.max 1 l) (Z.max 1 l) _ _ ltac:(lia) (w_ij_c _ HJ_code _ _ (HW_code _) l)).
Qed.
Lemma code_ijm l : code_ok (svij_moment_y l) (two (svok 8 (3 + 3)) nsv).
Proof.
  apply code_ok_intro with (T := is_ij_moment given_code (Z.max 0 l)); [|intros r (_ & _ & h & _); exact h|apply svij_moment_nn].
  exact (table_last (Z.max 0 l) (Z.max 0 l) _ _ ltac:(lia) (w_ij_m _ HJ_code _ _ (HW_code _) l)).
Qed.
Lemma code_cjc l nJ : code_ok (cj_cmoment_y l nJ) (two (svok 6 (3 + 1)) nsv).
Proof.
  apply (code_ok_intro _ _ _ (fun r => allk (svok 6 4) (items r))); [|trivial|apply cj_cmoment_nn].
  apply (table_last (Z.max 1 l) (Z.max 1 l) (fun _ r => allk (svok 6 4) (items r))); [lia|].
  eapply returns_weaken; [apply (cj_cmoments_tab _ HJ_code nJ l)|]. intros cs (Hl & Ht & _). split; [exact Hl|].
  intros n Hn _. destruct (Ht n Hn) as (q & Eq & K & U & A). exists q. split; [exact Eq|exact A].
Qed.
Lemma code_cjm l nJ : code_ok (cj_moment_y l nJ) (two (cj_kok nJ (Z.max 0 l)) ncj).
Proof.
  apply (code_ok_intro _ _ _ (fun r => allk (cj_kok nJ (Z.max 0 l)) (items r))); [|trivial|apply cj_moment_nn].
  apply (table_last (Z.max 0 l) (Z.max 0 l) (fun n r => allk (cj_kok nJ n) (items r))); [lia|].
  eapply returns_weaken; [apply (cj_moments_tab _ HJ_code nJ l)|]. intros cs (Hl & Ht). split; [exact Hl|].
  intros n Hn _. destruct (Ht n Hn) as (q & Eq & (K & U & A) & _). exists q. split; [exact Eq|exact A].
Qed.
Lemma code_c2m l : (0 <= l)%Z -> code_ok (c2_moment_v l) c2ok.
Proof. intro Hl. pose proof (c2_moment_v_spec l Hl) as h. destruct (c2_moment_v l) as [r|]; [|destruct h]. exists r. split; [reflexivity|apply h]. Qed.
Lemma code_c2c l : (0 <= l)%Z -> code_ok (c2_cmoment_v l) c2ok.
Proof. intro Hl. pose proof (c2_cmoment_v_spec l Hl) as h. destruct (c2_cmoment_v l) as [r|]; [|destruct h]. exists r. split; [reflexivity|apply h]. Qed.

(** ** dicts *)
Lemma nget_ok ns n t q s : agrees ns n q -> In s ns -> nget (mkJpar n t) s = Ok (q s).
Proof. intros H Hin. exact (dget_agrees ns n q s H Hin). Qed.
Lemma tget_ok n t s x : t s = Some x -> tget (mkJpar n t) s = Ok x.
Proof. intro H. unfold tget. cbn [tups]. now rewrite H. Qed.
Ltac ngets H := repeat match goal with |- context [nget (mkJpar ?n ?t) ?s] =>
  erewrite (nget_ok _ n t _ s H) by (cbn [In app]; repeat (first [left; reflexivity|right])); cbn [bind] end.
(** one lookup *)
Ltac one Hn := match goal with
  | |- (let! _ := nget (mkJpar ?n ?t) ?s in _) = _ =>
      unfold nget at 1, dget at 1; cbn [nums]; first [rewrite Hn; reflexivity|destruct (n s); cbn [bind]; [|reflexivity]]
  | |- (let! _ := tget (mkJpar ?n ?t) ?s in _) = _ =>
      unfold tget at 1; cbn [tups]; first [rewrite Hn; reflexivity|destruct (t s); cbn [bind]; [|reflexivity]]
  end.
Ltac lacks Hs Hn := cbn [In app] in Hs; repeat (destruct Hs as [<-|Hs]; [solve [repeat one Hn]|]); destruct Hs.

Section S.
Local Open Scope string_scope.
Theorem cm_svvj_spec l : jumps_spec ns_sc (fun n t => cm_svvj l (mkJpar n t)) (fun q _ => has_key (fun _ => q "k" = 0%R) (sv_cmoment_y l))
  (fun _ => has_key sv_sum (sv_cmoment_y l)) (value at_svvj_cm (fun _ => sv_cmoment_y l)).
Proof.
  destruct (code_svc l) as (r & E & A). unfold cm_svvj, value. rewrite E. cbn [bind]. unfold p2n_svc, ns_sc. split; [|split].
  - intros n t s Hs Hn. lacks Hs Hn.
  - intros n t s Hs Hn. lacks Hs Hn.
  - intros n tp q t J HA Ht HJ. ngets HA. rewrite (tget_ok n tp _ J HJ), (tget_ok n tp _ t Ht). cbn [bind].
    apply fin. intros key Hk. destruct (A key Hk) as [h1 h2].
    eapply at_key_weaken; [reflexivity| |exact (svc_key _ _ _ _ _ _ _ _ _ _ h1 h2)].
    unfold sv_at0, at_svvj_cm, sv_at. cbn [monx]. rewrite Rmult_1_r. reflexivity.
Qed.
Theorem m_svvj_spec l : jumps_spec ns_sm (fun n t => m_svvj l (mkJpar n t)) (fun q _ => q "k" = 0%R)
  (fun _ => has_key sv_sum (sv_moment_y l)) (value at_svvj_m (fun _ => sv_moment_y l)).
Proof.
  destruct (code_svm l) as (r & E & A). unfold m_svvj, value. rewrite E. cbn [bind]. unfold p2n_svm, ns_sm. split; [|split].
  - intros n t s Hs Hn. lacks Hs Hn.
  - intros n t s Hs Hn. lacks Hs Hn.
  - intros n tp q t J HA Ht HJ. ngets HA. rewrite (tget_ok n tp _ J HJ), (tget_ok n tp _ t Ht). cbn [bind]. cbv zeta.
    destruct (Req_EM_T (q "k") 0) as [Hk|Hk].
    { unfold pydiv. destruct (Req_EM_T (2 * q "k") 0) as [_|N]; [|rewrite Hk, Rmult_0_r in N; contradiction]. cbn [bind]. tauto. }
    rewrite pydiv_ok by lra. cbn [bind].
    match goal with |- context [p2n_loop ?v r] => destruct (fin_m v (at_svvj_m q t J) sv_sum (length t < length J)%nat r) as [h1 h2]; [|tauto] end.
    intros key Hkey. destruct (A key Hkey) as [h1 h2].
    eapply at_key_weaken; [reflexivity| |exact (svm_key _ _ _ _ _ _ _ _ _ _ _ Hk h1 h2)].
    unfold sv_at0, at_svvj_m, sv_at. cbn [monx]. rewrite Rmult_1_r. reflexivity.
Qed.
(** the factors of svij *)
Lemma ij_suf m key (v a b c : R) : svok m (3 + 3) key ->
  (let! w := pows [(a, nthZ (snd key) 3); (b, nthZ (snd key) 4); (c, nthZ (snd key) 5)] in Ok (v * w)) = Ok (v * monx [a; b; c] (skipn 3 (snd key))).
Proof.
  intros (_ & _ & _ & Hw & Hx & _). destruct (x3 _ _ Hw Hx) as (x0 & x1 & x2 & r & -> & _ & Hr & Nr).
  destruct r as [|y0 [|y1 [|y2 [|]]]]; try discriminate. inversion Nr as [|? ? n0 Nr1]; subst. inversion Nr1 as [|? ? n1 Nr2]; subst. inversion Nr2 as [|? ? n2 Nr3]; subst.
  unfold nthZ. cbn [nth skipn monx]. rewrite pows_ok by nnp. cbn [bind prodR fst snd]. reflexivity.
Qed.
Definition ij_sufd (q : string -> R) (v : R) (key : svkey) : res R :=
  let! w := pows [(q "lmbd_s", nthZ (snd key) 3); (q "mu_s", nthZ (snd key) 4); (q "sigma_s", nthZ (snd key) 5)] in Ok (v * w)%R.
Theorem cm_svij_spec l : jumps_spec (ns_sc ++ ns_ij) (fun n t => cm_svij l (mkJpar n t)) (fun q _ => has_key (fun _ => q "k" = 0%R) (svij_cmoment_y l))
  (fun _ => has_key sv_sum (svij_cmoment_y l)) (value at_svij_cm (fun _ => svij_cmoment_y l)).
Proof.
  destruct (code_ijc l) as (r & E & A). unfold cm_svij, value. rewrite E. cbn [bind]. unfold p2n_ijc, ns_sc, ns_ij. split; [|split].
  - intros n t s Hs Hn. lacks Hs Hn.
  - intros n t s Hs Hn. lacks Hs Hn.
  - intros n tp q t J HA Ht HJ. ngets HA. rewrite (tget_ok n tp _ J HJ), (tget_ok n tp _ t Ht). cbn [bind]. ngets HA.
    apply fin. intros key Hk. destruct (A key Hk) as [h1 h2].
    eapply at_key_weaken; [| |exact (key_more _ _ _ _ (ij_sufd q) _ key (svc_key (q "v0") (q "k") (q "theta") (q "sigma") (q "rho") (q "h") t J _ _ h1 h2) (fun v => ij_suf 6 key v _ _ _ h1))]; [reflexivity|].
    unfold sv_at0, at_svij_cm, sv_at, a6, c6, a8, c8. cbv zeta beta. set (w := monx _ (skipn 3 _)). ring.
Qed.
Theorem m_svij_spec l : jumps_spec (ns_sm ++ ns_ij) (fun n t => m_svij l (mkJpar n t)) (fun q _ => q "k" = 0%R)
  (fun _ => has_key sv_sum (svij_moment_y l)) (value at_svij_m (fun _ => svij_moment_y l)).
Proof.
  destruct (code_ijm l) as (r & E & A). unfold m_svij, value. rewrite E. cbn [bind]. unfold p2n_ijm, ns_sm, ns_ij. split; [|split].
  - intros n t s Hs Hn. lacks Hs Hn.
  - intros n t s Hs Hn. lacks Hs Hn.
  - intros n tp q t J HA Ht HJ. ngets HA. rewrite (tget_ok n tp _ J HJ), (tget_ok n tp _ t Ht). cbn [bind]. ngets HA. cbv zeta.
    destruct (Req_EM_T (q "k") 0) as [Hk|Hk].
    { unfold pydiv. destruct (Req_EM_T (2 * q "k") 0) as [_|N]; [|rewrite Hk, Rmult_0_r in N; contradiction]. cbn [bind]. tauto. }
    rewrite pydiv_ok by lra. cbn [bind].
    match goal with |- context [p2n_loop ?v r] => destruct (fin_m v (at_svij_m q t J) sv_sum (length t < length J)%nat r) as [h1 h2]; [|tauto] end.
    intros key Hkey. destruct (A key Hkey) as [h1 h2].
    eapply at_key_weaken; [| |exact (key_more _ _ _ _ (ij_sufd q) _ key (svm_key (q "v0") (q "mu") (q "k") (q "theta") (q "sigma") (q "rho") (q "h") t J _ _ Hk h1 h2) (fun v => ij_suf 8 key v _ _ _ h1))]; [reflexivity|].
    unfold sv_at0, at_svij_m, sv_at, a6, c6, a8, c8. cbv zeta beta. set (w := monx _ (skipn 3 _)). ring.
Qed.
(** the factors of svcj *)
Lemma cjc_suf key (v a : R) : svok 6 (3 + 1) key ->
  (let! x := geti (snd key) 3 in let! w := pypow a x in Ok (v * w)%R) = Ok (v * monx [a] (skipn 3 (snd key)))%R.
Proof.
  intros (_ & _ & _ & Hw & Hx & _). destruct (x3 _ _ Hw Hx) as (x0 & x1 & x2 & r & -> & _ & Hr & Nr).
  destruct r as [|y0 [|]]; try discriminate. inversion Nr as [|? ? n0 Nr1]; subst.
  rewrite geti_ok by (cbn [length]; lia). unfold nthZ. cbn [nth bind skipn monx]. rewrite pypow_ok by now right. cbn [bind]. f_equal. ring.
Qed.
Definition cjc_sufd (q : string -> R) (v : R) (key : svkey) : res R := let! x := geti (snd key) 3 in let! w := pypow (q "sigma_s") x in Ok (v * w)%R.
Theorem cm_svcj_spec l : jumps_spec (ns_sc ++ ["sigma_s"]) (fun n t => cm_svcj l (mkJpar n t))
  (fun q J => has_key (fun _ => q "k" = 0%R) (cj_cmoment_y l (length J)))
  (fun J => has_key sv_sum (cj_cmoment_y l (length J))) (value at_svcj_cm (fun J => cj_cmoment_y l (length J))).
Proof.
  unfold cm_svcj, value. split; [|split].
  - intros n t s Hs Hn. unfold tget at 1. cbn [tups]. destruct (t "jumpsize") as [J|] eqn:EJ; cbn [bind]; [|reflexivity].
    destruct (code_cjc l (length J)) as (r & -> & A). cbn [bind]. unfold p2n_cjc, ns_sc in *. lacks Hs Hn.
  - intros n t s Hs Hn. unfold tget at 1. cbn [tups]. destruct (t "jumpsize") as [J|] eqn:EJ; cbn [bind]; [|reflexivity].
    destruct (code_cjc l (length J)) as (r & -> & A). cbn [bind]. unfold p2n_cjc. lacks Hs Hn.
  - intros n tp q t J HA Ht HJ. rewrite (tget_ok n tp _ J HJ). cbn [bind]. destruct (code_cjc l (length J)) as (r & -> & A). cbn [bind].
    unfold p2n_cjc, ns_sc in *. ngets HA. rewrite (tget_ok n tp _ J HJ), (tget_ok n tp _ t Ht). cbn [bind]. ngets HA.
    apply fin. intros key Hk. destruct (A key Hk) as [h1 h2].
    eapply at_key_weaken; [| |exact (key_more _ _ _ _ (cjc_sufd q) _ key (svc_key (q "v0") (q "k") (q "theta") (q "sigma") (q "rho") (q "h") t J _ _ h1 h2) (fun v => cjc_suf key v _ h1))]; [reflexivity|].
    unfold sv_at0, at_svcj_cm, sv_at, a6, c6, a8, c8. cbv zeta beta. set (w := monx _ (skipn 3 _)). ring.
Qed.
Lemma prodJ_ok : forall (J : list R) js f, length js = length J -> nnl js -> prodJ_d J js f = Ok (f * monx J js)%R.
Proof.
  induction J as [|x J IH]; intros [|j js] f Hl Hn; try discriminate; cbn [prodJ_d monx]; [f_equal; ring|].
  inversion Hn; subst. rewrite pypow_ok by now right. cbn [bind]. rewrite IH by (trivial; now injection Hl). f_equal. ring.
Qed.
Definition cjm_sufd (q : string -> R) (J : list R) (v : R) (key : cjkey) : res R :=
  let X := snd (fst key) in
  let! x := geti X 3 in let! a := pypow (q "mu_s") x in
  let! y := geti X 4 in let! b := pypow (q "rho_J") y in
  let! w := geti X 5 in let! c := pypow (q "sigma_s") w in
  let! fJ := match snd key, J with
             | Some js, _ => prodJ_d J js 1
             | None, [] => Ok 1%R
             | None, _ => Err IndexError
             end in
  Ok (v * (a * b * c) * fJ)%R.
Lemma cjm_suf q J (key : cjkey) v : cjok (length J) key -> cjm_sufd q J v key
  = Ok (v * (monx [q "mu_s"; q "rho_J"; q "sigma_s"] (skipn 3 (snd (fst key))) * match snd key with Some js => monx J js | None => 1 end))%R.
Proof.
  intros ((_ & _ & _ & Hw & Hx & _) & js & Ejs & Ljs & Njs). destruct key as [[k X] js']. cbn [fst snd] in *. subst js'. unfold cjm_sufd. cbn [fst snd].
  destruct (x3 X 3 Hw Hx) as (x0 & x1 & x2 & r & -> & _ & Hr & Nr).
  destruct r as [|y0 [|y1 [|y2 [|]]]]; try discriminate. inversion Nr as [|? ? n0 Nr1]; subst. inversion Nr1 as [|? ? n1 Nr2]; subst. inversion Nr2 as [|? ? n2 Nr3]; subst.
  rewrite !geti_ok by (cbn [length]; lia). unfold nthZ. cbn [nth bind skipn monx]. rewrite !pypow_ok by (right; assumption). cbn [bind].
  rewrite prodJ_ok by assumption. cbn [bind]. f_equal. ring.
Qed.
(** m of svcj at every order l >= 1 *)
Lemma at_key_fst {K L} (val : K -> res R) mon zd sh (f : L -> K) key : at_key val mon zd sh (f key) ->
  at_key (fun k => val (f k)) (fun k => mon (f k)) (fun k => zd (f k)) (fun k => sh (f k)) key.
Proof. trivial. Qed.
Theorem m_svcj_spec l : (1 <= l)%Z -> jumps_spec (ns_sm ++ ns_cj) (fun n t => m_svcj l (mkJpar n t)) (fun q _ => q "k" = 0%R)
  (fun J => has_key cj_sum (cj_moment_y l (length J))) (value at_svcj_m (fun J => cj_moment_y l (length J))).
Proof.
  intro Hl. unfold m_svcj, value. split; [|split].
  - intros n t s Hs Hn. unfold tget at 1. cbn [tups]. destruct (t "jumpsize") as [J|] eqn:EJ; cbn [bind]; [|reflexivity].
    destruct (code_cjm l (length J)) as (r & -> & A). cbn [bind]. unfold p2n_cjm, ns_sm, ns_cj in *. lacks Hs Hn.
  - intros n t s Hs Hn. unfold tget at 1. cbn [tups]. destruct (t "jumpsize") as [J|] eqn:EJ; cbn [bind]; [|reflexivity].
    destruct (code_cjm l (length J)) as (r & -> & A). cbn [bind]. unfold p2n_cjm. lacks Hs Hn.
  - intros n tp q t J HA Ht HJ. rewrite (tget_ok n tp _ J HJ). cbn [bind]. destruct (code_cjm l (length J)) as (r & -> & A). cbn [bind].
    unfold p2n_cjm, ns_sm, ns_cj in *. ngets HA. rewrite (tget_ok n tp _ J HJ), (tget_ok n tp _ t Ht). cbn [bind]. ngets HA. cbv zeta.
    destruct (Req_EM_T (q "k") 0) as [Hk|Hk].
    { unfold pydiv. destruct (Req_EM_T (2 * q "k") 0) as [_|N]; [|rewrite Hk, Rmult_0_r in N; contradiction]. cbn [bind]. tauto. }
    rewrite pydiv_ok by lra. cbn [bind].
    match goal with |- context [p2n_loop ?v r] => destruct (fin_m v (at_svcj_m q t J) cj_sum (length t < length J)%nat r) as [h1 h2]; [|tauto] end.
    intros key Hkey. destruct (A key Hkey) as [h1 h2]. unfold cj_kok in h1. destruct (Z.eqb_spec (Z.max 0 l) 0) as [E0|_]; [lia|].
    assert (h3 : svok 8 (3 + 3) (fst key)) by apply h1.
    pose proof (at_key_fst _ _ _ _ (fun k : cjkey => fst k) key (svm_key (q "v0") (q "mu") (q "k") (q "theta") (q "sigma") (q "rho") (q "h") t J 3 (fst key) Hk h3 h2)) as h4.
    eapply at_key_weaken; [| |exact (key_more _ _ _ _ (cjm_sufd q J) _ key h4 (fun v => cjm_suf q J key v h1))]; [reflexivity|].
    unfold sv_at0, at_svcj_m, sv_at, a6, c6, a8, c8. cbv zeta beta. set (w := monx _ (skipn 3 _)). set (w2 := match snd key with Some _ => _ | None => _ end). ring.
Qed.
(** at order 0 the key has no component K[16] *)
Theorem m_svcj_0 l n tp q t J : (l <= 0)%Z -> agrees (ns_sm ++ ns_cj) n q -> tp "jumptime" = Some t -> tp "jumpsize" = Some J ->
  q "k" <> 0%R -> m_svcj l (mkJpar n tp) = Err IndexError.
Proof.
  intros Hl HA Ht HJ Hk. unfold m_svcj. rewrite (tget_ok n tp _ J HJ). cbn [bind].
  destruct (code_svm l) as (m0 & _ & _). unfold cj_moment_y, cj_moment_with, cj_moments_with.
  pose proof (w_sv_m _ HJ_code _ _ (HW_code (Z.max 0 l)) l) as h. destruct (sv_moments_with int_e_IEZ_poly l) as [ms|]; [|destruct h].
  destruct h as [Hm Hn]. destruct (Hn 0%Z ltac:(lia) ltac:(lia)) as (q0 & E0 & _). cbn [bind]. unfold getp. rewrite E0. cbn [bind].
  rewrite range_nil by lia. cbn [foldM bind]. unfold lastp. cbn [map last bind].
  unfold p2n_cjm, ns_sm, ns_cj in *. ngets HA. rewrite (tget_ok n tp _ J HJ), (tget_ok n tp _ t Ht). cbn [bind]. ngets HA. cbv zeta.
  rewrite pydiv_ok by lra. cbn [bind]. unfold p2n_loop. cbn [items foldM fst snd].
  destruct (svm_key (q "v0") (q "mu") (q "k") (q "theta") (q "sigma") (q "rho") (q "h") t J 1 ([0;0;0;0;0;0;0;0]%Z, ([], [], [], []), [0;0;0;0]%Z) Hk) as [(_ & _ & ->)|[(F & _)|[(_ & (_ & F) & _)|(F & _)]]]; try contradiction.
  - split; [reflexivity|]. split; [|split; [repeat split|split; [reflexivity|split; [repeat (apply Forall_cons; [lia|]); constructor|reflexivity]]]]. intros i _. cbn [fst]. do 9 (destruct i as [|i]; [cbn; lia|]). cbn. destruct i; lia.
  - split; constructor.
  - cbn [bind]. rewrite geti_ok by (cbn [length]; lia). cbn [bind]. unfold nthZ. cbn [nth]. rewrite pypow_ok by (right; lia). reflexivity.
Qed.
End S.

(** ** srjd *)
Lemma geti_zl l i x : geti l i = Ok x -> geti (zero_like l) i = Ok 0%Z.
Proof.
  unfold geti, zero_like. intro H. rewrite nth_error_map. destruct (nth_error l i); [reflexivity|discriminate].
Qed.
Lemma pypow_0 x : pypow x 0 = Ok 1.
Proof. rewrite pypow_ok by (right; lia). now rewrite pw_0. Qed.
Lemma fz2d_eq l o k s J : forall idx ii f M, fz2d_loop l o k s J idx ii f M = fzd_loop l (zero_like l) o (zero_like o) k s J idx ii f M.
Proof.
  induction idx as [|j r IH]; intros ii f M; [reflexivity|]. cbn [fz2d_loop fzd_loop].
  destruct (getr s j) as [sj|]; cbn [bind]; [|reflexivity]. destruct (geti l ii) as [li|] eqn:El; cbn [bind]; [|reflexivity].
  destruct (getr J j) as [Jj|]; cbn [bind]; [|reflexivity]. rewrite (geti_zl _ _ _ El). cbn [bind]. rewrite pypow_0. cbn [bind].
  destruct ii as [|i1]; [rewrite IH; f_equal; ring|]. destruct (geti o i1) as [oi|] eqn:Eo; cbn [bind]; [|reflexivity].
  rewrite (geti_zl _ _ _ Eo). cbn [bind]. rewrite pypow_0. cbn [bind]. rewrite IH. f_equal. ring.
Qed.
Lemma c2_fZ_d_eq l o k s J : c2_fZ_d l o k s J = fZ_d l (zero_like l) o (zero_like o) k s J.
Proof.
  unfold c2_fZ_d, fZ_d. destruct (Nat.eqb (length l) 0); [reflexivity|]. destruct (Nat.eqb (length J) 0); [reflexivity|].
  assert (E : fz2d_leaf l o k s J = fzd_leaf l (zero_like l) o (zero_like o) k s J); [|now rewrite E].
  apply functional_extensionality. intro idx. apply functional_extensionality. intro a. unfold fz2d_leaf, fzd_leaf.
  destruct a; cbn [bind]; [|reflexivity]. destruct (geti idx 0) as [i0|]; cbn [bind]; [|reflexivity]. destruct (getr s i0); cbn [bind]; [|reflexivity]. now rewrite fz2d_eq.
Qed.
Lemma nnl_zl l : nnl (zero_like l).
Proof. unfold zero_like. induction l; constructor; trivial; lia. Qed.
Definition c2_body (v0 k theta sigma h : R) (s J : list R) (key : c2key) : res R :=
    let K := fst key in
    let! a := pows [(v0, nthZ K 0); (k, (- nthZ K 1)%Z); (theta, nthZ K 2); (sigma, nthZ K 3)] in
    let! z := c2_fZ_d (fst (snd key)) (snd (snd key)) k s J in
    Ok (a * exp (IZR (nthZ K 4) * k * h) * z).
Lemma c2_key q s J key : c2ok key ->
  at_key (c2_body (q "v0"%string) (q "k"%string) (q "theta"%string) (q "sigma"%string) (q "h"%string) s J) (at_srjd q s J) (c2_zd (q "k"%string))
    (fun key => (length s < length J)%nat /\ c2_sum key) key.
Proof.
  intro H. destruct key as [K [l o]]. destruct (c2ok_inv _ _ H) as (x0 & x1 & x2 & x3 & x4 & -> & h0 & h1 & h2 & h3 & Hs).
  assert (S : jshape (l, zero_like l, o, zero_like o)).
  { unfold oshape in Hs. cbn [fst snd] in Hs. unfold jshape, zero_like. rewrite !map_length. repeat split; assumption. }
  set (k := q "k"%string). destruct (fZd_sp l (zero_like l) o (zero_like o) k s J S (conj (nnl_zl l) (nnl_zl o))) as [Z1 Z2].
  unfold at_key, c2_body, at_srjd, c2_zd, c2_sum, nthZ. cbn [fst snd nth monx]. rewrite c2_fZ_d_eq. fold k.
  assert (Dz : {(length s < length J)%nat /\ l <> []} + {~ ((length s < length J)%nat /\ l <> [])}).
  { destruct (lt_dec (length s) (length J)); [|right; tauto]. destruct l; [right|left]; [|split; [assumption|discriminate]]. intros [_ N]; now apply N. }
  assert (Dk : (k = 0 /\ (0 < x1)%Z) \/ (k <> 0 \/ (0 <= - x1)%Z)).
  { destruct (Req_EM_T k 0) as [E|E]; [|tauto]. destruct (Z.lt_ge_cases 0 x1); [tauto|right; right; lia]. }
  destruct Dk as [Dk|Dk].
  - rewrite pows_bad by (right; left; unfold badp; cbn [fst snd]; split; [apply Dk|lia]). cbn [bind]. destruct Dz; tauto.
  - assert (NB : ~ (k = 0 /\ (0 < x1)%Z)) by (intros [? ?]; destruct Dk; [contradiction|lia]).
    rewrite pows_ok by (repeat (apply Forall_cons; [cbn [fst snd]; first [exact Dk|right; assumption]|]); apply Forall_nil). cbn [bind].
    destruct Dz as [D|D]; [rewrite (Z2 D)|rewrite (Z1 D)]; cbn [bind]; [tauto|]. left. split; [exact NB|]. split; [exact D|]. f_equal.
    cbn [prodR fst snd]. unfold zero_like. rewrite pw_inv_neg. replace (IZR x4 * k * q "h"%string) with (IZR x4 * (k * q "h"%string)) by ring. rewrite exp_pwp. ring.
Qed.
Lemma srjd_gen p : code_ok p c2ok -> jumps_spec ns_srjd (fun n t => let! r := p in p2n_c2 r (mkJpar n t))
  (fun q _ => has_key (c2_zd (q "k"%string)) p) (fun _ => has_key c2_sum p) (value at_srjd (fun _ => p)).
Proof.
  intros (r & -> & A). unfold value. cbn [bind]. unfold p2n_c2, ns_srjd. split; [|split].
  - intros n t s Hs Hn. lacks Hs Hn.
  - intros n t s Hs Hn. lacks Hs Hn.
  - intros n tp q t J HA Ht HJ. ngets HA. rewrite (tget_ok n tp _ J HJ), (tget_ok n tp _ t Ht). cbn [bind].
    apply fin. intros key Hk. exact (c2_key q t J key (A key Hk)).
Qed.
Theorem m_srjd2_spec l : (0 <= l)%Z -> jumps_spec ns_srjd (fun n t => m_srjd2 l (mkJpar n t))
  (fun q _ => has_key (c2_zd (q "k"%string)) (c2_moment_v l)) (fun _ => has_key c2_sum (c2_moment_v l)) (value at_srjd (fun _ => c2_moment_v l)).
Proof. intro Hl. exact (srjd_gen _ (code_c2m l Hl)). Qed.
Theorem cm_srjd2_spec l : (0 <= l)%Z -> jumps_spec ns_srjd (fun n t => cm_srjd2 l (mkJpar n t))
  (fun q _ => has_key (c2_zd (q "k"%string)) (c2_cmoment_v l)) (fun _ => has_key c2_sum (c2_cmoment_v l)) (value at_srjd (fun _ => c2_cmoment_v l)).
Proof. intro Hl. exact (srjd_gen _ (code_c2c l Hl)). Qed.
