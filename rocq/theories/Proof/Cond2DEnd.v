(** C59: m(l, par) and cm(l, par) are the moments given the jumps. *)
From Coq Require Import Reals Lra FunctionalExtensionality.
From Verif.Spec Require Import Cond2Dict SvcjPath.
From Verif.Proof Require Import ItoProofs KeyInv MonTac SumFacts DecodeProofs ScalarDProofs StackProofs UtilsProofs SrjdCond2V SvvjSimp SvvjW SvcjCond2W TimeUnit JumpTimes Cond2DProofs Cond2DThm.
From Verif.Model Require Import Cond2D.
Local Open Scope R_scope.

Lemma pw_sqrt_even r n : Rabs r <= 1 -> (0 <= n)%Z -> Z.even n = true -> pw (sqrt (1 - r ^ 2)) n = pw (1 - r ^ 2) (n / 2).
Proof.
  intros Hr Hn He. pose proof (sqrt_rho2 r Hr) as E. rewrite Zeven_mod in He. apply Zeq_bool_eq in He.
  set (m := (n / 2)%Z). assert (Em : n = (2 * m)%Z) by (unfold m; rewrite (Z.div_mod n 2) at 1 by lia; lia).
  assert (Hm : (0 <= m)%Z) by lia. rewrite Em, !pw_Zpos by lia. replace (Z.to_nat (2 * m)) with (2 * Z.to_nat m)%nat by lia.
  now rewrite pow_mult, E.
Qed.
Lemma sv_at_mon m w a b (q : string -> R) (p : svpar) z key : svok m (3 + w) key -> Rabs (svrho p) <= 1 ->
  (forall sj, In sj z -> fst sj <= svh p) -> q "k"%string = svk p -> q "sigma"%string = zpsg (svz p) -> q "rho"%string = svrho p ->
  sv_at a b q (map fst z) (map snd z) key = svmon a (sv3 p ++ b) p z key.
Proof.
  intros (_ & _ & Hs & Hw & Hx & He) Hr Hz Ek Es Er. destruct key as [[K lopq] X]. cbn [fst snd] in *.
  destruct (x3 X w Hw Hx) as (x0 & x1 & x2 & r & -> & X012 & _). cbn [nth] in He.
  unfold sv_at, svmon, sv3. rewrite Ek, Es, Er, upto_all by exact Hz. cbn [fst snd app monx nth skipn].
  rewrite (pw_sqrt_even _ x2 Hr) by (tauto || assumption). unfold fZ_at, fZ_path. destruct lopq as [[[l o] pp] qq]. ring.
Qed.
Definition qof (n : string -> option R) (s : string) : R := match n s with Some x => x | None => 0 end.
Lemma holds_agrees n l : holds n l -> agrees (map fst l) n (qof n).
Proof.
  intros H s Hs. apply in_map_iff in Hs. destruct Hs as ([s' x] & <- & Hin). pose proof (proj1 (Forall_forall _ _) H _ Hin) as h. cbn [fst snd] in *. unfold qof. now rewrite h.
Qed.
Lemma holds_q n l s x : holds n l -> In (s, x) l -> qof n s = x.
Proof. intros H Hin. pose proof (proj1 (Forall_forall _ _) H _ Hin) as h. cbn [fst snd] in h. unfold qof. now rewrite h. Qed.
Lemma agrees_sub ns ns' n q : agrees ns n q -> (forall s, In s ns' -> In s ns) -> agrees ns' n q.
Proof. intros H I s Hs. apply H, I, Hs. Qed.
Lemma value_eval {K} (mon mon' : (string -> R) -> list R -> list R -> K -> R) (p : list R -> res (Poly K)) q t J r P : p J = Ok r -> allk P (items r) ->
  (forall k, P k -> mon q t J k = mon' q t J k) -> value mon p q t J = eval (mon' q t J) (items r).
Proof. intros E A H. unfold value. rewrite E. apply eval_ext_in. intros k c Hin. apply H. exact (allk_in _ _ _ _ A Hin). Qed.
Lemma spec_ok ns f zd uses g n tp t J : jumps_spec ns f zd uses g -> agrees ns n (qof n) -> tp "jumptime"%string = Some t -> tp "jumpsize"%string = Some J ->
  ~ zd (qof n) J -> length t = length J -> f n tp = Ok (g (qof n) t J).
Proof.
  intros (_ & _ & H) HA Ht HJ Hz Hl. destruct (H n tp (qof n) t J HA Ht HJ) as [h _]. cbv zeta in h. apply h; [exact Hz|]. intros [h1 _]. lia.
Qed.
Ltac sub := cbn; tauto.
Ltac qs H := repeat match goal with |- context [qof ?n ?s] => erewrite (holds_q n _ s _ H) by (cbn; tauto) end.

Section W.
Variable W : world.
Variables (l : Z) (p : svpar) (z : path) (n : string -> option R) (tp : string -> option (list R)).
Variables (Om : Type) (E : (Om -> R) -> R) (IE I Is : Om -> R).
Hypothesis (Hk : svk p <> 0) (Hr : Rabs (svrho p) <= 1) (Hz : forall sj, In sj z -> fst sj <= svh p) (HE : expectation E) (HW : W Om E p z l IE I Is).
Hypothesis (Hp : holds_path tp z).
Lemma len_z : length (map fst z) = length (map snd z).
Proof. now rewrite !map_length. Qed.
Lemma a6_z l0 : holds n (sv_dict p ++ l0) -> a6 (qof n) = zvals (svz p) (svh p).
Proof. intro H. unfold a6. qs H. reflexivity. Qed.
Lemma a8_z l0 : holds n (sv_dict p ++ l0) -> a8 (qof n) = sv8 p.
Proof. intro H. unfold a8. qs H. reflexivity. Qed.
Lemma at_mon m w a b l0 key : holds n (sv_dict p ++ l0) -> svok m (3 + w) key ->
  sv_at a b (qof n) (map fst z) (map snd z) key = svmon a (sv3 p ++ b) p z key.
Proof. intros H Hs. apply (sv_at_mon m w); trivial; apply (holds_q n _ _ _ H); cbn; tauto. Qed.

Lemma m_svvj_E : returns (sv_moment_y l) (is_moment W l) -> holds n (sv_dict p) ->
  m_svvj l (mkJpar n tp) = Ok (E (fun w => sv_ret p z (IE w) (I w) (Is w) ^ Z.to_nat l)).
Proof.
  intros HP H. destruct Hp as [Ht HJ]. etransitivity; [apply (spec_ok _ _ _ _ _ n tp (map fst z) (map snd z) (m_svvj_spec l)); trivial|].
  - apply (agrees_sub _ _ _ _ (holds_agrees _ _ H)). sub.
  - intro h. apply Hk. rewrite <- h. symmetry. apply (holds_q n _ _ _ H). sub.
  - exact len_z.
  - destruct (sv_moment_y l) as [r|] eqn:Er; [|destruct HP]. destruct HP as (_ & _ & A & V). rewrite <- (V Om E p z IE I Is Hk HE HW). f_equal. unfold value.
    apply eval_ext_in. intros key c Hin. unfold at_svvj_m. rewrite <- (app_nil_r (sv_dict p)) in H. rewrite (a8_z _ H), (at_mon 8 0 _ _ _ key H (allk_in _ _ _ _ A Hin)), app_nil_r. reflexivity.
Qed.
Lemma cm_svvj_E : returns (sv_cmoment_y l) (is_cmoment W l) -> holds n (sv_dict p) ->
  cm_svvj l (mkJpar n tp) = Ok (E (fun w => (sv_ret p z (IE w) (I w) (Is w) - sv_mean p z) ^ Z.to_nat l)).
Proof.
  intros HP H. destruct Hp as [Ht HJ]. etransitivity; [apply (spec_ok _ _ _ _ _ n tp (map fst z) (map snd z) (cm_svvj_spec l)); trivial|].
  - apply (agrees_sub _ _ _ _ (holds_agrees _ _ H)). sub.
  - intros (? & ? & ? & _ & _ & h). apply Hk. rewrite <- h. symmetry. apply (holds_q n _ _ _ H). sub.
  - exact len_z.
  - destruct (sv_cmoment_y l) as [r|] eqn:Er; [|destruct HP]. destruct HP as (_ & _ & A & V). destruct (V Om E p z IE I Is Hk HE HW) as [<- _]. f_equal. unfold value.
    apply eval_ext_in. intros key c Hin. unfold at_svvj_cm. rewrite <- (app_nil_r (sv_dict p)) in H. rewrite (a6_z _ H), (at_mon 6 0 _ _ _ key H (allk_in _ _ _ _ A Hin)), app_nil_r. reflexivity.
Qed.
Section J.
Variables (lam mus sgs : R) (J : Om -> R).
Hypothesis HJp : jump_part E p z l IE I Is J lam mus sgs.
Hypothesis H : holds n (sv_dict p ++ [("lmbd_s", lam); ("mu_s", mus); ("sigma_s", sgs)]%string).
Lemma m_svij_E : returns (svij_moment_y l) (is_ij_moment W l) ->
  m_svij l (mkJpar n tp) = Ok (E (fun w => (sv_ret p z (IE w) (I w) (Is w) + J w) ^ Z.to_nat l)).
Proof.
  intros HP. destruct Hp as [Ht HJ]. etransitivity; [apply (spec_ok _ _ _ _ _ n tp (map fst z) (map snd z) (m_svij_spec l)); trivial|].
  - apply (agrees_sub _ _ _ _ (holds_agrees _ _ H)). sub.
  - intro h. apply Hk. rewrite <- h. symmetry. apply (holds_q n _ _ _ H). sub.
  - exact len_z.
  - destruct (svij_moment_y l) as [r|] eqn:Er; [|destruct HP]. destruct HP as (_ & _ & A & V). rewrite <- (V Om E p z IE I Is J lam mus sgs Hk HE HW HJp). f_equal. unfold value.
    apply eval_ext_in. intros key c Hin. unfold at_svij_m. rewrite (a8_z _ H), (at_mon 8 3 _ _ _ key H (allk_in _ _ _ _ A Hin)). qs H. reflexivity.
Qed.
Lemma cm_svij_E : returns (svij_cmoment_y l) (is_ij_cmoment W l) ->
  cm_svij l (mkJpar n tp) = Ok (E (fun w => (sv_ret p z (IE w) (I w) (Is w) + J w - (sv_mean p z + lam * svh p * mus)) ^ Z.to_nat l)).
Proof.
  intros HP. destruct Hp as [Ht HJ]. etransitivity; [apply (spec_ok _ _ _ _ _ n tp (map fst z) (map snd z) (cm_svij_spec l)); trivial|].
  - apply (agrees_sub _ _ _ _ (holds_agrees _ _ H)). sub.
  - intros (? & ? & ? & _ & _ & h). apply Hk. rewrite <- h. symmetry. apply (holds_q n _ _ _ H). sub.
  - exact len_z.
  - destruct (svij_cmoment_y l) as [r|] eqn:Er; [|destruct HP]. destruct HP as (_ & _ & A & V). destruct (V Om E p z IE I Is J lam mus sgs Hk HE HW HJp) as [<- _]. f_equal. unfold value.
    apply eval_ext_in. intros key c Hin. unfold at_svij_cm. rewrite (a6_z _ H), (at_mon 6 3 _ _ _ key H (allk_in _ _ _ _ A Hin)). qs H. reflexivity.
Qed.
End J.
End W.
