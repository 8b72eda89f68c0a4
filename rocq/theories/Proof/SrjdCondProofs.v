(** Proofs about mdl_srjd/cond_ie_iez_mom.py and cond_ie_iez_cmom.py (C30). *)
From Coq Require Import Reals Lra.
From Coquelicot Require Import Coquelicot.
From Verif.Model Require Export SrjdCond.
From Verif.Proof Require Export SrjdAna.
Local Open Scope R_scope.

Lemma foldM_range {St} (f : St -> Z -> res St) (Inv : Z -> St -> Prop) a b s :
  (a <= b)%Z -> Inv a s ->
  (forall i s, (a <= i < b)%Z -> Inv i s -> returns (f s i) (Inv (i + 1)%Z)) ->
  returns (foldM f (range a b) s) (Inv b).
Proof.
  intros Hab Ha Hs. unfold range.
  assert (G : forall m k s, (Z.of_nat (k + m) + a <= b)%Z -> Inv (a + Z.of_nat k)%Z s ->
    returns (foldM f (map (fun i => (a + Z.of_nat i)%Z) (seq k m)) s) (Inv (a + Z.of_nat (k + m))%Z)).
  { induction m as [|m IH]; intros k s' Hk Hi; cbn [seq map foldM].
    - cbn [returns]. now rewrite Nat.add_0_r.
    - eapply returns_bind; [apply Hs; [lia|exact Hi]|]. intros s2 H2.
      replace (k + S m)%nat with (S k + m)%nat in * by lia. apply IH; [lia|].
      now replace (a + Z.of_nat (S k))%Z with (a + Z.of_nat k + 1)%Z by lia. }
  replace b with (a + Z.of_nat (0 + Z.to_nat (b - a)))%Z at 2 by lia. apply G; [lia|].
  now replace (a + Z.of_nat 0)%Z with a by lia.
Qed.

(** ** integrals *)
Lemma RInt_eq (f : R -> R) (a b l : R) : is_RInt f a b l -> RInt f a b = l.
Proof. intro h. now apply is_RInt_unique. Qed.
Lemma cont_RInt (f : R -> R) (a b : R) : (forall x, continuous f x) -> is_RInt f a b (RInt f a b).
Proof. intro h. apply (RInt_correct (V := R_CompleteNormedModule)). apply (ex_RInt_continuous (V := R_CompleteNormedModule)). intros; apply h. Qed.
Lemma RInt_Rplus (f g : R -> R) (a b : R) : (forall x, continuous f x) -> (forall x, continuous g x) ->
  RInt (fun x => f x + g x) a b = RInt f a b + RInt g a b.
Proof. intros hf hg. apply RInt_eq. apply (is_RInt_plus (V := R_NormedModule)); now apply cont_RInt. Qed.
Lemma RInt_Rscal (f : R -> R) (c a b : R) : (forall x, continuous f x) ->
  RInt (fun x => c * f x) a b = c * RInt f a b.
Proof. intro hf. apply RInt_eq. apply (is_RInt_scal (V := R_NormedModule)); now apply cont_RInt. Qed.
Lemma RInt_sumR {A} (f : A -> R -> R) (l : list A) (a b : R) : (forall x, In x l -> forall s, continuous (f x) s) ->
  RInt (fun s => sumR (fun x => f x s) l) a b = sumR (fun x => RInt (f x) a b) l.
Proof.
  induction l as [|x r IH]; intro h; cbn [sumR].
  - apply RInt_eq. pose proof (is_RInt_const a b 0) as C. unfold scal in C; simpl in C; unfold mult in C; simpl in C.
    now rewrite Rmult_0_r in C.
  - rewrite RInt_Rplus.
    + f_equal. apply IH. intros; apply h; now right.
    + apply h. now left.
    + intro s. apply continuous_sumR. intros y Hy. apply h. now right.
Qed.
Lemma RInt_ext_all (f g : R -> R) (a b : R) : (forall x, f x = g x) -> RInt f a b = RInt g a b.
Proof. intro h. apply RInt_ext. intros; apply h. Qed.

(** ** keys *)
Definition P7 : list Z -> Prop := wfs [true; true; true; true; true; true; true].
(** ... with the power of a bounded by d/2 *)
Definition P7d (d : Z) (k : list Z) : Prop := P7 k /\ (2 * nthZ k 2 <= d)%Z.
Notation CT := (cv * R)%type.
Definition ievals (w : CT) : list R :=
  [exp (ck (fst w) * snd w); / ck (fst w); ca (fst w); cb (fst w); csg (fst w); clam (fst w); cmu (fst w)].
Definition mon7 (w : CT) : list Z -> R := monx (ievals w).

Definition fac (tp : Z) (v : cv) : R :=
  if (tp =? 1)%Z then ca v else if (tp =? 2)%Z then cb v else if (tp =? 3)%Z then csg v else 1.
(** the part of a monomial that does not depend on t *)
Definition rest7 (v : cv) (k : list Z) : R := monx [/ ck v; ca v; cb v; csg v; clam v; cmu v] (tl k).

Lemma mon7_split v t k : P7 k -> mon7 (v, t) k = pw (exp (ck v * t)) (nthZ k 0) * rest7 v k.
Proof. intro h. unfold P7 in h. wfs_destruct. reflexivity. Qed.

Lemma ie_key_P7 tp n k : (0 <= n)%Z -> P7 k -> (1 <= tp <= 4)%Z -> P7 (ie_key tp n k).
Proof.
  intros Hn Hk Ht. unfold P7 in *. wfs_destruct.
  assert (E : (tp = 1 \/ tp = 2 \/ tp = 3 \/ tp = 4)%Z) by lia.
  destruct E as [->|[->|[->| ->]]]; cbn; repeat split; trivial; lia.
Qed.
Lemma ie_key_P7d tp n k d d' : (0 <= n)%Z -> P7d d k -> (1 <= tp <= 4)%Z -> (d + (if tp =? 1 then 2 else 0) <= d')%Z -> P7d d' (ie_key tp n k).
Proof.
  intros Hn [Hk Hd] Ht Hdd. split; [now apply ie_key_P7|]. unfold P7 in *. wfs_destruct.
  assert (E : (tp = 1 \/ tp = 2 \/ tp = 3 \/ tp = 4)%Z) by lia.
  destruct E as [->|[->|[->| ->]]]; cbn [Z.eqb Pos.eqb] in Hdd; unfold nthZ in *; change (Z.to_nat 2) with 2%nat in *;
    cbn [nth] in Hd; unfold ie_key; cbn [tl addat Z.leb andb Z.compare Pos.compare Pos.compare_cont].
  - change (Z.to_nat (1 + 1)) with 2%nat; cbn [addat nth]; lia.
  - change (Z.to_nat (2 + 1)) with 3%nat; cbn [addat nth]; lia.
  - change (Z.to_nat (3 + 1)) with 4%nat; cbn [addat nth]; lia.
  - cbn [nth]; lia.
Qed.
Lemma ie_key_mon tp n k v t : P7 k -> (1 <= tp <= 4)%Z ->
  mon7 (v, t) (ie_key tp n k) = pw (exp (ck v * t)) n * (/ ck v * fac tp v * rest7 v k).
Proof.
  intros Hk Ht. unfold P7 in *. wfs_destruct. pose proof (ckn v) as Hc.
  assert (E : (tp = 1 \/ tp = 2 \/ tp = 3 \/ tp = 4)%Z) by lia.
  destruct E as [->|[->|[->| ->]]]; unfold ie_key, mon7, ievals, rest7, fac; cbn [fst snd tl addat monx Z.leb Z.eqb andb Z.compare Pos.compare Pos.compare_cont Z.to_nat Z.add Pos.add Pos.to_nat Pos.iter_op Init.Nat.add Pos.eqb Pos.succ];
    change (Pos.to_nat 2) with 2%nat; change (Pos.to_nat 3) with 3%nat; change (Pos.to_nat 4) with 4%nat;
    cbn [addat monx]; pws; ring.
Qed.

Lemma exp_pw v (t : R) n : pw (exp (ck v * t)) n = exp (IZR n * (ck v * t)).
Proof.
  unfold pw. destruct n as [|p|p].
  - simpl. now rewrite Rmult_0_l, exp_0.
  - unfold powerRZ. rewrite exp_pow_mul, INR_IZR_INZ, positive_nat_Z. reflexivity.
  - unfold powerRZ. rewrite exp_pow_mul, INR_IZR_INZ, positive_nat_Z, <- exp_Ropp. f_equal.
    rewrite <- Pos2Z.opp_pos, opp_IZR. ring.
Qed.

Section Ie.
Context (kf : list string) (mz : Z -> res (Poly (list Z))) (p2 : list (list Z * Q)).
Context (j0 : nat) (Hj0 : (1 <= j0)%nat) (zm : iv -> nat -> R) (Hz : zfam j0 zm).
Hypothesis Hmz : forall n, (0 <= n)%Z -> returns (mz n) (fun p => wfp P_iez kf_iez p /\
  forall v, evp mon_iez v p = zm v (Z.to_nat n)).

Lemma int_e_poly_spec c tp m d e e' : (1 <= tp <= 4)%Z -> (1 <= m)%Z -> allk (P7d e) (items d) ->
  (e + (if tp =? 1 then 2 else 0) <= e')%Z ->
  returns (srjd_int_e_poly kf c tp m d) (fun q => wfp (P7d e') kf q /\ forall v t,
    evp mon7 (v, t) q = RInt (fun s => Q2R c * (fac tp v * (pw (exp (ck v * s)) m * evp mon7 (v, s) d))) 0 t).
Proof.
  intros Ht Hm Hd He. unfold srjd_int_e_poly.
  set (G := fun (kv : list Z * Q) (w : CT) =>
    Q2R c * Q2R (snd kv) * (/ IZR (nthZ (fst kv) 0 + m) * (/ ck (fst w) * fac tp (fst w) * rest7 (fst w) (fst kv))
      * (pw (exp (ck (fst w) * snd w)) (nthZ (fst kv) 0 + m) - 1))).
  assert (A : adds (wfl (P7d e')) (ev mon7) (foldM (fun a (kv : list Z * Q) =>
    let k := fst kv in
    let n := (nthZ k 0 + m)%Z in
    if (n =? 0)%Z then Err ValueError
    else Ok (add_kv (ie_key tp 0 k) (qmul (qmul c (snd kv)) (Frac (-1) n))
              (add_kv (ie_key tp n k) (qmul (qmul c (snd kv)) (Frac 1 n)) a))) (items d))
    (fun w => sumR (fun kv => G kv w) (items d))).
  { apply adds_foldM. intros [k x] Hin. cbn [fst snd].
    assert (Hkd : P7d e k) by exact (allk_in (P7d e) _ k x Hd Hin). pose proof (proj1 Hkd) as Hk.
    assert (H0 : (0 <= nthZ k 0)%Z) by (clear -Hk; unfold P7 in Hk; wfs_destruct; exact hx).
    destruct (Z.eqb_spec (nthZ k 0 + m) 0) as [e0|ne]; [lia|].
    intros a Ha.
    destruct (adds_kv (P7d e') mon7 (ie_key tp (nthZ k 0 + m) k) (qmul (qmul c x) (Frac 1 (nthZ k 0 + m)))
      (ie_key_P7d tp (nthZ k 0 + m) k e e' ltac:(lia) Hkd Ht He) a Ha) as [W1 E1].
    destruct (adds_kv (P7d e') mon7 (ie_key tp 0 k) (qmul (qmul c x) (Frac (-1) (nthZ k 0 + m)))
      (ie_key_P7d tp 0 k e e' ltac:(lia) Hkd Ht He) _ W1) as [W2 E2].
    cbn [returns]. split; [exact W2|]. intros [v t]. rewrite E2, E1, !ie_key_mon, !Q2R_mul, !Q2R_Frac by assumption.
    unfold G; cbn [fst snd]. rewrite pw_0. field. split; [apply ckn|]. intro h. apply eq_IZR in h. lia. }
  eapply returns_bind; [apply A, wfl_nil|]. intros a ((U & AL) & E). cbn [returns].
  split; [now split|]. intros v t. unfold evp; cbn [items]. specialize (E (v, t)). unfold ev in E. rewrite E.
  cbn [eval]. rewrite Rplus_0_l. symmetry. apply RInt_eq.
  replace (sumR (fun kv => G kv (v, t)) (items d))
    with (sumR (fun kv => G kv (v, t)) (items d) - sumR (fun kv => G kv (v, 0)) (items d)).
  2: { rewrite (sumR_0 (fun kv => G kv (v, 0))); [ring|]. intros kv _. unfold G; cbn [fst snd].
       rewrite Rmult_0_r, exp_0, pw_one. ring. }
  apply (RInt_of_derive (fun t => sumR (fun kv => G kv (v, t)) (items d))).
  - intro s. eapply is_derive_val.
    + apply (is_derive_sumR (fun kv t => G kv (v, t)) (fun kv => Q2R c * (fac tp v * (pw (exp (ck v * s)) m * (Q2R (snd kv) * mon7 (v, s) (fst kv)))))).
      intros [k x] Hin. pose proof (proj1 (allk_in (P7d e) _ k x Hd Hin)) as Hk.
      assert (H0 : (0 <= nthZ k 0)%Z) by (clear -Hk; unfold P7 in Hk; wfs_destruct; exact hx).
      unfold G; cbn [fst snd]. eapply is_derive_val.
      * apply is_derive_Rscal. apply is_derive_Rscal. apply is_derive_Rminus; [|apply is_derive_Rconst].
        apply (is_derive_ext_loc_all (fun t => exp (IZR (nthZ k 0 + m) * (ck v * t)))); [intro; symmetry; apply exp_pw|].
        apply is_derive_Rexp, is_derive_Rscal, is_derive_lin.
      * cbv beta. rewrite mon7_split by assumption. rewrite <- exp_pw. pws. field. split; [apply ckn|].
        intro h. apply eq_IZR in h. lia.
    + rewrite !sumR_scal. rewrite sumR_eval. reflexivity.
  - intro s. assert (Cpw : forall n, continuous (fun s => pw (exp (ck v * s)) n) s).
    { intro n. apply (continuous_ext_all (fun s => exp (IZR n * (ck v * s)))); [intro; symmetry; apply exp_pw|].
      apply (ex_derive_continuous (V := R_NormedModule)). auto_derive. trivial. }
    apply continuous_Rmult; [apply continuous_Rconst|]. apply continuous_Rmult; [apply continuous_Rconst|].
    apply continuous_Rmult; [apply Cpw|].
    apply (continuous_ext_all (fun s => sumR (fun kv => Q2R (snd kv) * mon7 (v, s) (fst kv)) (items d))); [intro; symmetry; apply sumR_eval|].
    apply (continuous_sumR (fun kv s => Q2R (snd kv) * mon7 (v, s) (fst kv))).
    intros [k x] Hin. pose proof (proj1 (allk_in (P7d e) _ k x Hd Hin)) as Hk. cbn [fst snd].
    apply continuous_Rmult; [apply continuous_Rconst|].
    apply (continuous_ext_all (fun s => pw (exp (ck v * s)) (nthZ k 0) * rest7 v k)); [intro; symmetry; now apply mon7_split|].
    apply continuous_Rmult; [apply Cpw|apply continuous_Rconst].
Qed.

(** ** polynomials that represent a moment *)
Definition Good (i : jd_idx) (p : Poly (list Z)) : Prop :=
  uniq (items p) /\ allk (P7d (fst i)) (items p) /\ (forall v t, evp mon7 (v, t) p = JM j0 v i t) /\
  (i <> (2, 0)%Z -> keyfor p = kf).

Lemma Good_of i p : wfp (P7d (fst i)) kf p -> (forall v t, evp mon7 (v, t) p = JM j0 v i t) -> Good i p.
Proof. intros (h1 & h2 & h3) h. exact (conj h2 (conj h3 (conj h (fun _ => h1)))). Qed.
Lemma Good_remove_zero i p : Good i p -> Good i (remove_zero p).
Proof.
  intros (h1 & h2 & h3 & h4). unfold remove_zero, Good; cbn [items keyfor]. split; [|split; [|split]].
  - now apply uniq_rm_zero.
  - now apply allk_rm_zero.
  - intros v t. rewrite <- h3. unfold evp; cbn [items]. apply eval_rm_zero.
  - assumption.
Qed.

Lemma JM_cont v i (t : R) : jd_dom i -> continuous (JM j0 v i) t.
Proof. intro h. eapply continuous_of_derive. now apply JM_derive. Qed.
Lemma pw_exp_cont v m (s : R) : continuous (fun s => pw (exp (ck v * s)) m) s.
Proof.
  apply (continuous_ext_all (fun s => exp (IZR m * (ck v * s)))); [intro; symmetry; apply exp_pw|].
  apply (ex_derive_continuous (V := R_NormedModule)). auto_derive. trivial.
Qed.

(** the integrand of one call of int_e_poly *)
Definition ter (c : R) (tp m : Z) (i : jd_idx) (v : cv) (s : R) : R :=
  c * (fac tp v * (pw (exp (ck v * s)) m * JM j0 v i s)).
Lemma ter_cont c tp m i v (s : R) : jd_dom i -> continuous (ter c tp m i v) s.
Proof.
  intro h. unfold ter. apply continuous_Rmult; [apply continuous_Rconst|].
  apply continuous_Rmult; [apply continuous_Rconst|]. apply continuous_Rmult; [apply pw_exp_cont|now apply JM_cont].
Qed.
Lemma int_e_good c tp m i d e : (1 <= tp <= 4)%Z -> (1 <= m)%Z -> (fst i + (if tp =? 1 then 2 else 0) <= e)%Z -> Good i d ->
  returns (srjd_int_e_poly kf c tp m d) (fun q => wfp (P7d e) kf q /\ forall v t,
    evp mon7 (v, t) q = RInt (ter (Q2R c) tp m i v) 0 t).
Proof.
  intros h1 h2 h0 (_ & g2 & g3 & _). eapply returns_weaken; [now apply (int_e_poly_spec c tp m d (fst i) e)|].
  intros q [W E]. split; [assumption|]. intros v t. rewrite E. apply RInt_ext_all. intro s. unfold ter. now rewrite g3.
Qed.
Lemma merge_sp e (p q : Poly (list Z)) : wfp (P7d e) kf p -> wfp (P7d e) kf q ->
  returns (merge p q) (fun r => wfp (P7d e) kf r /\ forall w, evp mon7 w r = evp mon7 w p + evp mon7 w q).
Proof. intros hp hq. exact (padd_sp (P7d e) mon7 kf p q hp hq). Qed.

(** the four integrands together *)
Definition ter4 (c : R) (m n1 i : Z) (v : cv) (s : R) : R :=
  ter c 1 (1 + m) (n1 - 2, i)%Z v s + ter c 2 (2 + m) (n1 - 2, i)%Z v s
  + ter c 3 (1 + m) (n1 - 1, i)%Z v s + ter c 4 (1 + m) (n1 - 2, i + 1)%Z v s.
Lemma ter4_cont c m n1 i v (s : R) : (2 <= n1)%Z -> (0 <= i)%Z -> continuous (ter4 c m n1 i v) s.
Proof.
  intros h1 h2. unfold ter4.
  apply continuous_Rplus; [apply continuous_Rplus; [apply continuous_Rplus|]|]; apply ter_cont; split; cbn; lia.
Qed.
Lemma RInt_ter4 c m n1 i v t : (2 <= n1)%Z -> (0 <= i)%Z ->
  RInt (ter4 c m n1 i v) 0 t = RInt (ter c 1 (1 + m) (n1 - 2, i)%Z v) 0 t + RInt (ter c 2 (2 + m) (n1 - 2, i)%Z v) 0 t
    + RInt (ter c 3 (1 + m) (n1 - 1, i)%Z v) 0 t + RInt (ter c 4 (1 + m) (n1 - 2, i + 1)%Z v) 0 t.
Proof.
  intros h1 h2. unfold ter4. 
  assert (C : forall c tp m i s, jd_dom i -> continuous (fun s => ter c tp m i v s) s) by (intros; now apply ter_cont).
  rewrite (RInt_Rplus (fun s => ter c 1 (1 + m) (n1 - 2, i)%Z v s + ter c 2 (2 + m) (n1 - 2, i)%Z v s + ter c 3 (1 + m) (n1 - 1, i)%Z v s)
                      (ter c 4 (1 + m) (n1 - 2, i + 1)%Z v)).
  rewrite (RInt_Rplus (fun s => ter c 1 (1 + m) (n1 - 2, i)%Z v s + ter c 2 (2 + m) (n1 - 2, i)%Z v s) (ter c 3 (1 + m) (n1 - 1, i)%Z v)).
  rewrite (RInt_Rplus (ter c 1 (1 + m) (n1 - 2, i)%Z v) (ter c 2 (2 + m) (n1 - 2, i)%Z v)).
  reflexivity.
  all: intros s; repeat (apply continuous_Rplus); apply ter_cont; split; cbn; lia.
Qed.

(** ter4 is the diffusion part of the right hand side *)
Lemma ter4_hs c m n1 i v s : (2 <= n1)%Z -> (0 <= i)%Z ->
  ter4 (c * (IZR (n1 * (n1 - 1)) / 2)) m n1 i v s = c * pw (exp (ck v * s)) m * hs j0 v n1 s (Z.to_nat i).
Proof.
  intros h1 h2. unfold ter4, ter, hs, Ms, fac. destruct (Z.leb_spec 2 n1); [|lia]. cbn [Z.eqb Pos.eqb].
  replace (Z.of_nat (S (Z.to_nat i))) with (i + 1)%Z by lia. rewrite Z2Nat.id by lia.
  pose proof (exp_neq0 (ck v * s)) as Hn.
  rewrite !pow_lemma_pw by now left. rewrite pw_1. replace (pw (exp (ck v * s)) 2) with (exp (ck v * s) ^ 2) by (rewrite pw_Zpos by lia; reflexivity).
  ring.
Qed.

Lemma Q2R_half n1 : Q2R (Frac (n1 * (n1 - 1)) 2) = IZR (n1 * (n1 - 1)) / 2.
Proof. rewrite Q2R_Frac by lia. reflexivity. Qed.

Lemma recursive_ie_spec n IE IEZ : (2 <= n)%Z ->
  (exists d, cget (n - 2)%Z IE = Ok d /\ Good (n - 2, 0)%Z d) ->
  (exists d, cget (n - 1)%Z IE = Ok d /\ Good (n - 1, 0)%Z d) ->
  (exists d, cget (n - 2, 1)%Z IEZ = Ok d /\ Good (n - 2, 1)%Z d) ->
  returns (recursive_ie kf n IE IEZ) (fun p => Good (n, 0)%Z p /\ keyfor p = kf).
Proof.
  intros Hn (d2 & g2 & G2) (d1 & g1 & G1) (dz & gz & Gz). unfold recursive_ie.
  destruct (Z.leb_spec 2 n); [|lia]. rewrite g2, g1, gz. cbn [bind].
  eapply returns_bind; [apply (int_e_good _ 1 1 (n - 2, 0)%Z d2 n); [lia|lia|cbn -[Z.add Z.sub]; lia|exact G2]|]. intros q1 [W1 E1].
  eapply returns_bind; [apply (merge_sp n); [apply wfp_nil|exact W1]|]. intros r1 [V1 F1].
  eapply returns_bind; [apply (int_e_good _ 2 2 (n - 2, 0)%Z d2 n); [lia|lia|cbn -[Z.add Z.sub]; lia|exact G2]|]. intros q2 [W2 E2].
  eapply returns_bind; [apply merge_sp; [exact V1|exact W2]|]. intros r2 [V2 F2].
  eapply returns_bind; [apply (int_e_good _ 3 1 (n - 1, 0)%Z d1 n); [lia|lia|cbn -[Z.add Z.sub]; lia|exact G1]|]. intros q3 [W3 E3].
  eapply returns_bind; [apply merge_sp; [exact V2|exact W3]|]. intros r3 [V3 F3].
  eapply returns_bind; [apply (int_e_good _ 4 1 (n - 2, 1)%Z dz n); [lia|lia|cbn -[Z.add Z.sub]; lia|exact Gz]|]. intros q4 [W4 E4].
  eapply returns_weaken; [apply merge_sp; [exact V3|exact W4]|]. intros r4 [V4 F4].
  split; [|apply V4]. apply Good_of; [exact V4|]. intros v t. rewrite F4, F3, F2, F1, E1, E2, E3, E4.
  unfold evp at 1; cbn [items eval]. rewrite Rplus_0_l, Q2R_half.
  pose proof (RInt_ter4 (IZR (n * (n - 1)) / 2) 0 n 0 v t ltac:(lia) ltac:(lia)) as E.
  cbn [Z.add] in E. rewrite <- E.
  transitivity (RInt (fun s => bc (zm (ivt v s t)) (hs j0 v n s) 0) 0 t).
  - apply RInt_ext_all. intro s. rewrite bc_0, (proj1 Hz), Rmult_1_l.
    replace (IZR (n * (n - 1)) / 2) with (1 * (IZR (n * (n - 1)) / 2)) by ring.
    rewrite ter4_hs by lia. rewrite pw_0. change (Z.to_nat 0) with 0%nat. ring.
  - apply RInt_eq. change (JM j0 v (n, 0)%Z t) with (Ms j0 v n t 0). apply Ms_pos; [assumption|assumption|lia].
Qed.

(** ** iez_to_ie_iez *)
Lemma iez_to_good z n : (0 <= n)%Z -> wfp P_iez kf_iez z -> (forall v, evp mon_iez v z = zm v (Z.to_nat n)) ->
  Good (0, n)%Z (iez_to_ie_iez kf z) /\ keyfor (iez_to_ie_iez kf z) = kf.
Proof.
  intros Hn (_ & U & A) E. split; [|reflexivity]. apply Good_of.
  - unfold iez_to_ie_iez. split; [reflexivity|]. cbn [items].
    assert (W : wfl (P7d 0) (fold_left (fun a (kv : list Z * Q) => let k := fst kv in
      add_kv [nthZ k 0; nthZ k 2; 0; 0; 0; nthZ k 3; nthZ k 4]%Z (snd kv) a) (items z) [])); [|exact W].
    refine (proj1 (adds_fold (P7d 0) mon7 (fun kv : list Z * Q => [nthZ (fst kv) 0; nthZ (fst kv) 2; 0; 0; 0; nthZ (fst kv) 3; nthZ (fst kv) 4]%Z) snd (items z) _ [] (wfl_nil (P7d 0)))).
    intros [k x] Hin. pose proof (allk_in P_iez _ k x A Hin) as Hk. unfold P_iez, s_iez in Hk. cbn [fst]. wfs_destruct. split; [cbn; repeat split; trivial; lia|unfold nthZ; simpl; lia].
  - intros v t.
    pose proof (proj2 (adds_fold (P7d 0) mon7 (fun kv : list Z * Q => [nthZ (fst kv) 0; nthZ (fst kv) 2; 0; 0; 0; nthZ (fst kv) 3; nthZ (fst kv) 4]%Z) snd (items z)
      ltac:(intros [k x] Hin; pose proof (allk_in P_iez _ k x A Hin) as Hk; unfold P_iez, s_iez in Hk; cbn [fst]; wfs_destruct; split; [cbn; repeat split; trivial; lia|unfold nthZ; simpl; lia]) [] (wfl_nil (P7d 0))) (v, t)) as F.
    unfold ev in F. unfold evp, iez_to_ie_iez; cbn [items]. cbn [eval] in F. rewrite Rplus_0_l in F.
    transitivity (evp mon_iez (ivt v 0 t) z).
    + etransitivity; [exact F|]. unfold evp. rewrite sumR_eval. apply sumR_ext. intros [k x] Hin.
      pose proof (allk_in P_iez _ k x A Hin) as Hk. unfold P_iez, s_iez in Hk. wfs_destruct. cbn [fst snd]. f_equal.
      unfold mon7, mon_iez, ievals, ivl, ivt, iezv, nthZ; cbn [fst snd nth monx xt xs xi xl xm].
      rewrite Rmult_0_r, exp_0, !pw_0, pw_one. ring.
    + rewrite E. rewrite <- (Ms_z j0 Hj0 zm Hz). unfold Ms. now rewrite Z2Nat.id.
Qed.
Lemma p0_good n : (0 <= n)%Z -> Good (1, n)%Z (ie_p0 kf).
Proof.
  intro Hn. apply Good_of; [apply wfp_single; split; [cbn; repeat split; trivial; lia|unfold nthZ; simpl; lia]|].
  intros v t. unfold evp; cbn [items ie_p0 eval]. rewrite <- (Z2Nat.id n Hn). symmetry. etransitivity; [exact (Ms_1 j0 Hj0 zm Hz v (Z.to_nat n) t)|].
  unfold Q2R; simpl. ring.
Qed.
Lemma p1_good : Good (0, 0)%Z (ie_p1 kf).
Proof.
  apply Good_of; [apply wfp_single; split; [cbn; repeat split; trivial; lia|unfold nthZ; simpl; lia]|].
  intros v t. symmetry. etransitivity; [exact (Ms_z j0 Hj0 zm Hz v 0%nat t)|]. rewrite (proj1 Hz).
  unfold evp; cbn [items ie_p1 eval]. unfold mon7, ievals; cbn [monx fst snd]. rewrite !pw_0, Q2R_1. ring.
Qed.

Hypothesis Hp2 : Good (2, 0)%Z (mkPoly p2 []).

(** ** moment_ie *)
Definition has {I} `{Key I} (c : list (I * Poly (list Z))) (i : I) (j : jd_idx) : Prop :=
  exists d, cget i c = Ok d /\ Good j d.
Lemma has_cset_same {I} `{Key I} (c : list (I * Poly (list Z))) i j p : Good j p -> has (cset i p c) i j.
Proof. intro h. exists p. split; [apply cget_cset_same|assumption]. Qed.
Lemma has_cset_other {I} `{Key I} (c : list (I * Poly (list Z))) i i' j p : i' <> i -> has c i j -> has (cset i' p c) i j.
Proof. intros n (d & e & g). exists d. split; [|assumption]. now rewrite cget_cset_other. Qed.
Lemma cdel1_ok {I} `{Key I} (c : list (I * Poly (list Z))) i j : has c i j ->
  returns (cdel1 i c) (fun c' => forall i' j', i' <> i -> has c i' j' -> has c' i' j').
Proof.
  intros (d & e & g). unfold cdel1. rewrite e. cbn [bind returns]. intros i' j' n (d' & e' & g').
  exists d'. split; [|assumption]. rewrite cget_cdel; [assumption|].
  destruct (keqb i' i) eqn:E; [|reflexivity]. apply keqb_spec in E. congruence.
Qed.

Section MomentIe.
Context (rec : Z -> Z -> res (Poly (list Z))) (N : Z).
Hypothesis Hrec : forall m, (2 <= m)%Z -> (m + 1 < N)%Z -> returns (rec m 1%Z) (Good (m, 1)%Z).

Lemma rec_step i IEZ : (3 <= i <= N)%Z -> (i = 3%Z -> has IEZ (1, 1)%Z (1, 1)%Z) ->
  returns (if (3 <? i)%Z then let! q := rec (i - 2)%Z 1%Z in Ok (cset (i - 2, 1)%Z q IEZ) else Ok IEZ)
    (fun c => has c (i - 2, 1)%Z (i - 2, 1)%Z).
Proof.
  intros Hi H3. destruct (Z.ltb_spec 3 i).
  - eapply returns_bind; [apply Hrec; lia|]. intros q Gq. cbn [returns]. now apply has_cset_same.
  - cbn [returns]. assert (i = 3%Z) by lia. subst i. now apply H3.
Qed.

Definition ieInv (i : Z) (st : list (Z * Poly (list Z)) * list ((Z * Z) * Poly (list Z))) : Prop :=
  has (fst st) (i - 2)%Z (i - 2, 0)%Z /\ has (fst st) (i - 1)%Z (i - 1, 0)%Z /\
  (i = 3%Z -> has (snd st) (1, 1)%Z (1, 1)%Z).

Lemma moment_ie_step_spec i st : (3 <= i < N)%Z -> ieInv i st ->
  returns (moment_ie_step kf rec st i) (ieInv (i + 1)%Z).
Proof.
  intros Hi (h1 & h2 & h3). destruct st as [IE IEZ]; cbn [fst snd] in *. unfold moment_ie_step.
  eapply returns_bind; [apply rec_step; [lia|assumption]|]. intros IEZ' HZ.
  eapply returns_bind; [apply recursive_ie_spec; [lia|exact h1|exact h2|exact HZ]|]. intros poly [Gp _].
  apply Good_remove_zero in Gp.
  eapply returns_bind.
  { apply (cdel1_ok _ _ (i - 2, 0)%Z). apply has_cset_other; [lia|exact h1]. }
  intros IE' HD. eapply returns_bind; [apply (cdel1_ok _ _ (i - 2, 1)%Z), HZ|]. intros IEZ2 HD2.
  cbn [returns]. unfold ieInv; cbn [fst snd]. split; [|split].
  - replace (i + 1 - 2)%Z with (i - 1)%Z by lia. apply HD; [lia|]. apply has_cset_other; [lia|exact h2].
  - replace (i + 1 - 1)%Z with i by lia. apply HD; [lia|]. now apply has_cset_same.
  - lia.
Qed.

Lemma moment_ie_body_spec : (0 <= N)%Z -> returns (moment_ie_body kf mz p2 rec N) (Good (N, 0)%Z).
Proof.
  intro HN. unfold moment_ie_body. destruct (Z.ltb_spec N 0); [lia|].
  set (IE := cset 2%Z _ _).
  assert (I0 : has IE 0%Z (0, 0)%Z) by (exists (ie_p1 kf); split; [reflexivity|apply p1_good]).
  assert (I1 : has IE 1%Z (1, 0)%Z) by (exists (ie_p0 kf); split; [reflexivity|apply p0_good; lia]).
  assert (I2 : has IE 2%Z (2, 0)%Z) by (exists (mkPoly p2 []); split; [reflexivity|exact Hp2]).
  destruct (Z.leb_spec N 2) as [h|h].
  { assert (E : (N = 0 \/ N = 1 \/ N = 2)%Z) by lia. destruct E as [->|[->| ->]].
    - destruct I0 as (d & e & g). rewrite e. exact g.
    - destruct I1 as (d & e & g). rewrite e. exact g.
    - destruct I2 as (d & e & g). rewrite e. exact g. }
  eapply returns_bind; [apply (Hmz 1); lia|]. intros z1 [Wz Ez].
  set (IEZ := cset (1, 1)%Z _ _).
  assert (J : has IEZ (1, 1)%Z (1, 1)%Z) by (apply has_cset_same, p0_good; lia).
  eapply (returns_bind _ _ (ieInv N)).
  { destruct (Z.ltb_spec 3 N).
    - apply (foldM_range _ ieInv); [lia| |].
      + split; [exact I1|]. split; [exact I2|]. intros _; exact J.
      + intros i s Hi Hs. apply moment_ie_step_spec; [lia|assumption].
    - cbn [returns]. assert (N = 3%Z) as -> by lia. split; [exact I1|]. split; [exact I2|]. intros _; exact J. }
  intros [IE' IEZ'] (h1 & h2 & h3). cbn [fst snd] in *.
  eapply returns_bind; [apply rec_step; [lia|exact h3]|]. intros IEZ2 HZ.
  eapply returns_bind; [apply recursive_ie_spec; [lia|exact h1|exact h2|exact HZ]|]. intros poly [Gp _].
  cbn [returns]. now apply Good_remove_zero.
Qed.
End MomentIe.

(** ** key_times_poly *)
Definition mk5 (v : cv) (t : R) (k : list Z) : R :=
  pw (exp (ck v * t)) (nthZ k 0) * pw (/ ck v) (nthZ k 2) * pw (clam v) (nthZ k 3) * pw (cmu v) (nthZ k 4).
Lemma mon_iez_mk5 v s t k : P_iez k -> mon_iez (ivt v s t) k = mk5 v t k * pw (exp (ck v * s)) (nthZ k 1).
Proof.
  intro h. unfold P_iez, s_iez in h. wfs_destruct. unfold mon_iez, ivl, ivt, iezv, mk5, nthZ.
  cbn [monx nth xt xs xi xl xm]. ring.
Qed.
Lemma key_times_spec k p e : P_iez k -> wfp (P7d e) kf p -> wfp (P7d e) kf (srjd_key_times_poly kf k p) /\
  forall v t, evp mon7 (v, t) (srjd_key_times_poly kf k p) = mk5 v t k * evp mon7 (v, t) p.
Proof.
  intros Hk (_ & U & A). unfold P_iez, s_iez in Hk. wfs_destruct.
  set (f := fun kv : list Z * Q => let key := fst kv in
    [nthZ [x; x0; x1; x2; x3] 0 + nthZ key 0; nthZ [x; x0; x1; x2; x3] 2 + nthZ key 1; nthZ key 2; nthZ key 3; nthZ key 4;
     nthZ [x; x0; x1; x2; x3] 3 + nthZ key 5; nthZ [x; x0; x1; x2; x3] 4 + nthZ key 6]%Z).
  assert (Hf : forall kv, In kv (items p) -> P7d e (f kv)).
  { intros [key y] Hin. destruct (allk_in (P7d e) _ key y A Hin) as [Hkey Hd]. unfold P7 in Hkey. wfs_destruct. subst f. cbn -[Z.mul Z.add] in *. repeat split; trivial; lia. }
  pose proof (adds_fold (P7d e) mon7 f snd (items p) Hf [] (wfl_nil (P7d e))) as [W E]. split.
  - split; [reflexivity|exact W].
  - intros v t. specialize (E (v, t)). unfold ev in E. cbn [eval] in E. rewrite Rplus_0_l in E.
    unfold evp, srjd_key_times_poly; cbn [items]. etransitivity; [exact E|].
    rewrite sumR_eval, <- sumR_scal. apply sumR_ext. intros [key y] Hin.
    pose proof (proj1 (allk_in (P7d e) _ key y A Hin)) as Hkey. unfold P7 in Hkey. wfs_destruct. subst f.
    pose proof (ckn v) as Hc.
    unfold mon7, ievals, mk5, nthZ; cbn [fst snd nth monx]. pws. ring.
Qed.

(** ** recursive_ie_iez *)
Definition full (IEZ : list ((Z * Z) * Poly (list Z))) (n : Z) : Prop :=
  forall a b, (0 <= a)%Z -> (0 <= b)%Z -> (a + b < n)%Z -> has IEZ (a, b) (a, b).

Lemma pull (c1 c2 m1 : R) (h : R -> R) (e : R -> R) : forall s, c1 * c2 * (m1 * e s) * h s = m1 * (c1 * c2 * e s * h s).
Proof. intro s. ring. Qed.

Lemma hs_cont' v n1 n (s : R) : continuous (fun s => hs j0 v n1 s n) s.
Proof. apply (hs_cont j0 Hj0). Qed.

Lemma recursive_ie_iez_item n1 n2 i IEZ k x : (2 <= n1)%Z -> (0 <= i <= n2)%Z -> full IEZ (n1 + n2) -> P_iez k ->
  adds (wfp (P7d n1) kf) (evp mon7) (fun poly =>
          let f := Frac (n1 * (n1 - 1)) 2 in
          let coef := qmul (qmul (qz (mcomb n2 i)) f) x in
          let! d := cget (n1 - 2, i)%Z IEZ in
          let! pol2 := srjd_int_e_poly kf coef 1 (1 + nthZ k 1) d in
          let! d := cget (n1 - 2, i)%Z IEZ in
          let! q := srjd_int_e_poly kf coef 2 (2 + nthZ k 1) d in
          let! pol2 := padd pol2 q in
          let! d := cget (n1 - 1, i)%Z IEZ in
          let! q := srjd_int_e_poly kf coef 3 (1 + nthZ k 1) d in
          let! pol2 := padd pol2 q in
          let! d := cget (n1 - 2, i + 1)%Z IEZ in
          let! q := srjd_int_e_poly kf coef 4 (1 + nthZ k 1) d in
          let! pol2 := padd pol2 q in
          merge poly (srjd_key_times_poly kf k pol2))
    (fun w => RInt (fun s => IZR (mcomb n2 i) * Q2R x * mon_iez (ivt (fst w) s (snd w)) k * hs j0 (fst w) n1 s (Z.to_nat i)) 0 (snd w)).
Proof.
  intros Hn1 Hi Hf Hk poly Hp. cbv zeta. set (c := qmul (qmul _ _) x).
  assert (H1 : (0 <= nthZ k 1)%Z) by (clear -Hk; unfold P_iez, s_iez in Hk; wfs_destruct; exact hx0).
  destruct (Hf (n1 - 2)%Z i ltac:(lia) ltac:(lia) ltac:(lia)) as (d1 & e1 & g1).
  destruct (Hf (n1 - 1)%Z i ltac:(lia) ltac:(lia) ltac:(lia)) as (d2 & e2 & g2).
  destruct (Hf (n1 - 2)%Z (i + 1)%Z ltac:(lia) ltac:(lia) ltac:(lia)) as (d3 & e3 & g3).
  rewrite e1, e2, e3. cbn [bind].
  eapply returns_bind; [apply (int_e_good c 1 _ (n1 - 2, i)%Z d1 n1); [lia|lia|cbn -[Z.add Z.sub]; lia|exact g1]|]. intros q1 [W1 E1].
  eapply returns_bind; [apply (int_e_good c 2 _ (n1 - 2, i)%Z d1 n1); [lia|lia|cbn -[Z.add Z.sub]; lia|exact g1]|]. intros q2 [W2 E2].
  eapply returns_bind; [apply (padd_sp (P7d n1) mon7 kf q1 q2 W1 W2)|]. intros r2 [V2 F2].
  eapply returns_bind; [apply (int_e_good c 3 _ (n1 - 1, i)%Z d2 n1); [lia|lia|cbn -[Z.add Z.sub]; lia|exact g2]|]. intros q3 [W3 E3].
  eapply returns_bind; [apply (padd_sp (P7d n1) mon7 kf r2 q3 V2 W3)|]. intros r3 [V3 F3].
  eapply returns_bind; [apply (int_e_good c 4 _ (n1 - 2, i + 1)%Z d3 n1); [lia|lia|cbn -[Z.add Z.sub]; lia|exact g3]|]. intros q4 [W4 E4].
  eapply returns_bind; [apply (padd_sp (P7d n1) mon7 kf r3 q4 V3 W4)|]. intros r4 [V4 F4].
  destruct (key_times_spec k r4 n1 Hk V4) as [W5 E5].
  eapply returns_weaken; [apply merge_sp; [exact Hp|exact W5]|]. intros r [V F]. split; [assumption|].
  intros [v t]. rewrite F, E5. f_equal. cbn [fst snd].
  rewrite F4, F3, F2, E1, E2, E3, E4. rewrite <- RInt_ter4 by lia.
  rewrite <- RInt_Rscal by (intro; apply ter4_cont; lia). apply RInt_ext_all. intro s.
  replace (Q2R c) with (IZR (mcomb n2 i) * Q2R x * (IZR (n1 * (n1 - 1)) / 2))
    by (unfold c; rewrite !Q2R_mul, Q2R_half, Q2R_qz; ring).
  rewrite ter4_hs by lia. rewrite mon_iez_mk5 by assumption. ring.
Qed.

Lemma zm_cont' v t n (s : R) : continuous (fun s => zm (ivt v s t) n) s.
Proof. exact (zm_cont_s j0 Hj0 zm Hz v t n s). Qed.
Lemma mon_iez_cont v t k (s : R) : P_iez k -> continuous (fun s => mon_iez (ivt v s t) k) s.
Proof.
  intro h. apply (continuous_ext_all (fun s => mk5 v t k * pw (exp (ck v * s)) (nthZ k 1))); [intro; symmetry; now apply mon_iez_mk5|].
  apply continuous_Rmult; [apply continuous_Rconst|apply pw_exp_cont].
Qed.

Lemma recursive_ie_iez_spec mie n1 n2 IEZ : (0 <= n1)%Z -> (0 <= n2)%Z -> full IEZ (n1 + n2) ->
  ((2 <= n1)%Z -> n2 = 0%Z -> returns (mie n1) (Good (n1, 0)%Z)) ->
  returns (recursive_ie_iez kf mz mie n1 n2 IEZ) (Good (n1, n2)).
Proof.
  intros H1 H2 Hf Hm. unfold recursive_ie_iez.
  destruct (Z.leb_spec 2 n1) as [h1|h1].
  - destruct (Z.leb_spec 1 n2) as [h2|h2]; cbn [andb].
    + eapply returns_bind.
      { eapply (adds_foldM (wfp (P7d n1) kf) (evp mon7) _ (fun i w => RInt (fun s => IZR (mcomb n2 i) * (zm (ivt (fst w) s (snd w)) (Z.to_nat (n2 - i)) * hs j0 (fst w) n1 s (Z.to_nat i))) 0 (snd w))); [|apply wfp_nil].
        intros i Hi. apply in_range in Hi. rewrite math_comb_ok by lia. cbn [bind].
        apply (adds_bind _ _ _ _ (fun pol1 poly => foldM _ (items pol1) poly) _ (Hmz (n2 - i)%Z ltac:(lia))). intros pol1 [W1 E1].
        eapply adds_ext.
        { apply (adds_foldM _ _ _ (fun kv w => RInt (fun s => IZR (mcomb n2 i) * Q2R (snd kv) * mon_iez (ivt (fst w) s (snd w)) (fst kv) * hs j0 (fst w) n1 s (Z.to_nat i)) 0 (snd w))).
          intros [k x] Hin. cbn [fst snd]. apply recursive_ie_iez_item; [lia|lia|assumption|].
          exact (allk_in P_iez _ k x (proj2 (proj2 W1)) Hin). }
        intros [v t]. cbv beta. cbn [fst snd]. rewrite <- RInt_sumR.
        - apply RInt_ext_all. intro s. rewrite <- E1. unfold evp. rewrite sumR_eval.
          rewrite (Rmult_comm (sumR _ _)), <- !sumR_scal. apply sumR_ext. intros; ring.
        - intros [k x] Hin s. pose proof (allk_in P_iez _ k x (proj2 (proj2 W1)) Hin) as Hk. cbn [fst snd].
          apply continuous_Rmult; [|apply hs_cont']. apply continuous_Rmult; [apply continuous_Rconst|now apply mon_iez_cont]. }
      intros poly [W E]. destruct (Z.eqb_spec n2 0); [lia|]. destruct (Z.eqb_spec n1 1); [lia|]. destruct (Z.eqb_spec n1 0); [lia|].
      cbn [andb bind returns]. apply Good_of; [exact W|]. intros v t. rewrite E. unfold evp at 1; cbn [items eval fst snd]. rewrite Rplus_0_l.
      rewrite <- (RInt_sumR (fun i s => IZR (mcomb n2 i) * (zm (ivt v s t) (Z.to_nat (n2 - i)) * hs j0 v n1 s (Z.to_nat i)))).
      * replace (JM j0 v (n1, n2) t) with (Ms j0 v n1 t (Z.to_nat n2)) by (unfold Ms; now rewrite Z2Nat.id).
        transitivity (RInt (fun s => bc (zm (ivt v s t)) (hs j0 v n1 s) (Z.to_nat n2)) 0 t).
        -- apply RInt_ext_all. intro s. rewrite bc_comm. unfold bc. rewrite sumR_range0s by lia. apply sumR_ext.
           intros i Hi. apply in_seq in Hi. unfold mcomb. rewrite Nat2Z.id.
           replace (Z.to_nat (n2 - Z.of_nat i)) with (Z.to_nat n2 - i)%nat by lia. ring.
        -- apply RInt_eq. apply Ms_pos; [assumption|assumption|lia].
      * intros i _ s. apply continuous_Rmult; [apply continuous_Rconst|]. apply continuous_Rmult; [apply zm_cont'|apply hs_cont'].
    + assert (n2 = 0%Z) by lia. subst n2. cbn [Z.eqb andb bind]. eapply returns_bind; [now apply Hm|].
      intros p Gp. destruct (Z.eqb_spec n1 1); [lia|]. destruct (Z.eqb_spec n1 0); [lia|]. cbn [returns]. exact Gp.
  - cbn [andb bind]. destruct (Z.eqb_spec n1 0) as [->|h0].
    + cbn [Z.eqb]. eapply returns_bind; [apply Hmz, H2|]. intros z [Wz Ez]. cbn [returns]. now apply iez_to_good.
    + assert (n1 = 1%Z) by lia. subst n1. cbn [Z.eqb Pos.eqb returns]. apply (p0_good n2 H2).
Qed.

(** ** moment_ie_iez *)
Lemma moment_ie_iez_body_spec mie n1 n2 : (0 <= n1)%Z -> (0 <= n2)%Z ->
  (forall m, (2 <= m)%Z -> (m <= 2 \/ m <= n1 + n2)%Z -> returns (mie m) (Good (m, 0)%Z)) ->
  returns (moment_ie_iez_body kf mz mie n1 n2) (Good (n1, n2)).
Proof.
  intros H1 H2 Hm. unfold moment_ie_iez_body. destruct (Z.leb_spec 0 n1); [|lia]. destruct (Z.leb_spec 0 n2); [|lia].
  cbn [andb negb]. eapply returns_bind; [apply (Hmz 1); lia|]. intros z1 [W1 E1].
  eapply returns_bind; [apply (Hm 2%Z); lia|]. intros m2 Gm.
  eapply returns_bind; [apply (Hmz 2); lia|]. intros z2 [W2 E2].
  set (IEZ := cset (0, 2)%Z _ _).
  assert (F3 : full IEZ 3).
  { intros a b Ha Hb Hab.
    assert (E : ((a = 0 /\ b = 0) \/ (a = 1 /\ b = 0) \/ (a = 0 /\ b = 1) \/ (a = 2 /\ b = 0) \/ (a = 1 /\ b = 1) \/ (a = 0 /\ b = 2))%Z) by lia.
    destruct E as [[-> ->]|[[-> ->]|[[-> ->]|[[-> ->]|[[-> ->]|[-> ->]]]]]]; eexists; (split; [reflexivity|]).
    - apply p1_good.
    - apply p0_good; lia.
    - apply (iez_to_good z1 1); [lia|assumption|assumption].
    - exact Gm.
    - apply p0_good; lia.
    - apply (iez_to_good z2 2); [lia|assumption|assumption]. }
  destruct (Z.leb_spec (n1 + n2) 2) as [h|h].
  { destruct (F3 n1 n2 ltac:(lia) ltac:(lia) ltac:(lia)) as (d & e & g). rewrite e. exact g. }
  eapply (returns_bind _ _ (fun c => full c (n1 + n2))).
  { destruct (Z.ltb_spec 3 (n1 + n2)).
    - apply (foldM_range _ (fun n c => full c n)); [lia|exact F3|]. intros n c Hn Hc.
      eapply returns_weaken.
      { apply (foldM_range _ (fun i c => full c n /\ forall a, (0 <= a < i)%Z -> has c (a, n - a)%Z (a, n - a)%Z)); [lia| |].
        - split; [exact Hc|]. intros; lia.
        - intros i c' Hi [h1 h2]. eapply returns_bind.
          { apply recursive_ie_iez_spec; [lia|lia| |].
            - now replace (i + (n - i))%Z with n by lia.
            - intros. apply Hm; lia. }
          intros p Gp. cbn [returns]. split.
          + intros a b Ha Hb Hab. apply has_cset_other; [intro e; inversion e; lia|now apply h1].
          + intros a Ha. destruct (Z.eq_dec a i) as [->|ne]; [apply has_cset_same, Good_remove_zero, Gp|].
            apply has_cset_other; [intro e; inversion e; lia|]. apply h2. lia. }
      intros c' [h1 h2] a b Ha Hb Hab. destruct (Z.eq_dec (a + b) n) as [e|ne].
      + replace b with (n - a)%Z by lia. apply h2. lia.
      + apply h1; lia.
    - cbn [returns]. now replace (n1 + n2)%Z with 3%Z by lia. }
  intros c Hc. eapply returns_bind.
  { apply recursive_ie_iez_spec; [lia|lia|exact Hc|]. intros. apply Hm; lia. }
  intros p Gp. cbn [returns]. now apply Good_remove_zero.
Qed.

Lemma miz_spec : forall fuel n1 n2, (0 <= n1)%Z -> (0 <= n2)%Z -> (n1 + n2 < Z.of_nat fuel)%Z ->
  returns (miz kf mz p2 fuel n1 n2) (Good (n1, n2)).
Proof.
  induction fuel as [|f IH]; intros n1 n2 H1 H2 Hf; [lia|]. cbn [miz].
  apply moment_ie_iez_body_spec; [assumption|assumption|]. intros m Hm2 Hm.
  apply moment_ie_body_spec; [|lia]. intros a Ha Hab. apply IH; lia.
Qed.
Lemma mie_f_spec n : (0 <= n)%Z -> returns (mie_f kf mz p2 n) (Good (n, 0)%Z).
Proof.
  intro Hn. unfold mie_f. apply moment_ie_body_spec; [|assumption]. intros m Hm Hmn. apply miz_spec; lia.
Qed.
Lemma miz_f_spec n1 n2 : (0 <= n1)%Z -> (0 <= n2)%Z -> returns (miz_f kf mz p2 n1 n2) (Good (n1, n2)).
Proof. intros H1 H2. unfold miz_f. apply miz_spec; lia. Qed.
End Ie.
