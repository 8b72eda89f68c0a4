(** C53: the files written by Poly.write_to_txt, Poly.write_to_csv (nested keys) and
    write_to_subpolys. *)
From Coq Require Import ZArith QArith List String Ascii Lia.
From Verif.Spec Require Import Names.
From Verif.Proof Require Import TxtProofs ClassifyProofs SvvjW.
From Verif.Props Require Import PropsSvvj.
Import Verif.Model.Svvj.
Import ListNotations.
Local Open Scope string_scope.

(** a name that Python prints between single quotes as it is *)
Definition quotable (s : string) : Prop := forall i, String.get i s <> Some "'"%char.
Lemma quotable_plain s : quotable s -> plain s = true.
Proof.
  induction s as [|c s IH]; intro H; [reflexivity|]. cbn [plain]. rewrite IH; [|intros i; exact (H (S i))].
  destruct (Ascii.eqb_spec c "'"%char) as [->|]; [|reflexivity]. exfalso. exact (H O eq_refl).
Qed.
Lemma plain_quotable s : plain s = true -> quotable s.
Proof.
  induction s as [|c s IH]; intros H [|i]; cbn [String.get]; try discriminate; cbn [plain] in H; apply andb_prop in H.
  - intro E. injection E as ->. destruct H as [H _]. discriminate H.
  - now apply IH.
Qed.
Definition quotables (kf : list string) : Prop := forall s, In s kf -> quotable s.

(** The text file determines the names and the items, in the order of the dict, for keys with tuples
    nested in any way. *)
Theorem C53_txt : forall (f f' : string) (kf kf' : list string) (its its' : list (list pyv * Q)),
  quotables kf -> quotables kf' -> snd (write_to_txt f kf its) = snd (write_to_txt f' kf' its') -> kf = kf' /\ its = its'.
Proof.
  intros f f' kf kf' its its' H H' E. cbn [write_to_txt snd] in E.
  apply txt_text_inj in E; [exact E|apply Forall_forall; intros; apply quotable_plain; auto|apply Forall_forall; intros; apply quotable_plain; auto].
Qed.
(** every name used by the models satisfies the condition *)
Theorem C53_names : Forall quotables [nm_cond1; nm_m1; nm_cm1; nm_mj; nm_cmj; nm_ito; nm_itos; nm2_m; nm2_cm; nm2_mj; nm2_cmj; kf_sv13; kf_sv15].
Proof.
  assert (G : forall kf, forallb plain kf = true -> quotables kf).
  { intros kf H s Hs. apply plain_quotable. rewrite forallb_forall in H. now apply H. }
  repeat (apply Forall_cons; [apply G; reflexivity|]). apply Forall_nil.
Qed.
(** The name of the file ends with .txt; it is the given one when that already does. *)
Theorem C53_txt_name : forall (f : string) (kf : list string) (its : list (list pyv * Q)),
  (forall a, f = a ++ ".txt" -> fst (write_to_txt f kf its) = f) /\
  ((forall a, f <> a ++ ".txt") -> fst (write_to_txt f kf its) = f ++ ".txt").
Proof.
  intros f kf its.
  cbn [write_to_txt fst]. split.
  - intros a ->. rewrite (proj2 (endswith_spec ".txt" (a ++ ".txt"))) by now exists a. reflexivity.
  - intro H. destruct (endswith ".txt" f) eqn:E; [|reflexivity]. apply endswith_spec in E. destruct E as [a e]. now destruct (H a).
Qed.

(** The lines of the csv file determine the items when all keys have the same length. *)
Theorem C53_csv_rows : forall (kf : list string) (n : nat) (its its' : list (list pyv * Q)),
  (forall kv, In kv its -> length (fst kv) = n) -> (forall kv, In kv its' -> length (fst kv) = n) ->
  csv_plain kf its = csv_plain kf its' -> its = its'.
Proof. intros kf n its its' H H' E. unfold csv_plain in E. injection E as E. now apply (plain_rows_inj n). Qed.
(** It is the first branch of write_to_csv. *)
Definition cell_py (c : cell) : pyv := match c with CI z => PInt z | CT l => PTup (map PInt l) end.
Theorem C53_csv_same : forall (kf : list string) (its : list (list cell * Q)), ~ In "l_{1:n}" kf ->
  write_to_csv kf its = Ok (csv_plain kf (map (fun kv => (map cell_py (fst kv), snd kv)) its)).
Proof.
  intros kf its H. unfold write_to_csv.
  assert (h : has "l_{1:n}" kf = false).
  { unfold has. destruct (existsb (String.eqb "l_{1:n}") kf) eqn:Ex; [|reflexivity]. apply existsb_exists in Ex.
    destruct Ex as (x & Hx & e). apply String.eqb_eq in e. subst x. contradiction. }
  rewrite h. cbn [negb]. unfold csv_plain. rewrite map_map. do 2 f_equal. apply map_ext. intros [k v]. cbn [fst snd]. rewrite map_map. do 2 f_equal.
  apply map_ext. intros [z|[|a [|b l]]]; try reflexivity. cbn [cell_py str_py str_cell map]. rewrite map_map. reflexivity.
Qed.

(** For the two-factor models the header never fits the rows: the first name contains commas, and
    so do the tuples in the keys.  Whatever the key, the number of columns of its row differs from that
    of the header. *)
Theorem C53_csv_two_factor : forall (kf : list string) (k : fkey) (v : Q), In kf [nm2_m; nm2_cm; nm2_mj; nm2_cmj] ->
  length (snd (snd k)) = (length kf - 2)%nat ->
  forall title row, csv_plain kf [(pf2 k, v)] = [title; row] -> length (columns row) <> length (columns title).
Proof.
  intros kf k v Hkf L title row E. unfold csv_plain in E. injection E as <- <-. cbn [fst snd].
  destruct Hkf as [<-|[<-|[<-|[<-|[]]]]]; cbn [length Nat.sub nm2_m nm2_cm nm2_mj nm2_cmj] in L;
    (rewrite pf2_columns by (rewrite L; discriminate)); rewrite L;
    (match goal with |- _ <> ?t => let t' := eval vm_compute in t in change t with t' end);
    destruct (length (fst k)) as [|[|n]]; lia.
Qed.
(** and hence some two-factor poly has a csv file whose rows do not fit the header *)
Theorem C53_csv_header_refuted : exists (k : fkey) (title row : string), csv_plain nm2_m [(pf2 k, 1 # 2)] = [title; row] /\
  (length (columns row) <> length (columns title))%nat.
Proof.
  exists ([(1, 0, 1)]%Z, ((-1, 0)%Z, [0; 1; 1; 1; 0; 0]%Z)). eexists. eexists. split; [reflexivity|]. vm_compute. lia.
Qed.

(** ** write_to_subpolys
    one file for each level, numbered from 0 *)
Definition writable (poly : Poly svkey) : Prop :=
  keyfor poly = kf_sv13 /\ uniq (items poly) /\ (forall k, In k (keys (items poly)) -> svok 6 3 k) /\ items poly <> [] /\
  (forall k v, In (k, v) (items poly) -> forall j, (j <= level k)%nat -> exists k' v', In (k', v') (items poly) /\ level k' = j).

Definition subk (i : nat) (k : svkey) : subkey := if (i =? 0)%nat then inl (fst (fst k) ++ snd k)%list else inr k.
Definition kfsub (i : nat) : list string := if (i =? 0)%nat then (firstn 6 ("e^{-kt}" :: tl kf_sv13) ++ skipn 10 ("e^{-kt}" :: tl kf_sv13))%list else "e^{-kt}" :: tl kf_sv13.
Definition fname (nth : Z) (i : nat) : string := "svvj-cond-cmoment-" ++ str_Z nth ++ "-formula-" ++ str_Z (Z.of_nat i) ++ ".txt".
Lemma map_PI_inj a : forall b, map PInt a = map PInt b -> a = b.
Proof. induction a as [|x a IH]; intros [|y b] E; try discriminate; [reflexivity|]. injection E as -> E. f_equal. now apply IH. Qed.
Lemma app_eq_len {A} (a : list A) : forall a' b b', length a = length a' -> (a ++ b = a' ++ b')%list -> a = a' /\ b = b'.
Proof.
  induction a as [|x a IH]; intros [|x' a'] b b' L E; try discriminate L; [now split|]. cbn [app] in E. injection E as -> E.
  destruct (IH a' b b' ltac:(now injection L) E) as [-> ->]. now split.
Qed.
Lemma pysub_subk_inj i k k' : svok 6 3 k -> svok 6 3 k' -> level k = i -> level k' = i ->
  pysub (subk i (negkey k)) = pysub (subk i (negkey k')) -> k = k'.
Proof.
  intros (l1 & _ & j1 & l2 & _) (l1' & _ & j1' & l2' & _) e e' E. apply negkey_inj; [assumption|assumption|].
  assert (n1 : length (fst (fst (negkey k))) = 6%nat).
  { destruct k as [[[|z a] lo] x]; [discriminate|]. exact l1. }
  assert (n1' : length (fst (fst (negkey k'))) = 6%nat).
  { destruct k' as [[[|z a] lo] x]; [discriminate|]. exact l1'. }
  assert (J : snd (fst (negkey k)) = snd (fst k)) by reflexivity. assert (J' : snd (fst (negkey k')) = snd (fst k')) by reflexivity.
  unfold level in e, e'. rewrite <- J in e, j1. rewrite <- J' in e', j1'. revert n1 n1' j1 j1' e e' E. generalize (negkey k) (negkey k'). clear.
  intros [[a [[[l o] p] q]] x] [[a' [[[l' o'] p'] q']] x']. unfold subk. cbn [fst snd]. intros n n' (j1 & j2 & j3) (j1' & j2' & j3') e e' E.
  destruct (Nat.eqb_spec i 0) as [->|Hi].
  - cbn [pysub] in E. apply map_PI_inj in E. apply app_eq_len in E; [|congruence]. destruct E as [-> ->].
    destruct l; [|discriminate]. destruct l'; [|discriminate]. cbn in *. repeat match goal with h : length ?z = 0%nat |- _ => apply length_zero_iff_nil in h; subst z end. reflexivity.
  - cbn [pysub] in E. apply app_eq_len in E; [|rewrite !map_length; congruence]. destruct E as [E1 E2]. apply map_PI_inj in E1. subst a'.
    cbn [app] in E2. injection E2 as f1 f2 f3 f4 f5.
    apply map_PI_inj in f1, f2, f3, f4, f5. subst. reflexivity.
Qed.
Lemma nth_combine_seq {A} (l : list A) : forall a i q, nth_error (combine (seq a (length l)) l) i = Some q <-> exists x, nth_error l i = Some x /\ q = ((a + i)%nat, x).
Proof.
  induction l as [|x l IH]; intros a i q.
  - destruct i; cbn; (split; [discriminate|intros (y & h & _); discriminate]).
  - cbn [length seq combine]. destruct i as [|i]; cbn [nth_error].
    + rewrite Nat.add_0_r. split; [intro h; injection h as <-; now exists x|intros (y & h & ->); now injection h as ->].
    + rewrite IH. replace (S a + i)%nat with (a + S i)%nat by lia. reflexivity.
Qed.
Lemma subpolys_sp poly nth : writable poly -> exists fs, write_to_subpolys poly nth = Ok fs /\
  (forall k v, In (k, v) (items poly) -> (level k < length fs)%nat) /\
  (forall i f, nth_error fs i = Some f -> f = (fname nth i, txt_text (kfsub i) (pitems pysub (map (fun kv => (subk i (negkey (fst kv)), snd kv))
      (filter (fun kv => (level (fst kv) =? i)%nat) (items poly))))) /\ exists k v, In (k, v) (items poly) /\ level k = i).
Proof.
  intros (K & U & A & N & G). unfold write_to_subpolys.
  assert (A6 : forall k, In k (keys (items poly)) -> length (fst (fst k)) = 6%nat) by (intros k Hk; now destruct (A k Hk)).
  rewrite (simp0_map poly U A6). cbn [bind]. set (q := mkPoly _ _).
  assert (Lv : forall k, level (negkey k) = level k) by reflexivity.
  assert (Iq : forall k v, In (k, v) (items q) <-> exists k', k = negkey k' /\ In (k', v) (items poly)).
  { intros k v. unfold q. cbn [items]. rewrite in_map_iff. split.
    - intros ([k' v'] & e & Hin). cbn [fst snd] in e. injection e as <- <-. now exists k'.
    - intros (k' & -> & Hin). now exists (k', v). }
  destruct (C39_classify q) as (subs & Es & B & S & _).
  - unfold uniq, q, keys. cbn [items]. rewrite map_map. cbn [fst]. unfold uniq, keys in U. rewrite <- (map_map fst negkey).
    assert (G6 : forall l, NoDup l -> (forall k, In k l -> length (fst (fst k)) = 6%nat) -> NoDup (map negkey l)).
    { induction l as [|k l IH]; intros h1 h2; [constructor|]. inversion_clear h1 as [|? ? g1 g2]. cbn [map]. constructor.
      - intro h. apply in_map_iff in h. destruct h as (k' & e & Hin). apply negkey_inj in e; [subst; contradiction|apply h2; now right|apply h2; now left].
      - apply IH; [exact g2|]. intros; apply h2; now right. }
    apply G6; assumption.
  - intros k v Hin. apply Iq in Hin. destruct Hin as (k' & -> & Hin). destruct (A k') as (l1 & _ & l2 & _); [apply in_map_iff; now exists (k', v)|].
    split; [|exact l2]. destruct k' as [[[|z a] lo] x]; [discriminate|exact l1].
  - unfold q. cbn [items]. intro h. apply map_eq_nil in h. contradiction.
  - intros k v Hin j Hj. apply Iq in Hin. destruct Hin as (k' & -> & Hin). destruct (G k' v Hin j Hj) as (k2 & v2 & h1 & h2).
    exists (negkey k2), v2. split; [apply Iq; now exists k2|exact h2].
  - rewrite Es. cbn [bind]. eexists. split; [reflexivity|]. rewrite map_length, combine_length, seq_length, Nat.min_id. split.
    + intros k v Hin. apply (B (negkey k) v). apply Iq. now exists k.
    + intros i f Hf. rewrite nth_error_map in Hf. destruct (nth_error _ i) as [nq|] eqn:En; [|discriminate]. cbn [option_map] in Hf. injection Hf as <-.
      apply nth_combine_seq in En. destruct En as (s & Hs & ->). cbn [fst snd Nat.add]. destruct (S i s Hs) as (Ks & Is & Ns). split.
      * change (write_to_txt (fname nth i) (keyfor s) (pitems pysub (items s)) = (fname nth i, txt_text (kfsub i) (pitems pysub (map (fun kv => (subk i (negkey (fst kv)), snd kv))
          (filter (fun kv => (level (fst kv) =? i)%nat) (items poly)))))). unfold write_to_txt.
        rewrite (proj2 (endswith_spec ".txt" (fname nth i))) by (exists ("svvj-cond-cmoment-" ++ str_Z nth ++ "-formula-" ++ str_Z (Z.of_nat i)); unfold fname; now rewrite !str_app_assoc).
        f_equal. rewrite Ks, Is. unfold q. cbn [keyfor items]. rewrite K. unfold kfsub. f_equal. f_equal.
        clear. induction (items poly) as [|[k v] l IH]; [reflexivity|]. cbn [map filter fst snd]. change (level (negkey k)) with (level k).
        destruct (level k =? i)%nat; [|exact IH]. cbn [map fst snd]. apply f_equal2; [reflexivity|exact IH].
      * destruct (items s) as [|[k v] r] eqn:e; [contradiction|].
        assert (Hin : In (k, v) (items s)) by (rewrite e; now left). rewrite Is in e.
        destruct (filter (fun kv : svkey * Q => (level (fst kv) =? i)%nat) (items q)) as [|[k1 v1] r1] eqn:e1; [discriminate|].
        assert (H1 : In (k1, v1) (filter (fun kv : svkey * Q => (level (fst kv) =? i)%nat) (items q))) by (rewrite e1; now left).
        apply filter_In in H1. destruct H1 as [H1 H2]. cbn [fst] in H2. apply Nat.eqb_eq in H2. apply Iq in H1. destruct H1 as (k2 & -> & H1). now exists k2, v1.
Qed.
Lemma kfsub_plain i : Forall (fun s => plain s = true) (kfsub i).
Proof. unfold kfsub. destruct (i =? 0)%nat; cbn; repeat (constructor; [reflexivity|]); constructor. Qed.
Lemma subpolys_half p p' nth fs : writable p -> writable p' -> write_to_subpolys p nth = Ok fs -> write_to_subpolys p' nth = Ok fs ->
  forall k v, In (k, v) (items p) -> In (k, v) (items p').
Proof.
  intros W W' E E' k v Hin. destruct (subpolys_sp p nth W) as (fs1 & e1 & B & F). destruct (subpolys_sp p' nth W') as (fs2 & e2 & B' & F').
  rewrite E in e1. rewrite E' in e2. injection e1 as <-. injection e2 as <-.
  pose proof (B k v Hin) as Hl. apply nth_error_Some in Hl. destruct (nth_error fs (level k)) as [f|] eqn:En; [|contradiction].
  destruct (F _ _ En) as [e1 _]. destruct (F' _ _ En) as [e2 _]. rewrite e1 in e2. injection e2 as e2.
  apply txt_text_inj in e2; try apply kfsub_plain. destruct e2 as [_ e2].
  assert (H : In (pysub (subk (level k) (negkey k)), v) (pitems pysub (map (fun kv => (subk (level k) (negkey (fst kv)), snd kv)) (filter (fun kv => (level (fst kv) =? level k)%nat) (items p))))).
  { unfold pitems. rewrite map_map. cbn [fst snd]. apply in_map_iff. exists (k, v). split; [reflexivity|]. apply filter_In. split; [exact Hin|]. cbn [fst]. apply Nat.eqb_refl. }
  rewrite e2 in H. unfold pitems in H. rewrite map_map in H. cbn [fst snd] in H. apply in_map_iff in H. destruct H as ([k' v'] & e & Hf). cbn [fst snd] in e.
  injection e as e <-. apply filter_In in Hf. destruct Hf as [Hf Hl']. cbn [fst] in Hl'. apply Nat.eqb_eq in Hl'.
  destruct W as (_ & _ & A & _). destruct W' as (_ & _ & A' & _).
  apply pysub_subk_inj in e; [now subst k'|apply A'; apply in_map_iff; now exists (k', v')|apply A; apply in_map_iff; now exists (k, v')|exact Hl'|reflexivity].
Qed.
(** The files are named by order and level, there is one for each level that occurs, and together
    they determine the terms of the polynomial. *)
Theorem C53_subpolys : forall (poly : Poly svkey) (nth : Z), writable poly -> exists fs, write_to_subpolys poly nth = Ok fs /\
  map fst fs = map (fun i => "svvj-cond-cmoment-" ++ str_Z nth ++ "-formula-" ++ str_Z (Z.of_nat i) ++ ".txt") (seq 0 (length fs)) /\
  (forall i, (i < length fs)%nat <-> exists k v, In (k, v) (items poly) /\ level k = i) /\
  (forall poly', writable poly' -> write_to_subpolys poly' nth = Ok fs -> forall k v, In (k, v) (items poly) <-> In (k, v) (items poly')).
Proof.
  intros poly nth W. destruct (subpolys_sp poly nth W) as (fs & E & B & F). exists fs. split; [exact E|]. split; [|split].
  - change (map fst fs = map (fname nth) (seq 0 (length fs))).
    assert (G : forall l a, (forall i f, nth_error l i = Some f -> fst f = fname nth (a + i)) -> map fst l = map (fname nth) (seq a (@length (string * string) l))).
    { induction l as [|x l IH]; intros a H; [reflexivity|]. cbn [map length seq]. f_equal; [rewrite (H O x eq_refl); now rewrite Nat.add_0_r|].
      apply IH. intros i f Hf. rewrite (H (S i) f Hf). f_equal. lia. }
    apply (G fs 0%nat). intros i f Hf. destruct (F i f Hf) as [-> _]. reflexivity.
  - intro i. split.
    + intro Hi. apply nth_error_Some in Hi. destruct (nth_error fs i) as [f|] eqn:e; [|contradiction]. now destruct (F i f e).
    + intros (k & v & Hin & <-). now apply (B k v).
  - intros poly' W' E' k v. split; intro H; [exact (subpolys_half poly poly' nth fs W W' E E' k v H)|exact (subpolys_half poly' poly nth fs W' W E' E k v H)].
Qed.

(** ** concrete cases *)
Example C53_txt_example : write_to_txt "m" ["x"; "y"] [([PTup [PTup [PInt 1; PInt 0; PInt (-2)]]; PTup [PInt 3; PInt 0]; PInt 5], (-3 # 2)%Q)]
  = ("m.txt", "('x', 'y'): value(in fraction)" ++ nl ++ "(((1, 0, -2),), (3, 0), 5): (-3,2)" ++ nl).
Proof. vm_compute. reflexivity. Qed.
Example C53_csv_example : csv_plain nm2_m [(pf2 ([(1, 0, 1)]%Z, ((-1, 0)%Z, [0; 1; 1; 1; 0; 0]%Z)), 1 # 2)]
  = ["(n_1m*k1+n_2m*k2)^{-i_m},...,(n_11*k1+n_21*k2)^{-i_1},e^{-(n1*k1+n2*k2)h},h,mu,theta1,sigma_v1,theta2,sigma_v2,num,den";
     "((1, 0, 1),),(-1, 0),0,1,1,1,0,0,1,2"].
Proof. vm_compute. reflexivity. Qed.
Definition tiny : Poly svkey := mkPoly [(([-1; 0; 1; 0; 1; 0], ([], [], [], [])), [2; 0; 0], 1 # 2); (([1; 0; 0; 0; 1; 0], ([2], [1], [], [])), [0; 0; 2], -3 # 4)]%Z kf_sv13.
Lemma C53_tiny : writable tiny.
Proof.
  unfold writable, tiny. cbn [keyfor items]. split; [reflexivity|]. split; [unfold uniq; cbn; repeat constructor; cbn; intuition discriminate|]. split; [|split; [discriminate|]].
  - intros k [<-|[<-|[]]]; (split; [reflexivity|]; split; [intros [|[|[|[|[|[|[|i]]]]]]] Hi; cbn; lia|]); repeat split; repeat constructor; lia.
  - intros k v [E|[E|[]]] j Hj; injection E as <- <-; cbn in Hj; destruct j as [|[|j]]; try lia; first [solve [eexists; eexists; split; [left; reflexivity|reflexivity]]|solve [eexists; eexists; split; [right; left; reflexivity|reflexivity]]].
Qed.
Example C53_subpolys_example : writable tiny /\ write_to_subpolys tiny 2 = Ok
  [("svvj-cond-cmoment-2-formula-0.txt",
    "('e^{-kt}', 't', 'k^{-}', 'v0-theta', 'theta', 'sigma', 'sigma/2k', 'rho-sigma/2k', 'sqrt(1-rho^2)'): value(in fraction)" ++ nl ++ "(1, 0, 1, 0, 1, 0, 2, 0, 0): (1,2)" ++ nl);
   ("svvj-cond-cmoment-2-formula-1.txt",
    "('e^{-kt}', 't', 'k^{-}', 'v0-theta', 'theta', 'sigma', 'l_{1:n}', 'o_{1:n}', 'p_{2:n}', 'q_{2:n}', 'sigma/2k', 'rho-sigma/2k', 'sqrt(1-rho^2)'): value(in fraction)" ++ nl
      ++ "(-1, 0, 0, 0, 1, 0, (2,), (1,), (), (), 0, 0, 2): (-3,4)" ++ nl)].
Proof. split; [exact C53_tiny|]. vm_compute. reflexivity. Qed.
