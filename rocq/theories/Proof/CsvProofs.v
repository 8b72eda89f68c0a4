(** C39: write_to_csv. *)
From Coq Require Import ZArith QArith List String Ascii Lia Decimal DecimalString DecimalFacts DecimalZ.
From Verif.Spec Require Export Csv.
From Verif.Model Require Export Csv.
From Verif.Proof Require Export StackProofs.
Import ListNotations.
Local Open Scope string_scope.

Lemma columns_nc a : no_comma a = true -> columns a = [a].
Proof.
  induction a as [|c a IH]; [reflexivity|]. cbn [no_comma columns]. intro H. apply andb_prop in H. destruct H as [Hc Ha].
  apply Bool.negb_true_iff in Hc. rewrite Hc, (IH Ha). reflexivity.
Qed.
Lemma columns_app a b : no_comma a = true -> columns (a ++ "," ++ b) = a :: columns b.
Proof.
  induction a as [|c a IH]; [reflexivity|]. cbn [no_comma columns append]. intro H. apply andb_prop in H. destruct H as [Hc Ha].
  apply Bool.negb_true_iff in Hc. rewrite Hc. cbn [append] in IH. rewrite (IH Ha). reflexivity.
Qed.
Lemma str_app_assoc (a b c : string) : (a ++ b) ++ c = a ++ b ++ c.
Proof. induction a as [|x a IH]; [reflexivity|]. cbn [append]. now rewrite IH. Qed.

(** ','.join of no names is one empty column *)
Definition cols (l : list string) : list string := match l with [] => [""] | _ => l end.
Definition nc (l : list string) : Prop := Forall (fun s => no_comma s = true) l.
Lemma columns_join_app l b : nc l -> columns (join l ++ "," ++ b) = (cols l ++ columns b)%list.
Proof.
  unfold join. induction 1 as [|x l Hx Hl IH]; [reflexivity|]. destruct l as [|y l].
  - cbn [String.concat cols List.app]. now apply columns_app.
  - change (String.concat "," (x :: y :: l)) with (x ++ "," ++ String.concat "," (y :: l)).
    rewrite !str_app_assoc. rewrite columns_app by exact Hx. rewrite IH. reflexivity.
Qed.

Lemma nc_uint u : no_comma (NilEmpty.string_of_uint u) = true.
Proof. induction u; cbn; auto. Qed.
Lemma nc_uint0 u : no_comma (NilZero.string_of_uint u) = true.
Proof. unfold NilZero.string_of_uint. destruct u; try apply nc_uint. reflexivity. Qed.
Lemma nc_Z z : no_comma (str_Z z) = true.
Proof. unfold str_Z, NilZero.string_of_int. destruct (Z.to_int z) as [u|u]; [apply nc_uint0|]. cbn. apply nc_uint0. Qed.
Lemma nc_Zs l : nc (map str_Z l).
Proof. apply Forall_forall. intros s Hs. apply in_map_iff in Hs. destruct Hs as (z & <- & _). apply nc_Z. Qed.
Lemma to_int_norm z : norm (Z.to_int z) = Z.to_int z.
Proof. rewrite <- DecimalZ.to_of, DecimalZ.of_to. reflexivity. Qed.
Lemma str_Z_inj a b : str_Z a = str_Z b -> a = b.
Proof.
  unfold str_Z. intro H. apply (f_equal NilZero.int_of_string) in H.
  assert (N : forall z, Z.to_int z <> Pos Nil /\ Z.to_int z <> Neg Nil).
  { intro z. pose proof (to_int_norm z) as e. split; intro E; rewrite E in e; discriminate e. }
  rewrite !NilZero.isi in H by apply N. injection H as H. now apply DecimalZ.to_int_inj.
Qed.
Lemma str_Zs_inj a : forall b, map str_Z a = map str_Z b -> a = b.
Proof.
  induction a as [|x a IH]; intros [|y b] H; try discriminate; [reflexivity|]. injection H as H1 H2.
  f_equal; [now apply str_Z_inj|now apply IH].
Qed.

(** ** keys *)
Definition flatten (k : list cell) : list Z := flat_map (fun c => match c with CI z => [z] | CT l => l end) k.
Definition ckey2 (pre l o post : list Z) : list cell := (map CI pre ++ [CT l; CT o] ++ map CI post)%list.
Definition ckey4 (pre l o p q post : list Z) : list cell := (map CI pre ++ [CT l; CT o; CT p; CT q] ++ map CI post)%list.
(** i ints, tuples of lengths n, n-1 (n, n, n-1, n-1), m ints *)
Definition shape2 (i n m : nat) (k : list cell) : Prop :=
  exists pre l o post, k = ckey2 pre l o post /\ length pre = i /\ length l = n /\ length o = pred n /\ length post = m.
Definition shape4 (i n m : nat) (k : list cell) : Prop :=
  exists pre l o p q post, k = ckey4 pre l o p q post /\ length pre = i /\ length l = n /\ length o = n /\
    length p = pred n /\ length q = pred n /\ length post = m.

Lemma flatten_app a b : flatten (a ++ b) = (flatten a ++ flatten b)%list.
Proof. apply flat_map_app. Qed.
Lemma flatten_CI l : flatten (map CI l) = l.
Proof. induction l as [|x l IH]; [reflexivity|]. cbn. now rewrite <- IH at 2. Qed.
Lemma str_CI l : map str_cell (map CI l) = map str_Z l.
Proof. rewrite map_map. reflexivity. Qed.
Lemma firstn_pre {A} (a b : list A) : firstn (length a) (a ++ b) = a.
Proof. rewrite firstn_app, Nat.sub_diag, firstn_all. cbn. apply app_nil_r. Qed.
Lemma skipn_pre {A} (a b : list A) n : skipn (length a + n) (a ++ b) = skipn n b.
Proof. rewrite skipn_app. rewrite skipn_all2 by lia. cbn. f_equal. lia. Qed.
Lemma nth_pre {A} (a b : list A) n : nth_error (a ++ b) (length a + n) = nth_error b n.
Proof. rewrite nth_error_app2 by lia. f_equal. lia. Qed.
Lemma tup_pre pre b n : tupat (map CI pre ++ b) (length pre + n) = match nth_error b n with Some (CT l) => Ok l | Some (CI _) => Err TypeError | None => Err IndexError end.
Proof. unfold tupat. rewrite <- (map_length CI pre), nth_pre. reflexivity. Qed.

Lemma foldM_rows {A} (f : A -> res string) (g : A -> string) (l : list A) : (forall x, In x l -> f x = Ok (g x)) ->
  forall acc, foldM (fun rows x => let! r := f x in Ok (rows ++ [r])%list) l acc = Ok (acc ++ map g l)%list.
Proof.
  induction l as [|x l IH]; intros H acc; [cbn; now rewrite app_nil_r|]. cbn [foldM map]. rewrite H by now left. cbn [bind].
  rewrite IH by (intros; apply H; now right). now rewrite <- app_assoc.
Qed.
Lemma foldM_ext' {S A} (f g : S -> A -> res S) l : (forall s x, f s x = g s x) -> forall s, foldM f l s = foldM g l s.
Proof. intro H. induction l as [|x l IH]; intro s; [reflexivity|]. cbn [foldM]. rewrite H. destruct (g s x); [apply IH|reflexivity]. Qed.

(** ** the guard *)
Definition guard (i : nat) (k0 : list cell) (its : list (list cell * Q)) : res nat :=
  foldM (fun n kv => let! l := tupat (fst kv) i in let! l0 := tupat k0 i in
    if (length l =? length l0)%nat then Ok (length l0) else Err BareException) its O.
Definition gstep (i : nat) (k0 : list cell) (n : nat) (kv : list cell * Q) : res nat :=
  let! l := tupat (fst kv) i in let! l0 := tupat k0 i in
  if (length l =? length l0)%nat then Ok (length l0) else Err BareException.
Lemma guard_gen i k0 (its : list (list cell * Q)) n0 : (exists l0, tupat k0 i = Ok l0 /\ length l0 = n0) ->
  (forall kv, In kv its -> exists l, tupat (fst kv) i = Ok l) ->
  forall a, (foldM (gstep i k0) its a = Err BareException /\
     exists kv l, In kv its /\ tupat (fst kv) i = Ok l /\ length l <> n0) \/
    (foldM (gstep i k0) its a = Ok (match its with [] => a | _ => n0 end) /\
     forall kv l, In kv its -> tupat (fst kv) i = Ok l -> length l = n0).
Proof.
  intros (l0 & E0 & L0) H. induction its as [|kv its IH]; intro a.
  - right. split; [reflexivity|]. intros ? ? [].
  - cbn [foldM]. unfold gstep at 1 3. destruct (H kv ltac:(now left)) as [l El]. rewrite El, E0. cbn [bind]. rewrite L0.
    destruct (Nat.eqb_spec (length l) n0) as [e|e]; cbn [bind].
    + destruct (IH ltac:(intros; apply H; now right) n0) as [(h1 & kv' & l' & h2 & h3 & h4)|(h1 & h2)].
      * left. split; [exact h1|]. exists kv', l'. split; [now right|]. now split.
      * right. split; [rewrite h1; destruct its; reflexivity|].
        intros kv' l' [<-|Hin] Ht; [congruence|now apply (h2 kv')].
    + left. split; [reflexivity|]. exists kv, l. split; [now left|]. now split.
Qed.

Lemma csv_guard kf its kv1 kv2 l1 l2 : has "l_{1:n}" kf = true ->
  (forall kv, In kv its -> exists l, tupat (fst kv) (index_l kf) = Ok l) ->
  In kv1 its -> In kv2 its -> tupat (fst kv1) (index_l kf) = Ok l1 -> tupat (fst kv2) (index_l kf) = Ok l2 -> length l1 <> length l2 ->
  write_to_csv kf its = Err BareException.
Proof.
  intros Hl H h1 h2 t1 t2 Hne. unfold write_to_csv. rewrite Hl. cbn [negb]. destruct its as [|kv0 r] eqn:E; [destruct h1|].
  rewrite <- E in *. destruct (H kv0 ltac:(rewrite E; now left)) as [l0 t0].
  destruct (guard_gen (index_l kf) (fst kv0) its (length l0) ltac:(now exists l0) H O) as [(g & _)|(_ & g)].
  - unfold gstep in g. rewrite g. reflexivity.
  - pose proof (g kv1 l1 h1 t1). pose proof (g kv2 l2 h2 t2). congruence.
Qed.
Lemma csv_empty kf : has "l_{1:n}" kf = true -> write_to_csv kf [] = Err UnboundLocalError.
Proof. intro H. unfold write_to_csv. now rewrite H. Qed.

(** ** the lines *)
Definition row_cols (kv : list cell * Q) : list string :=
  (map str_Z (flatten (fst kv)) ++ [str_Z (Qnum (snd kv)); str_Z (Zpos (Qden (snd kv)))])%list.
Lemma numden_cols l v : l <> [] -> nc l -> columns (tail_numden (join l) v) = (l ++ [str_Z (Qnum v); str_Z (Zpos (Qden v))])%list.
Proof.
  intros Hn Hl. unfold tail_numden. rewrite columns_join_app by exact Hl. destruct l; [contradiction|]. cbn [cols]. f_equal.
  rewrite columns_app by apply nc_Z. now rewrite columns_nc by apply nc_Z.
Qed.

Lemma tail_cols l : nc l -> columns (join l ++ ",num,den") = (cols l ++ ["num"; "den"])%list.
Proof. intro H. exact (columns_join_app l "num,den" H). Qed.

Lemma nc_sub c a n : no_comma c = true -> nc (subnames c a n).
Proof.
  intro Hc. apply Forall_forall. intros s Hs. unfold subnames in Hs. apply in_map_iff in Hs. destruct Hs as (j & <- & _).
  induction c as [|x c IH]; [apply nc_Z|]. cbn in *. apply andb_prop in Hc. destruct Hc as [h1 h2]. rewrite h1. now apply IH.
Qed.
Lemma len_sub c a n : length (subnames c a n) = Z.to_nat (n + 1 - a).
Proof. unfold subnames. rewrite map_length. unfold range. now rewrite map_length, seq_length. Qed.

Definition title2 (kf : list string) (n : Z) : string :=
  join (firstn (index_l kf) kf) ++ "," ++ join (subnames "l" 1 n ++ subnames "o" 2 n) ++ "," ++ join (skipn (index_l kf + 2) kf) ++ ",num,den".
Definition title4 (kf : list string) (n : Z) : string :=
  join (firstn (index_l kf) kf) ++ "," ++ join (subnames "l" 1 n ++ subnames "o" 1 n ++ subnames "p" 2 n ++ subnames "q" 2 n) ++ ","
  ++ join (skipn (index_l kf + 4) kf) ++ ",num,den".
Lemma nc_app a b : nc a -> nc b -> nc (a ++ b)%list.
Proof. intros. apply Forall_app. now split. Qed.
Lemma nc_part n kf : nc kf -> nc (firstn n kf) /\ nc (skipn n kf).
Proof. intro H. rewrite <- (firstn_skipn n kf) in H. now apply Forall_app in H. Qed.
Lemma title2_cols kf n : nc kf -> columns (title2 kf n) =
  (cols (firstn (index_l kf) kf) ++ cols (subnames "l" 1 n ++ subnames "o" 2 n) ++ cols (skipn (index_l kf + 2) kf) ++ ["num"; "den"])%list.
Proof.
  intro H. unfold title2. rewrite columns_join_app by apply (nc_part _ _ H). f_equal.
  rewrite columns_join_app by (apply nc_app; now apply nc_sub). f_equal. apply tail_cols, (nc_part _ _ H).
Qed.
Lemma title4_cols kf n : nc kf -> columns (title4 kf n) =
  (cols (firstn (index_l kf) kf) ++ cols (subnames "l" 1 n ++ subnames "o" 1 n ++ subnames "p" 2 n ++ subnames "q" 2 n)
   ++ cols (skipn (index_l kf + 4) kf) ++ ["num"; "den"])%list.
Proof.
  intro H. unfold title4. rewrite columns_join_app by apply (nc_part _ _ H). f_equal.
  rewrite columns_join_app by (repeat apply nc_app; now apply nc_sub). f_equal. apply tail_cols, (nc_part _ _ H).
Qed.

Lemma shape4_tup i n m k : shape4 i n m k -> exists l, tupat k i = Ok l /\ length l = n.
Proof.
  intros (pre & l & o & p & q & post & -> & <- & h). exists l. split; [|apply h]. unfold ckey4.
  pose proof (tup_pre pre ([CT l; CT o; CT p; CT q] ++ map CI post)%list 0) as t. rewrite Nat.add_0_r in t. exact t.
Qed.
Lemma shape2_tup i n m k : shape2 i n m k -> exists l, tupat k i = Ok l /\ length l = n.
Proof.
  intros (pre & l & o & post & -> & <- & h). exists l. split; [|apply h]. unfold ckey2.
  pose proof (tup_pre pre ([CT l; CT o] ++ map CI post)%list 0) as t. rewrite Nat.add_0_r in t. exact t.
Qed.
Lemma firstn_map' {A B} (f : A -> B) l b : firstn (length l) (map f l ++ b) = map f l.
Proof. rewrite <- (map_length f l). apply firstn_pre. Qed.
Lemma skipn_map' {A B} (f : A -> B) l b n : skipn (length l + n) (map f l ++ b) = skipn n b.
Proof. rewrite <- (map_length f l). apply skipn_pre. Qed.

Definition rowstr (kv : list cell * Q) : string := tail_numden (join (map str_Z (flatten (fst kv)))) (snd kv).

Lemma guard_ok i n its : its <> [] -> (forall kv, In kv its -> exists l, tupat (fst kv) i = Ok l /\ length l = n) ->
  forall kv0, In kv0 its -> foldM (gstep i (fst kv0)) its O = Ok n.
Proof.
  intros Hn H kv0 H0.
  destruct (guard_gen i (fst kv0) its n (H kv0 H0) ltac:(intros kv Hkv; destruct (H kv Hkv) as (l & e & _); now exists l) O) as [(_ & kv & l & h1 & h2 & h3)|(g & _)].
  - destruct (H kv h1) as (l' & e & h). rewrite h2 in e. injection e as <-. contradiction.
  - rewrite g. destruct its; [contradiction|reflexivity].
Qed.

Lemma csv_4 kf its n m : has "l_{1:n}" kf = true -> has "p_{2:n}" kf = true -> its <> [] ->
  (forall kv, In kv its -> shape4 (index_l kf) n m (fst kv)) ->
  write_to_csv kf its = Ok (title4 kf (Z.of_nat n) :: map rowstr its).
Proof.
  intros H1 H2 Hn H. unfold write_to_csv. rewrite H1, H2. cbn [negb]. destruct its as [|kv0 r] eqn:E; [contradiction|]. rewrite <- E in *.
  pose proof (guard_ok (index_l kf) n its Hn ltac:(intros kv Hkv; exact (shape4_tup _ _ _ _ (H kv Hkv))) kv0 ltac:(rewrite E; now left)) as g.
  unfold gstep in g. rewrite g. cbn [bind].
  set (f := fun kv : list cell * Q => let k := fst kv in
     let! l := tupat k (index_l kf) in let! o := tupat k (index_l kf + 1) in let! p := tupat k (index_l kf + 2) in let! q := tupat k (index_l kf + 3) in
     Ok (tail_numden (join (map str_cell (firstn (index_l kf) k) ++ map str_Z l ++ map str_Z o ++ map str_Z p ++ map str_Z q
                                            ++ map str_cell (skipn (index_l kf + 4) k))) (snd kv))).
  rewrite (foldM_ext' _ (fun rows kv => let! r := f kv in Ok (rows ++ [r])%list)).
  2: { intros s kv. unfold f. cbv zeta. destruct (tupat (fst kv) (index_l kf)); [|reflexivity]. cbn [bind].
       destruct (tupat (fst kv) (index_l kf + 1)); [|reflexivity]. cbn [bind]. destruct (tupat (fst kv) (index_l kf + 2)); [|reflexivity]. cbn [bind].
       destruct (tupat (fst kv) (index_l kf + 3)); reflexivity. }
  rewrite (foldM_rows f rowstr); [reflexivity|]. intros kv Hkv. destruct (H kv Hkv) as (pre & l & o & p & q & post & Ek & Hi & _).
  unfold f. rewrite Ek, <- Hi. unfold ckey4. rewrite !tup_pre. cbn [nth_error List.app]. replace (length pre) with (length pre + 0)%nat at 1 by lia.
  rewrite tup_pre. cbn [nth_error bind]. do 2 f_equal. unfold rowstr. rewrite Ek. f_equal. f_equal. unfold ckey4.
  rewrite firstn_map', skipn_map'. cbn [skipn List.app]. rewrite !str_CI, !flatten_app, flatten_CI. cbn [flatten flat_map].
  fold (flatten (map CI post)). rewrite flatten_CI, !map_app. reflexivity.
Qed.
Lemma csv_2 kf its n m : has "l_{1:n}" kf = true -> has "p_{2:n}" kf = false -> its <> [] ->
  (forall kv, In kv its -> shape2 (index_l kf) n m (fst kv)) ->
  write_to_csv kf its = Ok (title2 kf (Z.of_nat n) :: map rowstr its).
Proof.
  intros H1 H2 Hn H. unfold write_to_csv. rewrite H1, H2. cbn [negb]. destruct its as [|kv0 r] eqn:E; [contradiction|]. rewrite <- E in *.
  pose proof (guard_ok (index_l kf) n its Hn ltac:(intros kv Hkv; exact (shape2_tup _ _ _ _ (H kv Hkv))) kv0 ltac:(rewrite E; now left)) as g.
  unfold gstep in g. rewrite g. cbn [bind].
  set (f := fun kv : list cell * Q => let k := fst kv in
     let! l := tupat k (index_l kf) in let! o := tupat k (index_l kf + 1) in
     Ok (tail_numden (join (map str_cell (firstn (index_l kf) k) ++ map str_Z l ++ map str_Z o
                                            ++ map str_cell (skipn (index_l kf + 2) k))) (snd kv))).
  rewrite (foldM_ext' _ (fun rows kv => let! r := f kv in Ok (rows ++ [r])%list)).
  2: { intros s kv. unfold f. cbv zeta. destruct (tupat (fst kv) (index_l kf)); [|reflexivity]. cbn [bind].
       destruct (tupat (fst kv) (index_l kf + 1)); reflexivity. }
  rewrite (foldM_rows f rowstr); [reflexivity|]. intros kv Hkv. destruct (H kv Hkv) as (pre & l & o & post & Ek & Hi & _).
  unfold f. rewrite Ek, <- Hi. unfold ckey2. rewrite !tup_pre. cbn [nth_error List.app]. replace (length pre) with (length pre + 0)%nat at 1 by lia.
  rewrite tup_pre. cbn [nth_error bind]. do 2 f_equal. unfold rowstr. rewrite Ek. f_equal. f_equal. unfold ckey2.
  rewrite firstn_map', skipn_map'. cbn [skipn List.app]. rewrite !str_CI, !flatten_app, flatten_CI. cbn [flatten flat_map].
  fold (flatten (map CI post)). rewrite flatten_CI, !map_app. reflexivity.
Qed.
Lemma csv_0 kf (its : list (list cell * Q)) : has "l_{1:n}" kf = false -> (forall kv, In kv its -> exists z, fst kv = map CI z) ->
  write_to_csv kf its = Ok ((join kf ++ ",num,den") :: map rowstr its).
Proof.
  intros H1 H. unfold write_to_csv. rewrite H1. cbn [negb]. do 2 f_equal. apply map_ext_in. intros kv Hkv.
  destruct (H kv Hkv) as [z Ez]. unfold rowstr. now rewrite Ez, str_CI, flatten_CI.
Qed.
Lemma rowstr_cols kv : flatten (fst kv) <> [] -> columns (rowstr kv) = row_cols kv.
Proof.
  intro H. unfold rowstr. apply numden_cols; [|apply nc_Zs]. destruct (flatten (fst kv)); [contradiction|discriminate].
Qed.

(** the key from the flat row *)
Lemma app_inj_l {A} (a1 a2 b1 b2 : list A) : length a1 = length a2 -> (a1 ++ b1)%list = (a2 ++ b2)%list -> a1 = a2 /\ b1 = b2.
Proof.
  revert a2. induction a1 as [|x a1 IH]; intros [|y a2] L E; try discriminate; [now split|].
  injection L as L. injection E as -> E. destruct (IH a2 L E) as [-> ->]. now split.
Qed.
Lemma flatten4_inj i n m k1 k2 : shape4 i n m k1 -> shape4 i n m k2 -> flatten k1 = flatten k2 -> k1 = k2.
Proof.
  intros (a1 & a2 & a3 & a4 & a5 & a6 & -> & L1 & L2 & L3 & L4 & L5 & L6) (b1 & b2 & b3 & b4 & b5 & b6 & -> & M1 & M2 & M3 & M4 & M5 & M6).
  unfold ckey4. rewrite !flatten_app, !flatten_CI. cbn [flatten flat_map]. rewrite !app_nil_r, <- !app_assoc. intro E.
  apply app_inj_l in E; [|congruence]. destruct E as [-> E]. apply app_inj_l in E; [|congruence]. destruct E as [-> E].
  apply app_inj_l in E; [|congruence]. destruct E as [-> E]. apply app_inj_l in E; [|congruence]. destruct E as [-> E].
  apply app_inj_l in E; [|congruence]. destruct E as [-> ->]. reflexivity.
Qed.
Lemma row_cols_inj i n m a b : shape4 i n m (fst a) -> shape4 i n m (fst b) -> row_cols a = row_cols b -> a = b.
Proof.
  intros Ha Hb. unfold row_cols. destruct a as [k1 [n1 d1]], b as [k2 [n2 d2]]. cbn [fst snd Qnum Qden] in *. intro E.
  assert (F : forall k, shape4 i n m k -> length (map str_Z (flatten k)) = (i + (n + n + pred n + pred n) + m)%nat).
  { intros k (a1 & a2 & a3 & a4 & a5 & a6 & -> & L1 & L2 & L3 & L4 & L5 & L6). unfold ckey4. rewrite map_length, !flatten_app, !flatten_CI.
    cbn [flatten flat_map]. rewrite !app_length. cbn [length]. lia. }
  apply app_inj_l in E; [|now rewrite !F]. destruct E as [E1 E2]. injection E2 as E2 E3. apply str_Z_inj in E2. apply str_Z_inj in E3.
  apply str_Zs_inj in E1. injection E3 as ->. subst n2. f_equal. now apply (flatten4_inj i n m).
Qed.
