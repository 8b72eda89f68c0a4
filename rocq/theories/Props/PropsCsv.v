(** C39: Poly.write_to_csv, alone and after classify. *)
From Coq Require Import ZArith QArith List String Lia.
From Verif.Proof Require Import CsvProofs ClassifyProofs SvvjW.
From Verif.Props Require Import PropsSvvj.
Import Verif.Model.Svvj.
Import ListNotations.
Local Open Scope string_scope.

(** write_to_csv refuses a polynomial whose tuples 'l_{1:n}' differ in length *)
Theorem C39_csv_guard : forall (kf : list string) (its : list (list cell * Q)) (kv1 kv2 : list cell * Q) (l1 l2 : list Z),
  In "l_{1:n}" kf ->
  (forall kv, In kv its -> exists l, nth_error (fst kv) (index_l kf) = Some (CT l)) ->
  In kv1 its -> In kv2 its ->
  nth_error (fst kv1) (index_l kf) = Some (CT l1) -> nth_error (fst kv2) (index_l kf) = Some (CT l2) -> length l1 <> length l2 ->
  write_to_csv kf its = Err BareException.
Proof.
  intros kf its kv1 kv2 l1 l2 Hl H h1 h2 t1 t2 Hn.
  apply (csv_guard kf its kv1 kv2 l1 l2); try assumption.
  - unfold has. apply existsb_exists. exists "l_{1:n}". split; [exact Hl|reflexivity].
  - intros kv Hkv. destruct (H kv Hkv) as [l e]. exists l. unfold tupat. now rewrite e.
  - unfold tupat. now rewrite t1.
  - unfold tupat. now rewrite t2.
Qed.
(** an empty polynomial is refused too, with an error of the interpreter *)
Theorem C39_csv_empty : forall kf : list string, In "l_{1:n}" kf -> write_to_csv kf [] = Err UnboundLocalError.
Proof. intros kf H. apply csv_empty. unfold has. apply existsb_exists. now exists "l_{1:n}". Qed.
Theorem C39_index_l : forall kf : list string, In "l_{1:n}" kf ->
  nth_error kf (index_l kf) = Some "l_{1:n}" /\ forall j, (j < index_l kf)%nat -> nth_error kf j <> Some "l_{1:n}".
Proof.
  induction kf as [|x r IH]; intro H; [destruct H|]. cbn [index_l]. destruct (String.eqb_spec x "l_{1:n}") as [->|e].
  - split; [reflexivity|]. intros j Hj. lia.
  - destruct H as [H|H]; [contradiction|]. destruct (IH H) as [h1 h2]. split; [exact h1|].
    intros [|j] Hj; cbn [nth_error]; [congruence|]. apply h2. lia.
Qed.

(** keyfor with 'l_{1:n}', 'o_{1:n}', 'p_{2:n}', 'q_{2:n}' at the places i, i+1, i+2, i+3; all keys
    of level n: the columns of the rows are the flattened key, the numerator and the denominator, in the
    order of the dict; the polynomial can be read back *)
Theorem C39_csv_rows : forall (kf : list string) (its : list (list cell * Q)) (n m : nat),
  In "l_{1:n}" kf -> In "p_{2:n}" kf -> its <> [] -> (0 < index_l kf)%nat ->
  (forall kv, In kv its -> shape4 (index_l kf) n m (fst kv)) ->
  exists title rows, write_to_csv kf its = Ok (title :: rows) /\
    map columns rows = map (fun kv => map str_Z (flatten (fst kv)) ++ [str_Z (Qnum (snd kv)); str_Z (Zpos (Qden (snd kv)))])%list its /\
    forall its' title', its' <> [] -> (forall kv, In kv its' -> shape4 (index_l kf) n m (fst kv)) ->
      write_to_csv kf its' = Ok (title' :: rows) -> its' = its.
Proof.
  intros kf its n m H1 H2 Hn Hi H. assert (h1 : has "l_{1:n}" kf = true) by (unfold has; apply existsb_exists; now exists "l_{1:n}").
  assert (h2 : has "p_{2:n}" kf = true) by (unfold has; apply existsb_exists; now exists "p_{2:n}").
  exists (title4 kf (Z.of_nat n)), (map rowstr its). split; [now apply (csv_4 kf its n m)|].
  assert (C : forall kv, shape4 (index_l kf) n m (fst kv) -> columns (rowstr kv) = row_cols kv).
  { intros kv (pre & l & o & p & q & post & E & L & _). apply rowstr_cols. rewrite E. unfold ckey4.
    rewrite flatten_app, flatten_CI. destruct pre; [cbn in L; lia|discriminate]. }
  split; [rewrite map_map; apply map_ext_in; intros kv Hkv; exact (C kv (H kv Hkv))|].
  intros its' title' Hn' H' E. rewrite (csv_4 kf its' n m h1 h2 Hn' H') in E. injection E as _ E.
  apply (f_equal (map columns)) in E. rewrite !map_map in E. clear Hn Hn'. revert its' H' E. induction its as [|a its IH]; intros [|b its'] H' E; try discriminate; [reflexivity|].
  cbn [map] in E. injection E as E1 E2. rewrite (C b (H' b ltac:(now left))), (C a (H a ltac:(now left))) in E1.
  apply (row_cols_inj _ _ _ _ _ (H' b ltac:(now left)) (H a ltac:(now left))) in E1. subst b. f_equal.
  apply IH; [intros; apply H; now right|intros; apply H'; now right|exact E2].
Qed.

(** the header has one name for each column when n >= 1 and there are names on both sides *)
Theorem C39_csv_columns : forall (kf : list string) (its : list (list cell * Q)) (n m : nat),
  In "l_{1:n}" kf -> In "p_{2:n}" kf -> its <> [] -> Forall (fun s => no_comma s = true) kf ->
  (0 < index_l kf)%nat -> (1 <= n)%nat -> (1 <= m)%nat -> length kf = (index_l kf + 4 + m)%nat ->
  (forall kv, In kv its -> shape4 (index_l kf) n m (fst kv)) ->
  exists title rows, write_to_csv kf its = Ok (title :: rows) /\
    columns title = (firstn (index_l kf) kf ++ map (fun j => ("l" ++ str_Z j)%string) (range 1 (Z.of_nat n + 1)) ++ map (fun j => ("o" ++ str_Z j)%string) (range 1 (Z.of_nat n + 1))
       ++ map (fun j => ("p" ++ str_Z j)%string) (range 2 (Z.of_nat n + 1)) ++ map (fun j => ("q" ++ str_Z j)%string) (range 2 (Z.of_nat n + 1)) ++ skipn (index_l kf + 4) kf ++ ["num"; "den"])%list /\
    forall r, In r rows -> length (columns r) = length (columns title).
Proof.
  intros kf its n m H1 H2 Hn Hk Hi h3 h4 Hlen H. assert (h1 : has "l_{1:n}" kf = true) by (unfold has; apply existsb_exists; now exists "l_{1:n}").
  assert (h2 : has "p_{2:n}" kf = true) by (unfold has; apply existsb_exists; now exists "p_{2:n}").
  exists (title4 kf (Z.of_nat n)), (map rowstr its). split; [now apply (csv_4 kf its n m)|].
  assert (T : columns (title4 kf (Z.of_nat n)) = (firstn (index_l kf) kf ++ subnames "l" 1 (Z.of_nat n) ++ subnames "o" 1 (Z.of_nat n)
       ++ subnames "p" 2 (Z.of_nat n) ++ subnames "q" 2 (Z.of_nat n) ++ skipn (index_l kf + 4) kf ++ ["num"; "den"])%list).
  { rewrite (title4_cols kf _ Hk).
    assert (K : forall l : list string, (0 < length l)%nat -> cols l = l) by (intros [|? ?] ?; [cbn in *; lia|reflexivity]).
    rewrite !K; rewrite ?app_length, ?len_sub, ?firstn_length, ?skipn_length; try lia. rewrite <- !app_assoc. reflexivity. }
  split; [exact T|]. intros r Hr. apply in_map_iff in Hr. destruct Hr as (kv & <- & Hkv).
  destruct (H kv Hkv) as (pre & l & o & p & q & post & E & L1 & L2 & L3 & L4 & L5 & L6).
  rewrite rowstr_cols.
  2: { rewrite E. unfold ckey4. rewrite flatten_app, flatten_CI. destruct pre; [cbn in L1; lia|discriminate]. }
  rewrite T. unfold row_cols. rewrite E. unfold ckey4. rewrite !flatten_app, flatten_CI. cbn [flatten flat_map]. fold (flatten (map CI post)). rewrite flatten_CI.
  rewrite ?app_length, ?map_length, ?len_sub, ?firstn_length, ?skipn_length, ?app_length. cbn [length]. rewrite ?app_length. cbn [length]. lia.
Qed.
(** otherwise the header has one empty name too many: at level 0 ... *)
Theorem C39_csv_header_level_0_refuted : exists its title rows, its <> [] /\
  (forall kv, In kv its -> shape4 6 0 3 (fst kv)) /\ write_to_csv kf_sv13 its = Ok (title :: rows) /\
  exists r, In r rows /\ (length (columns r) < length (columns title))%nat.
Proof.
  exists [(ckey4 [0;0;0;0;1;0]%Z [] [] [] [] [2;0;0]%Z, 1 # 2)]. eexists. eexists. split; [discriminate|]. split.
  - intros kv [<-|[]]. exists [0;0;0;0;1;0]%Z, [], [], [], [], [2;0;0]%Z. repeat split; reflexivity.
  - split; [vm_compute; reflexivity|]. eexists. split; [left; reflexivity|]. vm_compute. lia.
Qed.
(** ... and when no name follows, as for the polynomials of moment_IEII in ito_cond_mom.py *)
Theorem C39_csv_header_last_refuted : exists its title rows, its <> [] /\
  (forall kv, In kv its -> shape4 6 1 0 (fst kv)) /\ write_to_csv kf_jIEII its = Ok (title :: rows) /\
  exists r, In r rows /\ (length (columns r) < length (columns title))%nat.
Proof.
  exists [(ckey4 [0;0;0;0;1;0]%Z [1]%Z [0]%Z [] [] [], 1 # 2)]. eexists. eexists. split; [discriminate|]. split.
  - intros kv [<-|[]]. exists [0;0;0;0;1;0]%Z, [1]%Z, [0]%Z, [], [], []. repeat split; reflexivity.
  - split; [vm_compute; reflexivity|]. eexists. split; [left; reflexivity|]. vm_compute. lia.
Qed.

(** keyfor with 'l_{1:n}', 'o_{2:n}' only (mdl_srjd) *)
Theorem C39_csv_srjd : forall (kf : list string) (its : list (list cell * Q)) (n m : nat),
  In "l_{1:n}" kf -> ~ In "p_{2:n}" kf -> its <> [] -> Forall (fun s => no_comma s = true) kf ->
  (0 < index_l kf)%nat -> (1 <= n)%nat -> (1 <= m)%nat -> length kf = (index_l kf + 2 + m)%nat ->
  (forall kv, In kv its -> shape2 (index_l kf) n m (fst kv)) ->
  exists title rows, write_to_csv kf its = Ok (title :: rows) /\
    columns title = (firstn (index_l kf) kf ++ map (fun j => ("l" ++ str_Z j)%string) (range 1 (Z.of_nat n + 1)) ++ map (fun j => ("o" ++ str_Z j)%string) (range 2 (Z.of_nat n + 1))
       ++ skipn (index_l kf + 2) kf ++ ["num"; "den"])%list /\
    map columns rows = map (fun kv => map str_Z (flatten (fst kv)) ++ [str_Z (Qnum (snd kv)); str_Z (Zpos (Qden (snd kv)))])%list its /\
    forall r, In r rows -> length (columns r) = length (columns title).
Proof.
  intros kf its n m H1 H2 Hn Hk Hi h3 h4 Hlen H. assert (h1 : has "l_{1:n}" kf = true) by (unfold has; apply existsb_exists; now exists "l_{1:n}").
  assert (h2 : has "p_{2:n}" kf = false).
  { unfold has. destruct (existsb (String.eqb "p_{2:n}") kf) eqn:Ex; [|reflexivity]. apply existsb_exists in Ex.
    destruct Ex as (x & Hx & e). apply String.eqb_eq in e. subst x. contradiction. }
  exists (title2 kf (Z.of_nat n)), (map rowstr its). split; [now apply (csv_2 kf its n m)|].
  assert (T : columns (title2 kf (Z.of_nat n)) = (firstn (index_l kf) kf ++ subnames "l" 1 (Z.of_nat n) ++ subnames "o" 2 (Z.of_nat n)
       ++ skipn (index_l kf + 2) kf ++ ["num"; "den"])%list).
  { rewrite (title2_cols kf _ Hk).
    assert (K : forall l : list string, (0 < length l)%nat -> cols l = l) by (intros [|? ?] ?; [cbn in *; lia|reflexivity]).
    rewrite !K; rewrite ?app_length, ?len_sub, ?firstn_length, ?skipn_length; try lia. rewrite <- !app_assoc. reflexivity. }
  split; [exact T|].
  assert (C : forall kv, In kv its -> columns (rowstr kv) = row_cols kv).
  { intros kv Hkv. destruct (H kv Hkv) as (pre & l & o & post & E & L1 & L2 & L3 & L4). apply rowstr_cols. rewrite E. unfold ckey2.
    rewrite flatten_app, flatten_CI. destruct pre; [cbn in L1; lia|discriminate]. }
  split; [rewrite map_map; apply map_ext_in; exact C|].
  intros r Hr. apply in_map_iff in Hr. destruct Hr as (kv & <- & Hkv). rewrite (C kv Hkv), T.
  destruct (H kv Hkv) as (pre & l & o & post & E & L1 & L2 & L3 & L4).
  unfold row_cols. rewrite E. unfold ckey2. rewrite !flatten_app, flatten_CI. cbn [flatten flat_map]. fold (flatten (map CI post)). rewrite flatten_CI.
  rewrite ?app_length, ?map_length, ?len_sub, ?firstn_length, ?skipn_length, ?app_length. cbn [length]. rewrite ?app_length. cbn [length]. lia.
Qed.

(** keyfor without tuples *)
Theorem C39_csv_plain : forall (kf : list string) (its : list (list cell * Q)),
  ~ In "l_{1:n}" kf -> kf <> [] -> Forall (fun s => no_comma s = true) kf ->
  (forall kv, In kv its -> exists z, fst kv = map CI z /\ length z = length kf) ->
  exists title rows, write_to_csv kf its = Ok (title :: rows) /\
    columns title = (kf ++ ["num"; "den"])%list /\
    map columns rows = map (fun kv => map str_Z (flatten (fst kv)) ++ [str_Z (Qnum (snd kv)); str_Z (Zpos (Qden (snd kv)))])%list its /\
    forall r, In r rows -> length (columns r) = length (columns title).
Proof.
  intros kf its H1 Hn Hk H.
  assert (h1 : has "l_{1:n}" kf = false).
  { unfold has. destruct (existsb (String.eqb "l_{1:n}") kf) eqn:Ex; [|reflexivity]. apply existsb_exists in Ex.
    destruct Ex as (x & Hx & e). apply String.eqb_eq in e. subst x. contradiction. }
  exists (join kf ++ ",num,den"), (map rowstr its).
  split; [apply csv_0; [exact h1|intros kv Hkv; destruct (H kv Hkv) as (z & e & _); now exists z]|].
  assert (T : columns (join kf ++ ",num,den") = (kf ++ ["num"; "den"])%list) by (rewrite tail_cols by exact Hk; destruct kf; [contradiction|reflexivity]).
  assert (C : forall kv, In kv its -> columns (rowstr kv) = row_cols kv).
  { intros kv Hkv. destruct (H kv Hkv) as (z & E & L). apply rowstr_cols. rewrite E, flatten_CI. destruct z; [destruct kf; [contradiction|discriminate]|discriminate]. }
  split; [exact T|]. split; [rewrite map_map; apply map_ext_in; exact C|].
  intros r Hr. apply in_map_iff in Hr. destruct Hr as (kv & <- & Hkv). rewrite (C kv Hkv), T. destruct (H kv Hkv) as (z & E & L).
  unfold row_cols. rewrite E, flatten_CI, !app_length, map_length, L. reflexivity.
Qed.

(** a key of a sub-polynomial of classify as a tuple *)
Definition cells_of (k : subkey) : list cell :=
  match k with
  | inl z => map CI z
  | inr (pre, (l, o, p, q), post) => ckey4 pre l o p q post
  end.
(** Every sub-polynomial of classify can be written, and header and rows have the same columns. *)
Theorem C39_classify_csv : forall poly : Poly svkey, keyfor poly = kf_sv13 -> uniq (items poly) ->
  (forall k, In k (keys (items poly)) -> svok 6 3 k) -> items poly <> [] ->
  (forall k v, In (k, v) (items poly) -> forall j, (j <= level k)%nat -> exists k' v', In (k', v') (items poly) /\ level k' = j) ->
  exists subs, classify poly = Ok subs /\ forall q, In q subs -> exists title rows,
    write_to_csv (keyfor q) (map (fun kv => (cells_of (fst kv), snd kv)) (items q)) = Ok (title :: rows) /\
    length rows = length (items q) /\ forall r, In r rows -> length (columns r) = length (columns title).
Proof.
  intros poly K U A N G.
  assert (S : forall k v, In (k, v) (items poly) -> length (fst (fst k)) = 6%nat /\ jshape (snd (fst k))).
  { intros k v Hin. destruct (A k ltac:(apply in_map_iff; now exists (k, v))) as (h1 & _ & h2 & _). now split. }
  destruct (C39_classify poly U S N G) as (subs & E & _ & I & _). exists subs. split; [exact E|].
  intros q Hq. apply In_nth_error in Hq. destruct Hq as [i Hi]. destruct (I i q Hi) as (Kq & Iq & Nq).
  destruct (Nat.eqb_spec i 0) as [->|Hn0].
  - rewrite Kq, K, Iq. cbn [Nat.eqb].
    destruct (C39_csv_plain (firstn 6 kf_sv13 ++ skipn 10 kf_sv13)%list (map (fun kv => (cells_of (fst kv), snd kv))
      (map (fun kv : svkey * Q => (inl (fst (fst (fst kv)) ++ snd (fst kv))%list : subkey, snd kv)) (filter (fun kv => (level (fst kv) =? 0)%nat) (items poly))))) as (t & rs & h1 & h2 & h3 & h4).
    + cbn. intros h. repeat destruct h as [h|h]; try discriminate. exact h.
    + discriminate.
    + repeat constructor.
    + intros kv Hkv. rewrite map_map in Hkv. apply in_map_iff in Hkv. destruct Hkv as ([k v] & <- & Hf). cbn [fst snd cells_of].
      eexists. split; [reflexivity|]. apply filter_In in Hf. destruct Hf as [Hf _].
      destruct (A k ltac:(apply in_map_iff; now exists (k, v))) as (l1 & _ & _ & l2 & _). rewrite app_length, l1, l2. reflexivity.
    + exists t, rs. split; [exact h1|]. split; [|exact h4]. apply (f_equal (@length _)) in h3. rewrite !map_length in *. exact h3.
  - rewrite Kq, K. 
    destruct (C39_csv_columns kf_sv13 (map (fun kv => (cells_of (fst kv), snd kv)) (items q)) i 3) as (t & rs & h1 & h2 & h3).
    + cbn. tauto.
    + cbn. tauto.
    + intro h. apply map_eq_nil in h. contradiction.
    + repeat constructor.
    + cbn. lia.
    + lia.
    + lia.
    + reflexivity.
    + intros kv Hkv. rewrite Iq, map_map in Hkv. apply in_map_iff in Hkv. destruct Hkv as ([k v] & <- & Hf). cbn [fst snd].
      apply filter_In in Hf. destruct Hf as [Hf Hl]. cbn [fst] in Hl. apply Nat.eqb_eq in Hl.
      destruct (A k ltac:(apply in_map_iff; now exists (k, v))) as (l1 & _ & l2 & l3 & _).
      destruct k as [[pre [[[l o] p] q']] post]. cbn [fst snd] in *. unfold level in Hl. cbn [fst snd] in Hl. destruct l2 as (m1 & m2 & m3).
      exists pre, l, o, p, q', post. rewrite <- Hl. repeat split; assumption.
    + exists t, rs. split; [exact h1|]. split; [|exact h3].
      destruct (C39_csv_rows kf_sv13 (map (fun kv => (cells_of (fst kv), snd kv)) (items q)) i 3) as (t' & rs' & h1' & h2' & _).
      * cbn. tauto.
      * cbn. tauto.
      * intro h. apply map_eq_nil in h. contradiction.
      * cbn. lia.
      * intros kv Hkv. rewrite Iq, map_map in Hkv. apply in_map_iff in Hkv. destruct Hkv as ([k v] & <- & Hf). cbn [fst snd].
        apply filter_In in Hf. destruct Hf as [Hf Hl]. cbn [fst] in Hl. apply Nat.eqb_eq in Hl.
        destruct (A k ltac:(apply in_map_iff; now exists (k, v))) as (l1 & _ & l2 & l3 & _).
        destruct k as [[pre [[[l o] p] q']] post]. cbn [fst snd] in *. unfold level in Hl. cbn [fst snd] in Hl. destruct l2 as (m1 & m2 & m3).
        exists pre, l, o, p, q', post. rewrite <- Hl. repeat split; assumption.
      * rewrite h1 in h1'. injection h1' as -> ->. apply (f_equal (@length _)) in h2'. rewrite !map_length in h2'. exact h2'.
Qed.
Example C39_csv_example : write_to_csv kf_sv13
  [(ckey4 [-1;0;1;0;0;0]%Z [1;2]%Z [0;0]%Z [3]%Z [4]%Z [2;0;0]%Z, -3 # 2); (ckey4 [0;12;1;0;0;0]%Z [1;0]%Z [0;0]%Z [3]%Z [4]%Z [2;0;0]%Z, 5 # 1)]
  = Ok ["e^{kt},t,k^{-},v0-theta,theta,sigma,l1,l2,o1,o2,p2,q2,sigma/2k,rho-sigma/2k,sqrt(1-rho^2),num,den";
        "-1,0,1,0,0,0,1,2,0,0,3,4,2,0,0,-3,2"; "0,12,1,0,0,0,1,0,0,0,3,4,2,0,0,5,1"].
Proof. vm_compute. reflexivity. Qed.
Example C39_csv_guard_example : write_to_csv kf_sv13
  [(ckey4 [-1;0;1;0;0;0]%Z [1;2]%Z [0;0]%Z [3]%Z [4]%Z [2;0;0]%Z, -3 # 2); (ckey4 [0;12;1;0;0;0]%Z [1]%Z [0]%Z [] [] [2;0;0]%Z, 5 # 1)] = Err BareException.
Proof. reflexivity. Qed.
