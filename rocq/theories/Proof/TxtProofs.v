(** The texts of Model/Txt.v can be read back. *)
From Coq Require Import ZArith QArith List String Ascii Lia Decimal DecimalString.
From Verif.Model Require Export Txt.
From Verif.Proof Require Export CsvProofs.
Import ListNotations.
Local Open Scope string_scope.

(** ** splitting strings *)
Definition numc (c : ascii) : bool := let n := nat_of_ascii c in ((48 <=? n)%nat && (n <=? 57)%nat || (n =? 45)%nat)%bool.
Fixpoint allnum (s : string) : bool := match s with "" => true | String c r => numc c && allnum r end.
Definition stop (s : string) : Prop := match s with "" => True | String c _ => numc c = false end.

Lemma split_num a : forall a' s s', allnum a = true -> allnum a' = true -> stop s -> stop s' -> a ++ s = a' ++ s' -> a = a' /\ s = s'.
Proof.
  induction a as [|c a IH]; intros [|c' a'] s s' Ha Ha' Hs Hs' E; cbn [append] in E.
  - now split.
  - subst s. cbn in Hs, Ha'. apply andb_prop in Ha'. destruct Ha' as [h _]. congruence.
  - subst s'. cbn in Hs', Ha. apply andb_prop in Ha. destruct Ha as [h _]. congruence.
  - injection E as -> E. cbn in Ha, Ha'. apply andb_prop in Ha, Ha'.
    destruct (IH a' s s' (proj2 Ha) (proj2 Ha') Hs Hs' E) as [-> ->]. now split.
Qed.
Lemma num_uint u : allnum (NilEmpty.string_of_uint u) = true.
Proof. induction u; cbn; auto. Qed.
Lemma num_uint0 u : allnum (NilZero.string_of_uint u) = true /\ NilZero.string_of_uint u <> "".
Proof. unfold NilZero.string_of_uint. destruct u; (split; [try apply num_uint; reflexivity|discriminate]). Qed.
Lemma num_Z z : allnum (str_Z z) = true /\ exists c r, str_Z z = String c r /\ numc c = true.
Proof.
  assert (H : allnum (str_Z z) = true /\ str_Z z <> "").
  { unfold str_Z, NilZero.string_of_int. destruct (Z.to_int z) as [u|u]; [apply num_uint0|]. cbn. split; [apply num_uint0|discriminate]. }
  destruct H as [h1 h2]. split; [exact h1|]. destruct (str_Z z) as [|c r]; [contradiction|]. exists c, r. split; [reflexivity|].
  cbn in h1. now apply andb_prop in h1.
Qed.
Lemma str_Z_pre z z' s s' : stop s -> stop s' -> str_Z z ++ s = str_Z z' ++ s' -> z = z' /\ s = s'.
Proof.
  intros Hs Hs' E. apply split_num in E; try assumption; try apply num_Z. destruct E as [E ->]. split; [now apply str_Z_inj|reflexivity].
Qed.
Lemma app_cancel a b c : a ++ b = a ++ c -> b = c.
Proof. induction a as [|x a IH]; [auto|]. cbn [append]. intro H. injection H as H. now apply IH. Qed.

(** names without the quote *)
Fixpoint plain (s : string) : bool := match s with "" => true | String c r => negb (Ascii.eqb c "'") && plain r end.
Lemma split_quote a : forall a' s s', plain a = true -> plain a' = true -> a ++ "'" ++ s = a' ++ "'" ++ s' -> a = a' /\ s = s'.
Proof.
  induction a as [|c a IH]; intros [|c' a'] s s' Ha Ha' E; cbn [append] in E.
  - injection E as ->. now split.
  - injection E as <- E. cbn in Ha'. discriminate Ha'.
  - injection E as -> E. cbn in Ha. discriminate Ha.
  - injection E as -> E. cbn in Ha, Ha'. apply andb_prop in Ha, Ha'.
    destruct (IH a' s s' (proj2 Ha) (proj2 Ha') E) as [-> ->]. now split.
Qed.

(** ** tuples *)
Local Notation tup := str_tuple.
Definition opens (s : string) : Prop := match s with "" => False | String c _ => c <> ")"%char end.
Fixpoint tail (xs : list string) : string := match xs with [] => ")" | x :: r => ", " ++ x ++ tail r end.
Lemma concat_tail x xs : String.concat ", " (x :: xs) ++ ")" = x ++ tail xs.
Proof.
  revert x. induction xs as [|y r IH]; intro x; [reflexivity|].
  change (String.concat ", " (x :: y :: r)) with (x ++ ", " ++ String.concat ", " (y :: r)).
  rewrite !str_app_assoc. cbn [tail]. now rewrite IH.
Qed.
Lemma tup_cons2 x y r : tup (x :: y :: r) = "(" ++ x ++ tail (y :: r).
Proof. unfold str_tuple. now rewrite concat_tail. Qed.

Section Tup.
Context {A : Type} (f : A -> string) (P : A -> Prop).
Definition reads (x : A) : Prop := forall x' s s', P x' -> stop s -> stop s' -> f x ++ s = f x' ++ s' -> x = x' /\ s = s'.
Lemma stop_tail xs s : stop (tail xs ++ s).
Proof. destruct xs; reflexivity. Qed.
Lemma tail_inj l : forall l' s s', Forall reads l -> Forall P l' -> tail (map f l) ++ s = tail (map f l') ++ s' -> l = l' /\ s = s'.
Proof.
  induction l as [|x l IH]; intros [|x' l'] s s' Hl Hl' E; cbn [map tail] in E.
  - injection E as ->. now split.
  - discriminate E.
  - discriminate E.
  - inversion_clear Hl as [|? ? h1 h2]. inversion_clear Hl' as [|? ? h3 h4].
    rewrite !str_app_assoc in E. apply (app_cancel ", ") in E. rewrite ?str_app_assoc in E.
    apply h1 in E; try assumption; try apply stop_tail. destruct E as [-> E]. destruct (IH l' s s' h2 h4 E) as [-> ->]. now split.
Qed.
Lemma tup_inj l l' s s' : Forall (fun x => opens (f x)) l -> Forall (fun x => opens (f x)) l' ->
  Forall reads l -> Forall P l' -> tup (map f l) ++ s = tup (map f l') ++ s' -> l = l' /\ s = s'.
Proof.
  assert (O : forall x r s, opens x -> "()" ++ s = "(" ++ x ++ r -> False).
  { intros x r s0 Ho E. cbn [append] in E. injection E as E. destruct x as [|c x]; [destruct Ho|]. cbn in E, Ho. injection E as E _. congruence. }
  intros o o' Hl Hl' E. destruct l as [|x [|y l]], l' as [|x' [|y' l']]; cbn [map] in E; rewrite ?tup_cons2 in E;
    try (injection E as E; now split);
    repeat match goal with h : Forall _ (_ :: _) |- _ => inversion_clear h end;
    unfold str_tuple in E; rewrite ?str_app_assoc in E.
  - exfalso. eapply (O (f x')); [eassumption|exact E].
  - exfalso. eapply (O (f x')); [eassumption|]. exact E.
  - exfalso. eapply (O (f x)); [eassumption|]. symmetry. exact E.
  - apply (app_cancel "(") in E. match goal with h : reads x |- _ => apply h in E end; try assumption; try reflexivity.
    destruct E as [-> E]. injection E as ->. now split.
  - apply (app_cancel "(") in E. match goal with h : reads x |- _ => apply h in E end; try assumption; try reflexivity.
    destruct E as [_ E]. discriminate E.
  - exfalso. eapply (O (f x)); [eassumption|]. symmetry. exact E.
  - apply (app_cancel "(") in E. match goal with h : reads x |- _ => apply h in E end; try assumption; try reflexivity.
    destruct E as [_ E]. discriminate E.
  - apply (app_cancel "(") in E. match goal with h : reads x |- _ => apply h in E end; try assumption; try apply stop_tail.
    destruct E as [-> E]. apply (tail_inj (y :: l) (y' :: l')) in E; [|now constructor|now constructor].
    destruct E as [E ->]. injection E as -> ->. now split.
Qed.
End Tup.

(** ** keys *)
Fixpoint pyv_ind' (Q : pyv -> Prop) (H1 : forall z, Q (PInt z)) (H2 : forall l, Forall Q l -> Q (PTup l)) (v : pyv) : Q v :=
  match v with
  | PInt z => H1 z
  | PTup l => H2 l ((fix go l : Forall Q l := match l with [] => Forall_nil _ | x :: r => Forall_cons _ (pyv_ind' Q H1 H2 x) (go r) end) l)
  end.
Lemma str_py_tup l : str_py (PTup l) = tup (map str_py l).
Proof. reflexivity. Qed.
Lemma tup_paren xs : exists r, tup xs = String "(" r.
Proof. destruct xs as [|x [|y r]]; [| |rewrite tup_cons2]; eexists; reflexivity. Qed.
Lemma str_py_opens v : opens (str_py v).
Proof.
  destruct v as [z|l].
  - cbn [str_py]. destruct (num_Z z) as (_ & c & r & -> & Hc). cbn. intros ->. discriminate Hc.
  - rewrite str_py_tup. destruct (tup_paren (map str_py l)) as [r ->]. cbn. discriminate.
Qed.
Lemma str_py_reads v : reads str_py (fun _ => True) v.
Proof.
  induction v as [z|l IH] using pyv_ind'; intros [z'|l'] s s' _ Hs Hs' E.
  - cbn [str_py] in E. apply str_Z_pre in E; try assumption. destruct E as [-> ->]. now split.
  - exfalso. cbn [str_py] in E. destruct (num_Z z) as (_ & c & r & e & Hc). rewrite e in E.
    destruct (tup_paren (map str_py l')) as [r' e']. change (String c r ++ s = str_py (PTup l') ++ s') in E. rewrite str_py_tup, e' in E. cbn [append] in E. injection E as -> _. discriminate Hc.
  - exfalso. destruct (num_Z z') as (_ & c & r & e & Hc). change (str_py (PTup l) ++ s = str_Z z' ++ s') in E. rewrite e in E.
    destruct (tup_paren (map str_py l)) as [r' e']. rewrite str_py_tup, e' in E. cbn [append] in E. injection E as <- _. discriminate Hc.
  - rewrite !str_py_tup in E. apply (tup_inj str_py (fun _ => True)) in E.
    + destruct E as [-> ->]. now split.
    + apply Forall_forall. intros; apply str_py_opens.
    + apply Forall_forall. intros; apply str_py_opens.
    + exact IH.
    + apply Forall_forall. auto.
Qed.
Lemma str_py_inj v v' s s' : stop s -> stop s' -> str_py v ++ s = str_py v' ++ s' -> v = v' /\ s = s'.
Proof. intros h h' E. now apply (str_py_reads v). Qed.
Lemma str_names_inj kf kf' s s' : Forall (fun x => plain x = true) kf -> Forall (fun x => plain x = true) kf' ->
  str_names kf ++ s = str_names kf' ++ s' -> kf = kf' /\ s = s'.
Proof.
  intros h h' E. apply (tup_inj (fun x => "'" ++ x ++ "'") (fun x => plain x = true)) in E; try assumption.
  - apply Forall_forall. intros x _. cbn. discriminate.
  - apply Forall_forall. intros x _. cbn. discriminate.
  - eapply Forall_impl; [|exact h]. intros x Hx x' t t' Hx' _ _ Et. rewrite !str_app_assoc in Et. apply (app_cancel "'") in Et.
    rewrite ?str_app_assoc in Et. now apply split_quote in Et.
Qed.

(** ** lines and files *)
Lemma txt_line_inj kv kv' s s' : txt_line kv ++ s = txt_line kv' ++ s' -> kv = kv' /\ s = s'.
Proof.
  destruct kv as [k (n & d)], kv' as [k' (n' & d')]. unfold txt_line. cbn [fst snd Qnum Qden]. rewrite !str_app_assoc. intro E.
  apply str_py_inj in E; try reflexivity. destruct E as [Ek E]. injection Ek as ->. apply (app_cancel ": (") in E. rewrite ?str_app_assoc in E.
  apply str_Z_pre in E; try reflexivity. destruct E as [-> E]. apply (app_cancel ",") in E. rewrite ?str_app_assoc in E.
  apply str_Z_pre in E; try reflexivity. destruct E as [Ed E]. injection Ed as ->. injection E as E. now split.
Qed.
Lemma txt_line_ne kv s : txt_line kv ++ s <> "".
Proof. unfold txt_line. rewrite str_py_tup. destruct (tup_paren (map str_py (fst kv))) as [r ->]. discriminate. Qed.
Lemma concat_nil_cons (x : string) l : String.concat "" (x :: l) = x ++ String.concat "" l.
Proof.
  destruct l; [|reflexivity]. cbn. induction x as [|c x IH]; [reflexivity|]. cbn. now rewrite <- IH.
Qed.
Lemma lines_inj its : forall its', String.concat "" (map txt_line its) = String.concat "" (map txt_line its') -> its = its'.
Proof.
  induction its as [|a its IH]; intros [|b its'] E; [reflexivity| | |]; cbn [map] in E; rewrite ?concat_nil_cons in E.
  - exfalso. symmetry in E. exact (txt_line_ne _ _ E).
  - exfalso. exact (txt_line_ne _ _ E).
  - apply txt_line_inj in E. destruct E as [-> E]. now rewrite (IH its' E).
Qed.
Lemma txt_text_inj kf kf' its its' : Forall (fun x => plain x = true) kf -> Forall (fun x => plain x = true) kf' ->
  txt_text kf its = txt_text kf' its' -> kf = kf' /\ its = its'.
Proof.
  intros h h' E. unfold txt_text, txt_title in E. rewrite !str_app_assoc in E. apply str_names_inj in E; try assumption.
  destruct E as [-> E]. apply (app_cancel ": value(in fraction)") in E. apply (app_cancel nl) in E. split; [reflexivity|]. now apply lines_inj.
Qed.

(** ** csv rows with nested keys *)
Lemma join_reads k : forall k' s s', length k = length k' -> stop s -> stop s' ->
  join (map str_py k) ++ s = join (map str_py k') ++ s' -> k = k' /\ s = s'.
Proof.
  induction k as [|x k IH]; intros [|x' k'] s s' L Hs Hs' E; try discriminate L; [now split|].
  destruct k as [|y k], k' as [|y' k']; try discriminate L.
  - unfold join in E. cbn [map String.concat] in E. apply str_py_inj in E; try assumption. destruct E as [-> ->]. now split.
  - change (join (map str_py (x :: y :: k))) with (str_py x ++ "," ++ join (map str_py (y :: k))) in E.
    change (join (map str_py (x' :: y' :: k'))) with (str_py x' ++ "," ++ join (map str_py (y' :: k'))) in E.
    rewrite !str_app_assoc in E. apply str_py_inj in E; try reflexivity. destruct E as [-> E]. apply (app_cancel ",") in E.
    destruct (IH (y' :: k') s s' ltac:(cbn in L |- *; lia) Hs Hs' E) as [-> ->]. now split.
Qed.
Lemma plain_row_inj kv kv' : length (fst kv) = length (fst kv') ->
  tail_numden (join (map str_py (fst kv))) (snd kv) = tail_numden (join (map str_py (fst kv'))) (snd kv') -> kv = kv'.
Proof.
  destruct kv as [k (n & d)], kv' as [k' (n' & d')]. cbn [fst snd Qnum Qden]. unfold tail_numden. cbn [Qnum Qden]. intros L E.
  apply join_reads in E; try reflexivity; [|exact L]. destruct E as [-> E]. apply (app_cancel ",") in E.
  apply str_Z_pre in E; try reflexivity. destruct E as [-> E]. apply (app_cancel ",") in E. apply str_Z_inj in E. now injection E as ->.
Qed.
Lemma plain_rows_inj n its : forall its', (forall kv, In kv its -> length (fst kv) = n) -> (forall kv, In kv its' -> length (fst kv) = n) ->
  map (fun kv => tail_numden (join (map str_py (fst kv))) (snd kv)) its = map (fun kv => tail_numden (join (map str_py (fst kv))) (snd kv)) its' -> its = its'.
Proof.
  induction its as [|a its IH]; intros [|b its'] H H' E; try discriminate E; [reflexivity|]. cbn [map] in E. injection E as E1 E2.
  apply plain_row_inj in E1; [|rewrite (H a), (H' b); [reflexivity|now left|now left]]. subst b. f_equal.
  apply IH; [intros; apply H; now right|intros; apply H'; now right|exact E2].
Qed.

(** ** counting columns *)
Fixpoint commas (s : string) : nat := match s with "" => O | String c r => if Ascii.eqb c "," then S (commas r) else commas r end.
Lemma columns_count s : length (columns s) = S (commas s).
Proof.
  induction s as [|c s IH]; [reflexivity|]. cbn [columns commas]. destruct (Ascii.eqb c ","); [cbn; now rewrite IH|].
  destruct (columns s); [discriminate IH|]. exact IH.
Qed.
Lemma commas_app a b : commas (a ++ b) = (commas a + commas b)%nat.
Proof. induction a as [|c a IH]; [reflexivity|]. cbn [append commas]. rewrite IH. destruct (Ascii.eqb c ","); reflexivity. Qed.
Lemma commas_nc a : no_comma a = true -> commas a = O.
Proof. induction a as [|c a IH]; [reflexivity|]. cbn. destruct (Ascii.eqb c ","); [discriminate|]. exact IH. Qed.
Lemma commas_Z z : commas (str_Z z) = O.
Proof. apply commas_nc, nc_Z. Qed.
Lemma commas_concat (l : list string) (g : nat) (d : string) : commas d = 1%nat -> Forall (fun s => commas s = g) l ->
  commas (String.concat d l) = (length l * g + pred (length l))%nat.
Proof.
  intros Hd H. induction l as [|x l IH]; [reflexivity|]. inversion_clear H as [|? ? h1 h2]. destruct l as [|y l]; [cbn; lia|].
  change (String.concat d (x :: y :: l)) with (x ++ d ++ String.concat d (y :: l)). rewrite !commas_app, (IH h2), h1, Hd. cbn [length pred]. lia.
Qed.
(** the triples of a two-factor key *)
Definition tri (t : Z * Z * Z) : pyv := PTup [PInt (fst (fst t)); PInt (snd (fst t)); PInt (snd t)].
Lemma commas_tri t : commas (str_py (tri t)) = 2%nat.
Proof.
  change (str_py (tri t)) with (str_tuple [str_Z (fst (fst t)); str_Z (snd (fst t)); str_Z (snd t)]). rewrite tup_cons2. cbn [tail]. rewrite !commas_app, !commas_Z. reflexivity.
Qed.
Lemma commas_tris d : commas (str_py (PTup (map tri d))) = match length d with O => O | 1%nat => 3%nat | n => (3 * n - 1)%nat end.
Proof.
  rewrite str_py_tup. destruct d as [|t [|u d]]; [reflexivity| |].
  - change (str_tuple (map str_py (map tri [t]))) with ("(" ++ str_py (tri t) ++ ",)"). rewrite !commas_app, commas_tri. reflexivity.
  - assert (E : forall xs, (2 <= length xs)%nat -> str_tuple xs = "(" ++ String.concat ", " xs ++ ")").
    { intros [|a [|b xs]] h; cbn in h; try lia. reflexivity. }
    rewrite E by (rewrite !map_length; cbn; lia). rewrite !commas_app, (commas_concat _ 2).
    + rewrite !map_length. cbn [length pred]. cbn. lia.
    + reflexivity.
    + apply Forall_forall. intros s Hs. apply in_map_iff in Hs. destruct Hs as (v & <- & Hv). apply in_map_iff in Hv. destruct Hv as (w & <- & _). apply commas_tri.
Qed.
Lemma commas_ints x : Forall (fun s => commas s = 0%nat) (map str_py (map PInt x)).
Proof. apply Forall_forall. intros s Hs. apply in_map_iff in Hs. destruct Hs as (v & <- & Hv). apply in_map_iff in Hv. destruct Hv as (w & <- & _). apply commas_Z. Qed.
Lemma pf2_columns (k : fkey) v : length (snd (snd k)) <> O ->
  length (columns (tail_numden (join (map str_py (pf2 k))) v))
  = (match length (fst k) with O => 0 | 1 => 3 | n => 3 * n - 1 end + length (snd (snd k)) + 5)%nat.
Proof.
  intro Hx. destruct k as [d [[a b] x]]. cbn [fst snd pf2] in *. rewrite columns_count. unfold tail_numden. rewrite !commas_app, !commas_Z.
  change (map str_py (PTup (map (fun t : Z * Z * Z => PTup [PInt (fst (fst t)); PInt (snd (fst t)); PInt (snd t)]) d) :: PTup [PInt a; PInt b] :: map PInt x))
    with (str_py (PTup (map tri d)) :: str_tuple [str_Z a; str_Z b] :: map str_py (map PInt x)).
  destruct x as [|e x]; [contradiction|].
  assert (E : forall p q r l, join (p :: q :: r :: l) = p ++ "," ++ q ++ "," ++ join (r :: l)) by reflexivity.
  cbn [map]. rewrite E, !commas_app, commas_tris. change (str_py (PInt e) :: map str_py (map PInt x)) with (map str_py (map PInt (e :: x))).
  unfold join. rewrite (commas_concat _ 0 "," eq_refl (commas_ints _)), !map_length. rewrite tup_cons2. cbn [tail]. rewrite !commas_app, !commas_Z. cbn [length pred].
  cbn [commas]. cbn. destruct (length d) as [|[|n]]; cbn; lia.
Qed.

(** ** sub-polys *)
Definition negkey (k : svkey) : svkey := ((- nthZ (fst (fst k)) 0 :: tl (fst (fst k)), snd (fst k)), snd k)%Z.
Lemma negkey_inj k k' : length (fst (fst k)) = 6%nat -> length (fst (fst k')) = 6%nat -> negkey k = negkey k' -> k = k'.
Proof.
  destruct k as [[a l] x], k' as [[a' l'] x']. unfold negkey. cbn [fst snd]. intros h h' E. injection E as E1 E2 -> ->.
  destruct a as [|z a], a' as [|z' a']; try discriminate. cbn in E1, E2. subst a'. do 3 f_equal. lia.
Qed.
Lemma add_kv_fresh {K} `{Key K} (k : K) v l : ~ In k (keys l) -> add_kv k v l = (l ++ [(k, v)])%list.
Proof.
  induction l as [|[k' v'] l IH]; intro N; [reflexivity|]. cbn [add_kv app]. destruct (keqb k' k) eqn:E.
  - apply keqb_spec in E. subst k'. exfalso. apply N. now left.
  - rewrite IH; [reflexivity|]. intro h. apply N. now right.
Qed.
Lemma simp0_map poly : uniq (items poly) -> (forall k, In k (keys (items poly)) -> length (fst (fst k)) = 6%nat) ->
  sv_simplify poly 0 = Ok (mkPoly (map (fun kv => (negkey (fst kv), snd kv)) (items poly)) ("e^{-kt}" :: tl (keyfor poly))).
Proof.
  intros U A. unfold sv_simplify. cbn [Z.eqb]. do 2 f_equal.
  enough (G : forall l pre, NoDup (keys (pre ++ l)%list) -> (forall k, In k (keys (pre ++ l)%list) -> length (fst (fst k)) = 6%nat) ->
    fold_left (fun a kv => add_kv ((- nthZ (fst (fst (fst kv))) 0 :: tl (fst (fst (fst kv))), snd (fst (fst kv))), snd (fst kv))%Z (snd kv) a) l
      (map (fun kv : svkey * Q => (negkey (fst kv), snd kv)) pre) = map (fun kv : svkey * Q => (negkey (fst kv), snd kv)) (pre ++ l)) by exact (G _ [] U A).
  induction l as [|[k v] l IH]; intros pre Ud Al; [now rewrite app_nil_r|]. cbn [fold_left fst snd].
  change ((- nthZ (fst (fst k)) 0 :: tl (fst (fst k)), snd (fst k), snd k))%Z with (negkey k).
  rewrite add_kv_fresh.
  - change [(negkey k, v)] with (map (fun kv : svkey * Q => (negkey (fst kv), snd kv)) [(k, v)]). rewrite <- map_app. rewrite IH; rewrite <- app_assoc; [reflexivity| |]; assumption.
  - intro h. unfold keys in h. rewrite map_map in h. apply in_map_iff in h. destruct h as ([k' v'] & e & Hin). cbn [fst] in e. apply negkey_inj in e.
    + subst k'. unfold keys in Ud. rewrite map_app in Ud. cbn [map fst] in Ud. apply NoDup_remove_2 in Ud. apply Ud. apply in_or_app. left. apply in_map_iff. now exists (k, v').
    + apply Al. unfold keys. apply in_map_iff. exists (k', v'). split; [reflexivity|]. apply in_or_app. now left.
    + apply Al. unfold keys. apply in_map_iff. exists (k, v). split; [reflexivity|]. apply in_or_app. right. now left.
Qed.

(** ** file names *)
Lemma suffix_split m : forall n s t, String.length t = m -> substring n m s = t -> String.length s = (n + m)%nat -> s = substring 0 n s ++ t.
Proof.
  intros n s t Ht. revert s. induction n as [|n IH]; intros s H1 H2.
  - assert (E : substring 0 0 s = "") by (destruct s; reflexivity). rewrite E. cbn [append]. rewrite <- H1.
    clear -H2. cbn in H2. revert m H2. induction s as [|c s IH]; intros m H2; [destruct m; reflexivity|]. destruct m; [discriminate|]. cbn. f_equal. apply IH. now injection H2.
  - destruct s as [|c s]; [discriminate H2|]. cbn [substring append]. cbn in H1. f_equal. apply IH; [exact H1|now injection H2].
Qed.
Lemma suffix_app a t : substring (String.length a) (String.length t) (a ++ t) = t.
Proof.
  induction a as [|c a IH]; [|exact IH]. cbn [String.length append]. induction t as [|c t IH]; [reflexivity|]. cbn. f_equal. exact IH.
Qed.
Lemma length_app a b : String.length (a ++ b) = (String.length a + String.length b)%nat.
Proof. induction a as [|c a IH]; [reflexivity|]. cbn. now rewrite IH. Qed.
Lemma endswith_spec t f : endswith t f = true <-> exists a, f = a ++ t.
Proof.
  unfold endswith. split.
  - intro H. apply andb_prop in H. destruct H as [h1 h2]. apply Nat.leb_le in h1. apply String.eqb_eq in h2.
    exists (substring 0 (String.length f - String.length t) f). apply (suffix_split (String.length t)); [reflexivity|exact h2|lia].
  - intros [a ->]. rewrite length_app. apply andb_true_intro. split; [apply Nat.leb_le; lia|].
    replace (String.length a + String.length t - String.length t)%nat with (String.length a) by lia. rewrite suffix_app. apply String.eqb_refl.
Qed.
