(** Strings, paths and files. *)
From Coq Require Import Decimal DecimalString DecimalNat DecimalZ String Ascii List Arith Bool ZArith Lia.
From Verif Require Import Util Hdf5Model Hdf5Spec.
Import ListNotations.
Set Implicit Arguments. Unset Strict Implicit.
Open Scope list_scope. Open Scope nat_scope.

(** ** numbers as strings *)
Lemma sou_chars d c : has_char c (NilEmpty.string_of_uint d) = true -> In c ["0";"1";"2";"3";"4";"5";"6";"7";"8";"9"]%char.
Proof.
  induction d; cbn [NilEmpty.string_of_uint has_char]; try discriminate; intros H; apply orb_prop in H; destruct H as [H|H]; try (now apply IHd);
  apply Ascii.eqb_eq in H; subst; cbn; tauto.
Qed.
Lemma to_uint_nonnil n : Nat.to_uint n <> Nil. Proof. intros H. pose proof (DecimalNat.Unsigned.of_to n) as K. rewrite H in K. cbn in K. subst n. discriminate. Qed.
Lemma nz_nonnil d : d <> Nil -> NilZero.string_of_uint d = NilEmpty.string_of_uint d.
Proof. destruct d; cbn; congruence. Qed.
Definition good_name (s : string) : Prop := has_char slash s = false /\ s <> ""%string /\ s <> "."%string.
Lemma str_nat_chars n c : has_char c (str_nat n) = true -> In c ["0";"1";"2";"3";"4";"5";"6";"7";"8";"9"]%char.
Proof. unfold str_nat. rewrite nz_nonnil by apply to_uint_nonnil. apply sou_chars. Qed.
Lemma str_nat_no c n : ~ In c ["0";"1";"2";"3";"4";"5";"6";"7";"8";"9"]%char -> has_char c (str_nat n) = false.
Proof. intros H. destruct (has_char c (str_nat n)) eqn:E; [|reflexivity]. apply str_nat_chars in E. contradiction. Qed.
Lemma str_nat_good n : good_name (str_nat n).
Proof.
  split; [apply str_nat_no; cbn; intuition discriminate|]. split.
  - unfold str_nat. rewrite nz_nonnil by apply to_uint_nonnil. pose proof (@to_uint_nonnil n). destruct (Nat.to_uint n); cbn; congruence.
  - intros E. assert (H : has_char "."%char (str_nat n) = true) by (rewrite E; reflexivity). apply str_nat_chars in H. cbn in H. intuition discriminate.
Qed.
Lemma str_nat_nul n : no_nul (str_nat n). Proof. apply str_nat_no. cbn. intuition discriminate. Qed.
Lemma str_nat_inj m n : str_nat m = str_nat n -> m = n.
Proof.
  unfold str_nat. intros H. assert (K : NilZero.uint_of_string (NilZero.string_of_uint (Nat.to_uint m)) = NilZero.uint_of_string (NilZero.string_of_uint (Nat.to_uint n))) by now rewrite H.
  rewrite !NilZero.usu in K by apply to_uint_nonnil. injection K as K. now apply DecimalNat.Unsigned.to_uint_inj.
Qed.
Lemma int_str z : int_of_str (str_int z) = Some z.
Proof.
  unfold int_of_str, str_int. rewrite NilZero.isi.
  - now rewrite DecimalZ.of_to.
  - destruct z; cbn; try discriminate. intros H. injection H as H. now apply DecimalPos.Unsigned.to_uint_nonnil in H.
  - destruct z; cbn; try discriminate. intros H. injection H as H. now apply DecimalPos.Unsigned.to_uint_nonnil in H.
Qed.

(** ** strings *)
Lemma sapp_nil s : (s ++ "")%string = s. Proof. induction s; cbn; congruence. Qed.
Lemma sapp_assoc a b c : ((a ++ b) ++ c)%string = (a ++ (b ++ c))%string. Proof. induction a; cbn; congruence. Qed.
Lemma has_char_app c a b : has_char c (a ++ b) = has_char c a || has_char c b.
Proof. induction a; cbn; [reflexivity|]. rewrite IHa. apply orb_assoc. Qed.
Lemma eqb_slash c : Ascii.eqb c slash = Ascii.eqb slash c. Proof. apply Ascii.eqb_sym. Qed.
Lemma split_noslash s : has_char slash s = false -> split_slash s = [s].
Proof.
  induction s as [|c s IH]; [reflexivity|]. cbn [has_char split_slash]. intros H. apply orb_false_elim in H. destruct H as [H1 H2]. rewrite eqb_slash, H1, (IH H2). reflexivity.
Qed.
Lemma split_nonempty s : split_slash s <> [].
Proof. destruct s as [|c s]; cbn; [discriminate|]. destruct (Ascii.eqb c slash); [discriminate|]. destruct (split_slash s); discriminate. Qed.
Lemma split_app a b : split_slash (a ++ String slash b) = split_slash a ++ split_slash b.
Proof.
  induction a as [|c a IH]; [reflexivity|]. cbn [append split_slash]. rewrite IH. destruct (Ascii.eqb c slash); [reflexivity|].
  destruct (split_slash a) eqn:E; [now apply split_nonempty in E|reflexivity].
Qed.
Lemma components_app a b : components (a ++ String slash b) = components a ++ components b.
Proof. unfold components. rewrite split_app. apply filter_app. Qed.
Lemma components_good s : good_name s -> components s = [s].
Proof.
  intros [H1 [H2 H3]]. unfold components. rewrite split_noslash by exact H1. cbn [filter].
  destruct (String.eqb_spec s ""); [contradiction|]. destruct (String.eqb_spec s "."); [contradiction|]. reflexivity.
Qed.
Lemma last_char_app a c : last_char (a ++ String c "") = Some c.
Proof. induction a as [|d a IH]; [reflexivity|]. cbn [append last_char]. rewrite IH. destruct (a ++ String c "")%string eqn:E; [destruct a; discriminate|reflexivity]. Qed.
Lemma last_char_split s c : last_char s = Some c -> exists a, s = (a ++ String c "")%string.
Proof.
  induction s as [|d s IH]; [discriminate|]. cbn [last_char]. destruct s as [|e s].
  - intros H. injection H as ->. now exists ""%string.
  - intros H. destruct (IH H) as [a E]. exists (String d a). cbn [append]. now rewrite E.
Qed.
Lemma last_char_none s : s <> ""%string -> exists c, last_char s = Some c.
Proof. induction s as [|c s IH]; [congruence|]. intros _. cbn [last_char]. destruct s; [now exists c|]. apply IH. discriminate. Qed.
(** a path with a slash at the end *)
Definition sub_ok (path sub : string) : Prop := exists a, sub = (a ++ "/")%string /\ components a = components path.
Lemma subpath_spec path : path <> ""%string -> exists sub, subpath_of path = Some sub /\ sub_ok path sub.
Proof.
  intros H. unfold subpath_of. destruct (last_char_none H) as [c E]. rewrite E. eexists. split; [reflexivity|].
  destruct (Ascii.eqb_spec c slash) as [->|N].
  - destruct (last_char_split E) as [a ->]. exists a. split; [reflexivity|]. change (a ++ String slash "")%string with (a ++ String slash "")%string. rewrite components_app. cbn. now rewrite app_nil_r.
  - exists path. now split.
Qed.
Lemma sub_child path sub name : sub_ok path sub -> good_name name -> components (sub ++ name) = components path ++ [name].
Proof.
  intros [a [-> E]] G. rewrite sapp_assoc. change ("/" ++ name)%string with (String slash name). rewrite components_app, E. f_equal. now apply components_good.
Qed.
Lemma sub_nonempty path sub name : sub_ok path sub -> (sub ++ name)%string <> ""%string.
Proof. intros [a [-> _]]. destruct a; discriminate. Qed.
Lemma sub_sub path sub name : sub_ok path sub -> good_name name -> subpath_of (sub ++ name) = Some (sub ++ name ++ "/")%string /\ sub_ok (sub ++ name)%string (sub ++ name ++ "/")%string.
Proof.
  intros H G. split.
  - unfold subpath_of. destruct (last_char (sub ++ name)) as [c|] eqn:L.
    + destruct (last_char_split L) as [b E]. destruct (Ascii.eqb_spec c slash) as [->|N]; [|now rewrite sapp_assoc].
      exfalso. destruct G as [G1 [G2 _]]. destruct (last_char_none G2) as [c' L']. destruct (last_char_split L') as [b' E']. subst name.
      assert (c' = slash). { assert (K : last_char (sub ++ (b' ++ String c' "")) = Some c') by (rewrite <- sapp_assoc; apply last_char_app). congruence. }
      subst c'. rewrite has_char_app in G1. cbn in G1. rewrite orb_true_r in G1. discriminate.
    + destruct (last_char_none (sub_nonempty (name := name) H)) as [c E]. congruence.
  - exists (sub ++ name)%string. split; [now rewrite sapp_assoc|reflexivity].
Qed.

(** ** lists *)
Lemma fupd_length A (l : list A) i g : List.length (fupd l i g) = List.length l.
Proof.
  unfold fupd. destruct (nth_error l i) eqn:E; [|reflexivity]. assert (L : i < List.length l) by (apply nth_error_Some; congruence).
  rewrite app_length, firstn_length. cbn [List.length]. rewrite skipn_length. lia.
Qed.
Lemma fupd_nth A (l : list A) i g j : nth_error (fupd l i g) j = if j =? i then option_map g (nth_error l i) else nth_error l j.
Proof.
  unfold fupd. destruct (nth_error l i) as [x|] eqn:E.
  - assert (L : i < List.length l) by (apply nth_error_Some; congruence).
    destruct (Nat.eqb_spec j i) as [->|N].
    + rewrite nth_error_app2 by (rewrite firstn_length; lia). rewrite firstn_length. replace (i - Nat.min i (List.length l)) with 0 by lia. reflexivity.
    + destruct (Nat.lt_ge_cases j i) as [J|J].
      * rewrite nth_error_app1 by (rewrite firstn_length; lia). clear -J. revert l j J. induction i; intros l j J; [lia|]. destruct l; [now rewrite firstn_nil; destruct j|]. destruct j; [reflexivity|]. cbn. apply IHi. lia.
      * rewrite nth_error_app2 by (rewrite firstn_length; lia). rewrite firstn_length. replace (j - Nat.min i (List.length l)) with (S (j - S i)) by lia. cbn [nth_error].
        assert (JJ : j = S i + (j - S i)) by lia. rewrite JJ at 2. generalize (j - S i) as k. generalize (S i) as m. clear. intros m k.
        revert l. induction m; intros l; [reflexivity|]. destruct l; [now rewrite skipn_nil; destruct k|]. cbn. apply IHm.
  - destruct (Nat.eqb_spec j i) as [->|N]; [exact E|reflexivity].
Qed.
Lemma fupd_eq A (l : list A) i g x : nth_error l i = Some x -> nth_error (fupd l i g) i = Some (g x).
Proof. intros E. rewrite fupd_nth, Nat.eqb_refl, E. reflexivity. Qed.
Lemma fupd_neq A (l : list A) i g j : j <> i -> nth_error (fupd l i g) j = nth_error l j.
Proof. intros E. rewrite fupd_nth. apply Nat.eqb_neq in E. now rewrite E. Qed.
Lemma nth_error_snoc A (l : list A) x : nth_error (l ++ [x]) (List.length l) = Some x.
Proof. rewrite nth_error_app2 by lia. now rewrite Nat.sub_diag. Qed.
Lemma nth_error_lt A (l : list A) i x : nth_error l i = Some x -> i < List.length l.
Proof. intros H. apply nth_error_Some. congruence. Qed.
Lemma assoc_app A k (l l' : list (string * A)) : assoc k (l ++ l') = match assoc k l with Some x => Some x | None => assoc k l' end.
Proof. induction l as [|[k' x] l IH]; [reflexivity|]. cbn. destruct (String.eqb k k'); [reflexivity|exact IH]. Qed.
Lemma assoc_none A k (l : list (string * A)) : assoc k l = None <-> ~ In k (map fst l).
Proof.
  induction l as [|[k' x] l IH]; cbn; [tauto|]. destruct (String.eqb_spec k k') as [->|N]; [split; [discriminate|tauto]|]. rewrite IH. intuition congruence.
Qed.
Lemma assoc_In A k (l : list (string * A)) x : NoDup (map fst l) -> In (k, x) l -> assoc k l = Some x.
Proof.
  induction l as [|[k' y] l IH]; cbn; [tauto|]. intros ND H. inversion ND as [|? ? N1 N2]; subst. destruct H as [E|H].
  - injection E as -> ->. now rewrite String.eqb_refl.
  - destruct (String.eqb_spec k k') as [->|N]; [|now apply IH]. exfalso. apply N1. apply in_map_iff. now exists (k', x).
Qed.
Lemma assoc_Some A k (l : list (string * A)) x : assoc k l = Some x -> In (k, x) l.
Proof. induction l as [|[k' y] l IH]; cbn; [discriminate|]. destruct (String.eqb_spec k k') as [->|N]; [intros E; injection E as ->; now left|right; now apply IH]. Qed.

(** ** files *)
Definition add_links (o : hobj) (nl : list (string * nat)) : hobj := HObj (h_attrs o) (h_links o ++ nl) (h_data o).
Lemma resolve_app f i a b : resolve f i (a ++ b) = match resolve f i a with Some j => resolve f j b | None => None end.
Proof. revert i. induction a as [|c a IH]; intros i; [reflexivity|]. cbn. destruct (nth_error f i) as [o|]; [|reflexivity]. destruct (assoc c (h_links o)); [apply IH|reflexivity]. Qed.
(** links are only added *)
Definition fle (f f' : file) : Prop := forall i o, nth_error f i = Some o -> exists o' nl, nth_error f' i = Some o' /\ h_links o' = h_links o ++ nl.
Lemma fle_refl f : fle f f. Proof. intros i o E. exists o, []. now rewrite app_nil_r. Qed.
Lemma fle_trans f g k : fle f g -> fle g k -> fle f k.
Proof. intros A B i o E. destruct (A i o E) as [o1 [l1 [E1 H1]]]. destruct (B i o1 E1) as [o2 [l2 [E2 H2]]]. exists o2, (l1 ++ l2). split; [exact E2|]. now rewrite H2, H1, app_assoc. Qed.
Lemma fle_length f f' : fle f f' -> List.length f <= List.length f'.
Proof.
  intros H. destruct (List.length f) as [|n] eqn:L; [lia|]. destruct (nth_error f n) as [o|] eqn:E; [|apply nth_error_None in E; lia].
  destruct (H n o E) as [o' [nl [E' _]]]. apply nth_error_lt in E'. lia.
Qed.
Lemma resolve_mono f f' i cs j : fle f f' -> resolve f i cs = Some j -> resolve f' i cs = Some j.
Proof.
  intros H. revert i. induction cs as [|c cs IH]; intros i; [auto|]. cbn. destruct (nth_error f i) as [o|] eqn:E; [|discriminate].
  destruct (assoc c (h_links o)) as [k|] eqn:A; [|discriminate]. intros R. destruct (H i o E) as [o' [nl [E' L]]]. rewrite E', L, assoc_app, A. now apply IH.
Qed.
Lemma h5_link_ok f path pre name p o j : components path = pre ++ [name] -> resolve f 0 pre = Some p -> nth_error f p = Some o -> h_data o = None -> assoc name (h_links o) = None -> no_nul name ->
  h5_link f path j = Some (fupd f p (fun o => add_links o [(name, j)])).
Proof.
  intros C R E D A N. unfold h5_link. rewrite C, rev_app_distr. cbn [rev app]. rewrite N, rev_involutive, R, E. destruct o as [at_ li da]. cbn in D, A. subst da. rewrite A. reflexivity.
Qed.
Lemma set_attr_length f i a x : List.length (set_attr f i a x) = List.length f. Proof. apply fupd_length. Qed.
Definition with_attr (o : hobj) (a : string) (x : attr) : hobj := HObj ((a, x) :: filter (fun p => negb (String.eqb (fst p) a)) (h_attrs o)) (h_links o) (h_data o).
Lemma set_attr_eq f i a x o : nth_error f i = Some o -> nth_error (set_attr f i a x) i = Some (with_attr o a x).
Proof. intros E. unfold set_attr. now rewrite (fupd_eq _ E). Qed.
Lemma set_attr_neq f i a x j : j <> i -> nth_error (set_attr f i a x) j = nth_error f j.
Proof. apply fupd_neq. Qed.
Lemma set_attr_fle f i a x : fle f (set_attr f i a x).
Proof.
  intros k o E. destruct (Nat.eq_dec k i) as [->|N].
  - exists (with_attr o a x), []. split; [now apply set_attr_eq|]. cbn. now rewrite app_nil_r.
  - exists o, []. rewrite set_attr_neq by exact N. now rewrite app_nil_r.
Qed.
Lemma assoc_filter a b (l : list (string * attr)) : a <> b -> assoc a (filter (fun p => negb (String.eqb (fst p) b)) l) = assoc a l.
Proof.
  intros N. induction l as [|[k x] l IH]; [reflexivity|]. cbn. destruct (String.eqb_spec k b) as [->|M]; cbn.
  - destruct (String.eqb_spec a b); [contradiction|exact IH].
  - destruct (String.eqb a k); [reflexivity|exact IH].
Qed.
Lemma with_attr_get o a b x : assoc a (h_attrs (with_attr o b x)) = if String.eqb a b then Some x else assoc a (h_attrs o).
Proof. cbn. destruct (String.eqb_spec a b); [reflexivity|]. now apply assoc_filter. Qed.
