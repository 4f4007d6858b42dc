From Coq Require Import List ZArith Lia Bool Ascii String.
From Verif Require Import Util LabelsModel.
Import ListNotations.
Set Implicit Arguments.
Unset Strict Implicit.
Open Scope Z_scope.

Notation dot := "."%char.
Notation lpar := "("%char.
Notation rpar := ")"%char.
Notation star := "*"%char.
Notation qm := "?"%char.

Lemma digit_not_dot : forall d, 0 <= d < 10 -> digit d <> dot.
Proof.
  intros d H. unfold digit.
  assert (C : d = 0 \/ d = 1 \/ d = 2 \/ d = 3 \/ d = 4 \/ d = 5 \/ d = 6 \/ d = 7 \/ d = 8 \/ d = 9) by lia.
  repeat (destruct C as [ -> | C ]; [ discriminate |]). subst. discriminate.
Qed.

Lemma digits_no_dot : forall f n acc, ~ In dot acc -> ~ In dot (digits f n acc).
Proof.
  induction f as [|f IH]; intros n acc H; cbn [digits]; [exact H|].
  assert (D : ~ In dot (digit (n mod 10) :: acc)).
  { intros [E|E]; [|exact (H E)]. revert E. apply digit_not_dot. apply Z.mod_pos_bound. lia. }
  destruct (n / 10 =? 0); [exact D | apply IH; exact D].
Qed.

Lemma format_int_no_dot : forall n, ~ In dot (format_int n).
Proof.
  intros n. unfold format_int. destruct (n <? 0).
  - intros [E|E]; [discriminate E|]. revert E. apply digits_no_dot. intros [].
  - apply digits_no_dot. intros [].
Qed.

Lemma placeholder_no_dot : forall n, ~ In dot (placeholder n).
Proof. intros n [E|E]; [discriminate E | exact (format_int_no_dot E)]. Qed.

(* ---- splitting ---- *)
Lemma split_dots_app : forall a cur b, ~ In dot a ->
  split_dots cur (a ++ b) = split_dots (rev a ++ cur) b.
Proof.
  induction a as [|c a IH]; intros cur b H; cbn [app split_dots rev]; [reflexivity|].
  destruct (Ascii.eqb_spec c dot) as [ -> | N ]; [exfalso; apply H; left; reflexivity|].
  rewrite IH; [|intro E; apply H; right; exact E]. rewrite <- app_assoc. reflexivity.
Qed.

Lemma split_dots_nodot : forall a, ~ In dot a -> split_dots [] a = [a].
Proof.
  intros a H. rewrite <- (app_nil_r a) at 1. rewrite split_dots_app by exact H.
  cbn [split_dots]. rewrite app_nil_r, rev_involutive. reflexivity.
Qed.

Lemma split_dots_sep : forall a b, ~ In dot a -> split_dots [] (a ++ dot :: b) = a :: split_dots [] b.
Proof.
  intros a b H. rewrite split_dots_app by exact H. cbn [split_dots].
  rewrite Ascii.eqb_refl, app_nil_r, rev_involutive. reflexivity.
Qed.

Fixpoint join (parts : list str) : str :=
  match parts with [] => [] | [p] => p | p :: r => p ++ dot :: join r end.

Lemma split_join : forall parts, parts <> [] -> Forall (fun p => ~ In dot p) parts -> split_dots [] (join parts) = parts.
Proof.
  induction parts as [|p parts IH]; intros NE F; [congruence|].
  inversion F as [|? ? Hp Hr]; subst. destruct parts as [|q parts].
  - cbn [join]. apply split_dots_nodot. exact Hp.
  - cbn [join]. rewrite split_dots_sep by exact Hp. cbn [join] in IH. rewrite IH; [reflexivity | discriminate | exact Hr].
Qed.

Lemma split_dots_nil : forall x cur, split_dots cur x <> [].
Proof. induction x as [|c x IH]; intros cur; cbn [split_dots]; [discriminate|]. destruct (Ascii.eqb c dot); [discriminate | apply IH]. Qed.

Lemma split_dots_parts : forall x cur, ~ In dot cur -> Forall (fun p => ~ In dot p) (split_dots cur x).
Proof.
  induction x as [|c x IH]; intros cur H; cbn [split_dots].
  - constructor; [|constructor]. intro E. apply in_rev in E. exact (H E).
  - destruct (Ascii.eqb_spec c dot) as [ -> | N ].
    + constructor; [intro E; apply in_rev in E; exact (H E)|]. apply IH. intros [].
    + apply IH. intros [E|E]; [congruence | exact (H E)].
Qed.

Lemma join_cons : forall p r, r <> [] -> join (p :: r) = p ++ dot :: join r.
Proof. intros p [|q r] H; [congruence | reflexivity]. Qed.

Lemma join_split : forall x cur, join (split_dots cur x) = rev cur ++ x.
Proof.
  induction x as [|c x IH]; intros cur; cbn [split_dots].
  - cbn [join]. rewrite app_nil_r. reflexivity.
  - destruct (Ascii.eqb_spec c dot) as [ -> | N ].
    + rewrite join_cons by apply split_dots_nil. rewrite IH. reflexivity.
    + rewrite IH. cbn [rev]. rewrite <- app_assoc. reflexivity.
Qed.

Fixpoint texts (n : Z) (labels : list label) : list str :=
  match labels with [] => [] | l :: r => label_text n l :: texts (n + 1) r end.

Lemma join_labels_texts : forall labels n, join_labels n labels = join (texts n labels).
Proof.
  induction labels as [|l labels IH]; intros n; [reflexivity|].
  destruct labels as [|l2 labels]; [reflexivity|].
  change (join_labels n (l :: l2 :: labels)) with (label_text n l ++ dot :: join_labels (n + 1) (l2 :: labels)).
  rewrite IH. reflexivity.
Qed.

Definition clean (l : label) : Prop :=
  match l with None => True | Some x => ~ In dot x /\ starts_with qm x = false end.

Lemma texts_nodot : forall labels n, Forall clean labels -> Forall (fun p => ~ In dot p) (texts n labels).
Proof.
  induction labels as [|l labels IH]; intros n F; [constructor|].
  inversion F as [|? ? Hl Hr]; subst. cbn [texts]. constructor; [|apply IH; exact Hr].
  destruct l as [x|]; cbn [label_text]; [apply Hl | apply placeholder_no_dot].
Qed.

Lemma texts_parts : forall labels n, Forall clean labels -> map part_label (texts n labels) = labels.
Proof.
  induction labels as [|l labels IH]; intros n F; [reflexivity|].
  inversion F as [|? ? Hl Hr]; subst. cbn [texts map]. rewrite IH by exact Hr. f_equal.
  destruct l as [x|]; cbn [label_text].
  - unfold part_label. destruct Hl as [_ E]. rewrite E. reflexivity.
  - reflexivity.
Qed.

Lemma texts_length : forall labels n, List.length (texts n labels) = List.length labels.
Proof. induction labels; intros n; cbn [texts List.length]; auto. Qed.

Lemma ends_with_app : forall c a, ends_with c (a ++ [c]) = true.
Proof. intros c a. unfold ends_with. rewrite rev_app_distr. cbn. apply Ascii.eqb_refl. Qed.

Lemma ends_with_snoc : forall c d a, ends_with c (a ++ [d]) = Ascii.eqb c d.
Proof. intros c d a. unfold ends_with. rewrite rev_app_distr. reflexivity. Qed.

Lemma is_combined_combine : forall labels o, is_combined (combine_leg_labels labels o) = true.
Proof.
  intros labels o. unfold is_combined, combine_leg_labels.
  change (lpar :: join_labels o labels ++ [rpar]) with ((lpar :: join_labels o labels) ++ [rpar]).
  rewrite ends_with_app. reflexivity.
Qed.

Lemma inner_combine : forall labels o, inner (combine_leg_labels labels o) = join_labels o labels.
Proof. intros labels o. unfold inner, combine_leg_labels. cbn [tl]. apply removelast_last. Qed.

Lemma combined_form : forall x, is_combined x = true -> x = lpar :: inner x ++ [rpar].
Proof.
  intros x H. unfold is_combined in H. apply andb_prop in H as [H1 H2].
  destruct x as [|c x]; [discriminate|]. cbn [starts_with] in H1. apply Ascii.eqb_eq in H1. subst c.
  unfold inner. cbn [tl]. f_equal.
  destruct x as [|d x].
  - vm_compute in H2. discriminate.
  - assert (NE : d :: x <> []) by discriminate.
    rewrite (app_removelast_last "0"%char NE) at 1. f_equal. f_equal.
    rewrite (app_removelast_last "0"%char NE) in H2.
    change (lpar :: removelast (d :: x) ++ [last (d :: x) "0"%char]) with ((lpar :: removelast (d :: x)) ++ [last (d :: x) "0"%char]) in H2.
    rewrite ends_with_snoc in H2. apply Ascii.eqb_eq in H2. symmetry. exact H2.
Qed.

Lemma split_combine : forall debug labels o num, labels <> [] -> Forall clean labels ->
  (num = None \/ num = Some (Z.of_nat (List.length labels))) ->
  split_leg_label debug (Some (combine_leg_labels labels o)) num = Ok labels.
Proof.
  intros debug labels o num NE F HN. unfold split_leg_label.
  rewrite is_combined_combine, inner_combine, join_labels_texts.
  rewrite split_join; [| destruct labels; [congruence | discriminate] | apply texts_nodot; exact F].
  rewrite texts_parts by exact F.
  destruct HN as [ -> | -> ]; [reflexivity|]. rewrite Z.eqb_refl, andb_false_r. reflexivity.
Qed.

(* ---- dual labels ---- *)
Lemma dual_fuel_enough : forall f g x, (List.length x <= f)%nat -> (List.length x <= g)%nat ->
  dual_fuel f (Some x) = dual_fuel g (Some x).
Proof.
  induction f as [|f IH]; intros g x Hf Hg.
  - destruct x as [|c x]; [|cbn in Hf; lia]. destruct g; reflexivity.
  - destruct g as [|g].
    { destruct x as [|c x]; [reflexivity | cbn in Hg; lia]. }
    cbn [dual_fuel]. destruct (is_combined x) eqn:C; [|reflexivity].
    f_equal. f_equal. f_equal. apply map_ext_in. intros l Hl.
    apply in_map_iff in Hl as [p [ <- Hp]]. unfold part_label.
    destruct (starts_with qm p); [destruct f, g; reflexivity|].
    assert (L : (List.length p <= List.length (inner x))%nat).
    { assert (J := join_split (inner x) []). cbn [rev app] in J.
      assert (G : forall ps q, In q ps -> (List.length q <= List.length (join ps))%nat).
      { clear. induction ps as [|p ps IH]; intros q H; [contradiction|].
        destruct ps as [|p2 ps].
        - destruct H as [ -> | [] ]. cbn [join]. lia.
        - rewrite join_cons by discriminate. rewrite app_length. cbn [List.length].
          destruct H as [ -> | H ]; [lia|]. specialize (IH q H). lia. }
      rewrite <- J. apply G. exact Hp. }
    assert (X := combined_form C). apply (f_equal (@List.length ascii)) in X.
    cbn [List.length] in X. rewrite app_length in X. cbn [List.length] in X.
    apply IH; lia.
Qed.

Lemma dual_none : dual_leg_label None = None.
Proof. reflexivity. Qed.

Lemma dual_plain : forall x, is_combined x = false ->
  dual_leg_label (Some x) = Some (if ends_with star x then removelast x else x ++ [star]).
Proof.
  intros x H. unfold dual_leg_label. destruct (List.length x); cbn [dual_fuel]; rewrite H; destruct (ends_with star x); reflexivity.
Qed.

Lemma dual_combined : forall x, is_combined x = true ->
  dual_leg_label (Some x) = Some (combine_leg_labels (dual_label_list (map part_label (split_dots [] (inner x)))) 0).
Proof.
  intros x H. unfold dual_leg_label at 1.
  assert (X := combined_form H). apply (f_equal (@List.length ascii)) in X.
  cbn [List.length] in X. rewrite app_length in X. cbn [List.length] in X.
  destruct (List.length x) as [|f] eqn:L; [lia|].
  cbn [dual_fuel]. rewrite H. f_equal. f_equal. unfold dual_label_list. f_equal.
  apply map_ext_in. intros l Hl. apply in_map_iff in Hl as [p [ <- Hp]]. unfold part_label.
  destruct (starts_with qm p); [destruct f; reflexivity|].
  unfold dual_leg_label. apply dual_fuel_enough; [|lia].
  assert (J := join_split (inner x) []). cbn [rev app] in J.
  assert (G : forall ps q, In q ps -> (List.length q <= List.length (join ps))%nat).
  { clear. induction ps as [|p ps IH]; intros q Hq; [contradiction|].
    destruct ps as [|p2 ps].
    - destruct Hq as [ -> | [] ]. cbn [join]. lia.
    - rewrite join_cons by discriminate. rewrite app_length. cbn [List.length].
      destruct Hq as [ -> | Hq ]; [lia|]. specialize (IH q Hq). lia. }
  specialize (G _ _ Hp). rewrite J in G. lia.
Qed.

Lemma is_combined_star : forall x, is_combined (x ++ [star]) = false.
Proof. intros x. unfold is_combined, ends_with. rewrite rev_app_distr. cbn. apply andb_false_r. Qed.

Lemma ends_with_form : forall c x, ends_with c x = true -> x = removelast x ++ [c].
Proof.
  intros c x H. destruct x as [|d x]; [discriminate|].
  assert (NE : d :: x <> []) by discriminate.
  rewrite (app_removelast_last "0"%char NE) at 1. f_equal. f_equal.
  rewrite (app_removelast_last "0"%char NE), ends_with_snoc in H. apply Ascii.eqb_eq in H. symmetry. exact H.
Qed.

(* A label that is not of the form (...) : the dual is involutive exactly when stripping one star does not leave
   something that is itself starred or combined. *)
Lemma dual_plain_involutive : forall x, is_combined x = false ->
  (dual_leg_label (dual_leg_label (Some x)) = Some x <->
   (forall y, x = y ++ [star] -> ends_with star y = false /\ is_combined y = false)).
Proof.
  intros x H. rewrite (dual_plain H). destruct (ends_with star x) eqn:E.
  - assert (F := ends_with_form E). set (y := removelast x) in *.
    split.
    + intros D y' Ey. assert (y' = y) by (rewrite F in Ey; apply app_inj_tail in Ey; symmetry; apply Ey). subst y'.
      destruct (is_combined y) eqn:C.
      * rewrite (dual_combined C) in D. injection D as D. rewrite F in D.
        assert (Z := is_combined_star y). rewrite <- D in Z. rewrite is_combined_combine in Z. discriminate.
      * split; [|reflexivity]. rewrite (dual_plain C) in D. destruct (ends_with star y) eqn:E2; [|reflexivity].
        injection D as D. assert (F2 := ends_with_form E2).
        apply (f_equal (@List.length ascii)) in D, F, F2. rewrite app_length in F, F2. cbn in F, F2. lia.
    + intros G. destruct (G y F) as [G1 G2]. rewrite (dual_plain G2), G1, <- F. reflexivity.
  - split; [|].
    + intros _ y Ey. exfalso. rewrite Ey in E. rewrite ends_with_app in E. discriminate.
    + intros _. rewrite (dual_plain (is_combined_star x)), ends_with_app, removelast_last. reflexivity.
Qed.

Lemma removelast_In : forall (x : str) c, In c (removelast x) -> In c x.
Proof.
  intros x c H. destruct x as [|d x]; [exact H|].
  assert (NE : d :: x <> []) by discriminate. rewrite (app_removelast_last "0"%char NE).
  apply in_or_app. left. exact H.
Qed.

Lemma starts_removelast : forall c x, starts_with c x = false -> starts_with c (removelast x) = false.
Proof. intros c [|d [|e x]] H; auto. Qed.

Lemma dual_clean_aux : forall n x, (List.length x <= n)%nat -> ~ In dot x -> starts_with qm x = false -> clean (dual_leg_label (Some x)).
Proof.
  induction n as [|n IH]; intros x L D Q.
  - destruct x; [|cbn in L; lia]. cbn. split; [intros [E|[]]; discriminate | reflexivity].
  - destruct (is_combined x) eqn:C.
    + rewrite (dual_combined C). assert (F := combined_form C).
      assert (DI : ~ In dot (inner x)).
      { intro E. apply D. rewrite F. right. apply in_or_app. left. exact E. }
      rewrite (split_dots_nodot DI).
      cbn [map dual_label_list rev]. cbn [clean]. unfold dual_label_list. cbn [map rev app].
      assert (CL : clean (dual_leg_label (part_label (inner x)))).
      { unfold part_label. destruct (starts_with qm (inner x)) eqn:Q2; [exact I|].
        apply IH; auto. apply (f_equal (@List.length ascii)) in F. cbn in F. rewrite app_length in F. cbn in F. lia. }
      unfold combine_leg_labels. cbn [join_labels]. split; [|reflexivity].
      intros [E|E]; [discriminate|]. apply in_app_or in E as [E|[E|[]]]; [|discriminate].
      destruct (dual_leg_label (part_label (inner x))) as [y|]; cbn [label_text] in E;
        [exact (proj1 CL E) | exact (placeholder_no_dot E)].
    + rewrite (dual_plain C). destruct (ends_with star x); cbn [clean]; split.
      * intro E. apply D. apply removelast_In. exact E.
      * apply starts_removelast. exact Q.
      * intro E. apply in_app_or in E as [E|[E|[]]]; [exact (D E) | discriminate].
      * destruct x; [reflexivity | exact Q].
Qed.

Lemma dual_clean : forall l, clean l -> clean (dual_leg_label l).
Proof. intros [x|] H; [|exact I]. destruct H as [H1 H2]. exact (dual_clean_aux (le_n _) H1 H2). Qed.

Lemma dual_label_list_clean : forall labels, Forall clean labels -> Forall clean (dual_label_list labels).
Proof.
  intros labels F. unfold dual_label_list. apply Forall_rev. apply Forall_map.
  eapply Forall_impl; [|exact F]. intros l Hl. apply dual_clean. exact Hl.
Qed.

(* dual of a combined label: combined label of the reversed duals *)
Lemma dual_combine : forall labels o, labels <> [] -> Forall clean labels ->
  dual_leg_label (Some (combine_leg_labels labels o)) = Some (combine_leg_labels (rev (map dual_leg_label labels)) 0).
Proof.
  intros labels o NE F. rewrite (dual_combined (is_combined_combine _ _)), inner_combine, join_labels_texts.
  rewrite split_join; [| destruct labels; [congruence | discriminate] | apply texts_nodot; exact F].
  rewrite texts_parts by exact F. reflexivity.
Qed.

Lemma dual_combine_involutive : forall labels, labels <> [] -> Forall clean labels ->
  Forall (fun l => dual_leg_label (dual_leg_label l) = l) labels ->
  dual_leg_label (dual_leg_label (Some (combine_leg_labels labels 0))) = Some (combine_leg_labels labels 0).
Proof.
  intros labels NE F I. rewrite dual_combine by assumption.
  rewrite dual_combine.
  - rewrite map_rev, rev_involutive, map_map. f_equal. f_equal.
    rewrite <- (map_id labels) at 2. apply map_ext_in. intros l Hl. exact (proj1 (Forall_forall _ _) I l Hl).
  - destruct labels as [|l labels]; [congruence|]. cbn [map rev]. intro E. apply app_eq_nil in E as [_ E]. discriminate.
  - apply dual_label_list_clean. exact F.
Qed.

Lemma clean_part : forall p, ~ In dot p -> clean (part_label p).
Proof. intros p D. unfold part_label. destruct (starts_with qm p) eqn:Q; [exact I | split; assumption]. Qed.

(* ---- nested combinations without unlabelled legs ---- *)
Definition atom (a : str) : Prop := ~ In dot a /\ ~ In lpar a /\ ~ In rpar a /\ ~ In star a /\ ~ In qm a.

(* a fragment between two dots of a nested label: opening brackets, atom, optional star, closing brackets *)
Definition frag (i : nat) (a : str) (b : bool) (j : nat) : str :=
  repeat lpar i ++ (a ++ if b then [star] else []) ++ repeat rpar j.
Definition is_frag (p : str) : Prop := exists i a b j, atom a /\ p = frag i a b j.

Lemma repeat_snoc : forall (A : Type) (x : A) n, repeat x (S n) = repeat x n ++ [x].
Proof. intros A x n. rewrite <- repeat_cons. reflexivity. Qed.

Lemma frag_nodot : forall i a b j, atom a -> ~ In dot (frag i a b j).
Proof.
  intros i a b j H E. unfold frag in E. apply in_app_or in E as [E|E].
  - apply repeat_spec in E. discriminate.
  - apply in_app_or in E as [E|E].
    + apply in_app_or in E as [E|E]; [exact (proj1 H E)|]. destruct b; [destruct E as [E|[]]; discriminate | destruct E].
    + apply repeat_spec in E. discriminate.
Qed.

Lemma frag_noq : forall i a b j, atom a -> starts_with qm (frag i a b j) = false.
Proof.
  intros i a b j (_ & _ & _ & _ & H). unfold frag. destruct i as [|i]; [|reflexivity].
  cbn [repeat app]. destruct a as [|c a].
  - destruct b; [reflexivity|]. destruct j; reflexivity.
  - cbn [app starts_with]. destruct (Ascii.eqb_spec qm c) as [ E |]; [|reflexivity].
    exfalso. apply H. left. symmetry. exact E.
Qed.

Lemma frag_SS : forall i a b j, frag (S i) a b (S j) = combine_leg_labels [Some (frag i a b j)] 0.
Proof.
  intros i a b j. unfold frag, combine_leg_labels. cbn [join_labels label_text].
  rewrite (repeat_snoc rpar j). cbn [repeat app]. f_equal. rewrite <- !app_assoc. reflexivity.
Qed.

Lemma atom_starts : forall c a, ~ In c a -> starts_with c a = false.
Proof.
  intros c [|d a] H; [reflexivity|]. cbn [starts_with]. destruct (Ascii.eqb_spec c d) as [ E |]; [|reflexivity].
  exfalso. apply H. left. symmetry. exact E.
Qed.
Lemma atom_ends : forall c a, ~ In c a -> ends_with c a = false.
Proof. intros c a H. apply atom_starts. intro E. apply in_rev in E. exact (H E). Qed.

Lemma ends_with_app2 : forall c a b, b <> [] -> ends_with c (a ++ b) = ends_with c b.
Proof.
  intros c a b H. destruct (exists_last H) as [b' [d ->]]. rewrite app_assoc, !ends_with_snoc. reflexivity.
Qed.

Lemma frag_not_combined : forall i a b j, atom a -> i = O \/ j = O -> is_combined (frag i a b j) = false.
Proof.
  intros i a b j (_ & HL & HR & _) H. unfold is_combined, frag. destruct H as [ -> | -> ].
  - cbn [repeat app]. apply andb_false_intro1. destruct a as [|c a].
    + destruct b; [reflexivity|]. destruct j; reflexivity.
    + rewrite <- app_assoc. cbn [app starts_with]. destruct (Ascii.eqb_spec lpar c) as [ E |]; [|reflexivity].
      exfalso. apply HL. left. symmetry. exact E.
  - cbn [repeat]. rewrite app_nil_r. apply andb_false_intro2. rewrite app_assoc. destruct b.
    + apply ends_with_snoc.
    + rewrite app_nil_r. destruct a as [|c a].
      * rewrite app_nil_r. apply atom_ends. intro E. apply repeat_spec in E. discriminate.
      * rewrite ends_with_app2 by discriminate. apply atom_ends. exact HR.
Qed.

Lemma frag_star_end : forall i a b j, atom a -> ends_with star (frag i a b j) = (b && Nat.eqb j 0).
Proof.
  intros i a b j (_ & HL & HR & HS & _). unfold frag. destruct j as [|j].
  - cbn [repeat]. rewrite app_nil_r, app_assoc. destruct b.
    + apply ends_with_snoc.
    + rewrite app_nil_r. apply atom_ends. intro E. apply in_app_or in E as [E|E]; [apply repeat_spec in E; discriminate | exact (HS E)].
  - rewrite repeat_snoc, !app_assoc, ends_with_snoc. rewrite andb_false_r. reflexivity.
Qed.

Lemma frag_involutive : forall n i a b j, (i <= n)%nat -> atom a ->
  dual_leg_label (dual_leg_label (Some (frag i a b j))) = Some (frag i a b j).
Proof.
  induction n as [|n IH]; intros i a b j Hi Ha.
  - assert (i = O) by lia. subst i. apply dual_plain_involutive; [apply frag_not_combined; auto|].
    intros y Ey.
    assert (E : ends_with star (frag 0 a b j) = true) by (rewrite Ey; apply ends_with_app).
    rewrite (frag_star_end _ _ _ Ha) in E. apply andb_prop in E as [ -> E]. apply Nat.eqb_eq in E. subst j.
    assert (y = frag 0 a false 0).
    { unfold frag in Ey |- *. cbn [repeat app] in Ey |- *. rewrite !app_nil_r in *. apply app_inj_tail in Ey. symmetry. apply Ey. }
    subst y. split; [rewrite (frag_star_end _ _ _ Ha); reflexivity | apply frag_not_combined; auto].
  - destruct i as [|i]; [apply IH; [lia | exact Ha]|].
    destruct j as [|j].
    + apply dual_plain_involutive; [apply frag_not_combined; auto|].
      intros y Ey.
      assert (E : ends_with star (frag (S i) a b 0) = true) by (rewrite Ey; apply ends_with_app).
      rewrite (frag_star_end _ _ _ Ha) in E. apply andb_prop in E as [ -> _].
      assert (y = frag (S i) a false 0).
      { unfold frag in Ey |- *. cbn [repeat] in Ey |- *. rewrite !app_nil_r in *. rewrite app_assoc in Ey. apply app_inj_tail in Ey. symmetry. apply Ey. }
      subst y. split; [rewrite (frag_star_end _ _ _ Ha); reflexivity | apply frag_not_combined; auto].
    + rewrite frag_SS. apply dual_combine_involutive.
      * discriminate.
      * constructor; [|constructor]. split; [apply frag_nodot; exact Ha | apply frag_noq; exact Ha].
      * constructor; [|constructor]. apply IH; [lia | exact Ha].
Qed.

(* names of legs formed by the user: an atom or starred atom, or a combination of such names, to any depth *)
Inductive nested : str -> Prop :=
| nested_atom : forall a (b : bool), atom a -> nested (a ++ if b then [star] else [])
| nested_combine : forall names, names <> [] -> Forall nested names -> nested (combine_leg_labels (map Some names) 0).

Lemma nested_ind' (P : str -> Prop) :
  (forall a (b : bool), atom a -> P (a ++ if b then [star] else [])) ->
  (forall names, names <> [] -> Forall nested names -> Forall P names -> P (combine_leg_labels (map Some names) 0)) ->
  forall x, nested x -> P x.
Proof.
  intros HA HC. fix IH 2. intros x [a b Ha | names NE F].
  - exact (HA a b Ha).
  - apply HC; [exact NE | exact F |].
    clear NE. induction F as [|y ys Hy Hys IHys]; constructor; [exact (IH y Hy) | exact IHys].
Qed.

Lemma split_dots_app_gen : forall a b cur, exists front lst,
  split_dots cur a = front ++ [lst] /\
  split_dots cur (a ++ b) = front ++ split_dots (rev lst) b.
Proof.
  induction a as [|c a IH]; intros b cur; cbn [split_dots app].
  - exists [], (rev cur). rewrite rev_involutive. split; reflexivity.
  - destruct (Ascii.eqb c dot).
    + destruct (IH b []) as (front & lst & E1 & E2). exists (rev cur :: front), lst.
      rewrite E1, E2. split; reflexivity.
    + apply IH.
Qed.

Lemma split_snoc : forall a c, c <> dot -> exists front lst,
  split_dots [] a = front ++ [lst] /\ split_dots [] (a ++ [c]) = front ++ [lst ++ [c]].
Proof.
  intros a c H. destruct (split_dots_app_gen a [c] []) as (front & lst & E1 & E2).
  exists front, lst. split; [exact E1|]. rewrite E2. cbn [split_dots].
  destruct (Ascii.eqb_spec c dot) as [ E |]; [congruence|]. cbn [rev]. rewrite rev_involutive. reflexivity.
Qed.

Lemma split_cur : forall x cur, exists h t, split_dots cur x = (rev cur ++ h) :: t /\ split_dots [] x = h :: t.
Proof.
  induction x as [|c x IH]; intros cur; cbn [split_dots].
  - exists [], []. rewrite app_nil_r. split; reflexivity.
  - destruct (Ascii.eqb c dot) eqn:E.
    + exists [], (split_dots [] x). rewrite app_nil_r. split; reflexivity.
    + destruct (IH (c :: cur)) as (h & t & E1 & E2). destruct (IH [c]) as (h' & t' & E3 & E4).
      rewrite E4 in E2. injection E2 as -> ->. exists (c :: h), t. rewrite E1, E3. cbn [rev]. rewrite <- app_assoc.
      split; reflexivity.
Qed.

Lemma is_frag_lpar : forall p, is_frag p -> is_frag (lpar :: p).
Proof. intros p (i & a & b & j & Ha & ->). exists (S i), a, b, j. split; [exact Ha | reflexivity]. Qed.
Lemma is_frag_rpar : forall p, is_frag p -> is_frag (p ++ [rpar]).
Proof.
  intros p (i & a & b & j & Ha & ->). exists i, a, b, (S j). split; [exact Ha|].
  unfold frag. rewrite repeat_snoc, <- !app_assoc. reflexivity.
Qed.

Lemma frags_lpar : forall x, Forall is_frag (split_dots [] x) -> Forall is_frag (split_dots [] (lpar :: x)).
Proof.
  intros x F. cbn [split_dots]. change (Ascii.eqb lpar dot) with false. cbn [negb].
  destruct (split_cur x [lpar]) as (h & t & E1 & E2). rewrite E1. rewrite E2 in F.
  inversion F as [|? ? Hh Ht]; subst. constructor; [exact (is_frag_lpar Hh) | exact Ht].
Qed.

Lemma frags_rpar : forall x, Forall is_frag (split_dots [] x) -> Forall is_frag (split_dots [] (x ++ [rpar])).
Proof.
  intros x F. destruct (split_snoc x (c := rpar)) as (front & lst & E1 & E2); [discriminate|].
  rewrite E2. rewrite E1 in F. apply Forall_app in F as [F1 F2]. apply Forall_app. split; [exact F1|].
  inversion F2; subst. constructor; [apply is_frag_rpar; assumption | constructor].
Qed.

Lemma frags_join : forall names, names <> [] -> Forall (fun x => Forall is_frag (split_dots [] x)) names ->
  Forall is_frag (split_dots [] (join names)).
Proof.
  induction names as [|x names IH]; intros NE F; [congruence|].
  inversion F as [|? ? Hx Hr]; subst. destruct names as [|y names]; [exact Hx|].
  rewrite join_cons by discriminate.
  destruct (split_dots_app_gen x (dot :: join (y :: names)) []) as (front & lst & E1 & E2).
  rewrite E2. cbn [split_dots]. rewrite Ascii.eqb_refl, rev_involutive. rewrite E1 in Hx.
  apply Forall_app in Hx as [H1 H2]. apply Forall_app. split; [exact H1|].
  inversion H2; subst. constructor; [assumption | apply IH; [discriminate | exact Hr]].
Qed.

Lemma texts_some : forall names n, texts n (map Some names) = names.
Proof. induction names; intros n; cbn [map texts label_text]; f_equal; auto. Qed.

Lemma nested_frags : forall x, nested x -> Forall is_frag (split_dots [] x).
Proof.
  intros x H. induction H as [a b Ha | names NE _ F] using nested_ind'.
  - assert (E : a ++ (if b then [star] else []) = frag 0 a b 0).
    { unfold frag. cbn [repeat app]. rewrite app_nil_r. reflexivity. }
    rewrite E, split_dots_nodot by (apply frag_nodot; exact Ha). constructor; [|constructor].
    exists O, a, b, O. split; [exact Ha | reflexivity].
  - unfold combine_leg_labels. apply frags_lpar, frags_rpar. rewrite join_labels_texts, texts_some.
    apply frags_join; assumption.
Qed.

Lemma frags_dual : forall parts, parts <> [] -> Forall is_frag parts ->
  dual_leg_label (dual_leg_label (Some (lpar :: join parts ++ [rpar]))) = Some (lpar :: join parts ++ [rpar]).
Proof.
  intros parts NE F.
  assert (E : lpar :: join parts ++ [rpar] = combine_leg_labels (map Some parts) 0).
  { unfold combine_leg_labels. rewrite join_labels_texts, texts_some. reflexivity. }
  rewrite E. apply dual_combine_involutive.
  - destruct parts; [congruence | discriminate].
  - apply Forall_map. eapply Forall_impl; [|exact F]. intros p (i & a & b & j & Ha & ->).
    split; [apply frag_nodot; exact Ha | apply frag_noq; exact Ha].
  - apply Forall_map. eapply Forall_impl; [|exact F]. intros p (i & a & b & j & Ha & ->).
    exact (frag_involutive b j (le_n i) Ha).
Qed.

Lemma nested_involutive : forall x, nested x -> dual_leg_label (dual_leg_label (Some x)) = Some x.
Proof.
  intros x [a b Ha | names NE F].
  - assert (E : a ++ (if b then [star] else []) = frag 0 a b 0).
    { unfold frag. cbn [repeat app]. rewrite app_nil_r. reflexivity. }
    rewrite E. exact (frag_involutive b O (le_n O) Ha).
  - unfold combine_leg_labels. rewrite join_labels_texts, texts_some.
    rewrite <- (join_split (join names) []) at 1 2. cbn [rev app].
    assert (FF : Forall is_frag (split_dots [] (join names))).
    { apply frags_join; [exact NE|]. eapply Forall_impl; [|exact F]. intros y Hy. apply nested_frags. exact Hy. }
    rewrite (frags_dual (@split_dots_nil (join names) []) FF).
    rewrite (join_split (join names) []). reflexivity.
Qed.

(* ---- label state ---- *)
Lemma map_find_erase_same : forall m k, map_find (map_erase m k) k = None.
Proof.
  induction m as [|[k' v] m IH]; intros k; [reflexivity|]. cbn [map_erase filter fst]. unfold str_eqb.
  destruct (str_eq_dec k' k) as [E|N]; cbn [negb]; [apply IH|].
  cbn [map_find]. destruct (str_eq_dec k' k); [contradiction | apply IH].
Qed.
Lemma map_find_erase_other : forall m k k2, k <> k2 -> map_find (map_erase m k) k2 = map_find m k2.
Proof.
  induction m as [|[k' v] m IH]; intros k k2 N; [reflexivity|]. cbn [map_erase filter fst map_find]. unfold str_eqb.
  destruct (str_eq_dec k' k) as [E|N2]; cbn [negb].
  - subst k'. destruct (str_eq_dec k k2); [contradiction | apply IH; exact N].
  - cbn [map_find]. destruct (str_eq_dec k' k2); [reflexivity | apply IH; exact N].
Qed.
Lemma map_find_set_same : forall m k v, map_find (map_set m k v) k = Some v.
Proof. intros m k v. cbn [map_set map_find]. destruct (str_eq_dec k k); [reflexivity | contradiction]. Qed.
Lemma map_find_set_other : forall m k v k2, k <> k2 -> map_find (map_set m k v) k2 = map_find m k2.
Proof.
  intros m k v k2 N. cbn [map_set map_find]. destruct (str_eq_dec k k2); [contradiction | apply map_find_erase_other; exact N].
Qed.

Lemma has_duplicates_aux_spec : forall labels seen,
  has_duplicates_aux seen labels = false <->
  NoDup (present labels) /\ (forall x, In x (present labels) -> ~ In x seen).
Proof.
  induction labels as [|[x|] labels IH]; intros seen; cbn [has_duplicates_aux present flat_map app].
  - split; [intros _; split; [constructor | intros x []] | reflexivity].
  - fold (present labels). destruct (in_dec str_eq_dec x seen) as [I|N].
    + split; [discriminate|]. intros [_ H]. exfalso. exact (H x (or_introl eq_refl) I).
    + rewrite IH. split.
      * intros [H1 H2]. split.
        -- constructor; [|exact H1]. intro E. exact (H2 x E (or_introl eq_refl)).
        -- intros y [ <- | Hy ]; [exact N|]. intro E. exact (H2 y Hy (or_intror E)).
      * intros [H1 H2]. inversion H1; subst. split; [assumption|]. intros y Hy [ <- | E ]; [contradiction|].
        exact (H2 y (or_intror Hy) E).
  - apply IH.
Qed.

Lemma has_duplicates_spec : forall labels, has_duplicates labels = false <-> NoDup (present labels).
Proof.
  intros labels. unfold has_duplicates. rewrite has_duplicates_aux_spec. split; [intros [H _]; exact H|].
  intros H. split; [exact H | intros x _ []].
Qed.

Lemma present_In : forall labels x, In x (present labels) <-> In (Some x) labels.
Proof.
  intros labels x. unfold present. rewrite in_flat_map. split.
  - intros [[y|] [H1 H2]]; [|contradiction]. destruct H2 as [ -> | [] ]. exact H1.
  - intros H. exists (Some x). split; [exact H | left; reflexivity].
Qed.

(* no name occurs at two positions *)
Definition distinct_names (labels : list label) : Prop :=
  forall i j x, nth_error labels i = Some (Some x) -> nth_error labels j = Some (Some x) -> i = j.

Lemma distinct_names_spec : forall labels, NoDup (present labels) <-> distinct_names labels.
Proof.
  induction labels as [|l labels IH].
  - split; [intros _ [|i] j x H; discriminate | constructor].
  - unfold distinct_names. destruct l as [y|]; cbn [present flat_map app].
    + fold (present labels). split.
      * intros H. inversion H as [|? ? H1 H2]; subst. rewrite IH in H2.
        intros [|i] [|j] x Ei Ej; cbn [nth_error] in *.
        -- reflexivity.
        -- injection Ei as ->. exfalso. apply H1. apply present_In. exact (nth_error_In _ _ Ej).
        -- injection Ej as ->. exfalso. apply H1. apply present_In. exact (nth_error_In _ _ Ei).
        -- f_equal. exact (H2 i j x Ei Ej).
      * intros H. constructor.
        -- intro E. apply present_In in E. apply In_nth_error in E as [i Ei].
           specialize (H O (S i) y eq_refl Ei). discriminate.
        -- apply IH. intros i j x Ei Ej. specialize (H (S i) (S j) x Ei Ej). lia.
    + fold (present labels). rewrite IH. split.
      * intros H [|i] [|j] x Ei Ej; cbn [nth_error] in *; try discriminate; [f_equal; exact (H i j x Ei Ej)].
      * intros H i j x Ei Ej. specialize (H (S i) (S j) x Ei Ej). lia.
Qed.

Definition lookup_agrees (st : legs) : Prop :=
  forall x i, map_find (lmap st) x = Some i <-> (0 <= i /\ nth_error (lbls st) (Z.to_nat i) = Some (Some x)).
Definition consistent (st : legs) : Prop :=
  num_legs st = Z.of_nat (List.length (lbls st)) /\ distinct_names (lbls st) /\ lookup_agrees st.

Lemma build_from_spec : forall labels n m x i, 0 <= n -> distinct_names labels ->
  (map_find (build_labelmap_from n m labels) x = Some i <->
   (n <= i /\ nth_error labels (Z.to_nat (i - n)) = Some (Some x)) \/
   (~ In (Some x) labels /\ map_find m x = Some i)).
Proof.
  induction labels as [|l labels IH]; intros n m x i Hn D; cbn [build_labelmap_from].
  - split; [intros H; right; split; [intros [] | exact H]|].
    intros [[_ H]|[_ H]]; [destruct (Z.to_nat (i - n)); discriminate | exact H].
  - assert (D' : distinct_names labels).
    { intros a b y Ha Hb. specialize (D (S a) (S b) y Ha Hb). lia. }
    rewrite IH by (assumption || lia).
    assert (SH : forall k, n + 1 <= k -> nth_error (l :: labels) (Z.to_nat (k - n)) = nth_error labels (Z.to_nat (k - (n + 1)))).
    { intros k Hk. replace (Z.to_nat (k - n)) with (S (Z.to_nat (k - (n + 1)))) by lia. reflexivity. }
    split.
    + intros [[H1 H2]|[H1 H2]].
      * left. split; [lia|]. rewrite SH by lia. exact H2.
      * destruct l as [y|].
        -- destruct (str_eq_dec y x) as [ -> | N ].
           ++ rewrite map_find_set_same in H2. injection H2 as <-. left. split; [lia|].
              rewrite Z.sub_diag. reflexivity.
           ++ rewrite map_find_set_other in H2 by exact N. right. split; [|exact H2].
              intros [E|E]; [injection E as E; contradiction | exact (H1 E)].
        -- right. split; [|exact H2]. intros [E|E]; [discriminate | exact (H1 E)].
    + intros [[H1 H2]|[H1 H2]].
      * destruct (Z.eq_dec i n) as [ -> | N ].
        -- rewrite Z.sub_diag in H2. cbn [nth_error Z.to_nat] in H2. injection H2 as ->. right. split.
           ++ intro E. apply In_nth_error in E as [k Ek]. specialize (D O (S k) x eq_refl Ek). discriminate.
           ++ apply map_find_set_same.
        -- left. split; [lia|]. rewrite <- SH by lia. exact H2.
      * right. split; [intro E; apply H1; right; exact E|].
        destruct l as [y|]; [|exact H2]. rewrite map_find_set_other; [exact H2|].
        intros ->. apply H1. left. reflexivity.
Qed.

Lemma build_labelmap_spec : forall labels x i, distinct_names labels ->
  (map_find (build_labelmap labels) x = Some i <-> (0 <= i /\ nth_error labels (Z.to_nat i) = Some (Some x))).
Proof.
  intros labels x i D. unfold build_labelmap. rewrite (build_from_spec [] x i (Z.le_refl 0) D).
  rewrite Z.sub_0_r. cbn [map_find]. split; [intros [H|[_ H]]; [exact H | discriminate] | intros H; left; exact H].
Qed.

Lemma legs_new_consistent : forall labels st, legs_new labels = Ok st -> consistent st /\ lbls st = labels.
Proof.
  intros labels st H. unfold legs_new in H. destruct (has_duplicates labels) eqn:E; [discriminate|].
  apply has_duplicates_spec in E. apply distinct_names_spec in E.
  injection H as <-. cbn. split; [|reflexivity]. split; [reflexivity|]. split; [exact E|].
  intros x i. apply build_labelmap_spec. exact E.
Qed.

Lemma set_labels_debug : forall st labels st', consistent st -> set_labels true st labels = Ok st' ->
  consistent st' /\ lbls st' = labels /\ num_legs st' = num_legs st.
Proof.
  intros st labels st' _ H. unfold set_labels in H. cbn [andb] in H.
  destruct (has_duplicates labels) eqn:E; [discriminate|].
  destruct (Z.eqb_spec (Z.of_nat (List.length labels)) (num_legs st)) as [L|L]; cbn [negb] in H; [|discriminate].
  apply has_duplicates_spec in E. apply distinct_names_spec in E.
  injection H as <-. cbn. split; [|split; reflexivity]. split; [symmetry; exact L|]. split; [exact E|].
  intros x i. apply build_labelmap_spec. exact E.
Qed.

Lemma nth_error_replace : forall (A : Type) (l : list A) i v k, (i < List.length l)%nat ->
  nth_error (firstn i l ++ v :: skipn (S i) l) k = if Nat.eq_dec k i then Some v else nth_error l k.
Proof.
  intros A l. induction l as [|a l IH]; intros i v k H; [cbn in H; lia|].
  destruct i as [|i].
  - cbn [firstn skipn app]. destruct k; cbn [nth_error]; [reflexivity|]. destruct (Nat.eq_dec (S k) 0); [lia | reflexivity].
  - cbn [firstn app]. change (skipn (S (S i)) (a :: l)) with (skipn (S i) l). cbn [List.length] in H. destruct k; cbn [nth_error].
    + destruct (Nat.eq_dec 0 (S i)); [lia | reflexivity].
    + rewrite IH by lia. destruct (Nat.eq_dec k i), (Nat.eq_dec (S k) (S i)); try lia; reflexivity.
Qed.

Lemma to_valid_idx_spec : forall idx len p, to_valid_idx idx len = Some p ->
  0 <= p < len /\ (p = idx \/ p = idx + len).
Proof.
  intros idx len p H. unfold to_valid_idx in H.
  destruct (Z.ltb_spec idx (- len)), (Z.leb_spec len idx); cbn in H; try discriminate.
  destruct (Z.ltb_spec idx 0); injection H as <-; lia.
Qed.

Lemma existsb_label : forall labels l, existsb (fun l' => label_eqb l' l) labels = false <-> ~ In l labels.
Proof.
  intros labels l. split.
  - intros H I. assert (T : existsb (fun l' => label_eqb l' l) labels = true).
    { apply existsb_exists. exists l. split; [exact I|]. unfold label_eqb. destruct (label_eq_dec l l); [reflexivity | contradiction]. }
    rewrite H in T. discriminate.
  - intros H. destruct (existsb (fun l' => label_eqb l' l) labels) eqn:E; [|reflexivity].
    apply existsb_exists in E as [l' [I E]]. unfold label_eqb in E. destruct (label_eq_dec l' l); [subst; contradiction | discriminate].
Qed.

Lemma nth_error_split_iff : forall (A : Type) (l : list A) i v, (i < List.length l)%nat ->
  (~ In v (firstn i l) /\ ~ In v (skipn (S i) l)) <-> (forall k, k <> i -> nth_error l k <> Some v).
Proof.
  intros A l. induction l as [|a l IH]; intros i v H; [cbn in H; lia|].
  destruct i as [|i].
  - cbn [firstn]. change (skipn 1 (a :: l)) with l. split.
    + intros [_ H2] [|k] Hk E; [lia|]. exact (H2 (nth_error_In l k E)).
    + intros G. split; [intros []|]. intro I. apply In_nth_error in I as [k Ek]. exact (G (S k) ltac:(lia) Ek).
  - change (skipn (S (S i)) (a :: l)) with (skipn (S i) l). cbn [firstn List.length] in *. split.
    + intros [H1 H2] [|k] Hk E; cbn [nth_error] in E.
      * injection E as ->. apply H1. left. reflexivity.
      * destruct (proj1 (IH i v ltac:(lia))) with (k := k); [|lia|exact E].
        split; [intro I; apply H1; right; exact I | exact H2].
    + intros G. destruct (proj2 (IH i v ltac:(lia))) as [G1 G2].
      { intros k Hk. exact (G (S k) ltac:(lia)). }
      split; [|exact G2]. intros [ -> | I ]; [exact (G O ltac:(lia) eq_refl) | exact (G1 I)].
Qed.

(* set_label succeeds exactly when the index is valid and no other leg carries the label *)
Lemma set_label_spec : forall st pos l, num_legs st = Z.of_nat (List.length (lbls st)) ->
  match to_valid_idx pos (num_legs st) with
  | None => set_label st pos l = Throw
  | Some p =>
    ((exists k, k <> Z.to_nat p /\ nth_error (lbls st) k = Some l) -> set_label st pos l = Throw) /\
    ((forall k, k <> Z.to_nat p -> nth_error (lbls st) k <> Some l) ->
     exists st', set_label st pos l = Ok st' /\ num_legs st' = num_legs st /\
       (forall k, nth_error (lbls st') k = if Nat.eq_dec k (Z.to_nat p) then Some l else nth_error (lbls st) k))
  end.
Proof.
  intros st pos l L. destruct (to_valid_idx pos (num_legs st)) as [p|] eqn:V; unfold set_label; rewrite V; [|reflexivity].
  apply to_valid_idx_spec in V as [V _]. assert (Hp : (Z.to_nat p < List.length (lbls st))%nat) by lia.
  assert (I := nth_error_split_iff l Hp).
  destruct (existsb _ (firstn _ _)) eqn:E1; [|destruct (existsb _ (skipn _ _)) eqn:E2].
  - split; [reflexivity|]. intros G. exfalso. apply I in G as [G _]. apply existsb_label in G. rewrite E1 in G. discriminate.
  - split; [reflexivity|]. intros G. exfalso. apply I in G as [_ G]. apply existsb_label in G. rewrite E2 in G. discriminate.
  - apply existsb_label in E1, E2. split.
    + intros (k & Hk & E). exfalso. exact (proj1 I (conj E1 E2) k Hk E).
    + intros _. eexists. split; [reflexivity|]. split; [reflexivity|]. intros k. cbn [lbls].
      apply nth_error_replace. exact Hp.
Qed.

Lemma length_replace : forall (A : Type) (l : list A) i v, (i < List.length l)%nat ->
  List.length (firstn i l ++ v :: skipn (S i) l) = List.length l.
Proof. intros A l i v H. rewrite app_length, firstn_length. cbn [List.length]. rewrite skipn_length. lia. Qed.

Lemma set_label_consistent : forall st pos l st', consistent st -> set_label st pos l = Ok st' -> consistent st'.
Proof.
  intros st pos l st' (L & D & A) H. assert (S := set_label_spec pos l L).
  destruct (to_valid_idx pos (num_legs st)) as [p|] eqn:V; [|rewrite S in H; discriminate].
  assert (V' := V). apply to_valid_idx_spec in V' as [Vp _].
  assert (Hp : (Z.to_nat p < List.length (lbls st))%nat) by lia.
  assert (NE : forall k, k <> Z.to_nat p -> nth_error (lbls st) k <> Some l).
  { intros k Hk E. rewrite (proj1 S) in H; [discriminate | exists k; split; assumption]. }
  clear S. unfold set_label in H. rewrite V in H.
  destruct (existsb _ (firstn _ _)); [discriminate|]. destruct (existsb _ (skipn _ _)); [discriminate|].
  injection H as <-.
  assert (NTH : forall k, nth_error (firstn (Z.to_nat p) (lbls st) ++ l :: skipn (S (Z.to_nat p)) (lbls st)) k
                = if Nat.eq_dec k (Z.to_nat p) then Some l else nth_error (lbls st) k).
  { intros k. apply nth_error_replace. exact Hp. }
  split; [|split].
  - cbn [num_legs lbls]. rewrite length_replace by exact Hp. exact L.
  - cbn [lbls]. intros i j x. rewrite !NTH.
    destruct (Nat.eq_dec i (Z.to_nat p)), (Nat.eq_dec j (Z.to_nat p)); intros Ei Ej; try congruence.
    + exfalso. injection Ei as ->. exact (NE j n Ej).
    + exfalso. injection Ej as ->. exact (NE i n Ei).
    + exact (D i j x Ei Ej).
  - intros x i. cbn [lmap lbls]. rewrite NTH.
    assert (OLD : forall y, nth (Z.to_nat p) (lbls st) None = Some y -> nth_error (lbls st) (Z.to_nat p) = Some (Some y)).
    { intros y E. destruct (nth_error (lbls st) (Z.to_nat p)) as [v|] eqn:E2.
      - rewrite (nth_error_nth _ _ None E2) in E. congruence.
      - apply nth_error_None in E2. lia. }
    set (m1 := match nth (Z.to_nat p) (lbls st) None with Some old => map_erase (lmap st) old | None => lmap st end).
    assert (M1 : map_find m1 x = Some i <-> (0 <= i /\ Z.to_nat i <> Z.to_nat p /\ nth_error (lbls st) (Z.to_nat i) = Some (Some x))).
    { unfold m1. destruct (nth (Z.to_nat p) (lbls st) None) as [old|] eqn:EO.
      - destruct (str_eq_dec old x) as [ -> | N ].
        + rewrite map_find_erase_same. split; [discriminate|]. intros (H1 & H2 & H3).
          exfalso. apply H2. exact (D _ _ x H3 (OLD x eq_refl)).
        + rewrite map_find_erase_other by exact N. rewrite (A x i). split.
          * intros [H1 H2]. split; [exact H1|]. split; [|exact H2]. intros E. rewrite E, (OLD old eq_refl) in H2. congruence.
          * intros (H1 & _ & H2). split; assumption.
      - rewrite (A x i). split.
        + intros [H1 H2]. split; [exact H1|]. split; [|exact H2]. intros E. rewrite E in H2.
          rewrite (nth_error_nth _ _ None H2) in EO. discriminate.
        + intros (H1 & _ & H2). split; assumption. }
    destruct (Nat.eq_dec (Z.to_nat i) (Z.to_nat p)) as [E|N].
    + destruct l as [y|].
      * destruct (str_eq_dec y x) as [ -> | Ny ].
        -- rewrite map_find_set_same. split; [intros H; injection H as <-; split; [lia | reflexivity]|].
           intros [H1 _]. f_equal. lia.
        -- rewrite map_find_set_other by exact Ny. rewrite M1. split; [intros (_ & H & _); contradiction | intros [_ H]; congruence].
      * rewrite M1. split; [intros (_ & H & _); contradiction | intros [_ H]; congruence].
    + destruct l as [y|].
      * destruct (str_eq_dec y x) as [ -> | Ny ].
        -- rewrite map_find_set_same. split; [intros H; injection H as <-; contradiction|].
           intros [_ H]. exfalso. exact (NE _ N H).
        -- rewrite map_find_set_other by exact Ny. rewrite M1. tauto.
      * rewrite M1. tauto.
Qed.

Lemma step_consistent : forall st o st', consistent st -> step true st o = Ok st' -> consistent st'.
Proof.
  intros st [p l|labels|m] st' C H; cbn [step] in H.
  - exact (set_label_consistent C H).
  - exact (proj1 (set_labels_debug C H)).
  - exact (proj1 (set_labels_debug C H)).
Qed.

Lemma run_consistent : forall ops st st', consistent st -> run true st ops = Some st' -> consistent st' /\ num_legs st' = num_legs st.
Proof.
  induction ops as [|o ops IH]; intros st st' C H; cbn [run] in H.
  - injection H as <-. split; [exact C | reflexivity].
  - destruct (step true st o) as [st1| |] eqn:E; [| exact (IH _ _ C H) | discriminate].
    assert (C1 := step_consistent C E). destruct (IH _ _ C1 H) as [C2 N]. split; [exact C2|]. rewrite N.
    destruct o as [p l|labels|m]; cbn [step] in E.
    + assert (S := set_label_spec p l (proj1 C)). unfold set_label in E. destruct (to_valid_idx p (num_legs st)); [|discriminate].
      destruct (existsb _ (firstn _ _)); [discriminate|]. destruct (existsb _ (skipn _ _)); [discriminate|].
      injection E as <-. reflexivity.
    + exact (proj2 (proj2 (set_labels_debug C E))).
    + exact (proj2 (proj2 (set_labels_debug C E))).
Qed.

Lemma get_leg_idx_label : forall st x, consistent st ->
  (forall i, get_leg_idx st (inr x) = Ok i <-> (0 <= i /\ nth_error (lbls st) (Z.to_nat i) = Some (Some x))) /\
  (get_leg_idx st (inr x) = Throw <-> ~ In (Some x) (lbls st)).
Proof.
  intros st x (L & D & A). cbn [get_leg_idx]. split.
  - intros i. rewrite <- (A x i). destruct (map_find (lmap st) x) as [j|]; split; intros H; congruence.
  - destruct (map_find (lmap st) x) as [j|] eqn:E.
    + apply A in E as [_ E]. split; [discriminate|]. intros N. exfalso. exact (N (nth_error_In _ _ E)).
    + split; [|reflexivity]. intros _ I. apply In_nth_error in I as [k Ek].
      assert (F : map_find (lmap st) x = Some (Z.of_nat k)).
      { apply A. split; [lia|]. rewrite Nat2Z.id. exact Ek. }
      rewrite E in F. discriminate.
Qed.

Lemma has_label_spec : forall st x, has_label st x = true <-> In (Some x) (lbls st).
Proof.
  intros st x. unfold has_label. rewrite existsb_exists. split.
  - intros [l [I E]]. unfold label_eqb in E. destruct (label_eq_dec (Some x) l) as [ -> |]; [exact I | discriminate].
  - intros I. exists (Some x). split; [exact I|]. unfold label_eqb. destruct (label_eq_dec (Some x) (Some x)); [reflexivity | contradiction].
Qed.

Lemma subset_b_spec : forall a b, subset_b a b = true <-> incl a b.
Proof.
  intros a b. unfold subset_b. rewrite forallb_forall. split.
  - intros H x I. specialize (H x I). destruct (in_dec str_eq_dec x b); [assumption | discriminate].
  - intros H x I. destruct (in_dec str_eq_dec x b); [reflexivity | exfalso; auto].
Qed.

Lemma present_full : forall labels, forallb (fun l : label => match l with None => false | Some _ => true end) labels = true ->
  labels = map Some (present labels).
Proof.
  induction labels as [|[x|] labels IH]; intros H; [reflexivity| |discriminate].
  cbn [present flat_map app map]. f_equal. apply IH. exact H.
Qed.

Lemma labels_are_spec : forall st want, consistent st ->
  (labels_are st want = true <-> Permutation.Permutation (map Some want) (lbls st)).
Proof.
  intros st want (L & D & A). unfold labels_are, is_fully_labelled.
  destruct (forallb _ (lbls st)) eqn:F; cbn [negb].
  - assert (P := present_full F). assert (ND := proj2 (distinct_names_spec _) D).
    assert (LP : List.length (present (lbls st)) = List.length (lbls st)).
    { rewrite P at 2. rewrite map_length. reflexivity. }
    destruct (Z.eqb_spec (Z.of_nat (List.length want)) (num_legs st)) as [E|N]; cbn [negb].
    + rewrite andb_true_iff, !subset_b_spec. split.
      * intros [H1 H2]. rewrite P. apply Permutation.Permutation_map. apply Permutation.Permutation_sym.
        apply Permutation.NoDup_Permutation_bis; [exact ND | lia | exact H2].
      * intros H. rewrite P in H. assert (I := fun x => @Permutation.Permutation_in _ _ _ (Some x) H).
        split; intros x Hx.
        -- specialize (I x (in_map Some _ _ Hx)). apply in_map_iff in I as [y [E1 E2]]. congruence.
        -- assert (I2 := Permutation.Permutation_in (Some x) (Permutation.Permutation_sym H) (in_map Some _ _ Hx)).
           apply in_map_iff in I2 as [y [E1 E2]]. congruence.
    + split; [discriminate|]. intros H. apply Permutation.Permutation_length in H. rewrite map_length in H. lia.
  - split; [discriminate|]. intros H. exfalso.
    assert (T : forallb (fun l : label => match l with None => false | Some _ => true end) (lbls st) = true).
    { apply forallb_forall. intros l I. apply (Permutation.Permutation_in l (Permutation.Permutation_sym H)) in I.
      apply in_map_iff in I as [y [ <- _ ]]. reflexivity. }
    rewrite F in T. discriminate.
Qed.

Lemma matching_length : forall l1 l2, List.length (get_matching_labels l1 l2) = Nat.min (List.length l1) (List.length l2).
Proof. induction l1 as [|a l1 IH]; intros [|b l2]; cbn [get_matching_labels List.length Nat.min]; auto. Qed.

Lemma matching_nth : forall l1 l2 i a b, nth_error l1 i = Some a -> nth_error l2 i = Some b ->
  nth_error (get_matching_labels l1 l2) i =
  Some (match a, b with None, _ => b | Some _, None => a | Some x, Some y => if str_eq_dec x y then a else None end).
Proof.
  induction l1 as [|a l1 IH]; intros [|b l2] [|i] a' b' Ha Hb; cbn [nth_error get_matching_labels] in *; try discriminate.
  - injection Ha as ->. injection Hb as ->. reflexivity.
  - apply IH; assumption.
Qed.

Lemma matching_comm : forall l1 l2, get_matching_labels l1 l2 = get_matching_labels l2 l1.
Proof.
  induction l1 as [|a l1 IH]; intros [|b l2]; cbn [get_matching_labels]; try reflexivity.
  rewrite IH. f_equal. destruct a as [x|], b as [y|]; try reflexivity.
  destruct (str_eq_dec x y) as [ -> | N ]; [destruct (str_eq_dec y y); [reflexivity | contradiction]|].
  destruct (str_eq_dec y x); [congruence | reflexivity].
Qed.
