(* C42, C43, C44: leg labels.  src/tensors/labels.cpp *)
From Coq Require Import List ZArith Lia Bool Ascii String Permutation.
From Verif Require Import Util LabelsModel LabelsProofs.
Import ListNotations.
Open Scope Z_scope.

(* ------------------------------------------------------------------ C42 *)
(* Full property: for every list of labels a tensor can carry, splitting the combined label gives the list back.
   It is false of the code (theorems below); it holds exactly for non-empty lists in which no name contains a dot
   or starts with a question mark, whatever the numbering offset of the placeholders. *)
Theorem C42_split_of_combine_partial :
  forall (debug : bool) (labels : list (option (list ascii))) (offset : Z) (num : option Z),
  labels <> [] ->
  (forall name, In (Some name) labels -> ~ In "."%char name /\ (forall rest, name <> "?"%char :: rest)) ->
  num = None \/ num = Some (Z.of_nat (List.length labels)) ->
  split_leg_label debug (Some (combine_leg_labels labels offset)) num = Ok labels.
Proof.
  intros debug labels offset num NE H N. apply split_combine; [exact NE | | exact N].
  apply Forall_forall. intros [x|] I; [|exact Logic.I]. destruct (H x I) as [H1 H2]. split; [exact H1|].
  destruct x as [|c x]; [reflexivity|]. cbn [starts_with]. destruct (Ascii.eqb_spec "?"%char c) as [ E |]; [|reflexivity].
  exfalso. apply (H2 x). rewrite E. reflexivity.
Qed.
Print Assumptions C42_split_of_combine_partial.

Example C42_example :
  split_leg_label true (Some (combine_leg_labels [ls "p*"; None; ls "vL"] 3)) (Some 3) = Ok [ls "p*"; None; ls "vL"]
  /\ combine_leg_labels [ls "p*"; None; ls "vL"] 3 = s "(p*.?4.vL)".
Proof. split; reflexivity. Qed.

(* The hypotheses cannot be dropped: a name that is itself a combined label (two legs combined, then combined again)
   does not come back; neither does the empty list nor a name starting with '?'. *)
Theorem C42_nested_labels_refuted :
  exists labels, labels <> [] /\ Forall (fun l => l <> None) labels /\
    (exists inner_labels, In (Some (combine_leg_labels inner_labels 0)) labels) /\
    split_leg_label true (Some (combine_leg_labels labels 0)) None <> Ok labels /\
    split_leg_label true (Some (combine_leg_labels labels 0)) (Some (Z.of_nat (List.length labels))) = Abort.
Proof.
  exists [Some (combine_leg_labels [ls "a"; ls "b"] 0); ls "c"]. split; [discriminate|]. split.
  { repeat constructor; discriminate. }
  split. { exists [ls "a"; ls "b"]. left. reflexivity. }
  split; [vm_compute; discriminate | reflexivity].
Qed.
Print Assumptions C42_nested_labels_refuted.

Theorem C42_empty_and_question_mark_refuted :
  split_leg_label true (Some (combine_leg_labels [] 0)) None <> Ok [] /\
  split_leg_label true (Some (combine_leg_labels [ls "?x"; ls "b"] 0)) None <> Ok [ls "?x"; ls "b"].
Proof. split; vm_compute; discriminate. Qed.
Print Assumptions C42_empty_and_question_mark_refuted.

(* A label that is not of the form "(...)" is rejected with an exception, and an unset label gives unset labels. *)
Theorem C42_split_of_other_labels :
  forall debug,
  (forall x num, (forall y, x <> "("%char :: y ++ [")"%char]) -> split_leg_label debug (Some x) num = Throw) /\
  (forall n, 0 <= n -> split_leg_label debug None (Some n) = Ok (repeat None (Z.to_nat n))).
Proof.
  intros debug. split; [|reflexivity]. intros x num H. unfold split_leg_label.
  destruct (is_combined x) eqn:C; [|reflexivity]. exfalso. exact (H _ (combined_form C)).
Qed.
Print Assumptions C42_split_of_other_labels.

(* ------------------------------------------------------------------ C43 *)
(* Full property: the dual of the dual is the label itself, for every label.  For labels that are not of the form
   "(...)" the exact condition is given: it fails only for "x**" and for "(...)*". *)
Theorem C43_dual_twice_plain :
  forall x, (forall y, x <> "("%char :: y ++ [")"%char]) ->
  (dual_leg_label (dual_leg_label (Some x)) = Some x <->
   ~ (exists y, x = y ++ ["*"; "*"]%char) /\ ~ (exists y, x = "("%char :: y ++ [")"; "*"]%char)).
Proof.
  intros x H.
  assert (C : is_combined x = false).
  { destruct (is_combined x) eqn:C; [|reflexivity]. exfalso. exact (H _ (combined_form C)). }
  rewrite (dual_plain_involutive C). split.
  - intros G. split.
    + intros [y ->]. destruct (G (y ++ ["*"%char])) as [G1 _]; [rewrite <- app_assoc; reflexivity|].
      rewrite ends_with_app in G1. discriminate.
    + intros [y ->]. destruct (G ("("%char :: y ++ [")"%char])) as [_ G2].
      { cbn [app]. rewrite <- app_assoc. reflexivity. }
      unfold is_combined in G2. cbn [starts_with] in G2.
      change ("("%char :: y ++ [")"%char]) with (("("%char :: y) ++ [")"%char]) in G2. rewrite ends_with_app in G2. discriminate.
  - intros [G1 G2] y ->. split.
    + destruct (ends_with "*"%char y) eqn:E; [|reflexivity]. exfalso. apply G1. exists (removelast y).
      rewrite (ends_with_form E) at 1. rewrite <- app_assoc. reflexivity.
    + destruct (is_combined y) eqn:E; [|reflexivity]. exfalso. apply G2. exists (inner y).
      rewrite (combined_form E) at 1. cbn [app]. rewrite <- app_assoc. reflexivity.
Qed.
Print Assumptions C43_dual_twice_plain.

Example C43_plain_example :
  dual_leg_label (ls "p") = ls "p*" /\ dual_leg_label (ls "p*") = ls "p" /\
  dual_leg_label (dual_leg_label (ls "a**")) = ls "a".
Proof. repeat split. Qed.

(* Names built from plain names (no brackets, dots, stars or question marks; optionally starred) by combining legs, to
   any nesting depth: the dual of the dual is the label. *)
Inductive named_label : list ascii -> Prop :=
| named_plain : forall x,
    (forall c, In c x -> ~ In c ["."; "("; ")"; "*"; "?"]%char) -> named_label x
| named_starred : forall x,
    (forall c, In c x -> ~ In c ["."; "("; ")"; "*"; "?"]%char) -> named_label (x ++ ["*"%char])
| named_combined : forall names, names <> [] -> Forall named_label names ->
    named_label (combine_leg_labels (map Some names) 0).

Lemma named_label_nested : forall x, named_label x -> nested x.
Proof.
  assert (AT : forall x, (forall c, In c x -> ~ In c ["."; "("; ")"; "*"; "?"]%char) -> atom x).
  { intros x H. repeat split; intros I; apply (H _ I); cbn; tauto. }
  fix IH 2. intros x [y H | y H | names NE F].
  - rewrite <- (app_nil_r y). exact (nested_atom false (AT y H)).
  - exact (nested_atom true (AT y H)).
  - apply nested_combine; [exact NE|]. clear NE. induction F as [|z zs Hz Hzs IHzs]; constructor; [exact (IH z Hz) | exact IHzs].
Qed.

Theorem C43_dual_twice_named_partial :
  forall x, named_label x -> dual_leg_label (dual_leg_label (Some x)) = Some x.
Proof. intros x H. apply nested_involutive. apply named_label_nested. exact H. Qed.
Print Assumptions C43_dual_twice_named_partial.

Example C43_named_example :
  named_label (s "((a.b*).c)") /\
  dual_leg_label (dual_leg_label (ls "((a.b*).c)")) = ls "((a.b*).c)".
Proof.
  split; [|reflexivity].
  apply (named_combined [s "(a.b*)"; s "c"]); [discriminate|]. constructor; [|constructor; [|constructor]].
  - apply (named_combined [s "a"; s "b*"]); [discriminate|]. constructor; [|constructor; [|constructor]].
    + apply named_plain. intros c [ <- | [] ]. cbn. intuition discriminate.
    + apply (named_starred (s "b")). intros c [ <- | [] ]. cbn. intuition discriminate.
  - apply named_plain. intros c [ <- | [] ]. cbn. intuition discriminate.
Qed.

(* One level of combination, with unlabelled legs allowed: the dual of the combined label is the combined label of the
   reversed dual labels, and taking it twice restores the label. *)
Theorem C43_dual_of_combined :
  forall labels,
  labels <> [] ->
  (forall name, In (Some name) labels -> ~ In "."%char name /\ (forall rest, name <> "?"%char :: rest)) ->
  dual_leg_label (Some (combine_leg_labels labels 0)) = Some (combine_leg_labels (rev (map dual_leg_label labels)) 0)
  /\ ((forall l, In l labels -> dual_leg_label (dual_leg_label l) = l) ->
      dual_leg_label (dual_leg_label (Some (combine_leg_labels labels 0))) = Some (combine_leg_labels labels 0)).
Proof.
  intros labels NE H.
  assert (F : Forall clean labels).
  { apply Forall_forall. intros [x|] I; [|exact Logic.I]. destruct (H x I) as [H1 H2]. split; [exact H1|].
    destruct x as [|c x]; [reflexivity|]. cbn [starts_with]. destruct (Ascii.eqb_spec "?"%char c) as [ E |]; [|reflexivity].
    exfalso. apply (H2 x). rewrite E. reflexivity. }
  split; [exact (dual_combine 0 NE F)|]. intros I. apply dual_combine_involutive; [exact NE | exact F|].
  apply Forall_forall. exact I.
Qed.
Print Assumptions C43_dual_of_combined.

Example C43_dual_of_combined_example :
  dual_leg_label (Some (combine_leg_labels [ls "vL"; None; ls "p*"] 0)) = ls "(p.?1.vL*)".
Proof. reflexivity. Qed.

(* Not every label: placeholders are renumbered (combine_leg_labels with an offset, as combine_legs uses it), an
   unlabelled leg inside a nested combination loses a bracket, and the dual of a nested label is not the combination of
   the duals. *)
Theorem C43_placeholders_refuted :
  (exists labels offset, labels <> [] /\
     dual_leg_label (dual_leg_label (Some (combine_leg_labels labels offset))) <> Some (combine_leg_labels labels offset)) /\
  (exists labels, let nested_label := Some (combine_leg_labels [ls "b"; Some (combine_leg_labels labels 0)] 0) in
     dual_leg_label (dual_leg_label nested_label) <> nested_label) /\
  (exists a b c, dual_leg_label (Some (combine_leg_labels [Some (combine_leg_labels [a; b] 0); c] 0))
     <> Some (combine_leg_labels [dual_leg_label c; dual_leg_label (Some (combine_leg_labels [a; b] 0))] 0)).
Proof.
  split; [|split].
  - exists [None; ls "a"], 2. split; [discriminate | vm_compute; discriminate].
  - exists [ls "a"; None]. vm_compute. discriminate.
  - exists (ls "a"), (ls "b"), (ls "c"). vm_compute. discriminate.
Qed.
Print Assumptions C43_placeholders_refuted.

(* ------------------------------------------------------------------ C44 *)
(* With C++ assertions enabled (the shipped build type is Debug, pyproject.toml:80): whatever sequence of operations is
   issued on a freshly constructed object, as long as the process is alive the number of legs is unchanged, every leg
   has one label, no name is used twice, and looking up a name returns the index of the leg carrying it, or an error
   exactly when no leg carries it. *)
Theorem C44_history_keeps_labels_consistent :
  forall labels st0 ops st,
  legs_new labels = Ok st0 -> run true st0 ops = Some st ->
  num_legs st = Z.of_nat (List.length labels) /\
  List.length (lbls st) = List.length labels /\
  (forall i j x, nth_error (lbls st) i = Some (Some x) -> nth_error (lbls st) j = Some (Some x) -> i = j) /\
  (forall x i, get_leg_idx st (inr x) = Ok i <-> 0 <= i /\ nth_error (lbls st) (Z.to_nat i) = Some (Some x)) /\
  (forall x, get_leg_idx st (inr x) = Throw <-> ~ In (Some x) (lbls st)) /\
  (forall x, has_label st x = true <-> In (Some x) (lbls st)) /\
  (forall want, labels_are st want = true <-> Permutation (map Some want) (lbls st)).
Proof.
  intros labels st0 ops st H0 H. destruct (legs_new_consistent H0) as [C0 L0].
  destruct (run_consistent C0 H) as [C N]. assert (C' := C). destruct C' as (L & D & A).
  assert (N0 := proj1 C0). rewrite L0 in N0.
  split; [congruence|]. split; [apply Nat2Z.inj; congruence|]. split; [exact D|].
  split; [intros x i; apply (proj1 (get_leg_idx_label x C))|].
  split; [intros x; apply (proj2 (get_leg_idx_label x C))|].
  split; [intros x; apply has_label_spec | intros want; apply labels_are_spec; exact C].
Qed.
Print Assumptions C44_history_keeps_labels_consistent.

Example C44_history_example :
  exists st0 st, legs_new [ls "a"; None; ls "b"] = Ok st0 /\
    run true st0 [OpSetLabel 1 (ls "c"); OpSetLabel (-1) (ls "a"); OpRelabel [(s "a", s "b"); (s "b", s "a")];
                  OpSetLabel 0 None] = Some st
    /\ lbls st = [None; ls "c"; ls "a"] /\ get_leg_idx st (inr (s "a")) = Ok 2.
Proof. eexists. eexists. repeat split. Qed.

(* The constructor rejects exactly the lists with a repeated name. *)
Theorem C44_constructor_rejects_duplicates :
  forall labels,
  (legs_new labels = Throw <-> exists i j x, i <> j /\ nth_error labels i = Some (Some x) /\ nth_error labels j = Some (Some x)) /\
  (legs_new labels <> Throw -> exists st, legs_new labels = Ok st /\ lbls st = labels).
Proof.
  intros labels. unfold legs_new.
  assert (S := has_duplicates_spec labels). rewrite distinct_names_spec in S.
  destruct (has_duplicates labels).
  - split; [|congruence]. split; [intros _ | reflexivity].
    destruct (ListDec.NoDup_dec str_eq_dec (present labels)) as [ND|ND].
    { apply distinct_names_spec in ND. apply S in ND. discriminate. }
    assert (X : exists i j x, i <> j /\ nth_error labels i = Some (Some x) /\ nth_error labels j = Some (Some x)).
    { clear S. induction labels as [|[y|] labels IH]; cbn [present flat_map app] in ND.
      - exfalso. apply ND. constructor.
      - fold (present labels) in ND. destruct (in_dec str_eq_dec y (present labels)) as [I|I].
        + apply present_In in I. apply In_nth_error in I as [k Ek]. exists O, (S k), y. split; [discriminate|]. split; [reflexivity | exact Ek].
        + destruct IH as (i & j & x & H1 & H2 & H3); [intro Z; apply ND; constructor; assumption|].
          exists (S i), (S j), x. split; [lia | split; assumption].
      - destruct IH as (i & j & x & H1 & H2 & H3); [exact ND|]. exists (S i), (S j), x. split; [lia | split; assumption]. }
    exact X.
  - split.
    + split; [discriminate|]. intros (i & j & x & H1 & H2 & H3). exfalso. apply H1.
      exact (proj1 S eq_refl i j x H2 H3).
    + intros _. eexists. split; reflexivity.
Qed.
Print Assumptions C44_constructor_rejects_duplicates.

(* Effect of each operation on a consistent object. *)
Theorem C44_set_label_effect :
  forall labels st0 ops st pos l,
  legs_new labels = Ok st0 -> run true st0 ops = Some st ->
  let n := Z.of_nat (List.length labels) in
  let p := if pos <? 0 then pos + n else pos in
  (pos < - n \/ n <= pos -> set_label st pos l = Throw) /\
  (- n <= pos < n -> (exists k, k <> Z.to_nat p /\ nth_error (lbls st) k = Some l) -> set_label st pos l = Throw) /\
  (- n <= pos < n -> (forall k, k <> Z.to_nat p -> nth_error (lbls st) k <> Some l) ->
   exists st', set_label st pos l = Ok st' /\ nth_error (lbls st') (Z.to_nat p) = Some l /\
     (forall k, k <> Z.to_nat p -> nth_error (lbls st') k = nth_error (lbls st) k)).
Proof.
  intros labels st0 ops st pos l H0 H n p. destruct (legs_new_consistent H0) as [C0 L0].
  destruct (run_consistent C0 H) as [C N]. assert (NN : num_legs st = n).
  { rewrite N. destruct C0 as [E _]. rewrite L0 in E. exact E. }
  assert (S := set_label_spec pos l (proj1 C)). rewrite NN in S.
  assert (V : to_valid_idx pos n = if (pos <? - n) || (n <=? pos) then None else Some p) by reflexivity.
  rewrite V in S. clear V.
  destruct (Z.ltb_spec pos (- n)); [|destruct (Z.leb_spec n pos)]; cbn [orb] in S.
  - split; [intros _; exact S|]. split; intros HH; lia.
  - split; [intros _; exact S|]. split; intros HH; lia.
  - destruct S as [S1 S2]. split; [intros HH; lia|]. split; [intros _; exact S1|]. intros _ HH.
    destruct (S2 HH) as (st' & E & _ & G). exists st'. split; [exact E|]. split.
    + rewrite G. destruct (Nat.eq_dec (Z.to_nat p) (Z.to_nat p)); [reflexivity | contradiction].
    + intros k Hk. rewrite G. destruct (Nat.eq_dec k (Z.to_nat p)); [contradiction | reflexivity].
Qed.
Print Assumptions C44_set_label_effect.

(* relabel renames all legs simultaneously (so names can be swapped), keeps unlabelled legs unlabelled, and with
   assertions enabled it goes through exactly when the renamed labels are still distinct. *)
Theorem C44_relabel_effect :
  forall labels st0 ops st m,
  legs_new labels = Ok st0 -> run true st0 ops = Some st ->
  let renamed := map (fun l => match l with None => None | Some x => Some (rename m x) end) (lbls st) in
  ((forall i j x, nth_error renamed i = Some (Some x) -> nth_error renamed j = Some (Some x) -> i = j) ->
     exists st', relabel true st m = Ok st' /\ lbls st' = renamed) /\
  ((exists i j x, i <> j /\ nth_error renamed i = Some (Some x) /\ nth_error renamed j = Some (Some x)) ->
     relabel true st m = Abort).
Proof.
  intros labels st0 ops st m H0 H renamed. destruct (legs_new_consistent H0) as [C0 L0].
  destruct (run_consistent C0 H) as [C N]. unfold relabel.
  assert (R : map (option_map (rename m)) (lbls st) = renamed) by reflexivity. rewrite R.
  assert (S := has_duplicates_spec renamed). rewrite distinct_names_spec in S.
  assert (LR : Z.of_nat (List.length renamed) = num_legs st).
  { unfold renamed. rewrite map_length. symmetry. exact (proj1 C). }
  unfold set_labels. cbn [andb]. rewrite LR, Z.eqb_refl. cbn [negb]. split.
  - intros D. apply S in D. rewrite D. eexists. split; reflexivity.
  - intros (i & j & x & Hij & Hi & Hj). destruct (has_duplicates renamed); [reflexivity|].
    exfalso. apply Hij. exact (proj1 S eq_refl i j x Hi Hj).
Qed.
Print Assumptions C44_relabel_effect.

Example C44_relabel_example :
  exists st0 st', legs_new [ls "a"; None; ls "b"] = Ok st0 /\
    relabel true st0 [(s "a", s "b"); (s "b", s "a")] = Ok st' /\ lbls st' = [ls "b"; None; ls "a"].
Proof. eexists. eexists. repeat split. Qed.

(* Matching two label lists: position by position the common or the only name, None on a conflict; symmetric. *)
Theorem C44_matching_labels :
  forall l1 l2,
  get_matching_labels l1 l2 = get_matching_labels l2 l1 /\
  List.length (get_matching_labels l1 l2) = Nat.min (List.length l1) (List.length l2) /\
  (forall i a b, nth_error l1 i = Some a -> nth_error l2 i = Some b ->
     nth_error (get_matching_labels l1 l2) i =
       Some (if label_eq_dec a b then a else if label_eq_dec a None then b else if label_eq_dec b None then a else None)).
Proof.
  intros l1 l2. split; [apply matching_comm|]. split; [apply matching_length|].
  intros i a b Ha Hb. rewrite (matching_nth Ha Hb). f_equal.
  destruct (label_eq_dec a b) as [ -> | N ].
  - destruct b as [x|]; [destruct (str_eq_dec x x); [reflexivity | contradiction] | reflexivity].
  - destruct a as [x|], b as [y|]; cbn; try reflexivity.
    + destruct (str_eq_dec x y); [congruence|]. 
      destruct (label_eq_dec (Some x) None); [discriminate|]. destruct (label_eq_dec (Some y) None); [discriminate | reflexivity].
Qed.
Print Assumptions C44_matching_labels.

(* Without assertions (a Release build) duplicate names are accepted by set_labels / relabel without any error, and the
   earlier leg can no longer be found. *)
Theorem C44_release_build_refuted :
  exists labels st0 st x, legs_new labels = Ok st0 /\ run false st0 [OpRelabel [(s "b", s "a")]] = Some st /\
    nth_error (lbls st) 0 = Some (Some x) /\ nth_error (lbls st) 1 = Some (Some x) /\ get_leg_idx st (inr x) = Ok 1.
Proof. exists [ls "a"; ls "b"]. eexists. eexists. exists (s "a"). repeat split. Qed.
Print Assumptions C44_release_build_refuted.

(* set_label(pos, None) is rejected as a duplicate when another leg is unlabelled, although unlabelled legs may repeat. *)
Theorem C44_unset_label_refuted :
  exists labels st0, legs_new labels = Ok st0 /\ set_label st0 0 None = Throw /\
    exists st', set_labels true st0 [None; None] = Ok st'.
Proof. exists [ls "a"; None]. eexists. split; [reflexivity|]. split; [reflexivity|]. eexists. reflexivity. Qed.
Print Assumptions C44_unset_label_refuted.
