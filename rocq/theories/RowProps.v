(** C01, C02, C03: sector arrays and block indices. *)
From Verif Require Import Util StableSort RowModel RowProofs.
Open Scope Z_scope.

(** ** C01 *)
Theorem C01_lexsort_is_stable_sorting_permutation :
  forall (w : nat) (rows : list row),
    same_width w rows ->
    let p := lexsort_indices rows in
    Permutation p (seq 0 (length rows)) /\
    (forall i j, (i < j < length rows)%nat ->
       let ri := nth (nth i p 0%nat) rows [] in
       let rj := nth (nth j p 0%nat) rows [] in
       lex_lt ri rj \/ (ri = rj /\ (nth i p 0 < nth j p 0)%nat)).
Proof.
  intros w rows W p. split; [apply lexsort_perm|]. intros i j Hij.
  assert (H := lexsort_sorted W). rewrite StronglySorted_nth with (d := 0%nat) in H.
  apply H. rewrite (is_perm_length (lexsort_perm rows)). exact Hij.
Qed.
Print Assumptions C01_lexsort_is_stable_sorting_permutation.

Theorem C01_sorted_is_sorted_rearrangement :
  forall (w : nat) (rows : list row),
    same_width w rows ->
    weakly_sorted (fst (sorted rows)) /\ Permutation (fst (sorted rows)) rows /\
    fst (sorted rows) = map (fun i => nth i rows []) (snd (sorted rows)).
Proof. intros w rows W. split; [exact (sorted_weakly W)|split; [exact (sorted_Permutation rows)|reflexivity]]. Qed.
Print Assumptions C01_sorted_is_sorted_rearrangement.

Theorem C01_is_lexsorted_decides_sortedness :
  forall w rows, same_width w rows -> (is_lexsorted rows = true <-> weakly_sorted rows).
Proof. exact is_lexsorted_spec. Qed.
Print Assumptions C01_is_lexsorted_decides_sortedness.

(* non-vacuity: a non-trivial array with ties, sorted by last column first *)
Example C01_example :
  same_width 2 [[1; 2]; [5; 0]; [0; 2]; [1; 2]; [7; -3]] /\
  lexsort_indices [[1; 2]; [5; 0]; [0; 2]; [1; 2]; [7; -3]] = [4; 1; 2; 0; 3]%nat.
Proof. split; [repeat constructor|reflexivity]. Qed.

(** ** C02 *)
Theorem C02_unique_sorted_merges_and_sums :
  forall w rows mults U M p,
    same_width w rows -> unique_sorted rows mults = Some (U, M, p) ->
    length mults = length rows /\ p = lexsort_indices rows /\
    strictly_sorted U /\ (forall r, In r U <-> In r rows) /\ length M = length U /\
    (forall u, (u < length U)%nat ->
       nth u M 0 = zsum (map snd (filter (fun q => row_eqb (fst q) (nth u U [])) (combine rows mults)))).
Proof. exact unique_sorted_correct. Qed.
Print Assumptions C02_unique_sorted_merges_and_sums.

Theorem C02_unique_sorted_rejects_only_length_mismatch :
  forall rows mults, unique_sorted rows mults = None <-> length mults <> length rows.
Proof. exact unique_sorted_None. Qed.
Print Assumptions C02_unique_sorted_rejects_only_length_mismatch.

Example C02_example :
  unique_sorted [[1; 2]; [5; 0]; [0; 2]; [1; 2]] [3; 4; 5; 6] =
  Some ([[5; 0]; [0; 2]; [1; 2]], [4; 5; 9], [1; 2; 0; 3]%nat).
Proof. reflexivity. Qed.

(** ** C03 *)
Theorem C03_iter_common_sorted_yields_exactly_equal_rows :
  forall w a b a_strict b_strict out,
    same_width w a -> same_width w b -> weakly_sorted a -> weakly_sorted b ->
    (a_strict = true -> strictly_sorted a) -> (b_strict = true -> strictly_sorted b) ->
    iter_common_sorted w w a b a_strict b_strict = Some out ->
    NoDup out /\
    forall i j, In (i, j) out <->
      (i < length a)%nat /\ (j < length b)%nat /\ nth i a [] = nth j b [].
Proof.
  intros w a b sa sb out Wa Wb Sa Sb Ha Hb E. unfold iter_common_sorted in E.
  destruct (negb sa && negb sb) eqn:Es; [discriminate|]. rewrite Nat.eqb_refl in E. inversion E; subst.
  assert (Hss : sa = true \/ sb = true) by (destruct sa, sb; auto; discriminate).
  destruct (common_walk_spec Hss 0%nat 0%nat Wa Wb Sa Sb Ha Hb) as [I N]. split; [exact N|].
  intros i j. rewrite I, !Nat.sub_0_r. split; intros; repeat split; try lia; tauto.
Qed.
Print Assumptions C03_iter_common_sorted_yields_exactly_equal_rows.

Theorem C03_iter_common_sorted_rejects_iff_not_strict_or_width_mismatch :
  forall wa wb a b sa sb,
    iter_common_sorted wa wb a b sa sb = None <-> (sa = false /\ sb = false) \/ wa <> wb.
Proof.
  intros. unfold iter_common_sorted. destruct (Nat.eqb_spec wa wb), sa, sb; simpl;
    split; intros; try discriminate; auto; try tauto; destruct H as [[? ?]|?]; congruence.
Qed.
Print Assumptions C03_iter_common_sorted_rejects_iff_not_strict_or_width_mismatch.

Theorem C03_iter_common_noncommon_sorted_covers_both_arrays_once :
  forall w a b out,
    same_width w a -> same_width w b -> strictly_sorted a -> strictly_sorted b ->
    iter_common_noncommon_sorted w w a b = Some out ->
    NoDup out /\ ~ In (None, None) out /\
    (forall i j, In (Some i, Some j) out <->
       (i < length a)%nat /\ (j < length b)%nat /\ nth i a [] = nth j b []) /\
    (forall i, In (Some i, None) out <-> (i < length a)%nat /\ ~ In (nth i a []) b) /\
    (forall j, In (None, Some j) out <-> (j < length b)%nat /\ ~ In (nth j b []) a).
Proof.
  intros w a b out Wa Wb Sa Sb E. unfold iter_common_noncommon_sorted in E. rewrite Nat.eqb_refl in E.
  inversion E; subst; clear E.
  destruct (noncommon_walk_spec 0%nat 0%nat Wa Wb Sa Sb) as [N [NN [I1 [I2 I3]]]].
  split; [exact N|split; [exact NN|split; [|split]]].
  - intros i j. rewrite I1, !Nat.sub_0_r. split; intros; repeat split; try lia; tauto.
  - intros i. rewrite I2, !Nat.sub_0_r. split; intros; repeat split; try lia; tauto.
  - intros i. rewrite I3, !Nat.sub_0_r. split; intros; repeat split; try lia; tauto.
Qed.
Print Assumptions C03_iter_common_noncommon_sorted_covers_both_arrays_once.

Theorem C03_row_where_finds_the_first_match :
  forall rows s,
  match row_where rows s with
  | Some k => (k < length rows)%nat /\ nth k rows [] = s /\ forall k', (k' < k)%nat -> nth k' rows [] <> s
  | None => ~ In s rows
  end.
Proof. exact row_where_spec. Qed.
Print Assumptions C03_row_where_finds_the_first_match.

Theorem C03_searchsorted_is_the_left_insertion_point :
  forall col v, StronglySorted Z.le col ->
    let r := searchsorted col v in
    (r <= length col)%nat /\ (forall i, (i < r)%nat -> nth i col 0 < v) /\
    (forall i, (r <= i < length col)%nat -> v <= nth i col 0).
Proof.
  intros col v S r. unfold r, searchsorted. destruct (@searchsorted_loop_spec (length col) col v 0%nat (length col)) as [A [B C]];
    try lia; auto. split; [lia|split; auto].
Qed.
Print Assumptions C03_searchsorted_is_the_left_insertion_point.

Example C03_example :
  iter_common_sorted 2 2 [[0;0];[1;0];[1;0];[0;3]] [[1;0];[0;2];[0;3]] false true = Some [(1,0);(2,0);(3,2)]%nat /\
  iter_common_noncommon_sorted 2 2 [[0;0];[1;0];[0;3]] [[1;0];[0;2]] =
    Some [(Some 0, None); (Some 1, Some 0); (None, Some 1); (Some 2, None)]%nat /\
  weakly_sorted [[0;0];[1;0];[1;0];[0;3]] /\ strictly_sorted [[1;0];[0;2];[0;3]].
Proof.
  assert (W : forall rows, same_width 2 rows -> is_lexsorted rows = true -> weakly_sorted rows)
    by (intros; now apply (is_lexsorted_spec (w := 2%nat))).
  repeat split; try reflexivity.
  - apply W; [repeat constructor|reflexivity].
  - assert (forall a b : row, length a = 2%nat -> length b = 2%nat -> cmp_lexsort a b = Lt -> lex_lt a b)
      by (intros; apply cmp_lexsort_Lt; congruence).
    repeat constructor; apply H; reflexivity.
Qed.
