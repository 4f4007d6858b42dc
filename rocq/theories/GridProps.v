(** C04, C05: packing, grids, permutation helpers. *)
From Verif Require Import Util StableSort RowModel RowProofs GridModel GridProofs.

(** ** C04 *)
Theorem C04_pack_is_injective_on_valid_rows :
  forall shape cstyle r r', valid_idx shape r -> valid_idx shape r' ->
    pack_row r (make_stride shape cstyle) = pack_row r' (make_stride shape cstyle) -> r = r'.
Proof.
  intros shape c r r' V V'. unfold pack_row. rewrite !dot_make_stride by now apply valid_length.
  now apply flat_index_inj.
Qed.
Print Assumptions C04_pack_is_injective_on_valid_rows.

Theorem C04_pack_is_bounded_by_the_number_of_blocks :
  forall shape cstyle r, valid_idx shape r -> pack_row r (make_stride shape cstyle) < prod shape.
Proof.
  intros shape c r V. unfold pack_row. rewrite dot_make_stride by now apply valid_length. now apply flat_index_lt.
Qed.
Print Assumptions C04_pack_is_bounded_by_the_number_of_blocks.

Theorem C04_fstyle_pack_preserves_the_lexsort_order :
  forall shape r r', valid_idx shape r -> valid_idx shape r' ->
    (pack_row r (make_stride shape false) < pack_row r' (make_stride shape false) <->
     lex_lt (map Z.of_nat r) (map Z.of_nat r')).
Proof.
  intros shape r r' V V'. unfold pack_row. rewrite !dot_make_stride by now apply valid_length.
  exact (fval_order V V').
Qed.
Print Assumptions C04_fstyle_pack_preserves_the_lexsort_order.

Theorem C04_cstyle_pack_preserves_the_reversed_lexsort_order :
  forall shape r r', valid_idx shape r -> valid_idx shape r' ->
    (pack_row r (make_stride shape true) < pack_row r' (make_stride shape true) <->
     lex_lt (map Z.of_nat (rev r)) (map Z.of_nat (rev r'))).
Proof.
  intros shape r r' V V'. unfold pack_row. rewrite !dot_make_stride by now apply valid_length.
  apply valid_rev in V, V'. exact (fval_order V V').
Qed.
Print Assumptions C04_cstyle_pack_preserves_the_reversed_lexsort_order.

Theorem C04_make_grid_enumerates_every_multi_index_once :
  forall shape cstyle,
    NoDup (make_grid shape cstyle) /\ length (make_grid shape cstyle) = prod shape /\
    forall r, In r (make_grid shape cstyle) <-> length r = length shape /\
                                               forall n, n < length shape -> nth n r 0 < nth n shape 0.
Proof.
  intros shape c. split; [apply make_grid_NoDup|split; [apply make_grid_length|]].
  intros r. rewrite make_grid_In. unfold valid_idx. split.
  - intros V. split; [exact (valid_length V)|]. induction V; simpl; intros n Hn; [lia|].
    destruct n; auto. apply IHV. lia.
  - revert shape. induction r as [|i r IH]; intros [|k shape] [L H]; try discriminate; constructor.
    + apply (H 0). simpl; lia.
    + apply IH. simpl in L. split; [lia|]. intros n Hn. apply (H (S n)). simpl; lia.
Qed.
Print Assumptions C04_make_grid_enumerates_every_multi_index_once.

Theorem C04_grid_row_m_has_flat_index_m_and_is_grid_entry :
  forall shape cstyle m, m < prod shape ->
    let r := nth m (make_grid shape cstyle) [] in
    pack_row r (make_stride shape cstyle) = m /\
    forall n, n < length shape -> nth n r 0 = grid_entry m (make_stride shape cstyle) shape n.
Proof.
  intros shape c m H r. destruct (make_grid_nth c H) as [E [V D]]. split; [exact D|].
  intros n Hn. unfold r. rewrite E. unfold grid_row.
  rewrite nth_map_lt with (d := 0) by now rewrite seq_length. now rewrite seq_nth.
Qed.
Print Assumptions C04_grid_row_m_has_flat_index_m_and_is_grid_entry.

Example C04_example :
  make_stride [4; 5; 2; 3] true = [30; 6; 3; 1] /\ make_stride [4; 5; 2; 3] false = [1; 4; 20; 40] /\
  valid_idx [4; 5; 2; 3] [3; 4; 0; 2] /\ grid_row 107 [4; 5; 2; 3] true = [3; 2; 1; 2].
Proof. repeat split; repeat constructor. Qed.

(** ** C05 *)
Theorem C05_inverse_permutation_is_two_sided_inverse :
  forall n p, is_perm n p ->
    is_perm n (inverse_permutation p) /\
    (forall i, i < n -> nth (nth i p 0) (inverse_permutation p) 0 = i) /\
    (forall i, i < n -> nth (nth i (inverse_permutation p) 0) p 0 = i) /\
    inverse_permutation (inverse_permutation p) = p.
Proof.
  intros n p H. split; [now apply inverse_permutation_perm|].
  split; [intros; now apply (inverse_permutation_l H)|].
  split; [intros; now apply (inverse_permutation_r H)|]. exact (inverse_permutation_involutive H).
Qed.
Print Assumptions C05_inverse_permutation_is_two_sided_inverse.

Theorem C05_reordering_by_the_inverse_restores_the_list :
  forall A (d : A) l p, is_perm (length l) p ->
    take d (take d l p) (inverse_permutation p) = l /\ take d (take d l (inverse_permutation p)) p = l.
Proof. exact take_inverse. Qed.
Print Assumptions C05_reordering_by_the_inverse_restores_the_list.

Theorem C05_rank_data_gives_stable_ranks :
  forall a, is_perm (length a) (rank_data a) /\
    forall i j, i < length a -> j < length a ->
      (nth i (rank_data a) 0 < nth j (rank_data a) 0 <->
       (nth i a 0 < nth j a 0)%Z \/ (nth i a 0%Z = nth j a 0%Z /\ i < j)).
Proof. intros a. split; [apply rank_data_perm|]. intros; now apply rank_data_mono. Qed.
Print Assumptions C05_rank_data_gives_stable_ranks.

Theorem C05_permutation_as_swaps_realises_the_permutation :
  forall A (d : A) (l : list A) p js,
    is_perm (length l) p -> permutation_as_swaps p = Some js ->
    do_swaps l js = map (fun i => nth i l d) p /\ Forall (fun j => j + 1 < length l) js.
Proof.
  intros A d l p js Hp H. split; [exact (permutation_as_swaps_correct d Hp H)|].
  unfold permutation_as_swaps in H. destruct (is_perm_check p); [|discriminate]. inversion H; subst.
  pose proof (is_perm_length Hp) as L.
  assert (Hq : is_perm (length l) (seq 0 (length p))) by (rewrite L; apply seq_is_perm).
  assert (Hn : 0 + (length p - 1) = length l - 1) by lia.
  eapply Forall_impl; [|exact (swaps_loop_bound Hp Hn Hq)]. simpl. intros; lia.
Qed.
Print Assumptions C05_permutation_as_swaps_realises_the_permutation.

Theorem C05_permutation_as_swaps_rejects_exactly_non_permutations :
  forall p, permutation_as_swaps p = None <-> ~ is_perm (length p) p.
Proof.
  intros p. rewrite <- is_perm_check_spec. unfold permutation_as_swaps.
  destruct (is_perm_check p); split; intros; try congruence; try discriminate.
Qed.
Print Assumptions C05_permutation_as_swaps_rejects_exactly_non_permutations.

Theorem C05_is_permutation_decides :
  forall p, is_permutation p = true <-> Permutation p (seq 0 (length p)).
Proof. exact is_permutation_spec. Qed.
Print Assumptions C05_is_permutation_decides.

(** [combine_permutations]: with [flat] the flat index of the combined axis, entry flat(idx) of the result is
    flat(perms(idx)), i.e. a[ix_(perms)].reshape(-1) == a.reshape(-1)[result]. *)
Theorem C05_combine_permutations_acts_axiswise :
  forall perms cstyle out,
    combine_permutations perms cstyle = Some out ->
    let shape := map (@length nat) perms in
    let flat idx := pack_row idx (make_stride shape cstyle) in
    is_perm (prod shape) out /\
    forall idx, valid_idx shape idx ->
      nth (flat idx) out 0 = flat (map (fun pi => nth (snd pi) (fst pi) 0) (combine perms idx)).
Proof.
  intros perms c out H shape flat. destruct (combine_permutations_spec H) as [P Q]. split; [exact P|].
  intros idx V. unfold flat, pack_row. rewrite !dot_make_stride; [now apply Q|..].
  - rewrite map_length, combine_length. unfold shape. rewrite (valid_length V). unfold shape. rewrite map_length.
    apply Nat.min_id.
  - now apply valid_length.
Qed.
Print Assumptions C05_combine_permutations_acts_axiswise.

Example C05_example :
  is_perm 4 [2; 0; 3; 1] /\ inverse_permutation [2; 0; 3; 1] = [1; 3; 0; 2] /\
  permutation_as_swaps [2; 0; 3; 1] = Some [1; 0; 2] /\
  do_swaps [10; 11; 12; 13] [1; 0; 2] = [12; 10; 13; 11] /\
  rank_data [5; 2; 5; 1]%Z = [2; 1; 3; 0] /\
  combine_permutations [[1; 0]; [2; 0; 1]] true = Some [5; 3; 4; 2; 0; 1].
Proof.
  split; [apply is_permutation_spec; reflexivity|]. repeat split.
Qed.
