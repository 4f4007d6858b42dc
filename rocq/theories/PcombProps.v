(** Theorems for C74: combining legs without braids. *)
From Coq Require Import List Bool Arith Lia Permutation.
From Verif Require Import Util PlanarModel PlanarSpec PcombModel PcombSpec PcombProofs1 PcombProofs2 PcombProofs3.
Import ListNotations.
Open Scope nat_scope.

(** For disjoint groups of legs that are neighbours on the circle, in any order, planar_combine_legs bends legs without braiding such that every group ends up as neighbouring legs in ascending
    order, all in the codomain if the first leg given was there and all in the domain otherwise.  Excluded: a group around the left end if one of codomain and domain is empty, or if the group is
    around the right end as well (see below). *)
Theorem C74_groups_are_gathered_partial : forall nc nd which, Forall (contiguous (nc + nd)) which -> NoDup (concat which) ->
  (forall g, In g which -> around_the_left (nc + nd) g -> 0 < nc /\ 0 < nd /\ ~ around_the_right nc g) ->
  exists co dom which', planar_combine_args nc nd which = POk (co, dom, which') /\ planar (nc + nd) co dom /\ Forall2 (gathered nc co dom) which which'.
Proof. exact combine_ok. Qed.
Print Assumptions C74_groups_are_gathered_partial.

(** Nothing is bent if no group reaches around an end. *)
Theorem C74_nothing_bent : forall nc nd which, Forall (contiguous (nc + nd)) which ->
  Forall (fun g => (Forall (fun l => l < nc) g \/ Forall (fun l => nc <= l) g) /\ ~ around_the_left (nc + nd) g) which ->
  exists which', planar_combine_args nc nd which = POk (seq 0 nc, rev (seq nc nd), which').
Proof. exact nothing_bent. Qed.
Print Assumptions C74_nothing_bent.

(** A group that is not contiguous is an error, whatever else is given. *)
Theorem C74_not_contiguous : forall nc nd which g, In g which -> g <> [] -> ~ contiguous (nc + nd) g -> planar_combine_args nc nd which = PErr NonPlanar.
Proof.
  intros nc nd which g G NE NC. unfold planar_combine_args. destruct (find_corners nc (nc + nd) which) as [r l].
  assert (E : sort_groups (nc + nd) which = None); [|now rewrite E]. induction which as [|g' which IH]; [destruct G|]. cbn [sort_groups]. destruct G as [->|G].
  - destruct (parse_leg_bipartition g (nc + nd)) as [[s o]|] eqn:Q; [|reflexivity]. exfalso. apply NC. split; [exact NE|]. destruct (PlanarProps.C69_bipartition _ _ _ _ Q) as (P & k & K & E). now exists s, o, k.
  - rewrite (IH G). now destruct (parse_leg_bipartition g' (nc + nd)) as [[s o]|].
Qed.
Print Assumptions C74_not_contiguous.

(** All the legs of a tensor with legs on both sides can be combined. *)
Theorem C74_all_legs : forall nc nd g, 0 < nc -> 0 < nd -> Permutation g (seq 0 (nc + nd)) ->
  exists co dom g', planar_combine_args nc nd [g] = POk (co, dom, [g']) /\ planar (nc + nd) co dom /\ gathered nc co dom g g'.
Proof. exact all_legs. Qed.
Print Assumptions C74_all_legs.

(** A group with the first and the last leg of a tensor without domain reads beyond the end of an array: in particular all the legs of a vector cannot be combined, not even a single one; ... *)
Theorem C74_vector_refuted : forall nc g, contiguous nc g -> around_the_left nc g -> planar_combine_args nc 0 [g] = PErr Undefined.
Proof. exact vector_fails. Qed.
Print Assumptions C74_vector_refuted.
(** ... and likewise a group around the left end of a tensor without codomain. *)
Theorem C74_covector_refuted : forall nd a b g, 0 < b < a -> a < nd -> Permutation g (seq a (nd - a) ++ seq 0 b) -> planar_combine_args 0 nd [g] = PErr Undefined.
Proof. intros nd a b g B A P. exact (covector_fails B A P). Qed.
Print Assumptions C74_covector_refuted.

(** So does a group around both ends, in any order, that leaves out legs on the side where its first leg is ... *)
Theorem C74_both_ends_refuted : forall nc nd a b g, 0 < nc -> 0 < nd -> 0 < b < a -> a < nc + nd -> Permutation g (seq a (nc + nd - a) ++ seq 0 b) ->
  (nc < b /\ nc <= hd 0 g \/ a < nc /\ hd 0 g < nc) ->
  contiguous (nc + nd) g /\ planar_combine_args nc nd [g] = PErr Undefined.
Proof.
  intros nc nd a b g C D B A P H. split; [|exact (both_corners C D B A P H)]. split.
  - intros ->. apply Permutation_nil in P. destruct b; [lia|]. destruct (seq a (nc + nd - a)); discriminate P.
  - exists (seq a (nc + nd - a) ++ seq 0 b), (seq b (a - b)), a. split; [now apply Permutation_sym|]. split; [lia|]. rewrite PlanarProofs4.rotation_seq by lia. rewrite <- app_assoc. f_equal.
    replace a with (b + (a - b)) at 2 by lia. now rewrite seq_app.
Qed.
Print Assumptions C74_both_ends_refuted.
(** ... and otherwise the legs beyond the left end are not bent: the group is not gathered. *)
Theorem C74_one_end_forgotten_refuted : exists nc nd g co dom g', contiguous (nc + nd) g /\ planar_combine_args nc nd [g] = POk (co, dom, [g']) /\ ~ gathered nc co dom g g'.
Proof.
  exists 3, 3, [0; 1; 2; 3; 5], [0; 1; 2; 3], [5; 4], [5; 0; 1; 2; 3]. split; [|split; [reflexivity|]].
  - split; [discriminate|]. exists [5; 0; 1; 2; 3], [4], 5. split; [|split; [lia|reflexivity]]. apply (Permutation_cons_append [0; 1; 2; 3] 5).
  - intros (_ & (a & E) & _). cbn in E. injection E as <- H. discriminate H.
Qed.
Print Assumptions C74_one_end_forgotten_refuted.

(** ** Examples *)
(** the drawing of the documentation: planar_combine_legs(T, [-1, 0], [3, 4, 5], [7, 8]) *)
Example example_documentation : planar_combine_args 5 5 [[9; 0]; [3; 4; 5]; [7; 8]] = POk ([1; 2; 3; 4; 5], [0; 9; 8; 7; 6], [[8; 9]; [2; 3; 4]; [6; 7]]).
Proof. reflexivity. Qed.
Example example_other_first : planar_combine_args 5 5 [[0; 9]; [5; 3; 4]; [7; 8]] = POk ([9; 0; 1; 2], [8; 7; 6; 5; 4; 3], [[0; 1]; [4; 5; 6]; [8; 9]]).
Proof. reflexivity. Qed.
Example example_hypotheses : Forall (contiguous 10) [[0; 9]; [5; 3; 4]; [7; 8]] /\ NoDup (concat [[0; 9]; [5; 3; 4]; [7; 8]]).
Proof.
  split; [|repeat constructor; cbn; intuition discriminate]. repeat constructor; try discriminate.
  - exists [9; 0], [1; 2; 3; 4; 5; 6; 7; 8], 9. split; [apply perm_swap|]. split; [lia|reflexivity].
  - exists [3; 4; 5], [6; 7; 8; 9; 0; 1; 2], 3. split; [apply Permutation_sym; apply (Permutation_cons_append [3; 4] 5)|]. split; [lia|reflexivity].
  - exists [7; 8], [9; 0; 1; 2; 3; 4; 5; 6], 7. split; [apply Permutation_refl|]. split; [lia|reflexivity].
Qed.
Example example_vector : contiguous 1 [0] /\ around_the_left 1 [0] /\ contiguous 3 [2; 0; 1] /\ around_the_left 3 [2; 0; 1].
Proof.
  repeat split; try discriminate; try (now left); try (right; now left).
  - exists [0], [], 0. split; [apply Permutation_refl|]. split; [lia|reflexivity].
  - exists [2; 0; 1], [], 2. split; [apply Permutation_refl|]. split; [lia|reflexivity].
Qed.
