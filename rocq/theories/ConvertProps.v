(** C40: conversion between the abelian and the fusion tree backend (SymmetricTensor.to_backend, no pipes among the legs).
    [P], [Q]: codomain and domain; [tp_flat_legs]: their legs.  [tensor_ok], [entry], [dense_idx]: SparseSpec.v (abelian data and its dense array);
    [ft_ok], [ft_entry], [ft_value]: ConvertSpec.v (fusion tree data).
    [locs ms s i]: the position, on every leg, of multiplicity index i of sector number s when the sectors have multiplicities ms (PipeProofs.v). *)
From Coq Require Import String.
From Verif Require Import Util StableSort RowModel RowProofs GridModel GridProofs SymModel SymProofs AbelianModel AbelianProofs CatSpec Sums SpaceModel SpaceSpec SpaceProofs SpaceProofs2 SpaceProofs3 SpaceProofs7
  PipeModel PipeProofs PipeProofs2 PipeProofs4 TreeModel TreeProofs TensorModel TensorSpec FormalSum TensorProofs TensorProofs2 TensorProofs3 TensorProofs4 TensorProofs5 BlockModel BlockProofs SparseModel SparseSpec SparseProofs
  SparseProofs2 SparseProofs3 SparseProofs6 SparseCharge SparseDense ConvertModel ConvertSpec ConvertProofs ConvertProofs2 ConvertProofs3 ConvertProofs4 ConvertProofs5 ConvertProofs6 ConvertProofs7 ConvertProofs8.
From Verif Require PipeProps SparseProps TensorProps.
Open Scope nat_scope.

(** the conversion succeeds, the result is well formed and holds the same numbers: the entry for sectors a, b and multiplicity indices p, q *)
Theorem C40_abelian_to_fusion_tree : forall K (o : ops K) S fuse, tsymm_ok S -> abelian_group_laws S fuse -> forall P Q D, tp_ok S P -> tp_ok S Q ->
  let cod := tp_flat_legs P in let dom := tp_flat_legs Q in
  cod <> [] \/ dom <> [] -> tensor_ok S cod dom D ->
  exists F, convert_abelian_to_FT S o P Q D = Some F /\ ft_ok P Q F /\
  forall a p b q, valid_idx (map nsec cod) a -> valid_idx (map nsec dom) b -> valid_idx (shp (mults cod) a) p -> valid_idx (shp (mults dom) b) q ->
    ft_value S o P Q F a p b q = entry o S cod dom D (locs (mults (leg_order cod dom)) (a ++ rev b) (p ++ rev q)).
Proof.
  intros K o S fuse OK G P Q D HP HQ; cbv zeta; intros NE T. destruct (to_ft OK G o HP HQ T NE) as [F [E [O V]]]. exists F. split; [exact E|]. split; [exact O|].
  intros a p b q Va Vb Vp Vq. apply grid_valid in Va. apply grid_valid in Vb. rewrite (V a p b q Va Vb Vp Vq). symmetry. apply (entry_locs o G T).
  - now apply valid_both.
  - rewrite shp_both by assumption. apply valid_app; [exact (valid_length Vp)|]. split; [exact Vp|]. now apply valid_rev in Vq.
Qed.
Print Assumptions C40_abelian_to_fusion_tree.

Theorem C40_fusion_tree_to_abelian : forall K (o : ops K) S fuse, tsymm_ok S -> abelian_group_laws S fuse -> forall P Q F, tp_ok S P -> tp_ok S Q ->
  let cod := tp_flat_legs P in let dom := tp_flat_legs Q in
  cod <> [] \/ dom <> [] -> ft_ok P Q F ->
  exists D, convert_FT_to_abelian S o P Q F = Some D /\ tensor_ok S cod dom D /\
  forall a p b q, valid_idx (map nsec cod) a -> valid_idx (map nsec dom) b -> valid_idx (shp (mults cod) a) p -> valid_idx (shp (mults dom) b) q ->
    entry o S cod dom D (locs (mults (leg_order cod dom)) (a ++ rev b) (p ++ rev q)) = ft_value S o P Q F a p b q.
Proof.
  intros K o S fuse OK G P Q F HP HQ; cbv zeta; intros NE O. destruct (to_abelian_backend OK G o HP HQ O NE) as [D [E [T V]]]. exists D. split; [exact E|]. split; [exact T|].
  intros a p b q Va Vb Vp Vq. apply grid_valid in Va. apply grid_valid in Vb. rewrite <- (V a p b q Va Vb Vp Vq). apply (entry_locs o G T).
  - now apply valid_both.
  - rewrite shp_both by assumption. apply valid_app; [exact (valid_length Vp)|]. split; [exact Vp|]. now apply valid_rev in Vq.
Qed.
Print Assumptions C40_fusion_tree_to_abelian.

(** abelian -> fusion tree -> abelian: the same dense array *)
Theorem C40_round_trip_abelian : forall K (o : ops K) S fuse, tsymm_ok S -> abelian_group_laws S fuse -> forall P Q D, tp_ok S P -> tp_ok S Q ->
  let cod := tp_flat_legs P in let dom := tp_flat_legs Q in
  cod <> [] \/ dom <> [] -> tensor_ok S cod dom D ->
  exists F D', convert_abelian_to_FT S o P Q D = Some F /\ convert_FT_to_abelian S o P Q F = Some D' /\ tensor_ok S cod dom D' /\
  forall g, dense_idx S (leg_order cod dom) g -> entry o S cod dom D' g = entry o S cod dom D g.
Proof.
  intros K o S fuse OK G P Q D HP HQ; cbv zeta; intros NE T. destruct (to_ft OK G o HP HQ T NE) as [F [E [O V]]]. destruct (to_abelian_backend OK G o HP HQ O NE) as [D' [E' [T' V']]].
  exists F, D'. split; [exact E|]. split; [exact E'|]. split; [exact T'|]. intros g Hg. destruct (locate G (to_legs T) Hg) as (r & q & Vr & Vq & ->).
  rewrite (entry_locs o G T Vr Vq), (entry_locs o G T' Vr Vq). destruct (valid_split Vr) as (a & b & -> & Ia & Ib). rewrite shp_both in Vq by assumption.
  assert (LA : length q = length (shp (mults (tp_flat_legs P)) a ++ rev (shp (mults (tp_flat_legs Q)) b))) by exact (valid_length Vq). rewrite app_length, rev_length in LA.
  set (k := length (shp (mults (tp_flat_legs P)) a)) in *. rewrite <- (firstn_skipn k q) in Vq |- *.
  apply valid_app in Vq; [|rewrite firstn_length; unfold k; lia]. destruct Vq as [V1 V2]. rewrite <- (rev_involutive (skipn k q)) in V2 |- *. apply valid_rev in V2.
  rewrite (V' _ _ _ _ Ia Ib V1 V2), (V _ _ _ _ Ia Ib V1 V2). reflexivity.
Qed.
Print Assumptions C40_round_trip_abelian.

(** fusion tree -> abelian -> fusion tree: the same matrices (a matrix that is not stored counts as zero) *)
Theorem C40_round_trip_fusion_tree : forall K (o : ops K) S fuse, tsymm_ok S -> abelian_group_laws S fuse -> forall P Q F, tp_ok S P -> tp_ok S Q ->
  let cod := tp_flat_legs P in let dom := tp_flat_legs Q in
  cod <> [] \/ dom <> [] -> ft_ok P Q F ->
  exists D F', convert_FT_to_abelian S o P Q F = Some D /\ convert_abelian_to_FT S o P Q D = Some F' /\ ft_ok P Q F' /\
  forall c x y, x < block_size P c -> y < block_size Q c -> ft_entry o Q F' c x y = ft_entry o Q F c x y.
Proof.
  intros K o S fuse OK G P Q F HP HQ; cbv zeta; intros NE O. destruct (to_abelian_backend OK G o HP HQ O NE) as [D [E [T V]]]. destruct (to_ft OK G o HP HQ T NE) as [F' [E' [O' V']]].
  exists D, F'. split; [exact E|]. split; [exact E'|]. split; [exact O'|]. intros c x y Hx Hy.
  destruct (ft_position OK G HP Hx) as (a & p & Ia & Vp & Fa & ->). destruct (ft_position OK G HQ Hy) as (b & q & Ib & Vq & Fb & ->).
  rewrite <- (ft_value_at OK G o HP HQ F' p q Ia Ib Fa Fb), <- (ft_value_at OK G o HP HQ F p q Ia Ib Fa Fb). rewrite (V' _ _ _ _ Ia Ib Vp Vq). apply (V _ _ _ _ Ia Ib Vp Vq).
Qed.
Print Assumptions C40_round_trip_fusion_tree.

(** ** a U(1) tensor with codomain [legA; legB] and domain [legA] *)
Definition u1 := TensorProps.tu1.
Definition legA := PipeProps.legA.
Definition legB := PipeProps.legB.
Definition exP : tprod := match new_tprod u1 [LSpace legA; LSpace legB] with Some P => P | None => TP [] [] [] end.
Definition exQ : tprod := match new_tprod u1 [LSpace legA] with Some P => P | None => TP [] [] [] end.
Definition exF : list (nat * nat * blk Z) := match convert_abelian_to_FT u1 Zops exP exQ SparseProps.exT with Some F => F | None => [] end.
Example C40_ex_hypotheses : tsymm_ok u1 /\ tp_ok u1 exP /\ tp_ok u1 exQ /\ tp_flat_legs exP = [legA; legB] /\ tp_flat_legs exQ = [legA] /\ tensor_ok u1 (tp_flat_legs exP) (tp_flat_legs exQ) SparseProps.exT /\ ft_ok exP exQ exF.
Proof.
  assert (S1 := proj1 TensorProps.C31_ex_symmetries). assert (LA : es_ok u1 legA) by exact (proj1 PipeProps.C30_ex_ok). assert (LB : es_ok u1 legB) by exact (proj2 PipeProps.C30_ex_ok).
  assert (HP : tp_ok u1 exP). { split; [|reflexivity]. constructor; [exact LA|]. constructor; [exact LB|constructor]. }
  assert (HQ : tp_ok u1 exQ). { split; [|reflexivity]. constructor; [exact LA|constructor]. }
  split; [exact S1|]. split; [exact HP|]. split; [exact HQ|]. split; [reflexivity|]. split; [reflexivity|]. split; [exact SparseProps.ex_tensor|].
  destruct (to_ft S1 U1_group Zops HP HQ SparseProps.ex_tensor) as [F [E [O _]]]; [left; discriminate|]. unfold exF, u1. rewrite E. exact O.
Qed.
Example C40_ex : exF = [((1, 0), Blk [2; 2] [1; 2; 3; 4]%Z); ((3, 1), Blk [1; 1] [5]%Z)] /\ convert_FT_to_abelian u1 Zops exP exQ exF = Some SparseProps.exT.
Proof. split; vm_compute; reflexivity. Qed.
