(** C58, scale_axis of the fusion tree backend on one of several legs. *)
From Verif Require Import Util RowModel RowProofs GridModel GridProofs SymModel CatSpec Sums SpaceModel SpaceSpec PipeModel TreeModel TensorModel TensorSpec TensorProofs5 BlockModel SparseModel ConvertModel ConvertSpec
  FtOpsModel FtOpsSpec FtMapModel FtMapSpec FtMapProofs FtScaleModel FtScaleProofs3.
From Verif Require TensorProps FtOpsProps.
Open Scope nat_scope.

(** [A]: the tensor with codomain [P] and domain [Q]; [D]: the diagonal tensor on leg number [pos] of the codomain or of the domain; [L]: the product with that leg only.
    The call returns a tensor; its entry for every pair of trees (X, Y) and multiplicity indices (p, q) is the entry of [A], times the diagonal entry for the sector that
    the tree has on that leg and the multiplicity index of that leg *)
Theorem C58_scale_axis : forall K (o : ops K) S P Q L (A D : list (nat * nat * blk K)) (in_domain : bool) pos leg,
  is_semiring o -> tsymm_ok S -> tp_ok S P -> tp_ok S Q -> tp_ok S L -> ft_ok P Q A -> diag_ok L D ->
  nth_error (tp_flat_legs (if in_domain then Q else P)) pos = Some leg -> tp_flat_legs L = [leg] ->
  exists F, ft_scale_general S o in_domain P Q L pos A D = Some F /\ ft_ok P Q F /\
  forall c X p Y q, tree_of S P c X -> tree_of S Q c Y -> valid_idx (tree_mults S P X) p -> valid_idx (tree_mults S Q Y) q ->
    tree_value S o P Q F X p Y q =
    omul o (tree_value S o P Q A X p Y q) (diag_entry o L D (nth pos (t_unc (if in_domain then Y else X)) []) (nth pos (if in_domain then q else p) 0)).
Proof.
  intros K o S P Q L A D ind pos leg SR OK HP HQ HL OA OD HE _. assert (Hp : pos < length (tp_flat_legs (if ind then Q else P))) by (apply nth_error_Some; congruence).
  destruct (result OK o HP HQ HL OA OD ind pos) as (st & js & E & _ & FO). exists (FtScaleModel.ss_rows st). split; [exact E|]. split; [exact FO|].
  intros c X p Y q TX TY Vp Vq. destruct (tree_item OK HP TX) as (ix & _ & _ & SX & _ & EX & BX). destruct (tree_item OK HQ TY) as (iy & _ & _ & SY & _ & EY & BY).
  assert (FX := GridProofs.flat_index_lt true Vp). assert (FY := GridProofs.flat_index_lt true Vq). unfold tree_value. rewrite SX, SY, (tree_of_coup TX). destruct ind.
  - destruct (@side_entry S OK K o SR P Q L HP HQ HL A D OA OD true pos c Y q (tb_start ix + flat_index (tree_mults S P X) true p) _ _ TY Vq Hp SY ltac:(cbv beta iota; lia)) as (F & E' & V). rewrite E in E'. injection E' as <-. exact V.
  - destruct (@side_entry S OK K o SR P Q L HP HQ HL A D OA OD false pos c X p (tb_start iy + flat_index (tree_mults S Q Y) true q) _ _ TX Vp Hp SX ltac:(cbv beta iota; lia)) as (F & E' & V). rewrite E in E'. injection E' as <-. exact V.
Qed.
Print Assumptions C58_scale_axis.

(** SU(2): codomain su2A (x) su2B, domain su2A; the spin 1/2 part of the leg su2A of the codomain is scaled *)
Example C58_ex_scale_axis : tp_ok TensorProps.tsu2 FtOpsProps.exP /\ ft_ok FtOpsProps.exP FtOpsProps.exQ FtOpsProps.exA /\ diag_ok FtOpsProps.exQ FtOpsProps.exD /\
  tp_flat_legs FtOpsProps.exQ = [TensorProps.su2A] /\ nth_error (tp_flat_legs FtOpsProps.exP) 0 = Some TensorProps.su2A /\
  ft_scale_general TensorProps.tsu2 Zops false FtOpsProps.exP FtOpsProps.exQ FtOpsProps.exQ 0 FtOpsProps.exA FtOpsProps.exD = Some [((0, 0), Blk [3; 2] [0; 0; 10; 0; 0; -18]%Z)].
Proof.
  split; [apply FtOpsProps.ex_spaces|]. split; [apply FtOpsProps.C58_ex_data|]. split; [apply FtOpsProps.C58_ex_data|]. split; [reflexivity|]. split; [reflexivity|]. vm_compute. reflexivity.
Qed.
