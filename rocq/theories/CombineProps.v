(** C38: combining legs into pipes and splitting pipes (abelian backend).
    The tensor before combining has codomain [flat_map item_legs ic] and domain [flat_map item_legs id]: every item is a single leg that is
    left alone ([Keep]) or the legs of one pipe ([Group]); after combining, codomain [map item_leg ic] and domain [map item_leg id].
    [groups_of 0 (leg_items ic id)] are the groups of leg numbers (legs in the order codomain, reversed domain) with their pipes.
    [fused_positions S (leg_items ic id) g j] (CombineSpec.v): position [j] of the array with combined legs stands for position [g]: on a pipe,
    in public basis order, it is the multi-index (C- or F-style as the pipe says) of the positions on its legs. *)
From Coq Require Import String.
From Verif Require Import Util StableSort RowModel RowProofs GridModel GridProofs SymModel SymProofs AbelianModel AbelianProofs CatSpec Sums SpaceModel SpaceSpec SpaceProofs SpaceProofs2 SpaceProofs3 SpaceProofs5
  PipeModel PipeProofs BlockModel BlockProofs SparseModel SparseSpec CombineModel CombineSpec CombineProofs6.
From Verif Require PipeProps SparseProps.
Open Scope nat_scope.

(** the positions correspond one to one *)
Theorem C38_positions_bijective : forall (S : symm) fuse, abelian_group_laws S fuse -> s_abelian S = true -> s_drop S = true ->
  forall ic id, (forall it, In it (ic ++ id) -> item_ok S it) ->
  let its := leg_items ic id in
  let legs := leg_order (flat_map item_legs ic) (flat_map item_legs id) in let new_legs := leg_order (map item_leg ic) (map item_leg id) in
  (forall g, dense_idx S legs g -> exists j, fused_positions S its g j /\ dense_idx S new_legs j /\ forall j', fused_positions S its g j' -> j' = j) /\
  (forall j, dense_idx S new_legs j -> exists g, dense_idx S legs g /\ fused_positions S its g j /\
     forall g', dense_idx S legs g' -> fused_positions S its g' j -> g' = g).
Proof. intros S fuse G HA HD ic id IOK. apply (fused_bijection G HA HD IOK). Qed.
Print Assumptions C38_positions_bijective.
(** combine_legs never raises, gives a well-formed tensor and moves every entry to its fused position *)
Theorem C38_combine_legs : forall K (o : ops K) (S : symm) fuse, abelian_group_laws S fuse -> s_abelian S = true -> s_drop S = true ->
  forall ic id, (forall it, In it (ic ++ id) -> item_ok S it) ->
  let cod := flat_map item_legs ic in let dom := flat_map item_legs id in let cod' := map item_leg ic in let dom' := map item_leg id in
  forall A, tensor_ok S cod dom A ->
  exists R, combine_legs o (length cod) (leg_order cod dom) (leg_order cod' dom') (groups_of 0 (leg_items ic id)) A = Some R /\ tensor_ok S cod' dom' R /\
  forall g j, dense_idx S (leg_order cod dom) g -> fused_positions S (leg_items ic id) g j -> entry o S cod' dom' R j = entry o S cod dom A g.
Proof. intros K o S fuse G HA HD ic id IOK cod dom cod' dom' A. apply (dense_combine o G HA HD IOK). Qed.
Print Assumptions C38_combine_legs.
Theorem C38_split_legs : forall K (o : ops K) (S : symm) fuse, abelian_group_laws S fuse -> s_abelian S = true -> s_drop S = true ->
  forall ic id, (forall it, In it (ic ++ id) -> item_ok S it) ->
  let cod := flat_map item_legs ic in let dom := flat_map item_legs id in let cod' := map item_leg ic in let dom' := map item_leg id in
  forall R, tensor_ok S cod' dom' R ->
  let D := split_legs o (length cod') (ic ++ rev id) (leg_order cod dom) R in
  tensor_ok S cod dom D /\
  forall g j, dense_idx S (leg_order cod dom) g -> fused_positions S (leg_items ic id) g j -> entry o S cod dom D g = entry o S cod' dom' R j.
Proof. intros K o S fuse G HA HD ic id IOK cod dom cod' dom' R T. unfold cod'. rewrite map_length. apply (dense_split o G HA HD IOK T). Qed.
Print Assumptions C38_split_legs.
(** splitting undoes combining and combining undoes splitting, for every entry of the dense arrays *)
Theorem C38_round_trip : forall K (o : ops K) (S : symm) fuse, abelian_group_laws S fuse -> s_abelian S = true -> s_drop S = true ->
  forall ic id, (forall it, In it (ic ++ id) -> item_ok S it) ->
  let cod := flat_map item_legs ic in let dom := flat_map item_legs id in let cod' := map item_leg ic in let dom' := map item_leg id in
  let comb := combine_legs o (length cod) (leg_order cod dom) (leg_order cod' dom') (groups_of 0 (leg_items ic id)) in
  let spl := split_legs o (length cod') (ic ++ rev id) (leg_order cod dom) in
  (forall A, tensor_ok S cod dom A -> exists R, comb A = Some R /\ forall g, dense_idx S (leg_order cod dom) g -> entry o S cod dom (spl R) g = entry o S cod dom A g) /\
  (forall R, tensor_ok S cod' dom' R -> exists R', comb (spl R) = Some R' /\ forall j, dense_idx S (leg_order cod' dom') j -> entry o S cod' dom' R' j = entry o S cod' dom' R j).
Proof.
  intros K o S fuse G HA HD ic id IOK cod dom cod' dom' comb spl. destruct (C38_positions_bijective S fuse G HA HD ic id IOK) as [B1 B2]. split.
  - intros A T. destruct (C38_combine_legs K o S fuse G HA HD ic id IOK A T) as (R & E & TR & V). exists R. split; [exact E|]. intros g Hg. destruct (B1 g Hg) as (j & F & _ & _).
    destruct (C38_split_legs K o S fuse G HA HD ic id IOK R TR) as [_ V']. exact (eq_trans (V' g j Hg F) (V g j Hg F)).
  - intros R T. destruct (C38_split_legs K o S fuse G HA HD ic id IOK R T) as [TS V']. destruct (C38_combine_legs K o S fuse G HA HD ic id IOK _ TS) as (R' & E & TR & V). exists R'. split; [exact E|].
    intros j Hj. destruct (B2 j Hj) as (g & Hg & F & _). exact (eq_trans (V g j Hg F) (V' g j Hg F)).
Qed.
Print Assumptions C38_round_trip.

(** ** example: U(1), the codomain legs A, B of the tensor of SparseProps combined (F-style), the domain leg A combined with B (C-style) *)
Definition u1 := PipeProps.u1.
Definition legA := PipeProps.legA.
Definition legB := PipeProps.legB.
Definition mk (legs : list espace) d c : pipe := match new_pipe u1 legs d c with Some P => P | None => Pipe [] c (ES [] [] d None) [] [] [] [] end.
Definition pipeF := mk [legA; legB] true false.
Definition pipeC := mk [legA; legB] false true.
Lemma ex_items it : In it ([Group pipeF] ++ [Keep legB; Group pipeC]) -> item_ok u1 it.
Proof.
  destruct PipeProps.C30_ex_ok as [A B]. intros [<-|[<-|[<-|[]]]].
  - split; [|vm_compute; reflexivity]. intros L [<-|[<-|[]]]; assumption.
  - exact B.
  - split; [|vm_compute; reflexivity]. intros L [<-|[<-|[]]]; assumption.
Qed.
Definition exT : list (list nat * blk Z) := [([0; 0; 0; 0; 0], Blk [2; 1; 1; 2; 1] [1; 2; 3; 4]%Z)].
Lemma ex_tensor : tensor_ok u1 [legA; legB] [legB; legA; legB] exT.
Proof.
  destruct PipeProps.C30_ex_ok as [A B]. constructor.
  - intros L [<-|[<-|[<-|[<-|[<-|[]]]]]]; assumption.
  - constructor; try (intros e [<-|[]]; repeat constructor). cbn. repeat constructor.
  - intros e [<-|[]]. vm_compute. reflexivity.
Qed.
Example C38_ex : exists R, combine_legs Zops 2 [legA; legB; legB; legA; legB] [p_es pipeF; p_es pipeC; legB] (groups_of 0 (leg_items [Group pipeF] [Keep legB; Group pipeC])) exT = Some R /\
  map fst (groups_of 0 (leg_items [Group pipeF] [Keep legB; Group pipeC])) = [[0; 1]; [2; 3]] /\
  R = [([2; 1; 0], Blk [2; 2; 1] [1; 2; 3; 4]%Z)] /\
  split_legs Zops 1 [Group pipeF; Group pipeC; Keep legB] [legA; legB; legB; legA; legB] R = exT.
Proof. eexists. split; [vm_compute; reflexivity|]. split; [reflexivity|]. split; vm_compute; reflexivity. Qed.
