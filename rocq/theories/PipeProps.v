(** C30 (AbelianLegPipe) and C34 (LegPipe).
    [flat_index dims c r] (GridProofs.v): the position of the multi-index [r] in a C-style ([c = true], last index fastest)
    or F-style grid of shape [dims].  [zipw f legs r]: [f leg_n r_n] for every leg. *)
From Coq Require Import Reals String.
From Verif Require Import Util StableSort RowModel RowProofs GridModel GridProofs SymModel SymProofs AbelianModel AbelianProofs
  CatSpec Cplx Tower ProductModel ProductProofs SpaceModel SpaceSpec SpaceProofs SpaceProofs2 SpaceProofs3 SpaceProofs7 DropModel
  PipeModel PipeProofs PipeProofs2 PipeProofs3 PipeProofs4 PipeProofs5.
From Verif Require ProductProps.
Open Scope nat_scope.

(** ** C30 *)
(** every product of abelian factors is a symmetry to which the theorems apply *)
Theorem C30_symmetries_qualify : forall (fs : list (factor C)), fs <> [] -> Forall (honest Cops) fs -> Forall (@single_outcome C) fs ->
  s_abelian (prod_symm Cops fs) = true -> exists fuse, abelian_group_laws (prod_symm Cops fs) fuse.
Proof.
  intros fs NE H SO A. exists (product_fuse Cops fs). apply product_group; auto. now apply Nat.eqb_eq in A.
Qed.
Print Assumptions C30_symmetries_qualify.

(** the combined public basis: the state at position (r_1, ..., r_N) is the product of the states r_n of the legs *)
Theorem C30_public_basis : forall (S : symm) fuse, abelian_group_laws S fuse -> s_abelian S = true -> s_drop S = true ->
  forall legs d c, legs <> [] -> (forall L, In L legs -> es_ok S L) ->
  exists P, new_pipe S legs d c = Some P /\ p_legs P = legs /\ p_cstyle P = c /\ es_dual (p_es P) = d /\ es_ok S (p_es P) /\
    es_dim S (p_es P) = prod (map (es_dim S) legs) /\
    forall r, valid_idx (map (es_dim S) legs) r ->
      multiple_fusion S (zipw (fun L i => nth i (sectors_of_basis S L) []) legs r) =
      Some (nth (flat_index (map (es_dim S) legs) c r) (sectors_of_basis S (p_es P)) []).
Proof.
  intros S fuse G HA HD legs d c HN OK. eexists. split; [apply (new_pipe_eq G HA HD HN OK d c)|]. cbn [p_legs p_cstyle p_es].
  split; [reflexivity|]. split; [reflexivity|]. split; [unfold pE; apply fds_dual|]. split; [apply (pE_ok G HD OK)|]. split; [apply (pE_dim G HD OK)|].
  intros r V. change (map (es_dim S) legs) with (pdims S legs). rewrite (pE_sector G HD OK d c V). apply (fuse_all_multiple G).
  - intros E. apply HN. apply length_zero_iff_nil. apply (f_equal (@length _)) in E. rewrite zipw_length in E; [exact E|].
    rewrite (valid_length V). apply map_length.
  - apply (p_basis_valid G OK c V).
Qed.
Print Assumptions C30_public_basis.

(** block_ind_map: every combination of blocks of the legs appears exactly once; the rows of one sector J of the pipe are
    consecutive, their slices [start, stop) fill 0 .. multiplicity(J) without gaps, and each slice has the size of the block. *)
Theorem C30_block_ind_map : forall (S : symm) fuse, abelian_group_laws S fuse -> s_abelian S = true -> s_drop S = true ->
  forall legs d c P, (forall L, In L legs -> es_ok S L) -> new_pipe S legs d c = Some P ->
  Permutation (map bim_idx (p_map P)) (make_grid (map (fun L => length (es_def L)) legs) c) /\
  forall m, m < length (p_map P) -> let row := nth m (p_map P) (Bim 0 0 [] 0) in let J := bim_J row in
    J < length (es_def (p_es P)) /\ nth J (p_slices P) 0 <= m < nth (J + 1) (p_slices P) 0 /\
    bim_stop row = bim_start row + prod (zipw (fun L i => nth i (es_mults L) 0) legs (bim_idx row)) /\
    bim_start row < bim_stop row <= nth J (es_mults (p_es P)) 0 /\
    multiple_fusion S (zipw (fun L i => nth i (es_decomp S L) []) legs (bim_idx row)) = Some (nth J (es_decomp S (p_es P)) []) /\
    (m = nth J (p_slices P) 0 -> bim_start row = 0) /\ (m + 1 = nth (J + 1) (p_slices P) 0 -> bim_stop row = nth J (es_mults (p_es P)) 0) /\
    (m + 1 < nth (J + 1) (p_slices P) 0 -> bim_J (nth (m + 1) (p_map P) (Bim 0 0 [] 0)) = J /\ bim_start (nth (m + 1) (p_map P) (Bim 0 0 [] 0)) = bim_stop row).
Proof.
  intros S fuse G HA HD legs d c P OK EP. assert (HN : legs <> []) by (intros ->; discriminate EP).
  rewrite (new_pipe_eq G HA HD HN OK d c) in EP. injection EP as <-. cbn [p_map p_es p_slices].
  split; [apply bim_idx_perm|]. intros m Hm. destruct (row_facts G HA HD OK (d := d) (c := c) Hm) as (A1 & A2 & A3 & A4 & A5 & A6 & A7 & A8).
  cbv zeta. repeat (split; [assumption|]). split; [|auto]. rewrite A5.
  assert (HI : In (bim_idx (nth m (pbim S fuse legs d c) (Bim 0 0 [] 0))) (pgrid legs c)).
  { unfold pgrid. eapply Permutation_in; [apply (bim_idx_perm S fuse legs d c)|]. apply in_map. now apply nth_In. }
  apply (fuse_all_multiple G).
  - intros E. apply HN. apply length_zero_iff_nil. apply (f_equal (@length _)) in E. unfold psec in E. rewrite zipw_length in E; [exact E|].
    now apply (pgrid_len OK (c := c)).
  - now apply (psec_valid G OK (c := c)).
Qed.
Print Assumptions C30_block_ind_map.

(** the internal basis state number k of the slice of a row: leg n is in internal state
    (start of its block) + (k-th multi-index of the block)_n, permuted by the basis permutation of that leg *)
Theorem C30_block_positions : forall (S : symm) fuse, abelian_group_laws S fuse -> s_abelian S = true -> s_drop S = true ->
  forall legs d c P, (forall L, In L legs -> es_ok S L) -> new_pipe S legs d c = Some P ->
  forall m k, m < length (p_map P) -> let row := nth m (p_map P) (Bim 0 0 [] 0) in
  let shape := zipw (fun L i => nth i (es_mults L) 0) legs (bim_idx row) in
  k < prod shape ->
  nth (nsum (firstn (bim_J row) (es_mults (p_es P))) + bim_start row + k) (basis_perm S (p_es P)) 0 =
  flat_index (map (es_dim S) legs) c
    (zipw (fun L i => nth i (basis_perm S L) 0) legs (locs (map es_mults legs) (bim_idx row) (nth k (make_grid shape c) []))).
Proof.
  intros S fuse G HA HD legs d c P OK EP m k. assert (HN : legs <> []) by (intros ->; discriminate EP).
  rewrite (new_pipe_eq G HA HD HN OK d c) in EP. injection EP as <-. cbn [p_map p_es]. intros Hm Hk.
  rewrite (proj1 (make_grid_nth c Hk)). exact (row_states G HA HD OK (d := d) (c := c) Hm Hk).
Qed.
Print Assumptions C30_block_positions.

(** the dual pipe is the dual space of the pipe: legs reversed and dualised, same public basis *)
Theorem C30_dual_pipe : forall (S : symm) fuse, abelian_group_laws S fuse -> s_abelian S = true -> s_drop S = true ->
  forall legs d c P, (forall L, In L legs -> es_ok S L) -> new_pipe S legs d c = Some P ->
  exists Q, dual_pipe S P = Some Q /\ p_legs Q = rev (map dual_es legs) /\ p_cstyle Q = negb c /\ p_es Q = dual_es (p_es P) /\
    (exists R, dual_pipe S Q = Some R /\ p_legs R = legs /\ p_cstyle R = c /\ p_es R = p_es P).
Proof.
  intros S fuse G HA HD legs d c P OK EP. assert (HN : legs <> []) by (intros ->; discriminate EP).
  rewrite (new_pipe_eq G HA HD HN OK d c) in EP. injection EP as <-. unfold dual_pipe. cbn [p_legs p_es p_cstyle].
  replace (es_dual (pE S fuse legs d c)) with d by (symmetry; apply fds_dual).
  assert (OK' := dl_ok G OK). assert (HN' := dl_ne HN).
  eexists. split; [apply (new_pipe_eq G HA HD HN' OK' (negb d) (negb c))|]. cbn [p_legs p_es p_cstyle].
  split; [apply map_rev|]. split; [reflexivity|]. split; [apply (dl_E G OK)|].
  rewrite (dl_E G OK). cbn [dual_es es_dual]. replace (es_dual (pE S fuse legs d c)) with d by (symmetry; apply fds_dual). rewrite !Bool.negb_involutive.
  assert (EL : map dual_es (rev (map dual_es (rev legs))) = legs).
  { rewrite map_rev, map_map, <- map_rev, rev_involutive. rewrite <- map_id. apply map_ext. apply dual_es_invol. }
  rewrite EL. eexists. split; [apply (new_pipe_eq G HA HD HN OK d c)|]. cbn [p_legs p_es p_cstyle]. auto.
Qed.
Print Assumptions C30_dual_pipe.
Theorem C30_rejects : forall (S : symm) legs d c, s_abelian S = false \/ s_drop S = false \/ legs = [] -> new_pipe S legs d c = None.
Proof.
  intros S legs d c H. unfold new_pipe. destruct legs as [|L legs]; [reflexivity|]. destruct H as [-> | [-> | H]]; [reflexivity| |discriminate].
  rewrite Bool.orb_true_r. reflexivity.
Qed.
Print Assumptions C30_rejects.

(** ** C34 *)
Theorem C34_dual_involution : forall S L, dual_leg (dual_leg L) = L /\ leg_eqb S (dual_leg (dual_leg L)) L = true.
Proof. intros S L. rewrite dual_leg_invol. split; [reflexivity|apply leg_eqb_refl]. Qed.
Print Assumptions C34_dual_involution.
(** the dual pipe: duals of the legs in opposite order, both flags flipped; its observable flags never agree with the original ones *)
Theorem C34_dual_pipe : forall legs d c, dual_leg (LPipe legs d c) = LPipe (rev (map dual_leg legs)) (negb d) (negb c).
Proof. reflexivity. Qed.
Print Assumptions C34_dual_pipe.
(** [same_leg] (PipeProofs4.v): same tree of pipes with the same flags, same sectors, multiplicities, duality and basis order at the leaves *)
Theorem C34_equality : forall S L M, leg_eqb S L M = true <-> same_leg S L M.
Proof. exact leg_eqb_iff. Qed.
Print Assumptions C34_equality.
Theorem C34_pipe_differs_from_dual : forall S legs d c, leg_eqb S (LPipe legs d c) (dual_leg (LPipe legs d c)) = false.
Proof. intros S legs d c. cbn [leg_eqb dual_leg]. destruct d; reflexivity. Qed.
Print Assumptions C34_pipe_differs_from_dual.
Theorem C34_flat_legs : forall L, flat_legs (dual_leg L) = rev (map dual_es (flat_legs L)) /\ num_flat_legs L = length (flat_legs L) /\
  num_flat_legs (dual_leg L) = num_flat_legs L.
Proof. intros L. split; [apply flat_legs_dual|]. split; [apply num_flat_length|apply num_flat_dual]. Qed.
Print Assumptions C34_flat_legs.
Theorem C34_dim : forall S, symm_ok S -> forall L, leg_wf S L -> leg_dim S L = prod (map (es_dim S) (flat_legs L)) /\ leg_dim S (dual_leg L) = leg_dim S L.
Proof. intros S SO L W. split; [apply leg_dim_flat|now apply leg_dim_dual]. Qed.
Print Assumptions C34_dim.
(** the flattening permutation is a permutation of offset, offset+1, ... *)
Theorem C34_flat_permutation : forall S L offset, leg_wf S L ->
  Permutation (flat_leg_permutation L offset) (seq offset (num_flat_legs L)) /\
  flat_leg_permutation L offset = map (fun i => i + offset) (flat_leg_permutation L 0).
Proof. intros S L off W. split; [now apply (@flp_perm S)|now apply (@flp_shift S)]. Qed.
Print Assumptions C34_flat_permutation.
(** its meaning: [nest_index S L r] is the index in the (nested) pipe of the flat indices r; it is the C-order index in an
    array whose axis number perm[k] is flat leg k *)
Theorem C34_flat_permutation_meaning : forall (S : symm) L, leg_wf S L -> forall r r' dims', length r = num_flat_legs L ->
  arranged (flat_leg_permutation L 0) r r' -> arranged (flat_leg_permutation L 0) (map (es_dim S) (flat_legs L)) dims' ->
  nest_index S L r = flat_index dims' true r'.
Proof. intros S L W r r' dims' LR A1 A2. exact (nest_index_flat W LR A1 A2). Qed.
Print Assumptions C34_flat_permutation_meaning.
(** the nested index is a bijection, the same for the dual pipe with reversed legs *)
Theorem C34_index_bijection : forall (S : symm), symm_ok S -> forall L, leg_wf S L ->
  (forall r, valid_idx (map (es_dim S) (flat_legs L)) r -> nest_index S L r < leg_dim S L) /\
  (forall m, m < leg_dim S L -> exists r, valid_idx (map (es_dim S) (flat_legs L)) r /\ nest_index S L r = m) /\
  (forall r, length r = num_flat_legs L -> nest_index S (dual_leg L) (rev r) = nest_index S L r).
Proof.
  intros S SO L W. split; [apply nest_index_lt|]. split; [apply nest_index_surj|]. intros r H. now apply nest_index_dual.
Qed.
Print Assumptions C34_index_bijection.
(** the basis permutation of a pipe acts on each flat leg by that leg's permutation; the dual pipe has the same one *)
Theorem C34_basis_perm : forall (S : symm), symm_ok S -> forall L, leg_wf S L ->
  is_perm (leg_dim S L) (leg_bperm S L) /\ leg_bperm S (dual_leg L) = leg_bperm S L /\
  forall r, valid_idx (map (es_dim S) (flat_legs L)) r ->
    nth (nest_index S L r) (leg_bperm S L) 0 = nest_index S L (zipw (fun E i => nth i (basis_perm S E) 0) (flat_legs L) r).
Proof.
  intros S SO L W. split; [now apply leg_bperm_ok|]. split; [now apply leg_bperm_dual|]. intros r V. now apply nest_bperm.
Qed.
Print Assumptions C34_basis_perm.
(** several legs: as if they were the legs of one C-style pipe *)
Theorem C34_flat_permutations : forall S legs, Forall (leg_wf S) legs -> legs <> [] ->
  flat_leg_permutations legs = flat_leg_permutation (LPipe legs false true) 0.
Proof. intros S legs W N. rewrite (@flps_eq S legs false W). destruct legs; [congruence|reflexivity]. Qed.
Print Assumptions C34_flat_permutations.

(** * Concrete instances *)
Definition u1 : symm := Symm U1 true true.
Definition legA : espace := ES [[-1]; [1]]%Z [2; 1] false (Some [1; 0; 2]).
Definition legB : espace := ES [[0]; [1]]%Z [1; 2] true None.
Example C30_ex_ok : es_ok u1 legA /\ es_ok u1 legB.
Proof.
  assert (LL : forall a b, (a < b)%Z -> lex_lt [a] [b]).
  { intros a b H. split; [reflexivity|]. exists 0. cbn. split; [lia|]. split; [exact H|]. intros j Hj. lia. }
  split; constructor; cbn [legA legB es_def es_mults es_perm].
  - intros s [<-|[<-|[]]]; reflexivity.
  - repeat constructor; apply LL; lia.
  - reflexivity.
  - intros m [<-|[<-|[]]]; lia.
  - intros p [= <-]. split; [reflexivity|]. change (is_perm 3 [1; 0; 2]). apply is_permutation_spec. vm_compute. reflexivity.
  - intros s [<-|[<-|[]]]; reflexivity.
  - repeat constructor; apply LL; lia.
  - reflexivity.
  - intros m [<-|[<-|[]]]; lia.
  - discriminate.
Qed.
Example C30_ex_pipe : exists P, new_pipe u1 [legA; legB] false true = Some P /\
  es_def (p_es P) = [[-2]; [-1]; [0]; [1]]%Z /\ es_mults (p_es P) = [4; 2; 2; 1] /\
  sectors_of_basis u1 legA = [[-1]; [-1]; [1]]%Z /\ sectors_of_basis u1 legB = [[0]; [-1]; [-1]]%Z /\
  sectors_of_basis u1 (p_es P) = [[-1]; [-2]; [-2]; [-1]; [-2]; [-2]; [1]; [0]; [0]]%Z /\ length (p_map P) = 4 /\
  basis_perm u1 (p_es P) = [4; 5; 1; 2; 3; 0; 7; 8; 6].
Proof. eexists. repeat split; vm_compute; reflexivity. Qed.
Definition nested : leg := LPipe [LSpace legA; LPipe [LSpace legB; LSpace legA; LSpace legA] true false; LSpace legB] false false.
Example C34_ex : leg_wf u1 nested /\ flat_leg_permutation nested 0 = [4; 3; 2; 1; 0] /\
  flat_leg_permutation (LPipe [nested; LPipe [LSpace legA; LSpace legB] false false; LSpace legA] false true) 10 = [14; 13; 12; 11; 10; 16; 15; 17] /\
  leg_dim u1 nested = 243 /\ nest_index u1 nested [1; 0; 2; 1; 2] = 1 + 3 * (0 + 3 * (2 + 3 * 1)) + 3 * 27 * 2.
Proof.
  destruct C30_ex_ok as [A B]. split; [|repeat split; vm_compute; reflexivity].
  unfold nested. apply leg_wf_pipe. split; [discriminate|]. constructor; [exact A|]. constructor; [|constructor; [exact B|constructor]].
  apply leg_wf_pipe. split; [discriminate|]. constructor; [exact B|]. constructor; [exact A|]. constructor; [exact A|constructor].
Qed.
