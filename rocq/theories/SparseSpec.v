(** What a well-formed block-sparse tensor is. *)
From Verif Require Import Util RowModel GridModel SymModel CatSpec SpaceModel SpaceSpec PipeProofs BlockModel SparseModel.
Set Implicit Arguments. Unset Strict Implicit.
Open Scope nat_scope.

(** [shp mss b] (PipeProofs.v): the extents [mss_n[b_n]] of block [b]; [locs mss b q]: the global index with
    [g_n = (mss_n[0] + .. + mss_n[b_n - 1]) + q_n], i.e. entry [q] of block [b]. *)
Definition mults (legs : list espace) : list (list nat) := map es_mults legs.

(** rows strictly sorted (hence unique) in np.lexsort order and in range, every block has the extents its row demands *)
Record data_ok (K : Type) (legs : list espace) (D : list (list nat * blk K)) : Prop := {
  do_sorted : strictly_sorted (zrows (map fst D));
  do_valid : forall e, In e D -> valid_idx (map nsec legs) (fst e);
  do_shape : forall e, In e D -> bshape (snd e) = shp (mults legs) (fst e);
  do_full : forall e, In e D -> length (bdata (snd e)) = prod (bshape (snd e));
}.
(** the sectors at a row *)
Definition row_sectors (S : symmetry) (legs : list espace) (r : list nat) : list sector := zipw (fun L i => nth i (es_decomp S L) []) legs r.
(** charge rule: the codomain sectors and the domain sectors fuse to the same sector ([multiple_fusion S [] = trivial]) *)
Definition row_charge_ok (S : symmetry) (cod dom : list espace) (r : list nat) : Prop :=
  multiple_fusion S (row_sectors S cod (firstn (length cod) r)) = multiple_fusion S (row_sectors S dom (rev (skipn (length cod) r))).
Definition charge_ok (K : Type) (S : symmetry) (cod dom : list espace) (D : list (list nat * blk K)) : Prop :=
  forall e, In e D -> row_charge_ok S cod dom (fst e).
(** positions of the dense array *)
Definition dense_idx (S : symmetry) (legs : list espace) (g : list nat) : Prop := valid_idx (map (es_dim S) legs) g.

(** A tensor with codomain factors [cod] and domain factors [dom]; legs in the order [cod ++ rev dom]. *)
Record tensor_ok (K : Type) (S : symm) (cod dom : list espace) (D : list (list nat * blk K)) : Prop := {
  to_legs : forall L, In L (leg_order cod dom) -> es_ok S L;
  to_data : data_ok (leg_order cod dom) D;
  to_charge : charge_ok S cod dom D;
}.
(** entry of the dense array (to_dense_block, internal basis order) *)
Definition entry (K : Type) (o : ops K) (S : symmetry) (cod dom : list espace) (D : list (list nat * blk K)) (g : list nat) : K :=
  bat o (to_dense o S (leg_order cod dom) D) g.
(** all positions of an array with the given legs *)
Definition positions (S : symmetry) (legs : list espace) : list (list nat) := make_grid (map (es_dim S) legs) true.
