(** Data of a diagonal tensor of the abelian backend (test_tensor_sanity with is_diagonal = true, abelian.cpp:439-505). *)
From Verif Require Import Util RowModel GridModel SymModel CatSpec SpaceModel SpaceSpec BlockModel SparseModel SparseSpec.
Set Implicit Arguments. Unset Strict Implicit.
Open Scope nat_scope.

(** rows [n; n], strictly ascending and in range, with one vector entry per state of the sector *)
Record diag_data_ok (K : Type) (N : espace) (W : list (list nat * blk K)) : Prop := {
  dd_sorted : strictly_sorted (zrows (map fst W));
  dd_rows : forall e, In e W -> exists n, n < nsec N /\ fst e = [n; n] /\ bshape (snd e) = [nth n (es_mults N) 0];
  dd_full : forall e, In e W -> length (bdata (snd e)) = prod (bshape (snd e));
}.
