(** What the inner product of tensors needs from the topological data (C62). *)
From Verif Require Import Util RowModel SymModel CatSpec TreeModel MoveModel.
Set Implicit Arguments. Unset Strict Implicit.
Open Scope nat_scope.

(** quantum dimensions [qdim], their roots, and the B symbols: bending a leg down and bending it up have adjoint matrix elements when a pair of trees with coupled
    sector c has weight qdim c *)
Record bend_metric (S : symmetry) (K : Type) (o : ops K) (B : Bsym K) (qdim sqrt_qdim fs : sector -> K) : Prop := {
  bm_flip : forall a z c, sym_valid S a = true -> sym_valid S z = true -> In c (sym_outcomes S a z) -> forall mu nu, mu < n_symbol S a z c -> nu < n_symbol S a z c ->
    omul o (qdim a) (B a z c mu nu) = omul o (fs z) (omul o (qdim c) (B c (sym_dual S z) a nu mu));
  bm_sqrt : forall a, sym_valid S a = true -> omul o (sqrt_qdim a) (sqrt_qdim a) = qdim a /\ oconj o (sqrt_qdim a) = sqrt_qdim a;
}.
