(** Specification of TensorProduct (C31, C33). *)
From Verif Require Import Util RowModel RowProofs GridModel GridProofs SymModel SymProofs SpaceModel SpaceSpec PipeModel TreeModel TensorModel.
Set Implicit Arguments. Unset Strict Implicit.
Open Scope nat_scope.

(** assumptions on the symmetry: fusion ring laws; if it says it is abelian, the fusion is that of a group; if it says
    that fusion is unique, the N symbols are 1 *)
Record tsymm_ok (S : tsymm) : Prop := {
  to_ring : fusion_ring S;
  to_abelian : s_abelian S = true -> exists fuse, abelian_group_laws S fuse;
  to_unique : ts_unique S = true -> forall a b c, sym_valid S a = true -> sym_valid S b = true -> In c (sym_outcomes S a b) -> sym_n S a b c = 1;
}.

(** consecutive slices [start, x1), [x1, x2), ..., [xn, stop) *)
Fixpoint tiles (start : nat) (slices : list (nat * nat)) (stop : nat) : Prop :=
    match slices with [] => start = stop | (a, b) :: r => a = start /\ a <= b /\ tiles b r stop end.

(** a basis state of the coupled sector [c] in a product of [legs]: a fusion tree and one multiplicity index per leg *)
Definition product_state (S : symmetry) (legs : list espace) (c : sector) (x : tree * list nat) : Prop :=
  valid_tree S (t_unc (fst x)) c (map es_dual legs) (fst x) /\
  Forall2 (fun a E => In a (es_decomp S E)) (t_unc (fst x)) legs /\
  valid_idx (map (fun p => es_mult S (fst p) (snd p)) (combine legs (t_unc (fst x)))) (snd x).

(** an argument [perm] of integers (negative ones count from the end) stands for the list [p] of positions *)
Definition perm_of (n : nat) (perm : list Z) (p : list nat) : Prop := map (fun i => to_valid_idx i n) perm = map Some p.
