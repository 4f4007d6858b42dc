(** Legs of a tensor some of which are combined into pipes. *)
From Verif Require Import Util RowModel GridModel GridProofs SymModel CatSpec SpaceModel SpaceSpec PipeModel PipeProofs BlockModel SparseModel SparseSpec CombineModel.
Set Implicit Arguments. Unset Strict Implicit.
Open Scope nat_scope.

(** the legs an item stands for, and the single leg it is after combining *)
Definition item_legs (it : item) : list espace := match it with Keep L => [L] | Group P => p_legs P end.
Definition item_leg (it : item) : espace := match it with Keep L => L | Group P => p_es P end.
(** the pipe was made by its constructor from well-formed legs *)
Definition item_ok (S : symm) (it : item) : Prop :=
  match it with
  | Keep L => es_ok S L
  | Group P => (forall L, In L (p_legs P) -> es_ok S L) /\ new_pipe S (p_legs P) (es_dual (p_es P)) (p_cstyle P) = Some P
  end.
(** items in the order of the tensor legs: codomain, then the domain in reverse; the flag marks the domain *)
Definition leg_items (ic id : list item) : list (item * bool) := map (fun it => (it, false)) ic ++ map (fun it => (it, true)) (rev id).
Definition oriented (A : Type) (d : bool) (l : list A) : list A := if d then rev l else l.
(** the legs of an item in the order of the tensor legs *)
Definition olegs (x : item * bool) : list espace := oriented (snd x) (item_legs (fst x)).
(** which_legs of combine_legs with the resulting pipes: the numbers of the combined legs, group by group *)
Fixpoint groups_of (pos : nat) (its : list (item * bool)) : list (list nat * pipe) :=
  match its with
  | [] => []
  | (Keep _, _) :: t => groups_of (pos + 1) t
  | (Group P, _) :: t => (seq pos (length (p_legs P)), P) :: groups_of (pos + length (p_legs P)) t
  end.

(** [fused_position S x g j]: [j] is the (internal) basis position on the leg after combining that stands for the positions [g] on the legs of the
    item.  In public basis order (C30) it is the multi-index of the legs of the pipe. *)
Definition fused_position (S : symm) (x : item * bool) (g : list nat) (j : nat) : Prop :=
  match fst x with
  | Keep _ => g = [j]
  | Group P => j < es_dim S (p_es P) /\
      nth j (basis_perm S (p_es P)) 0 =
      flat_index (map (es_dim S) (p_legs P)) (p_cstyle P) (zipw (fun L i => nth i (basis_perm S L) 0) (p_legs P) (oriented (snd x) g))
  end.
(** the same for all legs of a tensor *)
Inductive fused_positions (S : symm) : list (item * bool) -> list nat -> list nat -> Prop :=
| fp_nil : fused_positions S [] [] []
| fp_cons : forall x its g j gs js, length g = length (item_legs (fst x)) -> fused_position S x g j -> fused_positions S its gs js ->
    fused_positions S (x :: its) (g ++ gs) (j :: js).
