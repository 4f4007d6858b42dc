(** Symmetries: the interface used by spaces and tensors, and the laws of a fusion ring. *)
From Verif Require Import Util RowModel.
Set Implicit Arguments.
Unset Strict Implicit.
Open Scope Z_scope.

(** A sector is a short row of int16 numbers (include/cyten/symmetries/sector.h:28-148).
    [sector_ok] is the range that the C++ element type int16_t enforces. *)
Notation sector := (list Z).
Definition int16 (x : Z) : Prop := -32768 <= x < 32768.
Definition int16b (x : Z) : bool := (-32768 <=? x) && (x <? 32768).

(** [static_cast<int16_t>(x)]: wrap modulo 2^16. *)
Definition to_i16 (x : Z) : Z := (x + 32768) mod 65536 - 32768.

(** include/cyten/symmetries/base_symmetry.h: the part of the virtual interface that
    concerns fusion rules.  [sym_valid] is is_valid_sector (the int16 range of the element
    type included), [sym_n] is [_n_symbol] (only meaningful for allowed fusions),
    [sym_dim] is sector_dim.  *)
Record symmetry := Sym {
  sym_len : nat;
  sym_valid : sector -> bool;
  sym_trivial : sector;
  sym_outcomes : sector -> sector -> list sector;
  sym_n : sector -> sector -> sector -> nat;
  sym_dual : sector -> sector;
  sym_dim : sector -> nat;
}.

(** base_symmetry.cpp:284-294 *)
Definition can_fuse_to (S : symmetry) (a b c : sector) : bool :=
  existsb (fun o => row_eqb o c) (sym_outcomes S a b).

(** base_symmetry.cpp:129-136 *)
Definition n_symbol (S : symmetry) (a b c : sector) : nat :=
  if can_fuse_to S a b c then sym_n S a b c else 0%nat.

(** base_symmetry.cpp:208-241.  Errors (wrong sizes, non-unique outcome) are [None].  The
    check [is_abelian()] is not modelled separately; it is implied by unique outcomes. *)
Fixpoint fusion_outcomes_broadcast (S : symmetry) (a b : list sector) : option (list sector) :=
  match a, b with
  | [], [] => Some []
  | x :: a', y :: b' =>
      match sym_outcomes S x y, fusion_outcomes_broadcast S a' b' with
      | [c], Some r => Some (c :: r)
      | _, _ => None
      end
  | _, _ => None
  end.

(** base_symmetry.cpp:273-282 *)
Definition multiple_fusion_broadcast_loop (S : symmetry) (acc : list sector)
  (rest : list (list sector)) : option (list sector) :=
  fold_left (fun acc s => match acc with
                          | None => None
                          | Some acc => fusion_outcomes_broadcast S acc s
                          end) rest (Some acc).

(** base_symmetry.cpp:259-271 *)
Definition multiple_fusion_broadcast (S : symmetry) (l : list (list sector))
  : option (list sector) :=
  match l with
  | [] => Some [sym_trivial S]
  | [s] => Some s
  | s :: rest => multiple_fusion_broadcast_loop S s rest
  end.

(** base_symmetry.cpp:243-257 *)
Definition multiple_fusion (S : symmetry) (l : list sector) : option sector :=
  match multiple_fusion_broadcast S (map (fun s => [s]) l) with
  | Some (r :: _) => Some r
  | _ => None
  end.

(** base_symmetry.cpp:349-357, 197-206 *)
Definition dual_sectors (S : symmetry) (l : list sector) : list sector := map (sym_dual S) l.
Definition are_valid_sectors (S : symmetry) (l : list sector) : bool := forallb (sym_valid S) l.

(** * Specification: the laws of a (multiplicity-valued) fusion ring *)

(** number of ways to fuse (a b) -> e, then (e c) -> d, summed over e;  and the other order *)
Definition left_count (S : symmetry) (a b c d : sector) : nat :=
  nsum (map (fun e => n_symbol S a b e * n_symbol S e c d)%nat (sym_outcomes S a b)).
Definition right_count (S : symmetry) (a b c d : sector) : nat :=
  nsum (map (fun f => n_symbol S b c f * n_symbol S a f d)%nat (sym_outcomes S b c)).

Record fusion_ring (S : symmetry) : Prop := {
  fr_len : forall a, sym_valid S a = true -> length a = sym_len S;
  fr_trivial_valid : sym_valid S (sym_trivial S) = true;
  fr_dual_valid : forall a, sym_valid S a = true -> sym_valid S (sym_dual S a) = true;
  fr_closed : forall a b c, sym_valid S a = true -> sym_valid S b = true ->
      In c (sym_outcomes S a b) -> sym_valid S c = true;
  fr_nodup : forall a b, sym_valid S a = true -> sym_valid S b = true ->
      NoDup (sym_outcomes S a b);
  fr_pos : forall a b c, sym_valid S a = true -> sym_valid S b = true ->
      In c (sym_outcomes S a b) -> (0 < sym_n S a b c)%nat;
  fr_unit : forall a, sym_valid S a = true ->
      sym_outcomes S (sym_trivial S) a = [a] /\ n_symbol S (sym_trivial S) a a = 1%nat;
  fr_comm : forall a b c, sym_valid S a = true -> sym_valid S b = true ->
      sym_valid S c = true -> n_symbol S a b c = n_symbol S b a c;
  fr_assoc : forall a b c d, sym_valid S a = true -> sym_valid S b = true ->
      sym_valid S c = true -> sym_valid S d = true ->
      left_count S a b c d = right_count S a b c d;
  fr_dual : forall a b, sym_valid S a = true -> sym_valid S b = true ->
      n_symbol S a b (sym_trivial S) = if row_eqb b (sym_dual S a) then 1%nat else 0%nat;
  fr_dual_invol : forall a, sym_valid S a = true -> sym_dual S (sym_dual S a) = a;
  fr_dual_trivial : sym_dual S (sym_trivial S) = sym_trivial S;
  fr_dual_n : forall a b c, sym_valid S a = true -> sym_valid S b = true ->
      sym_valid S c = true ->
      n_symbol S (sym_dual S a) (sym_dual S b) (sym_dual S c) = n_symbol S a b c;
}.

(** dimensions multiply under fusion (symmetries with can_be_dropped) *)
Definition dim_law (S : symmetry) : Prop :=
  (forall a, sym_valid S a = true -> (0 < sym_dim S a)%nat) /\
  sym_dim S (sym_trivial S) = 1%nat /\
  (forall a, sym_valid S a = true -> sym_dim S (sym_dual S a) = sym_dim S a) /\
  (forall a b, sym_valid S a = true -> sym_valid S b = true ->
     nsum (map (fun c => n_symbol S a b c * sym_dim S c)%nat (sym_outcomes S a b))
     = (sym_dim S a * sym_dim S b)%nat).

(** a symmetry with unique fusion outcomes that form an abelian group *)
Record abelian_group_laws (S : symmetry) (fuse : sector -> sector -> sector) : Prop := {
  ag_outcomes : forall a b, sym_valid S a = true -> sym_valid S b = true ->
      sym_outcomes S a b = [fuse a b];
  ag_n : forall a b c, sym_n S a b c = 1%nat;
  ag_dim : forall a, sym_dim S a = 1%nat;
  ag_len : forall a, sym_valid S a = true -> length a = sym_len S;
  ag_closed : forall a b, sym_valid S a = true -> sym_valid S b = true ->
      sym_valid S (fuse a b) = true;
  ag_trivial_valid : sym_valid S (sym_trivial S) = true;
  ag_dual_valid : forall a, sym_valid S a = true -> sym_valid S (sym_dual S a) = true;
  ag_assoc : forall a b c, sym_valid S a = true -> sym_valid S b = true ->
      sym_valid S c = true -> fuse (fuse a b) c = fuse a (fuse b c);
  ag_comm : forall a b, sym_valid S a = true -> sym_valid S b = true -> fuse a b = fuse b a;
  ag_unit : forall a, sym_valid S a = true -> fuse (sym_trivial S) a = a;
  ag_inv : forall a, sym_valid S a = true -> fuse a (sym_dual S a) = sym_trivial S;
}.

(** all ways of fusing a sequence of sectors pairwise: binary trees *)
Inductive bracketing : Type := BLeaf (a : sector) | BNode (l r : bracketing).
Fixpoint bleaves (t : bracketing) : list sector :=
  match t with BLeaf a => [a] | BNode l r => bleaves l ++ bleaves r end.
(** fuse along the tree, using the library's pairwise fusion at every node *)
Fixpoint beval (S : symmetry) (t : bracketing) : option sector :=
  match t with
  | BLeaf a => Some a
  | BNode l r =>
      match beval S l, beval S r with
      | Some a, Some b => match sym_outcomes S a b with [c] => Some c | _ => None end
      | _, _ => None
      end
  end.
