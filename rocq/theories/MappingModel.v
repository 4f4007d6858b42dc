(* Model of include/cyten/tools/mappings.h: sparse mappings with structured keys.
   std::unordered_map is modelled by an association list without repeated keys; its iteration order is unspecified in
   C++ and is an arbitrary list order here.  Coefficients are elements of an abstract semiring (exact arithmetic;
   floating point rounding is not modelled). *)
From Coq Require Import List Arith Lia Bool.
From Verif Require Import Util RowModel SymModel CatSpec.
Import ListNotations.
Set Implicit Arguments.
Unset Strict Implicit.

Section Mapping.
  Variable KT : Type.
  Variable kdec : forall x y : KT, {x = y} + {x <> y}.
  Variable A : Type.
  Variable o : ops A.

  (* mappings.h:30-31: Inner = unordered_map<KT, Scalar>, Outer = unordered_map<KT, Inner> *)
  Notation inner_map := (list (KT * A)).
  Notation sparse_map := (list (KT * list (KT * A))).

  Fixpoint find (V : Type) (m : list (KT * V)) (k : KT) : option V :=
    match m with [] => None | (k', v) :: r => if kdec k' k then Some v else find r k end.

  (* res_k[i] += v : operator[] default-initialises a missing entry to 0 *)
  Fixpoint add_to (m : inner_map) (i : KT) (v : A) : inner_map :=
    match m with
    | [] => [(i, oadd o (o0 o) v)]
    | (k, a) :: r => if kdec k i then (k, oadd o a v) :: r else (k, a) :: add_to r i v
    end.

  (* mappings.h:42-51 (from_identity); a repeated key only overwrites the same entry *)
  Fixpoint from_identity (keys : list KT) : sparse_map :=
    match keys with
    | [] => []
    | k :: r => let m := from_identity r in
                match find m k with Some _ => m | None => (k, [(k, o1 o)]) :: m end
    end.

  (* mappings.h:56-75 (pre_compose): the three nested loops *)
  Definition compose_entry (self_jk : A) (res_k : inner_map) (e : KT * A) : inner_map :=
    add_to res_k (fst e) (omul o (snd e) self_jk).
  Definition compose_column (other : sparse_map) (res_k : inner_map) (e : KT * A) : inner_map :=
    match find other (fst e) with
    | None => res_k
    | Some other_j => fold_left (compose_entry (snd e)) other_j res_k
    end.
  Definition pre_compose (self other : sparse_map) : sparse_map :=
    map (fun ks => (fst ks, fold_left (compose_column other) (snd ks) [])) self.

  (* mappings.h:78-89, 92-100 (nonzero_rows, nonzero_cols), as lists (possibly with repetitions) for the sets *)
  Definition nonzero_rows (m : sparse_map) : list KT := flat_map (fun ks => map fst (snd ks)) m.
  Definition nonzero_cols (m : sparse_map) : list KT := map fst m.

  (* mappings.h:105-118 (prune); [big a] is std::abs(a) > tol *)
  Definition prune (big : A -> bool) (m : sparse_map) : sparse_map :=
    map (fun ks => (fst ks, filter (fun e => big (snd e)) (snd ks))) m.

  (* mappings.h:150-163 (IdentityMapping::pre_compose); the set of keys as a list *)
  Definition identity_pre_compose (keys : list KT) (other : sparse_map) : sparse_map :=
    flat_map (fun k => match find other k with None => [] | Some col => [(k, col)] end) keys.

  (* the coefficient A_{ij} = self[j][i], zero if not stored *)
  Definition entry (m : sparse_map) (j i : KT) : A :=
    match find m j with
    | None => o0 o
    | Some col => match find col i with None => o0 o | Some a => a end
    end.

  (* unordered_map: no key occurs twice *)
  Definition well_formed (m : sparse_map) : Prop :=
    NoDup (map fst m) /\ (forall k col, In (k, col) m -> NoDup (map fst col)).
End Mapping.
