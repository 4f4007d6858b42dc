(** Specification of an elementary space, independent of how the code stores it:
    a list of labelled public basis states. *)
From Verif Require Import Util RowModel SymModel SpaceModel GridModel.
Set Implicit Arguments. Unset Strict Implicit.
Open Scope nat_scope.

(** The internal basis of sectors s_0, s_1, ... with multiplicities m_0, m_1, ...: per sector, all copies of its
    first state, then all copies of its second state, ... (the convention of spaces.cpp:1272-1274 and of
    fusion_tree_backend.cpp:1925-1932).  A state is labelled by its sector and its position within the multiplet. *)
Definition states (S : symmetry) (secs : list sector) (mults : list nat) : list (sector * nat) :=
  flat_map (fun p => flat_map (fun k => repeat (fst p, k) (snd p)) (seq 0 (sym_dim S (fst p)))) (combine secs mults).

(** [arranged p internal public]: public entry p[k] is internal entry k. *)
Definition arranged (A : Type) (p : list nat) (internal public : list A) : Prop :=
  is_perm (length internal) p /\ length public = length internal /\
  forall k d, k < length internal -> nth (nth k p 0) public d = nth k internal d.

(** The public basis states of a space. *)
Definition public_states (S : symmetry) (E : espace) : list (sector * nat) :=
  take ([], 0) (states S (es_decomp S E) (es_mults E)) (inverse_permutation (basis_perm S E)).

(** number of copies of a sector *)
Definition mult_of (secs : list sector) (mults : list nat) (s : sector) : nat :=
  nsum (map snd (filter (fun p => row_eqb (fst p) s) (combine secs mults))).
Definition es_mult (S : symmetry) (E : espace) (s : sector) : nat := mult_of (es_decomp S E) (es_mults E) s.

(** what ElementarySpace::test_sanity demands (spaces.cpp:1042-1055, 107-129, 363-423) *)
Record es_ok (S : symm) (E : espace) : Prop := {
  ok_valid : forall s, In s (es_def E) -> sym_valid S s = true;
  ok_sorted : strictly_sorted (es_def E);
  ok_len : length (es_mults E) = length (es_def E);
  ok_pos : forall m, In m (es_mults E) -> 0 < m;
  ok_perm : forall p, es_perm E = Some p -> s_drop S = true /\ is_perm (es_dim S E) p;
}.

(** assumptions on the symmetry: valid sectors have the right length and positive dimension, duals are valid,
    involutive and have the same dimension; for an abelian symmetry all sectors are one dimensional. *)
Record symm_ok (S : symm) : Prop := {
  so_len : forall a, sym_valid S a = true -> length a = sym_len S;
  so_dual_valid : forall a, sym_valid S a = true -> sym_valid S (sym_dual S a) = true;
  so_dual_invol : forall a, sym_valid S a = true -> sym_dual S (sym_dual S a) = a;
  so_dim_pos : forall a, sym_valid S a = true -> 0 < sym_dim S a;
  so_dim_dual : forall a, sym_valid S a = true -> sym_dim S (sym_dual S a) = sym_dim S a;
  so_abelian : s_abelian S = true -> forall a, sym_valid S a = true -> sym_dim S a = 1;
}.

(** a space as Space::test_sanity demands it (spaces.cpp:363-423): valid, pairwise different sectors, positive
    multiplicities, and the sector order it promises *)
Record space_ok (S : symm) (V : space) : Prop := {
  sk_valid : forall s, In s (sp_secs V) -> sym_valid S s = true;
  sk_nodup : NoDup (sp_secs V);
  sk_len : length (sp_mults V) = length (sp_secs V);
  sk_pos : forall m, In m (sp_mults V) -> 0 < m;
  sk_order : match sp_order V with
             | None => True
             | Some Sorted => strictly_sorted (sp_secs V)
             | Some DualSorted => strictly_sorted (dual_sectors S (sp_secs V))
             end;
}.
Definition sp_mult (V : space) (s : sector) : nat := mult_of (sp_secs V) (sp_mults V) s.
