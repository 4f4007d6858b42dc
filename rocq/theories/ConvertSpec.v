(** How the data of the fusion tree backend describe a tensor with an abelian symmetry (C40). *)
From Verif Require Import Util RowModel GridModel GridProofs SymModel CatSpec SpaceModel PipeModel PipeProofs TreeModel TensorModel BlockModel SparseModel SparseSpec.
Set Implicit Arguments. Unset Strict Implicit.
Open Scope nat_scope.

Section FT.
  Variable S : tsymm.
  Variable K : Type.
  Variable o : ops K.
  (** rows (index of the coupled sector in the codomain, index in the domain), each with a matrix *)
  Notation fdata := (list (nat * nat * blk K)).

  (** rows strictly sorted by the domain index and in range; both indices name the same coupled sector; the matrix has one row per state of the
      codomain and one column per state of the domain in that sector *)
  Record ft_ok (P Q : tprod) (F : fdata) : Prop := {
    fo_sorted : StronglySorted lt (map (fun e => snd (fst e)) F);
    fo_range : forall e, In e F -> fst (fst e) < length (tp_secs P) /\ snd (fst e) < length (tp_secs Q);
    fo_sector : forall e, In e F -> nth (fst (fst e)) (tp_secs P) [] = nth (snd (fst e)) (tp_secs Q) [];
    fo_shape : forall e, In e F -> bshape (snd e) = [nth (fst (fst e)) (tp_mults P) 0; nth (snd (fst e)) (tp_mults Q) 0];
    fo_full : forall e, In e F -> length (bdata (snd e)) = prod (bshape (snd e));
  }.
  (** entry [x, y] of the matrix of coupled sector [c]; a missing matrix is zero *)
  Definition ft_entry (Q : tprod) (F : fdata) (c : sector) (x y : nat) : K :=
    match find (fun e => row_eqb (nth (snd (fst e)) (tp_secs Q) []) c) F with Some e => bat o (snd e) [x; y] | None => o0 o end.
  (** the entry for the sectors number [a] and multiplicity indices [p] on the codomain legs, [b] and [q] on the domain legs.  If both sides fuse to the
      same sector it is an entry of that sector's matrix: the rows of the uncoupled sectors are the slice that TensorProduct.forest_block_slice reports,
      inside of it the multiplicity indices are enumerated in C style; the same for the columns. *)
  Definition ft_value (P Q : tprod) (F : fdata) (a p b q : list nat) : K :=
    let cod := tp_flat_legs P in let dom := tp_flat_legs Q in
    match multiple_fusion S (row_sectors S cod a), multiple_fusion S (row_sectors S dom b) with
    | Some c, Some c' =>
        if row_eqb c c' then
          match forest_block_slice S P (row_sectors S cod a) c, forest_block_slice S Q (row_sectors S dom b) c with
          | Some (x, _), Some (y, _) => ft_entry Q F c (x + flat_index (shp (mults cod) a) true p) (y + flat_index (shp (mults dom) b) true q)
          | _, _ => o0 o
          end
        else o0 o
    | _, _ => o0 o
    end.
End FT.
