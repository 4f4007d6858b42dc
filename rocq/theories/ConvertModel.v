(** Model of the conversion between the data of the abelian backend and of the fusion tree backend: _convert_abelian_to_FT and
    _convert_FT_to_abelian (src/tensors/helpers.cpp:62-170, 296-609), with the parts of FusionTreeBackend they use.
    SymmetricTensor.to_backend calls them for tensors without pipes (src/tensors/symmetric_tensor.cpp:636-662 splits the pipes before): the factors
    of codomain and domain are elementary spaces.  Not modelled: dtypes, devices, the conversion between block backends (as_block). *)
From Verif Require Import Util StableSort RowModel GridModel SymModel CatSpec SpaceModel PipeModel TreeModel TensorModel BlockModel SparseModel.
Set Implicit Arguments. Unset Strict Implicit.
Open Scope nat_scope.

(** ** SectorIndexProduct (helpers.cpp:62-107) *)
(* the loop of next() (helpers.cpp:95-103), from the last index; the arguments are reversed.  [None]: done *)
Fixpoint bump (ranges cur : list nat) : option (list nat) :=
  match ranges, cur with
  | r :: ranges, c :: cur => if c + 1 <? r then Some (c + 1 :: cur)
                             else match bump ranges cur with Some cur => Some (0 :: cur) | None => None end
  | _, _ => None
  end.
Definition odo_next (ranges cur : list nat) : option (list nat) :=
  match bump (rev ranges) (rev cur) with Some c => Some (rev c) | None => None end.
Fixpoint odo_from (fuel : nat) (ranges cur : list nat) : list (list nat) :=
  match fuel with
  | 0 => []
  | Datatypes.S fuel => cur :: match odo_next ranges cur with Some c => odo_from fuel ranges c | None => [] end
  end.
(* all values of current() in for (SectorIndexProduct prod(ranges); !prod.done(); prod.next()); there are at most prod(ranges) *)
Definition odo_all (ranges : list nat) : list (list nat) :=
  if existsb (fun r => r <=? 0) ranges then [] else odo_from (prod ranges) ranges (repeat 0 (length ranges)).

Section Convert.
  Variable S : tsymm.
  Variable K : Type.
  Variable o : ops K.
  Notation block := (blk K).
  Notation adata := (list (list nat * blk K)).
  (** FusionTreeData: rows (codomain sector index, domain sector index) with their blocks (fusion_tree_backend.cpp:46-74 rejects other sizes) *)
  Notation fdata := (list (nat * nat * blk K)).

  (* helpers.cpp:131-140, 142-152 *)
  Definition sectors_at (legs : list espace) (idcs : list nat) : list sector := map (fun p => nth (snd p) (es_decomp S (fst p)) []) (combine legs idcs).
  Definition mults_at (legs : list espace) (idcs : list nat) : list nat := map (fun p => nth (snd p) (es_mults (fst p)) 0) (combine legs idcs).

  (* block_inds.cpp:573-590: the loop *)
  Fixpoint search (fuel : nat) (col : list nat) (value lo hi : nat) : nat :=
    match fuel with
    | 0 => lo
    | Datatypes.S fuel => if lo <? hi then let mid := lo + (hi - lo) / 2 in if nth mid col 0 <? value then search fuel col value (mid + 1) hi else search fuel col value lo mid
                          else lo
    end.
  Definition searchsorted_column (col : list nat) (value : nat) : nat := search (length col) col value 0 (length col).
  (* fusion_tree_backend.cpp:84-101; [None]: runtime_error, [Some None]: nullopt *)
  Definition block_ind_from_domain_sector_ind (rows : list (nat * nat)) (j : nat) : option (option nat) :=
    let col := map snd rows in
    let ind := searchsorted_column col j in
    if (length rows <=? ind) || negb (nth ind col 0 =? j) then Some None
    else if (ind + 1 <? length rows) && (nth (ind + 1) col 0 =? j) then None
    else Some (Some ind).
  (* fusion_tree_backend.cpp:74-82 *)
  Definition block_ind_from_coupled (rows : list (nat * nat)) (c : sector) (Q : tprod) : option (option nat) :=
    match row_where (tp_secs Q) c with None => Some None | Some j => block_ind_from_domain_sector_ind rows j end.
  (* fusion_tree_backend.cpp:1154-1179 with all_blocks = true *)
  Definition ft_zero_data (P Q : tprod) : fdata :=
    flat_map (fun j => match row_where (tp_secs P) (nth j (tp_secs Q) []) with
                       | None => []
                       | Some i => [((i, j), bzeros o [nth i (tp_mults P) 0; nth j (tp_mults Q) 0])]
                       end) (seq 0 (length (tp_secs Q))).

  (** assign_block_slice (helpers.cpp:156-162) with two slices, and with an integer 0 and a slice: the value must have the shape of the slice
      (NumPy would broadcast or raise); here a value of another shape, or a slice that leaves the array, is an exception. *)
  Definition assign (B : block) (starts stops : list nat) (V : block) : option block :=
    if (if list_eq_dec Nat.eq_dec (bshape V) (map (fun p => snd p - fst p) (combine starts stops)) then true else false) &&
       forallb (fun p => fst p <=? snd p) (combine stops (bshape B))
    then Some (bset_slice o B starts stops V) else None.
  Definition assign_at (blocks : list block) (k : nat) (starts stops : list nat) (V : block) : option (list block) :=
    match nth_error blocks k with
    | None => None
    | Some B => match assign B starts stops V with Some B => Some (upd blocks k B) | None => None end
    end.
  (* get_block_slice (helpers.cpp:164-168): slices are cut off at the end of the array *)
  Definition get_slice (B : block) (starts stops : list nat) : block := bslice o B starts (map (fun p => Nat.min (fst p) (snd p)) (combine stops (bshape B))).

  (** ** _convert_abelian_to_FT *)
  Record cstate := CState { c_blocks : list block; c_touched : list bool; c_i2 : list nat }.
  Section ToFT.
    Variables (P Q : tprod) (D : adata).
    Let cod := tp_flat_legs P.
    Let dom := tp_flat_legs Q.
    Let res := ft_zero_data P Q.
    (* helpers.cpp:325-354: no codomain legs; the state is (blocks, touched, i2) *)
    Definition dom_step0 (acc : option (list block * list bool * nat)) (b : list nat) : option (list block * list bool * nat) :=
      match acc with
      | None => None
      | Some (blocks, touched, i2) =>
        match multiple_fusion S (sectors_at dom b) with
        | None => None
        | Some c =>
          if negb (row_eqb c (sym_trivial S)) then acc else
          let width := prod (mults_at dom b) in
          match get_block D (rev b) with
          | None => Some (blocks, touched, i2 + width)
          | Some B =>
            match bcombine_legs o B [seq 0 (length dom)] [false] with
            | None => None
            | Some V => match assign_at blocks 0 [0; i2] [1; i2 + width] (breshape V (1 :: bshape V)) with
                        | None => None
                        | Some blocks => Some (blocks, upd touched 0 true, i2 + width)
                        end
            end
          end
        end
      end.
    (* helpers.cpp:355-384: no domain legs *)
    Definition cod_step0 (acc : option (list block * list bool * nat)) (a : list nat) : option (list block * list bool * nat) :=
      match acc with
      | None => None
      | Some (blocks, touched, i1) =>
        match multiple_fusion S (sectors_at cod a) with
        | None => None
        | Some c =>
          if negb (row_eqb c (sym_trivial S)) then acc else
          let height := prod (mults_at cod a) in
          match get_block D a with
          | None => Some (blocks, touched, i1 + height)
          | Some B =>
            match bcombine_legs o B [seq 0 (length cod)] [true] with
            | None => None
            | Some V => match assign_at blocks 0 [i1; 0] [i1 + height; 1] (breshape V (bshape V ++ [1])) with
                        | None => None
                        | Some blocks => Some (blocks, upd touched 0 true, i1 + height)
                        end
            end
          end
        end
      end.
    (* helpers.cpp:416-450: the inner loop; the state is (blocks, touched, i1) *)
    Definition cod_step (b : list nat) (c : sector) (k i2 width : nat) (acc : option (list block * list bool * nat)) (a : list nat) : option (list block * list bool * nat) :=
      match acc with
      | None => None
      | Some (blocks, touched, i1) =>
        match multiple_fusion S (sectors_at cod a) with
        | None => None
        | Some c2 =>
          let height := prod (mults_at cod a) in
          if negb (row_eqb c2 c) then acc else
          match get_block D (a ++ rev b) with
          | None => Some (blocks, touched, i1 + height)
          | Some B =>
            match bcombine_legs o B [seq 0 (length cod); seq (length cod) (length dom)] [true; false] with
            | None => None
            | Some V => match assign_at blocks k [i1; i2] [i1 + height; i2 + width] V with
                        | None => None
                        | Some blocks => Some (blocks, upd touched k true, i1 + height)
                        end
            end
          end
        end
      end.
    (* helpers.cpp:402-456 *)
    Definition dom_step (acc : option cstate) (b : list nat) : option cstate :=
      match acc with
      | None => None
      | Some st =>
        match multiple_fusion S (sectors_at dom b) with
        | None => None
        | Some c =>
          match block_ind_from_coupled (map fst res) c Q with
          | None => None
          | Some None => Some st
          | Some (Some k) =>
            let width := prod (mults_at dom b) in
            let i2 := nth k (c_i2 st) 0 in
            match fold_left (cod_step b c k i2 width) (odo_all (map nsec cod)) (Some (c_blocks st, c_touched st, 0)) with
            | None => None
            | Some (blocks, touched, _) => Some (CState blocks touched (upd (c_i2 st) k (i2 + width)))
            end
          end
        end
      end.
    (* helpers.cpp:458-463 *)
    Definition keep_touched (blocks : list block) (touched : list bool) : fdata :=
      map fst (filter snd (combine (combine (map fst res) blocks) touched)).
    (* helpers.cpp:296-463 *)
    Definition convert_abelian_to_FT : option fdata :=
      let blocks := map snd res in
      let touched := repeat false (length res) in
      match cod, dom with
      | [], _ => match fold_left dom_step0 (odo_all (map nsec dom)) (Some (blocks, touched, 0)) with
                 | Some (blocks, touched, _) => Some (keep_touched blocks touched) | None => None end
      | _, [] => match fold_left cod_step0 (odo_all (map nsec cod)) (Some (blocks, touched, 0)) with
                 | Some (blocks, touched, _) => Some (keep_touched blocks touched) | None => None end
      | _, _ => match fold_left dom_step (odo_all (map nsec dom)) (Some (CState blocks touched (repeat 0 (length res)))) with
                | Some st => Some (keep_touched (c_blocks st) (c_touched st)) | None => None end
      end.
  End ToFT.

  (** ** _convert_FT_to_abelian *)
  Section ToAbelian.
    Variables (P Q : tprod) (F : fdata).
    Let cod := tp_flat_legs P.
    Let dom := tp_flat_legs Q.
    Definition blk_of (k : nat) : block := nth k (map snd F) (Blk [] []).
    (* helpers.cpp:484-513: no codomain legs; the state is (result, i2_per_coupled).  Indexing with 0 removes the axis *)
    Definition ab_dom_step0 (acc : option (adata * list nat)) (b : list nat) : option (adata * list nat) :=
      match acc with
      | None => None
      | Some (out, i2s) =>
        match multiple_fusion S (sectors_at dom b) with
        | None => None
        | Some c =>
          if negb (row_eqb c (sym_trivial S)) then acc else
          match block_ind_from_coupled (map fst F) c Q with
          | None => None
          | Some None => acc
          | Some (Some k) =>
            let width := prod (mults_at dom b) in
            let i2 := nth k i2s 0 in
            let V := get_slice (blk_of k) [0; i2] [1; i2 + width] in
            match bsplit_legs o (breshape V (tl (bshape V))) [0] [mults_at dom b] [false] with
            | None => None
            | Some B => Some (out ++ [(rev b, B)], upd i2s k (i2 + width))
            end
          end
        end
      end.
    (* helpers.cpp:514-542: no domain legs *)
    Definition ab_cod_step0 (acc : option (adata * list nat)) (a : list nat) : option (adata * list nat) :=
      match acc with
      | None => None
      | Some (out, i1s) =>
        match multiple_fusion S (sectors_at cod a) with
        | None => None
        | Some c =>
          if negb (row_eqb c (sym_trivial S)) then acc else
          match block_ind_from_coupled (map fst F) c Q with
          | None => None
          | Some None => acc
          | Some (Some k) =>
            let height := prod (mults_at cod a) in
            let i1 := nth k i1s 0 in
            let V := get_slice (blk_of k) [i1; 0] [i1 + height; 1] in
            match bsplit_legs o (breshape V (removelast (bshape V))) [0] [mults_at cod a] [true] with
            | None => None
            | Some B => Some (out ++ [(a, B)], upd i1s k (i1 + height))
            end
          end
        end
      end.
    (* helpers.cpp:563-592: the inner loop; the state is (result, i1) *)
    Definition ab_cod_step (b : list nat) (c : sector) (k i2 width : nat) (acc : option (adata * nat)) (a : list nat) : option (adata * nat) :=
      match acc with
      | None => None
      | Some (out, i1) =>
        match multiple_fusion S (sectors_at cod a) with
        | None => None
        | Some c2 =>
          let height := prod (mults_at cod a) in
          if negb (row_eqb c2 c) then acc else
          match bsplit_legs o (get_slice (blk_of k) [i1; i2] [i1 + height; i2 + width]) [0; 1] [mults_at cod a; mults_at dom b] [true; false] with
          | None => None
          | Some B => Some (out ++ [(a ++ rev b, B)], i1 + height)
          end
        end
      end.
    (* helpers.cpp:543-598 *)
    Definition ab_dom_step (acc : option (adata * list nat)) (b : list nat) : option (adata * list nat) :=
      match acc with
      | None => None
      | Some (out, i2s) =>
        match multiple_fusion S (sectors_at dom b) with
        | None => None
        | Some c =>
          match block_ind_from_coupled (map fst F) c Q with
          | None => None
          | Some None => acc
          | Some (Some k) =>
            let width := prod (mults_at dom b) in
            let i2 := nth k i2s 0 in
            match fold_left (ab_cod_step b c k i2 width) (odo_all (map nsec cod)) (Some (out, 0)) with
            | None => None
            | Some (out, _) => Some (out, upd i2s k (i2 + width))
            end
          end
        end
      end.
    (* helpers.cpp:465-609 *)
    Definition convert_FT_to_abelian : option adata :=
      let i0 := repeat 0 (length F) in
      let loop := match cod, dom with
                  | [], _ => fold_left ab_dom_step0 (odo_all (map nsec dom)) (Some ([], i0))
                  | _, [] => fold_left ab_cod_step0 (odo_all (map nsec cod)) (Some ([], i0))
                  | _, _ => fold_left ab_dom_step (odo_all (map nsec dom)) (Some ([], i0))
                  end in
      match loop with Some (out, _) => Some (make_data out false) | None => None end.
  End ToAbelian.
End Convert.
