(** Model of combine_legs and split_legs of the abelian backend (src/backends/abelian.cpp). *)
From Verif Require Import Util StableSort RowModel GridModel SymModel CatSpec SpaceModel PipeModel BlockModel SparseModel.
Set Implicit Arguments. Unset Strict Implicit.
Open Scope nat_scope.

Section Combine.
  Variable K : Type.
  Variable o : ops K.
  Notation block := (blk K).
  Notation adata := (list (list nat * blk K)).

  (** ** combine_legs *)
  (* The loops abelian.cpp:1068-1113 and 1134-1168 walk the old columns [j] and the groups: uncombined columns up to group[0] are passed to
     [keep], the columns of the group to [grp]; trailing uncombined columns at the end.  [r]: the columns from [j] on. *)
  Section Loop.
    Variable X : Type.
    Variable keep : nat -> nat -> X.
    Variable grp : list nat -> pipe -> list nat -> X.
    Fixpoint comb_loop (j : nat) (r : list nat) (groups : list (list nat * pipe)) : list X :=
      match groups with
      | [] => map (fun p => keep (fst p) (snd p)) (combine (seq j (length r)) r)
      | (group, P) :: rest =>
          let num_uncombined := hd 0 group - j in
          map (fun p => keep (fst p) (snd p)) (combine (seq j num_uncombined) (firstn num_uncombined r))
          ++ grp group P (firstn (length group) (skipn num_uncombined r))
          :: comb_loop (j + num_uncombined + length group) (skipn (num_uncombined + length group) r) rest
      end.
  End Loop.
  (* abelian.cpp:1083, 1087-1102: row of block_ind_map for the columns [cols] of a group *)
  Definition map_row (num_codomain : nat) (group : list nat) (P : pipe) (cols : list nat) : bim_row :=
    let in_domain := num_codomain <=? hd 0 group in
    let cols := if in_domain then rev cols else cols in
    let multi_index := pack_row cols (p_strides P) in
    nth (nth multi_index (inverse_permutation (p_sort P)) 0) (p_map P) (Bim 0 0 [] 0).
  (* abelian.cpp:1066-1113 *)
  Definition comb_row (num_codomain : nat) (groups : list (list nat * pipe)) (r : list nat) : list nat :=
    comb_loop (fun _ i => i) (fun g P cols => bim_J (map_row num_codomain g P cols)) 0 r groups.
  (* abelian.cpp:1134-1168 *)
  Definition comb_slices (num_codomain : nat) (legs : list espace) (groups : list (list nat * pipe)) (r : list nat) : list (nat * nat) :=
    comb_loop (fun j i => (0, nth i (es_mults (nth j legs (ES [] [] false None))) 0))
              (fun g P cols => let row := map_row num_codomain g P cols in (bim_start row, bim_stop row)) 0 r groups.
  (* abelian.cpp:1084 *)
  Definition comb_cstyles (num_codomain : nat) (groups : list (list nat * pipe)) : list bool :=
    map (fun gP => xorb (p_cstyle (snd gP)) (num_codomain <=? hd 0 (fst gP))) groups.
  (* abelian.cpp:1022-1218.  [legs]: the legs of the tensor, [new_legs]: conventional_leg_order(new_codomain, new_domain).
     [None]: combine_legs of the block backend raises. *)
  Definition combine_legs (num_codomain : nat) (legs new_legs : list espace) (groups : list (list nat * pipe)) (A : adata) : option adata :=
    let ents := map (fun e => (comb_row num_codomain groups (fst e), (comb_slices num_codomain legs groups (fst e), snd e))) A in
    let ents := take ([], ([], Blk [] [])) ents (lexsort_indices (zrows (map fst ents))) in
    let cstyles := comb_cstyles num_codomain groups in
    fold_right (fun g acc =>
        let row := fst g in
        let shape := map (fun p => nth (snd p) (es_mults (fst p)) 0) (combine new_legs row) in
        let new_block := fold_left (fun res sb =>
            match res, bcombine_legs o (snd sb) (map fst groups) cstyles with
            | Some res, Some combined => Some (bset_slice o res (map fst (fst sb)) (map snd (fst sb)) combined)
            | _, _ => None
            end) (snd g) (Some (bzeros o shape)) in
        match new_block, acc with
        | Some B, Some acc => Some ((row, B) :: acc)
        | _, _ => None
        end) (Some []) (group_entries ents).

  (** ** split_legs *)
  (** a leg of the tensor: left alone, or a pipe whose number is in leg_idcs *)
  Inductive item := Keep (L : espace) | Group (P : pipe).
  (* abelian.cpp:3264-3277: rows of the block_ind_map of each split leg that belong to sector number [b_i]: (begin, number) *)
  Fixpoint split_ranges (its : list item) (b : list nat) : list (nat * nat) :=
    match its, b with
    | Keep _ :: its, _ :: b => split_ranges its b
    | Group P :: its, bi :: b => (nth bi (p_slices P) 0, nth (bi + 1) (p_slices P) 0 - nth bi (p_slices P) 0) :: split_ranges its b
    | _, _ => []
    end.
  (* abelian.cpp:3290-3308: np.indices(shape).reshape(n_split, -1).T + beg; for n_split = 0 the code raises (not modelled) *)
  Definition split_map_rows (its : list item) (b : list nat) : list (list nat) :=
    let rg := split_ranges its b in
    map (fun inds => map (fun p => fst p + snd p) (combine (map fst rg) inds)) (make_grid (map snd rg) true).
  (* abelian.cpp:3332-3395: the columns of new_block_inds, and (old_block_beg, old_block_shapes), for one new block;
     [ms]: the row number in block_ind_map for every split leg; [i]: leg number *)
  Fixpoint split_row (num_codomain i : nat) (its : list item) (b ms : list nat) {struct its} : list nat * list (nat * nat) :=
    match its, b with
    | Keep L :: its, bi :: b =>
        let rest := split_row num_codomain (i + 1) its b ms in
        (bi :: fst rest, (0, nth bi (es_mults L) 0) :: snd rest)
    | Group P :: its, _ :: b =>
        let row := nth (hd 0 ms) (p_map P) (Bim 0 0 [] 0) in
        let idx := if num_codomain <=? i then rev (bim_idx row) else bim_idx row in
        let rest := split_row num_codomain (i + 1) its b (tl ms) in
        (idx ++ fst rest, (bim_start row, bim_stop row - bim_start row) :: snd rest)
    | _, _ => ([], [])
    end.
  (* abelian.cpp:3319-3341: axes_perm, [k] = i + shift *)
  Fixpoint split_perm (num_codomain i k : nat) (its : list item) : list nat :=
    match its with
    | [] => []
    | Keep _ :: its => k :: split_perm num_codomain (i + 1) (k + 1) its
    | Group P :: its =>
        let n := length (p_legs P) in
        (if Bool.eqb (p_cstyle P) (num_codomain <=? i) then rev (seq k n) else seq k n) ++ split_perm num_codomain (i + 1) (k + n) its
    end.
  (* abelian.cpp:3235-3436 *)
  Definition split_legs (num_codomain : nat) (its : list item) (new_legs : list espace) (A : adata) : adata :=
    match A with
    | [] => zero_data K
    | _ =>
      let perm := split_perm num_codomain 0 0 its in
      make_data
        (flat_map (fun e =>
           map (fun ms =>
             let rs := split_row num_codomain 0 its (fst e) ms in
             let shape := map (fun p => nth (snd p) (es_mults (fst p)) 0) (combine new_legs (fst rs)) in
             let piece := bslice o (snd e) (map fst (snd rs)) (map (fun p => fst p + snd p) (snd rs)) in
             (fst rs, btranspose o (breshape piece (take 0 shape perm)) perm))
           (split_map_rows its (fst e))) A) false
    end.
End Combine.
