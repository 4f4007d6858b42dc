(** Model of the masks of AbelianBackend (src/backends/abelian.cpp).
    Data of a projection from the leg [L] to a smaller leg: rows [small; large], blocks are vectors of booleans over the states of the sector of the large leg.  Inclusions have rows [large; small].
    Functions of blocks are given by what they do with an entry.  Not modelled: dtypes, devices. *)
From Verif Require Import Util RowModel GridModel SymModel CatSpec SpaceModel SpaceSpec TensorModel BlockModel SparseModel FtOpsModel AbDecModel AbDiagModel.
Set Implicit Arguments. Unset Strict Implicit.
Open Scope nat_scope.

(** booleans as entries of blocks *)
Definition Bops : ops bool := {| o0 := false; o1 := true; oadd := orb; omul := andb; oopp := fun x => x; oconj := fun x => x |}.
Notation mdata := (list (list nat * blk bool)).
Notation bblk := (blk bool).
(* sum_all of a boolean block, as an integer *)
Definition btrues (B : bblk) : nat := length (filter (fun x : bool => x) (bdata B)).
(* indexing with a boolean array, a[mask], is [take_mask] (RowModel.v) *)

Section Masks.
  Variable K : Type.
  Variable o : ops K.
  (** the common tail of mask_binary_operand (2437-2470), mask_from_block (2610-2638), mask_unary_operand (2728-2758) and diagonal_to_mask (1726-1752):
      [l]: pairs of the sector index of the large leg and the block that were pushed *)
  Definition mask_result (S : symmetry) (L : espace) (l : list (nat * bblk)) : mdata * espace :=
    let sectors := map (fun p => nth (fst p) (es_def L) []) l in
    let multiplicities := map (fun p => btrues (snd p)) l in
    let perm := match l, es_perm L with
                | [], _ => None
                | _, None => None
                | _, Some basis_perm =>
                    Some (rank_data (map Z.of_nat (concat (map (fun p => let slc := nth (fst p) (sp_slices S (es_space S L)) (0, 0) in
                                                                         take_mask (firstn (snd slc - fst slc) (skipn (fst slc) basis_perm)) (bdata (snd p))) l))))
                end in
    (map (fun kp => ([fst kp; fst (snd kp)], snd (snd kp))) (combine (seq 0 (length l)) l), ES sectors multiplicities (es_dual L) perm).
  (* 2585-2609 *)
  Definition mask_from_block (S : symmetry) (L : espace) (a : bblk) : mdata * espace :=
    mask_result S L (flat_map (fun i => let slc := nth i (sp_slices S (es_space S L)) (0, 0) in
                                        let block := bslice Bops a [fst slc] [snd slc] in
                                        if btrues block =? 0 then [] else [(i, block)]) (seq 0 (length (es_def L)))).
  (* 2407-2436: the loop from sector [i] on; [A], [B]: the entries from position i1, i2 on *)
  Fixpoint mask_binary_loop (func : bool -> bool -> bool) (mults : list nat) (i : nat) (A B : mdata) : list (nat * bblk) :=
    match mults with
    | [] => []
    | m :: mults =>
        let at_i (D : mdata) := match D with e :: _ => nth 1 (fst e) 0 =? i | [] => false end in
        let first (D : mdata) := match D with e :: _ => snd e | [] => Blk [] [] end in
        let block1 := if at_i A then first A else bzeros Bops [m] in
        let A := if at_i A then tl A else A in
        let block2 := if at_i B then first B else bzeros Bops [m] in
        let B := if at_i B then tl B else B in
        let new_block := bbinary func block1 block2 in
        if btrues new_block =? 0 then mask_binary_loop func mults (i + 1) A B
        else (i, new_block) :: mask_binary_loop func mults (i + 1) A B
    end.
  Definition mask_binary (S : symmetry) (func : bool -> bool -> bool) (L : espace) (A B : mdata) : mdata * espace := mask_result S L (mask_binary_loop func (es_mults L) 0 A B).
  (* 2699-2727 *)
  Fixpoint mask_unary_loop (func : bool -> bool) (mults : list nat) (i : nat) (A : mdata) : list (nat * bblk) :=
    match mults with
    | [] => []
    | m :: mults =>
        let at_i := match A with e :: _ => nth 1 (fst e) 0 =? i | [] => false end in
        let block := if at_i then match A with e :: _ => snd e | [] => Blk [] [] end else bzeros Bops [m] in
        let A := if at_i then tl A else A in
        let new_block := bunary func block in
        if btrues new_block =? 0 then mask_unary_loop func mults (i + 1) A
        else (i, new_block) :: mask_unary_loop func mults (i + 1) A
    end.
  Definition mask_unary (S : symmetry) (func : bool -> bool) (L : espace) (A : mdata) : mdata * espace := mask_result S L (mask_unary_loop func (es_mults L) 0 A).
  (* 1695-1725; the diagonal tensor has boolean entries *)
  Definition diagonal_to_mask (S : symmetry) (L : espace) (A : mdata) : mdata * espace :=
    mask_result S L (flat_map (fun e => if existsb (fun x : bool => x) (bdata (snd e)) then [(nth 0 (fst e) 0, snd e)] else []) A).
  (* 2642-2657 *)
  Definition large_col (is_projection : bool) : nat := if is_projection then 1 else 0.
  Definition mask_to_block (S : symmetry) (L : espace) (is_projection : bool) (M : mdata) : bblk :=
    to_dense Bops S [L] (map (fun e => ([nth (large_col is_projection) (fst e) 0], snd e)) M).
  (* 2660-2672; [to_dtype]: the entry in the new dtype *)
  Definition mask_to_diagonal (is_projection : bool) (to_dtype : bool -> K) (M : mdata) : list (list nat * blk K) :=
    make_data (map (fun e => let l := nth (large_col is_projection) (fst e) 0 in ([l; l], Blk (bshape (snd e)) (map to_dtype (bdata (snd e))))) M) false.
  (* 976-985 *)
  Definition mask_dagger (M : mdata) : mdata := map (fun e => (rev (fst e), snd e)) M.
  (* 2675-2683; the legs become their duals (data only) *)
  Definition mask_transpose (M : mdata) : mdata := make_data (map (fun e => (rev (fst e), snd e)) M) false.

  (* numpy.cpp:606-612 np.compress(mask, block, ax) *)
  Definition bapply_mask (B : blk K) (mask : bblk) (ax : nat) : blk K :=
    bmk (upd (bshape B) ax (btrues mask)) (fun r => bat o B (upd r ax (nth (nth ax r 0) (take_mask (seq 0 (length (bdata mask))) (bdata mask)) 0))).
  (* numpy.cpp:701-732 res = zeros; res[..., mask, ...] = block *)
  Definition benlarge_leg (B : blk K) (mask : bblk) (ax : nat) : blk K :=
    bmk (upd (bshape B) ax (length (bdata mask)))
        (fun r => if nth (nth ax r 0) (bdata mask) false then bat o B (upd r ax (length (filter (fun x : bool => x) (firstn (nth ax r 0) (bdata mask))))) else o0 o).
  (* 2484-2568; [leg]: leg_idx after _parse_leg_idx *)
  Definition mask_contract (large_leg in_domain : bool) (num_legs leg : nat) (T : list (list nat * blk K)) (M : mdata) : list (list nat * blk K) :=
    let mask_contr := if in_domain then 0 else 1 in
    let cont (A : Type) (D : list (list nat * A)) (c : nat) := map (fun e => [Z.of_nat (nth c (fst e) 0)]) D in
    let T := if leg =? num_legs - 1 then T else take (noentry K) T (lexsort_indices (cont _ T leg)) in
    let M := if mask_contr =? 0 then take (noentry bool) M (lexsort_indices (cont _ M mask_contr)) else M in
    make_data (map (fun ij => let e := nth (fst ij) T (noentry K) in let f := nth (snd ij) M (noentry bool) in
                              (upd (fst e) leg (nth (1 - mask_contr) (fst f) 0),
                               if large_leg then bapply_mask (snd e) (snd f) leg else benlarge_leg (snd e) (snd f) leg))
                   (common_walk false true 0 (cont _ T leg) 0 (cont _ M mask_contr))) false.
  (** the legs of the result (2569-2581) *)
  Definition mask_contract_legs (cod dom : list espace) (in_domain : bool) (idx : nat) (new : espace) : list espace * list espace :=
    if in_domain then (cod, upd dom idx new) else (upd cod idx new, dom).
  (* 646-672; [M] is a projection *)
  Definition apply_mask_diagonal (W : list (list nat * blk K)) (M : mdata) : list (list nat * blk K) :=
    map (fun ij => let f := nth (snd ij) M (noentry bool) in let v := nth 0 (fst f) 0 in ([v; v], bapply_mask (snd (nth (fst ij) W (noentry K))) (snd f) 0))
        (common_walk true true 0 (map (fun e => [Z.of_nat (nth 0 (fst e) 0)]) W) 0 (map (fun e => [Z.of_nat (nth 1 (fst e) 0)]) M)).
  (* numpy.cpp:749-768 *)
  Definition bfrom_mask (mask : bblk) : blk K :=
    bmk [btrues mask; length (bdata mask)] (fun r => if nth (nth 0 r 0) (take_mask (seq 0 (length (bdata mask))) (bdata mask)) 0 =? nth 1 r 0 then o1 o else o0 o).
  (* 946-953; projections only *)
  Definition mask_full (M : mdata) : list (list nat * blk K) := map (fun e => (fst e, bfrom_mask (snd e))) M.
  (* block_backend.cpp:738-757 with sum_block = 0; [small], [large]: indices within the block *)
  Definition bmask_element (a : bblk) (large small : nat) : bool :=
    if negb (nth large (bdata a) false) then false else small =? length (filter (fun x : bool => x) (firstn large (bdata a))).
  (* 2134-2156; [C], [D]: the codomain and the domain leg *)
  Definition get_element_mask (S : symm) (is_projection : bool) (C D : espace) (M : mdata) (i j : Z) : option bool :=
    match parse_index S C i, parse_index S D j with
    | Some (b0, w0), Some (b1, w1) =>
        match get_block M [b0; b1] with
        | None => Some false
        | Some a => Some (if is_projection then bmask_element a w1 w0 else bmask_element a w0 w1)
        end
    | _, _ => None
    end.
End Masks.
