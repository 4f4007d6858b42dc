(** Model of the operations of AbelianBackend on diagonal tensors (src/backends/abelian.cpp).
    Data of a diagonal tensor on the leg [L]: rows [n; n], blocks are vectors.  [diagonal_tensor_to_block] is [ab_diag_block] (AbDecModel.v), scale_axis is in SparseModel.v.
    Functions of blocks are given by what they do with an entry.  Not modelled: dtypes, devices. *)
From Verif Require Import Util RowModel GridModel SymModel CatSpec SpaceModel BlockModel SparseModel FtOpsModel AbDecModel.
Set Implicit Arguments. Unset Strict Implicit.
Open Scope nat_scope.

Section Diag.
  Variable K : Type.
  Variable o : ops K.
  Notation block := (blk K).
  Notation adata := (list (list nat * blk K)).
  Definition bnone : block := Blk [] [].
  (* BlockInds::arange_diag *)
  Definition arange_diag (n : nat) : list (list nat) := map (fun i => [i; i]) (seq 0 n).
  (** block_inds and blocks are two arrays of the same length (abelian.cpp:62-66) *)
  Definition zip_data (rows : list (list nat)) (blocks : list block) : adata := combine rows blocks.

  (* 743-783 *)
  Definition ab_unary (func : K -> K) (maps_zero_to_zero : bool) (L : espace) (A : adata) : adata :=
    if maps_zero_to_zero then map (fun e => (fst e, bunary func (snd e))) A
    else
      let rows := arange_diag (nsec L) in
      zip_data rows (map (fun ij => bunary func match ij with
                                                | (Some i, None) => bzeros o [nth i (es_mults L) 0]
                                                | (_, Some j) => snd (nth j A (noentry K))
                                                | (None, None) => bnone
                                                end) (noncommon_walk 0 (zrows rows) 0 (zrows (map fst A)))).
  (* 1568-1633: the loop from sector [i] on; [A], [B]: the entries from position ia, ib on *)
  Fixpoint binary_loop (func : K -> K -> K) (partial_zero_is_zero : bool) (mults : list nat) (i : nat) (A B : adata) : list (nat * block) :=
    match mults with
    | [] => []
    | m :: mults =>
        let at_i (D : adata) := match D with e :: _ => nth 0 (fst e) 0 =? i | [] => false end in
        let first (D : adata) := match D with e :: _ => snd e | [] => bnone end in
        if negb (at_i A) && partial_zero_is_zero then binary_loop func partial_zero_is_zero mults (i + 1) A B
        else
          let block_a := if at_i A then first A else bzeros o [m] in
          let A := if at_i A then tl A else A in
          if negb (at_i B) && partial_zero_is_zero then binary_loop func partial_zero_is_zero mults (i + 1) A B
          else
            let block_b := if at_i B then first B else bzeros o [m] in
            let B := if at_i B then tl B else B in
            (i, bbinary func block_a block_b) :: binary_loop func partial_zero_is_zero mults (i + 1) A B
    end.
  Definition ab_binary (func : K -> K -> K) (partial_zero_is_zero : bool) (L : espace) (A B : adata) : adata :=
    map (fun p => ([fst p; fst p], snd p)) (binary_loop func partial_zero_is_zero (es_mults L) 0 A B).
  (* 1636-1652; co_domain has one factor, co_domain.num_sectors = number of sectors of the leg *)
  Definition ab_diag_from_block (S : symmetry) (L : espace) (a : block) : adata :=
    map (fun i => let sl := nth i (sp_slices S (es_space S L)) (0, 0) in ([i; i], bslice o a [fst sl] [snd sl])) (seq 0 (nsec L)).
  (* 1655-1676 *)
  Definition ab_diag_from_func (S : symmetry) (func : nat -> sector -> block) (L : espace) : adata :=
    zip_data (arange_diag (nsec L)) (map (fun i => func (nth i (es_mults L) 0) (nth i (es_decomp S L) [])) (seq 0 (length (es_mults L)))).
  (* 936-943 *)
  Definition ab_diag_full (A : adata) : adata := map (fun e => (fst e, bdiag o (snd e))) A.
  (* 956-963; [ok]: the test of get_diagonal with a tolerance (numpy.cpp:787-804) *)
  Definition ab_full_diag (ok : block -> bool) (A : adata) : option adata :=
    if forallb (fun e => ok (snd e)) A then Some (map (fun e => (fst e, bdiagonal o (snd e))) A) else None.
  (* 966-973 *)
  Definition ab_diag_trace (A : adata) : K := fold_left (fun t e => oadd o t (osum o (bdata (snd e)))) A (o0 o).
  (* 3154-3175: the loop from sector [j] on; [A]: the entries from position i on *)
  Fixpoint reduce_loop (mults : list nat) (j : nat) (A : adata) : list block :=
    match mults with
    | [] => []
    | m :: mults =>
        match A with
        | e :: A' => if nth 0 (fst e) 0 =? j then snd e :: reduce_loop mults (j + 1) A' else bzeros o [m] :: reduce_loop mults (j + 1) A
        | [] => bzeros o [m] :: reduce_loop mults (j + 1) []
        end
    end.
  Definition ab_reduce (R : Type) (block_func : block -> R) (func : list R -> R) (L : espace) (A : adata) : R :=
    func (map block_func (reduce_loop (es_mults L) 0 A)).
  (* 717-730, 733-740; [test]: the entry is true *)
  Definition ab_all (test : K -> bool) (L : espace) (A : adata) : bool :=
    if length A <? nsec L then false else forallb (fun e => forallb test (bdata (snd e))) A.
  Definition ab_any (test : K -> bool) (A : adata) : bool := existsb (fun e => existsb test (bdata (snd e))) A.
  (* 2118-2131 *)
  Definition ab_get_diag (S : symm) (L : espace) (A : adata) (idx : Z) : option K :=
    match parse_index S L idx with
    | None => None
    | Some (b, w) => match get_block A [b; b] with None => Some (o0 o) | Some B => Some (bat o B [w]) end
    end.
  (* 563-593, on data with codomain = domain = [L] *)
  Definition ab_act (f : block -> block) (L : espace) (A : adata) : adata :=
    let rows := arange_diag (nsec L) in
    zip_data rows (map (fun ij => f match ij with
                                    | (None, Some j) => bzeros o [nth j (es_mults L) 0; nth j (es_mults L) 0]
                                    | (Some i, _) => snd (nth i A (noentry K))
                                    | (None, None) => bnone
                                    end) (noncommon_walk 0 (zrows (map fst A)) 0 (zrows rows))).
End Diag.
