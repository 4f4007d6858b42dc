(** Model of the decompositions of AbelianBackend (src/backends/abelian.cpp: eigh 1758-1787, lq 2303-2381, qr 3083-3148, svd 3460-3570).
    The tensor has one codomain leg and one domain leg (the front end combines several legs into a pipe, helpers.cpp:614-645; a pipe is an ElementarySpace here).
    Rows of the data: [codomain leg sector, domain leg sector].  Not modelled: dtypes, devices. *)
From Verif Require Import Util RowModel GridModel SymModel CatSpec SpaceModel PipeModel TreeModel TensorModel BlockModel SparseModel ConvertModel FtOpsModel.
Set Implicit Arguments. Unset Strict Implicit.
Open Scope nat_scope.

(** what one round of the loop finds: the sector numbers on the codomain leg, the domain leg and the new leg, and the number of the block, if there is one *)
Record drow := DRow { dr_j : nat; dr_k : nat; dr_n : nat; dr_hit : option nat }.

Section Dec.
  Variable S : tsymm.
  Variable K : Type.
  Variable o : ops K.
  Notation block := (blk K).
  Notation adata := (list (list nat * blk K)).
  (** [P]: the codomain (a TensorProduct of the one leg [cod]); sector_order of a leg is "sorted" unless it is dual (es_space, SpaceModel.v) *)
  Variable P Q : tprod.
  Variables cod dom new : espace.
  (* the head of the three loops, 3104-3125, 2336-2357, 3498-3519: identical text.  [pairs]: the rest of iter_common_sorted_arrays; [n]: n_enum; [i]: the running index.
     [None]: sector_decomposition_where returns None, the cast raises *)
  Fixpoint dec_rows (A : adata) (pairs : list (nat * nat)) (n i : nat) : option (list drow) :=
    match pairs with
    | [] => Some []
    | (j, k) :: rest =>
        let s := nth j (tp_secs P) [] in
        match (if es_dual cod then row_where (es_decomp S cod) s else Some j),
              (if es_dual dom then row_where (es_decomp S dom) s else Some k),
              (if es_dual new then row_where (es_decomp S new) s else Some n) with
        | Some j', Some k', Some n' =>
            let i := if es_dual dom then searchsorted_column (map (fun e => nth 1 (fst e) 0) A) k' else i in
            let hit := (i <? length A) && (nth 0 (fst (nth i A (noentry K))) 0 =? j') in
            match dec_rows A rest (n + 1) (if hit then i + 1 else i) with
            | None => None
            | Some l => Some (DRow j' k' n' (if hit then Some i else None) :: l)
            end
        | _, _, _ => None
        end
    end.
  Definition ab_rows (A : adata) : option (list drow) := dec_rows A (common_walk true true 0 (tp_secs P) 0 (tp_secs Q)) 0 0.
  Definition ab_block (A : adata) (i : nat) : block := snd (nth i A (noentry K)).
  (** a row for every common sector: a factor of the block, or a part of the identity *)
  Definition left_rows (f : block -> block) (A : adata) (l : list drow) : adata :=
    map (fun r => ([dr_j r; dr_n r], match dr_hit r with Some i => f (ab_block A i) | None => eye_cols o (nth (dr_j r) (es_mults cod) 0) (nth (dr_n r) (es_mults new) 0) end)) l.
  Definition right_rows (f : block -> block) (A : adata) (l : list drow) : adata :=
    map (fun r => ([dr_n r; dr_k r], match dr_hit r with Some i => f (ab_block A i) | None => eye_rows o (nth (dr_n r) (es_mults new) 0) (nth (dr_k r) (es_mults dom) 0) end)) l.
  (** a row only where there is a block *)
  Definition hit_rows (row : drow -> list nat) (f : block -> block) (A : adata) (l : list drow) : adata :=
    flat_map (fun r => match dr_hit r with Some i => [(row r, f (ab_block A i))] | None => [] end) l.
  (* 3083-3148 *)
  Definition ab_qr (matrix_qr : block -> block * block) (A : adata) : option (adata * adata) :=
    match ab_rows A with
    | None => None
    | Some l => Some (make_data (left_rows (fun B => fst (matrix_qr B)) A l) (negb (es_dual new)),
                      make_data (hit_rows (fun r => [dr_n r; dr_k r]) (fun B => snd (matrix_qr B)) A l) (negb (es_dual dom)))
    end.
  (* 2303-2381 *)
  Definition ab_lq (matrix_lq : block -> block * block) (A : adata) : option (adata * adata) :=
    match ab_rows A with
    | None => None
    | Some l => Some (make_data (hit_rows (fun r => [dr_j r; dr_n r]) (fun B => fst (matrix_lq B)) A l) (negb (es_dual new)),
                      make_data (right_rows (fun B => snd (matrix_lq B)) A l) (negb (es_dual dom)))
    end.
  (* 3460-3570; the rows of the diagonal tensor are [n; n], its blocks are vectors *)
  Definition ab_svd (matrix_svd : block -> block * block * block) (A : adata) : option (adata * adata * adata) :=
    match ab_rows A with
    | None => None
    | Some l => Some (make_data (left_rows (fun B => fst (fst (matrix_svd B))) A l) (negb (es_dual new)),
                      make_data (hit_rows (fun r => [dr_n r; dr_n r]) (fun B => snd (fst (matrix_svd B))) A l) (negb (es_dual new)),
                      make_data (right_rows (fun B => snd (matrix_svd B)) A l) (negb (es_dual dom)))
    end.
  (* 1758-1787: all blocks of the identity on the domain, those with a block replaced; codomain = domain *)
  Definition ab_eigh (matrix_eigh : block -> block * block) (A : adata) : adata * adata :=
    (make_data (map (fun e => (fst e, fst (matrix_eigh (snd e)))) A) true,
     fold_left (fun v e => let i := nth 0 (fst e) 0 in upd v i (fst (nth i v (noentry K)), snd (matrix_eigh (snd e)))) A (eye_data o [dom])).
  (* 1679-1692, diagonal_tensor_to_block: the vector of the diagonal *)
  Definition ab_diag_block (L : espace) (W : adata) : block := to_dense o S [L] (map (fun e => ([nth 0 (fst e) 0], snd e)) W).
End Dec.
