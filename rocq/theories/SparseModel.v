(** Model of the block-sparse tensors of the abelian backend (src/backends/abelian.cpp).
    Data: AbelianBackendData holds [block_inds] (rows of sector indices, one column per leg) and as many [blocks]
    (abelian.cpp:62-66 rejects other sizes); here a list of pairs (row, block).  Indices are [nat] (int64 in the code).
    Legs are in the conventional order codomain ++ reversed(domain); each column of a row indexes the sectors of that factor.
    Not modelled: dtypes and devices, floating point. *)
From Verif Require Import Util StableSort RowModel GridModel SymModel CatSpec SpaceModel BlockModel.
Set Implicit Arguments. Unset Strict Implicit.
Open Scope nat_scope.

Definition zrows (rs : list (list nat)) : list row := map (map Z.of_nat) rs.
(* src/tensors: conventional_leg_order(codomain, domain) *)
Definition leg_order (cod dom : list espace) : list espace := cod ++ rev dom.
(* src/tensors/tensor.cpp:706-724 for the leg at position [i] of the conventional order, [k] = number of codomain legs *)
Definition as_codomain_leg (k : nat) (legs : list espace) (i : nat) : espace :=
  let L := nth i legs (ES [] [] false None) in if i <? k then L else dual_es L.
Definition as_domain_leg (k : nat) (legs : list espace) (i : nat) : espace :=
  let L := nth i legs (ES [] [] false None) in if i <? k then dual_es L else L.
Definition nsec (L : espace) : nat := length (es_mults L).

(* abelian.cpp:187-205: the loop of iter_common_sorted_1d at position (i, j) *)
Fixpoint walk_1d (i : nat) (a : list nat) {struct a} : nat -> list nat -> list (nat * nat) :=
  match a with
  | [] => fun _ _ => []
  | x :: a' =>
    fix inner (j : nat) (b : list nat) {struct b} : list (nat * nat) :=
      match b with
      | [] => []
      | y :: b' =>
        if x <? y then walk_1d (S i) a' j b
        else if y <? x then inner (S j) b'
        else (i, j) :: walk_1d (S i) a' (S j) b'
      end
  end.

Section Sparse.
  Variable K : Type.
  Variable o : ops K.
  Notation block := (blk K).
  Notation adata := (list (list nat * blk K)).
  Definition noentry : list nat * block := ([], Blk [] []).

  (* abelian.cpp:56-80: the constructor sorts unless told that the rows are sorted *)
  Definition make_data (D : adata) (is_sorted : bool) : adata :=
    if is_sorted then D else take noentry D (lexsort_indices (zrows (map fst D))).
  (* abelian.cpp:82-110 *)
  Definition get_block (D : adata) (query : list nat) : option block :=
    match row_where (zrows (map fst D)) (map Z.of_nat query) with
    | None => None
    | Some i => Some (snd (nth i D noentry))
    end.
  (* abelian.cpp:831-855 with all_blocks = false *)
  Definition zero_data : adata := [].

  (* the slices of the sectors of one row, leg by leg (abelian.cpp:3582-3587) *)
  Definition row_slices (S : symmetry) (legs : list espace) (r : list nat) : list (nat * nat) :=
    map (fun p => nth (snd p) (sp_slices S (es_space S (fst p))) (0, 0)) (combine legs r).
  (* abelian.cpp:3570-3592; the shape is [leg.dim for leg in legs] *)
  Definition to_dense (S : symmetry) (legs : list espace) (D : adata) : block :=
    fold_left (fun res e => let sl := row_slices S legs (fst e) in bset_slice o res (map fst sl) (map snd sl) (snd e))
              D (bzeros o (map (es_dim S) legs)).

  (* abelian.cpp:343-379, 1388-1424: coupled sectors of all rows; [None] models an exception of the fusion *)
  Definition coupled (S : symmetry) (factors : list espace) (rows : list (list nat)) : option (list sector) :=
    match factors with
    | [] => Some (repeat (sym_trivial S) (length rows))
    | _ => multiple_fusion_broadcast S
             (map (fun f => map (fun r => nth (nth f r 0) (es_decomp S (nth f factors (ES [] [] false None))) []) rows) (seq 0 (length factors)))
    end.
  (* abelian.cpp:329-398 *)
  Definition valid_block_inds (S : symmetry) (cod dom : list espace) : option (list (list nat)) :=
    let legs := leg_order cod dom in
    let grid := make_grid (map nsec legs) false in
    match coupled S cod grid, coupled S dom (map (@rev nat) grid) with
    | Some cs, Some ds =>
        let bi := map snd (filter (fun p => row_eqb (fst (fst p)) (snd (fst p))) (combine (combine cs ds) grid)) in
        Some (take [] bi (lexsort_indices (zrows bi)))
    | _, _ => None
    end.

  (* abelian.cpp:2253-2301 *)
  Definition linear_combination (a : K) (V : adata) (b : K) (W : adata) : adata :=
    map (fun ij => match ij with
                   | (Some i, None) => let e := nth i V noentry in (fst e, bmul o a (snd e))
                   | (None, Some j) => let e := nth j W noentry in (fst e, bmul o b (snd e))
                   | (Some i, Some j) => let e := nth i V noentry in (fst e, blincomb o a (snd e) b (snd (nth j W noentry)))
                   | (None, None) => noentry
                   end)
        (noncommon_walk 0 (zrows (map fst V)) 0 (zrows (map fst W))).
  (* abelian.cpp:2760-2779 *)
  Definition mul_data (is_zero : K -> bool) (a : K) (B : adata) : adata :=
    if is_zero a then zero_data else map (fun e => (fst e, bmul o a (snd e))) B.
  (* abelian.cpp:693-703 *)
  Definition dagger_data (A : adata) : adata := make_data (map (fun e => (rev (fst e), bdagger o (snd e))) A) false.
  (* abelian.cpp:987-1006; axes_perm = codomain_idcs ++ reversed(domain_idcs) *)
  Definition permute_data (A : adata) (axes_perm : list nat) : adata :=
    make_data (map (fun e => (take 0 (fst e) axes_perm, btranspose o (snd e) axes_perm)) A) false.
  (* abelian.cpp:2793-2850; [k] = number of codomain legs of a *)
  Definition outer_data (k : nat) (A B : adata) : adata :=
    make_data (map (fun ij => let ea := nth (nth 0 ij 0) A noentry in let eb := nth (nth 1 ij 0) B noentry in
                              (firstn k (fst ea) ++ fst eb ++ skipn k (fst ea), btensor_outer o (snd ea) (snd eb) k))
                   (make_grid [length A; length B] false)) false.
  (* abelian.cpp:2158-2211; [nsecs] of the legs of a.  The order of equal keys is irrelevant (std::sort is not stable).
     misc.make_stride (misc.py:256-279) writes [res[0] = 1] and reads [shape[0]], an IndexError for tensors without legs: [None].
     Its overflow assertion is not modelled. *)
  Definition inner_data (nsecs : list nat) (A B : adata) (do_dagger : bool) : option K :=
    match nsecs with
    | [] => None
    | _ :: _ =>
      let strides := make_stride nsecs false in
      let a_keys := map (fun e => pack_row (fst e) strides) A in
      let b_keys0 := map (fun e => pack_row (fst e) (if do_dagger then strides else rev strides)) B in
      let order := if do_dagger then seq 0 (length B) else stable_sort (fun i j => nth i b_keys0 0 <? nth j b_keys0 0) (seq 0 (length B)) in
      let b_keys := take 0 b_keys0 order in
      let b_blocks := take noentry B order in
      Some (fold_left (fun res ij => oadd o res (binner o (snd (nth (fst ij) A noentry)) (snd (nth (snd ij) b_blocks noentry)) do_dagger))
                (walk_1d 0 a_keys 0 b_keys) (o0 o))
    end.
  (* abelian.cpp:3594-3620; [k] = number of codomain legs *)
  Definition trace_full_data (k : nat) (A : adata) : K :=
    fold_left (fun res e => let ncols := length (fst e) in
                 if forallb (fun c => nth c (fst e) 0 =? nth (ncols - 1 - c) (fst e) 0) (seq 0 k)
                 then oadd o res (btrace_full o (snd e)) else res) A (o0 o).

  (** compose *)
  (* abelian.cpp:1302-1328: group the entries whose kept columns agree *)
  Definition group_entries (X : Type) (l : list (list nat * X)) : list (list nat * list X) :=
    let rows := map fst l in
    let slices := find_row_differences true (zrows rows) in
    map (fun p => (nth (fst p) rows [], slice (map snd l) (fst p) (snd p))) (combine slices (tl slices)).
  (* bb.reshape(B, {n, -1}) and {-1, n} *)
  Definition bfold_last (B : block) (n : nat) : block := breshape B [n; length (bdata B) / n].
  Definition bfold_first (B : block) (n : nat) : block := breshape B [length (bdata B) / n; n].
  Definition bflat (B : block) : block := breshape B [length (bdata B)].
  (* abelian.cpp:1238-1470.  [ncod], [ndom]: number of kept legs; the contracted legs are [contr].
     a: kept columns first, then the contracted ones in the order opposite to b; b: contracted columns first. *)
  Definition compose_worker (S : symmetry) (cod contr dom : list espace) (A B : adata) : option adata :=
    match A, B with
    | [], _ => Some zero_data
    | _, [] => Some zero_data
    | _, _ =>
      let ncod := length cod in let nc := length contr in let ndom := length dom in
      let strides := make_stride (map nsec contr) false in
      (* (kept row, (key of the contracted columns, block)) *)
      let a_ent := map (fun e => (firstn ncod (fst e), (pack_row (skipn ncod (fst e)) (rev strides), snd e))) A in
      let b_ent := map (fun e => (skipn nc (fst e), (pack_row (firstn nc (fst e)) strides, snd e))) B in
      let a_sort := lexsort_indices (map (fun e => Z.of_nat (fst (snd e)) :: map Z.of_nat (fst e)) a_ent) in
      let a_ent := take ([], (0, snd noentry)) a_ent a_sort in
      let a_groups := group_entries a_ent in
      let b_groups := group_entries b_ent in
      let a_shape g := firstn ncod (bshape (snd (nth 0 (snd g) (0, snd noentry)))) in
      let b_shape g := skipn nc (bshape (snd (nth 0 (snd g) (0, snd noentry)))) in
      let a_mat g X := if ncod =? 0 then bflat X else bfold_last X (prod (a_shape g)) in
      let b_mat g X := let Xp := btranspose o X (rev (seq 0 nc) ++ seq nc ndom) in
                       if ndom =? 0 then bflat Xp else bfold_first Xp (prod (b_shape g)) in
      match coupled S cod (map fst a_groups), coupled S dom (map (fun g => rev (fst g)) b_groups) with
      | Some a_charges, Some b_charges =>
        Some (make_data
          (flat_map (fun col_b =>
             let gb := nth col_b b_groups ([], []) in
             let rows_a := filter (fun i => row_eqb (nth i a_charges []) (nth col_b b_charges [])) (seq 0 (length a_groups)) in
             flat_map (fun row_a =>
               let ga := nth row_a a_groups ([], []) in
               let ax k := a_mat ga (snd (nth k (snd ga) (0, snd noentry))) in
               let bx k := b_mat gb (snd (nth k (snd gb) (0, snd noentry))) in
               match walk_1d 0 (map fst (snd ga)) 0 (map fst (snd gb)) with
               | [] => []
               | (k1, k2) :: more =>
                   let blk := fold_left (fun acc kk => badd o acc (bdot o (ax (fst kk)) (bx (snd kk)))) more (bdot o (ax k1) (bx k2)) in
                   [(fst ga ++ fst gb, breshape blk (a_shape ga ++ b_shape gb))]
               end) rows_a) (seq 0 (length b_groups))) true)
      | _, _ => None
      end
    end.
  (* abelian.cpp:1517-1565 *)
  Definition compose_no_contraction (A B : adata) : adata :=
    make_data (map (fun ij => let ea := nth (nth 0 ij 0) A noentry in let eb := nth (nth 1 ij 0) B noentry in
                              (fst ea ++ fst eb, bouter o (snd ea) (snd eb)))
                   (make_grid [length A; length B] false)) true.
  (* abelian.cpp:1221-1235: a : mid -> cod, b : dom -> mid (codomain legs [mid]) *)
  Definition compose (S : symmetry) (cod mid dom : list espace) (A B : adata) : option adata :=
    if (length cod =? 0) && (length dom =? 0) then
      match inner_data (map nsec (leg_order cod mid)) A B false with
      | None => None
      | Some x => Some [([], Blk [] [x])]
      end
    else if length mid =? 0 then Some (compose_no_contraction A B)
    else compose_worker S cod mid dom A B.

  (* abelian.cpp:2094-2115 *)
  Definition get_element (S : symm) (legs : list espace) (A : adata) (idcs : list Z) : option K :=
    let pos := map (fun p => parse_index S (fst p) (snd p)) (combine legs idcs) in
    if forallb (fun p => match p with Some _ => true | None => false end) pos then
      let pos := map (fun p => match p with Some q => q | None => (0, 0) end) pos in
      match get_block A (map fst pos) with
      | None => Some (o0 o)
      | Some B => Some (bat o B (map snd pos))
      end
    else None.

  (* abelian.cpp:1790-1826; the rows of the domain, in the order np.indices(..).T: first column fastest *)
  Definition eye_data (legs : list espace) : adata :=
    let domain_block_inds := make_grid (map nsec (rev legs)) false in
    map (fun d => let r := rev d ++ d in
           (r, beye_block o (map (fun p => nth (snd p) (es_mults (fst p)) 0) (combine legs r)))) domain_block_inds.
  (* abelian.cpp:1828-1858 without the tolerance check: the blocks and the projected array *)
  Definition from_dense_block (S : symmetry) (cod dom : list espace) (a : block) : option adata :=
    match valid_block_inds S cod dom with
    | None => None
    | Some bi => Some (map (fun r => let sl := row_slices S (leg_order cod dom) r in (r, bslice o a (map fst sl) (map snd sl))) bi)
    end.
  (* abelian.cpp:594-612; add_axis inserts an axis of length one *)
  Definition add_trivial_leg (A : adata) (pos : nat) : adata :=
    map (fun e => (firstn pos (fst e) ++ 0 :: skipn pos (fst e),
                   breshape (snd e) (firstn pos (bshape (snd e)) ++ 1 :: skipn pos (bshape (snd e))))) A.
  (* abelian.cpp:3438-3457; squeeze_axes removes axes of length one *)
  Definition squeeze_legs (A : adata) (idcs : list nat) : adata :=
    let keep l := map snd (filter (fun p => negb (existsb (Nat.eqb (fst p)) idcs)) (combine (seq 0 (length l)) l)) in
    map (fun e => (keep (fst e), breshape (snd e) (keep (bshape (snd e))))) A.
  (* abelian.cpp:3177-3232; b: entries of a DiagonalTensor, rows [i; i] and one-dimensional blocks *)
  Definition scale_axis (A : adata) (B : adata) (leg num_legs : nat) : adata :=
    let cont (D : adata) (c : nat) := map (fun e => [Z.of_nat (nth c (fst e) 0)]) D in
    let A := if leg =? num_legs - 1 then A else take noentry A (lexsort_indices (cont A leg)) in
    make_data (map (fun ij => let e := nth (fst ij) A noentry in (fst e, bscale_axis o (snd e) (snd (nth (snd ij) B noentry)) leg))
                   (common_walk false true 0 (cont A leg) 0 (cont B 0))) false.

  (** partial_trace: abelian.cpp:2953-3081 *)
  (* the dictionary row -> block; kept in insertion order here (the code iterates a sorted std::map, then sorts again) *)
  Fixpoint map_add (key : list nat) (B : block) (m : adata) : adata :=
    match m with
    | [] => [(key, B)]
    | e :: m' => if (if list_eq_dec Nat.eq_dec key (fst e) then true else false) then (fst e, badd o (snd e) B) :: m' else e :: map_add key B m'
    end.
  Definition partial_trace (S : symmetry) (cod dom : list espace) (pairs : list (nat * nat)) (A : adata) : option adata :=
    let legs := leg_order cod dom in
    let k := length cod in
    let idcs1 := map fst pairs in let idcs2 := map snd pairs in
    let remaining := filter (fun n => negb (existsb (Nat.eqb n) (idcs1 ++ idcs2))) (seq 0 (length legs)) in
    let on_diag r := forallb (fun p =>
        if xorb (fst p <? k) (snd p <? k) then nth (fst p) r 0 =? nth (snd p) r 0
        else let sec n := nth (nth n r 0) (es_decomp S (nth n legs (ES [] [] false None))) [] in
             row_eqb (sec (fst p)) (sym_dual S (sec (snd p)))) pairs in
    let res := fold_left (fun m e => if on_diag (fst e) then map_add (take 0 (fst e) remaining) (btrace_partial o (snd e) idcs1 idcs2 remaining) m else m) A [] in
    match remaining with
    | [] => match res with
            | [] => Some [([], Blk [] [o0 o])]
            | [e] => Some [([], Blk [] [bat o (snd e) []])]
            | _ => None
            end
    | _ => Some (make_data res false)
    end.

  (** partial_compose: abelian.cpp:2852-2951 with the legs of a, b given in conventional order.
      [cod'], [dom']: the spaces mod_codomain, mod_domain; [contr]: contr_spaces (computed from the legs in the code). *)
  Definition partial_compose (S : symmetry) (a_first n_a n_contr n_add b_n_cod b_n_legs : nat) (b_in_codomain : bool)
    (cod' contr dom' : list espace) (A B : adata) : option adata :=
    let perm_b := seq b_n_cod (b_n_legs - b_n_cod) ++ seq 0 b_n_cod in
    let B := if b_in_codomain then permute_data B perm_b else B in
    let perm_a := seq 0 a_first ++ seq (a_first + n_contr) (n_a - (a_first + n_contr)) ++ seq a_first n_contr in
    let A := permute_data A perm_a in
    match compose_worker S cod' contr dom' A B with
    | None => None
    | Some R =>
        let perm_res := seq 0 a_first ++ seq (n_a - n_contr) n_add ++ seq a_first (n_a - n_contr - a_first) in
        Some (permute_data R perm_res)
    end.
End Sparse.
