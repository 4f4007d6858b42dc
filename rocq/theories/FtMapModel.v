(** Model of the tree mappings of the fusion tree backend (src/backends/fusion_tree_mapping.cpp) and of apply_instructions / permute_legs
    (src/backends/fusion_tree_backend.cpp): how instructions become a mapping of (pairs of) fusion trees, and how a mapping acts on the data of a tensor.
    Numbers are exact.  dtypes are modelled by one flag (real or complex), as far as they decide whether as_scalar drops an imaginary part.
    std::unordered_map and std::map are association lists without repeated keys.  [None]: an exception. *)
From Verif Require Import Util RowModel GridModel SymModel CatSpec SpaceModel PipeModel TreeModel TreeProofs5 TensorModel BlockModel SparseModel ConvertModel FtOpsModel MappingModel PermLegsModel MoveModel.
Set Implicit Arguments. Unset Strict Implicit.
Open Scope nat_scope.

(** equality of keys (std::pair<FusionTree, FusionTree>) *)
Definition pair_dec (p q : tree * tree) : {p = q} + {p <> q}.
Proof. decide equality; apply tree_dec. Defined.

Section FtMap.
  Variable S : tsymm.
  Variable K : Type.
  Variable o : ops K.
  (** the real part of a coefficient *)
  Variable re : K -> K.
  Notation block := (blk K).
  Notation fdata := (list (nat * nat * blk K)).
  Notation tree_map := (list (tree * list (tree * K))).
  Notation pair_map := (list ((tree * tree) * list ((tree * tree) * K))).

  (* numpy.cpp:338-348, array_api.cpp:434-442: a real dtype keeps the real part only *)
  Definition as_scalar (real : bool) (c : K) : K := if real then re c else c.

  (* block_backend.cpp:856-885 *)
  Definition permute_combined_matrix (B : block) (dims1 idcs1 dims2 idcs2 : list nat) : block :=
    let b := btranspose o (breshape B (dims1 ++ dims2)) (idcs1 ++ idcs2) in
    breshape b [prod (firstn (length idcs1) (bshape b)); prod (skipn (length idcs1) (bshape b))].
  (* block_backend.cpp:887-923 with axis = 0 and axis = 1 *)
  Definition permute_combined_rows (B : block) (dims idcs : list nat) : block :=
    let M := nth 0 (bshape B) 0 in let N := nth 1 (bshape B) 0 in
    breshape (btranspose o (breshape B (dims ++ [N])) (idcs ++ [length idcs])) [M; N].
  Definition permute_combined_cols (B : block) (dims idcs : list nat) : block :=
    let M := nth 0 (bshape B) 0 in let N := nth 1 (bshape B) 0 in
    breshape (btranspose o (breshape B (M :: dims)) (0 :: map (fun i => 1 + i) idcs)) [M; N].

  (* fusion_tree_mapping.cpp:453-478: the contributions to one pair of new trees; the accumulator is the (perhaps unset) tree_block *)
  Fixpoint pair_sum (real : bool) (m : pair_map) (F : fdata) (P Q : tprod) (XY : tree * tree) (acc : option block) : option (option block) :=
    match m with
    | [] => Some acc
    | (old, self_I) :: rest =>
      match find pair_dec self_I XY with
      | None => pair_sum real rest F P Q XY acc
      | Some c =>
        match block_ind_from_coupled (map fst F) (t_coup (fst old)) Q with
        | None => None
        | Some None => pair_sum real rest F P Q XY acc
        | Some (Some k) =>
          match tree_block_slice S P (fst old), tree_block_slice S Q (snd old) with
          | Some i1, Some i2 =>
            let add_block := bmul o (as_scalar real c) (bslice o (snd (frow F k)) [fst i1; fst i2] [snd i1; snd i2]) in
            pair_sum real rest F P Q XY (Some (match acc with None => add_block | Some t => badd o t add_block end))
          | _, _ => None
          end
        end
      end
    end.
  (* 450-510: the loops over the new trees; the state is (block, is_zero_block) *)
  Fixpoint pair_cells (real : bool) (m : pair_map) (F : fdata) (P Q : tprod) (J : nat) (inv_leg_perm axes_1 axes_2 : list nat)
      (cells : list (tb_item * tb_item)) (st : block * bool) : option (block * bool) :=
    match cells with
    | [] => Some st
    | (xb, yb) :: rest =>
      match pair_sum real m F P Q (tb_tree xb, tb_tree yb) None with
      | None => None
      | Some None => pair_cells real m F P Q J inv_leg_perm axes_1 axes_2 rest st
      | Some (Some tree_block) =>
        let leg_mults := tb_mults xb ++ rev (tb_mults yb) in
        let old_mults := take 0 leg_mults inv_leg_perm in
        let permuted := permute_combined_matrix tree_block (firstn J old_mults) axes_1 (rev (skipn J old_mults)) axes_2 in
        pair_cells real m F P Q J inv_leg_perm axes_1 axes_2 rest
          (bset_slice o (fst st) [tb_start xb; tb_start yb] [tb_stop xb; tb_stop yb] permuted, false)
      end
    end.
  (* 437-523: the loop over the common coupled sectors *)
  Fixpoint pair_blocks (real : bool) (m : pair_map) (F : fdata) (P Q P' Q' : tprod) (J : nat) (inv_leg_perm axes_1 axes_2 : list nat)
      (ijs : list (nat * nat)) : option fdata :=
    match ijs with
    | [] => Some []
    | (i, j) :: rest =>
      let coupled := nth i (tp_secs P') [] in
      match pair_cells real m F P Q J inv_leg_perm axes_1 axes_2
              (list_prod (iter_tree_blocks S P' [coupled]) (iter_tree_blocks S Q' [coupled]))
              (bzeros o [nth i (tp_mults P') 0; nth j (tp_mults Q') 0], true), pair_blocks real m F P Q P' Q' J inv_leg_perm axes_1 axes_2 rest with
      | Some (block, is_zero_block), Some l => Some (if is_zero_block then l else ((i, j), block) :: l)
      | _, _ => None
      end
    end.
  (* 391-520 *)
  Definition pair_transform (data_real is_real : bool) (m : pair_map) (F : fdata) (P Q P' Q' : tprod) (codomain_idcs domain_idcs : list nat) : option fdata :=
    let J := length (tp_flat_legs P) in
    let N := J + length (tp_flat_legs Q) in
    let axis := fun i => if i <? J then i else (N - 1) + J - i in
    let inv_leg_perm := inverse_permutation (codomain_idcs ++ rev domain_idcs) in
    match pair_blocks (data_real && is_real) m F P Q P' Q' J inv_leg_perm (map axis codomain_idcs) (map axis domain_idcs)
            (common_walk true true 0 (tp_secs P') 0 (tp_secs Q')) with
    | Some l => Some (ft_make l true)
    | None => None
    end.

  (* 643-660: the contributions to one new splitting tree *)
  Fixpoint rows_sum (real : bool) (m : tree_map) (B : block) (P : tprod) (X' : tree) (acc : option block) : option (option block) :=
    match m with
    | [] => Some acc
    | (X, self_X) :: rest =>
      match find tree_dec self_X X' with
      | None => rows_sum real rest B P X' acc
      | Some c =>
        match tree_block_slice S P X with
        | None => None
        | Some i1 =>
          let scaled := bmul o (as_scalar real c) (bslice o B [fst i1; 0] [snd i1; nth 1 (bshape B) 0]) in
          rows_sum real rest B P X' (Some (match acc with None => scaled | Some t => badd o t scaled end))
        end
      end
    end.
  (* 641-674 *)
  Fixpoint rows_cells (real : bool) (m : tree_map) (B : block) (P : tprod) (axes : list nat) (cells : list tb_item) (st : block * bool) : option (block * bool) :=
    match cells with
    | [] => Some st
    | x2 :: rest =>
      match rows_sum real m B P (tb_tree x2) None with
      | None => None
      | Some None => rows_cells real m B P axes rest st
      | Some (Some tree_row) =>
        let permuted := permute_combined_rows tree_row (take 0 (tb_mults x2) (inverse_permutation axes)) axes in
        rows_cells real m B P axes rest
          (bset_slice o (fst st) [tb_start x2; 0] [tb_stop x2; nth 1 (bshape (fst st)) 0] permuted, false)
      end
    end.
  (* 691-712 *)
  Fixpoint cols_sum (real : bool) (m : tree_map) (B : block) (Q : tprod) (Y' : tree) (acc : option block) : option (option block) :=
    match m with
    | [] => Some acc
    | (Y, self_Y) :: rest =>
      match find tree_dec self_Y Y' with
      | None => cols_sum real rest B Q Y' acc
      | Some c =>
        match tree_block_slice S Q Y with
        | None => None
        | Some i2 =>
          let scaled := bmul o (as_scalar real c) (bslice o B [0; fst i2] [nth 0 (bshape B) 0; snd i2]) in
          cols_sum real rest B Q Y' (Some (match acc with None => scaled | Some t => badd o t scaled end))
        end
      end
    end.
  (* 689-725 *)
  Fixpoint cols_cells (real : bool) (m : tree_map) (B : block) (Q : tprod) (axes : list nat) (cells : list tb_item) (st : block * bool) : option (block * bool) :=
    match cells with
    | [] => Some st
    | y2 :: rest =>
      match cols_sum real m B Q (tb_tree y2) None with
      | None => None
      | Some None => cols_cells real m B Q axes rest st
      | Some (Some tree_col) =>
        let permuted := permute_combined_cols tree_col (take 0 (tb_mults y2) (inverse_permutation axes)) axes in
        cols_cells real m B Q axes rest
          (bset_slice o (fst st) [0; tb_start y2] [nth 0 (bshape (fst st)) 0; tb_stop y2] permuted, false)
      end
    end.

  (** FusionTreeMappingVariant (fusion_tree_mapping.h): [inl keys] an IdentityMapping, [inr m] a SparseMapping *)
  Notation variant := (list tree + tree_map)%type.
  (* 627-676; the result carries the dtype flag of the returned block *)
  Definition transform_splitting_trees (real_old real_new : bool) (v : variant) (B out : block) (coupled : sector) (P P' : tprod) (axes_1 : list nat)
      : option (block * bool * bool) :=
    match v with
    | inl _ => Some (B, real_old, false)
    | inr m => match rows_cells real_old m B P axes_1 (iter_tree_blocks S P' [coupled]) (out, true) with
               | Some (b, z) => Some (b, real_new, z) | None => None end
    end.
  (* 678-727 *)
  Definition transform_fusion_trees (real_old : bool) (v : variant) (B out : block) (coupled : sector) (Q Q' : tprod) (axes_2 : list nat) : option (block * bool) :=
    match v with
    | inl _ => Some (B, false)
    | inr m => cols_cells real_old m B Q axes_2 (iter_tree_blocks S Q' [coupled]) (out, true)
    end.
  (* 757-788: the loop over the common coupled sectors *)
  Fixpoint factorized_blocks (data_real real : bool) (s f : variant) (F : fdata) (P Q P' Q' : tprod) (axes_1 axes_2 : list nat) (ijs : list (nat * nat)) : option fdata :=
    match ijs with
    | [] => Some []
    | (i, j) :: rest =>
      let coupled := nth i (tp_secs P') [] in
      let zeros := bzeros o [nth i (tp_mults P') 0; nth j (tp_mults Q') 0] in
      match block_ind_from_coupled (map fst F) coupled Q, factorized_blocks data_real real s f F P Q P' Q' axes_1 axes_2 rest with
      | Some None, Some l => Some l
      | Some (Some k), Some l =>
        match transform_splitting_trees data_real real s (snd (frow F k)) zeros coupled P P' axes_1 with
        | None => None
        | Some (_, _, true) => Some l
        | Some (after_split, real_split, false) =>
          match transform_fusion_trees real_split f after_split zeros coupled Q Q' axes_2 with
          | None => None
          | Some (_, true) => Some l
          | Some (final_block, false) => Some (((i, j), final_block) :: l)
          end
        end
      | _, _ => None
      end
    end.
  (* 729-795 *)
  Definition factorized_transform (data_real is_real : bool) (s f : variant) (F : fdata) (P Q P' Q' : tprod) (codomain_idcs domain_idcs : list nat) : option fdata :=
    let N := length (tp_flat_legs P) + length (tp_flat_legs Q) in
    match factorized_blocks data_real (data_real && is_real) s f F P Q P' Q' codomain_idcs (map (fun i => (N - 1) - i) domain_idcs)
            (common_walk true true 0 (tp_secs P') 0 (tp_secs Q')) with
    | Some l => Some (ft_make l true)
    | None => None
    end.

  (** ** From instructions to mappings.  The moves of single trees are parameters here ([MoveModel] has those of the code). *)
  Variable braid_tree : tree -> nat -> bool -> bool -> option (list (tree * K)).     (* FusionTree::braid(j, overbraid, cutoff, do_conj) *)
  Variable twist_tree : tree -> list nat -> bool -> option (list (tree * K)).        (* FusionTree::twist(idcs, overtwist) *)
  Variable bend_pair : tree -> tree -> bool -> option (list ((tree * tree) * K)).    (* FusionTree::bend_leg(X, Y, bend_down) *)
  Variable big : K -> bool.                                                  (* |c| > tol, prune(tol) *)

  (* 66-92: the coupled sectors are those of the rows of the data *)
  Definition pair_keys (P Q : tprod) (rows : list (nat * nat)) : list (tree * tree) :=
    flat_map (fun r => let coupled := nth (fst r) (tp_secs P) [] in
      flat_map (fun xb => map (fun yb => (tb_tree xb, tb_tree yb)) (iter_tree_blocks S Q [coupled])) (iter_tree_blocks S P [coupled])) rows.
  (* 94-125 *)
  Definition side_keys (P R : tprod) (rows : list (nat * nat)) : list tree :=
    flat_map (fun r => map tb_tree (iter_tree_blocks S R [nth (fst r) (tp_secs P) []])) rows.
  (* 285-305 and 307-327: one side of the pairs is mapped *)
  Definition compose_side (fusion : bool) (m : pair_map) (t : tree_map) : pair_map :=
    map (fun ks => (fst ks, fold_left (fun res_k e =>
      match find tree_dec t (if fusion then snd (fst e) else fst (fst e)) with
      | None => res_k
      | Some col => fold_left (fun r q => add_to pair_dec o r (if fusion then (fst (fst e), fst q) else (fst q, snd (fst e))) (omul o (snd q) (snd e))) col res_k
      end) (snd ks) [])) m.
  (** the table of a move on the trees that occur (a std::set / unordered_set of trees) *)
  Definition table (X Y : Type) (dec : forall x y : X, {x = y} + {x <> y}) (l : list X) (f : X -> option Y) : option (list (X * Y)) :=
    all_some (map (fun x => option_map (fun y => (x, y)) (f x)) (nodup dec l)).
  (* 189-213, 270-383 *)
  Definition pair_step (m : pair_map) (i : instruction) : option pair_map :=
    let rows := nonzero_rows m in
    option_map (prune big) match i with
    | Bend down => option_map (pre_compose pair_dec o m) (table pair_dec rows (fun XY => bend_pair (fst XY) (snd XY) down))
    | Braid true idx over => option_map (compose_side false m) (table tree_dec (map fst rows) (fun X => braid_tree X idx (negb over) true))
    | Braid false idx over => option_map (compose_side true m) (table tree_dec (map snd rows) (fun Y => braid_tree Y idx over false))
    | Twist true idcs over => option_map (compose_side false m) (table tree_dec (map fst rows) (fun X => twist_tree X idcs over))
    | Twist false idcs over => option_map (compose_side true m) (table tree_dec (map snd rows) (fun Y => twist_tree Y idcs over))
    end.
  (* 224-254 *)
  Definition pair_mapping (P Q : tprod) (rows : list (nat * nat)) (l : list instruction) : option pair_map :=
    fold_left (fun m i => match m with Some m => pair_step m i | None => None end) l (Some (from_identity pair_dec o (pair_keys P Q rows))).

  (* 127-150, mappings.h:119-170: nonzero_rows of an IdentityMapping are its keys; pruning it does nothing *)
  Definition variant_rows (v : variant) : list tree := match v with inl keys => keys | inr m => nonzero_rows m end.
  Definition variant_prune (v : variant) : variant := match v with inl keys => inl keys | inr m => inr (prune big m) end.
  Definition variant_compose (v : variant) (f : tree -> option (list (tree * K))) : option variant :=
    option_map (fun t => variant_prune (inr match v with inl keys => identity_pre_compose tree_dec keys t | inr m => pre_compose tree_dec o m t end)) (table tree_dec (variant_rows v) f).
  (* 561-620 *)
  Definition factorized_step (sf : variant * variant) (i : instruction) : option (variant * variant) :=
    let (s, f) := sf in
    match i with
    | Bend _ => None
    | Braid true idx over => option_map (fun s' => (s', variant_prune f)) (variant_compose s (fun X => braid_tree X idx (negb over) true))
    | Braid false idx over => option_map (fun f' => (variant_prune s, f')) (variant_compose f (fun Y => braid_tree Y idx over false))
    | Twist true idcs over => option_map (fun s' => (s', variant_prune f)) (variant_compose s (fun X => twist_tree X idcs over))
    | Twist false idcs over => option_map (fun f' => (variant_prune s, f')) (variant_compose f (fun Y => twist_tree Y idcs over))
    end.
  (* 532-556; an IdentityMapping keeps a set of keys *)
  Definition factorized_mapping (P Q : tprod) (rows : list (nat * nat)) (l : list instruction) : option (variant * variant) :=
    fold_left (fun sf i => match sf with Some sf => factorized_step sf i | None => None end) l
      (Some (inl (nodup tree_dec (side_keys P P rows)), inl (nodup tree_dec (side_keys P Q rows)))).

  (* fusion_tree_backend.cpp:592-632; [topo_real]: not has_complex_topological_data; is_real of the mapping is topo_real as soon as there is an instruction;
     [small]: the test of discard_zero_blocks *)
  Definition apply_instructions (topo_real data_real : bool) (small : block -> bool) (l : list instruction) (F : fdata) (P Q P' Q' : tprod)
      (codomain_idcs domain_idcs : list nat) (mixes : bool) : option fdata :=
    let is_real := match l with [] => true | _ => topo_real end in
    let res :=
      if mixes then match pair_mapping P Q (map fst F) l with
                    | None => None
                    | Some m => pair_transform data_real is_real m F P Q P' Q' codomain_idcs domain_idcs
                    end
      else match factorized_mapping P Q (map fst F) l with
           | None => None
           | Some (s, f) => factorized_transform data_real is_real s f F P Q P' Q' codomain_idcs domain_idcs
           end in
    match res with Some r => Some (ft_discard small r) | None => None end.
  (* fusion_tree_backend.cpp:1440-1532; [pipes]: the number of flat legs of every leg of the tensor *)
  Definition permute_legs (topo_real data_real : bool) (small : block -> bool) (pipes codomain_idcs domain_idcs : list nat) (levels : list (option Z)) (bend_right : list (option bool))
      (has_symmetric_braid : bool) (F : fdata) (P Q P' Q' : tprod) (mixes : bool) : option fdata :=
    let ci := flat_codomain_idcs pipes codomain_idcs in
    let di := flat_domain_idcs pipes domain_idcs in
    match permute_instructions (length (tp_flat_legs P)) (length (tp_flat_legs Q)) ci di (flat_values pipes levels) (flat_values pipes bend_right) has_symmetric_braid with
    | Err _ => None
    | Ok l => apply_instructions topo_real data_real small l F P Q P' Q' ci di mixes
    end.
End FtMap.
