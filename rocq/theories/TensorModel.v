(** Model of TensorProduct (src/symmetries/spaces.cpp:1960-2615).  Multiplicities and offsets are unbounded [nat].
    Simplifications: a factor that is an AbelianLegPipe is treated as the elementary space it is (its flat_legs are not
    expanded); the symmetry is a parameter, the checks that the symmetries of the factors agree are not modelled. *)
From Verif Require Import Util RowModel GridModel SymModel SpaceModel PipeModel TreeModel.
Set Implicit Arguments. Unset Strict Implicit.
Open Scope nat_scope.

(** What TensorProduct asks of its symmetry in addition: has_unique_fusion() (base_symmetry.h): N symbols are 0 or 1. *)
Record tsymm := TSymm { ts_symm :> symm; ts_unique : bool }.

(** sector_array.cpp:167-194 as it is used here: multiplicities are natural numbers, the permutation is not needed *)
Definition unique_sorted_nat (rows : list sector) (mults : list nat) : option (list sector * list nat) :=
  match unique_sorted rows (map Z.of_nat mults) with
  | Some (u, m, _) => Some (u, map Z.to_nat m)
  | None => None
  end.

(** ** Sectors of a product *)
Section Calc.
  Variable S : tsymm.

  (* spaces.cpp:2032-2044: the columns of the F-style grid of all combinations; [stride] starts at 1 *)
  Fixpoint grid_columns (ncomb stride : nat) (spaces : list space) : list (list sector) :=
    match spaces with
    | [] => []
    | V :: r => map (fun m => nth ((m / stride) mod length (sp_secs V)) (sp_secs V) []) (seq 0 ncomb)
                :: grid_columns ncomb (stride * length (sp_secs V)) r
    end.
  (* spaces.cpp:2032, 2040: the product of the multiplicities of combination [m] *)
  Fixpoint grid_mult (m stride acc : nat) (spaces : list space) : nat :=
    match spaces with
    | [] => acc
    | V :: r => grid_mult m (stride * length (sp_secs V)) (acc * nth ((m / stride) mod length (sp_secs V)) (sp_mults V) 0) r
    end.
  (* spaces.cpp:2019-2049 *)
  Definition calc_abelian (spaces : list space) : option (list sector * list nat) :=
    let ncomb := fold_left (fun n V => n * length (sp_secs V)) spaces 1 in
    match multiple_fusion_broadcast S (grid_columns ncomb 1 spaces) with
    | None => None
    | Some sectors => unique_sorted_nat sectors (map (fun m => grid_mult m 1 1 spaces) (seq 0 ncomb))
    end.
  (* spaces.cpp:2056-2069: the loops over the sectors of the last space and of the partial product *)
  Definition combined (partial : list sector * list nat) (V : space) : list (sector * nat) :=
    flat_map (fun j =>
      let s2 := nth j (sp_secs V) [] in
      let m2 := nth j (sp_mults V) 0 in
      flat_map (fun i =>
        let s1 := nth i (fst partial) [] in
        let m12 := nth i (snd partial) 0 * m2 in
        map (fun c => (c, if ts_unique S then m12 else m12 * sym_n S s1 s2 c)) (sym_outcomes S s1 s2))
        (seq 0 (length (fst partial))))
      (seq 0 (length (sp_secs V))).
  (* spaces.cpp:2000-2069.  [rspaces] is the list of spaces in reversed order, the recursion removes the last space. *)
  Fixpoint calc_rev (rspaces : list space) : option (list sector * list nat) :=
    match rspaces with
    | [] => Some ([sym_trivial S], [1])
    | V :: rest =>
      match rest with
      | [] =>
        match sp_order V with
        | Some Sorted => Some (sp_secs V, sp_mults V)
        | _ => let perm := lexsort_indices (sp_secs V) in Some (take [] (sp_secs V) perm, gather_or_all (sp_mults V) (Some perm))
        end
      | _ :: _ =>
        if s_abelian S then calc_abelian (rev rspaces) else
        match calc_rev rest with
        | None => None
        | Some partial => let l := combined partial V in unique_sorted_nat (map fst l) (map snd l)
        end
      end
    end.
  Definition calc_sectors_of_spaces (spaces : list space) : option (list sector * list nat) := calc_rev (rev spaces).
  (* spaces.cpp:2071-2086: pipes are flattened *)
  Definition calc_sectors_of_factors (factors : list leg) : option (list sector * list nat) :=
    calc_sectors_of_spaces (map (es_space S) (flat_map flat_legs factors)).
End Calc.

(** ** The class *)
Record tprod := TP { tp_factors : list leg; tp_secs : list sector; tp_mults : list nat }.
(* spaces.cpp:2126-2134: the Space base, sector_order "sorted" *)
Definition tp_space (P : tprod) : space := Sp (tp_secs P) (tp_mults P) (Some Sorted).

Section Class.
  Variable S : tsymm.

  (* spaces.cpp:2098-2148: the constructor without precomputed sectors *)
  Definition new_tprod (factors : list leg) : option tprod :=
    match calc_sectors_of_factors S factors with
    | Some (u, m) => Some (TP factors u m)
    | None => None
    end.
  (* spaces.cpp:2161-2187 *)
  Definition from_partial_products (products : list tprod) : option tprod :=
    match products with
    | [] => None
    | _ => match calc_sectors_of_spaces S (map tp_space products) with
           | Some (u, m) => Some (TP (flat_map tp_factors products) u m)
           | None => None
           end
    end.
  (* spaces.cpp:2189-2203 *)
  Definition tp_dual (P : tprod) : tprod :=
    match sort_sectors (dual_sectors S (tp_secs P)) (tp_mults P) with
    | (u, m, _) => TP (map dual_leg (rev (tp_factors P))) u m
    end.
  (* spaces.cpp:2204-2212 *)
  Definition block_size (P : tprod) (c : sector) : nat := sector_multiplicity (tp_space P) c.
  Definition block_size_idx (P : tprod) (i : Z) : option nat :=
    match to_valid_idx i (length (tp_secs P)) with Some k => Some (nth k (tp_mults P) 0) | None => None end.

  (* spaces.cpp:2290-2319 *)
  Definition tp_flat_legs (P : tprod) : list espace := flat_map flat_legs (tp_factors P).
  Definition tp_num_flat_legs (P : tprod) : nat := nsum (map num_flat_legs (tp_factors P)).
  (* spaces.cpp:2321-2335 *)
  Fixpoint nesting_from (i : nat) (factors : list leg) : list (list nat) :=
    match factors with [] => [] | f :: r => seq i (num_flat_legs f) :: nesting_from (i + num_flat_legs f) r end.
  Definition flat_legs_nesting (P : tprod) : list (list nat) := nesting_from 0 (tp_factors P).
  (* spaces.cpp:2337-2349 *)
  Definition flat_leg_idcs (P : tprod) (i : Z) : option (list nat) :=
    match to_valid_idx i (length (tp_factors P)) with
    | None => None
    | Some k => Some (seq (nsum (map num_flat_legs (firstn k (tp_factors P)))) (num_flat_legs (nth k (tp_factors P) (LPipe [] false false))))
    end.
  (* spaces.cpp:2613-2617 *)
  Definition tp_getitem (P : tprod) (i : Z) : option leg :=
    match to_valid_idx i (length (tp_factors P)) with
    | None => None | Some k => Some (nth k (tp_factors P) (LPipe [] false false)) end.

  (** an item of iter_uncoupled (without the optional slices) *)
  Record unc_item := Unc { u_secs : list sector; u_mults : list nat }.
  (* spaces.cpp:2478-2484: C-style strides, computed from the back *)
  Fixpoint c_strides (spaces : list space) : list nat * nat :=
    match spaces with
    | [] => ([], 1)
    | V :: r => let (s, total) := c_strides r in (total :: s, total * length (sp_secs V))
    end.
  (* spaces.cpp:2463-2511 *)
  Definition iter_uncoupled (P : tprod) : list unc_item :=
    let spaces := map (es_space S) (tp_flat_legs P) in
    match spaces with
    | [] => [Unc [] []]
    | _ => let (strides, total) := c_strides spaces in
           map (fun m =>
             let pos := map (fun n => (m / nth n strides 0) mod length (sp_secs (nth n spaces (Sp [] [] None)))) (seq 0 (length spaces)) in
             Unc (map (fun n => nth (nth n pos 0) (sp_secs (nth n spaces (Sp [] [] None))) []) (seq 0 (length spaces)))
                 (map (fun n => nth (nth n pos 0) (sp_mults (nth n spaces (Sp [] [] None))) 0) (seq 0 (length spaces))))
             (seq 0 total)
    end.

  Definition product (l : list nat) : nat := fold_left Nat.mul l 1.

  (* spaces.cpp:2546-2560 *)
  Definition tree_block_size (P : tprod) (unc : list sector) : nat :=
    fold_left (fun r p => r * sector_multiplicity (es_space S (fst p)) (snd p)) (combine (tp_flat_legs P) unc) 1.
  (* spaces.cpp:2351-2360 *)
  Definition forest_block_size (P : tprod) (unc : list sector) (c : sector) : nat := num_trees S unc c * tree_block_size P unc.
  (* spaces.cpp:2362-2385: the loop; [None] = invalid_argument *)
  Fixpoint forest_offset (items : list unc_item) (unc : list sector) (c : sector) (offset : nat) : option nat :=
    match items with
    | [] => None
    | it :: r => if rows_eqb (u_secs it) unc then Some offset
                 else forest_offset r unc c (offset + num_trees S (u_secs it) c * product (u_mults it))
    end.
  Definition forest_block_slice (P : tprod) (unc : list sector) (c : sector) : option (nat * nat) :=
    match forest_offset (iter_uncoupled P) unc c 0 with
    | None => None
    | Some o => Some (o, o + forest_block_size P unc c)
    end.

  (** TreeBlockItem: tree, slice, multiplicities, index of the coupled sector *)
  Record tb_item := TB { tb_tree : tree; tb_start : nat; tb_stop : nat; tb_mults : list nat; tb_ind : nat }.
  (* spaces.cpp:2421-2437: the loop over the trees of one uncoupled item; returns the items and the new start *)
  Fixpoint tree_loop (trees : list tree) (start block : nat) (mults : list nat) (i : nat) : list tb_item * nat :=
    match trees with
    | [] => ([], start)
    | t :: r => let (l, e) := tree_loop r (start + block) block mults i in (TB t start (start + block) mults i :: l, e)
    end.
  Fixpoint unc_loop (items : list unc_item) (c : sector) (dual : list bool) (start i : nat) : list tb_item :=
    match items with
    | [] => []
    | it :: r => let (l, e) := tree_loop (all_trees S (u_secs it) c dual) start (product (u_mults it)) (u_mults it) i in
                 l ++ unc_loop r c dual e i
    end.
  (* spaces.cpp:2408-2440 *)
  Definition iter_tree_blocks (P : tprod) (coupled : list sector) : list tb_item :=
    let dual := map es_dual (tp_flat_legs P) in
    flat_map (fun i => unc_loop (iter_uncoupled P) (nth i coupled []) dual 0 i) (seq 0 (length coupled)).

  (** ForestBlockItem *)
  Record fb_item := FB { fb_unc : list sector; fb_start : nat; fb_stop : nat; fb_ind : nat }.
  Fixpoint forest_loop (items : list unc_item) (c : sector) (start i : nat) : list fb_item :=
    match items with
    | [] => []
    | it :: r => let width := num_trees S (u_secs it) c * product (u_mults it) in
                 if width =? 0 then forest_loop r c start i
                 else FB (u_secs it) start (start + width) i :: forest_loop r c (start + width) i
    end.
  (* spaces.cpp:2441-2461 *)
  Definition iter_forest_blocks (P : tprod) (coupled : list sector) : list fb_item :=
    flat_map (fun i => forest_loop (iter_uncoupled P) (nth i coupled []) 0 i) (seq 0 (length coupled)).

  (* spaces.cpp:2562-2590: the loop; the result is (start, tree_block) *)
  Fixpoint tree_offset (items : list unc_item) (unc : list sector) (c : sector) (start : nat) : option (nat * nat) :=
    match items with
    | [] => None
    | it :: r => let block := product (u_mults it) in
                 if rows_eqb (u_secs it) unc then Some (start, block)
                 else tree_offset r unc c (start + num_trees S (u_secs it) c * block)
    end.
  Definition tree_block_slice (P : tprod) (t : tree) : option (nat * nat) :=
    match tree_offset (iter_uncoupled P) (t_unc t) (t_coup t) 0 with
    | None => None
    | Some (start, block) =>
      match index S (s_abelian S) (t_unc t) (t_coup t) (t_dual t) t with
      | None => None
      | Some k => let start := start + block * k in Some (start, start + block)
      end
    end.

  (* spaces.cpp:2396-2397 *)
  Definition insert_pos (pos : Z) (n : nat) : nat :=
    if (pos <? 0)%Z then Z.to_nat (Z.max 0 (Z.of_nat n + pos)) else Z.to_nat (Z.min pos (Z.of_nat n)).
  (** as_space of a leg (spaces.cpp:2089-2096, 683-693): an elementary space is a space; LegPipe::as_Space builds a
      TensorProduct of [leg.as_Space() for leg in legs], whose constructor only takes Legs (py_spaces.cpp:1268), so a
      pipe inside a pipe - whose as_Space() is a TensorProduct, not a Leg - raises: [None] *)
  Definition is_elementary (L : leg) : bool := match L with LSpace _ => true | LPipe _ _ _ => false end.
  Definition as_space (L : leg) : option space :=
    match L with
    | LSpace E => Some (es_space S E)
    | LPipe legs _ _ =>
        if forallb is_elementary legs then
          match calc_sectors_of_factors S legs with Some (u, m) => Some (Sp u m (Some Sorted)) | None => None end
        else None
    end.
  (* spaces.cpp:2387-2406 *)
  Definition insert_multiply (P : tprod) (other : leg) (pos : Z) : option tprod :=
    match as_space other with
    | None => None
    | Some V =>
      match calc_sectors_of_spaces S [tp_space P; V] with
      | None => None
      | Some (u, m) => let at_ := insert_pos pos (length (tp_factors P)) in
                       Some (TP (firstn at_ (tp_factors P) ++ [other] ++ skipn at_ (tp_factors P)) u m)
      end
    end.
  (* spaces.cpp:2513-2517, 2540-2544 *)
  Definition left_multiply (P : tprod) (other : leg) : option tprod := insert_multiply P other 0.
  Definition right_multiply (P : tprod) (other : leg) : option tprod := insert_multiply P other (-1).

  (* spaces.cpp:2526-2535 *)
  Fixpoint permute_loop (factors : list leg) (perm : list Z) (seen : list nat) : option (list leg) :=
    match perm with
    | [] => Some []
    | i :: r =>
      match to_valid_idx i (length factors) with
      | None => None
      | Some k => if existsb (Nat.eqb k) seen then None
                  else match permute_loop factors r (k :: seen) with
                       | None => None
                       | Some l => Some (nth k factors (LPipe [] false false) :: l)
                       end
      end
    end.
  (* spaces.cpp:2519-2538 *)
  Definition permuted (P : tprod) (perm : list Z) : option tprod :=
    if length perm =? length (tp_factors P) then
      match permute_loop (tp_factors P) perm [] with
      | None => None
      | Some l => Some (TP l (tp_secs P) (tp_mults P))
      end
    else None.
  (* spaces.cpp:2592-2611 *)
  Definition tp_eqb (P Q : tprod) : bool :=
    (length (tp_factors P) =? length (tp_factors Q)) &&
    forallb (fun p => leg_eqb S (fst p) (snd p)) (combine (tp_factors P) (tp_factors Q)).
End Class.
