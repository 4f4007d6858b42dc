(** Model of AbelianLegPipe and LegPipe (src/symmetries/spaces.cpp).  Indices and dimensions are unbounded [nat]. *)
From Verif Require Import Util StableSort RowModel GridModel SymModel SpaceModel.
Set Implicit Arguments. Unset Strict Implicit.
Open Scope nat_scope.

(** * AbelianLegPipe *)

Definition noes : espace := ES [] [] false None.

(* spaces.cpp:2863-2873: column [n] of the grid of block indices; row [m] *)
Definition leg_nums (legs : list espace) : list nat := map (fun L => length (es_def L)) legs.

(* spaces.cpp:2868-2874: product of the multiplicities of one combination (i1, i2, ...) of sectors *)
Definition comb_mult (legs : list espace) (idx : list nat) : nat :=
  fold_left (fun r n => r * nth (nth n idx 0) (es_mults (nth n legs noes)) 0) (seq 0 (length legs)) 1.

(** a row of block_ind_map: [b0, b1, i1, ..., in, J] (spaces.cpp:2858-2860, 2897-2899, 2915-2922) *)
Record bim_row := Bim { bim_start : nat; bim_stop : nat; bim_idx : list nat; bim_J : nat }.

Record pipe := Pipe {
  p_legs : list espace;
  p_cstyle : bool;
  p_es : espace;              (* the ElementarySpace base: defining sectors, multiplicities, is_dual, basis_perm *)
  p_strides : list nat;       (* sector_strides *)
  p_sort : list nat;          (* fusion_outcomes_sort *)
  p_slices : list nat;        (* block_ind_map_slices *)
  p_map : list bim_row;       (* block_ind_map *)
}.

(* spaces.cpp:2915-2922: the group k with diffs[k] <= m < diffs[k+1] *)
Fixpoint group_of (diffs : list nat) (m : nat) : nat :=
  match diffs with
  | _ :: ((d :: _) as t) => if m <? d then 0 else Datatypes.S (group_of t m)
  | _ => 0
  end.

(* spaces.cpp:2974-3029.  [start_of J] is slices_starts[J]. *)
Definition fusion_outcomes_perm (S : symmetry) (legs : list espace) (cstyle : bool) (dim : nat) (mults : list nat)
  (bim : list bim_row) : list nat :=
  let legs_dims := map (es_dim S) legs in
  let dim_strides := make_stride legs_dims cstyle in
  let slices_starts := slice_boundaries mults in
  fold_left (fun perm row =>
      let start := bim_start row + nth (bim_J row) slices_starts 0 in
      let mult_shape := map (fun n => nth (nth n (bim_idx row) 0) (es_mults (nth n legs noes)) 0) (seq 0 (length legs)) in
      let sector_starts := map (fun n => fst (nth (nth n (bim_idx row) 0) (sp_slices S (es_space S (nth n legs noes))) (0, 0))) (seq 0 (length legs)) in
      let count := prod mult_shape in
      let mult_strides := make_stride mult_shape cstyle in
      overwrite start
        (map (fun k => nsum (map (fun n => (grid_entry k mult_strides mult_shape n + nth n sector_starts 0) * nth n dim_strides 0)
                                 (seq 0 (length legs))))
             (seq 0 count)) perm)
    bim (repeat 0 dim).

(* spaces.cpp:3031-3073 *)
Definition calc_basis_perm (S : symmetry) (legs : list espace) (cstyle : bool) (dim : nat) (mults : list nat)
  (bim : list bim_row) : list nat :=
  let legs_dims := map (es_dim S) legs in
  let dim_strides := make_stride legs_dims cstyle in
  let combined := map (fun m => nsum (map (fun n => nth (grid_entry m dim_strides legs_dims n) (basis_perm S (nth n legs noes)) 0 * nth n dim_strides 0)
                                          (seq 0 (length legs))))
                      (seq 0 dim) in
  take 0 combined (fusion_outcomes_perm S legs cstyle dim mults bim).

(* spaces.cpp:2820-2946, 2948-2969 (the constructor).  [None]: exception.  [dim] is the product of the leg dimensions. *)
Definition new_pipe (S : symm) (legs : list espace) (is_dual cstyle : bool) : option pipe :=
  match legs with
  | [] => None
  | _ =>
    if negb (s_abelian S) || negb (s_drop S) then None else
    let nums := leg_nums legs in
    let dim := fold_left (fun d L => d * es_dim S L) legs 1 in
    let strides := make_stride nums cstyle in
    let nblocks := fold_left Nat.mul nums 1 in
    let grid := map (fun m => map (grid_entry m strides nums) (seq 0 (length legs))) (seq 0 nblocks) in
    let mults := map (comb_mult legs) grid in
    let uncoupled := map (fun n => map (fun idx => nth (nth n idx 0) (es_decomp S (nth n legs noes)) []) grid) (seq 0 (length legs)) in
    match multiple_fusion_broadcast S uncoupled with
    | None => None
    | Some fused =>
      let sectors := if is_dual then dual_sectors S fused else fused in
      let sort := lexsort_indices sectors in
      let smults := take 0 mults sort in
      let sgrid := take [] grid sort in
      let ssectors := take [] sectors sort in
      let slices := slice_boundaries smults in
      let diffs := find_row_differences true ssectors in
      let block_starts := map (fun d => nth d slices 0) diffs in
      let num_unique := length diffs - 1 in
      let unique_mults := map (fun k => nth (k + 1) block_starts 0 - nth k block_starts 0) (seq 0 num_unique) in
      let unique_sectors := take [] ssectors (removelast diffs) in
      let bim := map (fun m => let J := group_of diffs m in
                        Bim (nth m slices 0 - nth J block_starts 0) (nth (m + 1) slices 0 - nth J block_starts 0) (nth m sgrid []) J)
                     (seq 0 nblocks) in
      let perm := calc_basis_perm S legs cstyle dim unique_mults bim in
      Some (Pipe legs cstyle (ES unique_sectors unique_mults is_dual (Some perm)) strides sort diffs bim)
    end
  end.

(* spaces.cpp:3195-3204 *)
Definition dual_pipe (S : symm) (P : pipe) : option pipe :=
  new_pipe S (map dual_es (rev (p_legs P))) (negb (es_dual (p_es P))) (negb (p_cstyle P)).

(** * LegPipe: nested, no fusion.  (The case of an AbelianLegPipe as a leg is an ElementarySpace here.) *)
Inductive leg := LSpace (E : espace) | LPipe (legs : list leg) (is_dual cstyle : bool).

(* spaces.cpp:1673-1678 (ElementarySpace), 695-704 *)
Fixpoint dual_leg (L : leg) : leg :=
  match L with
  | LSpace E => LSpace (dual_es E)
  | LPipe legs d c => LPipe (rev (map dual_leg legs)) (negb d) (negb c)
  end.
(* spaces.cpp:197-201, 712-720 *)
Fixpoint flat_legs (L : leg) : list espace :=
  match L with LSpace E => [E] | LPipe legs _ _ => flat_map flat_legs legs end.
(* spaces.cpp:208-212, 734-742 *)
Fixpoint num_flat_legs (L : leg) : nat :=
  match L with LSpace _ => 1 | LPipe legs _ _ => nsum (map num_flat_legs legs) end.
(* spaces.cpp:757-763: running offsets *)
Fixpoint offsets_from (running : nat) (nums : list nat) : list nat :=
  match nums with [] => [] | n :: t => running :: offsets_from (running + n) t end.
(* spaces.cpp:214-218, 744-775 *)
Fixpoint flat_leg_permutation (L : leg) (offset : nat) : list nat :=
  match L with
  | LSpace _ => [offset]
  | LPipe legs _ cstyle =>
      if length legs =? nsum (map num_flat_legs legs) then
        let perm := seq offset (length legs) in if cstyle then perm else rev perm
      else
        let ordered := if cstyle then map num_flat_legs legs else rev (map num_flat_legs legs) in
        let offsets := offsets_from offset ordered in
        let offsets := if cstyle then offsets else rev offsets in
        concat (map (fun pf => snd pf (fst pf)) (combine offsets (map flat_leg_permutation legs)))
  end.
(* spaces.cpp:3747-3763, also fusion_tree_backend.cpp:321-332: several legs *)
Definition flat_leg_permutations (legs : list leg) : list nat :=
  concat (map (fun pf => snd pf (fst pf)) (combine (offsets_from 0 (map num_flat_legs legs)) (map flat_leg_permutation legs))).
(* spaces.cpp:661-672 *)
Fixpoint leg_dim (S : symmetry) (L : leg) : nat :=
  match L with LSpace E => es_dim S E | LPipe legs _ _ => fold_left Nat.mul (map (leg_dim S) legs) 1 end.
(* spaces.cpp:629-655: None = trivial permutation *)
Fixpoint leg_perm (S : symmetry) (L : leg) : option (list nat) :=
  match L with
  | LSpace E => es_perm E
  | LPipe legs _ c =>
      if existsb (fun p => match p with Some _ => true | None => false end) (map (leg_perm S) legs) then
        combine_permutations (map (fun L => match leg_perm S L with Some p => p | None => seq 0 (leg_dim S L) end) legs) c
      else None
  end.
(* spaces.cpp:795-820, and 1523-1551 for elementary spaces *)
Fixpoint leg_eqb (S : symmetry) (L M : leg) : bool :=
  match L, M with
  | LSpace E, LSpace F => es_eqb S E F
  | LPipe ls d c, LPipe ms d' c' =>
      Bool.eqb d d' && Bool.eqb c c' && (length ls =? length ms) &&
      (fix go ls ms := match ls, ms with l :: ls', m :: ms' => leg_eqb S l m && go ls' ms' | _, _ => true end) ls ms
  | _, _ => false
  end.
