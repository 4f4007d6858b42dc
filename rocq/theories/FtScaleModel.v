(** Model of FusionTreeBackend::scale_axis for a codomain or domain with several factors (src/backends/fusion_tree_backend.cpp:3569-3640).
    Not modelled: dtypes, devices. *)
From Verif Require Import Util RowModel GridModel SymModel CatSpec SpaceModel PipeModel TreeModel TensorModel BlockModel SparseModel ConvertModel FtOpsModel.
Set Implicit Arguments. Unset Strict Implicit.
Open Scope nat_scope.

Section Scale.
  Variable S : tsymm.
  Variable K : Type.
  Variable o : ops K.
  Notation block := (blk K).
  Notation fdata := (list (nat * nat * blk K)).
  (** block_inds_rows with blocks; ind_mapping (newest entry first); domain_inds_seen *)
  Record sstate := SState { ss_rows : fdata; ss_map : list (nat * nat); ss_seen : list nat }.
  (* 3595-3604: a new block of zeros for a domain index that was not seen *)
  Definition scale_row (A : fdata) (i : nat) (st : sstate) : sstate :=
    let e := frow A i in
    if existsb (Nat.eqb (snd (fst e))) (ss_seen st) then st
    else SState (ss_rows st ++ [(fst e, bzeros o (bshape (snd e)))]) ((i, length (ss_rows st)) :: ss_map st) (snd (fst e) :: ss_seen st).
  (* 3605-3634: the slice of the forest, reshaped to one axis per leg (an axis of length -1 for the trees), scaled along one of them, and reshaped back.
     [T]: the space of the leg; [pos]: the position of the leg; [V]: the block of the diagonal tensor *)
  Definition forest_box (in_domain : bool) (B : block) (x : fb_item) : list nat * list nat :=
    if in_domain then ([0; fb_start x], [nth 0 (bshape B) 0; fb_stop x]) else ([fb_start x; 0], [fb_stop x; nth 1 (bshape B) 0]).
  Definition scale_forest (in_domain : bool) (T : tprod) (pos : nat) (B V : block) (x : fb_item) : block :=
    let reshape := map (fun p => sector_multiplicity (es_space S (fst p)) (snd p)) (combine (tp_flat_legs T) (fb_unc x)) in
    let forest := bslice o B (fst (forest_box in_domain B x)) (snd (forest_box in_domain B x)) in
    let initial := bshape forest in
    let trees := (if in_domain then nth 1 initial 0 else nth 0 initial 0) / prod reshape in
    let full := if in_domain then nth 0 initial 0 :: trees :: reshape else trees :: reshape ++ [nth 1 initial 0] in
    breshape (bscale_axis o (breshape forest full) V ((if in_domain then 1 else 0) + pos + 1)) initial.
  (* 3585-3635: the body of the loop.  [None]: an exception of the lookup or of ind_mapping.at *)
  Definition scale_step (in_domain : bool) (T L : tprod) (pos : nat) (A D : fdata) (st : option sstate) (x : fb_item) : option sstate :=
    match st with
    | None => None
    | Some st =>
        match block_ind_from_coupled (map fst D) (nth pos (fb_unc x) []) L with
        | None => None
        | Some None => Some st
        | Some (Some n) =>
            let st := scale_row A (fb_ind x) st in
            match find (fun p => fst p =? fb_ind x) (ss_map st) with
            | None => None
            | Some (_, k) =>
                let B := snd (frow A (fb_ind x)) in
                let row := frow (ss_rows st) k in
                Some (SState (upd (ss_rows st) k (fst row, bset_slice o (snd row) (fst (forest_box in_domain B x)) (snd (forest_box in_domain B x)) (scale_forest in_domain T pos B (snd (frow D n)) x))) (ss_map st) (ss_seen st))
            end
        end
    end.
  (* 3569-3640.  [P], [Q]: codomain and domain; [L]: the domain of the diagonal tensor; [pos]: co_domain_idx after 3571-3574 (with pipes: [flat_pos], FtOpsModel.v).
     With pipes the loop runs over a product of the flat legs with the same sectors, whose forest blocks are the same *)
  Definition ft_scale_general (in_domain : bool) (P Q L : tprod) (pos : nat) (A D : fdata) : option fdata :=
    let T := if in_domain then Q else P in
    let coupled := map (fun e => nth (fst (fst e)) (tp_secs P) []) A in
    match fold_left (scale_step in_domain T L pos A D) (iter_forest_blocks S T coupled) (Some (SState [] [] [])) with
    | None => None
    | Some st => Some (ft_make (ss_rows st) true)
    end.
End Scale.
