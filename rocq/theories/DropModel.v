(** Spaces with a product symmetry: dropping factors, combining independent symmetries (src/symmetries/spaces.cpp). *)
From Verif Require Import Util RowModel SymModel CatSpec AbelianModel ProductModel SpaceModel.
Set Implicit Arguments. Unset Strict Implicit.
Open Scope nat_scope.

Section Drop.
  Variable K : Type.
  Variable o : ops K.
  Notation facs := (list (factor K)).
  (** a product symmetry as seen by its spaces; can_be_dropped is has_symmetric_braid (base_symmetry.cpp:37-60),
      is_abelian is fusion_style == single *)
  Definition prod_symm (fs : facs) : symm := Symm (product_sym o fs) (max_braiding_style fs <=? 10) (max_fusion_style fs =? style_single).
  (** no_symmetry_product() *)
  Definition no_symm : symm := Symm NoSymmetry true true.

  (* spaces.cpp:975-979 *)
  Fixpoint valid_inds (which : list Z) (n : nat) : option (list nat) :=
    match which with
    | [] => Some []
    | i :: which' => match to_valid_idx i n, valid_inds which' n with Some j, Some r => Some (j :: r) | _, _ => None end
    end.
  Definition memb (i : nat) (l : list nat) : bool := existsb (Nat.eqb i) l.
  (* spaces.cpp:966-989.  Result: [None] for an exception; [Some None] for 'all'. *)
  Definition parse_inputs_drop_symmetry (which : option (list Z)) (fs : facs) : option (option (list nat * facs)) :=
    match which with
    | None => Some None
    | Some w =>
        match valid_inds w (length fs) with
        | None => None
        | Some valid =>
            if length valid =? length fs then Some None
            else
              let remaining := map (fun i => nth i fs (nofac o)) (filter (fun i => negb (memb i valid)) (seq 0 (length fs))) in
              if product_ok remaining then Some (Some (valid, remaining)) else None
        end
    end.
  (* spaces.cpp:1632-1655: keep the sector components of the factors that are not dropped *)
  Definition kept_components (fs : facs) (which : list nat) : list nat :=
    filter (fun k => negb (existsb (fun i => (sector_slice fs i <=? k) && (k <? sector_slice fs (i + 1))) which)) (seq 0 (total_len fs)).
  Definition restrict_sectors (fs : facs) (which : list nat) (l : list sector) : list sector :=
    map (fun s => map (fun k => nth k s 0%Z) (kept_components fs which)) l.
  (* spaces.cpp:1623-1658; the result carries its symmetry *)
  Definition drop_symmetry (fs : facs) (E : espace) (which : option (list Z)) : option (symm * espace) :=
    match parse_inputs_drop_symmetry which fs with
    | None => None
    | Some None => Some (no_symm, from_trivial_sector no_symm (es_dim (prod_symm fs) E) (es_dual E) (es_perm E))
    | Some (Some (valid, remaining)) =>
        Some (prod_symm remaining, change_symmetry (prod_symm remaining) E (restrict_sectors fs valid) false)
    end.

  (* spaces.cpp:1095-1147: [descs] are the descriptions with a nontrivial symmetry (the others are skipped),
     all of dimension [dim]; their symmetries are given by their factors *)
  Definition from_independent_symmetries (dim : nat) (descs : list (facs * espace)) : option (symm * espace) :=
    match descs with
    | [] => Some (no_symm, from_trivial_sector no_symm dim false None)
    | _ =>
        let fs := flat_map fst descs in
        if negb (product_ok fs) then None
        else
          let parts := map (fun d => sectors_of_basis (prod_symm (fst d)) (snd d)) descs in
          let l := map (fun i => flat_map (fun p => nth i p []) parts) (seq 0 dim) in
          match from_basis (prod_symm fs) l with Some E => Some (prod_symm fs, E) | None => None end
    end.
End Drop.
