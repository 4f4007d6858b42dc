(** Permuting the sites of a coupling and padding it with identities (src/models/couplings.cpp). *)
From Coq Require Import ZArith List Bool.
From Verif Require Import Util GridModel.
Import ListNotations.
Open Scope nat_scope.
Set Implicit Arguments. Unset Strict Implicit.

(** couplings.cpp:337-362 adjacent_transpositions.  Entries of the permutation are natural numbers (checked before the only call in the library).
    inner for loop (347-352): position of [value] in [working] from [target_pos] on, [target_pos] if there is none *)
Definition find_cur (working : list nat) (value target_pos n : nat) : nat :=
  match List.find (fun i => nth i working 0 =? value) (seq target_pos (n - target_pos)) with Some i => i | None => target_pos end.
(** the while loop (353-358), [k] = cur - target_pos iterations; std::swap of neighbours is [swap_at] (GridModel) *)
Fixpoint bubble (k cur : nat) (working swap_positions : list nat) : list nat * list nat :=
  match k with
  | 0 => (working, swap_positions)
  | S k => bubble k (cur - 1) (swap_at (cur - 1) working) (swap_positions ++ [cur - 1])
  end.
Fixpoint transpositions_loop (targets : list nat) (permutation working swap_positions : list nat) : list nat :=
  match targets with
  | [] => swap_positions
  | target_pos :: targets =>
      let value := nth target_pos permutation 0 in
      let cur := find_cur working value target_pos (length permutation) in
      let '(working, swap_positions) := bubble (cur - target_pos) cur working swap_positions in
      transpositions_loop targets permutation working swap_positions
  end.
Definition adjacent_transpositions (permutation : list nat) : list nat :=
  transpositions_loop (seq 0 (length permutation)) permutation (seq 0 (length permutation)) [].

(** couplings.cpp:73-84 is_permutation: sort and compare with 0, 1, ..., len - 1 *)
Fixpoint zinsert (x : Z) (l : list Z) : list Z := match l with [] => [x] | y :: t => if (x <=? y)%Z then x :: l else y :: zinsert x t end.
Definition zsort (l : list Z) : list Z := fold_right zinsert [] l.
Definition is_permutation (permutation : list Z) : bool :=
  let sorted := zsort permutation in forallb (fun i => (nth i sorted 0 =? Z.of_nat i)%Z) (seq 0 (length sorted)).

Inductive error := EInvalid (* std::invalid_argument *) | EChirality (* BraidChiralityUnspecifiedError *) | EUndefined (* access out of bounds of a std::vector *).
Inductive result (A : Type) := Ok (a : A) | Err (e : error).
Arguments Err {A} _.

(** the labels "p{i}" (false) and "p{i}*" (true) *)
Definition label : Type := nat * bool.
Definition label_eqb (a b : label) : bool := (fst a =? fst b) && Bool.eqb (snd a) (snd b).

Section Permute.
  (** sites, legs, tensors without labels.  [PL codomain domain levels] is permute_legs with leg numbers (counted as in labels(): codomain, then reversed domain) and levels per leg;
      that it may itself fail for missing levels is not modelled. *)
  Variables Site Lg T : Type.
  Variable site_leg : Site -> Lg.
  Variable leg_eqb : Lg -> Lg -> bool.
  Variable PL : list nat -> list nat -> list (option Z) -> T -> T.

  Record tensor := Tens { t_core : T; t_codomain : list (label * Lg); t_domain : list (label * Lg) }.
  Definition t_legs (t : tensor) : list (label * Lg) := t_codomain t ++ rev (t_domain t).
  Definition t_labels (t : tensor) : list label := map fst (t_legs t).
  (** lookup of a leg by its label *)
  Definition leg_idx (t : tensor) (l : label) : option nat := List.find (fun i => match nth_error (t_labels t) i with Some l' => label_eqb l l' | None => false end) (seq 0 (length (t_labels t))).
  Fixpoint leg_idcs (t : tensor) (ls : list label) : option (list nat) :=
    match ls with
    | [] => Some []
    | l :: ls => match leg_idx t l, leg_idcs t ls with Some i, Some is => Some (i :: is) | _, _ => None end
    end.
  Definition pick (t : tensor) (is : list nat) : list (label * Lg) := flat_map (fun i => match nth_error (t_legs t) i with Some x => [x] | None => [] end) is.
  Definition permute_legs (t : tensor) (codomain domain : list label) (levels : list (option Z)) : result tensor :=
    match leg_idcs t codomain, leg_idcs t domain with
    | Some ci, Some di => Ok (Tens (PL ci di levels (t_core t)) (pick t ci) (pick t di))
    | _, _ => Err EInvalid
    end.
  (** couplings.cpp:92-108 levels_from_label_dict; the dictionary as an association list (a std::map initializer keeps the first of equal keys) *)
  Definition dict_get (d : list (label * Z)) (l : label) : option Z := option_map snd (List.find (fun p => label_eqb (fst p) l) d).
  Definition levels_from_label_dict (t : tensor) (d : list (label * Z)) : list (option Z) := map (dict_get d) (t_labels t).

  (** a coupling: sites, the operator (the tensor that to_tensor returns; the factorization itself is not modelled here), the levels and the cache of permuted couplings *)
  Record coupling := Coup { c_sites : list Site; c_op : T; c_levels : list Z; c_cache : list (list Z * (list Site * T * list Z)) }.
  Definition codomain_labels (n : nat) : list label := map (fun i => (i, false)) (seq 0 n).
  Definition domain_labels (n : nat) : list label := map (fun i => (i, true)) (seq 0 n).
  (** couplings.cpp:573-619 to_tensor: legs p0.. in the codomain, p0*.. in the domain *)
  Definition to_tensor (c : coupling) : tensor :=
    let n := length (c_sites c) in
    Tens (c_op c) (combine (codomain_labels n) (map site_leg (c_sites c))) (combine (domain_labels n) (map site_leg (c_sites c))).
  (** couplings.cpp:500-571 from_tensor: the checks; the new coupling has levels 1, 2, ... (constructor, 394-407) and an empty cache.
      The comparison of the backends and the factorization are left out. *)
  Fixpoint legs_match (sites : list Site) (legs : list (label * Lg)) : bool :=
    match sites, legs with
    | [], _ => true
    | s :: sites, (_, l) :: legs => leg_eqb l (site_leg s) && legs_match sites legs
    | _ :: _, [] => false
    end.
  Definition from_tensor (t : tensor) (sites : list Site) : result coupling :=
    let n := length sites in
    if negb (legs_match sites (t_codomain t)) then Err EInvalid
    else if negb (legs_match sites (t_domain t)) then Err EInvalid
    else if negb (Nat.eqb (length (t_labels t)) (length (codomain_labels n ++ rev (domain_labels n))) &&
                  forallb (fun p => label_eqb (fst p) (snd p)) (combine (t_labels t) (codomain_labels n ++ rev (domain_labels n)))) then Err EInvalid
    else Ok (Coup sites (t_core t) (map (fun i => Z.of_nat i + 1)%Z (seq 0 n)) []).
  (** tensor.relabel *)
  Definition relabel (t : tensor) (f : label -> label) : tensor :=
    Tens (t_core t) (map (fun p => (f (fst p), snd p)) (t_codomain t)) (map (fun p => (f (fst p), snd p)) (t_domain t)).

  (** couplings.cpp:679-798 permute *)
  Record pstate := PState { ps_tensor : tensor; ps_sites : list Site; ps_cod : list label; ps_dom : list label; ps_levels : list (option Z) }.
  (** 730-748: over or under *)
  Definition chirality (levels : list (option Z)) (pos : nat) (ob : option bool) : result bool :=
    match ob with
    | Some b => Ok b
    | None =>
        match nth pos levels None, nth (S pos) levels None with
        | Some l1, Some l2 => if (l1 =? l2)%Z then Err EChirality else Ok (l2 <? l1)%Z
        | _, _ => Err EChirality
        end
    end.
  (** one transposition (728-781); [ob] is the entry of over_braid for this step, None if over_braid is None *)
  Definition permute_step (n pos : nat) (ob : option bool) (st : pstate) : result pstate :=
    if negb (S pos <? n) then Err EUndefined else
    match chirality (ps_levels st) pos ob with
    | Err e => Err e
    | Ok over =>
        let new_codomain := swap_at pos (ps_cod st) in
        let new_domain := swap_at pos (ps_dom st) in
        let level_dict :=
          [(nth pos (ps_cod st) (0, false), if over then 1%Z else 0%Z); (nth pos (ps_dom st) (0, false), if over then 1%Z else 0%Z);
           (nth (S pos) (ps_cod st) (0, false), if over then 0%Z else 1%Z); (nth (S pos) (ps_dom st) (0, false), if over then 0%Z else 1%Z)] in
        match permute_legs (ps_tensor st) new_codomain new_domain (levels_from_label_dict (ps_tensor st) level_dict) with
        | Err e => Err e
        | Ok t => Ok (PState t (swap_at pos (ps_sites st)) new_codomain new_domain (swap_at pos (ps_levels st)))
        end
    end.
  Fixpoint permute_loop (n : nat) (swaps : list nat) (obs : list (option bool)) (st : pstate) : result pstate :=
    match swaps with
    | [] => Ok st
    | pos :: swaps =>
        match permute_step n pos (nth 0 obs None) st with
        | Err e => Err e
        | Ok st => permute_loop n swaps (tl obs) st
        end
    end.
  (** 783-789: p{permutation[new_pos]} -> p{new_pos}; later entries overwrite earlier ones *)
  Definition relabelling (permutation : list nat) (l : label) : label :=
    match List.find (fun k => nth k permutation 0 =? fst l) (rev (seq 0 (length permutation))) with Some k => (k, snd l) | None => l end.
  Definition list_eqb (a b : list Z) : bool := Nat.eqb (length a) (length b) && forallb (fun p => (fst p =? snd p)%Z) (combine a b).
  (** the call returns the new coupling and the old one with the updated cache *)
  Definition permute (c : coupling) (permutation : list Z) (levels : option (list (option Z))) (over_braid : option (list (option bool))) : result (coupling * coupling) :=
    let n := length (c_sites c) in
    if negb (is_permutation permutation) then Err EInvalid else
    let levels_state := match levels with Some l => l | None => map (fun x => Some x) (c_levels c) end in
    if negb (length levels_state =? n) then Err EInvalid else
    match List.find (fun e => list_eqb (fst e) permutation) (c_cache c) with
    | Some (_, (s, t, lv)) => Ok (Coup s t lv [], c)
    | None =>
        let perm := map Z.to_nat permutation in
        let swaps := adjacent_transpositions perm in
        if match over_braid with Some obs => negb (length obs =? length swaps) | None => false end then Err EInvalid else
            match permute_loop n swaps (match over_braid with Some obs => obs | None => [] end)
                    (PState (to_tensor c) (c_sites c) (codomain_labels n) (domain_labels n) levels_state) with
            | Err e => Err e
            | Ok st =>
                match from_tensor (relabel (ps_tensor st) (relabelling perm)) (ps_sites st) with
                | Err e => Err e
                | Ok r =>
                    if negb (forallb (fun i => i <? length (c_levels c)) perm) then Err EUndefined else
                    let lv := map (fun i => nth i (c_levels c) 0%Z) perm in
                    Ok (Coup (c_sites r) (c_op r) lv [], Coup (c_sites c) (c_op c) (c_levels c) (c_cache c ++ [(permutation, (c_sites r, c_op r, lv))]))
                end
            end
    end.
End Permute.

(** couplings.cpp:628-677 stretch_with_identities.  Positions as natural numbers (a negative one is undefined behaviour, like one beyond the end of all_sites). *)
Section Stretch.
  Variables Site Lg W Ten : Type.
  Variable site_leg : Site -> Lg.
  Variable leg_eqb : Lg -> Lg -> bool.
  Variable space_eqb : W -> W -> bool.
  (** legs of a coupling tensor: p, p*, wL, wR; Site::identity_tensor (degrees_of_freedom.cpp:443-455) *)
  Variables t_p t_pstar : Ten -> Lg.
  Variables t_wL t_wR : Ten -> W.
  Variable is_trivial : W -> bool.
  Variable identity_tensor : Site -> option W -> Ten.
  Fixpoint ascending (l : list nat) : bool := match l with a :: ((b :: _) as t) => (a <? b) && ascending t | _ => true end.
  Fixpoint sites_match (sites : list Site) (positions : list nat) (all_sites : list Site) : result bool :=
    match sites, positions with
    | s :: sites, pos :: positions =>
        match nth_error all_sites pos with
        | None => Err EUndefined
        | Some s' => if leg_eqb (site_leg s) (site_leg s') then sites_match sites positions all_sites else Ok false
        end
    | _, _ => Ok true
    end.
  Fixpoint stretch_loop (todo : list nat) (all_sites : list Site) (by_position : list (nat * Ten)) (wR_space : option W) (acc : list Ten) : result (list Ten) :=
    match todo with
    | [] => Ok acc
    | pos :: todo =>
        match (match List.find (fun e => fst e =? pos) by_position with
               | Some e => Some (snd e)
               | None => option_map (fun s => identity_tensor s wR_space) (nth_error all_sites pos)
               end) with
        | None => Err EUndefined
        | Some tensor => stretch_loop todo all_sites by_position (Some (t_wR tensor)) (acc ++ [tensor])
        end
    end.
  (** couplings.cpp:409-450 test_sanity of the constructor: physical legs, neighbouring virtual legs, trivial ends (labels, backends and numbers of legs left out) *)
  Fixpoint neighbours_match (l : list Ten) : bool := match l with a :: ((b :: _) as t) => space_eqb (t_wR a) (t_wL b) && neighbours_match t | _ => true end.
  Definition sane (sites : list Site) (factorization : list Ten) : bool :=
    (length sites =? length factorization) &&
    forallb (fun p => leg_eqb (t_p (snd p)) (site_leg (fst p)) && leg_eqb (t_pstar (snd p)) (site_leg (fst p))) (combine sites factorization) &&
    match factorization with [] => false | f0 :: _ => is_trivial (t_wL f0) && is_trivial (t_wR (last factorization f0)) end &&
    neighbours_match factorization.
  Definition stretch_with_identities (sites : list Site) (factorization : list Ten) (all_sites : list Site) (positions : list nat) : result (list Site * list Ten) :=
    if negb (length positions =? length factorization) then Err EInvalid
    else if negb (ascending positions) then Err EInvalid
    else match sites_match sites positions all_sites with
    | Err e => Err e
    | Ok false => Err EInvalid
    | Ok true =>
        match positions with
        | [] => Err EUndefined
        | start :: _ =>
            let stop := last positions start + 1 in
            match stretch_loop (seq start (stop - start)) all_sites (combine positions factorization) None [] with
            | Err e => Err e
            | Ok new_factorization =>
                let new_sites := firstn (stop - start) (skipn start all_sites) in
                if sane new_sites new_factorization then Ok (new_sites, new_factorization) else Err EInvalid
            end
        end
    end.
End Stretch.
