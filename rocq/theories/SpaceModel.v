(** Model of Leg / Space / ElementarySpace (src/symmetries/spaces.cpp).
    Simplifications: multiplicities, dimensions and basis indices are unbounded [nat] (int64 in the code, all
    non-negative); the float64 field [dim] is only modelled for symmetries with can_be_dropped, where it is an integer.
    C++ exceptions and failing assertions are [None]. *)
From Verif Require Import Util StableSort RowModel GridModel SymModel.
Set Implicit Arguments. Unset Strict Implicit.
Open Scope nat_scope.

(** What a space needs to know about its symmetry: the fusion data and the properties can_be_dropped and is_abelian. *)
Record symm := Symm { s_sym :> symmetry; s_drop : bool; s_abelian : bool }.

(* spaces.cpp:930-938: slice boundaries, np.concatenate([[0], np.cumsum(values)]) *)
Fixpoint boundaries_from (acc : nat) (values : list nat) : list nat :=
  match values with
  | [] => [acc]
  | v :: t => acc :: boundaries_from (acc + v) t
  end.
Definition slice_boundaries (values : list nat) : list nat := boundaries_from 0 values.

(* spaces.cpp:953-964: batch_sector_dim(sectors) * multiplicities *)
Definition num_states (S : symmetry) (sectors : list sector) (mults : list nat) : list nat :=
  map (fun i => nth i (map (sym_dim S) sectors) 0 * nth i mults 0) (seq 0 (length sectors)).

(** * Space: sector decomposition, multiplicities and the promised order (spaces.cpp:316-361) *)
Inductive order := Sorted | DualSorted.
Definition order_eqb (a b : order) : bool := match a, b with Sorted, Sorted | DualSorted, DualSorted => true | _, _ => false end.
Record space := Sp { sp_secs : list sector; sp_mults : list nat; sp_order : option order }.

(* spaces.cpp:342-352: slices of the sectors in the internal basis, and the total dimension *)
Definition sp_slices (S : symmetry) (V : space) : list (nat * nat) :=
  let b := slice_boundaries (num_states S (sp_secs V) (sp_mults V)) in
  map (fun i => (nth i b 0, nth (i + 1) b 0)) (seq 0 (length (sp_secs V))).
Definition sp_dim (S : symmetry) (V : space) : nat := nsum (num_states S (sp_secs V) (sp_mults V)).

(* spaces.cpp:425-435.  Reading element 0 of an empty vector (undefined behaviour) is [None]. *)
Definition sp_is_trivial (S : symmetry) (V : space) : option bool :=
  if 1 <? length (sp_secs V) then Some false
  else match sp_mults V, sp_secs V with
       | m :: _, s :: _ => Some (if 1 <? m then false else row_eqb s (sym_trivial S))
       | _, _ => None
       end.

(* spaces.cpp:282-305 *)
Definition take_or_all (l : list sector) (perm : option (list nat)) : list sector :=
  match perm with None => l | Some p => take [] l p end.
Definition gather_or_all (l : list nat) (perm : option (list nat)) : list nat :=
  match perm with None => l | Some p => take 0 l p end.
Fixpoint nats_eqb (a b : list nat) : bool :=
  match a, b with [], [] => true | x :: a, y :: b => (x =? y) && nats_eqb a b | _, _ => false end.
Fixpoint rows_eqb (a b : list sector) : bool :=
  match a, b with [], [] => true | x :: a, y :: b => row_eqb x y && rows_eqb a b | _, _ => false end.

(* spaces.cpp:444-509, both spaces having the same symmetry (otherwise SymmetryError) *)
Definition is_isomorphic_to (S : symmetry) (V W : space) : bool :=
  if negb (length (sp_secs V) =? length (sp_secs W)) then false
  else
    let lex l := Some (lexsort_indices l) in
    let dlex l := Some (lexsort_indices (dual_sectors S l)) in
    let '(perm1, perm2) :=
      match sp_order V, sp_order W with
      | None, Some Sorted => (lex (sp_secs V), None)
      | None, Some DualSorted => (dlex (sp_secs V), None)
      | None, None => (lex (sp_secs V), lex (sp_secs W))
      | Some Sorted, None => (None, lex (sp_secs W))
      | Some DualSorted, None => (None, dlex (sp_secs W))
      | Some a, Some b => if order_eqb a b then (None, None)
                          else match a with
                               | Sorted => (None, lex (sp_secs W))
                               | DualSorted => (lex (sp_secs V), None)
                               end
      end in
    if negb (nats_eqb (gather_or_all (sp_mults V) perm1) (gather_or_all (sp_mults W) perm2)) then false
    else rows_eqb (take_or_all (sp_secs V) perm1) (take_or_all (sp_secs W) perm2).

(* spaces.cpp:598-622 *)
Definition sector_multiplicity (V : space) (s : sector) : nat :=
  match row_where (sp_secs V) s with None => 0 | Some i => nth i (sp_mults V) 0 end.

(* spaces.cpp:527-541: walk over the sectors of [other]; [vs], [vm] are what is left of self.
   [vs = []] cannot be reached: the loop returns as soon as all sectors of self are checked. *)
Fixpoint subspace_walk (vs : list sector) (vm : list nat) (ws : list sector) (wm : list nat) : bool :=
  match ws, wm with
  | w :: ws', m :: wm' =>
      match vs, vm with
      | v :: vs', k :: vm' =>
          if row_eqb v w then
            if m <? k then false
            else match vs' with [] => true | _ => subspace_walk vs' vm' ws' wm' end
          else subspace_walk vs vm ws' wm'
      | _, _ => true
      end
  | _, _ => false
  end.
(* spaces.cpp:546-558: returns None for the early [return false], otherwise num_sectors_checked *)
Fixpoint subspace_lookup (V : space) (ws : list sector) (wm : list nat) (checked : nat) : option nat :=
  match ws, wm with
  | w :: ws', m :: wm' =>
      let k := sector_multiplicity V w in
      if k =? 0 then subspace_lookup V ws' wm' checked
      else if m <? k then None
      else subspace_lookup V ws' wm' (checked + 1)
  | _, _ => Some checked
  end.
(* spaces.cpp:511-563 (equivalent symmetries) *)
Definition is_subspace_of (V W : space) : bool :=
  if length (sp_secs V) =? 0 then true
  else match sp_order V, sp_order W with
       | Some Sorted, Some Sorted => subspace_walk (sp_secs V) (sp_mults V) (sp_secs W) (sp_mults W)
       | _, _ => match subspace_lookup V (sp_secs W) (sp_mults W) 0 with
                 | None => false
                 | Some checked => negb (checked <? length (sp_secs V))
                 end
       end.

(** * ElementarySpace *)
Record espace := ES { es_def : list sector; es_mults : list nat; es_dual : bool; es_perm : option (list nat) }.

(* spaces.cpp:1029-1040 *)
Definition es_space (S : symmetry) (E : espace) : space :=
  Sp (if es_dual E then dual_sectors S (es_def E) else es_def E) (es_mults E)
     (Some (if es_dual E then DualSorted else Sorted)).
Definition es_decomp (S : symmetry) (E : espace) : list sector := sp_secs (es_space S E).
Definition es_dim (S : symmetry) (E : espace) : nat := sp_dim S (es_space S E).
(* spaces.cpp:143-150, 167-174 *)
Definition basis_perm (S : symmetry) (E : espace) : list nat :=
  match es_perm E with None => seq 0 (es_dim S E) | Some p => p end.
Definition inverse_basis_perm (S : symmetry) (E : espace) : list nat :=
  match es_perm E with None => seq 0 (es_dim S E) | Some p => inverse_permutation p end.

(* spaces.cpp:1382-1404: fill by slices, then permute *)
Definition internal_sectors (S : symmetry) (V : space) : list sector :=
  flat_map (fun i => let '(a, b) := nth i (sp_slices S V) (0, 0) in repeat (nth i (sp_secs V) []) (b - a))
           (seq 0 (length (sp_secs V))).
Definition sectors_of_basis (S : symmetry) (E : espace) : list sector :=
  match es_perm E with
  | None => internal_sectors S (es_space S E)
  | Some p => take [] (internal_sectors S (es_space S E)) (inverse_permutation p)
  end.

(* spaces.cpp:1073-1085: multiplicities from the number of occurrences, or an exception *)
Fixpoint basis_mults (S : symmetry) (sectors : list sector) (occ : list nat) : option (list nat) :=
  match sectors, occ with
  | s :: sectors', n :: occ' =>
      if n mod sym_dim S s =? 0 then
        match basis_mults S sectors' occ' with Some l => Some (n / sym_dim S s :: l) | None => None end
      else None
  | _, _ => Some []
  end.
(* spaces.cpp:1057-1093 *)
Definition from_basis (S : symm) (sectors_of_basis : list sector) : option espace :=
  if negb (s_drop S) then None else
  let perm := lexsort_indices sectors_of_basis in
  let srt := take [] sectors_of_basis perm in
  let diffs := find_row_differences true srt in
  let sectors := take [] srt (removelast diffs) in
  let occ := map (fun i => nth (i + 1) diffs 0 - nth i diffs 0) (seq 0 (length sectors)) in
  match basis_mults S sectors occ with
  | Some mults => Some (ES sectors mults false (Some perm))
  | None => None
  end.

(* spaces.cpp:919-928 *)
Definition sort_sectors (sectors : list sector) (mults : list nat) : list sector * list nat * list nat :=
  let '(srt, perm) := sorted sectors in (srt, take 0 mults perm, perm).

(* write the list [new] over the elements start, start+1, ... of [l] *)
Definition overwrite {A} (start : nat) (new l : list A) : list A :=
  firstn start l ++ new ++ skipn (start + length new) l.

(* spaces.cpp:1280-1313, one group of equal sectors, rows a .. b-1: all copies of the first state, then of the second, ... *)
Definition regroup_one (S : symmetry) (sectors : list sector) (mults : list nat) (perm : list nat) (ab : nat * nat) : list nat :=
  let '(a, b) := ab in
  let d := sym_dim S (nth a sectors []) in
  if d =? 1 then perm else
  let bs := slice_boundaries (num_states S sectors mults) in
  let ms := slice mults a b in
  let offsets := slice_boundaries (map (fun m => m * d) ms) in
  let start := nth a bs 0 in
  let new_perm :=
    flat_map (fun k =>
      flat_map (fun j =>
        map (fun t => nth (start + (nth j offsets 0 + k * nth j ms 0 + t)) perm 0) (seq 0 (nth j ms 0)))
      (seq 0 (length ms)))
    (seq 0 d) in
  overwrite start new_perm perm.
Definition regroup (S : symmetry) (sectors : list sector) (mults : list nat) (diffs : list nat) (perm : list nat) : list nat :=
  fold_left (fun perm i => regroup_one S sectors mults perm (nth i diffs 0, nth (i + 1) diffs 0))
            (seq 0 (length diffs - 1)) perm.

(* spaces.cpp:1232-1254: sort, and order basis_perm by slices *)
Definition sort_basis_perm (S : symm) (sectors : list sector) (mults : list nat) (perm : option (list nat)) (sort : list nat)
  : option (list nat) :=
  if s_drop S then
    let bs := slice_boundaries (num_states S sectors mults) in
    if length sectors =? 0 then Some []
    else
      let p := match perm with None => seq 0 (last bs 0) | Some p => p end in
      Some (flat_map (fun i => map (fun k => nth k p 0) (seq (nth i bs 0) (nth (i + 1) bs 0 - nth i bs 0))) sort)
  else perm.
(* spaces.cpp:1217-1334.  (The assertion "no basis_perm if the symmetry can not be dropped" is a precondition.) *)
Definition from_defining_sectors (S : symm) (sectors : list sector) (mults : list nat) (is_dual : bool)
  (perm : option (list nat)) (unique_sectors : bool) : espace :=
  let '(secs, ms, sort) := sort_sectors sectors mults in
  let p := sort_basis_perm S sectors mults perm sort in
  if unique_sectors then ES secs ms is_dual p
  else
    let diffs := find_row_differences true secs in
    let p' := match p with
              | Some q => if negb (s_abelian S) then Some (regroup S secs ms diffs q) else Some q
              | None => None
              end in
    let mb := slice_boundaries ms in
    let unique_mults := map (fun i => nth (nth (i + 1) diffs 0) mb 0 - nth (nth i diffs 0) mb 0) (seq 0 (length diffs - 1)) in
    ES (take [] secs (removelast diffs)) unique_mults is_dual p'.

(* spaces.cpp:1336-1352 *)
Definition from_sector_decomposition (S : symm) (sectors : list sector) (mults : list nat) (is_dual : bool)
  (perm : option (list nat)) (unique_sectors : bool) : espace :=
  from_defining_sectors S (if is_dual then dual_sectors S sectors else sectors) mults is_dual perm unique_sectors.

(* spaces.cpp:1209-1215, 1354-1372 *)
Definition from_null_space (is_dual : bool) : espace := ES [] [] is_dual None.
Definition from_trivial_sector (S : symm) (dim : nat) (is_dual : bool) (perm : option (list nat)) : espace :=
  if dim =? 0 then from_null_space is_dual else ES [sym_trivial S] [dim] is_dual perm.

(* spaces.cpp:1592-1621 (same symmetry and duality, asserted) *)
Definition direct_sum (S : symm) (E : espace) (others : list espace) : espace :=
  match others with
  | [] => E
  | _ =>
    let perm := if s_drop S then
        Some (fst (fold_left (fun '(perm, off) o => (perm ++ map (fun i => i + off) (basis_perm S o), off + es_dim S o))
                   others (basis_perm S E, es_dim S E)))
      else None in
    from_defining_sectors S (fold_left (fun l o => l ++ es_def o) others (es_def E))
                          (fold_left (fun l o => l ++ es_mults o) others (es_mults E)) (es_dual E) perm false
  end.

(* spaces.cpp:1673-1678 *)
Definition dual_es (E : espace) : espace := ES (es_def E) (es_mults E) (negb (es_dual E)) (es_perm E).
(* spaces.cpp:1803-1823 *)
Definition with_opposite_duality (S : symm) (E : espace) : espace :=
  from_defining_sectors S (if es_dual E then es_decomp S E else dual_sectors S (es_def E)) (es_mults E) (negb (es_dual E)) (es_perm E) true.
(* spaces.cpp:1825-1832; as_ElementarySpace, as_ket_space, as_bra_space (1554-1579) are instances *)
Definition with_is_dual (S : symm) (E : espace) (d : bool) : espace :=
  if Bool.eqb d (es_dual E) then E else with_opposite_duality S E.

(* spaces.cpp:565-587: Space::as_ElementarySpace *)
Definition as_elementary (S : symm) (V : space) (d : bool) : espace :=
  let defs := if d then dual_sectors S (sp_secs V) else sp_secs V in
  let is_sorted := match sp_order V with
                   | Some o => order_eqb o (if d then DualSorted else Sorted)
                   | None => false
                   end in
  if is_sorted then ES defs (sp_mults V) d None
  else from_defining_sectors S defs (sp_mults V) d None true.

(* spaces.cpp:1170-1199, two spaces *)
Definition common_pairs (V W : space) : list (sector * nat) :=
  match sp_order V, sp_order W with
  | Some Sorted, Some Sorted =>
      map (fun ij => (nth (fst ij) (sp_secs V) [], Nat.min (nth (fst ij) (sp_mults V) 0) (nth (snd ij) (sp_mults W) 0)))
          (common_walk true true 0 (sp_secs V) 0 (sp_secs W))
  | _, _ =>
      flat_map (fun i => match row_where (sp_secs W) (nth i (sp_secs V) []) with
                         | None => []
                         | Some j => [(nth i (sp_secs V) [], Nat.min (nth i (sp_mults V) 0) (nth j (sp_mults W) 0))]
                         end) (seq 0 (length (sp_secs V)))
  end.
Definition common_two (S : symm) (V W : space) (is_dual : bool) : espace :=
  let l := common_pairs V W in
  let E := from_sector_decomposition S (map fst l) (map snd l) is_dual None true in
  ES (es_def E) (es_mults E) (es_dual E) None.
(* spaces.cpp:1149-1207 *)
Fixpoint largest_common_from (S : symm) (V : space) (rest : list space) (is_dual : bool) : espace :=
  match rest with
  | [] => as_elementary S V is_dual      (* overridden to with_is_dual when V is an ElementarySpace *)
  | [W] => common_two S V W is_dual
  | W :: rest' => largest_common_from S (es_space S (common_two S V W false)) rest' is_dual
  end.
Definition from_largest_common_subspace (S : symm) (spaces : list space) (is_dual : bool) : option espace :=
  match spaces with [] => None | V :: rest => Some (largest_common_from S V rest is_dual) end.

(* tools.cpp:52-60 *)
Definition to_valid_idx (idx : Z) (len : nat) : option nat :=
  if (idx <? - Z.of_nat len)%Z || (Z.of_nat len <=? idx)%Z then None
  else Some (Z.to_nat (if (idx <? 0)%Z then (idx + Z.of_nat len)%Z else idx)).
(* spaces.cpp:1692-1703: the while loop lo < hi, with fuel *)
Fixpoint bisect (fuel : nat) (starts : list nat) (idx lo hi : nat) : nat :=
  match fuel with
  | O => lo
  | S fuel => if lo <? hi then
                let mid := lo + (hi - lo) / 2 in
                if nth mid starts 0 <=? idx then bisect fuel starts idx (mid + 1) hi else bisect fuel starts idx lo mid
              else lo
  end.
(* spaces.cpp:1680-1708 *)
Definition parse_index (S : symm) (E : espace) (idx : Z) : option (nat * nat) :=
  if negb (s_drop S) then None else
  match to_valid_idx idx (es_dim S E) with
  | None => None
  | Some i =>
      let k := match es_perm E with Some p => nth i (inverse_permutation p) 0 | None => i end in
      let sl := sp_slices S (es_space S E) in
      let lo := bisect (length sl) (map fst sl) k 0 (length sl) in
      if lo =? 0 then None else Some (lo - 1, k - fst (nth (lo - 1) sl (0, 0)))
  end.
(* spaces.cpp:1710-1715 *)
Definition idx_to_sector (S : symm) (E : espace) (idx : Z) : option sector :=
  match parse_index S E idx with Some (s, _) => Some (nth s (es_decomp S E) []) | None => None end.

(* spaces.cpp:1747-1762: the loop over the multiplets of one sector; mask is the part of the internal mask.
   [None] models "Multiplets need to be kept or discarded as a whole." *)
Fixpoint count_kept (n d : nat) (mask : list bool) : option nat :=
  match n with
  | O => Some 0
  | S n => let keep := nth 0 mask false in
           if forallb (Bool.eqb keep) (firstn d mask) then
             match count_kept n d (skipn d mask) with
             | Some k => Some (if keep then d + k else k)
             | None => None
             end
           else None
  end.
(* spaces.cpp:1745-1767 *)
Fixpoint slice_sectors (S : symmetry) (secs defs : list sector) (mults : list nat) (mask : list bool)
  : option (list (sector * nat)) :=
  match secs, defs, mults with
  | s :: secs', t :: defs', m :: mults' =>
      let d := sym_dim S s in
      match count_kept m d (firstn (m * d) mask), slice_sectors S secs' defs' mults' (skipn (m * d) mask) with
      | Some kept, Some r => Some (if 0 <? kept / d then (t, kept / d) :: r else r)
      | _, _ => None
      end
  | _, _, _ => Some []
  end.
(* spaces.cpp:1717-1801 *)
Definition take_slice (S : symm) (E : espace) (public_mask : list bool) : option espace :=
  if negb (s_drop S) then None else
  if negb (length public_mask =? es_dim S E) then None else
  let perm := basis_perm S E in
  let mask := take false public_mask perm in
  match slice_sectors S (es_decomp S E) (es_def E) (es_mults E) mask with
  | None => None
  | Some l =>
      let kept_perm := take_mask perm mask in
      Some (ES (map fst l) (map snd l) (es_dual E) (Some (rank_data (map Z.of_nat kept_perm))))
  end.

(* spaces.cpp:1523-1551 (same symmetry) *)
Definition es_eqb (S : symmetry) (E F : espace) : bool :=
  Bool.eqb (es_dual E) (es_dual F) && (length (es_def E) =? length (es_def F)) && nats_eqb (es_mults E) (es_mults F)
  && rows_eqb (es_def E) (es_def F)
  && match es_perm E, es_perm F with
     | None, None => true
     | _, _ => nats_eqb (basis_perm S E) (basis_perm S F)
     end.

(* spaces.cpp:1581-1590 *)
Definition change_symmetry (S' : symm) (E : espace) (sector_map : list sector -> list sector) (injective : bool) : espace :=
  from_defining_sectors S' (sector_map (es_def E)) (es_mults E) (es_dual E) (es_perm E) injective.
