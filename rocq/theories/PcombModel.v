(** Model of planar_combine_legs (src/tensors/planar.cpp): which legs are bent before the legs are combined.
    Legs are indices smaller than num_legs (parsed by get_leg_idcs).  The result are the codomain and domain handed to planar_permute_legs and the groups, as legs of its result, handed to
    combine_legs.  Left out: the pipes and their dualities. *)
From Coq Require Import List Bool Arith.
From Verif Require Import Util PlanarModel.
Import ListNotations.
Set Implicit Arguments. Unset Strict Implicit.
Open Scope nat_scope.

(** planar.cpp:1968-1982: the groups at the right and at the left end, with "the first leg is in the domain"; a later group replaces an earlier one *)
Definition at_right (nc : nat) (g : list nat) : bool := (0 <? nc) && contains g (nc - 1) && contains g nc.
Definition at_left (n : nat) (g : list nat) : bool := contains g 0 && contains g (n - 1).
Definition find_corners (nc n : nat) (which : list (list nat)) : option (nat * bool) * option (nat * bool) :=
  fold_left (fun st p =>
    if at_right nc (snd p) then (Some (fst p, nc <=? hd 0 (snd p)), snd st)
    else if at_left n (snd p) then (fst st, Some (fst p, nc <=? hd 0 (snd p))) else st)
    (combine (seq 0 (length which)) which) (None, None).

(** planar.cpp:1984-1986 *)
Fixpoint sort_groups (n : nat) (which : list (list nat)) : option (list (list nat)) :=
  match which with
  | [] => Some []
  | g :: t => match parse_leg_bipartition g n, sort_groups n t with Some (s, _), Some r => Some (s :: r) | _, _ => None end
  end.

(** planar.cpp:1991-2009; Undefined: an iterator before the beginning of the vector *)
Definition bend_at_right (nc : nat) (right : option (nat * bool)) (which : list (list nat)) (co dom : list nat) : pres (list nat * list nat) :=
  match right with
  | None => POk (co, dom)
  | Some (idx, in_domain) =>
    let group := nth idx which [] in
    let num := index_of group (nc - 1) + 1 in
    if in_domain then
      if length co <? num then PErr Undefined
      else POk (firstn (length co - num) co, dom ++ rev (skipn (length co - num) co))
    else
      let num := length group - num in
      if length dom <? num then PErr Undefined
      else POk (co ++ rev (skipn (length dom - num) dom), firstn (length dom - num) dom)
  end.
(** planar.cpp:2010-2037; Undefined: an iterator after the end of the vector *)
Definition bend_at_left (n : nat) (left : option (nat * bool)) (which : list (list nat)) (co dom : list nat) : pres (list nat * list nat * list (list nat)) :=
  match left with
  | None => POk (co, dom, which)
  | Some (idx, in_domain) =>
    let group := nth idx which [] in
    let num := index_of group (n - 1) + 1 in
    if in_domain then
      let num := length group - num in
      if length co <? num then PErr Undefined
      else POk (skipn num co, rev (firstn num co) ++ dom, map (map (fun leg => (leg + (n - num)) mod n)) which)
    else
      if length dom <? num then PErr Undefined
      else POk (rev (firstn num dom) ++ co, skipn num dom, map (map (fun leg => (leg + num) mod n)) which)
  end.
Definition planar_combine_args (nc nd : nat) (which : list (list nat)) : pres (list nat * list nat * list (list nat)) :=
  let n := nc + nd in
  let (corner_r, corner_l) := find_corners nc n which in
  match sort_groups n which with
  | None => PErr NonPlanar
  | Some which =>
    match bend_at_right nc corner_r which (range 0 nc) (reversed_range nc n) with
    | PErr e => PErr e
    | POk (co, dom) => bend_at_left n corner_l which co dom
    end
  end.
