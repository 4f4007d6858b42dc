(** Model of planar_partial_trace (src/tensors/planar.cpp), of the duplicate check of partial_trace (src/tensors/ops_algebra.cpp) and of the order of
    legs in FusionTreeBackend::partial_trace (src/backends/fusion_tree_backend.cpp).
    Legs are indices (already parsed by get_leg_idcs, hence smaller than num_legs).  Left out: the check that the legs of a pair are dual to each
    other (check_legs), and the values of the result. *)
From Coq Require Import ZArith List Bool.
From Verif Require Import Util PlanarModel.
Import ListNotations.
Set Implicit Arguments. Unset Strict Implicit.
Open Scope nat_scope.

(** PairSize, SameLeg, NotOnce, NotPlanar, Bends ("inconsistent bend counts"): errors of planar_partial_trace; OutOfBounds: reads pr[1] of a list that is
    too short; Duplicates: error of partial_trace; Request e: error of planar_permute_legs *)
Inductive trace_error := PairSize | SameLeg | NotOnce | NotPlanar | OutOfBounds | Bends | Duplicates | Rearranging (e : planar_error).
Inductive tres (A : Type) := TOk (a : A) | TErr (e : trace_error).
Arguments TErr {A} e.

(* planar.cpp:2286-2294 (= 2308-2316 = 2330-2338): the partners of leg l *)
Fixpoint partners (pairs : list (list nat)) (l : nat) : option (list nat) :=
  match pairs with
  | [] => Some []
  | pr :: t =>
    match pr with
    | a :: b :: _ => match partners t l with Some o => Some ((if b =? l then [a] else []) ++ (if a =? l then [b] else []) ++ o) | None => None end
    | _ => None
    end
  end.
(* planar.cpp:2282-2304: the loop over the legs of a region; [inside]: the region between l1 and l2.  TOk b: b = only traced legs *)
Fixpoint scan (traced : list nat) (pairs : list (list nat)) (l1 l2 : nat) (inside : bool) (ls : list nat) : tres bool :=
  match ls with
  | [] => TOk true
  | l :: t =>
    if contains traced l then
      match partners pairs l with
      | None => TErr OutOfBounds
      | Some [o] => if Bool.eqb ((l1 <? o) && (o <? l2)) inside then scan traced pairs l1 l2 inside t else TErr NotPlanar
      | Some _ => TErr NotOnce
      end
    else match scan traced pairs l1 l2 inside t with TOk _ => TOk false | TErr e => TErr e end
  end.
(* planar.cpp:2262-2352: the checks for one pair *)
Definition check_pair (n : nat) (traced : list nat) (pairs : list (list nat)) (pair : list nat) : tres unit :=
  match pair with
  | [a; b] =>
    let l1 := if b <? a then b else a in
    let l2 := if b <? a then a else b in
    if l1 =? l2 then TErr SameLeg else
    match scan traced pairs l1 l2 true (range (l1 + 1) l2) with
    | TErr e => TErr e
    | TOk first_half =>
      match scan traced pairs l1 l2 false (range (l2 + 1) n) with
      | TErr e => TErr e
      | TOk second_half =>
        match scan traced pairs l1 l2 false (range 0 l1) with
        | TErr e => TErr e
        | TOk second_half' => if first_half || (second_half && second_half') then TOk tt else TErr NotPlanar
        end
      end
    end
  | _ => TErr PairSize
  end.
Fixpoint check_pairs (n : nat) (traced : list nat) (pairs todo : list (list nat)) : tres unit :=
  match todo with
  | [] => TOk tt
  | p :: t => match check_pair n traced pairs p with TErr e => TErr e | TOk _ => check_pairs n traced pairs t end
  end.

(** the pairs that are checked have exactly two legs *)
Definition as_pair (l : list nat) : nat * nat := (nth 0 l 0, nth 1 l 0).
Definition pmin (p : nat * nat) : nat := if snd p <? fst p then snd p else fst p.
Definition pmax (p : nat * nat) : nat := if snd p <? fst p then fst p else snd p.
(* planar.cpp:2360-2382: (num_up_bends, num_down_bends) *)
Definition bends (n : nat) (traced : list nat) (pairs : list (nat * nat)) : nat * nat :=
  fold_left (fun ud p => if forallb (contains traced) (range (pmin p + 1) (pmax p)) then ud else (Nat.max (fst ud) (pmin p + 1), Nat.max (snd ud) (n - pmax p))) pairs (0, 0).
(* planar.cpp:2384-2433: the rearrangement of the legs before the trace (fusion tree backend), and the pairs as indices of the new legs; the numbers of codomain
   and domain legs are nc, nd *)
Definition prepare (nc nd : nat) (traced : list nat) (pairs : list (nat * nat)) : tres (option (list nat * list nat) * list (nat * nat)) :=
  let n := nc + nd in
  let (up, down) := bends n traced pairs in
  if down =? 0 then (if up =? 0 then TOk (None, pairs) else TErr Bends)
  else if down <? up then
    let num_legs_in_codom := if nd <=? down then down - nd else 0 in
    TOk (Some (range (n - down) n ++ range 0 (nc - num_legs_in_codom), reversed_range nc (n - down)), map (fun p => ((fst p + down) mod n, (snd p + down) mod n)) pairs)
  else
    let num_legs_in_dom := if nc <=? up then up - nc else 0 in
    TOk (Some (range up nc, reversed_range 0 up ++ reversed_range (nc + num_legs_in_dom) n), map (fun p => ((fst p + (n - up)) mod n, (snd p + (n - up)) mod n)) pairs).

(** FusionTreeBackend::partial_trace: fusion_tree_backend.cpp:2903-2969.  The pairs are sorted, then the legs of each pair *)
Definition pair_leb (p q : nat * nat) : bool := if fst p =? fst q then snd p <=? snd q else fst p <? fst q.
Fixpoint insert_pair (p : nat * nat) (l : list (nat * nat)) : list (nat * nat) := match l with [] => [p] | q :: t => if pair_leb p q then p :: l else q :: insert_pair p t end.
Fixpoint sort_pairs (l : list (nat * nat)) : list (nat * nat) := match l with [] => [] | p :: t => insert_pair p (sort_pairs t) end.
Definition ordered_pairs (pairs : list (nat * nat)) : list (nat * nat) := map (fun p => (pmin p, pmax p)) (sort_pairs pairs).
Definition insert_at (i x : nat) (l : list nat) : list nat := firstn i l ++ x :: skipn i l.
Definition remaining (n : nat) (pairs : list (nat * nat)) : list nat := filter (fun i => negb (contains (map fst pairs ++ map snd pairs) i)) (seq 0 n).
Fixpoint insert_pairs (remaining : list nat) (i : nat) (pairs : list (nat * nat)) (idcs : list nat) : list nat :=
  match pairs with
  | [] => idcs
  | p :: t =>
    let idx := length (filter (fun r => r <? fst p) remaining) + 2 * i in
    insert_pairs remaining (i + 1) t (insert_at (idx + 1) (snd p) (insert_at idx (fst p) idcs))
  end.
(** the order idcs and the number codom_count of legs in the codomain *)
Definition trace_order (nc nd : nat) (pairs : list (nat * nat)) : list nat * nat :=
  let ps := ordered_pairs pairs in
  let rem := remaining (nc + nd) ps in
  (insert_pairs rem 0 ps rem, nc + length (filter (fun p => (fst p <? nc) && (nc <=? snd p)) ps)).

(* ops_algebra.cpp:1390-1402: "Pairs may not contain duplicates." *)
Definition no_duplicates (pairs : list (nat * nat)) : bool := negb (has_dup (flat_map (fun p => [fst p; snd p]) pairs)).
(** planar_partial_trace: planar.cpp:2248-2447.  Result: the rearranged legs (None: no rearrangement) and the pairs handed to the backend *)
Definition planar_partial_trace (fusion_tree : bool) (nc nd : nat) (pairs : list (list nat)) : tres (option (list nat * list nat) * list (nat * nat)) :=
  let traced := concat pairs in
  match check_pairs (nc + nd) traced pairs pairs with
  | TErr e => TErr e
  | TOk _ =>
    let ps := map as_pair pairs in
    match (if fusion_tree then prepare nc nd traced ps else TOk (None, ps)) with
    | TErr e => TErr e
    | TOk (request, ps) =>
      match (match request with Some (co, dom) => planar_permute_legs nc nd (Some co) (Some dom) | None => POk [] end) with
      | PErr e => TErr (Rearranging e)
      | POk _ => if no_duplicates ps then TOk (request, ps) else TErr Duplicates
      end
    end
  end.
