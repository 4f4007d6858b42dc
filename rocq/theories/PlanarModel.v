(** Model of planar_permute_legs and parse_leg_bipartition (src/tensors/planar.cpp) and of the parsing of bend_right in permute_legs
    (src/tensors/ops_legs.cpp).  Legs are given as indices (already parsed by get_leg_idcs, hence smaller than num_legs).
    int64 is modelled by nat: the differences that occur are not negative (they could be for lists that name a leg twice, where the number of
    loop iterations is 0 as here).  Left out: DiagonalTensor, Mask and ChargedTensor inputs of permute_legs. *)
From Coq Require Import ZArith List Bool.
From Verif Require Import Util GridModel PermLegsModel.
Import ListNotations.
Set Implicit Arguments. Unset Strict Implicit.
Open Scope nat_scope.

(** NotGiven, EmptyGiven, NonPlanar, Inconsistent, Internal ("inconsistent ... partition", "not planar permute", ...): invalid_argument / runtime_error
    of planar.cpp; Undefined: undefined behaviour; DuplicateOrMissing, NeedBendRight, WrongLength: errors of permute_legs; Engine e: see PermLegsModel *)
Inductive planar_error := NotGiven | EmptyGiven | NonPlanar | Inconsistent | Internal | Undefined | DuplicateOrMissing | NeedBendRight | WrongLength | Engine (e : eerror).
Inductive pres (A : Type) := POk (a : A) | PErr (e : planar_error).
Arguments PErr {A} e.

(* planar.cpp:45-50 *)
Definition contains (l : list nat) (v : nat) : bool := existsb (Nat.eqb v) l.
(* planar.cpp:52-61; throws if v is absent: all the calls below are for a v that has been found before *)
Fixpoint index_of (l : list nat) (v : nat) : nat := match l with [] => 0 | x :: t => if x =? v then 0 else S (index_of t v) end.
(* planar.cpp:135-170: range_of(a, b), reversed_range(a, b) *)
Definition range (a b : nat) : list nat := seq a (b - a).
Definition reversed_range (a b : nat) : list nat := rev (range a b).
Definition list_eqb (l l' : list nat) : bool := if list_eq_dec Nat.eq_dec l l' then true else false.

(** parse_leg_bipartition: planar.cpp:2943-2988.  None: "duplicate legs", "leg index out of range", "Not a planar bipartition" *)
Fixpoint has_dup (l : list nat) : bool := match l with [] => false | x :: t => contains t x || has_dup t end.
Fixpoint insert_sorted (x : nat) (l : list nat) : list nat := match l with [] => [x] | y :: t => if x <=? y then x :: l else y :: insert_sorted x t end.
Fixpoint sorted (l : list nat) : list nat := match l with [] => [] | x :: t => insert_sorted x (sorted t) end.
Definition parse_leg_bipartition (legs : list nat) (num_legs : nat) : option (list nat * list nat) :=
  if has_dup legs || existsb (fun l => num_legs <=? l) legs then None else
  match legs with
  | [] => Some ([], range 0 num_legs)
  | _ =>
    if length legs =? num_legs then Some (range 0 num_legs, []) else
    let sorted_legs := sorted legs in
    let front := hd 0 sorted_legs in
    let back := last sorted_legs 0 in
    let jumps := filter (fun i => negb (nth (i + 1) sorted_legs 0 =? nth i sorted_legs 0 + 1)) (seq 0 (length sorted_legs - 1)) in
    match jumps with
    | [] => Some (sorted_legs, range (back + 1) num_legs ++ range 0 front)
    | [j] =>
      if (front =? 0) && (back =? num_legs - 1) then
        let last_ := nth j sorted_legs 0 in
        let first_ := nth (j + 1) sorted_legs 0 in
        Some (range first_ num_legs ++ range 0 (last_ + 1), range (last_ + 1) first_)
      else None
    | _ => None
    end
  end.

(** planar_permute_legs, first part: planar.cpp:2557-2618: the given lists are checked and a missing one is filled in *)
Definition arc (n start len : nat) : list nat := map (fun i => (start + i) mod n) (seq 0 len).
Definition check_domain (n : nat) (codomain : option (list nat)) (domain : list nat) : pres (option (list nat)) :=
  match domain with
  | [] => POk codomain
  | _ =>
    if negb (list_eqb domain (rev (arc n (last domain 0) (length domain)))) then PErr NonPlanar else
    let codomain2 := arc n (hd 0 domain + 1) (n - length domain) in
    match codomain with
    | None => POk (Some codomain2)
    | Some c => if list_eqb c codomain2 then POk (Some c) else PErr Inconsistent
    end
  end.
Definition check_codomain (n : nat) (domain : option (list nat)) (codomain : list nat) : pres (option (list nat)) :=
  match codomain with
  | [] => POk domain
  | _ =>
    if negb (list_eqb codomain (arc n (hd 0 codomain) (length codomain))) then PErr NonPlanar else
    let domain2 := rev (arc n (last codomain 0 + 1) (n - length codomain)) in
    match domain with
    | None => POk (Some domain2)
    | Some d => if list_eqb d domain2 then POk (Some d) else PErr Inconsistent
    end
  end.
Definition complete (n : nat) (codomain domain : option (list nat)) : pres (list nat * list nat) :=
  match codomain, domain with
  | None, None => PErr NotGiven
  | None, Some [] | Some [], None => PErr EmptyGiven
  | _, _ =>
    match (match domain with Some d => check_domain n codomain d | None => POk codomain end) with
    | PErr e => PErr e
    | POk codomain =>
      match (match codomain with Some c => check_codomain n domain c | None => POk domain end) with
      | PErr e => PErr e
      | POk domain => match codomain, domain with Some c, Some d => POk (c, d) | _, _ => PErr Undefined end
      end
    end
  end.

(** the calls of permute_legs: BendAll is a single bool for all the legs *)
Inductive bend_arg := BendAll (b : bool) | BendList (l : list (option bool)).
Record call := Call { c_cod : list nat; c_dom : list nat; c_bend : bend_arg }.
Definition times (n : nat) (b : option bool) : list (option bool) := repeat b n.

(** planar_permute_legs, second part: planar.cpp:2620-2875; the calls of permute_legs it makes one after the other *)
Definition permute_calls (nc nd : nat) (co dom : list nat) : pres (list call) :=
  let n := nc + nd in
  let codomain_staying := filter (contains co) (seq 0 nc) in
  let domain_staying := filter (fun i => contains dom (n - 1 - i)) (seq 0 nd) in
  let sc := length codomain_staying in
  let sd := length domain_staying in
  let codomain_winding := (0 <? sc) && contains co 0 && contains co (nc - 1) && (index_of co (nc - 1) <? index_of co 0) in
  let domain_winding := (0 <? sd) && contains dom nc && contains dom (n - 1) && (index_of dom nc <? index_of dom (n - 1)) in
  let one bends := POk [Call co dom (BendList bends)] in
  let left := Some false in let right := Some true in
  if codomain_winding && domain_winding then PErr Internal
  else if (sc =? 0) && (sd =? 0) && (0 <? length co) && (0 <? length dom) then
    if nc <? nd then one (times nc left ++ times nd right) else one (times nc right ++ times nd left)
  else if codomain_winding then
    let bend_up := nc - sc in
    let dont_bend := last co 0 + 1 in
    let bend_twice := index_of co (nc - 1) + 1 in
    if negb (dont_bend + bend_up + bend_twice =? nc) then PErr Internal else
    POk [Call (range 0 dont_bend) (reversed_range dont_bend n) (BendAll true);
         Call (range (dont_bend + bend_up) n ++ range 0 dont_bend) (reversed_range dont_bend (nc - bend_twice)) (BendAll false)]
  else if domain_winding then
    let bend_down := nd - sd in
    let dont_bend := hd 0 dom + 1 - nc in
    let bend_twice := length dom - index_of dom (n - 1) in
    if negb (bend_twice + bend_down + dont_bend =? nd) then PErr Internal else
    POk [Call (range (nc + dont_bend) n ++ range 0 nc) (reversed_range nc (nc + dont_bend)) (BendAll false);
         Call (range 0 bend_down) (reversed_range bend_down n) (BendAll true)]
  else if (sc =? nc) && (sd =? nd) then POk []
  else if nc =? 0 then
    let left_bending := if contains co (n - 1) && negb (n =? 1) then index_of co (n - 1) + 1 else 0 in
    let right_bending := if contains co 0 then length co - index_of co 0 else 0 in
    let left_bending := if (sd =? 0) && (left_bending =? n) && (right_bending =? n) then 0 else left_bending in
    if negb (left_bending + sd + right_bending =? n) then PErr Internal else
    one (times right_bending right ++ times sd None ++ times left_bending left)
  else if nd =? 0 then
    let left_bending := if contains dom 0 && negb (n =? 1) then index_of dom 0 + 1 else 0 in
    let right_bending := if contains dom (n - 1) then length dom - index_of dom (n - 1) else 0 in
    let left_bending := if (sc =? 0) && (left_bending =? n) && (right_bending =? n) then 0 else left_bending in
    if negb (left_bending + sc + right_bending =? n) then PErr Internal else
    one (times left_bending left ++ times sc None ++ times right_bending right)
  else if sc =? 0 then
    if sd =? 0 then PErr Undefined (* domain_staying[0] of an empty vector *) else
    let domain_bend_left := hd 0 domain_staying in
    let domain_bend_right := nd - 1 - last domain_staying 0 in
    if negb (domain_bend_left + sd + domain_bend_right =? nd) then PErr Internal
    else if sd =? nd then
      let num_bend_left := index_of dom (n - 1) in
      one (times num_bend_left left ++ times (nc - num_bend_left) right ++ times nd None)
    else if domain_bend_left =? 0 then one (times nc left ++ times domain_bend_right right ++ times sd None)
    else if domain_bend_right =? 0 then one (times nc right ++ times sd None ++ times domain_bend_left left)
    else PErr Internal
  else if sd =? 0 then
    let codomain_bend_left := hd 0 codomain_staying in
    let codomain_bend_right := nc - 1 - last codomain_staying 0 in
    if negb (codomain_bend_left + sc + codomain_bend_right =? nc) then PErr Internal
    else if sc =? nc then
      let num_bend_left := index_of co 0 in
      one (times nc None ++ times (nd - num_bend_left) right ++ times num_bend_left left)
    else if codomain_bend_left =? 0 then one (times sc None ++ times codomain_bend_right right ++ times nd left)
    else if codomain_bend_right =? 0 then one (times codomain_bend_left left ++ times sc None ++ times nd right)
    else PErr Internal
  else
    let codomain_bend_left := hd 0 codomain_staying in
    let codomain_bend_right := nc - 1 - last codomain_staying 0 in
    let domain_bend_left := hd 0 domain_staying in
    let domain_bend_right := nd - 1 - last domain_staying 0 in
    if negb ((codomain_bend_left =? 0) || (domain_bend_left =? 0)) then PErr Internal
    else if negb ((codomain_bend_right =? 0) || (domain_bend_right =? 0)) then PErr Internal
    else one (times codomain_bend_left left ++ times sc None ++ times codomain_bend_right right ++ times domain_bend_right right ++ times sd None ++ times domain_bend_left left).
Definition planar_permute_legs (nc nd : nat) (codomain domain : option (list nat)) : pres (list call) :=
  match complete (nc + nd) codomain domain with PErr e => PErr e | POk (co, dom) => permute_calls nc nd co dom end.

(** permute_legs with both lists given and levels = None: ops_legs.cpp:376-530.  None: the tensor is returned unchanged, otherwise the
    codomain, domain and bend_right handed to the backend *)
Definition legs_unchanged (nc nd : nat) (co dom : list nat) : bool :=
  (length co =? nc) && forallb (fun i => nth i co 0 =? i) (seq 0 nc) && forallb (fun p => snd p + fst p + 1 =? nc + nd) (combine (seq 0 (length dom)) dom).
Definition permute_front (trivial_braid : bool) (nc nd : nat) (c : call) : pres (option (list nat * list nat * list (option bool))) :=
  let n := nc + nd in
  let all := c_dom c ++ c_cod c in
  if has_dup all || negb (forallb (contains all) (seq 0 n)) then PErr DuplicateOrMissing
  else if legs_unchanged nc nd (c_cod c) (c_dom c) then POk None
  else
    let bends := match c_bend c with BendAll b => repeat (Some b) n | BendList l => l end in
    if negb (length bends =? n) then PErr WrongLength
    else if trivial_braid then POk (Some (c_cod c, c_dom c, repeat (Some true) n))
    else
      let bending := filter (fun i => i <? nc) (c_dom c) ++ filter (fun i => nc <=? i) (c_cod c) in
      if forallb (fun l => match nth l bends None with Some _ => true | None => false end) bending then POk (Some (c_cod c, c_dom c, bends))
      else PErr NeedBendRight.
