(** Model of PermuteLegsInstructionEngine (src/backends/fusion_tree_permute.cpp) and of the flattening of leg pipes in
    FusionTreeBackend::permute_legs (src/backends/fusion_tree_backend.cpp:1440-1528).
    int64 is modelled by nat (and Z where negative indices occur); assert, throw and out-of-bounds accesses become errors. *)
From Coq Require Import ZArith List Bool.
From Verif Require Import Util StableSort GridModel.
Import ListNotations.
Set Implicit Arguments. Unset Strict Implicit.
Open Scope nat_scope.

(* fusion_tree_mapping.h:17-41 *)
Inductive instruction :=
| Braid (codomain : bool) (idx : nat) (overbraid : bool)
| Bend (bend_down : bool)
| Twist (codomain : bool) (idcs : list nat) (overtwist : bool).
(* fusion_tree_permute.h:10-15 *)
Inductive should := SNone | SLeft | SRight.
Definition should_eqb (a b : should) : bool := match a, b with SNone, SNone | SLeft, SLeft | SRight, SRight => true | _, _ => false end.

(** EAssert: a failed assert, EBounds: undefined behaviour / out_of_range, EBadOptional: value() of an empty optional,
    EInvalid: permutation_as_swaps on a non-permutation, EChirality: BraidChiralityUnspecifiedError *)
Inductive eerror := EAssert | EBounds | EBadOptional | EInvalid | EChirality.
Inductive res (A : Type) := Ok (a : A) | Err (e : eerror).
Arguments Err {A} e.

(* fusion_tree_permute.h:21-30; [num_legs] and [has_symmetric_braid] never change *)
Record engine := Engine {
  num_codomain_legs : nat; num_domain_legs : nat;
  target_positions : list (option nat); should_bend : list should; levels : list (option Z);
  instructions : list instruction }.

Definition M (A : Type) := engine -> res (A * engine).
Definition ret A (a : A) : M A := fun st => Ok (a, st).
Definition err A (e : eerror) : M A := fun _ => Err e.
Definition bind A B (m : M A) (f : A -> M B) : M B := fun st => match m st with Ok (a, st') => f a st' | Err e => Err e end.
Definition get : M engine := fun st => Ok (st, st).
Definition put (st : engine) : M unit := fun _ => Ok (tt, st).
Notation "x <- m ;; f" := (bind m (fun x => f)) (at level 100, m at next level, right associativity).
Notation "m ;;; f" := (bind m (fun _ => f)) (at level 100, right associativity).
Fixpoint for_each A (l : list A) (f : A -> M unit) : M unit := match l with [] => ret tt | x :: t => f x ;;; for_each t f end.
Definition check (b : bool) : M unit := if b then ret tt else err _ EAssert.

(* src/tools.cpp:51-60 *)
Definition to_valid_idx (idx : Z) (length : nat) : option nat :=
  let n := Z.of_nat length in
  if (idx <? - n)%Z || (n <=? idx)%Z then None else Some (Z.to_nat (if (idx <? 0)%Z then idx + n else idx)).

Section Engine.
  Variable num_legs : nat.
  Variable has_symmetric_braid : bool.

  (* fusion_tree_permute.cpp:195-209 *)
  Definition compare_levels (idx_1 idx_2 : nat) : M bool :=
    if has_symmetric_braid then ret true else
    st <- get ;;
    match nth idx_1 (levels st) None, nth idx_2 (levels st) None with
    | Some l1, Some l2 => if (l1 =? l2)%Z then err _ EChirality else ret (l2 <? l1)%Z
    | _, _ => err _ EChirality
    end.

  (* fusion_tree_permute.cpp:398-419; idx + 1 >= num_legs would access the arrays out of bounds *)
  Definition swap (idx : Z) (over : option bool) : M unit :=
    match to_valid_idx idx num_legs with
    | None => err _ EBounds
    | Some idx =>
      if num_legs <=? idx + 1 then err _ EBounds else
      over_val <- match over with Some b => ret b | None => compare_levels idx (idx + 1) end ;;
      st <- get ;;
      let inst := if idx <? num_codomain_legs st then Braid true idx over_val else Braid false (num_legs - 2 - idx) over_val in
      check (if idx <? num_codomain_legs st then idx + 1 <? num_codomain_legs st else true) ;;;
      put (Engine (num_codomain_legs st) (num_domain_legs st) (swap_at idx (target_positions st)) (swap_at idx (should_bend st))
                  (swap_at idx (levels st)) (instructions st ++ [inst]))
    end.

  (* fusion_tree_permute.cpp:370-396 *)
  Definition move_leg (start goal : Z) (over : option bool) : M unit :=
    match to_valid_idx start num_legs, to_valid_idx goal num_legs with
    | Some start, Some goal =>
      st <- get ;;
      check (Bool.eqb (start <? num_codomain_legs st) (goal <? num_codomain_legs st)) ;;;
      if start <? goal then for_each (seq start (goal - start)) (fun j => swap (Z.of_nat j) over)
      else for_each (rev (seq goal (start - goal))) (fun j => swap (Z.of_nat j) (option_map negb over))
    | _, _ => err _ EBounds
    end.

  (* fusion_tree_permute.cpp:353-368 *)
  Definition bend (bend_down : bool) : M unit :=
    st <- get ;;
    let c := num_codomain_legs st in
    if bend_down then
      if num_legs <=? c then err _ EBounds else
      check (negb (should_eqb (nth c (should_bend st) SNone) SNone)) ;;;
      put (Engine (c + 1) (num_domain_legs st - 1) (target_positions st) (upd (should_bend st) c SNone) (levels st) (instructions st ++ [Bend true]))
    else
      if c =? 0 then err _ EBounds else
      check (negb (should_eqb (nth (c - 1) (should_bend st) SNone) SNone)) ;;;
      put (Engine (c - 1) (num_domain_legs st + 1) (target_positions st) (upd (should_bend st) (c - 1) SNone) (levels st) (instructions st ++ [Bend false])).

  Definition emit (i : instruction) : M unit :=
    st <- get ;; put (Engine (num_codomain_legs st) (num_domain_legs st) (target_positions st) (should_bend st) (levels st) (instructions st ++ [i])).

  (* fusion_tree_permute.cpp:219-224 / 226-231: the loops carry the number of legs moved so far *)
  Fixpoint gather_left (legs : list nat) (num_left_bends : nat) : M nat :=
    match legs with
    | [] => ret num_left_bends
    | leg :: t =>
      st <- get ;;
      if should_eqb (nth leg (should_bend st) SNone) SLeft
      then move_leg (Z.of_nat leg) (Z.of_nat num_left_bends) None ;;; gather_left t (num_left_bends + 1)
      else gather_left t num_left_bends
    end.
  Fixpoint gather_right (legs : list nat) (num_right_bends : nat) : M nat :=
    match legs with
    | [] => ret num_right_bends
    | leg :: t =>
      st <- get ;;
      if should_eqb (nth leg (should_bend st) SNone) SRight
      then move_leg (Z.of_nat leg) (Z.of_nat (num_codomain_legs st) - 1 - Z.of_nat num_right_bends) None ;;; gather_right t (num_right_bends + 1)
      else gather_right t num_right_bends
    end.
  (* fusion_tree_permute.cpp:211-233 *)
  Definition do_initial_codomain_permutation : M (nat * nat) :=
    st <- get ;;
    l <- gather_left (seq 0 (num_codomain_legs st)) 0 ;;
    r <- gather_right (rev (seq 0 (num_codomain_legs st))) 0 ;;
    ret (l, r).

  (* fusion_tree_permute.cpp:235-263 *)
  Definition do_codomain_bends (num_left_bends num_right_bends : nat) : M unit :=
    for_each (seq 0 num_right_bends) (fun _ => bend false) ;;;
    (if 0 <? num_left_bends then emit (Twist true (seq 0 num_left_bends) true) else ret tt) ;;;
    for_each (rev (seq 0 num_left_bends)) (fun n =>
      st <- get ;;
      move_leg (Z.of_nat n) (Z.of_nat (num_codomain_legs st) - 1) (Some true) ;;;
      bend false ;;;
      st <- get ;;
      move_leg (Z.of_nat (num_codomain_legs st)) (Z.of_nat n - Z.of_nat num_left_bends) (Some true)).

  (* fusion_tree_permute.cpp:265-314; std::sort on pairwise different keys is modelled by a stable sort *)
  Definition do_domain_permutation : M (nat * nat) :=
    st <- get ;;
    let c := num_codomain_legs st in
    let all := seq 0 num_legs in
    let is s i := should_eqb (nth i (should_bend st) SNone) s in
    let right := filter (is SRight) all in
    let remain := filter (is SNone) (seq c (num_legs - c)) in
    let key i := nth i (target_positions st) None in
    if negb (forallb (fun i => match key i with Some _ => true | None => false end) remain) then err _ EBounds else
    let lt a b := match key (nth a remain 0), key (nth b remain 0) with Some x, Some y => x <? y | _, _ => false end in
    let order := stable_sort lt (seq 0 (length remain)) in
    let left := filter (is SLeft) all in
    let perm := seq 0 c ++ right ++ map (fun n => nth n remain 0) order ++ left in
    match permutation_as_swaps perm with
    | None => err _ EInvalid
    | Some swaps => for_each swaps (fun j => swap (Z.of_nat j) None) ;;; ret (length left, length right)
    end.

  (* fusion_tree_permute.cpp:316-336 *)
  Definition do_domain_bends (num_left_bends num_right_bends : nat) : M unit :=
    for_each (seq 0 num_right_bends) (fun _ => bend true) ;;;
    (if 0 <? num_left_bends then emit (Twist false (seq 0 num_left_bends) false) else ret tt) ;;;
    for_each (rev (seq 0 num_left_bends)) (fun n =>
      st <- get ;;
      move_leg (-1 - Z.of_nat n) (Z.of_nat (num_codomain_legs st)) (Some true) ;;;
      bend true ;;;
      st <- get ;;
      move_leg (Z.of_nat (num_codomain_legs st) - 1) (Z.of_nat num_left_bends - 1 - Z.of_nat n) (Some true)).

  (* fusion_tree_permute.cpp:338-351; inverse_permutation (16-24) would write out of bounds on entries that are too large *)
  Definition do_final_codomain_permutation : M unit :=
    st <- get ;;
    let keys := map (fun j => nth j (target_positions st) None) (seq 0 (num_codomain_legs st)) in
    if negb (forallb (fun k => match k with Some x => x <? num_codomain_legs st | None => false end) keys) then err _ EBounds else
    let target_cod := map (fun k => match k with Some x => x | None => 0 end) keys in
    match permutation_as_swaps (inverse_permutation target_cod) with
    | None => err _ EInvalid
    | Some swaps => for_each swaps (fun j => swap (Z.of_nat j) None)
    end.

  (* fusion_tree_permute.cpp:106-132 *)
  Definition evaluate_instructions : M (list instruction) :=
    st <- get ;;
    check (match instructions st with [] => true | _ => false end) ;;;
    lr <- do_initial_codomain_permutation ;;
    do_codomain_bends (fst lr) (snd lr) ;;;
    lr <- do_domain_permutation ;;
    do_domain_bends (fst lr) (snd lr) ;;;
    do_final_codomain_permutation ;;;
    st <- get ;;
    check (forallb (fun i => match nth i (target_positions st) None with Some t => t =? i | None => false end) (seq 0 (length (target_positions st)))) ;;;
    check (forallb (fun b => should_eqb b SNone) (should_bend st)) ;;;
    ret (instructions st).
End Engine.

(* fusion_tree_permute.cpp:83-91 / 92-103: the loops of the constructor *)
Fixpoint place (idcs : list nat) (target : nat -> nat) (bends : nat -> bool) (bend_right : list (option bool)) (k num_legs : nat)
    (tp : list (option nat)) (sb : list should) : res (list (option nat) * list should) :=
  match idcs with
  | [] => Ok (tp, sb)
  | old_idx :: t =>
    if num_legs <=? old_idx then Err EBounds else
    let tp := upd tp old_idx (Some (target k)) in
    if bends old_idx then
      match nth old_idx bend_right None with
      | None => Err EBadOptional
      | Some r => place t target bends bend_right (k + 1) num_legs tp (upd sb old_idx (if r then SRight else SLeft))
      end
    else place t target bends bend_right (k + 1) num_legs tp sb
  end.
(* fusion_tree_permute.cpp:68-104 *)
Definition make_engine (nc nd : nat) (codomain_idcs domain_idcs : list nat) (levels : list (option Z)) (bend_right : list (option bool)) : res engine :=
  let n := nc + nd in
  match place codomain_idcs (fun k => k) (fun i => nc <=? i) bend_right 0 n (repeat None n) (repeat SNone n) with
  | Err e => Err e
  | Ok (tp, sb) =>
    match place domain_idcs (fun k => n - 1 - k) (fun i => i <? nc) bend_right 0 n tp sb with
    | Err e => Err e
    | Ok (tp, sb) => Ok (Engine nc nd tp sb levels [])
    end
  end.

(* fusion_tree_backend.cpp:1511-1518: the use of the engine in permute_legs *)
Definition permute_instructions (nc nd : nat) (codomain_idcs domain_idcs : list nat) (levels : list (option Z)) (bend_right : list (option bool))
    (has_symmetric_braid : bool) : res (list instruction) :=
  match make_engine nc nd codomain_idcs domain_idcs levels bend_right with
  | Err e => Err e
  | Ok st => match evaluate_instructions (nc + nd) has_symmetric_braid st with Ok (l, _) => Ok l | Err e => Err e end
  end.

(* fusion_tree_backend.cpp:1451-1508: flat indices of the legs; [pipes]: the number of flat legs of each leg (1 if it is not a pipe) *)
Fixpoint flat_groups (pipes : list nat) (flat_index : nat) : list (list nat) :=
  match pipes with [] => [] | num :: t => seq flat_index num :: flat_groups t (flat_index + num) end.
Definition flat_values A (pipes : list nat) (v : list A) : list A := flat_map (fun p => repeat (snd p) (fst p)) (combine pipes v).
Definition flat_codomain_idcs (pipes codomain_idcs : list nat) : list nat :=
  flat_map (fun idx => nth idx (flat_groups pipes 0) []) codomain_idcs.
Definition flat_domain_idcs (pipes domain_idcs : list nat) : list nat :=
  flat_map (fun idx => rev (nth idx (flat_groups pipes 0) [])) domain_idcs.
