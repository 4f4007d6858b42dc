(** Model of the index/grid/permutation helpers (cyten/tools/misc.py and their C++ copies).
    Simplification: indices and shapes are unbounded [nat] (int64 / np.intp in the code). *)
From Verif Require Import Util StableSort RowModel.
Set Implicit Arguments. Unset Strict Implicit.

Definition prod (shape : list nat) : nat := fold_right Nat.mul 1 shape.

(* cyten/tools/misc.py:273-278, src/symmetries/spaces.cpp:2786-2791: F-style loop with running product [stride] *)
Fixpoint fstrides (stride : nat) (shape : list nat) : list nat :=
  match shape with
  | [] => []
  | n :: t => stride :: fstrides (stride * n) t
  end.
(* cyten/tools/misc.py:256-279, src/symmetries/spaces.cpp:2774-2794.
   The C-style loop runs from the last axis to the first, i.e. it is the F-style loop on the reversed shape.
   (The assertion against _MAX_INT is not modelled.) *)
Definition make_stride (shape : list nat) (cstyle : bool) : list nat :=
  if cstyle then rev (fstrides 1 (rev shape)) else fstrides 1 shape.

(* src/symmetries/spaces.cpp:2796-2805 *)
Definition grid_entry (m : nat) (strides shape : list nat) (n : nat) : nat :=
  (m / nth n strides 0) mod nth n shape 0.
Definition grid_row (m : nat) (shape : list nat) (cstyle : bool) : list nat :=
  map (grid_entry m (make_stride shape cstyle) shape) (seq 0 (length shape)).

(* cyten/tools/misc.py:282-331.  np.indices enumerates multi-indices with the last axis fastest. *)
Fixpoint cgrid (shape : list nat) : list (list nat) :=
  match shape with
  | [] => [[]]
  | n :: t => flat_map (fun i => map (cons i) (cgrid t)) (seq 0 n)
  end.
Definition make_grid (shape : list nat) (cstyle : bool) : list (list nat) :=
  if cstyle then cgrid shape else map (@rev nat) (cgrid (rev shape)).

(* src/backends/block_inds.cpp:556-571, one row: the dot product with the strides *)
Fixpoint dot (r s : list nat) : nat :=
  match r, s with
  | i :: r', k :: s' => i * k + dot r' s'
  | _, _ => 0
  end.
Definition pack_row (r s : list nat) : nat := dot r s.

(* cyten/tools/misc.py:200-203, src/symmetries/spaces.cpp:40-51, fusion_tree_permute.cpp:15-23: inv[perm[i]] = i *)
Definition inverse_permutation (perm : list nat) : list nat :=
  fold_left (fun inv i => upd inv (nth i perm 0) i) (seq 0 (length perm)) (repeat 0 (length perm)).

(* np.argsort(a, stable=True), src/symmetries/spaces.cpp:943-945 *)
Definition argsort (a : list Z) : list nat :=
  stable_sort (fun i j => (nth i a 0 <? nth j a 0)%Z) (seq 0 (length a)).
(* cyten/tools/misc.py:208-237, src/symmetries/spaces.cpp:940-951: ranks[order[i]] = i *)
Definition rank_data (a : list Z) : list nat := inverse_permutation (argsort a).

(* cyten/tools/misc.py:172-174 *)
Definition is_permutation (perm : list nat) : bool :=
  if list_eq_dec Nat.eq_dec (stable_sort Nat.ltb perm) (seq 0 (length perm)) then true else false.

(* cyten/tools/misc.py:160-169 *)
Definition combine_permutations (perms : list (list nat)) (cstyle : bool) : option (list nat) :=
  if forallb is_permutation perms then
    let shape := map (@length nat) perms in
    let strides := make_stride shape cstyle in
    Some (map (fun idx => dot (map (fun pi => nth (snd pi) (fst pi) 0) (combine perms idx)) strides)
              (make_grid shape cstyle))
  else None.

(* src/backends/fusion_tree_permute.cpp:28-37, misc.py:76-78: the input check *)
Definition is_perm_check (p : list nat) : bool :=
  Nat.eqb (length (nodup Nat.eq_dec p)) (length p) && forallb (fun x => x <? length p) p.

(* fusion_tree_permute.cpp:45-47 / misc.py:83: swaps current_pos-1, ..., target_pos *)
Definition swaps_down (target current : nat) : list nat := rev (seq target (current - target)).
(* fusion_tree_permute.cpp:48-57 / misc.py:85-86: the array [perm] built for one target position *)
Definition roll_entry (target current x : nat) : nat :=
  if (target <=? x) && (x <? current) then S x
  else if (target <=? x) && (x =? current) then target else x.

(* fusion_tree_permute.cpp:42-64 / misc.py:79-88: loop over target positions 0 .. N-2 *)
Fixpoint swaps_loop (n : nat) (target : nat) (permutation current_positions : list nat) : list nat :=
  match n with
  | 0 => []
  | S n' =>
    let original_pos := nth target permutation 0 in
    let current_pos := nth original_pos current_positions 0 in
    swaps_down target current_pos ++
    swaps_loop n' (S target) permutation (map (roll_entry target current_pos) current_positions)
  end.
(* fusion_tree_permute.cpp:25-66, cyten/tools/misc.py:59-88 *)
Definition permutation_as_swaps (permutation : list nat) : option (list nat) :=
  if is_perm_check permutation then
    Some (swaps_loop (length permutation - 1) 0 permutation (seq 0 (length permutation)))
  else None.

(** ** Specification vocabulary *)
(** performing a swap of the neighbouring entries j and j+1 *)
Fixpoint swap_at {A} (j : nat) (l : list A) : list A :=
  match j, l with
  | 0, x :: y :: t => y :: x :: t
  | S j', x :: t => x :: swap_at j' t
  | _, _ => l
  end.
Definition do_swaps {A} (l : list A) (js : list nat) : list A := fold_left (fun l j => swap_at j l) js l.

(** a multi-index within a shape *)
Definition valid_idx (shape r : list nat) : Prop := Forall2 (fun i n => i < n) r shape.
