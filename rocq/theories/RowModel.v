(** Model of [SectorArray] and [BlockInds]: arrays of integer rows of a common width.
    Simplification: entries are unbounded [Z] (int16 for sectors, int64 for block indices in the code); the width is
    not stored separately but is the length of the rows ("all rows have the same length" is an explicit hypothesis
    [same_width] wherever the code's constructor checks it). *)
From Verif Require Import Util StableSort.
Set Implicit Arguments. Unset Strict Implicit.

Notation row := (list Z).

(* src/symmetries/sector_array.cpp:107-115 / src/backends/block_inds.cpp:270-280, the loop over columns n-1 .. 0 *)
Fixpoint cmp_down (k : nat) (a b : row) : comparison :=
  match k with
  | O => Eq
  | S k' => match Z.compare (nth k' a 0%Z) (nth k' b 0%Z) with
            | Eq => cmp_down k' a b
            | c => c
            end
  end.

(* src/symmetries/sector_array.cpp:95-123, src/backends/block_inds.cpp:260-288 *)
Definition cmp_lexsort (a b : row) : comparison :=
  match cmp_down (Nat.min (length a) (length b)) a b with
  | Eq => Nat.compare (length a) (length b)
  | c => c
  end.

Definition row_ltb (a b : row) : bool := match cmp_lexsort a b with Lt => true | _ => false end.

(* src/symmetries/sector_array.cpp:125-134, src/backends/block_inds.cpp:290-299 *)
Definition lexsort_indices (rows : list row) : list nat :=
  stable_sort (fun i j => row_ltb (nth i rows []) (nth j rows [])) (seq 0 (length rows)).

(* src/symmetries/sector_array.cpp:136-141, src/backends/block_inds.cpp:301-306 *)
Definition sorted (rows : list row) : list row * list nat :=
  let perm := lexsort_indices rows in (take [] rows perm, perm).

(* include/cyten/symmetries/sector.h:121-132 *)
Fixpoint row_eqb (a b : row) : bool :=
  match a, b with
  | [], [] => true
  | x :: a', y :: b' => Z.eqb x y && row_eqb a' b'
  | _, _ => false
  end.

(* src/symmetries/sector_array.cpp:156-160, the loop for i = 1 .. n-1, [prev] is row i-1 *)
Fixpoint frd_from {A} (eqb : A -> A -> bool) (i : nat) (prev : A) (l : list A) : list nat :=
  match l with
  | [] => []
  | x :: t => if eqb prev x then frd_from eqb (S i) x t else i :: frd_from eqb (S i) x t
  end.

(* src/symmetries/sector_array.cpp:143-165, src/backends/block_inds.cpp:308-336 *)
Definition frd {A} (eqb : A -> A -> bool) (include_len : bool) (rows : list A) : list nat :=
  match rows with
  | [] => if include_len then [0] else []
  | x :: t => 0 :: frd_from eqb 1 x t ++ (if include_len then [length rows] else [])
  end.
Definition find_row_differences := frd row_eqb.

Definition slice {A} (l : list A) (a b : nat) : list A := firstn (b - a) (skipn a l).

(* src/symmetries/sector_array.cpp:167-194.  [None] models the invalid_argument exception. *)
Definition unique_sorted (rows : list row) (multiplicities : list Z)
  : option (list row * list Z * list nat) :=
  if Nat.eqb (length multiplicities) (length rows) then
    let '(sectors, perm) := sorted rows in
    let mults := take 0%Z multiplicities perm in
    let diffs := find_row_differences true sectors in
    let n_unique := length diffs - 1 in
    Some (map (fun u => nth (nth u diffs 0) sectors []) (seq 0 n_unique),
          map (fun u => zsum (slice mults (nth u diffs 0) (nth (S u) diffs 0))) (seq 0 n_unique),
          perm)
  else None.

(* src/symmetries/sector_array.cpp:196-205, src/backends/block_inds.cpp:338-355: first matching index *)
Fixpoint row_where_from (i : nat) (rows : list row) (s : row) : option nat :=
  match rows with
  | [] => None
  | r :: t => if row_eqb r s then Some i else row_where_from (S i) t s
  end.
Definition row_where (rows : list row) (s : row) : option nat := row_where_from 0 rows s.

(* src/symmetries/sector_array.cpp:248-266 (mask length already checked), block_inds.cpp:409-429 *)
Fixpoint take_mask {A} (l : list A) (mask : list bool) : list A :=
  match l, mask with
  | x :: l', m :: mask' => if m then x :: take_mask l' mask' else take_mask l' mask'
  | _, _ => []
  end.

(* src/backends/block_inds.cpp:445-460, one row *)
Definition take_columns (cols : list nat) (rows : list row) : list row :=
  map (fun r => take 0%Z r cols) rows.

(* src/backends/block_inds.cpp:98-107 *)
Fixpoint is_lexsorted_from (prev : row) (rows : list row) : bool :=
  match rows with
  | [] => true
  | r :: t => match cmp_lexsort prev r with Gt => false | _ => is_lexsorted_from r t end
  end.
Definition is_lexsorted (rows : list row) : bool :=
  match rows with [] => true | r :: t => is_lexsorted_from r t end.

(* src/symmetries/sector_array.cpp:297-314, src/backends/block_inds.cpp:606-623: the while loop at position (i, j),
   with [a], [b] the remaining rows.  (Both flags false is rejected before the loop.) *)
Fixpoint common_walk (a_strict b_strict : bool) (i : nat) (a : list row) {struct a}
  : nat -> list row -> list (nat * nat) :=
  match a with
  | [] => fun _ _ => []
  | x :: a' =>
    fix inner (j : nat) (b : list row) {struct b} : list (nat * nat) :=
      match b with
      | [] => []
      | y :: b' =>
        match cmp_lexsort x y with
        | Lt => common_walk a_strict b_strict (S i) a' j b
        | Gt => inner (S j) b'
        | Eq => (i, j) ::
                match b_strict, a_strict with
                | true, true => common_walk a_strict b_strict (S i) a' (S j) b'
                | true, false => common_walk a_strict b_strict (S i) a' j b
                | false, true => inner (S j) b'
                | false, false => []   (* unreachable: rejected by the check *)
                end
        end
      end
  end.

(* src/symmetries/sector_array.cpp:283-315, src/backends/block_inds.cpp:592-624.  [wa], [wb] are the widths. *)
Definition iter_common_sorted (wa wb : nat) (a b : list row) (a_strict b_strict : bool)
  : option (list (nat * nat)) :=
  if negb a_strict && negb b_strict then None
  else if negb (Nat.eqb wa wb) then None
  else Some (common_walk a_strict b_strict 0 a 0 b).

(* src/backends/block_inds.cpp:635-656 *)
Fixpoint noncommon_walk (i : nat) (a : list row) {struct a}
  : nat -> list row -> list (option nat * option nat) :=
  match a with
  | [] => fun j b => map (fun k => (None, Some k)) (seq j (length b))
  | x :: a' =>
    fix inner (j : nat) (b : list row) {struct b} : list (option nat * option nat) :=
      match b with
      | [] => map (fun k => (Some k, None)) (seq i (length a))
      | y :: b' =>
        match cmp_lexsort x y with
        | Lt => (Some i, None) :: noncommon_walk (S i) a' j b
        | Gt => (None, Some j) :: inner (S j) b'
        | Eq => (Some i, Some j) :: noncommon_walk (S i) a' (S j) b'
        end
      end
  end.

(* src/backends/block_inds.cpp:626-657 *)
Definition iter_common_noncommon_sorted (wa wb : nat) (a b : list row)
  : option (list (option nat * option nat)) :=
  if negb (Nat.eqb wa wb) then None else Some (noncommon_walk 0 a 0 b).

(* src/backends/block_inds.cpp:573-590: binary search (std::lower_bound) in one column, fuelled by the range size *)
Fixpoint searchsorted_loop (fuel : nat) (col : list Z) (value : Z) (lo hi : nat) : nat :=
  match fuel with
  | O => lo
  | S f => if lo <? hi then
             let mid := lo + (hi - lo) / 2 in
             if (nth mid col 0%Z <? value)%Z then searchsorted_loop f col value (mid + 1) hi
             else searchsorted_loop f col value lo mid
           else lo
  end.
Definition searchsorted (col : list Z) (value : Z) : nat :=
  searchsorted_loop (length col) col value 0 (length col).

(** ** Specification vocabulary (independent of the comparator above) *)

(** all rows have width [w] *)
Definition same_width (w : nat) (rows : list row) : Prop := Forall (fun r => length r = w) rows.

(** [lex_lt a b]: same width, and at the LAST column where they differ, [a] is smaller (np.lexsort order). *)
Definition lex_lt (a b : row) : Prop :=
  length a = length b /\
  exists k, k < length a /\ (nth k a 0 < nth k b 0)%Z /\
            forall k', k < k' < length a -> nth k' a 0%Z = nth k' b 0%Z.
Definition lex_le (a b : row) : Prop := lex_lt a b \/ a = b.
Definition strictly_sorted (rows : list row) : Prop := StronglySorted lex_lt rows.
Definition weakly_sorted (rows : list row) : Prop := StronglySorted lex_le rows.
