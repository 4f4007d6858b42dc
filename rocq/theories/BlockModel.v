(** Dense blocks (arrays) and the block-backend operations the abelian backend uses.
    A block is a shape with its entries in C order (last axis fastest), as NumPy stores them; scalars are an arbitrary type with
    ring operations (the code uses floating point numbers and performs dtype conversions, neither is modelled).
    Array-library primitives (np.transpose, np.tensordot, np.dot, np.trace, slicing) are modelled by their documented result. *)
From Verif Require Import Util RowModel GridModel SymModel CatSpec.
Set Implicit Arguments. Unset Strict Implicit.
Open Scope nat_scope.

Record blk (K : Type) := Blk { bshape : list nat; bdata : list K }.

Section Blocks.
  Variable K : Type.
  Variable o : ops K.
  Notation block := (blk K).

  (* numpy.cpp:1209-1216 get_block_element: a[tuple(idcs)] *)
  Definition bat (B : block) (r : list nat) : K := nth (dot r (make_stride (bshape B) true)) (bdata B) (o0 o).
  (** the array of shape [shape] with entries [f r] *)
  Definition bmk (shape : list nat) (f : list nat -> K) : block := Blk shape (map f (make_grid shape true)).
  Definition bndim (B : block) : nat := length (bshape B).
  (* np.zeros *)
  Definition bzeros (shape : list nat) : block := bmk shape (fun _ => o0 o).
  (* np.reshape: same entries in C order *)
  Definition breshape (B : block) (shape : list nat) : block := Blk shape (bdata B).
  (* numpy.cpp:924-930: np.transpose(a, perm): axis k of the result is axis perm[k] of a *)
  Definition btranspose (B : block) (perm : list nat) : block :=
    bmk (take 0 (bshape B) perm) (fun r => bat B (take 0 r (inverse_permutation perm))).
  Definition bconj (B : block) : block := Blk (bshape B) (map (oconj o) (bdata B)).
  (* block_backend.cpp:838-848 *)
  Definition bdagger (B : block) : block := bconj (btranspose B (rev (seq 0 (bndim B)))).
  (* numpy.cpp:915-922: np.tensordot(a, b, ((), ())) *)
  Definition bouter (A B : block) : block :=
    bmk (bshape A ++ bshape B) (fun r => omul o (bat A (firstn (bndim A) r)) (bat B (skipn (bndim A) r))).
  (* block_backend.cpp:993-1010 *)
  Definition btensor_outer (A B : block) (k : nat) : block :=
    let n := bndim A in let m := bndim B in
    btranspose (bouter A B) (seq 0 k ++ seq n m ++ seq k (n - k)).
  (* numpy.cpp:815-843, block_backend.cpp:1083-1098: full contraction, axis k of a with axis k (dagger) or ndim-1-k of b *)
  Definition binner (A B : block) (do_dagger : bool) : K :=
    osum o (map (fun r => if do_dagger then omul o (oconj o (bat A r)) (bat B r) else omul o (bat A r) (bat B (rev r)))
                (make_grid (bshape A) true)).
  (* numpy.cpp:1218-1225 np.dot for b of one or two dimensions: contracts the last axis of a with the first of b *)
  Definition bdot (A B : block) : block :=
    bmk (removelast (bshape A) ++ tl (bshape B))
        (fun r => sumn o (last (bshape A) 0)
                    (fun k => omul o (bat A (firstn (bndim A - 1) r ++ [k])) (bat B (k :: skipn (bndim A - 1) r)))).
  (* operator+ of two blocks of equal shape *)
  Definition badd (A B : block) : block := Blk (bshape A) (map (fun xy => oadd o (fst xy) (snd xy)) (combine (bdata A) (bdata B))).
  (* numpy.cpp:1367-1372, block_backend.cpp:693-697 *)
  Definition bmul (a : K) (B : block) : block := Blk (bshape B) (map (omul o a) (bdata B)).
  (* numpy.cpp:1357-1365, block_backend.cpp:682-691 *)
  Definition blincomb (a : K) (V : block) (b : K) (W : block) : block := badd (bmul a V) (bmul b W).
  (* numpy.cpp:1374-1386: a * factors[None, .., :, .., None] *)
  Definition bscale_axis (B factors : block) (axis : nat) : block :=
    bmk (bshape B) (fun r => omul o (bat B r) (bat factors [nth axis r 0])).
  (* np.eye *)
  Definition beye (n : nat) : block := bmk [n; n] (fun r => if nth 0 r 0 =? nth 1 r 0 then o1 o else o0 o).
  (* block_backend.cpp:1012-1031 *)
  Definition beye_block (legs : list nat) : block :=
    let j := length legs in
    btranspose (breshape (beye (prod legs)) (legs ++ legs)) (seq 0 j ++ rev (seq j j)).
  (* np.trace(a, axis1=-2, axis2=-1) *)
  Definition btrace (B : block) : block :=
    let n := bndim B - 2 in
    bmk (firstn n (bshape B)) (fun r => sumn o (Nat.min (nth n (bshape B) 0) (nth (n + 1) (bshape B) 0)) (fun k => bat B (r ++ [k; k]))).
  (* numpy.cpp:1140-1164 *)
  Definition btrace_full (B : block) : K :=
    let num_trace := bndim B / 2 in
    let trace_dim := prod (firstn num_trace (bshape B)) in
    let perm := seq 0 num_trace ++ rev (seq num_trace num_trace) in
    bat (btrace (breshape (btranspose B perm) [trace_dim; trace_dim])) [].
  (* numpy.cpp:1166-1196 *)
  Definition btrace_partial (B : block) (idcs1 idcs2 remaining : list nat) : block :=
    let arr := btranspose B (remaining ++ idcs1 ++ idcs2) in
    let trace_dim := prod (take 0 (bshape B) idcs1) in
    btrace (breshape arr (firstn (length remaining) (bshape arr) ++ [trace_dim; trace_dim])).
  (* abelian.cpp:231-235 with a tuple of slices start:stop *)
  Definition bslice (B : block) (starts stops : list nat) : block :=
    bmk (map (fun p => snd p - fst p) (combine starts stops)) (fun r => bat B (map (fun p => fst p + snd p) (combine starts r))).
  (* abelian.cpp:237-241 with a tuple of slices: b[start:stop, ..] = v *)
  Definition bset_slice (B : block) (starts stops : list nat) (V : block) : block :=
    bmk (bshape B) (fun r =>
      if forallb (fun p => (fst (fst p) <=? snd p) && (snd p <? snd (fst p))) (combine (combine starts stops) r)
      then bat V (map (fun p => snd p - fst p) (combine starts r)) else bat B r).
  (* abelian.cpp:243-247 *)
  Definition bset_add (B : block) (starts stops : list nat) (V : block) : block :=
    bset_slice B starts stops (badd (bslice B starts stops) V).

  (** block_backend.cpp:784-829: the groups must be contiguous, ascending and disjoint.
      The loop over groups with the running [last_stop], building [new_shape] and [axes_perm]. *)
  Fixpoint combine_loop (old_shape : list nat) (last_stop : nat) (groups : list (list nat * bool)) : option (list nat * list nat) :=
    match groups with
    | [] => Some (skipn last_stop old_shape, seq last_stop (length old_shape - last_stop))
    | (group, cstyle) :: rest =>
        let start := hd 0 group in let stop := last group 0 + 1 in
        if start <? last_stop then None
        else if negb (if list_eq_dec Nat.eq_dec group (seq start (length group)) then true else false) then None
        else
          match combine_loop old_shape stop rest with
          | None => None
          | Some (shape, perm) =>
              Some (slice old_shape last_stop start ++ prod (slice old_shape start stop) :: shape,
                    seq last_stop (start - last_stop) ++ (if cstyle then seq start (stop - start) else rev (seq start (stop - start))) ++ perm)
          end
    end.
  Definition bcombine_legs (B : block) (groups : list (list nat)) (cstyles : list bool) : option block :=
    match combine_loop (bshape B) 0 (combine groups cstyles) with
    | None => None
    | Some (shape, perm) => Some (breshape (btranspose B perm) shape)
    end.
  (** block_backend.cpp:924-982: [k] axes were already pushed to [new_shape] (= the size of axes_perm) *)
  Fixpoint split_loop (old_shape : list nat) (start k : nat) (groups : list (nat * list nat * bool)) : option (list nat * list nat) :=
    match groups with
    | [] => Some (skipn start old_shape, seq k (length old_shape - start))
    | (i, dims, cstyle) :: rest =>
        if negb (nth i old_shape 0 =? prod dims) then None
        else
          match split_loop old_shape (i + 1) (k + (i - start) + length dims) rest with
          | None => None
          | Some (shape, perm) =>
              Some (slice old_shape start i ++ dims ++ shape,
                    seq k (i - start) ++ (if cstyle then seq (k + (i - start)) (length dims) else rev (seq (k + (i - start)) (length dims))) ++ perm)
          end
    end.
  Definition bsplit_legs (B : block) (idcs : list nat) (dims : list (list nat)) (cstyles : list bool) : option block :=
    if negb ((length idcs =? length dims) && (length idcs =? length cstyles)) then None
    else if negb (forallb (fun i => i <? bndim B) idcs) then None
    else if negb (forallb (fun k => nth k idcs 0 <? nth (k + 1) idcs 0) (seq 0 (length idcs - 1))) then None
    else match split_loop (bshape B) 0 0 (combine (combine idcs dims) cstyles) with
         | None => None
         | Some (shape, perm) => Some (btranspose (breshape B shape) perm)
         end.
End Blocks.
