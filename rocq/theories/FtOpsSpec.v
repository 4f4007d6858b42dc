(** Diagonal tensors of the fusion tree backend, and what the matrix decompositions of the block backend promise (C58, C59). *)
From Verif Require Import Util RowModel GridModel GridProofs SymModel CatSpec SpaceModel TensorModel BlockModel ConvertSpec.
Set Implicit Arguments. Unset Strict Implicit.
Open Scope nat_scope.

Section Spec.
  Variable K : Type.
  Variable o : ops K.
  Notation block := (blk K).
  Notation fdata := (list (nat * nat * blk K)).
  (** the data of a diagonal tensor on [P]: rows (k, k), strictly ascending and in range, with one vector entry per state of the sector *)
  Record diag_ok (P : tprod) (D : fdata) : Prop := {
    go_sorted : StronglySorted lt (map (fun e => snd (fst e)) D);
    go_diag : forall e, In e D -> fst (fst e) = snd (fst e);
    go_range : forall e, In e D -> snd (fst e) < length (tp_secs P);
    go_shape : forall e, In e D -> bshape (snd e) = [nth (snd (fst e)) (tp_mults P) 0];
    go_full : forall e, In e D -> length (bdata (snd e)) = prod (bshape (snd e));
  }.
  (** entry [x] of the diagonal in coupled sector [c]; a missing vector is zero *)
  Definition diag_entry (P : tprod) (D : fdata) (c : sector) (x : nat) : K :=
    match find (fun e => row_eqb (nth (snd (fst e)) (tp_secs P) []) c) D with Some e => bat o (snd e) [x] | None => o0 o end.

  (** an array with [m] rows and [n] columns; a vector with [n] entries *)
  Definition is_matrix (m n : nat) (B : block) : Prop := bshape B = [m; n] /\ length (bdata B) = prod (bshape B).
  Definition is_vector (n : nat) (B : block) : Prop := bshape B = [n] /\ length (bdata B) = prod (bshape B).
  Definition delta (i j : nat) : K := if i =? j then o1 o else o0 o.
  (** orthonormal columns, orthonormal rows *)
  Definition iso_cols (m k : nat) (q : nat -> nat -> K) : Prop := forall z w, z < k -> w < k -> sumn o m (fun x => omul o (oconj o (q x z)) (q x w)) = delta z w.
  Definition iso_rows (k n : nat) (q : nat -> nat -> K) : Prop := forall z w, z < k -> w < k -> sumn o n (fun y => omul o (q z y) (oconj o (q w y))) = delta z w.
  Definition mat (B : block) (x y : nat) : K := bat o B [x; y].
  Definition vec (B : block) (x : nat) : K := bat o B [x].
  (** the documented results of the block backend for the blocks [blocks] of a tensor: reduced QR, LQ, SVD and the eigendecomposition of a hermitian matrix *)
  Variable blocks : list block.
  Definition qr_contract (f : block -> block * block) : Prop := forall m n B q r, In B blocks -> is_matrix m n B -> f B = (q, r) ->
    let k := Nat.min m n in is_matrix m k q /\ is_matrix k n r /\ iso_cols m k (mat q) /\
    forall x y, x < m -> y < n -> mat B x y = sumn o k (fun z => omul o (mat q x z) (mat r z y)).
  Definition lq_contract (f : block -> block * block) : Prop := forall m n B l q, In B blocks -> is_matrix m n B -> f B = (l, q) ->
    let k := Nat.min m n in is_matrix m k l /\ is_matrix k n q /\ iso_rows k n (mat q) /\
    forall x y, x < m -> y < n -> mat B x y = sumn o k (fun z => omul o (mat l x z) (mat q z y)).
  Definition svd_contract (good : K -> Prop) (f : block -> block * block * block) : Prop := forall m n B u s v, In B blocks -> is_matrix m n B -> f B = (u, s, v) ->
    let k := Nat.min m n in is_matrix m k u /\ is_vector k s /\ is_matrix k n v /\ iso_cols m k (mat u) /\ iso_rows k n (mat v) /\ (forall z, z < k -> good (vec s z)) /\
    forall x y, x < m -> y < n -> mat B x y = sumn o k (fun z => omul o (omul o (mat u x z) (vec s z)) (mat v z y)).
  Definition eigh_contract (good : K -> Prop) (f : block -> block * block) : Prop := forall n B w v, In B blocks -> is_matrix n n B ->
    (forall x y, x < n -> y < n -> mat B x y = oconj o (mat B y x)) -> f B = (w, v) ->
    is_vector n w /\ is_matrix n n v /\ iso_cols n n (mat v) /\ (forall z, z < n -> good (vec w z)) /\
    forall x y, x < n -> y < n -> mat B x y = sumn o n (fun z => omul o (omul o (mat v x z) (vec w z)) (oconj o (mat v y z))).
End Spec.
