(** The abelian symmetry factors: no symmetry, U(1), Z_N, fermion parity, fermion number. *)
From Verif Require Import Util RowModel SymModel.
Set Implicit Arguments.
Unset Strict Implicit.
Open Scope Z_scope.

(** element 0 of a sector; [q] is zero initialised (sector.h:31) *)
Definition q0 (a : sector) : Z := nth 0 a 0.
Definition len1 (a : sector) : bool := (length a =? 1)%nat.

(** zn.cpp:12-20 and topo_ones.h:39-47.  [Z.rem] is C's truncated remainder. *)
Definition mod_n (x N : Z) : Z :=
  let r := Z.rem x N in
  to_i16 (if r <? 0 then r + N else r).

(** The batched loops shared by the four factors:
    u1.cpp:40-48, zn.cpp:82-90, fermion_parity.cpp:67-79, fermion_number.cpp:62-70:
    for i < a.size(): out[i][0] = f(a[i][0], b[i][0]) *)
Definition fuse_loop (f : Z -> Z -> Z) (a b : list sector) : list sector :=
  map (fun i => [f (q0 (nth i a [])) (q0 (nth i b []))]) (seq 0 (length a)).

(** u1.cpp:50-60, zn.cpp:92-102, fermion_parity.cpp:81-91, fermion_number.cpp:72-82:
    out = sectors[0]; for s >= 1: for i: out[i][0] = f(out[i][0], sectors[s][i][0]) *)
Definition multi_fuse_loop (f : Z -> Z -> Z) (l : list (list sector)) : list sector :=
  match l with
  | [] => []
  | out :: rest => fold_left (fuse_loop f) rest out
  end.

(** u1.cpp:30-38 (and zn.cpp:72-80, fermion_parity.cpp:57-65, fermion_number.cpp:52-60):
    a batch of size one *)
Definition single_outcomes (f : Z -> Z -> Z) (a b : sector) : list sector :=
  fuse_loop f [a] [b].

(** u1.cpp:68-76, zn.cpp:110-118, fermion_number.cpp:114-122 *)
Definition dual_loop (d : Z -> Z) (l : list sector) : list sector :=
  map (fun i => [d (q0 (nth i l []))]) (seq 0 (length l)).

(** ** U(1): u1.cpp:18-76; abelian_group.cpp:39-55 for dimension and N symbol *)
Definition u1_fuse (x y : Z) : Z := to_i16 (x + y).
Definition u1_dual (x : Z) : Z := to_i16 (- x).
Definition U1 : symmetry := {|
  sym_len := 1;
  sym_valid := fun a => len1 a && int16b (q0 a);
  sym_trivial := [0];
  sym_outcomes := single_outcomes u1_fuse;
  sym_n := fun _ _ _ => 1%nat;
  sym_dual := fun a => [u1_dual (q0 a)];
  sym_dim := fun _ => 1%nat;
|}.
(** u1.cpp:24-28: only the row length is inspected *)
Definition U1_are_valid (w : nat) (l : list sector) : bool := (w =? 1)%nat.

(** ** Z_N: zn.cpp:37-118.  The constructor throws for N <= 1. *)
Definition zn_fuse (N x y : Z) : Z := mod_n (x + y) N.
Definition zn_dual (N x : Z) : Z := mod_n (- x) N.
Definition ZN (N : Z) : symmetry := {|
  sym_len := 1;
  sym_valid := fun a => len1 a && int16b (q0 a) && ((0 <=? q0 a) && (q0 a <? N));
  sym_trivial := [0];
  sym_outcomes := single_outcomes (zn_fuse N);
  sym_n := fun _ _ _ => 1%nat;
  sym_dual := fun a => [zn_dual N (q0 a)];
  sym_dim := fun _ => 1%nat;
|}.
Definition ZN_new (N : Z) : option symmetry := if N <=? 1 then None else Some (ZN N).
(** zn.cpp:120-128 *)
Definition ZN_all_sectors (N : Z) : list sector :=
  map (fun i => [to_i16 (Z.of_nat i)]) (seq 0 (Z.to_nat N)).

(** ** fermion parity: fermion_parity.cpp:36-139 *)
Definition fp_fuse (x y : Z) : Z := mod_n (x + y) 2.
Definition FermionParity : symmetry := {|
  sym_len := 1;
  sym_valid := fun a => len1 a && int16b (q0 a) && ((0 <=? q0 a) && (q0 a <? 2));
  sym_trivial := [0];
  sym_outcomes := single_outcomes fp_fuse;
  sym_n := fun _ _ _ => 1%nat;
  sym_dual := fun a => a;
  sym_dim := fun _ => 1%nat;
|}.
(** fermion_parity.cpp:15-19, 185-205, 225-230.  F is 1 (141-150).  Symbols are integers. *)
Definition fp_sign (a b : Z) : Z := 1 - 2 * a * b.
Definition fp_R (a b c : sector) : Z := fp_sign (q0 a) (q0 b).
Definition fp_F (a b c d e f : sector) : Z := 1.
Definition fp_C (a b c d e f : sector) : Z := fp_sign (q0 e) (q0 c) * fp_sign (q0 a) (q0 c).
Definition fp_twist (a : sector) : Z := 1 - 2 * q0 a.
Definition fp_swap_gate (a b : sector) : Z := fp_sign (q0 a) (q0 b).

(** ** fermion number: fermion_number.cpp:40-128 *)
Definition FermionNumber : symmetry := {|
  sym_len := 1;
  sym_valid := fun a => len1 a && int16b (q0 a);
  sym_trivial := [0];
  sym_outcomes := single_outcomes u1_fuse;
  sym_n := fun _ _ _ => 1%nat;
  sym_dual := fun a => [u1_dual (q0 a)];
  sym_dim := fun _ => 1%nat;
|}.
(** fermion_number.cpp:13-23, 174-194, 214-222 *)
Definition fn_sign (a b : Z) : Z := 1 - 2 * mod_n a 2 * mod_n b 2.
Definition fn_R (a b c : sector) : Z := fn_sign (q0 a) (q0 b).
Definition fn_F (a b c d e f : sector) : Z := 1.
Definition fn_C (a b c d e f : sector) : Z := fn_sign (q0 c) (q0 e) * fn_sign (q0 a) (q0 c).
Definition fn_twist (a : sector) : Z := 1 - 2 * mod_n (q0 a) 2.

(** ** no symmetry: no_symmetry.cpp:14-64 *)
Definition NoSymmetry : symmetry := {|
  sym_len := 1;
  sym_valid := fun a => len1 a && (q0 a =? 0);
  sym_trivial := [0];
  sym_outcomes := fun a _ => [a];
  sym_n := fun _ _ _ => 1%nat;
  sym_dual := fun a => a;
  sym_dim := fun _ => 1%nat;
|}.
