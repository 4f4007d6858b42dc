(** SU(2) and SU(2)_k fusion rules. *)
From Verif Require Import Util RowModel SymModel AbelianModel.
Set Implicit Arguments.
Unset Strict Implicit.
Open Scope Z_scope.

(** the loop shared by su2.cpp:70-75 and su2_k_anyon_category.cpp:212-217:
    n = (hi - lo) / 2 + 1 entries  lo + 2 i   (C division truncates: [Z.quot]) *)
Definition ap_list (lo hi : Z) : list sector :=
  map (fun i => [lo + 2 * Z.of_nat i]) (seq 0 (Z.to_nat (Z.quot (hi - lo) 2 + 1))).

(** su2.cpp:60-76 with the int16 casts as in the code.  A negative [n] is cast to an enormous
    size_t, i.e. the allocation throws: [None]. *)
Definition su2_outcomes_machine (a b : sector) : option (list sector) :=
  let jj_min := to_i16 (Z.abs (q0 a - q0 b)) in
  let jj_max := to_i16 (q0 a + q0 b) in
  let n := Z.quot (jj_max - jj_min) 2 + 1 in
  if n <? 0 then None
  else Some (map (fun i => [to_i16 (jj_min + to_i16 (2 * Z.of_nat i))]) (seq 0 (Z.to_nat n))).

(** su2.cpp:40-44, 60-76 (without the int16 wrap-around, see C11_machine), 87-94, 132-151 *)
Definition SU2 : symmetry := {|
  sym_len := 1;
  sym_valid := fun a => len1 a && (0 <=? q0 a);
  sym_trivial := [0];
  sym_outcomes := fun a b => ap_list (Z.abs (q0 a - q0 b)) (q0 a + q0 b);
  sym_n := fun _ _ _ => 1%nat;
  sym_dual := fun a => a;
  sym_dim := fun a => Z.to_nat (q0 a + 1);
|}.

(** su2.cpp:78-85: override of can_fuse_to ([%] is C's remainder) *)
Definition su2_can_fuse_to (a b c : sector) : bool :=
  (q0 c <=? q0 a + q0 b) && (q0 a <=? q0 b + q0 c) && (q0 b <=? q0 c + q0 a) &&
  (Z.rem (q0 a + q0 b + q0 c) 2 =? 0).

(** su2.cpp:165-172 and 180-192 *)
Definition su2_frobenius_schur (a : sector) : Z := 1 - 2 * Z.rem (q0 a) 2.
Definition su2_R (a b c : sector) : Z := 1 - Z.rem (q0 a + q0 b - q0 c) 4.

(** su2_k_anyon_category.cpp:184-188, 205-218, 243-259.  No sector_dim (anyonic): 0. *)
Definition su2k_outcomes (k : Z) (a b : sector) : list sector :=
  let upper := Z.min (q0 a + q0 b) (2 * k - q0 a - q0 b) in
  let lower := Z.abs (q0 a - q0 b) in
  map (fun i => [to_i16 (lower + 2 * Z.of_nat i)]) (seq 0 (Z.to_nat (Z.quot (upper - lower) 2 + 1))).
Definition SU2_k (k : Z) : symmetry := {|
  sym_len := 1;
  sym_valid := fun a => len1 a && int16b (q0 a) && ((0 <=? q0 a) && (q0 a <=? k));
  sym_trivial := [0];
  sym_outcomes := su2k_outcomes k;
  sym_n := fun _ _ _ => 1%nat;
  sym_dual := fun a => a;
  sym_dim := fun _ => 0%nat;
|}.
(** su2_k_anyon_category.cpp:46-67: the constructor throws for k < 1 *)
Definition SU2_k_new (k : Z) : option symmetry := if k <? 1 then None else Some (SU2_k k).
(** su2_k_anyon_category.cpp:360-368 *)
Definition su2k_all_sectors (k : Z) : list sector :=
  map (fun i => [to_i16 (Z.of_nat i)]) (seq 0 (Z.to_nat (k + 1))).
