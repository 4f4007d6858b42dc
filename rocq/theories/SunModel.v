(** Model of the parts of SUN (src/symmetries/factors/sun.cpp) that do not read the external HDF5 tables.
    Fusion outcomes, N symbols and F/R symbols are looked up in user supplied files and are not modelled;
    only the lookup *key* is ([irrep_key]). *)
From Coq Require Import String DecimalString.
From Flocq Require Import Core BinarySingleNaN.
From Verif Require Import Util RowModel SymModel.
Set Implicit Arguments. Unset Strict Implicit.
Open Scope Z_scope.

(* sun.cpp:125-129: 2 <= N <= max_sector_ind_len = 7 (include/cyten/symmetries/sector.h:21) *)
Definition sun_constructible (N : nat) : bool := (2 <=? N)%nat && (N <=? 7)%nat.

(* sun.cpp:94-99 *)
Definition zeros_sector (N : nat) : sector := repeat 0 N.

(* sun.cpp:151-155 *)
Fixpoint non_increasing (a : sector) : bool :=
  match a with
  | x :: ((y :: _) as t) => negb (x <? y) && non_increasing t
  | _ => true
  end.
(* sun.cpp:139-157.  The int16 range of the element type is part of the model's validity. *)
Definition sun_valid (N : nat) (a : sector) : bool :=
  (length a =? N)%nat && forallb int16b a
  && forallb (fun x => negb (x <? 0)) a
  && non_increasing a
  && (nth (length a - 1) a (-1) =? 0).

(* sun.cpp:188-201: maximum, difference to it (wrapped to int16), absolute value, reversed order *)
Definition sun_max (a : sector) : Z := fold_left Z.max (tl a) (hd 0 a).
Definition sun_dual (a : sector) : sector :=
  rev (map (fun x => to_i16 (Z.abs (to_i16 (x - sun_max a)))) a).

(* sun.cpp:246-255 *)
Definition highest_irrep (a b : sector) : sector :=
  map (fun p => to_i16 (fst p + snd p)) (combine a b).

(* The pairs (kp, k) in the order of the loops of sun.cpp:173-174 *)
Definition weyl_pairs (N : nat) : list (nat * nat) :=
  flat_map (fun kp => map (fun k => (kp, k)) (seq 1 (kp - 1))) (seq 2 (N - 1)).

(* IEEE 754 binary64, round to nearest even: the arithmetic of float64 *)
Definition f64 := binary_float 53 1024.
Definition prec53 : Prec_gt_0 53 := eq_refl.
Definition prec53_emax : Prec_lt_emax 53 1024 := eq_refl.
Definition f_of_int (z : Z) : f64 := binary_normalize 53 1024 prec53 prec53_emax mode_NE z 0 false.
Definition fadd : f64 -> f64 -> f64 := @Bplus 53 1024 prec53 prec53_emax mode_NE.
Definition fmul : f64 -> f64 -> f64 := @Bmult 53 1024 prec53 prec53_emax mode_NE.
Definition fdiv : f64 -> f64 -> f64 := @Bdiv 53 1024 prec53 prec53_emax mode_NE.

(* sun.cpp:168-179.  [static_cast<int64>] is truncation. *)
Definition dim_factor (a : sector) (p : nat * nat) : f64 :=
  let '(kp, k) := p in
  fadd (f_of_int 1)
       (fdiv (f_of_int (nth (k - 1) a 0 - nth (kp - 1) a 0)) (f_of_int (Z.of_nat (kp - k)))).
Definition sun_dim_float (N : nat) (a : sector) : f64 :=
  fold_left (fun d p => fmul d (dim_factor a p)) (weyl_pairs N) (f_of_int 1).
Definition sun_dim (N : nat) (a : sector) : Z := Btrunc (sun_dim_float N a).

(* sun.cpp:75-91, [n] can be -1 only for k = 0; the int64 overflow is not modelled *)
Definition binomial_loop (n k : Z) : Z :=
  fold_left (fun r i => r * (n - k + i) / i) (map Z.of_nat (seq 1 (Z.to_nat k))) 1.
Definition sun_binomial (n k : Z) : Z :=
  if (k <? 0) || (n <? k) then 0
  else if (k =? 0) || (k =? n) then 1
  else let k := if n - k <? k then n - k else k in binomial_loop n k.
(* sun.cpp:236-243 *)
Definition S_index (N : nat) (a : sector) : Z :=
  fold_left (fun S k => S + sun_binomial (Z.of_nat (N - k) + nth (k - 1) a 0 - 1) (Z.of_nat (N - k)))
    (seq 1 (N - 1)) 0.

(* std::to_string of an integer *)
Definition to_string (z : Z) : string := NilZero.string_of_int (Z.to_int z).
(* sun.cpp:40-49 *)
Definition sector_concat (a : sector) : string := fold_left (fun s x => (s ++ to_string x)%string) a ""%string.
(* sun.cpp:228 *)
Definition irrep_key (c : sector) : string := ("Irrep" ++ sector_concat c ++ "a1")%string.
(* sun.cpp:27-38 *)
Definition slash_path (a : sector) : string :=
  (String.concat "/" (map to_string a) ++ "/")%string.
(* sun.cpp:66-69 *)
Definition cg_key (N : Z) (a b : sector) : string := ("/N_" ++ to_string N ++ "/" ++ slash_path a ++ slash_path b)%string.
