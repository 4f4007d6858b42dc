(** Model of the numbers that BaseSymmetry derives from the F and R symbols, as exact complex numbers: base_symmetry.cpp:359-445. *)
From Coq Require Import Reals.
From Verif Require Import Util RowModel SymModel CatSpec Cplx Tower TreeModel MoveModel BendSpec.
Set Implicit Arguments. Unset Strict Implicit.
Open Scope R_scope.

Section Code.
  Variable S : symmetry.
  Variable F : Fsym C.
  Variable Rs : Rsym C.
  (** F(a, abar, a, a; 1, 1)[0, 0, 0, 0], the number that frobenius_schur and qdim read: base_symmetry.cpp:362-363, 370-371 *)
  Definition f_loop (a : sector) : C := F a (sym_dual S a) a a (sym_trivial S) (sym_trivial S) 0%nat 0%nat 0%nat 0%nat.
  (** BaseSymmetry::frobenius_schur: base_symmetry.cpp:359-365 *)
  Definition frobenius_schur (a : sector) : C := if Rle_dec 0 (fst (f_loop a)) then C1 else Copp C1.
  (** BaseSymmetry::qdim: base_symmetry.cpp:367-372 *)
  Definition qdim (a : sector) : R := / sqrt (Cnorm2 (f_loop a)).
  (** BaseSymmetry::sqrt_qdim: base_symmetry.cpp:374-378 *)
  Definition sqrt_qdim (a : sector) : C := RtoC (sqrt (qdim a)).
  (** BaseSymmetry::inv_sqrt_qdim: base_symmetry.cpp:380-384 *)
  Definition inv_sqrt_qdim (a : sector) : C := RtoC (/ sqrt (qdim a)).
  (** BaseSymmetry::_b_symbol: base_symmetry.cpp:398-404 *)
  Definition b_symbol : Bsym C := default_b_symbol S Cops F sqrt_qdim.
  (** BaseSymmetry::topological_twist: base_symmetry.cpp:422-445; [trivial_braid], [symmetric_braid]: has_trivial_braid, has_symmetric_braid *)
  Definition twist_number (trivial_braid symmetric_braid : bool) (a : sector) : C :=
    if trivial_braid then C1
    else let res := topological_twist S Cops Rs (fun b => RtoC (qdim b)) (fun b => RtoC (/ qdim b)) a in
         if symmetric_braid then (if Rlt_dec (fst res) 0 then Copp C1 else C1) else res.
End Code.
