(** Specification vocabulary for couplings: operators on the product space of two or three sites. *)
From Coq Require Import Reals ZArith List Arith Lia Bool.
From Verif Require Import Cplx SiteModel SiteSpec CouplingModel.
Import ListNotations.
Set Implicit Arguments. Unset Strict Implicit.
Open Scope nat_scope.

(** the tensor product of an operator with an operator on a space of dimension d1; state (i, j) of the product space has the number i * d1 + j *)
Definition otimes (d1 : nat) (A B : mat) : mat := fun r c => Cmul (A (r / d1) (c / d1)) (B (r mod d1) (c mod d1)).
(** an operator of the first or of the second factor *)
Definition on_left (d1 : nat) (A : mat) : mat := otimes d1 A meye.
Definition on_right (d1 : nat) (B : mat) : mat := otimes d1 meye B.
(** the operator given by a dense block with the legs [p0, p0*] / [p0, p1, p1*, p0*] / [p0, p1, p2, p2*, p1*, p0*] *)
Definition as_operator1 (h : arr) : mat := fun r c => h [r; c].
Definition as_operator2 (d1 : nat) (h : arr) : mat := fun r c => h [r / d1; r mod d1; c mod d1; c / d1].
Definition as_operator3 (d1 d2 : nat) (h : arr) : mat := fun r c =>
  h [r / (d1 * d2); (r / d2) mod d1; r mod d2; c mod d2; (c / d2) mod d1; c / (d1 * d2)].
(** three matrices with the commutation relations of a spin *)
Definition spin_algebra (d : nat) (v : nat -> mat) : Prop :=
  meq d (comm d (v 0) (v 1)) (mscale Ci (v 2)) /\ meq d (comm d (v 1) (v 2)) (mscale Ci (v 0)) /\ meq d (comm d (v 2) (v 0)) (mscale Ci (v 1)).
(** scalar product of two vectors of operators, and their cross product *)
Definition dot (d : nat) (u v : nat -> mat) : mat := madd (madd (mmul d (u 0) (v 0)) (mmul d (u 1) (v 1))) (mmul d (u 2) (v 2)).
Definition vcross (d : nat) (u v : nat -> mat) : nat -> mat := fun axis =>
  match axis with
  | 0 => msub (mmul d (u 1) (v 2)) (mmul d (u 2) (v 1))
  | 1 => msub (mmul d (u 2) (v 0)) (mmul d (u 0) (v 2))
  | _ => msub (mmul d (u 0) (v 1)) (mmul d (u 1) (v 0))
  end.
(** sum of a list of operators *)
Definition opsum (l : list mat) : mat := fold_right madd mzero l.
(** the hermitian conjugate is added *)
Definition plus_hc (A : mat) : mat := madd A (mconjT A).
(** the number of the species named by a python index; valid indices *)
Definition valid_species (n : nat) (k : Z) : Prop := (- Z.of_nat n <= k < Z.of_nat n)%Z.
Definition species_no (n : nat) (k : Z) : nat := Z.to_nat (k mod Z.of_nat n).
(** sum over zip(species_1, species_2) *)
Definition zip_sum (n : nat) (f : nat -> nat -> mat) (species_1 species_2 : list Z) : mat :=
  opsum (map (fun p => f (species_no n (fst p)) (species_no n (snd p))) (combine species_1 species_2)).
