(** Specification vocabulary for the operators of the sites. *)
From Coq Require Import Reals ZArith List Arith Lia Bool.
From Verif Require Import Cplx SiteModel.
Import ListNotations.
Set Implicit Arguments. Unset Strict Implicit.
Open Scope nat_scope.

(** equality of d x d matrices *)
Definition meq (d : nat) (A B : mat) : Prop := forall i j, i < d -> j < d -> A i j = B i j.
(** commutator, anticommutator, hermitian *)
Definition comm (d : nat) (A B : mat) : mat := fun i j => Csub (mmul d A B i j) (mmul d B A i j).
Definition anticomm (d : nat) (A B : mat) : mat := fun i j => Cadd (mmul d A B i j) (mmul d B A i j).
Definition hermitian (d : nat) (A : mat) : Prop := meq d (mconjT A) A.

(** the product basis: the state number s of a site with at most Nmax_k particles of species k has occ_k particles of species k;
    the states are counted with the last species running fastest *)
Fixpoint sdim (Nmax : list nat) : nat := match Nmax with [] => 1 | N :: Nmax => (N + 1) * sdim Nmax end.
Definition stride (Nmax : list nat) (k : nat) : nat := sdim (skipn (k + 1) Nmax).
Definition occ (Nmax : list nat) (s k : nat) : nat := (s / stride Nmax k) mod (nth k Nmax 0 + 1).
Definition occs (Nmax : list nat) (s : nat) : list nat := map (occ Nmax s) (seq 0 (length Nmax)).
(** total number of particles of the state, and of the species before k *)
Definition occ_before (Nmax : list nat) (s k : nat) : nat := fold_right Nat.add 0 (map (occ Nmax s) (seq 0 k)).
Definition occ_total (Nmax : list nat) (s : nat) : nat := occ_before Nmax s (length Nmax).
(** state s is state t with one particle of species k removed *)
Definition removes (Nmax : list nat) (k s t : nat) : bool :=
  forallb (fun j => occ Nmax s j + (if j =? k then 1 else 0) =? occ Nmax t j) (seq 0 (length Nmax)).
(** (-1)^n *)
Definition msign (n : nat) : C := if Nat.even n then C1 else Copp C1.
