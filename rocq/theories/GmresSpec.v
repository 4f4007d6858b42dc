(** What a user expects from a GMRES solver. *)
From Coq Require Import Reals List Arith.
From Verif Require Import Cplx Hilbert LinOpModel LinOpSpec KrylovModel KrylovSpec.
Import ListNotations.
Set Implicit Arguments. Unset Strict Implicit.
Open Scope nat_scope.

Section Spec.
  Variables (V : Type) (h : hspace V) (A : V -> V) (b : V).
  (** b - A x *)
  Definition residual (x : V) : V := hsub h b (A x).
  (** |b - A x| / |b|, or |b - A x| if b = 0 *)
  Definition relative_residual (x : V) : R := (hnorm h (residual x) / (if Req_EM_T (hnorm h b) 0 then 1 else hnorm h b))%R.
  (** x' is in the affine space x + span(r, A r, ..., A^(n-1) r), r = b - A x, and has the smallest residual there *)
  Definition in_krylov (n : nat) (x x' : V) : Prop := in_span h (powers A n (residual x)) (hsub h x' x).
  Definition minimal (n : nat) (x x' : V) : Prop :=
    in_krylov n x x' /\ forall x'', in_krylov n x x'' -> (hnorm h (residual x') <= hnorm h (residual x''))%R.
  Definition best_error (n : nat) (x : V) (e : R) : Prop := exists x', minimal n x x' /\ e = relative_residual x'.

  (** one cycle of n steps from x to x': the row of errors has the optimal error after 0, 1, ..., n steps *)
  Record cycle (n : nat) (x x' : V) (row : list R) : Prop := {
    cy_len : length row = S n;
    cy_errs : forall j, j <= n -> best_error j x (nth j row 0%R);
    cy_min : minimal n x x' }.
  Variables (N_min N_max : nat) (res : R).
  (** the history of a run: cycles of N_max steps until the restarts are used up, or until an error is below [res] (after more than N_min steps).
      [restart] cycles are allowed. *)
  Inductive run_of : nat -> V -> list (list R) -> list nat -> V -> Prop :=
  | run_out x : run_of 0 x [[relative_residual x]] [] x
  | run_converged restart n x x' row : cycle n x x' row -> N_min < n <= N_max -> (relative_residual x' < res)%R -> run_of (S restart) x [row] [n] x'
  | run_restart restart x x1 x' row errs iters : cycle N_max x x1 row -> run_of restart x1 errs iters x' -> run_of (S restart) x (row :: errs) (N_max :: iters) x'.

  (** all data are real: x and b belong to a set of vectors with real inner products, closed under A and real linear combinations *)
  Definition real_problem (x : V) : Prop :=
    exists P : V -> Prop, P x /\ P b /\ (forall u v, P u -> P v -> P (hadd h u v)) /\ (forall a u, P u -> P (rscale h a u)) /\ (forall u, P u -> P (A u)) /\
      (forall u v, P u -> P v -> snd (hinner h u v) = 0%R).
  (** the Krylov space of r is exhausted after k vectors: A^k r depends linearly on r, ..., A^(k-1) r *)
  Definition exhausted (k : nat) (r : V) : Prop := in_span h (powers A k r) (Nat.iter k A r).
End Spec.
