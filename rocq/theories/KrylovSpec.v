(** What a user expects from a Krylov eigensolver. *)
From Coq Require Import Reals List Arith.
From Verif Require Import Cplx Hilbert LinOpModel LinOpSpec KrylovModel.
Import ListNotations.
Set Implicit Arguments. Unset Strict Implicit.
Open Scope nat_scope.

Section Spec.
  Variables (V : Type) (h : hspace V).
  (** psi, H psi, ..., H^(n-1) psi *)
  Fixpoint powers (H : V -> V) (n : nat) (psi : V) : list V := match n with 0 => [] | S n => psi :: powers H n (H psi) end.
  (** <psi, H psi> *)
  Definition expectation (H : V -> V) (psi : V) : C := hinner h psi (H psi).
  (** f 0 + ... + f (n-1) *)
  Definition vsum (n : nat) (f : nat -> V) : V := fold_right (hadd h) (hzero h) (map f (seq 0 n)).
  (** psi is the sum of the components phi_j, which are pairwise orthogonal approximate eigenvectors of H in the Krylov space of order N:
      H phi_j = e_j phi_j + (something orthogonal to the Krylov space) *)
  Record krylov_decomposition (H : V -> V) (N : nat) (psi : V) (e : nat -> R) (phi : nat -> V) : Prop := {
    kd_sum : psi = vsum N phi;
    kd_in : forall j, j < N -> in_span h (powers H N psi) (phi j);
    kd_orth : forall i j, i < N -> j < N -> i <> j -> hinner h (phi i) (phi j) = C0;
    kd_galerkin : forall j y, j < N -> in_span h (powers H N psi) y -> hinner h y (hsub h (H (phi j)) (rscale h (e j) (phi j))) = C0 }.
End Spec.
(** the same options with another cache size and reortho flag *)
Definition with_cache (o : lopts) (n : nat) (r : bool) : lopts := LOpts (N_min o) (N_max o) n (P_tol o) (min_gap o) (cutoff o) (E_tol o) r.

(** the real symmetric tridiagonal matrix *)
Definition tridiag (al be : list R) (i j : nat) : R :=
  if i =? j then nth i al 0%R else if i =? S j then nth j be 0%R else if j =? S i then nth i be 0%R else 0%R.
Definition rsum (n : nat) (f : nat -> R) : R := fold_right Rplus 0%R (map f (seq 0 n)).
(** eigh is right on the matrix given by al, be: real orthonormal eigenvectors, eigenvalues in ascending order, the eigenvectors span *)
Definition eigh_ok (eigh : eigh_fun) (al be : list R) : Prop :=
  let n := length al in let '(e, v) := eigh al be in
  length e = n /\
  (forall i j, i < j < n -> (nth i e 0 <= nth j e 0)%R) /\
  (forall i j, i < n -> j < n -> rsum n (fun k => tridiag al be i k * v k j)%R = (nth j e 0 * v i j)%R) /\
  (forall i j, i < n -> j < n -> rsum n (fun k => v k i * v k j)%R = if i =? j then 1%R else 0%R) /\
  (forall i j, i < n -> j < n -> rsum n (fun k => v i k * v j k)%R = if i =? j then 1%R else 0%R).

Section Results.
  Variables (V : Type) (h : hspace V) (H : V -> V) (o : lopts).
  (** numpy.linalg.eigh is right on the tridiagonal matrices of this run *)
  Definition eigh_ok_run (calc : list R -> list R -> list R * list C * R) (conv : nat -> list R -> list R -> list C -> R -> bool) (eigh : eigh_fun) (psi0 : V) : Prop :=
    forall psi n s, build_krylov h H o calc conv psi0 = Some (psi, n, s) -> forall m, 2 <= m <= n -> eigh_ok eigh (firstn m (alphas s)) (firstn (m - 1) (betas s)).
  (** E is the minimum of <phi|H|phi> over the unit vectors of the subspace W *)
  Definition lowest_energy (W : V -> Prop) (E : R) : Prop :=
    (exists phi, W phi /\ hinner h phi phi = C1 /\ hinner h phi (H phi) = RtoC E) /\ (forall phi, W phi -> (E * fst (hinner h phi phi) <= fst (hinner h phi (H phi)))%R).
  (** (E, psi) is the lowest Ritz pair of H in the Krylov space of order N: psi is normalised, E = <psi|H|psi>, the residual is orthogonal to the space,
      E is the minimum of <phi|H|phi> over the unit vectors of the space; if the iteration ended early,
      the residual is below the cutoff, or N >= N_min and (residual / max(gap, min_gap))^2 < P_tol and the last step lowered the energy by less than E_tol *)
  Record ritz (psi0 : V) (E : R) (psi : V) (N : nat) : Prop := {
    rz_N : 1 <= N <= N_max o;
    rz_unit : hinner h psi psi = C1;
    rz_energy : hinner h psi (H psi) = RtoC E;
    rz_krylov : in_span h (powers H N psi0) psi;
    rz_galerkin : forall phi, in_span h (powers H N psi0) phi -> hinner h phi (hsub h (H psi) (rscale h E psi)) = C0;
    rz_minimal : forall phi, in_span h (powers H N psi0) phi -> (E * fst (hinner h phi phi) <= fst (hinner h phi (H phi)))%R;
    rz_stop : N < N_max o -> (hnorm h (hsub h (H psi) (rscale h E psi)) < cutoff o)%R \/
      (N_min o <= N /\ exists E1 E', lowest_energy (fun phi => in_span h (powers H N psi0) phi /\ hinner h psi phi = C0) E1 /\ lowest_energy (in_span h (powers H (N - 1) psi0)) E' /\
        (let err := (hnorm h (hsub h (H psi) (rscale h E psi)) / Rmax (E1 - E) (min_gap o))%R in err * err < P_tol o)%R /\ (match E_tol o with Some t => E' - E < t | None => True end)%R) }.
  (** why the evolution ended before N_max: the Krylov space is invariant up to the cutoff, or the normalised result is within P_tol of the smaller Krylov space *)
  Definition evo_stop (psi0 : V) (N : nat) (res : V) : Prop :=
    (forall x, in_span h (powers H N psi0) x -> exists y, in_span h (powers H N psi0) y /\ (hnorm h (hsub h (H x) y) <= cutoff o * hnorm h x)%R) \/
    (N_min o <= N /\ exists y, in_span h (powers H (N - 1) psi0) y /\ (hnorm h (hsub h res y) < P_tol o)%R).
  Definition unit_result (U : V) : V := rscale h (/ hnorm h U) U.
End Results.
