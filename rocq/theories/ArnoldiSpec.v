(** What a user expects from a Krylov eigensolver for general (not hermitian) operators. *)
From Coq Require Import Reals List Arith String Sorted Permutation.
From Verif Require Import Util Cplx Hilbert LinOpModel LinOpSpec KrylovModel KrylovSpec ArnoldiModel.
Import ListNotations.
Set Implicit Arguments. Unset Strict Implicit.
Open Scope nat_scope.

(** The parameters: numpy.linalg.eig is right on the n x n matrix m: unit eigenvectors, and every eigenvalue is listed *)
Definition csum_n (n : nat) (f : nat -> C) : C := fold_right Cadd C0 (map f (seq 0 n)).
Definition rsum_n (n : nat) (f : nat -> R) : R := fold_right Rplus 0%R (map f (seq 0 n)).
Record eig_ok (n : nat) (m : nat -> nat -> C) (E : list C) (v : nat -> nat -> C) : Prop := {
  eo_len : length E = n;
  eo_eig : forall i j, i < n -> j < n -> csum_n n (fun k => Cmul (m i k) (v k j)) = Cmul (nth j E C0) (v i j);
  eo_unit : forall j, j < n -> rsum_n n (fun k => Cnorm2 (v k j)) = 1%R;
  eo_all : forall c x, (exists i, i < n /\ x i <> C0) -> (forall i, i < n -> csum_n n (fun k => Cmul (m i k) (x k)) = Cmul c (x i)) -> In c E }.
(** the matrix m of H in the orthonormal basis that Gram-Schmidt makes of psi, H psi, ..., H^(n-1) psi *)
Definition projected_matrix (V : Type) (h : hspace V) (H : V -> V) (psi : V) (n : nat) (m : nat -> nat -> C) : Prop :=
  exists q : list V, length q = n /\ orthonormal h q /\ nth 0 q (hzero h) = rscale h (/ hnorm h psi) psi /\ (forall y, In y q -> in_span h (powers H n psi) y) /\
    (forall i j, i < n -> j < n -> m i j = hinner h (nth i q (hzero h)) (H (nth j q (hzero h)))) /\
    (forall i j, n <= i \/ n <= j -> m i j = C0) /\ (forall j, S j < n -> exists r, (0 < r)%R /\ m (S j) j = RtoC r) /\ (forall i j, j + 1 < i -> m i j = C0).
(** numpy's eig is right on these matrices, up to the size N *)
Definition eig_right (V : Type) (h : hspace V) (H : V -> V) (psi : V) (N : nat) (eig : eig_fun) : Prop :=
  forall n m, 2 <= n <= N -> projected_matrix h H psi n m -> eig_ok n m (fst (eig n m)) (snd (eig n m)).
(** numpy.linalg.solve is right: it fails exactly if the matrix is singular, otherwise it solves v c = e *)
Definition dependent_columns (n : nat) (v : nat -> nat -> C) : Prop := exists j c, j < n /\ c j <> C0 /\ forall i, i < n -> csum_n n (fun j => Cmul (v i j) (c j)) = C0.
Definition solve_ok (n : nat) (v : nat -> nat -> C) (e : nat -> C) (r : option (nat -> C)) : Prop :=
  match r with
  | Some c => (forall i, i < n -> csum_n n (fun j => Cmul (v i j) (c j)) = e i) /\ ~ dependent_columns n v
  | None => dependent_columns n v
  end.
Definition unit0 : nat -> C := fun i => if i =? 0 then C1 else C0.
Definition solve_right (V : Type) (h : hspace V) (H : V -> V) (psi : V) (N : nat) (eig : eig_fun) (solve : solve_fun) : Prop :=
  forall n m, 2 <= n <= N -> projected_matrix h H psi n m -> solve_ok n (snd (eig n m)) unit0 (solve n (snd (eig n m)) unit0).
(** the sort gives a permutation that sorts *)
Definition sort_ok (srt : sort_fun) : Prop := forall l,
  is_perm (length l) (srt l) /\ forall i j, i < j < length l -> (nth (nth i (srt l) 0%nat) l 0 <= nth (nth j (srt l) 0%nat) l 0)%R.

(** the option [which]: the first values are the ones with the smallest weight (largest modulus, smallest modulus, ...); for other strings the smallest real part *)
Definition weights : list (list string * (C -> R)) :=
  [(["LM"; "m>"], fun z => - Cabs z); (["SM"; "m<"], Cabs); (["LR"; "LA"; ">"], fun z => - fst z); (["SR"; "SA"; "<"], fst); (["LI"], fun z => - snd z); (["SI"], snd)]%string%R.
Definition weight (which : string) (z : C) : R :=
  match find (fun p => existsb (String.eqb which) (fst p)) weights with Some (_, w) => w z | None => fst z end.

Section Spec.
  Variables (V : Type) (h : hspace V) (H : V -> V) (psi0 : V).
  (** (E, psi) is a Ritz pair of H in the Krylov space of order N: psi is a unit vector of the space, and the residual is orthogonal to the space *)
  Record ritz_pair (N : nat) (E : C) (psi : V) : Prop := {
    rp_unit : hinner h psi psi = C1;
    rp_in : in_span h (powers H N psi0) psi;
    rp_galerkin : forall phi, in_span h (powers H N psi0) phi -> hinner h phi (hsub h (H psi) (hscale h E psi)) = C0 }.
  Definition ritz_value (N : nat) (E : C) : Prop := exists psi, ritz_pair N E psi.
  Definition residual_norm (E : C) (psi : V) : R := hnorm h (hsub h (H psi) (hscale h E psi)).
  (** the operator was shifted by e: the ordering [which] is the one of the shifted values *)
  Variables (e : R) (o : aopts).
  Definition key (E : C) : R := weight (a_which o) (Cadd E (RtoC e)).
  (** The result of Arnoldi: N steps were done; the first M = min(N, num_ev) values and vectors are Ritz pairs, sorted as requested, and no other Ritz value comes before them.
      If the iteration ended early, all residuals are below the cutoff, or N >= N_min, and the first residual is small compared to the gaps
      between the num_ev first and the other Ritz values, and the first value changed by less than E_tol. *)
  Record arnoldi_result (E0 : list C) (psis : list V) (N : nat) : Prop := {
    ar_N : 1 <= N <= a_N_max o;
    ar_lenE : length E0 = a_num_ev o;
    ar_lenpsi : length psis = (if N =? 1 then 1 else Nat.min N (a_num_ev o));
    ar_pairs : forall i, i < Nat.min N (a_num_ev o) -> ritz_pair N (nth i E0 C0) (nth i psis (hzero h));
    ar_sorted : forall i j, i < j < Nat.min N (a_num_ev o) -> (key (nth i E0 C0) <= key (nth j E0 C0))%R;
    ar_first : forall c, ritz_value N c -> (exists i, i < Nat.min N (a_num_ev o) /\ nth i E0 C0 = c) \/ (forall i, i < Nat.min N (a_num_ev o) -> (key (nth i E0 C0) <= key c)%R);
    ar_stop : N < a_N_max o -> 0 < a_num_ev o ->
      (forall i, i < Nat.min N (a_num_ev o) -> (residual_norm (nth i E0 C0) (nth i psis (hzero h)) < a_cutoff o)%R) \/
      (a_N_min o <= N /\
       (forall i c, i < Nat.min N (a_num_ev o) -> ritz_value N c -> (forall j, j < Nat.min N (a_num_ev o) -> nth j E0 C0 <> c) ->
          (let err := residual_norm (nth 0 E0 C0) (nth 0 psis (hzero h)) / Rmax (Cabs (Csub c (nth i E0 C0))) (a_min_gap o) in err * err < a_P_tol o)%R) /\
       (forall i j, i < j < Nat.min N (a_num_ev o) ->
          (let err := residual_norm (nth 0 E0 C0) (nth 0 psis (hzero h)) / Rmax (Cabs (Csub (nth j E0 C0) (nth i E0 C0))) (a_min_gap o) in err * err < a_P_tol o)%R) /\
       (match a_E_tol o with None => True | Some t => exists E', ritz_value (N - 1) E' /\ (forall c, ritz_value (N - 1) c -> (key E' <= key c)%R) /\ (fst (Csub E' (nth 0 E0 C0)) < t)%R end)) }.

  (** psi is a sum of approximate eigenvectors of H in the Krylov space of order N *)
  Record spectral_decomposition (N : nat) (psi : V) (c : nat -> C) (phi : nat -> V) : Prop := {
    sd_sum : psi = vsum h N phi;
    sd_in : forall j, j < N -> in_span h (powers H N psi) (phi j);
    sd_galerkin : forall j y, j < N -> in_span h (powers H N psi) y -> hinner h y (hsub h (H (phi j)) (hscale h (c j) (phi j))) = C0 }.
  (** why the evolution may stop early: H maps the Krylov space to itself up to the cutoff, or the result has hardly any component outside of the previous Krylov space *)
  Definition aevo_stop (N : nat) (res : V) : Prop :=
    (forall x, in_span h (powers H N psi0) x -> exists y, in_span h (powers H N psi0) y /\ (hnorm h (hsub h (H x) y) <= a_cutoff o * hnorm h x)%R) \/
    (a_N_min o <= N /\ exists y, in_span h (powers H (N - 1) psi0) y /\ (hnorm h (hsub h res y) < a_P_tol o)%R).
End Spec.
