(** Model of the Lanczos and Arnoldi solvers of src/tensors/krylov_based.cpp.
    Simplifications: exact arithmetic; vectors are elements of an abstract inner product space; the dtype arguments, logging and the final norm warning
    are left out; numpy's eigensolvers are parameters of the model. *)
From Coq Require Import Reals List Arith Bool.
From Verif Require Import Cplx Hilbert LinOpModel.
Import ListNotations.
Set Implicit Arguments. Unset Strict Implicit.
Open Scope nat_scope.

Definition Rltb (x y : R) : bool := if Rlt_dec x y then true else false.
(** std::exp of a complex number *)
Definition Cexp (z : C) : C := Cmul (RtoC (exp (fst z))) (cis (snd z)).
Definition Cabs (z : C) : R := sqrt (Cnorm2 z).
Definition csumn (n : nat) (f : nat -> C) : C := fold_right Cadd C0 (map f (seq 0 n)).

(** Options of KrylovBased / LanczosGroundState (krylov_based.cpp 259-299 and 803-813); E_tol = None stands for the default infinity.
    N_min, N_max, N_cache are non-negative here. *)
Record lopts := LOpts { N_min : nat; N_max : nat; N_cache : nat; P_tol : R; min_gap : R; cutoff : R; E_tol : option R; reortho : bool }.
(** The checks of the constructors: lines 285-287 and 810-812 *)
Definition valid_options (o : lopts) : bool := (2 <=? N_min o) && (2 <=? N_cache o).

(** numpy.linalg.eigh of the real symmetric tridiagonal matrix with diagonal [al] and off-diagonal [be]: the eigenvalues and the matrix whose column j
    is the j-th eigenvector.  (submatrix_numpy(as_real=true), lines 139-151) *)
Definition eigh_fun := list R -> list R -> list R * (nat -> nat -> R).

Section Lanczos.
  Variables (V : Type) (h : hspace V) (H : V -> V) (o : lopts).
  (** _calc_result_krylov (virtual): from the diagonal and off-diagonal entries of _h_krylov[:k+1, :k+1] to (Es[k, :], _result_krylov, _result_norm);
      _converged (virtual): from k, Es[k-1, :], Es[k, :], _result_krylov and _h_krylov[k, k+1] *)
  Variable calc : list R -> list R -> list R * list C * R.
  Variable conv : nat -> list R -> list R -> list C -> R -> bool.

  (** KrylovBased::_to_cache: lines 343-350 *)
  Definition to_cache (cache : list V) (psi : V) : list V :=
    let c := cache ++ [psi] in if N_cache o <? length c then tl c else c.
  (** lines 865-872 and 906-913 *)
  Definition orthogonalize (k : nat) (cache : list V) (beta : R) (w : V) : V :=
    if reortho o then fold_left (fun w c => axpy h (Copp (hinner h c w)) c w) (removelast cache) w
    else if 0 <? k then axpy h (RtoC (- beta)) (nth (length cache - 2) cache (hzero h)) w
    else w.

  (** [betas]: h_krylov(j, j+1) = h_krylov(j+1, j); [alphas]: h_krylov(j, j); [es]: Es[j, :] *)
  Record lstate := LState { cache : list V; wvec : V; beta : R; alphas : list R; betas : list R; es : list (list R); vf : list C; rnorm : R }.
  (** one round of the loop of LanczosGroundState::_build_krylov, lines 857-876 *)
  Definition lanczos_step (k : nat) (s : lstate) : lstate :=
    let w := rscale h (/ beta s) (wvec s) in
    let c := to_cache (cache s) w in
    let q := last c (hzero h) in
    let w := H w in
    let alpha := fst (hinner h w q) in
    let al := alphas s ++ [alpha] in
    let '(e, v, rn) := calc al (betas s) in
    let w := axpy h (RtoC (- alpha)) q w in
    let w := orthogonalize k c (beta s) w in
    let b := hnorm h w in
    LState c w b al (betas s ++ [b]) (es s ++ [e]) v rn.
  (** the break condition, line 877: the state is the one after the step *)
  Definition lanczos_stop (k : nat) (s : lstate) : bool :=
    Rltb (Rabs (beta s)) (cutoff o) || ((N_min o <=? k + 1) && conv k (nth (k - 1) (es s) []) (nth k (es s) []) (vf s) (nth k (betas s) 0%R)).
  (** the loop: lines 856-881; the result is (performed, state) *)
  Fixpoint lanczos_loop (fuel k : nat) (s : lstate) : nat * lstate :=
    match fuel with
    | 0 => (k, s)
    | S fuel => let s' := lanczos_step k s in if lanczos_stop k s' then (S k, s') else lanczos_loop fuel (S k) s'
    end.
  (** LanczosGroundState::_build_krylov: lines 842-882. None = invalid_argument (norm too small); the result is (psi0, performed, state) *)
  Definition build_krylov (psi0 : V) : option (V * nat * lstate) :=
    let b := hnorm h psi0 in
    if Rltb b (cutoff o) then None
    else let psi := rscale h (/ b) psi0 in
         let '(n, s) := lanczos_loop (N_max o) 0 (LState [] psi0 b [] [] [] [] 0%R) in
         Some (psi, n, s).

  (** LanczosGroundState::_rebuild_krylov_for_result_full: lines 895-919; [m] rounds remain *)
  Fixpoint rebuild (m k : nat) (al be : list R) (v : list C) (c : list V) (w : V) (beta : R) (psif : V) : V :=
    match m with
    | 0 => psif
    | S m =>
        let c := to_cache c w in
        let q := last c (hzero h) in
        let w := H w in
        let w := axpy h (RtoC (- nth k al 0%R)) q w in
        let w := orthogonalize k c beta w in
        let beta := nth k be 0%R in
        let w := rscale h (/ beta) w in
        rebuild m (S k) al be v c w beta (hadd h psif (hscale h (nth (k + 1) v C0) w))
    end.
  (** KrylovBased::_calc_result_full: lines 309-341. None = runtime_error *)
  Definition calc_result_full (psi0 : V) (N : nat) (s : lstate) : option V :=
    let v := vf s in
    if (N =? length v) && (1 <? length v) then
      let lc := length (cache s) in
      let n_loop := Nat.min (lc + 1) N in
      let psif := fold_left (fun p k => hadd h p (hscale h (nth (N - k) v C0) (nth (lc - k) (cache s) (hzero h)))) (seq 1 (n_loop - 1))
                    (hscale h (nth 0 v C0) psi0) in
      let psif := rebuild (N - lc - 1) 0 (alphas s) (betas s) v [] psi0 0%R psif in
      Some (rscale h (/ hnorm h psif) psif)
    else None.
End Lanczos.

(** LanczosGroundState::_calc_result_krylov: lines 921-946 *)
Definition gs_calc (eigh : eigh_fun) (al be : list R) : list R * list C * R :=
  match al with
  | [a] => ([a], [C1], 0%R)
  | _ => let '(e, v) := eigh al be in (e, map (fun i => RtoC (v i 0)) (seq 0 (length al)), 0%R)
  end.
(** LanczosGroundState::_converged: lines 884-893 *)
Definition gs_conv (o : lopts) (k : nat) (e_prev e : list R) (v : list C) (b : R) : bool :=
  let ritz := (Cabs (nth k v C0) * Rabs b)%R in
  let gap := Rmax (nth 1 e 0 - nth 0 e 0)%R (min_gap o) in
  let p_err := (ritz / gap * (ritz / gap))%R in
  let delta_e0 := (nth 0 e_prev 0 - nth 0 e 0)%R in
  Rltb p_err (P_tol o) && (match E_tol o with None => true | Some t => Rltb delta_e0 t end).
(** LanczosGroundState::run: lines 815-840. [shift] = E_shift *)
Definition ground_state_run (V : Type) (h : hspace V) (H : V -> V) (o : lopts) (eigh : eigh_fun) (shift : option R) (psi0 : V) : option (R * V * nat) :=
  match build_krylov h H o (gs_calc eigh) (gs_conv o) psi0 with
  | None => None
  | Some (psi, N, s) =>
      let E0 := nth 0 (nth (N - 1) (es s) []) 0%R in
      let E0 := match shift with Some e => (E0 - e)%R | None => E0 end in
      if N =? 1 then Some (E0, psi, N)
      else match calc_result_full h H o psi N s with Some p => Some (E0, p, N) | None => None end
  end.

(** LanczosEvolution::_calc_result_krylov: lines 987-1013 *)
Definition evo_calc (eigh : eigh_fun) (delta : C) (al be : list R) : list R * list C * R :=
  match al with
  | [a] => let e := Cexp (Cmul delta (RtoC a)) in let n := Cabs e in ([], [Cmul (RtoC (/ n)) e], n)
  | _ => let '(e, v) := eigh al be in
         let n := length al in
         let x := map (fun i => csumn n (fun j => Cmul (RtoC (v i j)) (Cmul (Cexp (Cmul (RtoC (nth j e 0%R)) delta)) (RtoC (v 0 j))))) (seq 0 n) in
         let nrm := sqrt (fold_right Rplus 0%R (map Cnorm2 x)) in
         ([], map (Cmul (RtoC (/ nrm))) x, nrm)
  end.
(** LanczosEvolution::_converged: lines 1015-1019 *)
Definition evo_conv (o : lopts) (k : nat) (e_prev e : list R) (v : list C) (b : R) : bool := Rltb (Cabs (nth k v C0)) (P_tol o).
(** LanczosEvolution::run: lines 957-985. [psi0_norm]: _psi0_norm, set by the first call of _build_krylov (lines 851-854);
    the result is (vector, N), and the new (psi0, _psi0_norm) of the solver object *)
Definition evolution_run (V : Type) (h : hspace V) (H : V -> V) (o : lopts) (eigh : eigh_fun) (psi0 : V) (psi0_norm : option R) (delta : C) (normalize : option bool)
  : option (V * nat * V * option R) :=
  let pn := match psi0_norm with Some n => n | None => hnorm h psi0 end in
  match build_krylov h H o (evo_calc eigh delta) (evo_conv o) psi0 with
  | None => None
  | Some (psi, N, s) =>
      let res := if N =? 1 then Some (hscale h (nth 0 (vf s) C0) psi) else calc_result_full h H o psi N s in
      match res with
      | None => None
      | Some r =>
          let do_normalize := match normalize with Some b => b | None => if Req_EM_T (fst delta) 0 then true else false end in
          Some (if do_normalize then r else rscale h (pn * rnorm s)%R r, N, psi, Some pn)
      end
  end.

(** KrylovBased::KrylovBased, lines 289-296: the operator used by the solver, and what the caller's operator object has become *)
Definition krylov_init (V T : Type) (A : linop V T) (shift : option R) : linop V T * linop V T :=
  match shift with
  | None => (A, A)
  | Some e => match A with
              | OProj B os b p => let A' := OProj (OShift B (RtoC e)) os b p in (A', A')
              | _ => (OShift A (RtoC e), A)
              end
  end.
(** lanczos(H, psi, options): lines 1021-1025, with the new state of the caller's operator *)
Definition lanczos (V T : Type) (h : hspace V) (to : tensor_ops V T) (o : lopts) (eigh : eigh_fun) (shift : option R) (A : linop V T) (psi : V)
  : option (R * V * nat) * linop V T :=
  if valid_options o then
    let '(A1, A2) := krylov_init A shift in (ground_state_run h (matvec h to A1) o eigh shift psi, A2)
  else (None, A).
