(** Model of the eigensolver Arnoldi and of ArnoldiEvolution: src/tensors/krylov_based.cpp, lines 165-200, 301-307 and 532-801.
    Simplifications: exact arithmetic; vectors are elements of an abstract inner product space; dtypes, logging and the norm warnings are left out;
    numpy's eig and solve, and the (unstable) std::ranges::sort, are parameters; np.real_if_close is the identity (it only removes imaginary parts
    of the size of rounding errors).  [None] as a result stands for an exception, or for NaN (division by zero). *)
From Coq Require Import Reals List Arith Bool String.
From Verif Require Import Util Cplx Hilbert LinOpModel KrylovModel GmresModel.
Import ListNotations.
Set Implicit Arguments. Unset Strict Implicit.
Open Scope nat_scope.

(** Options: KrylovBased (lines 277-288) and Arnoldi (535-537).  N_cache is always N_max here (line 279), so the checks at lines 543 and 695 never fail.
    [a_E_tol] = None is the default infinity *)
Record aopts := AOpts { a_N_min : nat; a_N_max : nat; a_P_tol : R; a_min_gap : R; a_cutoff : R; a_E_tol : option R; a_which : string; a_num_ev : nat }.
(** line 285 *)
Definition a_valid (o : aopts) : bool := 2 <=? a_N_min o.

(** argsort_which, the key: lines 170-190 *)
Definition sort_key (which : string) (z : C) : R :=
  if String.eqb which "LM" || String.eqb which "m>" then (- Cabs z)%R
  else if String.eqb which "SM" || String.eqb which "m<" then Cabs z
  else if String.eqb which "LR" || String.eqb which ">" || String.eqb which "LA" then (- fst z)%R
  else if String.eqb which "SR" || String.eqb which "<" || String.eqb which "SA" then fst z
  else if String.eqb which "LI" then (- snd z)%R
  else if String.eqb which "SI" then snd z
  else fst z.

(** numpy.linalg.eig of an n x n matrix: eigenvalues, and the matrix whose column j is the j-th eigenvector; numpy.linalg.solve; the sort (line 191) *)
Definition eig_fun := nat -> (nat -> nat -> C) -> list C * (nat -> nat -> C).
Definition solve_fun := nat -> (nat -> nat -> C) -> (nat -> C) -> option (nat -> C).
Definition sort_fun := list R -> list nat.
(** submatrix_numpy, lines 152-160 *)
Definition submatrix (n : nat) (m : nat -> nat -> C) : nat -> nat -> C := fun i j => if (i <? n) && (j <? n) then m i j else C0.
(** assignments to the arrays _h_krylov and Es *)
Definition set2 (m : nat -> nat -> C) (i j : nat) (v : C) : nat -> nat -> C := fun i' j' => if (i' =? i) && (j' =? j) then v else m i' j'.
Definition set_col (m : nat -> nat -> C) (j : nat) (l : list C) : nat -> nat -> C := fun i' j' => if (j' =? j) && (i' <? length l) then nth i' l C0 else m i' j'.
Definition set_row (m : nat -> nat -> C) (i : nat) (l : list C) : nat -> nat -> C := fun i' j' => if (i' =? i) && (j' <? length l) then nth j' l C0 else m i' j'.

(** the attributes of the solver object: psi0, _cache, _h_krylov, Es *)
Record aobj (V : Type) := AObj { o_psi0 : V; o_cache : list V; o_h : nat -> nat -> C; o_es : nat -> nat -> C }.
Arguments AObj {V}.

Section Arnoldi.
  Variables (V : Type) (h : hspace V) (H : V -> V) (o : aopts).
  (** _calc_result_krylov (virtual): from k and _h_krylov to (the entries of Es[k, :], the columns of _result_krylov, _result_norm);
      _converged (virtual): from k, Es, the columns of _result_krylov and _h_krylov[k+1, k] *)
  Variable calc : nat -> (nat -> nat -> C) -> option (list C * list (list C) * R).
  Variable conv : nat -> (nat -> nat -> C) -> list (list C) -> C -> bool.

  (** the variables of the loop: _cache, _h_krylov, Es, w, w_norm, _result_krylov, _result_norm *)
  Record astate := AState { s_cache : list V; s_h : nat -> nat -> C; s_es : nat -> nat -> C; s_w : V; s_wn : R; s_res : list (list C); s_rn : R }.
  (** one round, lines 573-584; _to_cache: lines 669-676.  The Gram-Schmidt loop is [project_coeffs] *)
  Definition a_step (k : nat) (s : astate) : option astate :=
    if Req_EM_T (s_wn s) 0 then None
    else
      let w := rscale h (/ s_wn s) (s_w s) in
      let cache := s_cache s ++ [w] in
      if a_N_max o <? length cache then None
      else
        let '(hs, w) := project_coeffs h cache (H w) in
        let wn := hnorm h w in
        let m := set2 (set_col (s_h s) k hs) (k + 1) k (RtoC wn) in
        match calc k m with
        | None => None
        | Some (e, r, rn) => Some (AState cache m (set_row (s_es s) k e) w wn r rn)
        end.
  (** line 586 *)
  Definition a_stop (k : nat) (s : astate) : bool :=
    Rltb (s_wn s) (a_cutoff o) || ((a_N_min o <=? k + 1) && conv k (s_es s) (s_res s) (s_h s (k + 1) k)).
  (** lines 572-590 *)
  Fixpoint a_loop (fuel k : nat) (s : astate) : option (nat * astate) :=
    match fuel with
    | 0 => Some (k, s)
    | S fuel => match a_step k s with
                | None => None
                | Some s' => if a_stop k s' then Some (S k, s') else a_loop fuel (S k) s'
                end
    end.
  (** Arnoldi::_build_krylov: lines 564-591; the result is the new psi0, N and the final state *)
  Definition a_build (x : aobj V) : option (V * nat * astate) :=
    let wn := hnorm h (o_psi0 x) in
    if Req_EM_T wn 0 then None
    else match a_loop (a_N_max o) 0 (AState (o_cache x) (o_h x) (o_es x) (o_psi0 x) wn [] 1%R) with
         | Some (n, s) => Some (rscale h (/ wn) (o_psi0 x), n, s)
         | None => None
         end.
End Arnoldi.

(** Arnoldi::_calc_result_krylov: lines 593-625 *)
Definition arnoldi_calc (o : aopts) (eig : eig_fun) (srt : sort_fun) (k : nat) (m : nat -> nat -> C) : option (list C * list (list C) * R) :=
  match k with
  | 0 => Some ([m 0 0], [[C1]], 1%R)
  | _ => let n := k + 1 in
         let '(E, v) := eig n (submatrix n m) in
         let sort := srt (map (sort_key (a_which o)) E) in
         Some (map (fun j => nth j E C0) sort, map (fun j => map (fun i => v i j) (seq 0 n)) sort, 1%R)
  end.
(** Arnoldi::_converged: lines 678-696.  [None] = infinity *)
Definition omin (a b : option R) : option R := match a, b with None, x => x | x, None => x | Some x, Some y => Some (Rmin x y) end.
Definition min_diff (o : aopts) (k : nat) (es : nat -> nat -> C) : option R :=
  fold_left (fun md i =>
    omin md (fold_left (fun local j => omin local (Some (Cabs (Csub (es k j) (es k i))))) (seq (i + 1) (a_N_max o - (i + 1))) None)) (seq 0 (a_num_ev o)) None.
Definition arnoldi_conv (o : aopts) (k : nat) (es : nat -> nat -> C) (res : list (list C)) (hnext : C) : bool :=
  let ritz := (Cabs (nth k (nth 0 res []) C0) * Cabs hnext)%R in
  let p_err := match min_diff o k es with
               | None => 0%R
               | Some d => let gap := Rmax d (a_min_gap o) in (ritz / gap * (ritz / gap))%R
               end in
  let delta_e0 := Csub (es (k - 1) 0) (es k 0) in
  Rltb p_err (a_P_tol o) && (match a_E_tol o with None => true | Some t => Rltb (fst delta_e0) t end).

(** Arnoldi::_calc_result_full_multi: lines 627-667 *)
Definition combine_basis (V : Type) (h : hspace V) (cache : list V) (N : nat) (vf : list C) : V :=
  fold_left (fun p k => hadd h p (hscale h (nth k vf C0) (nth k cache (hzero h)))) (seq 1 (N - 1)) (hscale h (nth 0 vf C0) (nth 0 cache (hzero h))).
Definition full_multi (V : Type) (h : hspace V) (o : aopts) (N : nat) (s : astate V) : option (list V) :=
  if length (s_cache s) <? N then None
  else Some (map (fun i => let psi := combine_basis h (s_cache s) N (nth i (s_res s) []) in rscale h (/ hnorm h psi) psi) (seq 0 (Nat.min N (a_num_ev o)))).
(** Arnoldi::run: lines 540-562, and the object afterwards.  (For num_ev > N_max, Es_at reads beyond the row: zeros in the first run, or undefined behaviour) *)
Definition arnoldi_run (V : Type) (h : hspace V) (H : V -> V) (o : aopts) (eig : eig_fun) (srt : sort_fun) (shift : option R) (x : aobj V)
  : option (list C * list V * nat * aobj V) :=
  match a_build h H o (arnoldi_calc o eig srt) (arnoldi_conv o) x with
  | None => None
  | Some (psi0, N, s) =>
      let E0 := map (fun i => let e := s_es s (N - 1) i in match shift with Some e' => Csub e (RtoC e') | None => e end) (seq 0 (a_num_ev o)) in
      let x' := AObj psi0 (s_cache s) (s_h s) (s_es s) in
      if N =? 1 then Some (E0, [psi0], N, x')
      else match full_multi h o N s with Some psis => Some (E0, psis, N, x') | None => None end
  end.
(** the object made by the constructors: lines 259-299 and 532-538 *)
Definition zeros2 : nat -> nat -> C := fun _ _ => C0.
Definition new_obj (V : Type) (psi0 : V) : aobj V := AObj psi0 [] zeros2 zeros2.
(** Arnoldi(H, psi0, options).run(), and what the caller's operator has become *)
Definition arnoldi (V T : Type) (h : hspace V) (to : tensor_ops V T) (o : aopts) (eig : eig_fun) (srt : sort_fun) (shift : option R) (A : linop V T) (psi0 : V)
  : option (list C * list V * nat) * linop V T :=
  if a_valid o then
    let '(A1, A2) := krylov_init A shift in
    (match arnoldi_run h (matvec h to A1) o eig srt shift (new_obj psi0) with Some (E, psis, N, _) => Some (E, psis, N) | None => None end, A2)
  else (None, A).

(** ArnoldiEvolution::_calc_result_krylov: lines 737-772 *)
Definition aevo_calc (eig : eig_fun) (solve : solve_fun) (delta : C) (k : nat) (m : nat -> nat -> C) : option (list C * list (list C) * R) :=
  match k with
  | 0 => let e := Cexp (Cmul delta (m 0 0)) in let n := Cabs e in Some ([], [[Cmul (RtoC (/ n)) e]], n)
  | _ => let n := k + 1 in
         let '(E, v) := eig n (submatrix n m) in
         match solve n v (fun i => if i =? 0 then C1 else C0) with
         | None => None
         | Some c =>
             let x := map (fun i => csumn n (fun j => Cmul (v i j) (Cmul (Cexp (Cmul (nth j E C0) delta)) (c j)))) (seq 0 n) in
             let nrm := sqrt (fold_right Rplus 0%R (map Cnorm2 x)) in
             if Req_EM_T nrm 0 then None else Some ([], [map (Cmul (RtoC (/ nrm))) x], nrm)
         end
  end.
(** ArnoldiEvolution::_converged: lines 774-778 *)
Definition aevo_conv (o : aopts) (k : nat) (es : nat -> nat -> C) (res : list (list C)) (hnext : C) : bool := Rltb (Cabs (nth k (nth 0 res []) C0)) (a_P_tol o).
(** ArnoldiEvolution::run: lines 700-735, with _reset_krylov_state (lines 301-307) and _calc_result_full_evolution (780-801).
    [pn]: _psi0_norm, the norm of the original psi0 (line 708); the result is (vector, N) and the new psi0 of the object *)
Definition aevo_run (V : Type) (h : hspace V) (H : V -> V) (o : aopts) (eig : eig_fun) (solve : solve_fun) (pn : R) (psi0 : V) (delta : C) (normalize : option bool)
  : option (V * nat * V) :=
  match a_build h H o (aevo_calc eig solve delta) (aevo_conv o) (new_obj psi0) with
  | None => None
  | Some (psi0', N, s) =>
      let vf := nth 0 (s_res s) [] in
      let full := if N =? 1 then Some (hscale h (nth 0 vf C0) psi0')
                  else if length (s_cache s) <? N then None
                  else let psi := combine_basis h (s_cache s) N vf in Some (rscale h (/ hnorm h psi) psi) in
      match full with
      | None => None
      | Some r => Some (if (match normalize with Some b => b | None => false end) then r else rscale h (pn * s_rn s)%R r, N, psi0')
      end
  end.
