(** Model of the linear solver GMRES of src/tensors/krylov_based.cpp, lines 358-527.
    Simplifications: exact arithmetic; vectors are elements of an abstract inner product space; the option dictionary is a record; the two dimensional
    array H is stored by columns (column k has the entries 0, ..., k+1, all others are zero); [None] as a result stands for NaN: the C++ code divides by
    zero, and every entry of the solution (and the returned error) is NaN. *)
From Coq Require Import Reals List Arith Bool.
From Verif Require Import Util Cplx Hilbert LinOpModel KrylovModel.
Import ListNotations.
Set Implicit Arguments. Unset Strict Implicit.
Open Scope nat_scope.

(** std::sqrt of a complex number: the principal square root *)
Definition Csqrt (z : C) : C :=
  let r := Cabs z in
  (sqrt ((r + fst z) / 2), (if Rlt_dec (snd z) 0 then - sqrt ((r - fst z) / 2) else sqrt ((r - fst z) / 2)))%R.
(** complex division *)
Definition Cinv (z : C) : C := (fst z / Cnorm2 z, - snd z / Cnorm2 z)%R.
Definition Cdiv (a b : C) : C := Cmul a (Cinv b).
Definition Ceqb (a b : C) : bool := if Req_EM_T (fst a) (fst b) then if Req_EM_T (snd a) (snd b) then true else false else false.

(** the options, lines 370-373 (default values 5, 20, 10, 1e-8) *)
Record gopts := GOpts { g_N_min : nat; g_N_max : nat; g_restart : nat; g_res : R }.

Section Gmres.
  Variables (V : Type) (h : hspace V) (A : V -> V) (b : V) (o : gopts).

  (** the modified Gram-Schmidt loop of arnoldi, lines 459-463, is [project_coeffs] (LinOpModel): hik = <q_i, q>; q = -hik * q_i + q.
      The whole of GMRES::arnoldi, lines 455-470: the new column of H and the new vector *)
  Definition g_arnoldi (k : nat) (qs : list V) : list C * V :=
    let q := A (last qs (hzero h)) in
    let '(hs, q) := project_coeffs h (firstn (k + 1) qs) q in
    let h_next := hnorm h q in
    (hs ++ [RtoC h_next], if Rlt_dec 0 h_next then rscale h (/ h_next) q else q).
  (** one rotation of the loop of apply_givens_rotation, lines 476-482 *)
  Definition rotate (col : list C) (i : nat) (cs sn : list C) : list C :=
    let c := nth i cs C0 in let s := nth i sn C0 in
    let a := nth i col C0 in let d := nth (S i) col C0 in
    upd (upd col (S i) (Cadd (Cmul (Copp s) a) (Cmul c d))) i (Cadd (Cmul c a) (Cmul s d)).
  (** GMRES::givens_rotation, lines 490-499; None = division by zero *)
  Definition givens_rotation (k : nat) (col : list C) : option (C * C) :=
    let v1 := nth k col C0 in let v2 := nth (S k) col C0 in
    let t := Csqrt (Cadd (Cmul v1 v1) (Cmul v2 v2)) in
    if Ceqb t C0 then None else Some (Cdiv v1 t, Cdiv v2 t).
  (** GMRES::apply_givens_rotation, lines 472-488: the new column, cosine and sine *)
  Definition apply_givens (k : nat) (cs sn : list C) (col : list C) : option (list C * C * C) :=
    let col := fold_left (fun col i => rotate col i cs sn) (seq 0 k) col in
    match givens_rotation k col with
    | None => None
    | Some (c, s) => Some (upd (upd col k (Cadd (Cmul c (nth k col C0)) (Cmul s (nth (S k) col C0)))) (S k) C0, c, s)
    end.
  (** GMRES::backsolve, lines 501-514: rows i - 1, ..., 0 remain, [acc] is y_i, ..., y_(k-1) *)
  Definition hent (cols : list (list C)) (i j : nat) : C := nth i (nth j cols []) C0.
  Fixpoint backsolve (k : nat) (cols : list (list C)) (e : list C) (i : nat) (acc : list C) : option (list C) :=
    match i with
    | 0 => Some acc
    | S i' => let y := fold_left (fun y j => Csub y (Cmul (hent cols i' j) (nth (j - i) acc C0))) (seq i (k - i)) (nth i' e C0) in
              if Ceqb (hent cols i' i') C0 then None else backsolve k cols e i' (Cdiv y (hent cols i' i') :: acc)
    end.

  (** qs, the columns of H, cosine, sine, e1, and the errors of this cycle (total_error.back()) *)
  Record gstate := GState { g_qs : list V; g_cols : list (list C); g_cs : list C; g_sn : list C; g_e : list C; g_errs : list R }.
  Definition b_norm : R := hnorm h b.
  Definition denom : R := if Req_EM_T b_norm 0 then 1%R else b_norm.
  (** one round of the loop of GMRES::run: lines 418-428 *)
  Definition g_step (k : nat) (s : gstate) : option gstate :=
    let '(col, q) := g_arnoldi k (g_qs s) in
    match apply_givens k (g_cs s) (g_sn s) col with
    | None => None
    | Some (col, c, sn) =>
        let ek := nth k (g_e s) C0 in
        let e := upd (upd (g_e s) (S k) (Cmul (Copp sn) ek)) k (Cmul c ek) in
        let error := (Cabs (nth (S k) e C0) / denom)%R in
        Some (GState (g_qs s ++ [q]) (g_cols s ++ [col]) (g_cs s ++ [c]) (g_sn s ++ [sn]) e (g_errs s ++ [error]))
    end.
  (** the loop, lines 417-434; the result is (state, performed, converged) *)
  Fixpoint g_loop (fuel k : nat) (s : gstate) : option (gstate * nat * bool) :=
    match fuel with
    | 0 => Some (s, k, false)
    | S fuel =>
        match g_step k s with
        | None => None
        | Some s => if Rltb (last (g_errs s) 0%R) (g_res o) && (g_N_min o <=? k) then Some (s, S k, true) else g_loop fuel (S k) s
        end
    end.
  (** the constructor, lines 375-386, and reset with _init_hessenberg, lines 389-397 and 516-527 *)
  Definition g_init (x : V) : gstate :=
    let r := hsub h b (A x) in
    let r_norm := hnorm h r in
    let q := if Rlt_dec 0 r_norm then rscale h (/ r_norm) r else r in
    GState [q] [] [] [] (RtoC r_norm :: repeat C0 (g_N_max o)) [(r_norm / denom)%R].
  (** one restart cycle, lines 413-441: the new x, converged, the errors, performed *)
  Definition g_cycle (x : V) : option (V * bool * list R * nat) :=
    match g_loop (g_N_max o) 0 (g_init x) with
    | None => None
    | Some (s, performed, converged) =>
        match backsolve performed (g_cols s) (g_e s) performed [] with
        | None => None
        | Some y => Some (fold_left (fun x i => hadd h x (hscale h (nth i y C0) (nth i (g_qs s) (hzero h)))) (seq 0 performed) x, converged, g_errs s, performed)
        end
    end.
  (** lines 412-447; [n] cycles remain; [errs]: the finished rows of total_error.  After a cycle without convergence reset() appends the row of the next
      cycle, which starts with the error of the new x; the row exists also if no cycle remains. *)
  Definition start_error (x : V) : R := (hnorm h (hsub h b (A x)) / denom)%R.
  Fixpoint g_cycles (n : nat) (x : V) (errs : list (list R)) (iters : list nat) : option (V * list (list R) * list nat) :=
    match n with
    | 0 => Some (x, errs ++ [[start_error x]], iters)
    | S n =>
        match g_cycle x with
        | None => None
        | Some (x, converged, e, performed) =>
            if converged then Some (x, errs ++ [e], iters ++ [performed]) else g_cycles n x (errs ++ [e]) (iters ++ [performed])
        end
    end.
  (** GMRES::GMRES followed by GMRES::run, lines 405-453 *)
  Definition gmres (x : V) : option (V * R * list (list R) * list nat) :=
    if Rltb (start_error x) (g_res o) then Some (x, start_error x, [[start_error x]], [])
    else match g_cycles (g_restart o) x [] [] with
         | None => None
         | Some (x, errs, iters) => Some (x, (hnorm h (hsub h (A x) b) / denom)%R, errs, iters)
         end.
End Gmres.
