(** Model of the selection of singular values (src/backends/tensor_backend.cpp:138-240, cyten/tools/misc.py:146-157) and of the
    renormalisation in truncated_svd (src/tensors/decompositions.cpp:674-711).  Singular values are real numbers (float64 in the code).
    np.argsort uses an unstable sort: the sorting permutation [piv] is a parameter, the theorems hold for every sorting permutation. *)
From Verif Require Import Util.
From Coq Require Import Reals.
Set Implicit Arguments. Unset Strict Implicit.
Open Scope nat_scope.

Definition Rleb (x y : R) : bool := if Rle_dec x y then true else false.
Definition Rltb (x y : R) : bool := if Rlt_dec x y then true else false.
Definition rsum (l : list R) : R := fold_right Rplus 0%R l.

Record trunc_params := TruncParams {
  chi_max : option Z; chi_min : Z; degeneracy_tol : R; trunc_cut : R; svd_min : option R; minimize_error : bool }.

(* tensor_backend.cpp:160-166: qdims = None means all are one *)
Definition marginal_errs (S : list R) (qdims : option (list R)) : list R :=
  match qdims with
  | None => map (fun s => s ^ 2)%R S
  | Some q => map (fun p => fst p * snd p ^ 2)%R (combine q S)
  end.
(* a[start:] = v for a 1D array, [start] may be negative *)
Definition set_from (start : Z) (v : bool) (a : list bool) : list bool :=
  let n := Z.of_nat (length a) in
  let b := Z.to_nat (if (start <? 0)%Z then Z.max 0 (n + start) else Z.min start n) in
  firstn b a ++ repeat v (length a - b).
(* misc.py:146-157; the warning is not modelled *)
Definition combine_constraints (good1 good2 : list bool) : list bool :=
  let res := map (fun p => andb (fst p) (snd p)) (combine good1 good2) in
  if existsb (fun b => b) res then res else good1.
(* np.cumsum *)
Definition cumsum (l : list R) : list R := map (fun i => rsum (firstn (S i) l)) (seq 0 (length l)).
(* np.nonzero_idcs(good)[0] *)
Definition nonzero_idcs (l : list bool) : list nat := filter (fun i => nth i l false) (seq 0 (length l)).

(* tensor_backend.cpp:168-229: the boolean array [good]; [S], [errs] are already sorted *)
Definition good_cuts (S errs : list R) (p : trunc_params) : list bool :=
  let n := length S in
  let clipped := map (fun s => if Rleb s (/ 10 ^ 100) then (/ 10 ^ 100)%R else s) S in
  let logS := map ln clipped in
  let good := repeat true n in
  let good := match chi_max p with
              | Some c => if (c <? Z.of_nat n)%Z then combine_constraints good (set_from (- c) true (repeat false n)) else good
              | None => good end in
  let good := if (1 <? chi_min p)%Z then combine_constraints good (set_from (- chi_min p + 1) false (repeat true n)) else good in
  let good := if Rltb 0 (degeneracy_tol p)
              then combine_constraints good (true :: map (fun d => Rleb (degeneracy_tol p) d)
                                                         (map (fun q => (fst q - snd q)%R) (combine (tl logS) (removelast logS))))
              else good in
  let good := match svd_min p with
              | Some m => combine_constraints good (map (fun s => Rleb m s) S)
              | None => good end in
  combine_constraints good (map (fun x => Rltb (trunc_cut p * trunc_cut p)%R x) (cumsum errs)).

(* tensor_backend.cpp:138-240; [None] = IndexError (no values) *)
Definition truncate_selection (S : list R) (qdims : option (list R)) (piv : list nat) (p : trunc_params) : option (list bool * R * R) :=
  let errs := take 0%R (marginal_errs S qdims) piv in
  let S := take 0%R S piv in
  let nz := nonzero_idcs (good_cuts S errs p) in
  match nz with
  | [] => None
  | c :: _ =>
      let cut := if minimize_error p then c else last nz 0 in
      let err := rsum (firstn cut errs) in
      let new_norm := rsum (skipn cut errs) in
      (* np.put(mask, piv[cut:], True) *)
      let mask := fold_left (fun m i => upd m i true) (skipn cut piv) (repeat false (length S)) in
      Some (mask, err, new_norm)
  end.

(* decompositions.cpp:687-709: the singular values after truncation, for normalize_to = v; [S_norm] is the norm of all of them *)
Definition truncated_values (S : list R) (S_norm : R) (piv : list nat) (p : trunc_params) (v : R) : option (list R) :=
  let S_normed := map (fun s => s / S_norm)%R S in
  match truncate_selection S_normed None piv p with
  | None => None
  | Some (mask, err, new_norm) =>
      let renormalize := (v / S_norm / new_norm)%R in
      Some (map (fun q => (fst q * renormalize)%R) (filter (fun q => snd q) (combine S mask)))
  end.
