(** Model of the linear operators of src/tensors/sparse.cpp and the direct-sum vectors of src/tensors/direct_sum.cpp.
    Simplifications: vectors are elements of an abstract complex inner product space (exact arithmetic instead of floats); dtypes, legs, labels and
    the constructor checks on them are left out; a two-leg tensor is accessed only through the four tensor operations used here ([tensor_ops]). *)
From Coq Require Import Reals List Arith Bool.
From Verif Require Import Cplx Hilbert.
Import ListNotations.
Set Implicit Arguments. Unset Strict Implicit.
Open Scope nat_scope.

(** The operations on two-leg tensors used by src/tensors/sparse.cpp *)
Record tensor_ops (V T : Type) := TensorOps {
  t_dot : nat -> T -> V -> V;           (* tdot(tensor, vec, {which_leg}, {0}) *)
  t_swap : T -> T;                      (* permute_legs(tensor, {1}, {0}) *)
  t_dagger : T -> T;                    (* dagger(tensor) *)
  t_comb : C -> T -> C -> T -> T;       (* linear_combination(a, x, b, y) *)
  t_eye : T }.                          (* SymmetricTensor::from_eye *)

Section LinOp.
  Variables (V T : Type) (h : hspace V) (to : tensor_ops V T).

  (** The operator classes of sparse.cpp. [OTensor t w]: TensorLinearOperator with which_leg = w (lines 68-102).  [OCustom f g]: a user-defined subclass
      with matvec f whose adjoint has matvec g.  [OWrap]: LinearOperatorWrapper (142-151).  [OSum]: SumLinearOperator (188-203).
      [OShift]: ShiftedLinearOperator (239-247).  [OProj A o project penalty]: ProjectedLinearOperator (276-292). *)
  Inductive linop :=
  | OTensor (t : T) (w : nat)
  | OCustom (f g : V -> V)
  | OWrap (A : linop)
  | OSum (A : linop) (more : list linop)
  | OShift (A : linop) (s : C)
  | OProj (A : linop) (ortho : list V) (project : bool) (penalty : option C).

  (** VectorLike::axpy(a, other) = a * self + other (include/cyten/tensors/vector_like.h) is [Hilbert.axpy];
      res = o->axpy(-<o, res>, res): sparse.cpp lines 302-304, 313-316 and 427-428 *)
  Definition project_out (o res : V) : V := axpy h (Copp (hinner h o res)) o res.
  (** sparse.cpp lines 301-305: project and remember the coefficients *)
  Fixpoint project_coeffs (os : list V) (res : V) : list C * V :=
    match os with
    | [] => ([], res)
    | o :: os => let c := hinner h o res in let '(cs, r) := project_coeffs os (axpy h (Copp c) o res) in (c :: cs, r)
    end.
  (** ProjectedLinearOperator::matvec: sparse.cpp lines 294-327 *)
  Definition proj_matvec (A : V -> V) (os : list V) (project : bool) (penalty : option C) (vec : V) : V :=
    let '(coeffs, res) := if project then project_coeffs os vec else (map (fun o => hinner h o vec) os, vec) in
    let res := A res in
    let res := if project then fold_left (fun r o => project_out o r) os res else res in
    match penalty with
    | Some p => fold_left (fun r oc => axpy h (Cmul p (snd oc)) (fst oc) r) (combine os coeffs) res
    | None => res
    end.
  (** matvec: sparse.cpp 104-119 (Tensor), 170-174 (Wrapper), 205-215 (Sum), 249-255 (Shifted), 294-327 (Projected) *)
  Fixpoint matvec (A : linop) (vec : V) : V :=
    match A with
    | OTensor t w => t_dot to w t vec
    | OCustom f _ => f vec
    | OWrap A => matvec A vec
    | OSum A more => fold_left (fun res op => axpy h C1 (matvec op vec) res) more (matvec A vec)
    | OShift A s => axpy h s vec (matvec A vec)
    | OProj A os project penalty => proj_matvec (matvec A) os project penalty vec
    end.
  (** to_tensor: sparse.cpp 121-129 (Tensor), 176-180 (Wrapper), 217-226 (Sum), 257-268 (Shifted), 329-333 (Projected: raises).
      None = an exception is raised. *)
  Fixpoint to_tensor (A : linop) : option T :=
    match A with
    | OTensor t w => if w =? 1 then Some t else Some (t_swap to t)
    | OCustom _ _ => None
    | OWrap A => to_tensor A
    | OSum A more =>
        fold_left (fun res op => match res, to_tensor op with Some r, Some o => Some (t_comb to C1 o C1 r) | _, _ => None end) more (to_tensor A)
    | OShift A s => match to_tensor A with Some r => Some (t_comb to C1 r s (t_eye to)) | None => None end
    | OProj _ _ _ _ => None
    end.
  (** adjoint: sparse.cpp 131-140 (Tensor), 182-186 (Wrapper), 228-237 (Sum), 270-274 (Shifted), 335-344 (Projected) *)
  Fixpoint adjoint (A : linop) : linop :=
    match A with
    | OTensor t w => OTensor (t_dagger to t) w
    | OCustom f g => OCustom g f
    | OWrap A => OWrap (adjoint A)
    | OSum A more => OSum (adjoint A) (map adjoint more)
    | OShift A s => OShift (adjoint A) (Cconj s)
    | OProj A os project penalty => OProj (adjoint A) os project (match penalty with Some p => Some (Cconj p) | None => None end)
    end.

  (** LinearOperatorWrapper::unwrapped (sparse.cpp 153-168); [original] is the field original_operator, None if the operator is not a wrapper.
      kMaxUnwrapDepth = 10000 (line 17). *)
  Definition original (A : linop) : option linop :=
    match A with OWrap A | OSum A _ | OShift A _ | OProj A _ _ _ => Some A | _ => None end.
  Fixpoint unwrap_loop (fuel : nat) (parent : linop) : option linop :=
    match fuel with
    | 0 => None
    | S fuel => match original parent with None => Some parent | Some p => unwrap_loop fuel p end
    end.
  Definition kMaxUnwrapDepth : nat := 10 * 10 * 10 * 10.
  Definition unwrapped (A : linop) (recursive : bool) : option linop :=
    match original A with
    | None => None   (* not a LinearOperatorWrapper: no such method *)
    | Some parent => if recursive then unwrap_loop kMaxUnwrapDepth parent else Some parent
    end.

  (** DirectSumLinearOperator::matvec (sparse.cpp 377-401): None = invalid_argument *)
  Definition ds_matvec (ops : list linop) (v : list V) : option (list V) :=
    if length v =? length ops then Some (map (fun p => matvec (fst p) (snd p)) (combine ops v)) else None.
  (** DirectSumLinearOperator::adjoint (409-418) *)
  Definition ds_adjoint (ops : list linop) : list linop := map adjoint ops.

  (** gram_schmidt (sparse.cpp 420-436) *)
  Definition gs_step (rcond : R) (res : list V) (in_vec : V) : list V :=
    let vec := fold_left (fun vec other => project_out other vec) res in_vec in
    let n := hnorm h vec in
    if Rlt_dec rcond n then res ++ [rscale h (/ n) vec] else res.
  Definition gram_schmidt (vecs : list V) (rcond : R) : list V := fold_left (gs_step rcond) vecs [].
End LinOp.
Arguments OTensor {V T}. Arguments OCustom {V T}. Arguments OWrap {V T}. Arguments OSum {V T}. Arguments OShift {V T}. Arguments OProj {V T}.

(** DirectSum vectors (src/tensors/direct_sum.cpp): vector_norm 113-123, vector_inner 125-134, scaled 136-145, axpy 147-159.
    None = invalid_argument (size mismatch, 97-111).  The constructor (29-54) rejects an empty list. *)
Section DirectSum.
  Variables (V : Type) (h : hspace V).
  Definition ds_norm (x : list V) : R :=
    match x with [] => 0%R | x0 :: xs => sqrt (fold_left (fun acc t => acc + hnorm h t * hnorm h t)%R xs (hnorm h x0 * hnorm h x0)%R) end.
  Definition ds_inner (x y : list V) : option C :=
    if length y =? length x then
      match combine x y with [] => Some C0 | p :: ps => Some (fold_left (fun acc q => Cadd acc (hinner h (fst q) (snd q))) ps (hinner h (fst p) (snd p))) end
    else None.
  Definition ds_scaled (a : C) (x : list V) : list V := map (hscale h a) x.
  Definition ds_axpy (a : C) (x y : list V) : option (list V) :=
    if length y =? length x then Some (map (fun p => hadd h (hscale h a (fst p)) (hscale h C1 (snd p))) (combine x y)) else None.
End DirectSum.
