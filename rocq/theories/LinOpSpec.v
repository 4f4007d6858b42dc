(** What a user of the linear operators expects. *)
From Coq Require Import Reals List Arith.
From Verif Require Import Cplx Hilbert LinOpModel.
Import ListNotations.
Set Implicit Arguments. Unset Strict Implicit.

(** the two-leg tensors behave as matrices *)
Record tensor_laws (V T : Type) (h : hspace V) (to : tensor_ops V T) : Prop := {
  tl_linear : forall w t, linear h (t_dot to w t);
  tl_swap : forall t v, t_dot to 1 (t_swap to t) v = t_dot to 0 t v;
  tl_dagger : forall w t, adjoint_pair h (t_dot to w t) (t_dot to w (t_dagger to t));
  tl_comb : forall a s b t v, t_dot to 1 (t_comb to a s b t) v = hadd h (hscale h a (t_dot to 1 s v)) (hscale h b (t_dot to 1 t v));
  tl_eye : forall v, t_dot to 1 (t_eye to) v = v }.

Section Spec.
  Variables (V T : Type) (h : hspace V).
  (** sum_o |o> <o| v *)
  Fixpoint span_part (os : list V) (v : V) : V :=
    match os with [] => hzero h | o :: os => hadd h (hscale h (hinner h o v) o) (span_part os v) end.
  (** P = 1 - sum_o |o><o| *)
  Definition projector (os : list V) (v : V) : V := hsub h v (span_part os v).

  (** an operator tree is well formed: valid leg numbers, user-defined operators satisfy P *)
  Fixpoint all_custom (P : (V -> V) -> (V -> V) -> Prop) (A : linop V T) : Prop :=
    match A with
    | OTensor _ w => w = 0 \/ w = 1
    | OCustom f g => P f g
    | OWrap A | OShift A _ | OProj A _ _ _ => all_custom P A
    | OSum A more => all_custom P A /\ fold_right (fun op acc => all_custom P op /\ acc) True more
    end.
  (** the vectors of every projected operator in the tree are pairwise orthogonal *)
  Fixpoint all_orthogonal (A : linop V T) : Prop :=
    match A with
    | OTensor _ _ | OCustom _ _ => True
    | OWrap A | OShift A _ => all_orthogonal A
    | OProj A os project _ => all_orthogonal A /\ (project = true -> orthogonal h os)
    | OSum A more => all_orthogonal A /\ fold_right (fun op acc => all_orthogonal op /\ acc) True more
    end.
  (** neither projected nor user-defined operators inside *)
  Fixpoint has_tensor (A : linop V T) : Prop :=
    match A with
    | OTensor _ _ => True | OCustom _ _ => False | OProj _ _ _ _ => False
    | OWrap A | OShift A _ => has_tensor A
    | OSum A more => has_tensor A /\ fold_right (fun op acc => has_tensor op /\ acc) True more
    end.
  (** the mathematical operator *)
  Definition sum_ops (fs : list (V -> V)) (v : V) : V := fold_right (fun f acc => hadd h (f v) acc) (hzero h) fs.
  (** v is a linear combination of l *)
  Definition in_span (l : list V) (v : V) : Prop := exists c, length c = length l /\ v = lincomb h c l.
  (** the number of wrappers around the core *)
  Fixpoint depth (A : linop V T) : nat := match A with OWrap A | OSum A _ | OShift A _ | OProj A _ _ _ => S (depth A) | _ => 0 end.
  Fixpoint core (A : linop V T) : linop V T := match A with OWrap A | OSum A _ | OShift A _ | OProj A _ _ _ => core A | _ => A end.
  (** inner product of the direct sum *)
  Definition sum_inner (x y : list V) : C := fold_right Cadd C0 (map (fun p => hinner h (fst p) (snd p)) (combine x y)).
End Spec.
