(** Laws of the data that bends and twists use (C61). *)
From Verif Require Import Util RowModel SymModel CatSpec TreeModel PermLegsModel MoveModel.
Set Implicit Arguments. Unset Strict Implicit.
Open Scope nat_scope.

(** B symbols, roots of the quantum dimensions, Frobenius-Schur indicators *)
Record bend_data (S : symmetry) (K : Type) (o : ops K) (B : Bsym K) (sqrt_qdim inv_sqrt_qdim fs : sector -> K) : Prop := {
  bd_inverse : forall a z c, sym_valid S a = true -> sym_valid S z = true -> In c (sym_outcomes S a z) -> forall mu mu', mu < n_symbol S a z c -> mu' < n_symbol S a z c ->
    omul o (sumn o (n_symbol S c (sym_dual S z) a) (fun nu => omul o (B a z c mu nu) (oconj o (B c (sym_dual S z) a nu mu')))) (fs z) = if mu =? mu' then o1 o else o0 o;
  bd_qdim : forall a, sym_valid S a = true -> omul o (sqrt_qdim a) (inv_sqrt_qdim a) = o1 o;
  bd_trivial : sqrt_qdim (sym_trivial S) = o1 o /\ fs (sym_trivial S) = o1 o;
  bd_fs : forall a, sym_valid S a = true -> omul o (fs a) (fs a) = o1 o /\ oconj o (fs a) = fs a /\ fs (sym_dual S a) = fs a;
}.
(** unit modulus of the topological twists *)
Definition twist_unitary (S : symmetry) (K : Type) (o : ops K) (theta : sector -> K) : Prop := forall a, sym_valid S a = true -> omul o (theta a) (oconj o (theta a)) = o1 o.
(** the default B symbol of the code: base_symmetry.cpp:398-404, B(a, b, c) = conj F(a, b, bbar, a; 1, c)[0, 0, :, :] sqrt(d_b) *)
Definition default_b_symbol (S : symmetry) (K : Type) (o : ops K) (F : Fsym K) (sqrt_qdim : sector -> K) : Bsym K :=
  fun a b c mu nu => omul o (oconj o (F a b (sym_dual S b) a (sym_trivial S) c 0 0 mu nu)) (sqrt_qdim b).
(** the topological twist of the code: base_symmetry.cpp:422-445, sum_b d_b / d_a sum_mu R(a, a, b)[mu] (the branches for trivial and symmetric braids return the same number rounded) *)
Definition topological_twist (S : symmetry) (K : Type) (o : ops K) (R : Rsym K) (qdim inv_qdim : sector -> K) (a : sector) : K :=
  omul o (osum o (map (fun b => omul o (qdim b) (sumn o (n_symbol S a a b) (fun mu => R a a b mu))) (sym_outcomes S a a))) (inv_qdim a).
(** the opposite move *)
Definition invert (i : instruction) : instruction :=
  match i with Braid c idx over => Braid c idx (negb over) | Bend down => Bend (negb down) | Twist c idcs over => Twist c idcs (negb over) end.
