(** Comparison of symmetries: src/symmetries/symmetry.cpp:200-236, 670-687 and the virtual
    methods [_is_equivalent_factor] of the factor classes. *)
From Coq Require Import String.
From Verif Require Import Util.
Set Implicit Arguments.
Unset Strict Implicit.
Open Scope Z_scope.

(** the concrete factor classes (include/cyten/symmetries/factors/*.h) with the members that
    distinguish instances; handedness is a string in the code, one of "left", "right" after
    validation.  [ToricCode] is a subclass of QuantumDouble with N = 2. *)
Inductive fkind :=
| KU1 | KZN (N : Z) | KFermionParity | KFermionNumber | KNoSymmetry | KSU2 | KSUN (N : Z)
| KSU2_k (k : Z) (right_handed : bool) | KFibonacci (right_handed : bool) | KIsing (nu : Z) | KSU3_3
| KZNAnyon (N n : Z) | KZNAnyon2 (N n : Z) | KQuantumDouble (N : Z) | KToricCode.

(** dynamic_cast<QuantumDoubleZNAnyonCategory const*>(&other) and its member N *)
Definition as_quantum_double (g : fkind) : option Z :=
  match g with KQuantumDouble N => Some N | KToricCode => Some 2 | _ => None end.

(** _is_equivalent_factor of: u1.cpp:88-91, zn.cpp:140-146, fermion_parity.cpp:118-121,
    fermion_number.cpp:103-106, no_symmetry.cpp:79-82, su2.cpp:127-130, sun.cpp:164-170,
    su2_k_anyon_category.cpp:235-241, fibonacci_anyon_category.cpp:193-199,
    ising_anyon_category.cpp:236-242, su3_3_anyon_category.cpp:429-432,
    zn_anyon_category.cpp:143-149, zn_anyon_category2.cpp:151-157,
    quantum_double_zn_anyon_category.cpp:157-163, toric_code_category.cpp:27-33 *)
Definition is_equivalent_factor (f g : fkind) : bool :=
  match f with
  | KU1 => match g with KU1 => true | _ => false end
  | KZN N => match g with KZN M => M =? N | _ => false end
  | KFermionParity => match g with KFermionParity => true | _ => false end
  | KFermionNumber => match g with KFermionNumber => true | _ => false end
  | KNoSymmetry => match g with KNoSymmetry => true | _ => false end
  | KSU2 => match g with KSU2 => true | _ => false end
  | KSUN N => match g with KSUN M => M =? N | _ => false end
  | KSU2_k k h => match g with KSU2_k k' h' => (k' =? k) && Bool.eqb h' h | _ => false end
  | KFibonacci h => match g with KFibonacci h' => Bool.eqb h' h | _ => false end
  | KIsing nu => match g with KIsing nu' => nu' =? nu | _ => false end
  | KSU3_3 => match g with KSU3_3 => true | _ => false end
  | KZNAnyon N n => match g with KZNAnyon N' n' => (N' =? N) && (n' =? n) | _ => false end
  | KZNAnyon2 N n => match g with KZNAnyon2 N' n' => (N' =? N) && (n' =? n) | _ => false end
  | KQuantumDouble N => match as_quantum_double g with Some M => M =? N | None => false end
  | KToricCode => match as_quantum_double g with Some M => M =? 2 | None => false end
  end.

(** a factor as it occurs in a product: class plus optional descriptive name *)
Record nfactor := NFactor { nf_kind : fkind; nf_name : option string }.

Definition opt_string_eqb (a b : option string) : bool :=
  match a, b with
  | None, None => true
  | Some x, Some y => String.eqb x y
  | _, _ => false
  end.
(** symmetry_factor.cpp:87-94 *)
Definition factor_equals (f g : nfactor) : bool :=
  if negb (opt_string_eqb (nf_name f) (nf_name g)) then false
  else is_equivalent_factor (nf_kind f) (nf_kind g).

Open Scope nat_scope.
Section Loops.
  Variable A : Type.
  Variable eqv : A -> A -> bool.

  (** symmetry.cpp:209-216, 675-681: element by element *)
  Fixpoint all_match (fs gs : list A) : bool :=
    match fs, gs with
    | [], _ => true
    | f :: fs', g :: gs' => if negb (eqv f g) then false else all_match fs' gs'
    | _, [] => false
    end.

  (** symmetry.cpp:220-229: the first unmatched, equivalent position *)
  Fixpoint find_match (f : A) (matched : list bool) (gs : list A) : option nat :=
    match matched, gs with
    | m :: ms, g :: gs' =>
        if m then option_map S (find_match f ms gs')
        else if eqv f g then Some 0
        else option_map S (find_match f ms gs')
    | _, _ => None
    end.
  (** symmetry.cpp:217-235 *)
  Fixpoint match_loop (fs : list A) (matched : list bool) (gs : list A) : bool :=
    match fs with
    | [] => true
    | f :: fs' =>
        match find_match f matched gs with
        | Some i => match_loop fs' (upd matched i true) gs
        | None => false
        end
    end.
End Loops.

(** symmetry.cpp:200-236 *)
Definition is_equivalent_to (fs gs : list nfactor) (strict_ordering : bool) : bool :=
  let eqv := fun f g => is_equivalent_factor (nf_kind f) (nf_kind g) in
  if negb (length fs =? length gs) then false
  else if strict_ordering then all_match eqv fs gs
  else match_loop eqv fs (repeat false (length gs)) gs.

(** symmetry.cpp:670-687 *)
Definition sym_equals (fs gs : list nfactor) : bool :=
  if negb (length fs =? length gs) then false else all_match factor_equals fs gs.
