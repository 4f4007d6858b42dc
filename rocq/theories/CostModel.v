(* Model of src/tools/cost_polynomials.cpp: symbolic big-O cost monomials and polynomials.
   Simplifications: int64 exponents are integers (no overflow); the string parser/printer and hashing are not modelled. *)
From Coq Require Import List ZArith Lia Bool Ascii.
From Verif Require Import Util LexOrder.
Import ListNotations.
Set Implicit Arguments.
Unset Strict Implicit.
Open Scope Z_scope.

Notation symbol := (list ascii).
Definition sym_compare : symbol -> symbol -> comparison := list_compare ascii_compare.
Lemma sym_cmp : cmp_laws sym_compare.
Proof. exact (list_cmp ascii_cmp). Qed.

(* cost_polynomials.h:23: std::map<std::string, int64>, ordered by key; operator[] defaults to 0 *)
Notation mono := (list (list ascii * Z)).
Fixpoint exponent (m : mono) (x : symbol) : Z :=
  match m with [] => 0 | (k, e) :: r => match sym_compare k x with Eq => e | _ => exponent r x end end.
(* factors[s] += e *)
Fixpoint add_factor (m : mono) (x : symbol) (e : Z) : mono :=
  match m with
  | [] => [(x, 0 + e)]
  | (k, n) :: r => match sym_compare x k with
                   | Lt => (x, 0 + e) :: m
                   | Eq => (k, n + e) :: r
                   | Gt => (k, n) :: add_factor r x e
                   end
  end.

(* cost_polynomials.cpp:68-75 *)
Definition mono_mul (a b : mono) : mono := fold_left (fun m f => add_factor m (fst f) (snd f)) b a.
(* cost_polynomials.cpp:77-91: both loops *)
Definition mono_eqb (a b : mono) : bool :=
  forallb (fun f => exponent b (fst f) =? snd f) a && forallb (fun f => exponent a (fst f) =? snd f) b.
(* cost_polynomials.cpp:99-103: std::map operator<, lexicographic over (key, exponent) pairs *)
Definition mono_compare : mono -> mono -> comparison := list_compare (pair_compare sym_compare Z.compare).
(* cost_polynomials.cpp:135-156 (no relations given; relations throw NotImplemented) *)
Definition is_negligible (t : mono) (others : list mono) : bool :=
  existsb (fun u => forallb (fun f => snd f <=? exponent u (fst f)) t) others.

(* std::set<BigOMonomial>: strictly increasing list *)
Definition insert_mono := set_insert mono_compare.
Definition to_set (l : list mono) : list mono := set_of_list mono_compare l.

(* cost_polynomials.cpp:164-181 *)
Definition simplify (terms : list mono) : list mono :=
  fold_left (fun acc t =>
    let others := filter (fun u => negb (mono_eqb u t)) terms in
    if is_negligible t others then acc else insert_mono t acc) terms [].
(* cost_polynomials.cpp:158-161 (constructor from a set of terms) *)
Definition poly (terms : list mono) : list mono := simplify (to_set terms).

(* cost_polynomials.cpp:62-66, 223-233 *)
Definition mono_add (a b : mono) : list mono := poly [a; b].
Definition poly_add (p q : list mono) : list mono := poly (p ++ q).
(* cost_polynomials.cpp:241-249 *)
Definition products (p q : list mono) : list mono := flat_map (fun m1 => map (fun m2 => mono_mul m1 m2) q) p.
Definition poly_mul (p q : list mono) : list mono := poly (products p q).
(* cost_polynomials.cpp:300-309 *)
Fixpoint poly_prod (p : list mono) (others : list (list mono)) : list mono :=
  match others with
  | [] => p
  | [q] => poly_mul p q
  | q :: rest => poly_prod (poly_mul p q) rest
  end.
