(** Specification vocabulary for C22: executing leg instructions on the legs of a tensor.
    The legs of a tensor are numbered 0 .. nc-1 (codomain, left to right), nc .. nc+nd-1 (domain, right to left). *)
From Coq Require Import ZArith List Bool.
From Verif Require Import Util PermLegsModel.
Import ListNotations.
Set Implicit Arguments. Unset Strict Implicit.
Open Scope nat_scope.

(** What happens to the legs: [Cross a b over]: neighbouring legs a, b (in leg order) exchange, a passes above b iff [over].
    [Turn legs over]: the legs are twisted together. *)
Inductive event := Cross (a b : nat) (over : bool) | Turn (legs : list nat) (over : bool).

Definition exchange (l : list nat) (i : nat) : option (nat * nat * list nat) :=
  match skipn i l with a :: b :: t => Some (a, b, firstn i l ++ b :: a :: t) | _ => None end.

(** One instruction (docs of BraidInstruction, BendInstruction and TwistInstruction in pybind/backends/py_fusion_tree_mapping.cpp:17-141).
    [None]: the instruction does not make sense for this tensor.
    In the domain an overbraid has the leg from the bottom left to the top right on top, i.e. the old leg domain[idx+1]. *)
Definition exec1 (s : list nat * list nat) (i : instruction) : option ((list nat * list nat) * list event) :=
  let (cod, dom) := s in
  match i with
  | Braid true idx over => match exchange cod idx with Some (a, b, cod') => Some ((cod', dom), [Cross a b over]) | None => None end
  | Braid false idx over => match exchange dom idx with Some (a, b, dom') => Some ((cod, dom'), [Cross b a over]) | None => None end
  | Bend true => match rev dom with x :: r => Some ((cod ++ [x], rev r), []) | [] => None end
  | Bend false => match rev cod with x :: r => Some ((rev r, dom ++ [x]), []) | [] => None end
  | Twist c idcs over =>
    let legs := if c then cod else dom in
    match idcs with
    | [] => None
    | _ => if forallb (fun k => k <? length legs) idcs then Some (s, [Turn (map (fun k => nth k legs 0) idcs) over]) else None
    end
  end.
Fixpoint exec (s : list nat * list nat) (l : list instruction) : option ((list nat * list nat) * list event) :=
  match l with
  | [] => Some (s, [])
  | i :: t => match exec1 s i with
              | None => None
              | Some (s', e) => match exec s' t with None => None | Some (s'', e') => Some (s'', e ++ e') end
              end
  end.
(** the legs of the input tensor *)
Definition legs0 (nc nd : nat) : list nat * list nat := (seq 0 nc, rev (seq nc nd)).

(** ** Requests *)
Definition memb (i : nat) (l : list nat) : bool := existsb (Nat.eqb i) l.
Record request := Request { r_nc : nat; r_nd : nat; r_cod : list nat; r_dom : list nat; r_levels : list (option Z); r_bend : list (option bool); r_sym : bool }.
(** does leg i change between codomain and domain? *)
Definition changes_side (r : request) (i : nat) : bool := if i <? r_nc r then memb i (r_dom r) else memb i (r_cod r).
Definition bends_left (r : request) (i : nat) : bool := changes_side r i && match nth i (r_bend r) None with Some true => false | _ => true end.
Definition bends_right (r : request) (i : nat) : bool := changes_side r i && match nth i (r_bend r) None with Some true => true | _ => false end.
Definition valid_request (r : request) : Prop :=
  is_perm (r_nc r + r_nd r) (r_cod r ++ rev (r_dom r)) /\ length (r_levels r) = r_nc r + r_nd r /\ length (r_bend r) = r_nc r + r_nd r /\
  forall i, i < r_nc r + r_nd r -> changes_side r i = true -> nth i (r_bend r) None <> None.
Definition run (r : request) : res (list instruction) :=
  permute_instructions (r_nc r) (r_nd r) (r_cod r) (r_dom r) (r_levels r) (r_bend r) (r_sym r).

(** ** Which legs have to cross *)
Definition before (l : list nat) (a b : nat) : Prop := exists l1 l2 l3, l = l1 ++ a :: l2 ++ b :: l3.
Definition inverted (l l' : list nat) (a b : nat) : Prop := before l a b /\ before l' b a.
(** The leg orders between the bends: first the left bending legs of the codomain are brought to the far left and the right bending ones to
    the right end of the codomain; the left bending legs continue on the far right; the domain is put into its final order with the legs that leave it
    at its ends; those that leave to the left continue on the far left; then the codomain is put into its final order. *)
Definition neither (r : request) i := negb (changes_side r i).
Definition left_out r := filter (bends_left r) (seq 0 (r_nc r)).
Definition left_in r := filter (bends_left r) (seq (r_nc r) (r_nd r)).
Definition right_in r := filter (bends_right r) (seq (r_nc r) (r_nd r)).
Definition stay_cod r := filter (neither r) (seq 0 (r_nc r)).
Definition rest1 r := stay_cod r ++ filter (bends_right r) (seq 0 (r_nc r)) ++ seq (r_nc r) (r_nd r).
Definition rest2 r := stay_cod r ++ right_in r ++ rev (r_dom r).
Definition must_cross (r : request) (a b : nat) : Prop :=
  inverted (seq 0 (r_nc r + r_nd r)) (left_out r ++ rest1 r) a b \/
  inverted (rest1 r ++ left_out r) (rest2 r ++ left_in r) a b \/
  inverted (left_in r ++ rest2 r) (r_cod r ++ rev (r_dom r)) a b.
(** levels that decide which leg goes over the other *)
Definition comparable (r : request) (a b : nat) : Prop :=
  match nth a (r_levels r) None, nth b (r_levels r) None with Some x, Some y => x <> y | _, _ => False end.
Definition higher (r : request) (a b : nat) : bool :=
  match nth a (r_levels r) None, nth b (r_levels r) None with Some x, Some y => (y <? x)%Z | _, _ => false end.

(** ** Phases: the effect on a tensor of a symmetry with one-dimensional sectors and trivial associator (pointed category).
    [q l] is the charge flowing out of leg l; exchanging a above b gives [beta (q a) (q b)], the reverse braid its inverse. *)
Definition abelian_group A (zero : A) (add : A -> A -> A) (opp : A -> A) : Prop :=
  (forall x y z, add x (add y z) = add (add x y) z) /\ (forall x y, add x y = add y x) /\ (forall x, add zero x = x) /\ (forall x, add x (opp x) = zero).
Definition gsum A (zero : A) (add : A -> A -> A) (l : list A) : A := fold_right add zero l.
Section Phase.
  Variables (G H : Type) (gz : G) (gadd : G -> G -> G) (hz : H) (hadd : H -> H -> H) (hopp : H -> H).
  Variable beta : G -> G -> H.
  Variable q : nat -> G.
  Definition charge (legs : list nat) : G := gsum gz gadd (map q legs).
  Definition event_phase (e : event) : H :=
    match e with
    | Cross a b true => beta (q a) (q b)
    | Cross a b false => hopp (beta (q b) (q a))
    | Turn legs true => beta (charge legs) (charge legs)
    | Turn legs false => hopp (beta (charge legs) (charge legs))
    end.
  Definition phase (l : list event) : H := gsum hz hadd (map event_phase l).
  (** sum of beta over the pairs of legs a before b with [higher a b] *)
  Fixpoint potential (higher : nat -> nat -> bool) (l : list nat) : H :=
    match l with
    | [] => hz
    | a :: t => hadd (gsum hz hadd (map (fun b => if higher a b then beta (q a) (q b) else hz) t)) (potential higher t)
    end.
End Phase.

(** ** Leg pipes: leg i stands for [nth i pipes 0] neighbouring flat legs *)
Definition flat_request (pipes : list nat) (r : request) : request :=
  Request (nsum (firstn (r_nc r) pipes)) (nsum (skipn (r_nc r) pipes)) (flat_codomain_idcs pipes (r_cod r)) (flat_domain_idcs pipes (r_dom r))
    (flat_values pipes (r_levels r)) (flat_values pipes (r_bend r)) (r_sym r).
(** flat leg x belongs to leg i *)
Definition part_of (pipes : list nat) (x i : nat) : Prop := i < length pipes /\ nsum (firstn i pipes) <= x < nsum (firstn i pipes) + nth i pipes 0.
