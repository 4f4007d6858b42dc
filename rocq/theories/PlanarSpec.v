(** Specification vocabulary for C69: planar rearrangements of the legs of a tensor.
    The legs of a tensor with nc legs in the codomain and nd in the domain lie on a circle in the order 0, 1, .., nc + nd - 1: the codomain from left
    to right, then the domain from right to left. *)
From Coq Require Import ZArith List Bool Permutation.
From Verif Require Import Util GridModel PermLegsModel PermLegsSpec PlanarModel.
Import ListNotations.
Set Implicit Arguments. Unset Strict Implicit.
Open Scope nat_scope.

(** going around the circle from leg k on *)
Definition rotation (k : nat) (l : list nat) : list nat := skipn k l ++ firstn k l.
(** [codomain] (left to right) followed by [domain] (right to left) goes around the circle once *)
Definition planar (n : nat) (codomain domain : list nat) : Prop := exists k, k <= n /\ codomain ++ rev domain = rotation k (seq 0 n).
(** an argument that may be left out *)
Definition fits (given : option (list nat)) (l : list nat) : Prop := match given with Some g => g = l | None => True end.
(** at least one of the arguments is given, and not as the only one and empty *)
Definition enough_given (codomain domain : option (list nat)) : Prop :=
  match codomain, domain with None, None => False | Some c, None => c <> [] | None, Some d => d <> [] | Some _, Some _ => True end.
(** no leg is named twice in one list, and all of them exist *)
Definition legs_of (n : nat) (given : option (list nat)) : Prop := match given with Some g => NoDup g /\ Forall (fun i => i < n) g | None => True end.

(** what one call of permute_legs without levels does to a tensor whose legs are [fst st] (codomain) and [snd st] (domain): the instructions of the
    fusion tree backend (PermLegsModel) are executed.  [sym]: the braiding is symmetric *)
Definition do_call (trivial_braid sym : bool) (st : list nat * list nat) (c : call) : pres ((list nat * list nat) * list event) :=
  let nc := length (fst st) in let nd := length (snd st) in
  match permute_front trivial_braid nc nd c with
  | PErr e => PErr e
  | POk None => POk (st, [])
  | POk (Some (co, dom, bends)) =>
    match run (Request nc nd co dom (repeat None (nc + nd)) bends sym) with
    | Err e => PErr (Engine e)
    | Ok instrs => match exec st instrs with Some r => POk r | None => PErr Undefined end
    end
  end.
Fixpoint do_calls (trivial_braid sym : bool) (st : list nat * list nat) (l : list call) : pres ((list nat * list nat) * list event) :=
  match l with
  | [] => POk (st, [])
  | c :: t => match do_call trivial_braid sym st c with
              | PErr e => PErr e
              | POk (st', ev) => match do_calls trivial_braid sym st' t with PErr e => PErr e | POk (st'', ev') => POk (st'', ev ++ ev') end
              end
  end.
