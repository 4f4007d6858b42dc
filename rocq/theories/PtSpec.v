(** Specification vocabulary for C70: planar partial traces. *)
From Coq Require Import ZArith List Bool Permutation.
From Verif Require Import Util PlanarModel PlanarSpec PtModel.
Import ListNotations.
Set Implicit Arguments. Unset Strict Implicit.
Open Scope nat_scope.

(** leg x lies strictly between the two legs of p (when the circle of legs is cut open between the last leg and leg 0) *)
Definition between (p : nat * nat) (x : nat) : Prop := (fst p < x /\ x < snd p) \/ (snd p < x /\ x < fst p).
Definition traced_leg (pairs : list (nat * nat)) (x : nat) : Prop := exists p, In p pairs /\ (x = fst p \/ x = snd p).
(** the legs of the pairs *)
Definition pair_legs (pairs : list (nat * nat)) : list nat := flat_map (fun p => [fst p; snd p]) pairs.

(** all legs are different, no two pairs cross on the circle of legs, and no pair separates two legs that remain *)
Definition planar_trace (n : nat) (pairs : list (nat * nat)) : Prop :=
  NoDup (pair_legs pairs) /\
  (forall p q, In p pairs -> In q pairs -> p <> q -> (between p (fst q) <-> between p (snd q))) /\
  (forall p x y, In p pairs -> x < n -> y < n -> ~ traced_leg pairs x -> ~ traced_leg pairs y -> (between p x <-> between p y)).

(** The circle can be closed by joining neighbours: two neighbouring legs that form a pair are joined and disappear, and so on. *)
Inductive closes : list nat -> list (nat * nat) -> Prop :=
| closes_done : forall circle, closes circle []
| closes_join : forall x y circle p pairs pairs', p = (x, y) \/ p = (y, x) -> Permutation pairs' (p :: pairs) -> closes circle pairs -> closes (x :: y :: circle) pairs'
| closes_turn : forall l l' pairs, closes (l' ++ l) pairs -> closes (l ++ l') pairs.

(** the pairs are neighbours in the order [legs], the other legs keep their order, and the first [count] of them are the legs of the new codomain:
    exactly the remaining legs of the old codomain, and no pair is torn apart *)
Definition neighbours (nc nd : nat) (pairs : list (nat * nat)) (legs : list nat) (count : nat) : Prop :=
  Permutation legs (seq 0 (nc + nd)) /\
  (forall p, In p pairs -> exists i, ((nth_error legs i = Some (fst p) /\ nth_error legs (i + 1) = Some (snd p)) \/ (nth_error legs i = Some (snd p) /\ nth_error legs (i + 1) = Some (fst p))) /\ i + 1 <> count) /\
  filter (fun i => negb (contains (pair_legs pairs) i)) legs = filter (fun i => negb (contains (pair_legs pairs) i)) (seq 0 (nc + nd)) /\
  filter (fun i => negb (contains (pair_legs pairs) i)) (firstn count legs) = filter (fun i => negb (contains (pair_legs pairs) i)) (seq 0 nc).
