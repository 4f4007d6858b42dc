(** Specification vocabulary for C71: planar contractions of two tensors. *)
From Coq Require Import ZArith List Bool Permutation.
From Verif Require Import Util PlanarModel PlanarSpec PcModel.
Import ListNotations.
Set Implicit Arguments. Unset Strict Implicit.
Open Scope nat_scope.

(** The legs of each tensor lie on a circle (PlanarSpec).  The contraction is planar if around tensor 1 the contracted legs [contr1] follow each other, then
    come the open ones [open1], and around tensor 2 their partners follow each other in the opposite order, then come the open ones [open2]. *)
Record planar_pairing (n1 n2 : nat) (legs1 legs2 contr1 open1 contr2 open2 : list nat) : Prop := PlanarPairing {
  pp_length : length contr1 = length contr2;
  pp_pairs : Permutation (combine contr1 contr2) (combine legs1 legs2);
  pp_circle1 : exists k, k <= n1 /\ contr1 ++ open1 = rotation k (seq 0 n1);
  pp_circle2 : exists k, k <= n2 /\ rev contr2 ++ open2 = rotation k (seq 0 n2) }.

(** the two names of a joined pair, whichever tensor comes first *)
Definition joins (p : (nat + nat) * (nat + nat)) (ij : nat * nat) : Prop := p = (inl (fst ij), inr (snd ij)) \/ p = (inr (snd ij), inl (fst ij)).
(** around the result: the open legs of tensor 1 follow each other, then come those of tensor 2 *)
Definition around (t : legs_t (nat + nat)) (circle : list (nat + nat)) : Prop := exists k, k <= length circle /\ fst t ++ rev (snd t) = skipn k circle ++ firstn k circle.
Definition contraction (legs1 legs2 open1 open2 : list nat) (r : joined (nat + nat)) : Prop :=
  (exists l, Permutation l (combine legs1 legs2) /\ Forall2 joins (j_pairs r) l) /\ around (j_legs r) (map inl open1 ++ map inr open2).

(** The contracted legs do not run across the point between the last leg and leg 0; or, if they do, the open legs lie between the contracted ones of the
    codomain and the contracted ones of the domain. *)
Definition reachable (nc nd : nat) (contr open : list nat) : Prop :=
  ~ (In 0 contr /\ In (nc + nd - 1) contr) \/ (forall x y, In x contr -> In y open -> (x < nc -> x < y) /\ (nc <= x -> y < x)).
(** bending the contracted legs of tensor 1 up and those of tensor 2 down takes fewer bends than the other way round *)
Definition ups (nc : nat) (l : list nat) : nat := length (filter (fun i => i <? nc) l).
Definition downs (nc : nat) (l : list nat) : nat := length (filter (fun i => nc <=? i) l).
Definition tensor1_below (nc1 nc2 : nat) (legs1 legs2 : list nat) : Prop := ups nc1 legs1 + downs nc2 legs2 < downs nc1 legs1 + ups nc2 legs2.
