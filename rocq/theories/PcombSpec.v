(** Specification vocabulary for C74: combining legs without braids. *)
From Coq Require Import List Bool Arith Permutation.
From Verif Require Import Util PlanarModel PlanarSpec.
Import ListNotations.
Set Implicit Arguments. Unset Strict Implicit.
Open Scope nat_scope.

(** the legs of the group lie next to each other on the circle, in any order *)
Definition contiguous (n : nat) (group : list nat) : Prop := group <> [] /\ exists c o k, Permutation c group /\ k <= n /\ c ++ o = rotation k (seq 0 n).
(** the group has the first and the last leg of the tensor *)
Definition around_the_left (n : nat) (group : list nat) : Prop := In 0 group /\ In (n - 1) group.
(** the group has the last leg of the codomain and the first one of the domain *)
Definition around_the_right (nc : nat) (group : list nat) : Prop := In (nc - 1) group /\ In nc group.
(** [group'] are neighbouring legs, in ascending order, of the tensor with legs [co] and [dom]: those called [group]; all in the codomain if the first leg of [group] was, else all in the domain *)
Definition gathered (nc : nat) (co dom : list nat) (group group' : list nat) : Prop :=
  Permutation (map (fun l => nth l (co ++ rev dom) 0) group') group /\
  (exists a, group' = seq a (length group)) /\
  (if hd 0 group <? nc then Forall (fun l => l < length co) group' else Forall (fun l => length co <= l < length co + length dom) group').
