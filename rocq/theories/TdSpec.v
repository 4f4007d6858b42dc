(** Specification vocabulary for C72: tdot of two tensors. *)
From Coq Require Import String ZArith List Bool Permutation.
From Verif Require Import Util PlanarModel PcModel PcSpec TdModel.
Import ListNotations.
Set Implicit Arguments. Unset Strict Implicit.
Open Scope nat_scope.

(** the legs of a tensor that are not contracted, in ascending order *)
Definition open (t : tensor) (legs : list nat) : list nat := filter (fun i => negb (existsb (Nat.eqb i) legs)) (seq 0 (num_legs t)).
(** The documented result: legs1[i] is joined with legs2[i]; the codomain has the open legs of tensor1 in their order, and the legs of the result in their order
    are the open legs of tensor1 followed by those of tensor2, i.e. the domain has the latter from right to left.  If there are no open legs it is a number. *)
Definition all_joined (legs1 legs2 : list nat) (pairs : list (name * name)) : Prop := exists l, Permutation l (combine legs1 legs2) /\ Forall2 joins pairs l.
Definition conventional (t1 t2 : tensor) (legs1 legs2 : list nat) (r : tres name) : Prop :=
  match r with
  | TNumber pairs => all_joined legs1 legs2 pairs /\ open t1 legs1 = [] /\ open t2 legs2 = []
  | TTensor j => all_joined legs1 legs2 (j_pairs j) /\ ~ (open t1 legs1 = [] /\ open t2 legs2 = []) /\
                 j_legs j = (map inl (open t1 legs1), rev (map inr (open t2 legs2)))
  | TErr _ => False
  end.

(** DiagonalTensor, Identity and Mask have one leg in the codomain and one in the domain; the contracted legs exist *)
Definition well_formed (t : tensor) : Prop := match t_kind t with Symmetric => True | _ => t_nc t = 1 /\ t_nd t = 1 end.
Definition is_mask (t : tensor) : bool := match t_kind t with Mask _ => true | _ => false end.
Definition is_identity (t : tensor) : bool := match t_kind t with Identity => true | _ => false end.
Definition is_diagonal (t : tensor) : bool := match t_kind t with Diagonal => true | _ => false end.
Record tdot_args (t1 t2 : tensor) (legs1 legs2 : list nat) : Prop := TdotArgs {
  rq_form1 : well_formed t1;
  rq_form2 : well_formed t2;
  rq_legs1 : NoDup legs1 /\ Forall (fun i => i < num_legs t1) legs1;
  rq_legs2 : NoDup legs2 /\ Forall (fun i => i < num_legs t2) legs2;
  rq_length : length legs1 = length legs2 }.

(** Where the implementation keeps the documented order: not if a single leg is contracted with
    - a Mask or DiagonalTensor as tensor1, or a Mask as tensor2, through legs with different numbers,
    - an Identity as tensor2, through another leg than the only one in the domain of tensor1,
    and not if both legs of an Identity are contracted with a tensor that has no other legs.  Two Masks can not be contracted. *)
Definition supported (t1 t2 : tensor) (legs1 legs2 : list nat) : bool :=
  match legs1, legs2 with
  | [a], [b] =>
    if is_mask t1 then negb (is_mask t2) && (a =? b)
    else if is_mask t2 then a =? b
    else if is_identity t1 then true
    else if is_identity t2 then (t_nd t1 =? 1) && (a =? t_nc t1)
    else if is_diagonal t1 then a =? b
    else true
  | [_; _], [_; _] =>
    if is_mask t1 then negb (is_mask t2)
    else if is_mask t2 then true
    else if is_identity t1 then 2 <? num_legs t2
    else if is_identity t2 then 2 <? num_legs t1
    else true
  | _, _ => true
  end.
