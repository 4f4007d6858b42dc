(** Vocabulary for the HDF5 round trip (C49). *)
From Coq Require Import String Ascii List Arith Bool ZArith Permutation.
From Verif Require Import Hdf5Model.
Import ListNotations.
Set Implicit Arguments. Unset Strict Implicit.

(** the objects an object refers to, and what can be reached from it *)
Definition children (n : node) : list val :=
  match n with
  | NIter _ vs => vs
  | NDict kvs | NInst _ _ kvs => map fst kvs ++ map snd kvs
  | NRange x y z => [x; y; z]
  | _ => []
  end.
Inductive reach (h : heap) : nat -> nat -> Prop :=
| reach_refl a : reach h a a
| reach_step a n b c : nth_error h a = Some n -> In (Vref b) (children n) -> reach h b c -> reach h a c.
Definition on_cycle (h : heap) (a : nat) : Prop := exists n b, nth_error h a = Some n /\ In (Vref b) (children n) /\ reach h b a.

Definition no_nul (s : string) : Prop := has_char zero s = false.
Definition string_key (h : heap) (v : val) (s : string) : Prop := exists a, v = Vref a /\ nth_error h a = Some (NStr s).
Definition is_int (h : heap) (v : val) : Prop := exists a z, v = Vref a /\ nth_error h a = Some (NInt z).
(** keys of a dictionary are different; not all keys are strings, or one contains a slash or is ".", or none is empty *)
Definition keys_ok (h : heap) (kvs : list (val * val)) : Prop :=
  forall ks, Forall2 (string_key h) (map fst kvs) ks -> NoDup ks /\ (In ""%string ks -> exists k, In k ks /\ (has_char slash k = true \/ k = "."%string)).
(** what can be saved: strings have no NUL characters, classes and functions can be imported, there are no objects of type Hdf5Ignored or of types outside the model *)
Definition node_ok (known : string -> string -> bool) (h : heap) (n : node) : Prop :=
  match n with
  | NStr s => no_nul s
  | NDict kvs => keys_ok h kvs
  | NInst m q kvs => known m q = true /\ keys_ok h kvs
  | NRange x y z => is_int h x /\ is_int h y /\ is_int h z
  | NGlobal _ m q => known m q = true /\ no_nul m /\ no_nul q
  | NIgnored | NOther => False
  | _ => True
  end.
Definition storable (known : string -> string -> bool) (h : heap) (a : nat) : Prop :=
  forall b, reach h a b -> exists n, nth_error h b = Some n /\ node_ok known h n /\ (forall vs, n = NIter ITuple vs -> ~ on_cycle h b).
Definition is_container (n : node) : Prop := match n with NIter _ _ | NDict _ | NInst _ _ _ | NRange _ _ _ => True | _ => False end.

(** ** Equality of object graphs up to renaming of addresses.
    [R a b]: object [a] of heap [h] corresponds to object [b] of [h'].  Strings and integers (which are immutable) may also be copied: in Python this is visible
    only with the operator [is]. *)
Definition equal_copy (h : heap) (a : nat) (h' : heap) (b : nat) : Prop :=
  (exists s, nth_error h a = Some (NStr s) /\ nth_error h' b = Some (NStr s)) \/ (exists z, nth_error h a = Some (NInt z) /\ nth_error h' b = Some (NInt z)).
Definition corr (R : nat -> nat -> Prop) (h h' : heap) (v w : val) : Prop :=
  match v, w with
  | Vnone, Vnone => True
  | Vref a, Vref b => R a b \/ equal_copy h a h' b
  | _, _ => False
  end.
(** numpy booleans are loaded as Python booleans *)
Definition loaded_type (t : tag) : tag := match t with TNpBool => TBool | t => t end.
Definition same_items (R : nat -> nat -> Prop) (h h' : heap) (l l' : list (val * val)) : Prop :=
  exists l2, Permutation l2 l' /\ Forall2 (fun p q => corr R h h' (fst p) (fst q) /\ corr R h h' (snd p) (snd q)) l l2.
Definition same_node (R : nat -> nat -> Prop) (h h' : heap) (n n' : node) : Prop :=
  match n with
  | NData t x => n' = NData (loaded_type t) x
  | NInt z => n' = NInt z
  | NStr s => n' = NStr s
  | NIter k vs => exists ws, n' = NIter k ws /\ Forall2 (corr R h h') vs ws
  | NDict kvs => exists kvs', n' = NDict kvs' /\ same_items R h h' kvs kvs'
  | NInst m q kvs => exists kvs', n' = NInst m q kvs' /\ same_items R h h' kvs kvs'
  | NRange x y z => exists x' y' z', n' = NRange x' y' z' /\ corr R h h' x x' /\ corr R h h' y y' /\ corr R h h' z z'
  | NGlobal k m q => n' = NGlobal k m q
  | NIgnored | NOther => False
  end.
(** the graph that starts at [v] in [h] equals the one that starts at [w] in [h'], including which objects are shared *)
Definition same_graph (h : heap) (v : val) (h' : heap) (w : val) : Prop :=
  exists R : nat -> nat -> Prop,
    (forall a b b', R a b -> R a b' -> b = b') /\ (forall a a' b, R a b -> R a' b -> a = a') /\
    (forall a b, R a b -> exists n n', nth_error h a = Some n /\ nth_error h' b = Some n' /\ same_node R h h' n n') /\
    corr R h h' v w.
