(** Specification vocabulary for C73: operator names of a site. *)
From Coq Require Import Ascii List Bool Arith.
From Verif Require Import OpModel.
Import ListNotations.
Set Implicit Arguments. Unset Strict Implicit.

(** a word has no space; words are joined by single spaces *)
Definition word (w : name) : Prop := ~ In " "%char w.
Fixpoint join (ws : list name) : name := match ws with [] => [] | [w] => w | w :: t => w ++ " "%char :: join t end.

Section Histories.
Variable O : Type.
Variable compose : O -> O -> O.
(** the sites that can come about: a constructor call, then calls of add_onsite_operator; a call that fails changes nothing *)
Inductive history (identity : O) : site O -> Prop :=
| created : forall ops s, new_site identity ops = OOk s -> history identity s
| added : forall s n o s', history identity s -> add_onsite_operator s n o = OOk s' -> history identity s'.
(** the product, left to right, of the operators called [ws]; the first name that is not an operator is reported *)
Fixpoint product_from (s : site O) (op : O) (ws : list name) : ores O :=
  match ws with [] => OOk op | w :: t => match lookup s w with None => OErr (NoOperator w) | Some o => product_from s (compose op o) t end end.
Definition product (s : site O) (ws : list name) : ores O :=
  match ws with [] => OErr OutOfRange | w :: t => match lookup s w with None => OErr (NoOperator w) | Some o => product_from s o t end end.
Definition associative : Prop := forall a b c, compose (compose a b) c = compose a (compose b c).
End Histories.
(** an entry of a list of operators is a name, which stands for the operator that get_op returns, or an operator *)
Definition means (O : Type) (compose : O -> O -> O) (s : site O) (x : name + O) (o : O) : Prop := match x with inl n => get_op compose s n = OOk o | inr o' => o' = o end.
