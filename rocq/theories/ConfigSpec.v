(** The documented options (cyten/config.py:28-52): type and bounds of each, and what a value given for it means. *)
From Coq Require Import String ZArith QArith List Bool.
From Verif Require Import Util ConfigModel.
Import ListNotations.
Set Implicit Arguments. Unset Strict Implicit.
Open Scope string_scope.

Inductive kind := KInt (min : Z) | KBool | KChoice (allowed : list string) | KFloat.
Definition options_table : list (string * kind) :=
  [("print_linewidth", KInt 10); ("print_indent", KInt 0); ("maxlines_spaces", KInt 0); ("maxlines_tensors", KInt 0);
   ("check_fusion", KBool); ("default_tensor_backend", KChoice ["no_symmetry"; "abelian"; "fusion_tree"]);
   ("default_block_backend", KChoice ["numpy"; "torch"; "cpu"; "gpu"; "apple_silicon"]); ("fusion_tree_eps", KFloat)].
Definition kind_of (k : string) : option kind :=
  match find (fun p => fst p =? k) options_table with Some p => Some (snd p) | None => None end.

Section Spec.
  Variable stod : string -> option flt.
  Definition int_value (min z : Z) : option optval := if (min <=? z)%Z then Some (OInt z) else None.
  Definition float_value (f : flt) : option optval := if flt_neg f then None else Some (OFloat f).
  (** the value the option [k] gets when [v] is assigned, [None] if [v] is not acceptable *)
  Definition meaning (k : string) (v : pyval) : option optval :=
    match kind_of k, v with
    | Some (KInt m), VInt z => if in_int64 z then int_value m z else None
    | Some (KInt m), VStr s | Some (KInt m), VOther s => match parse_int64 s with Some z => int_value m z | None => None end
    | Some KBool, VBool b => Some (OBool b)
    | Some KBool, VStr s | Some KBool, VOther s => Some (OBool (coerce_bool s))
    | Some (KChoice l), VStr s | Some (KChoice l), VOther s => if existsb (String.eqb s) l then Some (OStr s) else None
    | Some KFloat, VFloat f => float_value f
    | Some KFloat, VInt z => if in_int64 z then float_value (Fnum (inject_Z z)) else None
    | Some KFloat, VStr s | Some KFloat, VOther s => match stod s with Some f => float_value f | None => None end
    | _, _ => None
    end.
  Definition item_ok (it : option string * pyval) : bool :=
    match fst it with Some k => match meaning k (snd it) with Some _ => true | None => false end | None => false end.
  (** the items of a mapping up to the first one that is not acceptable *)
  Fixpoint valid_prefix (l : list (option string * pyval)) : list (option string * pyval) :=
    match l with [] => [] | it :: r => if item_ok it then it :: valid_prefix r else [] end.
  (** the value that a mapping gives to the option [k] *)
  Definition assigned (l : list (option string * pyval)) (k : string) : option optval :=
    match find (fun it => match fst it with Some k' => k' =? k | None => false end) l with
    | Some it => meaning k (snd it)
    | None => None
    end.
End Spec.

(** the value of an option is within its documented bounds (for the float: a number >= 0, or NaN) *)
Definition within (k : string) (x : option optval) : Prop :=
  match kind_of k, x with
  | Some (KInt m), Some (OInt z) => (m <= z)%Z
  | Some KBool, Some (OBool _) => True
  | Some (KChoice l), Some (OStr s) => In s l
  | Some KFloat, Some (OFloat f) => match f with Fnum q => 0 <= q | Finf n => n = false | Fnan => True end
  | _, _ => False
  end.
Definition config_within (c : config) : Prop := forall k, In k (map fst options_table) -> within k (get_option c k).
