(** Model of the operator names of a site (src/models/degrees_of_freedom.cpp): adding on-site operators and looking up products of them by name.
    std::string is a list of characters, std::map<std::string, _> an association list without repeated keys.
    An operator is an element of an arbitrary type with an arbitrary [compose] that always succeeds: operators that fit the leg of the site have equal domain and codomain, with
    one leg each, so compose neither fails nor returns a number.
    Left out: the labels (add_onsite_operator sets them to p, p* on a shallow copy), replacing the whole dictionary from python. *)
From Coq Require Import Ascii List Bool Arith.
Import ListNotations.
Set Implicit Arguments. Unset Strict Implicit.

Definition name := list ascii.
Definition space : ascii := " "%char.
Definition name_eqb (a b : name) : bool := if list_eq_dec ascii_dec a b then true else false.

(** NoOperator: "... doesn't have the operator ..."; Exists, Whitespace: invalid_argument of add_onsite_operator; Rejected: an assertion or error of the conversion to a tensor; OutOfRange: std::map::at *)
Inductive op_error := NoOperator (n : name) | Exists | Whitespace | Rejected | OutOfRange.
Inductive ores (A : Type) := OOk (a : A) | OErr (e : op_error).
Arguments OErr {A} e.
Definition obind (A B : Type) (r : ores A) (f : A -> ores B) : ores B := match r with OOk a => f a | OErr e => OErr e end.

(** std::string::find(' '), substr(0, pos), substr(pos + 1) *)
Fixpoint find_space (s : name) : option nat := match s with [] => None | c :: t => if ascii_dec c space then Some 0 else option_map S (find_space t) end.

Section Ops.
Variable O : Type.
Variable compose : O -> O -> O.
Definition site := list (name * O).

Fixpoint lookup (s : site) (n : name) : option O := match s with [] => None | (k, o) :: t => if name_eqb k n then Some o else lookup t n end.
(** Site::valid_opname: degrees_of_freedom.cpp:366-370 *)
Definition contains (s : site) (n : name) : bool := match lookup s n with Some _ => true | None => false end.
Definition at_ (s : site) (n : name) : ores O := match lookup s n with Some o => OOk o | None => OErr OutOfRange end.

(** Site::add_onsite_operator: degrees_of_freedom.cpp:320-364.  [converted]: the tensor made from the argument, None if that fails.
    onsite_operators[name] = op; the new entry is put at the end here (a std::map is sorted) *)
Definition add_onsite_operator (s : site) (n : name) (converted : option O) : ores site :=
  if contains s n then OErr Exists
  else match find_space n with
       | Some _ => OErr Whitespace
       | None => match converted with None => OErr Rejected | Some o => OOk (s ++ [(n, o)]) end
       end.
(** Site::Site: degrees_of_freedom.cpp:261-277, with add_onsite_operators_from_map, 225-232 *)
Definition id_name : name := ["I"%char; "d"%char].
Definition new_site (identity : O) (onsite_operators : list (name * option O)) : ores site :=
  fold_left (fun r p => obind r (fun s => add_onsite_operator s (fst p) (snd p))) onsite_operators (add_onsite_operator [] id_name (Some identity)).

(** Site::get_op: degrees_of_freedom.cpp:372-402; the loop takes a piece of [rest] away in every iteration, so that [fuel] = its length is enough *)
Fixpoint get_op_loop (fuel : nat) (s : site) (op : O) (rest : name) : ores O :=
  match fuel with
  | 0 => OOk op
  | S fuel =>
    match rest with
    | [] => OOk op
    | _ =>
      let pos2 := find_space rest in
      let name2 := match pos2 with None => rest | Some p => firstn p rest end in
      match lookup s name2 with
      | None => OErr (NoOperator name2)
      | Some o =>
        let op := compose op o in
        match pos2 with None => OOk op | Some p => get_op_loop fuel s op (skipn (p + 1) rest) end
      end
    end
  end.
Definition get_op (s : site) (n : name) : ores O :=
  let pos := find_space n in
  let first := match pos with None => n | Some p => firstn p n end in
  match lookup s first with
  | None => OErr (NoOperator first)
  | Some op => match pos with None => OOk op | Some p => let rest := skipn (p + 1) n in get_op_loop (length rest) s op rest end
  end.

(** Site::multiply_op_names: degrees_of_freedom.cpp:404-418 *)
Definition multiply_op_names (names : list name) : name :=
  match names with
  | [] => id_name
  | _ => fold_left (fun result p => (if 0 <? fst p then result ++ [space] else result) ++ snd p) (combine (seq 0 (length names)) names) []
  end.
(** Site::multiply_operators: degrees_of_freedom.cpp:420-441; an entry is a name or a tensor *)
Definition one_operator (s : site) (x : name + O) : ores O := match x with inl n => get_op s n | inr o => OOk o end.
Definition multiply_operators (s : site) (operators : list (name + O)) : ores O :=
  match operators with
  | [] => at_ s id_name
  | x :: t => fold_left (fun r y => obind r (fun op => obind (one_operator s y) (fun next => OOk (compose op next)))) t (one_operator s x)
  end.
End Ops.
