(* Model of src/tensors/labels.cpp: leg labels of tensors.
   Strings are lists of ascii characters (std::string of bytes). *)
From Coq Require Import List ZArith Lia Bool Ascii String.
From Verif Require Import Util.
Import ListNotations.
Set Implicit Arguments.
Unset Strict Implicit.
Open Scope Z_scope.

Notation str := (list ascii).
(* include/cyten/tensors/labels.h:17: LegLabel = std::optional<std::string>; None is the unset label. *)
Notation label := (option (list ascii)).

(* literal strings, only used in examples *)
Definition s (x : string) : str := list_ascii_of_string x.
Definition ls (x : string) : label := Some (list_ascii_of_string x).

Definition str_eq_dec (a b : str) : {a = b} + {a <> b} := list_eq_dec ascii_dec a b.
Definition label_eq_dec (a b : label) : {a = b} + {a <> b}.
Proof. decide equality. apply str_eq_dec. Defined.
Definition str_eqb (a b : str) : bool := if str_eq_dec a b then true else false.
Definition label_eqb (a b : label) : bool := if label_eq_dec a b then true else false.

Definition chr_eqb (a b : ascii) : bool := Ascii.eqb a b.

(* std::string::starts_with(char) / ends_with(char) *)
Definition starts_with (c : ascii) (x : str) : bool := match x with [] => false | d :: _ => Ascii.eqb c d end.
Definition ends_with (c : ascii) (x : str) : bool := starts_with c (rev x).

(* std::format("{}", int64): decimal representation, most significant digit first.  The fuel is the number of
   digits that can occur at most (the magnitude itself bounds it). *)
Definition digit (d : Z) : ascii := ascii_of_nat (48 + Z.to_nat d).
Fixpoint digits (fuel : nat) (n : Z) (acc : str) : str :=
  match fuel with
  | O => acc
  | S f => let acc' := digit (n mod 10) :: acc in
           if n / 10 =? 0 then acc' else digits f (n / 10) acc'
  end.
Definition format_int (n : Z) : str :=
  if n <? 0 then "-"%char :: digits (S (Z.to_nat (- n))) (- n) []
  else digits (S (Z.to_nat n)) n [].

(* labels.cpp:85-100 (_combine_leg_labels): the loop over the labels with index n *)
Definition placeholder (n : Z) : str := "?"%char :: format_int n.
Definition label_text (n : Z) (l : label) : str := match l with None => placeholder n | Some x => x end.
Fixpoint join_labels (n : Z) (labels : list label) : str :=
  match labels with
  | [] => []
  | [l] => label_text n l
  | l :: rest => label_text n l ++ "."%char :: join_labels (n + 1) rest
  end.
Definition combine_leg_labels (labels : list label) (offset : Z) : str :=
  "("%char :: join_labels offset labels ++ [")"%char].

(* labels.cpp:113-130: the loop that splits at every '.', keeping empty segments *)
Fixpoint split_dots (cur : str) (x : str) : list str :=
  match x with
  | [] => [rev cur]
  | c :: x' => if Ascii.eqb c "."%char then rev cur :: split_dots [] x' else split_dots (c :: cur) x'
  end.
Definition part_label (p : str) : label := if starts_with "?"%char p then None else Some p.

Definition is_combined (x : str) : bool := starts_with "("%char x && ends_with ")"%char x.
(* label->substr(1, size - 2) *)
Definition inner (x : str) : str := removelast (tl x).

Inductive outcome (A : Type) := Ok (a : A) | Throw | Abort.
Arguments Ok {A}. Arguments Throw {A}. Arguments Abort {A}.

(* labels.cpp:102-133 (_split_leg_label).  [debug] says whether C++ assert() is active: the assertion on the number of
   labels aborts the process only then. *)
Definition split_leg_label (debug : bool) (l : label) (num : option Z) : outcome (list label) :=
  match l with
  | None => match num with
            | None => Abort                 (* assert(num.has_value()), or dereferencing nullopt *)
            | Some n => Ok (repeat None (Z.to_nat n))
            end
  | Some x =>
    if is_combined x then
      let parts := map part_label (split_dots [] (inner x)) in
      match num with
      | None => Ok parts
      | Some n => if debug && negb (Z.of_nat (List.length parts) =? n) then Abort else Ok parts
      end
    else Throw
  end.

(* labels.cpp:146-159 (_dual_leg_label), which recurses through _dual_label_list (135-144) into strictly shorter
   strings; the fuel is a bound on the nesting depth. *)
Fixpoint dual_fuel (fuel : nat) (l : label) : label :=
  match l with
  | None => None
  | Some x =>
    if is_combined x then
      match fuel with
      | O => Some x
      | S f => Some (combine_leg_labels (rev (map (dual_fuel f) (map part_label (split_dots [] (inner x))))) 0)
      end
    else if ends_with "*"%char x then Some (removelast x)
    else Some (x ++ ["*"%char])
  end.
Definition dual_leg_label (l : label) : label :=
  dual_fuel (match l with None => O | Some x => List.length x end) l.
(* labels.cpp:135-144 (_dual_label_list) *)
Definition dual_label_list (labels : list label) : list label := rev (map dual_leg_label labels).

(* labels.cpp:161-197 (_get_matching_labels); the log message is not modelled *)
Fixpoint get_matching_labels (l1 l2 : list label) : list label :=
  match l1, l2 with
  | a :: r1, b :: r2 =>
    (match a, b with
     | None, _ => b
     | Some _, None => a
     | Some x, Some y => if str_eq_dec x y then a else None
     end) :: get_matching_labels r1 r2
  | _, _ => []
  end.

(* labels.cpp:16-30 (duplicate_leg_labels): whether the returned set is non-empty *)
Fixpoint has_duplicates_aux (seen : list str) (labels : list label) : bool :=
  match labels with
  | [] => false
  | None :: rest => has_duplicates_aux seen rest
  | Some x :: rest => if in_dec str_eq_dec x seen then true else has_duplicates_aux (x :: seen) rest
  end.
Definition has_duplicates (labels : list label) : bool := has_duplicates_aux [] labels.

(* std::unordered_map<std::string, int64> as an association list with at most one entry per key *)
Definition labelmap := list (str * Z).
Fixpoint map_find (m : labelmap) (k : str) : option Z :=
  match m with [] => None | (k', v) :: r => if str_eq_dec k' k then Some v else map_find r k end.
Definition map_erase (m : labelmap) (k : str) : labelmap := filter (fun p => negb (str_eqb (fst p) k)) m.
Definition map_set (m : labelmap) (k : str) (v : Z) : labelmap := (k, v) :: map_erase m k.

(* labels.cpp:56-66 (build_labelmap) *)
Fixpoint build_labelmap_from (i : Z) (m : labelmap) (labels : list label) : labelmap :=
  match labels with
  | [] => m
  | l :: rest => build_labelmap_from (i + 1) (match l with None => m | Some x => map_set m x i end) rest
  end.
Definition build_labelmap (labels : list label) : labelmap := build_labelmap_from 0 [] labels.

(* include/cyten/tensors/labels.h (class LabelledLegs): num_legs, _labels, _labelmap *)
Record legs := mkLegs { num_legs : Z; lbls : list label; lmap : labelmap }.

(* labels.cpp:199-218 (constructor) *)
Definition legs_new (labels : list label) : outcome legs :=
  if has_duplicates labels then Throw
  else Ok (mkLegs (Z.of_nat (List.length labels)) labels (build_labelmap labels)).

(* src/tools.cpp:52-60 (to_valid_idx) *)
Definition to_valid_idx (idx len : Z) : option Z :=
  if (idx <? - len) || (len <=? idx) then None
  else Some (if idx <? 0 then idx + len else idx).

(* labels.cpp:231-235 *)
Definition is_fully_labelled (st : legs) : bool :=
  forallb (fun l : label => match l with None => false | Some _ => true end) (lbls st).

(* labels.cpp:243-282 (get_leg_idcs): an index or a label *)
Definition get_leg_idx (st : legs) (i : Z + str) : outcome Z :=
  match i with
  | inl n => match to_valid_idx n (num_legs st) with None => Throw | Some p => Ok p end
  | inr x => match map_find (lmap st) x with None => Throw | Some p => Ok p end
  end.
Fixpoint get_leg_idcs (st : legs) (is : list (Z + str)) : outcome (list Z) :=
  match is with
  | [] => Ok []
  | i :: rest => match get_leg_idx st i with
                 | Ok p => match get_leg_idcs st rest with Ok ps => Ok (p :: ps) | Throw => Throw | Abort => Abort end
                 | Throw => Throw | Abort => Abort
                 end
  end.

(* labels.cpp:284-295 *)
Definition has_label (st : legs) (x : str) : bool := existsb (label_eqb (Some x)) (lbls st).
Definition has_labels (st : legs) (xs : list str) : bool := forallb (has_label st) xs.

(* labels.cpp:297-316 (labels_are): comparison of the sets of labels *)
Definition present (labels : list label) : list str :=
  flat_map (fun l : label => match l with None => [] | Some x => [x] end) labels.
Definition subset_b (a b : list str) : bool := forallb (fun x => if in_dec str_eq_dec x b then true else false) a.
Definition labels_are (st : legs) (want : list str) : bool :=
  if negb (is_fully_labelled st) then false
  else if negb (Z.of_nat (List.length want) =? num_legs st) then false
  else subset_b want (present (lbls st)) && subset_b (present (lbls st)) want.

(* labels.cpp:371-379 (set_labels): two C++ assertions, then the assignment *)
Definition set_labels (debug : bool) (st : legs) (labels : list label) : outcome legs :=
  if debug && has_duplicates labels then Abort
  else if debug && negb (Z.of_nat (List.length labels) =? num_legs st) then Abort
  else Ok (mkLegs (num_legs st) labels (build_labelmap labels)).

(* labels.cpp:318-332 (relabel); the std::map argument as an association list, first match *)
Fixpoint rename (mapping : list (str * str)) (x : str) : str :=
  match mapping with [] => x | (k, v) :: r => if str_eq_dec k x then v else rename r x end.
Definition relabel (debug : bool) (st : legs) (mapping : list (str * str)) : outcome legs :=
  set_labels debug st (map (option_map (rename mapping)) (lbls st)).

(* labels.cpp:334-369 (set_label) *)
Definition set_label (st : legs) (pos : Z) (l : label) : outcome legs :=
  match to_valid_idx pos (num_legs st) with
  | None => Throw
  | Some p =>
    let i := Z.to_nat p in
    if existsb (fun l' => label_eqb l' l) (firstn i (lbls st)) then Throw
    else if existsb (fun l' => label_eqb l' l) (skipn (S i) (lbls st)) then Throw
    else
      let m1 := match nth i (lbls st) None with Some old => map_erase (lmap st) old | None => lmap st end in
      let m2 := match l with Some x => map_set m1 x p | None => m1 end in
      Ok (mkLegs (num_legs st) (firstn i (lbls st) ++ l :: skipn (S i) (lbls st)) m2)
  end.

(* A history of label operations, as a user issues them; an exception leaves the object as it was (every throw comes
   before the first mutation), an assertion failure ends the process. *)
Inductive op := OpSetLabel (pos : Z) (l : label) | OpSetLabels (labels : list label) | OpRelabel (m : list (str * str)).
Definition step (debug : bool) (st : legs) (o : op) : outcome legs :=
  match o with
  | OpSetLabel p l => set_label st p l
  | OpSetLabels labels => set_labels debug st labels
  | OpRelabel m => relabel debug st m
  end.
Fixpoint run (debug : bool) (st : legs) (ops : list op) : option legs :=
  match ops with
  | [] => Some st
  | o :: r => match step debug st o with
              | Ok st' => run debug st' r
              | Throw => run debug st r
              | Abort => None
              end
  end.
