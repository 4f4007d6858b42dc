(** Model of the leg and label bookkeeping of permute_legs, move_leg, combine_legs, combine_to_matrix and split_legs
    (src/tensors/ops_legs.cpp) on SymmetricTensors.  Legs are given as integers (already parsed by get_leg_idcs).
    Left out: the block data (see SparseModel / CombineModel for the abelian backend), levels and bend_right, DiagonalTensor, Mask and
    ChargedTensor inputs (which are converted first). *)
From Coq Require Import List Arith Bool ZArith.
From Verif Require Import Util GridModel SymModel PipeModel LabelsModel.
Import ListNotations.
Set Implicit Arguments. Unset Strict Implicit.
Open Scope nat_scope.

Definition noleg : leg := LPipe [] false true.
Definition contains (l : list nat) (n : nat) : bool := existsb (Nat.eqb n) l.
(* misc.duplicate_entries(..) non-empty *)
Fixpoint has_dup (l : list nat) : bool := match l with [] => false | x :: t => contains t x || has_dup t end.

(** the observable legs of a tensor; [t_labels] in the order of [legs] *)
Record tens := Tens { t_codomain : list leg; t_domain : list leg; t_labels : list label }.
(* tensor.cpp:628-640 (Tensor::legs): codomain, then the duals of the domain factors in reverse order *)
Definition legs (t : tens) : list leg := t_codomain t ++ rev (map dual_leg (t_domain t)).
Definition num_legs (t : tens) : nat := length (t_codomain t) + length (t_domain t).
Definition num_codomain (t : tens) : nat := length (t_codomain t).

(* tensor.cpp:706-724, with _parse_leg_idx: leg n >= J is factor N - 1 - n of the domain *)
Definition as_codomain_leg (t : tens) (n : nat) : leg :=
  if n <? num_codomain t then nth n (t_codomain t) noleg else dual_leg (nth (num_legs t - 1 - n) (t_domain t) noleg).
Definition as_domain_leg (t : tens) (n : nat) : leg :=
  if n <? num_codomain t then dual_leg (nth n (t_codomain t) noleg) else nth (num_legs t - 1 - n) (t_domain t) noleg.

(** permute_legs, first part: ops_legs.cpp:352-414.  None = invalid_argument *)
Definition parse_permutation (t : tens) (codomain domain : option (list nat)) : option (list nat * list nat) :=
  let N := num_legs t in
  match codomain, domain with
  | None, None => None
  | None, Some d => Some (filter (fun n => negb (contains d n)) (seq 0 N), d)
  | Some c, None => Some (c, filter (fun n => negb (contains c n)) (rev (seq 0 N)))
  | Some c, Some d =>
      if has_dup (d ++ c) then None
      else if existsb (fun n => negb (contains (d ++ c) n)) (seq 0 N) then None
      else Some (c, d)
  end.
(* ops_legs.cpp:416-439 *)
Definition unchanged (t : tens) (c d : list nat) : bool :=
  (length c =? num_codomain t) && forallb (fun i => nth i c 0 =? i) (seq 0 (num_codomain t)) &&
  forallb (fun p => snd p + fst p + 1 =? num_legs t) (combine (seq 0 (length d)) d).
(* ops_legs.cpp:472-486 *)
Definition bending (t : tens) (c d : list nat) : list nat :=
  filter (fun i => i <? num_codomain t) d ++ filter (fun i => num_codomain t <=? i) c.
(* ops_legs.cpp:585-637; labels nested [codomain, domain] are stored as codomain labels, reversed domain labels *)
Definition permute (t : tens) (c d : list nat) : tens :=
  if unchanged t c d then t
  else
    let lab n := nth n (t_labels t) None in
    match bending t c d with
    | [] => Tens (map (fun i => nth i (t_codomain t) noleg) c) (map (fun i => nth (num_legs t - 1 - i) (t_domain t) noleg) d) (map lab c ++ rev (map lab d))
    | _ => Tens (map (as_codomain_leg t) c) (map (as_domain_leg t) d) (map lab c ++ rev (map lab d))
    end.
Definition permute_legs (t : tens) (codomain domain : option (list nat)) : option tens :=
  match parse_permutation t codomain domain with Some (c, d) => Some (permute t c d) | None => None end.

(** move_leg: ops_legs.cpp:640-692.  Positions are already normalised by to_valid_idx; None = invalid_argument *)
Definition insert_nth (A : Type) (pos : nat) (x : A) (l : list A) : list A := firstn pos l ++ x :: skipn pos l.
Definition move_leg (t : tens) (l : nat) (codomain_pos domain_pos : option nat) : option tens :=
  let J := num_codomain t in let N := num_legs t in
  let c := if J <=? l then seq 0 J else filter (fun n => negb (n =? l)) (seq 0 J) in
  let d := if J <=? l then filter (fun n => negb (n =? l)) (rev (seq J (N - J))) else rev (seq J (N - J)) in
  match codomain_pos, domain_pos with
  | Some p, None => if p <=? length c then permute_legs t (Some (insert_nth p l c)) (Some d) else None
  | None, Some p => if p <=? length d then permute_legs t (Some c) (Some (insert_nth p l d)) else None
  | _, _ => None
  end.

(** ** combine_legs *)
(* std::map keyed by the first leg of the group (a later group with the same key overwrites) *)
Definition lookup (groups : list (list nat)) (n : nat) : option (list nat) := find (fun g => hd 0 g =? n) (rev groups).
Definition codomain_groups (J : nat) (groups : list (list nat)) := filter (fun g => hd 0 g <? J) groups.
Definition domain_groups (J : nat) (groups : list (list nat)) := filter (fun g => negb (hd 0 g <? J)) groups.
(* ops_legs.cpp:770-797: one round of the loop over n; (entries of codomain_idcs, entries of domain_idcs_reversed) *)
Definition walk_idcs (J : nat) (groups : list (list nat)) (n : nat) : list nat * list nat :=
  match lookup (codomain_groups J groups) n with
  | Some g => (g, [])
  | None =>
      match lookup (domain_groups J groups) n with
      | Some g => ([], g)
      | None => if contains (concat groups) n then ([], []) else if n <? J then ([n], []) else ([], [n])
      end
  end.
(* tensor_backend.cpp:126-136; abelian.cpp:540-560 does not compare the legs ([abelian]).  [debug]: whether assert() is active; None = abort *)
Definition make_pipe (debug abelian : bool) (S : symmetry) (ls : list leg) (is_dual : bool) (pipe : option leg) : option leg :=
  match pipe with
  | None => Some (LPipe ls is_dual (negb is_dual))
  | Some p =>
      if debug then
        match p with
        | LPipe ls' d c => if Bool.eqb c (negb is_dual) && Bool.eqb d is_dual && (abelian || leg_eqb S (LPipe ls' false true) (LPipe ls false true)) then Some p else None
        | LSpace _ => None
        end
      else Some p
  end.
(* python slice l[a:b] with 0 <= a *)
Definition slice (A : Type) (l : list A) (a b : nat) : list A := firstn (b - a) (skipn a l).

(** the loop variables of ops_legs.cpp:849-917 *)
Record cstate := CState {
  c_i : nat;                   (* i *)
  c_off : Z;                   (* label_offset *)
  c_pipes : list (option leg); (* pipes_list *)
  c_cod : list leg; c_codl : list label;      (* codomain_spaces, codomain_labels *)
  c_dom : list leg; c_doml : list label }.    (* domain_spaces_reversed, domain_labels_reversed *)
Definition none_count (l : list label) : Z := Z.of_nat (length (filter (fun x => match x with None => true | _ => false end) l)).
(* one round of the loop; the tensor is the permuted one, groups are in its numbering.  [N], [J] are its numbers of legs *)
Definition walk_combine (debug abelian : bool) (S : symmetry) (t : tens) (groups : list (list nat)) (dualities : list bool) (s : cstate) (n : nat) : option cstate :=
  let N := num_legs t in let J := num_codomain t in
  match lookup (codomain_groups J groups) n with
  | Some g =>
      let front := hd 0 g in let back := last g 0 in
      match make_pipe debug abelian S (slice (t_codomain t) front (back + 1)) (nth (c_i s) dualities false) (nth (c_i s) (c_pipes s) None) with
      | None => None
      | Some p =>
          Some (CState (c_i s + 1) (c_off s + none_count (map (fun l => nth l (t_labels t) None) g)) (upd (c_pipes s) (c_i s) (Some p))
            (c_cod s ++ [p]) (c_codl s ++ [Some (combine_leg_labels (slice (t_labels t) front (back + 1)) (c_off s))]) (c_dom s) (c_doml s))
      end
  | None =>
      match lookup (domain_groups J groups) n with
      | Some g =>
          let front := hd 0 g in let back := last g 0 in
          match make_pipe debug abelian S (slice (t_domain t) (N - 1 - back) (N - 1 - front + 1)) (negb (nth (c_i s) dualities false)) (nth (c_i s) (c_pipes s) None) with
          | None => None
          | Some p =>
              Some (CState (c_i s + 1) (c_off s + none_count (map (fun l => nth l (t_labels t) None) g)) (upd (c_pipes s) (c_i s) (Some p))
                (c_cod s) (c_codl s) (c_dom s ++ [p]) (c_doml s ++ [Some (combine_leg_labels (slice (t_labels t) front (back + 1)) (c_off s))]))
          end
      | None =>
          if contains (concat groups) n then Some s
          else if n <? J then Some (CState (c_i s) (c_off s) (c_pipes s) (c_cod s ++ [nth n (t_codomain t) noleg]) (c_codl s ++ [nth n (t_labels t) None]) (c_dom s) (c_doml s))
          else Some (CState (c_i s) (c_off s) (c_pipes s) (c_cod s) (c_codl s) (c_dom s ++ [nth (N - 1 - n) (t_domain t) noleg]) (c_doml s ++ [nth n (t_labels t) None]))
      end
  end.
Fixpoint walk_all (f : cstate -> nat -> option cstate) (s : cstate) (ns : list nat) : option cstate :=
  match ns with [] => Some s | n :: ns => match f s n with Some s => walk_all f s ns | None => None end end.
(* std::sort of vectors of integers: lexicographic *)
Fixpoint list_ltb (a b : list nat) : bool :=
  match a, b with
  | [], [] => false | [], _ => true | _, [] => false
  | x :: a, y :: b => (x <? y) || ((x =? y) && list_ltb a b)
  end.
Fixpoint insert_sorted (g : list nat) (l : list (list nat)) : list (list nat) :=
  match l with [] => [g] | h :: t => if list_ltb h g then h :: insert_sorted g t else g :: l end.
Definition sort_groups (l : list (list nat)) : list (list nat) := fold_right insert_sorted [] l.

(** what combine_legs passes on: the permuted tensor, and the arguments of backend.combine_legs (the permuted legs to combine and their pipes) *)
Record combined := Combined { r_tensor : tens; r_permuted : tens; r_which : list (list nat); r_pipes : list (option leg) }.
(** combine_legs: ops_legs.cpp:694-953.  [pipe_dualities]: one entry per group (a single bool or None is repeated, lines 835-846);
    [pipes]: one entry per group.  None = an exception or a failed assertion.  Groups are non-empty ([group[0]] is undefined behaviour otherwise). *)
Definition combine_legs (debug abelian : bool) (S : symmetry) (t : tens) (groups : list (list nat)) (dualities : list bool) (pipes : list (option leg)) : option combined :=
  let N := num_legs t in let J := num_codomain t in
  if has_dup (concat groups) then None
  else
    let codomain_idcs := flat_map (fun n => fst (walk_idcs J groups n)) (seq 0 N) in
    let domain_reversed := flat_map (fun n => snd (walk_idcs J groups n)) (seq 0 N) in
    match permute_legs t (Some codomain_idcs) (Some (rev domain_reversed)) with
    | None => None
    | Some t1 =>
        let inv := inverse_permutation (codomain_idcs ++ domain_reversed) in
        let groups1 := map (map (fun l => nth l inv 0)) groups in
        match walk_all (walk_combine debug abelian S t1 groups1 dualities) (CState 0 0 pipes [] [] [] []) (seq 0 N) with
        | None => None
        | Some s => Some (Combined (Tens (c_cod s) (rev (c_dom s)) (c_codl s ++ c_doml s)) t1 (sort_groups groups1) (c_pipes s))
        end
    end.
(** combine_to_matrix: ops_legs.cpp:955-972.  None also stands for the undefined behaviour when one group is empty *)
Definition combine_to_matrix (debug abelian : bool) (S : symmetry) (t : tens) (codomain domain : option (list nat)) : option tens :=
  match permute_legs t codomain domain with
  | None => None
  | Some r =>
      if (num_codomain r =? 0) || (num_codomain r =? num_legs r) then None
      else match combine_legs debug abelian S r [seq 0 (num_codomain r); seq (num_codomain r) (num_legs r - num_codomain r)] [false; false] [None; None] with
           | Some x => Some (r_tensor x)
           | None => None
           end
  end.

(** ** split_legs: ops_legs.cpp:974-1105 *)
Definition is_pipe (l : leg) : bool := match l with LPipe _ _ _ => true | LSpace _ => false end.
Definition sublegs (l : leg) : list leg := match l with LPipe ls _ _ => ls | LSpace _ => [] end.
(* the leg as it is stored: get_leg_co_domain *)
Definition leg_co_domain (t : tens) (n : nat) : leg :=
  if n <? num_codomain t then nth n (t_codomain t) noleg else nth (num_legs t - 1 - n) (t_domain t) noleg.
(* lines 1003-1040: (leg_idcs, codomain_split, domain_split).  With legs given, get_leg_idcs + std::sort: the order does not matter below *)
Definition parse_split (t : tens) (idcs : option (list nat)) : option (list nat * list nat * list nat) :=
  let J := num_codomain t in let N := num_legs t in
  match idcs with
  | None =>
      let cs := filter (fun n => is_pipe (nth n (t_codomain t) noleg)) (seq 0 J) in
      let ds := filter (fun n => is_pipe (nth n (t_domain t) noleg)) (seq 0 (N - J)) in
      Some (cs ++ map (fun n => N - 1 - n) (rev ds), cs, ds)
  | Some l =>
      if forallb (fun n => is_pipe (leg_co_domain t n)) l
      then Some (l, filter (fun n => n <? J) l, map (fun n => N - 1 - n) (filter (fun n => negb (n <? J)) l))
      else None
  end.
(* lines 1042-1066 *)
Definition split_spaces (which : list nat) (l : list leg) : list leg :=
  flat_map (fun p => if contains which (fst p) then sublegs (snd p) else [snd p]) (combine (seq 0 (length l)) l).
(* lines 1083-1095 *)
Fixpoint split_labels (debug : bool) (t : tens) (idcs : list nat) (ns : list nat) : outcome (list label) :=
  match ns with
  | [] => Ok []
  | n :: ns =>
      let l := nth n (t_labels t) None in
      match (if contains idcs n then split_leg_label debug l (Some (Z.of_nat (length (sublegs (leg_co_domain t n))))) else Ok [l]), split_labels debug t idcs ns with
      | Ok a, Ok b => Ok (a ++ b)
      | Ok _, e => e
      | e, _ => e
      end
  end.
Definition split_legs (debug : bool) (t : tens) (idcs : option (list nat)) : outcome tens :=
  match parse_split t idcs with
  | None => Throw
  | Some (l, cs, ds) =>
      match split_labels debug t l (seq 0 (length (t_labels t))) with
      | Ok lab => Ok (Tens (split_spaces cs (t_codomain t)) (split_spaces ds (t_domain t)) lab)
      | Throw => Throw
      | Abort => Abort
      end
  end.
