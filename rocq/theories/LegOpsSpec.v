(** Specification vocabulary for the leg operations of LegOpsModel.v *)
From Coq Require Import List Arith Bool ZArith Ascii.
From Verif Require Import Util SymModel PipeModel LabelsModel LegOpsModel.
Import ListNotations.
Set Implicit Arguments. Unset Strict Implicit.
Open Scope nat_scope.

(** one label per leg *)
Definition tens_ok (t : tens) : Prop := length (t_labels t) = num_legs t.
Definition leg_at (t : tens) (n : nat) : leg := nth n (legs t) noleg.
Definition label_at (t : tens) (n : nat) : label := nth n (t_labels t) None.
(** the groups of legs to combine: non-empty, existing legs, no leg twice *)
Definition groups_ok (N : nat) (groups : list (list nat)) : Prop :=
  Forall (fun g => g <> [] /\ Forall (fun n => n < N) g) groups /\ NoDup (concat groups).
(** the group that starts with leg [n] *)
Definition group_at (groups : list (list nat)) (n : nat) : option (list nat) := find (fun g => hd 0 g =? n) groups.
(** [n] is a leg of a group, but not its first one *)
Definition absorbed (groups : list (list nat)) (n : nat) : bool := existsb (fun g => contains (tl g) n) groups.
(** what replaces leg n: the legs of the group that starts there, nothing if n belongs to a group that starts elsewhere, itself otherwise *)
Definition expand (groups : list (list nat)) (n : nat) : list nat :=
  match group_at groups n with Some g => g | None => if absorbed groups n then [] else [n] end.
(** the legs of the result: those which are not absorbed, in their order; a group sits at the place of its first leg *)
Definition kept (N : nat) (groups : list (list nat)) : list nat := filter (fun n => negb (absorbed groups n)) (seq 0 N).
(** number of groups that start before leg n *)
Definition rank (groups : list (list nat)) (n : nat) : nat := length (filter (fun g => hd 0 g <? n) groups).
(** number of unlabelled legs in the groups that start before leg n *)
Definition unlabelled_before (t : tens) (groups : list (list nat)) (n : nat) : nat :=
  nsum (map (fun g => length (filter (fun l => match label_at t l with None => true | _ => false end) g)) (filter (fun g => hd 0 g <? n) groups)).
(** the leg of the result at [n] if the group with rank r gets duality d r *)
Definition result_leg (t : tens) (groups : list (list nat)) (d : nat -> bool) (n : nat) : leg :=
  match group_at groups n with
  | Some g => LPipe (map (leg_at t) g) (d (rank groups n)) (negb (d (rank groups n)))
  | None => leg_at t n
  end.
Definition result_label (t : tens) (groups : list (list nat)) (n : nat) : label :=
  match group_at groups n with
  | Some g => Some (combine_leg_labels (map (label_at t) g) (Z.of_nat (unlabelled_before t groups n)))
  | None => label_at t n
  end.
(** the pipe in the codomain (domain) of the result for the group that starts at n *)
Definition result_pipe (t : tens) (groups : list (list nat)) (d : nat -> bool) (n : nat) : leg :=
  if n <? num_codomain t then result_leg t groups d n else dual_leg (result_leg t groups d n).
(** pipes given by the user, in the order of their legs: absent or what would be computed *)
Definition pipes_ok (t : tens) (groups : list (list nat)) (d : nat -> bool) (pipes : list (option leg)) : Prop :=
  length pipes = length groups /\
  forall n g, group_at groups n = Some g -> nth (rank groups n) pipes None = None \/ nth (rank groups n) pipes None = Some (result_pipe t groups d n).
(** groups are listed in the order of their first legs *)
Definition in_leg_order (groups : list (list nat)) : Prop := forall i j, i < j < length groups -> hd 0 (nth i groups []) < hd 0 (nth j groups []).
(** what the documentation promises: the pipe of [which_legs[k]] has [is_dual == pipe_dualities[k]] *)
Definition documented_leg (t : tens) (groups : list (list nat)) (dualities : list bool) (n : nat) : leg :=
  match find (fun p => hd 0 (fst p) =? n) (combine groups dualities) with
  | Some (g, d) => LPipe (map (leg_at t) g) d (negb d)
  | None => leg_at t n
  end.
(** labels without dots and without a leading question mark *)
Definition plain_label (l : label) : Prop := match l with None => True | Some x => ~ In "."%char x /\ (forall rest, x <> "?"%char :: rest) end.
