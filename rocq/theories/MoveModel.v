(** Model of FusionTree::bend_leg and FusionTree::twist (src/symmetries/trees.cpp).  [None]: an exception or a failed assertion.
    FusionTreeLinearCombination and FusionTreePairLinearCombination (maps) are association lists. *)
From Verif Require Import Util RowModel SymModel CatSpec TreeModel.
Set Implicit Arguments. Unset Strict Implicit.
Open Scope nat_scope.

(** all values, or [None] if one of them is missing *)
Fixpoint all_some (X : Type) (l : list (option X)) : option (list X) :=
  match l with
  | [] => Some []
  | x :: r => match x, all_some r with Some y, Some t => Some (y :: t) | _, _ => None end
  end.

Definition Bsym (K : Type) := sector -> sector -> sector -> nat -> nat -> K.

Section Moves.
  Variable S : symmetry.
  Variable K : Type.
  Variable o : ops K.
  Variable B : Bsym K.                                   (* b_symbol *)
  Variables sqrt_qdim inv_sqrt_qdim fs theta : sector -> K. (* sqrt_qdim, inv_sqrt_qdim, frobenius_schur, topological_twist *)
  Variable trivial_braid : bool.                         (* has_trivial_braid *)

  (* trees.cpp:835-889: bend_leg(X, Y, bend_downward = true, do_conj): the last leg of Y becomes the last leg of X;
     B.extent(1) is the number of vertices c zbar -> e *)
  Definition bend_down (X Y : tree) (do_conj : bool) : option (list ((tree * tree) * K)) :=
    let c := t_coup Y in
    if num_uncoupled Y =? 0 then None else
    let is_dual := last (t_dual Y) false in
    if num_uncoupled Y =? 1 then
      match extended X (sym_dual S c) 0 (sym_trivial S) (negb is_dual) with
      | None => None
      | Some Y_i => Some [((Y_i, from_empty S), if is_dual then omul o (sqrt_qdim c) (fs c) else sqrt_qdim c)]
      end
    else
      match split_bottom_vertex S Y with
      | None => None
      | Some (X_i, _, mu, z) =>
        let e := t_coup X_i in
        if num_uncoupled X =? 0 then
          Some [((from_sector e (negb is_dual), X_i), if negb is_dual then omul o (inv_sqrt_qdim e) (fs e) else inv_sqrt_qdim e)]
        else
          let zbar := sym_dual S z in
          all_some (map (fun nu =>
            let b_i := B e z c mu nu in
            let b_i := if is_dual then omul o b_i (fs z) else b_i in
            let b_i := if do_conj then oconj o b_i else b_i in
            match extended X zbar nu e (negb is_dual) with
            | None => None
            | Some Y_i => Some ((Y_i, X_i), b_i)
            end) (seq 0 (n_symbol S c zbar e)))
      end.
  (* trees.cpp:801-834 *)
  Definition bend_leg (X Y : tree) (bend_downward do_conj : bool) : option (list ((tree * tree) * K)) :=
    if bend_downward then bend_down X Y do_conj
    else match bend_down Y X (negb do_conj) with
         | None => None
         | Some other => Some (map (fun p => ((snd (fst p), fst (fst p)), snd p)) other)
         end.

  (** sorted copy of a list of indices *)
  Fixpoint insert_nat (x : nat) (l : list nat) : list nat :=
    match l with [] => [x] | y :: r => if x <=? y then x :: l else y :: insert_nat x r end.
  Definition sort_nat (l : list nat) : list nat := fold_right insert_nat [] l.
  Fixpoint strictly_up (l : list nat) : bool :=
    match l with x :: (y :: _) as r => (x <? y) && strictly_up r | _ => true end.
  (* trees.cpp:1455-1523; the indices are not negative here *)
  Definition twist (t : tree) (idcs : list nat) (overtwist : bool) : option (list (tree * K)) :=
    let phase := fun a => if overtwist then theta a else oconj o (theta a) in
    if trivial_braid then Some [(t, o1 o)] else
    match idcs with
    | [] => Some [(t, o1 o)]
    | [i] => if i <? num_uncoupled t then Some [(t, phase (nth i (t_unc t) []))] else None
    | _ =>
      if negb (forallb (fun i => i <? num_uncoupled t) idcs) then None else
      let sorted := sort_nat idcs in
      if negb (strictly_up sorted) then None else
      if length sorted =? num_uncoupled t then Some [(t, phase (t_coup t))] else
      if forallb (fun p => fst p =? snd p) (combine sorted (seq 0 (length sorted)))
      then Some [(t, phase (nth (last sorted 0 - 1) (t_inner t) []))] else None
    end.

  Variable R : Rsym K.
  Variable C : Fsym K.
  (* trees.cpp:892-976 with its assertion on j; [small x]: |x| < cutoff *)
  Definition braid_tree (small : K -> bool) (t : tree) (j : nat) (over do_conj : bool) : option (list (tree * K)) :=
    if j + 1 <? num_uncoupled t then Some (braid S o R C small t j over do_conj) else None.
End Moves.
