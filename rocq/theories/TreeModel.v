(** Model of src/symmetries/trees.cpp: fusion trees, their enumeration, and the moves on them.
    A FusionTree stores its symmetry by pointer; here the symmetry is a parameter.  are_dual (uint8 flags) are booleans,
    multiplicities (int64, never negative in a tree) are natural numbers.  SectorArray / std::vector are lists.
    Linear combinations (std::map / unordered_map from trees to complex128) are association lists; complex arithmetic is
    exact over an abstract ring with conjugation. *)
From Verif Require Import Util RowModel SymModel CatSpec LexOrder SpaceModel.
Set Implicit Arguments.
Unset Strict Implicit.
Open Scope nat_scope.

Fixpoint bools_eqb (a b : list bool) : bool :=
  match a, b with [], [] => true | x :: a', y :: b' => Bool.eqb x y && bools_eqb a' b' | _, _ => false end.

Record tree := Tree {
  t_unc : list sector;     (* uncoupled *)
  t_coup : sector;         (* coupled *)
  t_dual : list bool;      (* are_dual *)
  t_inner : list sector;   (* inner_sectors *)
  t_mult : list nat;       (* multiplicities *)
}.

(** trees.cpp:333-335 *)
Definition num_uncoupled (t : tree) : nat := length (t_unc t).
Definition num_vertices (t : tree) : nat := num_uncoupled t - 1.
Definition num_inner (t : tree) : nat := num_uncoupled t - 2.

(** trees.cpp:310-351: the constructor; multiplicities default to zeros *)
Definition mk_tree unc coup dual inner (mult : option (list nat)) : tree :=
  Tree unc coup dual inner (match mult with Some m => m | None => repeat 0 (length unc - 1) end).

(** trees.cpp:978-998 (vertex_labels); out of range accesses are undefined behaviour in C++ and give [] / 0 here *)
Definition vertex_labels (t : tree) (n : nat) : sector * sector * nat * sector :=
  let a := if n =? 0 then nth 0 (t_unc t) [] else nth (n - 1) (t_inner t) [] in
  let b := if n =? 0 then nth 1 (t_unc t) [] else nth (n + 1) (t_unc t) [] in
  let c := if n =? num_vertices t - 1 then t_coup t else nth n (t_inner t) [] in
  (a, b, nth n (t_mult t) 0, c).

(** trees.cpp:1000-1019 (modify_vertex_labels) *)
Definition modify_vertex_labels (t : tree) (n : nat) (a b : sector) (mu : nat) (c : sector) : tree :=
  let unc := if n =? 0 then upd (t_unc t) 0 a else t_unc t in
  let inner := if n =? 0 then t_inner t else upd (t_inner t) (n - 1) a in
  let unc := upd unc (n + 1) b in
  let last := n =? num_vertices t - 1 in
  Tree unc (if last then c else t_coup t) (t_dual t) (if last then inner else upd inner n c) (upd (t_mult t) n mu).

Section WithSymmetry.
  Variable S : symmetry.

  (** trees.cpp:353-381 (test_sanity): [true] iff no assertion fails *)
  Definition test_sanity (t : tree) : bool :=
    are_valid_sectors S (t_unc t) && sym_valid S (t_coup t) && (length (t_dual t) =? num_uncoupled t) &&
    (length (t_inner t) =? num_inner t) && are_valid_sectors S (t_inner t) && (length (t_mult t) =? num_vertices t) &&
    (if num_uncoupled t =? 0 then row_eqb (t_coup t) (sym_trivial S) else true) &&
    (if num_uncoupled t =? 1 then row_eqb (nth 0 (t_unc t) []) (t_coup t) else true) &&
    forallb (fun n => match vertex_labels t n with
                      | (a, b, mu, c) => (0 <? n_symbol S a b c) && (mu <? n_symbol S a b c) end) (seq 0 (num_vertices t)).

  (** trees.cpp:414-423 *)
  Definition from_empty : tree := Tree [] (sym_trivial S) [] [] [].
  (** trees.cpp:425-434 *)
  Definition from_sector (a : sector) (is_dual : bool) : tree := Tree [a] a [is_dual] [] [].

  (** trees.cpp:395-404: the loop; [None] = out of range access if there is no outcome *)
  Fixpoint abelian_outcomes (last : sector) (us : list sector) : option (list sector) :=
    match us with
    | [] => Some []
    | a :: r => match sym_outcomes S last a with
                | [] => None
                | f :: _ => match abelian_outcomes f r with Some l => Some (f :: l) | None => None end
                end
    end.
  (** trees.cpp:382-412 (from_abelian_symmetry); the assertion is_abelian() is a hypothesis of the theorems *)
  Definition from_abelian (unc : list sector) (dual : list bool) : option tree :=
    match unc with
    | [] => Some from_empty
    | [a] => Some (from_sector a (nth 0 dual false))
    | a :: r => match abelian_outcomes a r with
                | None => None
                | Some f => Some (mk_tree unc (last f []) dual (firstn (length f - 1) f) None)
                end
    end.

  (** trees.cpp:436-463 (pre_Z_uncoupled) *)
  Definition pre_Z_uncoupled (t : tree) : list sector :=
    map (fun p => if snd p : bool then sym_dual S (fst p) else fst p) (combine (t_unc t) (t_dual t)).

  (** trees.cpp:1174-1201 (extended); [None] = assertion mu == 0 fails *)
  Definition extended (t : tree) (new_unc : sector) (mu : nat) (new_coup : sector) (is_dual : bool) : option tree :=
    if (num_uncoupled t =? 0) && negb (mu =? 0) then None else
    Some (Tree (t_unc t ++ [new_unc]) new_coup (t_dual t ++ [is_dual])
               (if 2 <=? num_uncoupled t then t_inner t ++ [t_coup t] else t_inner t)
               (if num_uncoupled t =? 0 then [] else t_mult t ++ [mu])).

  (** trees.cpp:1203-1216 (insert) *)
  Definition insert (t t2 : tree) : tree :=
    Tree (t_unc t2 ++ slice (t_unc t) 1 (num_uncoupled t)) (t_coup t) (t_dual t2 ++ skipn 1 (t_dual t))
         (t_inner t2 ++ slice (t_unc t) 0 1 ++ t_inner t) (t_mult t2 ++ t_mult t).

  (** trees.cpp:1229-1246 (insert_at with an empty tree): remove the uncoupled sector [n].  The coefficient is 1. *)
  Definition insert_at_empty (t : tree) (n : nat) : tree :=
    let idx := Nat.max 0 (n - 1) in
    Tree (slice (t_unc t) 0 n ++ slice (t_unc t) (n + 1) (num_uncoupled t)) (t_coup t)
         (slice (t_dual t) 0 n ++ slice (t_dual t) (n + 1) (length (t_dual t)))
         (slice (t_inner t) 0 idx ++ slice (t_inner t) (idx + 1) (num_inner t))
         (slice (t_mult t) 0 idx ++ slice (t_mult t) (idx + 1) (length (t_mult t))).

  (** trees.cpp:1395-1428 (split); [None] = invalid_argument *)
  Definition split (t : tree) (n : nat) : option (tree * tree) :=
    if n <? 2 then None else if num_uncoupled t <=? n then None else
    let cut := nth (n - 2) (t_inner t) [] in
    Some (Tree (slice (t_unc t) 0 n) cut (slice (t_dual t) 0 n) (slice (t_inner t) 0 (n - 2)) (slice (t_mult t) 0 (n - 1)),
          Tree (cut :: slice (t_unc t) n (num_uncoupled t)) (t_coup t) (false :: slice (t_dual t) n (length (t_dual t)))
               (slice (t_inner t) (n - 1) (num_inner t)) (slice (t_mult t) (n - 1) (length (t_mult t)))).

  (** trees.cpp:1430-1452 (split_bottom_vertex) *)
  Definition split_bottom_vertex (t : tree) : option (tree * sector * nat * sector) :=
    match num_uncoupled t with
    | 0 => None
    | 1 => Some (from_empty, t_coup t, 0, t_coup t)
    | 2 => Some (from_sector (nth 0 (t_unc t) []) (nth 0 (t_dual t) false), t_coup t, nth 0 (t_mult t) 0, nth 1 (t_unc t) [])
    | n => Some (Tree (slice (t_unc t) 0 (n - 1)) (nth (num_inner t - 1) (t_inner t) []) (slice (t_dual t) 0 (length (t_dual t) - 1))
                      (slice (t_inner t) 0 (num_inner t - 1)) (slice (t_mult t) 0 (length (t_mult t) - 1)),
                 t_coup t, last (t_mult t) 0, nth (n - 1) (t_unc t) [])
    end.

  (** ** Enumeration *)
  Definition set_mult0 (t : tree) (mu : nat) : tree :=
    Tree (t_unc t) (t_coup t) (t_dual t) (t_inner t) (upd (t_mult t) 0 mu).
  (** trees.cpp:1551-1624 (fusion_trees::all_trees) for at least one uncoupled sector [a1 :: us] *)
  Fixpoint all_trees1 (coupled a1 : sector) (us : list sector) (dual : list bool) : list tree :=
    match us with
    | [] => if row_eqb a1 coupled then [Tree [a1] coupled dual [] []] else []
    | a2 :: us' =>
      match us' with
      | [] => map (fun mu => Tree [a1; a2] coupled dual [] [mu]) (seq 0 (n_symbol S a1 a2 coupled))
      | _ :: _ =>
        flat_map (fun b =>
          flat_map (fun rest => map (set_mult0 (insert rest (Tree [a1; a2] b (slice dual 0 2) [] [0]))) (seq 0 (sym_n S a1 a2 b)))
                   (all_trees1 coupled b us' (false :: slice dual 2 (length dual))))
          (sym_outcomes S a1 a2)
      end
    end.
  Definition all_trees (unc : list sector) (coupled : sector) (dual : list bool) : list tree :=
    match unc with
    | [] => if row_eqb coupled (sym_trivial S) then [Tree [] coupled [] [] []] else []
    | a1 :: us => all_trees1 coupled a1 us dual
    end.

  (** trees.cpp:1626-1655 (fusion_trees::size) *)
  Fixpoint num_trees1 (coupled a1 : sector) (us : list sector) : nat :=
    match us with
    | [] => if row_eqb a1 coupled then 1 else 0
    | a2 :: us' =>
      match us' with
      | [] => n_symbol S a1 a2 coupled
      | _ :: _ => fold_left (fun count b => count + sym_n S a1 a2 b * num_trees1 coupled b us') (sym_outcomes S a1 a2) 0
      end
    end.
  Definition num_trees (unc : list sector) (coupled : sector) : nat :=
    match unc with
    | [] => if row_eqb coupled (sym_trivial S) then 1 else 0
    | a1 :: us => num_trees1 coupled a1 us
    end.

  (** trees.cpp:1731-1748: the loop over the fusion outcomes of one vertex: skip the blocks of the outcomes before
      [target]; returns the new idx and the multiplicity of the target, or [None] if the target is not an outcome *)
  Fixpoint index_vertex (unc : list sector) (coupled : sector) (i left_multi idx : nat) (left target : sector) (outs : list sector)
    : option (nat * nat) :=
    match outs with
    | [] => None
    | f :: r => let multi := sym_n S left (nth (i + 1) unc []) f in
                if row_eqb f target then Some (idx, multi)
                else index_vertex unc coupled i left_multi
                       (idx + left_multi * multi * num_trees (f :: slice unc (i + 2) (length unc)) coupled) left target r
    end.
  (** trees.cpp:1726-1752: the loop over the vertices but the last one; state (idx, left_multi, max_multis) *)
  Definition index_step (unc : list sector) (coupled : sector) (t : tree) (st : option (nat * nat * list nat)) (i : nat)
    : option (nat * nat * list nat) :=
    match st with
    | None => None
    | Some (idx, left_multi, max_multis) =>
      let left := if i =? 0 then nth i unc [] else nth (i - 1) (t_inner t) [] in
      match index_vertex unc coupled i left_multi idx left (nth i (t_inner t) []) (sym_outcomes S left (nth (i + 1) unc [])) with
      | None => None
      | Some (idx', multi) => Some (idx', left_multi * multi, max_multis ++ [multi])
      end
    end.
  (** trees.cpp:1708-1784 (compute_index), [abelian] is symmetry->is_abelian(); [None] = invalid_argument *)
  Definition compute_index (abelian : bool) (unc : list sector) (coupled : sector) (t : tree) : option nat :=
    let N := length unc in
    if N <? 2 then
      if (N =? 0) && row_eqb coupled (sym_trivial S) then Some 0
      else if (N =? 1) && row_eqb (nth 0 unc []) coupled then Some 0 else None
    else
      match fold_left (index_step unc coupled t) (seq 0 (N - 2)) (Some (0, 1, [])) with
      | None => None
      | Some (idx, _, max_multis) =>
        let left := if N =? 2 then nth 0 unc [] else last (t_inner t) [] in
        let ul := nth (N - 1) unc [] in
        if negb (can_fuse_to S left ul coupled) then None else
        let max_multis := max_multis ++ [sym_n S left ul coupled] in
        if negb (length (t_mult t) =? length max_multis) then None else
        if negb (forallb (fun i => nth i (t_mult t) 0 <? nth i max_multis 0) (seq 0 (length (t_mult t)))) then None else
        Some (if abelian then idx else
              fold_left (fun idx i => idx + nth i (t_mult t) 0 * fold_left (fun p j => p * nth j max_multis 0) (seq 0 i) 1)
                        (seq 0 (length (t_mult t))) idx)
      end.
  (** trees.cpp:1685-1706 (index); the symmetry check is the parameter [S] *)
  Definition index (abelian : bool) (unc : list sector) (coupled : sector) (dual : list bool) (t : tree) : option nat :=
    if negb (rows_eqb unc (t_unc t)) then None else if negb (row_eqb coupled (t_coup t)) then None else
    if negb (bools_eqb dual (t_dual t)) then None else compute_index abelian unc coupled t.
End WithSymmetry.

(** ** Order and equality *)
(** sector.h:  operator<=> of sectors: lexicographic, first component first *)
Definition sector_cmp : sector -> sector -> comparison := list_compare Z.compare.
Definition sector_lt (a b : sector) : bool := match sector_cmp a b with Lt => true | _ => false end.
(** std::vector<..>::operator< *)
Definition bools_lt (a b : list bool) : bool := match list_compare bool_compare a b with Lt => true | _ => false end.
Definition nats_lt (a b : list nat) : bool := match list_compare Nat.compare a b with Lt => true | _ => false end.

(** trees.cpp:484-490 (operator==).  SectorArray equality also compares sector_ind_len, which is the same for all trees
    of one symmetry (the constructor and from_empty use symmetry->empty_sector_array for empty arrays). *)
Definition tree_eqb (t u : tree) : bool :=
  bools_eqb (t_dual t) (t_dual u) && row_eqb (t_coup t) (t_coup u) && rows_eqb (t_unc t) (t_unc u) &&
  rows_eqb (t_inner t) (t_inner u) && nats_eqb (t_mult t) (t_mult u).
(** the loops trees.cpp:507-511, 515-519: the first position where the arrays differ decides; [None] = no difference *)
Fixpoint sectors_lt (a b : list sector) : option bool :=
  match a, b with
  | x :: a', y :: b' => if row_eqb x y then sectors_lt a' b' else Some (sector_lt x y)
  | _, _ => None
  end.
(** trees.cpp:492-521 (operator<) *)
Definition tree_lt (t u : tree) : bool :=
  if negb (bools_eqb (t_dual t) (t_dual u)) then bools_lt (t_dual t) (t_dual u) else
  if negb (row_eqb (t_coup t) (t_coup u)) then sector_lt (t_coup t) (t_coup u) else
  if negb (length (t_unc t) =? length (t_unc u)) then length (t_unc t) <? length (t_unc u) else
  match sectors_lt (t_unc t) (t_unc u) with
  | Some r => r
  | None =>
    if negb (length (t_inner t) =? length (t_inner u)) then length (t_inner t) <? length (t_inner u) else
    match sectors_lt (t_inner t) (t_inner u) with
    | Some r => r
    | None => nats_lt (t_mult t) (t_mult u)
    end
  end.

(** ** Moves *)
Section Moves.
  Variable S : symmetry.
  Variable K : Type.
  Variable o : ops K.
  Variable F : Fsym K.     (* _f_symbol *)
  Variable R : Rsym K.     (* r_symbol: diagonal entries *)
  Variable C : Fsym K.     (* c_symbol *)
  Notation lincomb := (list (tree * K)).

  (** FusionSymbol::for_each2d over the entries of an [n x m] slice *)
  Definition for_each2d (B : Type) (n m : nat) (f : nat -> nat -> list B) : list B :=
    flat_map (fun k => flat_map (f k) (seq 0 m)) (seq 0 n).

  (** trees.cpp:892-976 (braid); [small x] is |x| < cutoff.  The assertion that a tree is not yet in the result is C20_distinct. *)
  Definition braid (small : K -> bool) (t : tree) (j : nat) (over do_conj : bool) : lincomb :=
    if j =? 0 then
      match vertex_labels t 0 with
      | (a, b, mu, c) =>
        let a_i := if over then R a b c mu else oconj o (R b a c mu) in
        let a_i := if do_conj then oconj o a_i else a_i in
        [(Tree (upd (upd (t_unc t) 0 b) 1 a) (t_coup t)
               (upd (upd (t_dual t) 0 (nth 1 (t_dual t) false)) 1 (nth 0 (t_dual t) false)) (t_inner t) (t_mult t), a_i)]
      end
    else
      match vertex_labels t (j - 1), vertex_labels t j with
      | (a, b, mu, e), (_, c, nu, d) =>
        let unc := upd (upd (t_unc t) j c) (j + 1) b in
        let dual := upd (upd (t_dual t) j (nth (j + 1) (t_dual t) false)) (j + 1) (nth j (t_dual t) false) in
        flat_map (fun f =>
          if negb (can_fuse_to S f b d) then [] else
          for_each2d (n_symbol S a c f) (n_symbol S f b d) (fun kap lam =>
            let x := if over then C a b c d e f mu nu kap lam else oconj o (C a c b d f e kap lam mu nu) in
            let x := if do_conj then oconj o x else x in
            if small x then [] else
            [(Tree unc (t_coup t) dual (upd (t_inner t) (j - 1) f) (upd (upd (t_mult t) (j - 1) kap) j lam), x)]))
          (sym_outcomes S a c)
      end.
End Moves.

(** * Specification *)
(** formal linear combinations of trees: the coefficient of a tree, and a linear map given by its values on trees *)
Definition coef K (o : ops K) (l : list (tree * K)) (u : tree) : K :=
  osum o (map (fun p => if tree_eqb (fst p) u then snd p else o0 o) l).
Definition extend_linear K (o : ops K) (f : tree -> list (tree * K)) (l : list (tree * K)) : list (tree * K) :=
  flat_map (fun p => map (fun q => (fst q, omul o (snd p) (snd q))) (f (fst p))) l.
(** the C symbol C(abcd)[(e mu nu), (f kappa lambda)] has orthonormal rows *)
Definition C_unitary (S : symmetry) K (o : ops K) (C : Fsym K) : Prop :=
  forall a b c d, sym_valid S a = true -> sym_valid S b = true -> sym_valid S c = true -> sym_valid S d = true ->
  forall e e' mu nu mu' nu', In e (sym_outcomes S a b) -> In e' (sym_outcomes S a b) -> mu < n_symbol S a b e -> nu < n_symbol S e c d ->
    mu' < n_symbol S a b e' -> nu' < n_symbol S e' c d ->
    osum o (map (fun f => sumn o (n_symbol S a c f) (fun k => sumn o (n_symbol S f b d) (fun l =>
      omul o (C a b c d e f mu nu k l) (oconj o (C a b c d e' f mu' nu' k l))))) (sym_outcomes S a c)) =
    (if row_eqb e e' && (mu =? mu') && (nu =? nu') then o1 o else o0 o).

Section Spec.
  Variable S : symmetry.
  (** [path a us inners mus c]: fusing [a] with the sectors [us] one after the other gives [c]; [inners] are the sectors in
      between and [mus] the multiplicity labels of the vertices *)
  Inductive path : sector -> list sector -> list sector -> list nat -> sector -> Prop :=
  | path_one a u mu c : In c (sym_outcomes S a u) -> mu < sym_n S a u c -> path a [u] [] [mu] c
  | path_cons a u us e inners mu mus c : In e (sym_outcomes S a u) -> mu < sym_n S a u e -> path e us inners mus c ->
      path a (u :: us) (e :: inners) (mu :: mus) c.
  (** the trees of given uncoupled sectors, coupled sector and duality flags *)
  Inductive valid_tree : list sector -> sector -> list bool -> tree -> Prop :=
  | vt_empty : valid_tree [] (sym_trivial S) [] (Tree [] (sym_trivial S) [] [] [])
  | vt_one a d : valid_tree [a] a [d] (Tree [a] a [d] [] [])
  | vt_more a us c dual inners mus : length dual = Datatypes.S (length us) -> path a us inners mus c ->
      valid_tree (a :: us) c dual (Tree (a :: us) c dual inners mus).
  (** a valid tree, with valid sectors *)
  Definition tree_ok (t : tree) : Prop :=
    Forall (fun a => sym_valid S a = true) (t_unc t) /\ valid_tree (t_unc t) (t_coup t) (t_dual t) t.
End Spec.
