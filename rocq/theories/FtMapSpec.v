(** Tensors of the fusion tree backend as functions of fusion trees and multiplicity indices (C60). *)
From Verif Require Import Util RowModel GridModel GridProofs SymModel CatSpec SpaceModel SpaceSpec PipeModel TreeModel TensorModel BlockModel ConvertSpec MappingModel PermLegsModel MoveModel FtMapModel.
Set Implicit Arguments. Unset Strict Implicit.
Open Scope nat_scope.

Section Spec.
  Variable S : tsymm.
  Variable K : Type.
  Variable o : ops K.
  Notation fdata := (list (nat * nat * blk K)).
  (** [t] is a fusion tree of sectors of the legs of [P] with coupled sector [c] *)
  Definition tree_of (P : tprod) (c : sector) (t : tree) : Prop :=
    valid_tree S (t_unc t) c (map es_dual (tp_flat_legs P)) t /\ Forall2 (fun a E => In a (es_decomp S E)) (t_unc t) (tp_flat_legs P).
  (** the multiplicities of the uncoupled sectors of [t] on the legs of [P] *)
  Definition tree_mults (P : tprod) (t : tree) : list nat := map (fun p => es_mult S (fst p) (snd p)) (combine (tp_flat_legs P) (t_unc t)).
  (** the entry of a tensor for the splitting tree [X] with multiplicity indices [p] and the fusion tree [Y] with indices [q] *)
  Definition tree_value (P Q : tprod) (F : fdata) (X : tree) (p : list nat) (Y : tree) (q : list nat) : K :=
    match tree_block_slice S P X, tree_block_slice S Q Y with
    | Some (x, _), Some (y, _) => ft_entry o Q F (t_coup X) (x + flat_index (tree_mults P X) true p) (y + flat_index (tree_mults Q Y) true q)
    | _, _ => o0 o
    end.
  (** leg number [k] of the new tensor, in the order codomain, reversed domain, is leg number [nth k legs] of the old one *)
  Definition leg_order (codomain_idcs domain_idcs : list nat) : list nat := codomain_idcs ++ rev domain_idcs.
  Definition permuted_legs (T : Type) (d : T) (codomain_idcs domain_idcs : list nat) (cod dom cod' dom' : list T) : Prop :=
    cod' ++ rev dom' = take d (cod ++ rev dom) (leg_order codomain_idcs domain_idcs).
  (** the flat legs of the new tensor are those of the old one: a leg that changes between codomain and domain is replaced by its dual *)
  Definition permuted_products (codomain_idcs domain_idcs : list nat) (P Q P' Q' : tprod) : Prop :=
    length codomain_idcs = length (tp_flat_legs P') /\ permuted_legs (ES [] [] false None) codomain_idcs domain_idcs (tp_flat_legs P) (map dual_es (tp_flat_legs Q)) (tp_flat_legs P') (map dual_es (tp_flat_legs Q')).
  (** [l] lists the pairs of a splitting tree of [P] and a fusion tree of [Q] with the same coupled sector *)
  Definition all_pairs (P Q : tprod) (l : list (tree * tree)) : Prop :=
    NoDup l /\ forall X Y, In (X, Y) l <-> exists c, tree_of P c X /\ tree_of Q c Y.
End Spec.

(** ** Formal linear combinations: lists of (basis element, coefficient), read as sums *)
Section Linear.
  Variables (T K : Type) (dec : forall x y : T, {x = y} + {x <> y}) (o : ops K).
  (** the coefficient of [k] *)
  Definition amount (l : list (T * K)) (k : T) : K := osum o (map (fun p => if dec (fst p) k then snd p else o0 o) l).
  (** linear extension of a (partial) map of basis elements *)
  Definition image (f : T -> option (list (T * K))) (k : T) : list (T * K) := match f k with Some l => l | None => [] end.
  Definition apply_linear (f : T -> option (list (T * K))) (l : list (T * K)) : list (T * K) :=
    flat_map (fun p => map (fun q => (fst q, omul o (snd q) (snd p))) (image f (fst p))) l.
End Linear.

Section Moves.
  Variable K : Type.
  Variable o : ops K.
  Variable braid_tree : tree -> nat -> bool -> bool -> option (list (tree * K)).
  Variable twist_tree : tree -> list nat -> bool -> option (list (tree * K)).
  Variable bend_pair : tree -> tree -> bool -> option (list ((tree * tree) * K)).
  Definition left_map (f : tree -> option (list (tree * K))) (XY : tree * tree) := option_map (map (fun q => ((fst q, snd XY), snd q))) (f (fst XY)).
  Definition right_map (f : tree -> option (list (tree * K))) (XY : tree * tree) := option_map (map (fun q => ((fst XY, fst q), snd q))) (f (snd XY)).
  (** what one instruction makes of a splitting tree (represented by the fusion tree that is its adjoint) and a fusion tree *)
  Definition move (i : instruction) : tree * tree -> option (list ((tree * tree) * K)) :=
    match i with
    | Bend down => fun XY => bend_pair (fst XY) (snd XY) down
    | Braid true idx over => left_map (fun X => braid_tree X idx (negb over) true)
    | Braid false idx over => right_map (fun Y => braid_tree Y idx over false)
    | Twist true idcs over => left_map (fun X => twist_tree X idcs over)
    | Twist false idcs over => right_map (fun Y => twist_tree Y idcs over)
    end.
  (** all instructions, one after the other *)
  Definition moved (l : list instruction) (XY : tree * tree) : list ((tree * tree) * K) :=
    fold_left (fun acc i => apply_linear o (move i) acc) l [(XY, o1 o)].
End Moves.

(** ** Real numbers inside of the coefficients: [re] is the real part *)
Record real_part (K : Type) (o : ops K) (re : K -> K) : Prop := {
  rl_0 : re (o0 o) = o0 o;
  rl_1 : re (o1 o) = o1 o;
  rl_add : forall a b, re a = a -> re b = b -> re (oadd o a b) = oadd o a b;
  rl_mul : forall a b, re a = a -> re b = b -> re (omul o a b) = omul o a b;
  rl_conj : forall a, re a = a -> re (oconj o a) = oconj o a;
}.
(** the topological data of a symmetry are real *)
Record real_symbols (K : Type) (re : K -> K) (R : Rsym K) (C : Fsym K) (B : Bsym K) (sqrt_qdim inv_sqrt_qdim fs theta : sector -> K) : Prop := {
  rs_R : forall a b c mu, re (R a b c mu) = R a b c mu;
  rs_C : forall a b c d e f mu nu kap lam, re (C a b c d e f mu nu kap lam) = C a b c d e f mu nu kap lam;
  rs_B : forall a b c mu nu, re (B a b c mu nu) = B a b c mu nu;
  rs_qdim : forall a, re (sqrt_qdim a) = sqrt_qdim a;
  rs_inv : forall a, re (inv_sqrt_qdim a) = inv_sqrt_qdim a;
  rs_fs : forall a, re (fs a) = fs a;
  rs_theta : forall a, re (theta a) = theta a;
}.
(** the index sets of a twist that FusionTree::twist can handle for every tree: one leg, or the first ones *)
Definition supported (i : instruction) : Prop := match i with Twist _ idcs _ => length idcs = 1 \/ is_perm (length idcs) idcs | _ => True end.
(** ** Symmetries with one-dimensional sectors and trivial associator: sectors form a group, the R symbol is a function of two charges *)
Record pointed_data (S : symmetry) (K : Type) (o : ops K) (r : sector -> sector -> K) (R : Rsym K) (C : Fsym K) (B : Bsym K) (sqrt_qdim inv_sqrt_qdim fs theta : sector -> K) (small : K -> bool) (trivial_braid : bool) : Prop := {
  pd_R : forall a b c mu, sym_valid S a = true -> sym_valid S b = true -> R a b c mu = r a b;
  pd_C : forall a b c d e f mu nu kap lam, sym_valid S a = true -> sym_valid S b = true -> sym_valid S c = true -> C a b c d e f mu nu kap lam = r b c;
  pd_B : forall a b c mu nu, sym_valid S a = true -> sym_valid S b = true -> B a b c mu nu = o1 o;
  pd_qdim : forall a, sym_valid S a = true -> sqrt_qdim a = o1 o /\ inv_sqrt_qdim a = o1 o /\ fs a = o1 o;
  pd_theta : forall a, sym_valid S a = true -> theta a = r a a;
  pd_trivial : trivial_braid = true -> forall a, sym_valid S a = true -> r a a = o1 o;
  pd_dual : forall a b, sym_valid S a = true -> sym_valid S b = true -> r (sym_dual S a) (sym_dual S b) = r a b;
  pd_cutoff : forall a b, sym_valid S a = true -> sym_valid S b = true -> small (r a b) = false /\ small (oconj o (r a b)) = false;
}.
