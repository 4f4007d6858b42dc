(** Model of tdot (src/tensors/ops_algebra.cpp) at the level of legs: which legs are joined, which legs the result has and in which order, and its labels.
    Legs are given as indices (already parsed by get_leg_idcs, hence smaller than num_legs).
    Left out: ChargedTensor inputs, the agreement of the spaces of joined legs (check_legs), equal labels among the open legs (without relabel1 and relabel2,
    composing two SymmetricTensors drops them). *)
From Coq Require Import String ZArith List Bool.
From Verif Require Import Util GridModel PermLegsModel PermLegsSpec PlanarModel PlanarSpec PcModel.
Import ListNotations.
Set Implicit Arguments. Unset Strict Implicit.
Open Scope nat_scope.

(** the types of tensors; a Mask is a projection (large leg: the domain) or an inclusion (large leg: the codomain) *)
Inductive kind := Symmetric | Diagonal | Identity | Mask (projection : bool).
Record tensor := Tensor { t_kind : kind; t_nc : nat; t_nd : nat }.
Definition num_legs (t : tensor) : nat := t_nc t + t_nd t.

(** DuplicateLegs, DifferentLengths: invalid_argument of tdot; PermuteLegs: an error of permute_legs, of its get_leg_idcs (LegRange) or of bend_legs applied to a number (NotATensor);
    ComposeError: of compose; MaskMask: compose_with_Mask is not implemented for two Masks *)
Inductive tdot_error := DuplicateLegs | DifferentLengths | PermuteLegs (e : planar_error) | LegRange | NotATensor | ComposeError | MaskMask.
(** Number: a scalar result *)
Inductive tres (A : Type) := TNumber (pairs : list (A * A)) | TTensor (r : joined A) | TErr (e : tdot_error).
Arguments TNumber {A} pairs.
Arguments TErr {A} e.

Section Legs.
Variable A : Type.
(** the number of legs, leg k and replacing leg k; legs are counted through the codomain from left to right, then through the domain from right to left *)
Definition total (t : legs_t A) : nat := length (fst t) + length (snd t).
Definition leg (d : A) (t : legs_t A) (k : nat) : A := nth k (fst t ++ rev (snd t)) d.
Definition set_leg (t : legs_t A) (k : nat) (x : A) : legs_t A :=
  if k <? length (fst t) then (upd (fst t) k x, snd t) else (fst t, upd (snd t) (total t - 1 - k) x).
(** the legs that are left after the legs i and j have been traced: partial_trace, ops_algebra.cpp:1373-1520 *)
Definition drop_legs (t : legs_t A) (gone : list nat) : legs_t A :=
  (map snd (filter (fun p => negb (contains gone (fst p))) (combine (seq 0 (length (fst t))) (fst t))),
   map snd (filter (fun p => negb (contains gone (total t - 1 - fst p))) (combine (seq 0 (length (snd t))) (snd t)))).
End Legs.

Section Tdot.
(** properties of the symmetry: trivial braid, symmetric braid (permute_legs, PlanarSpec) *)
Variables trivial_braid sym : bool.
Definition name := (nat + nat)%type.
Definition d0 : name := inl 0.

(** permute_legs without levels: ops_legs.cpp:331-640 (PlanarSpec.do_call for the part with both lists given) *)
Definition permute (t : legs_t name) (co dom : list nat) (b : bend_arg) : tdot_error + legs_t name :=
  match do_call trivial_braid sym (legs0 (length (fst t)) (length (snd t))) (Call co dom b) with
  | PErr e => inl (PermuteLegs e)
  | POk (st, _) => inr (map (leg d0 t) (fst st), map (leg d0 t) (snd st))
  end.
(* ops_legs.cpp:360-368 *)
Definition permute_domain (t : legs_t name) (dom : list nat) : tdot_error + legs_t name :=
  if existsb (fun l => total t <=? l) dom then inl LegRange
  else permute t (filter (fun i => negb (contains dom i)) (seq 0 (total t))) dom (BendList (repeat None (total t))).
(* ops_legs.cpp:369-376 *)
Definition permute_codomain (t : legs_t name) (co : list nat) : tdot_error + legs_t name :=
  if existsb (fun l => total t <=? l) co then inl LegRange
  else permute t co (filter (fun i => negb (contains co i)) (rev (seq 0 (total t)))) (BendList (repeat None (total t))).
(** bend_legs: ops_legs.cpp:251-283 *)
Definition bend_legs (t : legs_t name) (n_cod : nat) : tdot_error + legs_t name :=
  permute t (seq 0 n_cod) (rev (seq n_cod (total t - n_cod))) (BendAll true).

(** _compose_with_Mask: helpers.cpp:213-257, with transpose if the leg is on the wrong side of the Mask (ops_algebra.cpp:1702-1710 and the like):
    leg a of the Mask (named by [m]) is joined to leg k of the tensor, whose place is taken by the other leg of the Mask.
    scale_axis (ops_algebra.cpp:1574-1621), which transposes the DiagonalTensor if needed, does the same, and tdot sets the label of the new leg. *)
Definition attach (m : nat -> name) (t : legs_t name) (a k : nat) : list (name * name) * legs_t name := ([(m a, leg d0 t k)], set_leg t k (m (1 - a))).

Definition legs_of1 (t1 : tensor) : legs_t name := name1 (legs0 (t_nc t1) (t_nd t1)).
Definition legs_of2 (t2 : tensor) : legs_t name := name2 (legs0 (t_nc t2) (t_nd t2)).
Definition finish (pairs : list (name * name)) (r : tdot_error + legs_t name) : tres name := match r with inl e => TErr e | inr t => TTensor (Joined pairs t) end.

(** one tensor with two legs, [m], both contracted: leg a of it with leg k of the other tensor [t], then the other one by a partial trace; [last]: bend_legs *)
Definition attach_trace (scalar_check : bool) (m : nat -> name) (t : legs_t name) (a k k' : nat) (n_cod : nat) : tres name :=
  let '(p, t') := attach m t a k in
  let pairs := p ++ [(leg d0 t' k, leg d0 t' k')] in
  if total t =? 2 then (if scalar_check then TNumber pairs else TErr NotATensor)
  else finish pairs (bend_legs (drop_legs t' [k; k']) n_cod).

(** Mask as tensor1: ops_algebra.cpp:1695-1747 *)
Definition tdot_mask1 (t1 t2 : tensor) (legs1 legs2 : list nat) : option (tres name) :=
  match t_kind t1, legs1, legs2 with
  | Mask _, [a], [b] =>
    if (match t_kind t2 with Mask _ => true | _ => false end) then Some (TErr MaskMask) else
    let '(pairs, res) := attach inl (legs_of2 t2) a b in
    Some (finish pairs (permute_codomain res [a]))
  | Mask proj, [a; a'], [b; b'] =>
    if (match t_kind t2 with Mask _ => true | _ => false end) then Some (TErr MaskMask) else
    let large := if proj then 1 else 0 in
    let '(k, k') := if a =? large then (b, b') else (b', b) in
    Some (attach_trace true inl (legs_of2 t2) large k k' 0)
  | _, _, _ => None
  end.
(** Mask as tensor2: ops_algebra.cpp:1748-1796 *)
Definition tdot_mask2 (t1 t2 : tensor) (legs1 legs2 : list nat) : option (tres name) :=
  match t_kind t2, legs1, legs2 with
  | Mask _, [a], [b] =>
    let '(pairs, res) := attach inr (legs_of1 t1) b a in
    Some (finish pairs (permute_domain res [b]))
  | Mask proj, [a; a'], [b; b'] =>
    let large := if proj then 1 else 0 in
    let '(k, k') := if b =? large then (a, a') else (a', a) in
    Some (attach_trace true inr (legs_of1 t1) large k k' (num_legs t1 - 2))
  | _, _, _ => None
  end.
(** Identity as tensor1: ops_algebra.cpp:1798-1810.  The Identity joins its two legs: leg 1 - a of it takes the place of the leg it is joined to *)
Definition tdot_id1 (t1 t2 : tensor) (legs1 legs2 : list nat) : option (tres name) :=
  match t_kind t1, legs1, legs2 with
  | Identity, [a], [b] =>
    Some (match permute_codomain (legs_of2 t2) [b] with inl e => TErr e | inr t => TTensor (Joined [(inl a, inr b)] (set_leg t 0 (inl (1 - a)))) end)
  | Identity, [a; a'], [b; b'] => Some (attach_trace false inl (legs_of2 t2) a b b' 0)
  | _, _, _ => None
  end.
(** Identity as tensor2: ops_algebra.cpp:1812-1826; the permuted tensor is not used *)
Definition tdot_id2 (t1 t2 : tensor) (legs1 legs2 : list nat) : option (tres name) :=
  match t_kind t2, legs1, legs2 with
  | Identity, [a], [b] =>
    Some (match permute_domain (legs_of1 t1) [a] with inl e => TErr e | inr _ => TTensor (Joined [(inr b, inl a)] (set_leg (legs_of1 t1) a (inr (1 - b)))) end)
  | Identity, [a; a'], [b; b'] => Some (attach_trace false inr (legs_of1 t1) b a a' (num_legs t1 - 2))
  | _, _, _ => None
  end.
(** DiagonalTensor as tensor1: ops_algebra.cpp:1828-1850 *)
Definition tdot_diag1 (t1 t2 : tensor) (legs1 legs2 : list nat) : option (tres name) :=
  match t_kind t1, legs1, legs2 with
  | Diagonal, [a], [b] =>
    let '(pairs, res) := attach inl (legs_of2 t2) a b in
    Some (finish pairs (permute_codomain res [a]))
  | Diagonal, [a; a'], [b; b'] => Some (attach_trace true inl (legs_of2 t2) a b b' 0)
  | _, _, _ => None
  end.
(** DiagonalTensor as tensor2: ops_algebra.cpp:1851-1872 *)
Definition tdot_diag2 (t1 t2 : tensor) (legs1 legs2 : list nat) : option (tres name) :=
  match t_kind t2, legs1, legs2 with
  | Diagonal, [a], [b] =>
    let '(pairs, res) := attach inr (legs_of1 t1) b a in
    Some (finish pairs (permute_domain res [a]))
  | Diagonal, [a; a'], [b; b'] => Some (attach_trace true inr (legs_of1 t1) b a a' (num_legs t1 - 2))
  | _, _, _ => None
  end.
(** two SymmetricTensors: ops_algebra.cpp:1904-1918, with _compose_SymmetricTensors, helpers.cpp:259-300 *)
Definition tdot_sym (t1 t2 : tensor) (legs1 legs2 : list nat) : tres name :=
  match permute_domain (legs_of1 t1) legs1 with
  | inl e => TErr e
  | inr r1 =>
    match permute_codomain (legs_of2 t2) legs2 with
    | inl e => TErr e
    | inr r2 =>
      match compose r1 r2 with
      | CErr _ => TErr ComposeError
      | COk j => if (length (fst r1) =? 0) && (length (snd r2) =? 0) then TNumber (j_pairs j) else TTensor j
      end
    end
  end.

(** tdot without relabel1 and relabel2: ops_algebra.cpp:1654-1669, then the branches in their order.  If no legs are contracted, Mask, Identity and DiagonalTensor
    are converted to SymmetricTensors; more than two distinct legs they do not have. *)
Definition orelse (A : Type) (o : option A) (f : A) : A := match o with Some a => a | None => f end.
Definition tdot (t1 t2 : tensor) (legs1 legs2 : list nat) : tres name :=
  if has_dup legs1 || has_dup legs2 then TErr DuplicateLegs
  else if negb (length legs2 =? length legs1) then TErr DifferentLengths
  else
    orelse (tdot_mask1 t1 t2 legs1 legs2)
    (orelse (tdot_mask2 t1 t2 legs1 legs2)
    (orelse (tdot_id1 t1 t2 legs1 legs2)
    (orelse (tdot_id2 t1 t2 legs1 legs2)
    (orelse (tdot_diag1 t1 t2 legs1 legs2)
    (orelse (tdot_diag2 t1 t2 legs1 legs2)
    (tdot_sym t1 t2 legs1 legs2)))))).

(** tdot with relabel1 or relabel2: ops_algebra.cpp:1671-1694 and relabel_one, 239-250: the labels of the open legs, relabelled, are set on the result *)
Definition relabel_one (relabel : list (string * string)) (l : option string) : option string :=
  match l with
  | None => None
  | Some s => match find (fun p => String.eqb (fst p) s) relabel with Some p => Some (snd p) | None => Some s end
  end.
Definition tdot_relabel (t1 t2 : tensor) (legs1 legs2 : list nat) (all1 all2 : list (option string)) (relabel1 relabel2 : list (string * string)) : tdot_error + joined name * list (option string) :=
  match tdot t1 t2 legs1 legs2 with
  | TErr e => inl e
  | TNumber _ => inl NotATensor
  | TTensor j =>
    inr (j, map (fun n => relabel_one relabel1 (nth n all1 None)) (filter (fun n => negb (contains legs1 n)) (seq 0 (length all1)))
            ++ map (fun n => relabel_one relabel2 (nth n all2 None)) (filter (fun n => negb (contains legs2 n)) (seq 0 (length all2))))
  end.
End Tdot.
