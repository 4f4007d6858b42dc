(** Specification vocabulary for C68: words of neighbour swaps, inversions, braids of strands with heights. *)
From Coq Require Import ZArith List Bool.
From Verif Require Import Util GridModel Cplx SiteModel CouplingModel.
Import ListNotations.
Open Scope nat_scope.
Set Implicit Arguments. Unset Strict Implicit.

(** number of inversions: pairs of positions i < k with l_i > l_k *)
Fixpoint inversions (l : list nat) : nat := match l with [] => 0 | x :: t => length (filter (fun y => y <? x) t) + inversions t end.
(** the pairs (left strand, right strand) exchanged by a word of swaps, starting from the order [l]; [do_swaps l word] is the final order *)
Fixpoint crossings (l : list nat) (word : list nat) : list (nat * nat) :=
  match word with [] => [] | j :: w => (nth j l 0, nth (S j) l 0) :: crossings (swap_at j l) w end.
(** the letters of a word on n strands *)
Definition letters (n : nat) (word : list nat) : Prop := Forall (fun j => S j < n) word.

Section Braids.
  Variable T : Type.
  (** [B pos over]: exchange the strands at pos and pos + 1, the left one passes over (in front of) the right one iff [over] *)
  Variable B : nat -> bool -> T -> T.
  (** a braid whose strands have heights: at every crossing the higher one passes over *)
  Fixpoint level_braid (height : nat -> Z) (word order : list nat) (x : T) : T :=
    match word with
    | [] => x
    | pos :: w => level_braid height w (swap_at pos order) (B pos (Z.ltb (height (nth (S pos) order 0)) (height (nth pos order 0))) x)
    end.
  (** the relations of the braid group on n strands *)
  Definition braid_relations (n : nat) : Prop :=
    (forall i b x, S i < n -> B i (negb b) (B i b x) = x) /\
    (forall i j a b x, S i < j -> S j < n -> B j b (B i a x) = B i a (B j b x)) /\
    (forall i x, S (S i) < n -> B i true (B (S i) true (B i true x)) = B (S i) true (B i true (B (S i) true x))).
End Braids.

(** dense: entry of a chain of coupling tensors.  A tensor has entries W wL p wR p' and the dimension of its right virtual leg; the chain is evaluated between the left index [a] and the right index [b] *)
Fixpoint chain (Ws : list (nat * (nat -> nat -> nat -> nat -> C))) (a : nat) (ps qs : list nat) (b : nat) : C :=
  match Ws, ps, qs with
  | (d, W) :: Ws, p :: ps, q :: qs => msum d (fun c => Cmul (W a p c q) (chain Ws c ps qs b))
  | _, _, _ => if a =? b then C1 else C0
  end.

(** the exchange of two neighbouring sites with a tensor of 2 n legs p_0 .. p_{n-1}, p*_{n-1} .. p*_0: both legs of a site move together and have the same height *)
Section SiteBraid.
  Variable T : Type.
  Variable PL : list nat -> list nat -> list (option Z) -> T -> T.
  Definition leg_levels (n pos : nat) (over : bool) : list (option Z) :=
    map (fun k => let s := if k <? n then k else 2 * n - 1 - k in
                  if s =? pos then Some (if over then 1%Z else 0%Z) else if s =? S pos then Some (if over then 0%Z else 1%Z) else None) (seq 0 (2 * n)).
  Definition site_braid (n pos : nat) (over : bool) : T -> T :=
    PL (swap_at pos (seq 0 n)) (swap_at pos (map (fun k => 2 * n - 1 - k) (seq 0 n))) (leg_levels n pos over).
End SiteBraid.

(** the chain of a stretched coupling: tensor i at its position, between two of them identities on the virtual space to the right of the left one *)
Section Layout.
  Variables Site W Ten : Type.
  Variable t_wR : Ten -> W.
  Variable identity_tensor : Site -> option W -> Ten.
  Variable all_sites : list Site.
  Fixpoint layout (positions : list nat) (tensors : list Ten) : list Ten :=
    match positions, tensors with
    | p :: positions', f :: tensors' =>
        f :: match positions' with
             | [] => []
             | p' :: _ => flat_map (fun k => match nth_error all_sites k with Some s => [identity_tensor s (Some (t_wR f))] | None => [] end) (seq (S p) (p' - S p)) ++ layout positions' tensors'
             end
    | _, _ => []
    end.
End Layout.
(** permute_legs of a dense array: the legs of the new array are the axes codomain ++ reversed domain of the old one *)
Definition dense_PL (ci di : list nat) (_ : list (option Z)) (A : arr) : arr := transpose (ci ++ rev di) A.

(** an explicitly given sequence of crossings *)
Fixpoint explicit_braid (T : Type) (B : nat -> bool -> T -> T) (word : list nat) (over : list bool) (x : T) : T :=
  match word, over with pos :: w, b :: bs => explicit_braid B w bs (B pos b x) | _, _ => x end.
(** two sites whose levels do not say which of them passes over the other *)
Definition undecided (levels : nat -> option Z) (a b : nat) : Prop := levels a = None \/ levels b = None \/ levels a = levels b.
