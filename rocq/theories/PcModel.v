(** Model of planar_contraction and _planar_contraction_helper (src/tensors/planar.cpp) with compose and partial_compose (src/tensors/ops_algebra.cpp) at
    the level of legs: which legs are joined and which legs the result has.  Legs are given as indices (already parsed by get_leg_idcs).
    int64 is modelled by nat: the differences that are negative (num_bends) are only compared with 0.
    Left out: labels, the agreement of the spaces of joined legs (joining legs with different spaces is an error of compose and partial_compose), DiagonalTensor, Mask and
    ChargedTensor inputs. *)
From Coq Require Import ZArith List Bool.
From Verif Require Import Util GridModel PermLegsModel PermLegsSpec PlanarModel PlanarSpec.
Import ListNotations.
Set Implicit Arguments. Unset Strict Implicit.
Open Scope nat_scope.

(** DifferentLength, NotBipartition, NotPlanar: invalid_argument of planar_contraction and parse_leg_bipartition; Permute: an error of planar_permute_legs;
    SpacesDiffer, Precondition: errors of compose and partial_compose; NoLeg: dereferencing an empty optional *)
Inductive contr_error := DifferentLength | NotBipartition | NotPlanar | Permute (e : planar_error) | SpacesDiffer | Precondition | NoLeg.
Inductive cres (A : Type) := COk (a : A) | CErr (e : contr_error).
Arguments CErr {A} e.

(** the legs of a tensor: codomain from left to right, domain from left to right *)
Definition legs_t (A : Type) : Type := (list A * list A)%type.
(** the legs that are joined, and the legs of the result *)
Record joined (A : Type) := Joined { j_pairs : list (A * A); j_legs : legs_t A }.

(** compose: ops_algebra.cpp:614-676 (SymmetricTensors); the legs of a factor are joined one by one *)
Definition compose (A : Type) (t1 t2 : legs_t A) : cres (joined A) :=
  if negb (length (snd t1) =? length (fst t2)) then CErr SpacesDiffer
  else COk (Joined (combine (snd t1) (fst t2)) (fst t1, snd t2)).
(** partial_compose: ops_algebra.cpp:1250-1372 *)
Definition partial_compose (A : Type) (t1 t2 : legs_t A) (t1_first : nat) : cres (joined A) :=
  let num_codomain := length (fst t1) in
  let num_domain := length (snd t1) in
  if t1_first <? num_codomain then
    let num := length (snd t2) in
    if (num =? 0) || (num_codomain <=? t1_first + num - 1) || (num_codomain <=? num) then CErr Precondition
    else COk (Joined (combine (firstn num (skipn t1_first (fst t1))) (snd t2)) (firstn t1_first (fst t1) ++ fst t2 ++ skipn (t1_first + num) (fst t1), snd t1))
  else
    let num := length (fst t2) in
    let num_legs := num_codomain + num_domain in
    if (num =? 0) || (num_legs <=? t1_first + num - 1) || (num_domain <=? num) then CErr Precondition
    else
      let first := num_legs - 1 - (t1_first + num - 1) in
      COk (Joined (combine (firstn num (skipn first (snd t1))) (fst t2)) (fst t1, firstn first (snd t1) ++ snd t2 ++ skipn (first + num) (snd t1))).

Definition lmin (l : list nat) : nat := fold_right Nat.min (hd 0 l) l.
Definition lmax (l : list nat) : nat := fold_right Nat.max 0 l.

Section Contraction.
(** properties of the symmetry: trivial braid, symmetric braid (planar_permute_legs, PlanarSpec) *)
Variables trivial_braid sym : bool.

(** planar_permute_legs: the legs of the tensor afterwards, named by their old index *)
Definition moved (nc nd : nat) (codomain domain : option (list nat)) : cres (legs_t nat) :=
  match planar_permute_legs nc nd codomain domain with
  | PErr e => CErr (Permute e)
  | POk calls => match do_calls trivial_braid sym (legs0 nc nd) calls with PErr e => CErr (Permute e) | POk (st, _) => COk st end
  end.

(** _planar_contraction_helper: planar.cpp:2990-3094 *)
Definition with_leg (leg : option nat) (r : cres (legs_t nat)) : cres (legs_t nat * option nat) := match r with CErr e => CErr e | COk t => COk (t, leg) end.
Definition helper (nc nd : nat) (contr : list nat) (domain : bool) : cres (legs_t nat * option nat) :=
  let n := nc + nd in
  match contr with
  | [] => with_leg None (if domain then moved nc nd (Some (range 0 n)) None else moved nc nd None (Some (reversed_range 0 n)))
  | _ =>
    if length contr =? n then with_leg None (if domain then moved nc nd None (Some contr) else moved nc nd (Some contr) None)
    else
      let bend_right :=
        if (0 <? nc) && contains contr (nc - 1) && contains contr nc then true
        else if contains contr 0 && contains contr (n - 1) then false else true in
      let unchanged := COk (legs0 nc nd, Some (lmin contr)) in
      let bend (num_bends : nat) :=
        if 0 <? num_bends then
          if bend_right then
            let k := if domain then nc - num_bends else nc + num_bends in
            with_leg (Some (lmin contr)) (moved nc nd (Some (range 0 k)) (Some (rev (range k n))))
          else if domain then
            with_leg (Some (n - length contr)) (moved nc nd (Some (range num_bends nc)) (Some (rev (range nc n ++ range 0 num_bends))))
          else
            with_leg (Some 0) (moved nc nd (Some (range (n - num_bends) n ++ range 0 nc)) (Some (rev (range nc (n - num_bends)))))
        else unchanged in
      if bend_right then (if domain then bend (nc - lmin contr) else bend (lmax contr + 1 - nc))
      else if domain then
        let legs_in_codom := filter (fun l => l <? nc) contr in
        match legs_in_codom with [] => unchanged | _ => bend (lmax legs_in_codom + 1) end
      else
        let legs_in_dom := filter (fun l => nc <=? l) contr in
        match legs_in_dom with [] => unchanged | _ => bend (n - lmin legs_in_dom) end
  end.

(** the legs of the two tensors get different names in the result *)
Definition name1 (t : legs_t nat) : legs_t (nat + nat) := (map inl (fst t), map inl (snd t)).
Definition name2 (t : legs_t nat) : legs_t (nat + nat) := (map inr (fst t), map inr (snd t)).
Definition bind (A B : Type) (r : cres A) (f : A -> cres B) : cres B := match r with CErr e => CErr e | COk a => f a end.
Definition with_first (leg : option nat) (f : nat -> cres (joined (nat + nat))) : cres (joined (nat + nat)) := match leg with None => CErr NoLeg | Some i => f i end.

(** planar_contraction: planar.cpp:2050-2148 *)
Definition planar_contraction (nc1 nd1 nc2 nd2 : nat) (legs1 legs2 : list nat) : cres (joined (nat + nat)) :=
  let num_contr := length legs1 in
  if negb (length legs2 =? num_contr) then CErr DifferentLength else
  match parse_leg_bipartition legs1 (nc1 + nd1), parse_leg_bipartition legs2 (nc2 + nd2) with
  | Some (contr1, open1), Some (_, open2) =>
    let contr2 := map (fun c1 => nth (index_of legs1 c1) legs2 0) contr1 in
    let n2 := nc2 + nd2 in
    if negb (forallb (fun i => nth (i + 1) contr2 0 =? (nth i contr2 0 + n2 - 1) mod n2) (seq 0 (length contr2 - 1))) then CErr NotPlanar else
    let up1 := length (filter (fun l => l <? nc1) contr1) in
    let down1 := num_contr - up1 in
    let up2 := length (filter (fun l => l <? nc2) contr2) in
    let down2 := num_contr - up2 in
    if up1 + down2 <? down1 + up2 then
      let away1 := nd1 + up1 - num_contr in
      let away2 := nc2 + down2 - num_contr in
      if away2 <? away1 then
        bind (helper nc1 nd1 contr1 true) (fun r => let '(t1, leg) := r in
        bind (moved nc2 nd2 (Some (rev contr2)) (Some (rev open2))) (fun t2 =>
        if num_contr <? length (snd t1) then with_first leg (partial_compose (name1 t1) (name2 t2)) else compose (name1 t1) (name2 t2)))
      else
        bind (helper nc2 nd2 contr2 false) (fun r => let '(t2, leg) := r in
        bind (moved nc1 nd1 (Some open1) (Some (rev contr1))) (fun t1 =>
        if num_contr <? length (fst t2) then with_first leg (partial_compose (name2 t2) (name1 t1)) else compose (name1 t1) (name2 t2)))
    else
      let away1 := nc1 + down1 - num_contr in
      let away2 := nd2 + up2 - num_contr in
      if away2 <? away1 then
        bind (helper nc1 nd1 contr1 false) (fun r => let '(t1, leg) := r in
        bind (moved nc2 nd2 (Some open2) (Some contr2)) (fun t2 =>
        if num_contr <? length (fst t1) then with_first leg (partial_compose (name1 t1) (name2 t2)) else compose (name2 t2) (name1 t1)))
      else
        bind (helper nc2 nd2 contr2 true) (fun r => let '(t2, leg) := r in
        bind (moved nc1 nd1 (Some contr1) (Some (rev open1))) (fun t1 =>
        if num_contr <? length (snd t2) then with_first leg (partial_compose (name2 t2) (name1 t1)) else compose (name2 t2) (name1 t1)))
  | _, _ => CErr NotBipartition
  end.
End Contraction.
