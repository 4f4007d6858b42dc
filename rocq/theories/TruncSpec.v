(** What a truncation has to do, independent of how it is computed. *)
From Verif Require Import Util TruncModel.
From Coq Require Import Reals.
Set Implicit Arguments. Unset Strict Implicit.
Open Scope nat_scope.

(** weight of the value number [i]: quantum dimension times square *)
Definition weight (S : list R) (qdims : option (list R)) (i : nat) : R :=
  match qdims with None => nth i S 0 ^ 2 | Some q => nth i q 0 * nth i S 0 ^ 2 end%R.
(** a permutation that sorts the weights in ascending order *)
Definition sorts (S : list R) (qdims : option (list R)) (piv : list nat) : Prop :=
  is_perm (length S) piv /\
  forall i j, i < j < length S -> (weight S qdims (nth i piv 0%nat) <= weight S qdims (nth j piv 0%nat))%R.
(** the indices kept / discarded by a mask *)
Definition kept (mask : list bool) : list nat := filter (fun i => nth i mask false) (seq 0 (length mask)).
Definition discarded (mask : list bool) : list nat := filter (fun i => negb (nth i mask false)) (seq 0 (length mask)).

(** Constraints with decreasing priority: a constraint that is incompatible with the earlier ones is ignored.
    [respect n G cs H]: the cuts (< n) allowed by [G] and then by the constraints [cs] are those in [H]. *)
Inductive respect (n : nat) : (nat -> Prop) -> list (nat -> Prop) -> (nat -> Prop) -> Prop :=
| respect_nil G : respect n G [] G
| respect_yes G (C : nat -> Prop) cs H : (exists c, c < n /\ G c /\ C c) -> respect n (fun c => G c /\ C c) cs H -> respect n G (C :: cs) H
| respect_no G (C : nat -> Prop) cs H : ~ (exists c, c < n /\ G c /\ C c) -> respect n G cs H -> respect n G (C :: cs) H.

(** values below 1e-100 count as 1e-100 when logarithms are compared *)
Definition log_value (s : R) : R := ln (if Rle_dec s (/ 10 ^ 100) then / 10 ^ 100 else s)%R.
(** The constraints on a cut: the values at the sorted positions cut, cut + 1, .. are kept.  [S i]: the i-th value in ascending order of
    weights [w i]. *)
Definition constraints (n : nat) (S w : nat -> R) (p : trunc_params) : list (nat -> Prop) :=
  (match chi_max p with Some m => [fun cut => (Z.of_nat (n - cut) <= m)%Z] | None => [] end) ++
  [fun cut => (chi_min p <= Z.of_nat (n - cut))%Z] ++
  (if Rlt_dec 0 (degeneracy_tol p)
   then [fun cut => cut = 0 \/ (degeneracy_tol p <= log_value (S cut) - log_value (S (cut - 1)%nat))%R] else []) ++
  (match svd_min p with Some m => [fun cut => (m <= S cut)%R] | None => [] end) ++
  [fun cut => (trunc_cut p * trunc_cut p < rsum (map w (seq 0%nat (cut + 1)%nat)))%R].
