(* C21: sparse mappings compose like matrices.  include/cyten/tools/mappings.h
   For every key type with decidable equality and every commutative semiring of coefficients. *)
From Coq Require Import List Arith Lia Bool Reals Lra ZArith.
From Verif Require Import Util RowModel SymModel CatSpec Cplx Tower Sums MappingModel MappingProofs.
Import ListNotations.

(* pre_compose(self, other) is the matrix product other * self: the entry (i,k) is the sum over j of
   other_{ij} self_{jk}, j ranging over any finite set of keys containing the rows of self. *)
Theorem C21_pre_compose_is_matrix_product :
  forall (KT A : Type) (kdec : forall x y : KT, {x = y} + {x <> y}) (o : ops A), is_semiring o ->
  forall self other, well_formed self -> well_formed other ->
  forall J, NoDup J -> (forall k col j a, In (k, col) self -> In (j, a) col -> In j J) ->
  forall k i, entry kdec o (pre_compose kdec o self other) k i
              = osum o (map (fun j => omul o (entry kdec o other j i) (entry kdec o self k j)) J).
Proof.
  intros KT A kdec o SR self other Ws Wo J NJ I k i. apply (pre_compose_entry kdec SR k i Ws Wo NJ).
  intros j Hj. unfold nonzero_rows in Hj. apply in_flat_map in Hj as [[k' col] [H1 H2]].
  apply in_map_iff in H2 as [[j' a] [E H2]]. cbn in E. subst j'. exact (I k' col j a H1 H2).
Qed.
Print Assumptions C21_pre_compose_is_matrix_product.

(* the result is again a well-formed nested map, on the same columns *)
Theorem C21_pre_compose_well_formed :
  forall (KT A : Type) (kdec : forall x y : KT, {x = y} + {x <> y}) (o : ops A), is_semiring o ->
  forall self other : list (KT * list (KT * A)), well_formed self ->
  well_formed (pre_compose kdec o self other) /\ nonzero_cols (pre_compose kdec o self other) = nonzero_cols self.
Proof. intros KT A kdec o SR self other W. split; [apply (pre_compose_wf kdec SR); exact W | apply pre_compose_cols]. Qed.
Print Assumptions C21_pre_compose_well_formed.

Theorem C21_pre_compose_associative :
  forall (KT A : Type) (kdec : forall x y : KT, {x = y} + {x <> y}) (o : ops A), is_semiring o ->
  forall a b c, well_formed a -> well_formed b -> well_formed c ->
  forall k i, entry kdec o (pre_compose kdec o (pre_compose kdec o a b) c) k i
            = entry kdec o (pre_compose kdec o a (pre_compose kdec o b c)) k i.
Proof. intros KT A kdec o SR a b c Wa Wb Wc k i. exact (pre_compose_assoc kdec SR k i Wa Wb Wc). Qed.
Print Assumptions C21_pre_compose_associative.

(* identities: from_identity has the entries of a unit matrix on the given keys, both compositions with it leave a
   mapping unchanged when the keys cover it, and IdentityMapping restricts to its keys exactly like it. *)
Theorem C21_identity_neutral :
  forall (KT A : Type) (kdec : forall x y : KT, {x = y} + {x <> y}) (o : ops A), is_semiring o ->
  forall (keys : list KT) (m : list (KT * list (KT * A))), well_formed m ->
  (well_formed (from_identity kdec o keys) /\
   forall k i, entry kdec o (from_identity kdec o keys) k i
               = if in_dec kdec k keys then (if kdec k i then o1 o else o0 o) else o0 o) /\
  ((forall k, In k (nonzero_cols m) -> In k keys) -> forall k i,
     entry kdec o (pre_compose kdec o (from_identity kdec o keys) m) k i = entry kdec o m k i /\
     entry kdec o (identity_pre_compose kdec keys m) k i = entry kdec o m k i) /\
  ((forall i, In i (nonzero_rows m) -> In i keys) -> forall k i,
     entry kdec o (pre_compose kdec o m (from_identity kdec o keys)) k i = entry kdec o m k i) /\
  (forall k i, entry kdec o (identity_pre_compose kdec keys m) k i
               = entry kdec o (pre_compose kdec o (from_identity kdec o keys) m) k i).
Proof.
  intros KT A kdec o SR keys m W. split; [split; [apply from_identity_wf | apply from_identity_entry]|].
  assert (EQ : forall k i, entry kdec o (identity_pre_compose kdec keys m) k i
               = entry kdec o (pre_compose kdec o (from_identity kdec o keys) m) k i).
  { intros k i. rewrite identity_pre_compose_entry. rewrite (pre_compose_stored kdec SR (from_identity kdec o keys) k i W).
    rewrite from_identity_find. destruct (in_dec kdec k keys); [|reflexivity]. cbn [map fst snd]. rewrite sum_cons, sum_nil.
    assert (R : forall x, x = oadd o (omul o x (o1 o)) (o0 o)).
    { intros x. rewrite (SRmul_comm SR), (SRmul_1_l SR), (SRadd_comm SR), (SRadd_0_l SR). reflexivity. }
    apply R. }
  split; [|split; [|exact EQ]].
  - intros I k i. split; [exact (identity_left kdec SR k i W I)|]. rewrite EQ. exact (identity_left kdec SR k i W I).
  - intros I k i. exact (identity_right kdec SR k i W I).
Qed.
Print Assumptions C21_identity_neutral.

(* prune(tol) on complex coefficients: a stored entry survives exactly when its modulus exceeds tol, survivors are
   unchanged, and no coefficient changes by more than tol. *)
Definition modulus (z : C) : R := sqrt (Cnorm2 z).
Definition above (tol : R) (z : C) : bool := if Rlt_dec tol (modulus z) then true else false.

Theorem C21_prune_removes_only_small_entries :
  forall (KT : Type) (kdec : forall x y : KT, {x = y} + {x <> y}) (tol : R) (m : list (KT * list (KT * C))),
  well_formed m ->
  (forall k i a, (exists col, find kdec (prune (above tol) m) k = Some col /\ find kdec col i = Some a) <->
     (exists col, find kdec m k = Some col /\ find kdec col i = Some a) /\ (tol < modulus a)%R) /\
  (forall k i, (0 <= tol)%R ->
     (modulus (Csub (entry kdec Cops (prune (above tol) m) k i) (entry kdec Cops m k i)) <= tol)%R).
Proof.
  intros KT kdec tol m W. split.
  - intros k i a. rewrite (prune_stored kdec (above tol) k i a W). unfold above.
    destruct (Rlt_dec tol (modulus a)); intuition discriminate.
  - intros k i Ht. rewrite (prune_entry kdec Cops (above tol) k i W). unfold above.
    destruct (Rlt_dec tol (modulus (entry kdec Cops m k i))) as [L|L].
    + assert (E : forall z, modulus (Csub z z) = 0%R).
      { intros z. unfold modulus. replace (Cnorm2 (Csub z z)) with 0%R; [apply sqrt_0|].
        unfold Cnorm2, Csub, Cadd, Copp. cbn. ring. }
      rewrite E. exact Ht.
    + assert (E : forall z, modulus (Csub (o0 Cops) z) = modulus z).
      { intros z. unfold modulus. f_equal. unfold Cnorm2, Csub, Cadd, Copp. cbn. ring. }
      rewrite E. lra.
Qed.
Print Assumptions C21_prune_removes_only_small_entries.

Definition exA : list (nat * list (nat * Z)) := [(0%nat, [(1%nat, 2%Z); (2%nat, 3%Z)]); (5%nat, [])].
Definition exB : list (nat * list (nat * Z)) := [(2%nat, [(7%nat, 10%Z)]); (1%nat, [(8%nat, 1%Z); (7%nat, 5%Z)])].
Example C21_example :
  well_formed exA /\ well_formed exB /\
  pre_compose Nat.eq_dec Zops exA exB = [(0%nat, [(8%nat, 2%Z); (7%nat, 40%Z)]); (5%nat, [])].
Proof.
  split; [|split; [|reflexivity]]; split.
  - repeat (constructor; [cbn; intuition congruence|]). constructor.
  - intros k col [E|[E|[]]]; injection E as <- <-; repeat (constructor; [cbn; intuition congruence|]); constructor.
  - repeat (constructor; [cbn; intuition congruence|]). constructor.
  - intros k col [E|[E|[]]]; injection E as <- <-; repeat (constructor; [cbn; intuition congruence|]); constructor.
Qed.
