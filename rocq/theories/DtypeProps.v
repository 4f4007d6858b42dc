(* C46: the common dtype is a least upper bound.  src/block_backend/dtypes.cpp
   Specification order, independent of the code's numbering: a dtype has a precision class
   (bool < int64 < single < double) and may be complex; [promotes t r]: r has at least the precision of t, and r is
   complex if t is. *)
From Coq Require Import List ZArith Lia Bool Permutation.
From Verif Require Import DtypeModel.
Import ListNotations.
Open Scope Z_scope.

Definition precision (d : dtype) : Z :=
  match d with DBool => 0 | DInt64 => 1 | DFloat32 | DComplex64 => 2 | DFloat64 | DComplex128 => 3 end.
Definition complexness (d : dtype) : bool := match d with DComplex64 | DComplex128 => true | _ => false end.
Definition promotes (t r : dtype) : Prop := precision t <= precision r /\ (complexness t = true -> complexness r = true).

Lemma fold_max_In : forall ds d, let r := fold_left (fun r t => if code r <? code t then t else r) ds d in
  (r = d \/ In r ds) /\ code d <= code r /\ (forall t, In t ds -> code t <= code r).
Proof.
  induction ds as [|a ds IH]; intros d r; cbn [fold_left] in r.
  - unfold r. split; [left; reflexivity|]. split; [lia | intros t []].
  - destruct (IH (if code d <? code a then a else d)) as (H1 & H2 & H3). fold r in H1, H2, H3.
    destruct (Z.ltb_spec (code d) (code a)) as [L|L].
    + split; [destruct H1 as [ -> | H1]; right; [left; reflexivity | right; exact H1]|]. split; [lia|].
      intros t [ <- | Ht ]; [lia | auto].
    + split; [destruct H1 as [H1|H1]; [left; exact H1 | right; right; exact H1]|]. split; [lia|].
      intros t [ <- | Ht ]; [lia | auto].
Qed.

Lemma common_lub : forall ds, ds <> [] -> exists r, common ds = Some r /\
  (forall t, In t ds -> promotes t r) /\ (forall u, (forall t, In t ds -> promotes t u) -> promotes r u).
Proof.
  intros ds NE. destruct ds as [|d ds]; [congruence|]. unfold common.
  destruct (fold_max_In (d :: ds) d) as (H1 & H2 & H3).
  set (res := fold_left _ (d :: ds) d) in *.
  assert (Hin : In res (d :: ds)) by (destruct H1 as [ -> | H1]; [left; reflexivity | exact H1]).
  assert (PR : forall t u, code t <= code u -> precision t <= precision u) by (intros [] []; cbn; lia).
  destruct (existsb is_complex (d :: ds)) eqn:EC.
  - apply existsb_exists in EC as [c [Hc Cc]]. assert (Lc := H3 c Hc).
    destruct (is_real res) eqn:ER; cbn [andb].
    + assert (X : exists r, to_complex res = Some r /\ precision r = precision res /\ complexness r = true).
      { destruct res, c; cbn in ER, Cc, Lc; try discriminate; try lia; eexists; repeat split. }
      destruct X as (r & E & P & K). exists r. split; [exact E|]. split.
      * intros t Ht. split; [rewrite P; apply PR; auto | intros _; exact K].
      * intros u Hu. split; [rewrite P; apply (Hu res Hin)|]. intros _. apply (Hu c Hc). destruct c; cbn in Cc; congruence || reflexivity.
    + exists res. split; [reflexivity|]. assert (K : complexness res = true) by (destruct res; cbn in ER; congruence || reflexivity).
      split; [intros t Ht; split; [apply PR; auto | intros _; exact K] | intros u Hu; exact (Hu res Hin)].
  - exists res. rewrite andb_false_r. split; [reflexivity|]. split; [|intros u Hu; exact (Hu res Hin)].
    intros t Ht. split; [apply PR; auto|]. intros K. exfalso.
    assert (T : existsb is_complex (d :: ds) = true). { apply existsb_exists. exists t. split; [exact Ht | destruct t; cbn in K |- *; congruence]. }
    congruence.
Qed.

Lemma promotes_antisym : forall a b, promotes a b -> promotes b a -> a = b.
Proof. intros [] [] [H1 H2] [H3 H4]; cbn in *; try reflexivity; try lia; try (specialize (H2 eq_refl); discriminate); specialize (H4 eq_refl); discriminate. Qed.

(* common throws exactly on the empty list and otherwise returns the least dtype to which all inputs promote. *)
Theorem C46_common_is_least_upper_bound :
  common [] = None /\
  forall ds, ds <> [] -> exists r, common ds = Some r /\
    (forall t, In t ds -> promotes t r) /\
    (forall u, (forall t, In t ds -> promotes t u) -> promotes r u).
Proof. split; [reflexivity | exact common_lub]. Qed.
Print Assumptions C46_common_is_least_upper_bound.

(* hence it depends only on the set of inputs (order and repetition do not matter), and nesting calls is harmless *)
Theorem C46_common_order_independent :
  (forall ds es, ds <> [] -> (forall t, In t ds <-> In t es) -> common ds = common es) /\
  (forall ds es, Permutation ds es -> common ds = common es) /\
  (forall d, common [d] = Some d) /\
  (forall ds es r, ds <> [] -> common ds = Some r -> common (r :: es) = common (ds ++ es)).
Proof.
  assert (A : forall ds es, ds <> [] -> (forall t, In t ds <-> In t es) -> common ds = common es).
  { intros ds es NE H. destruct (common_lub ds NE) as (r & E & U & L).
    assert (NE2 : es <> []) by (intros ->; destruct ds as [|d ds]; [congruence | apply (proj1 (H d)); left; reflexivity]).
    destruct (common_lub es NE2) as (r2 & E2 & U2 & L2). rewrite E, E2. f_equal. apply promotes_antisym.
    - apply L. intros t Ht. apply U2. apply H. exact Ht.
    - apply L2. intros t Ht. apply U. apply H. exact Ht. }
  split; [exact A|]. split; [|split].
  - intros ds es P. destruct ds as [|d ds]; [apply Permutation_nil in P; subst; reflexivity|].
    apply A; [discriminate|]. intros t. split; apply Permutation_in; [exact P | apply Permutation_sym; exact P].
  - intros []; reflexivity.
  - intros ds es r NE E. destruct (common_lub ds NE) as (r0 & E0 & U & L). rewrite E in E0. injection E0 as <-.
    destruct (common_lub (r :: es)) as (a & Ea & Ua & La); [discriminate|].
    destruct (common_lub (ds ++ es)) as (b & Eb & Ub & Lb). { intros X. apply app_eq_nil in X as [X _]. contradiction. }
    rewrite Ea, Eb. f_equal. apply promotes_antisym.
    + apply La. intros t [ <- | Ht ]; [apply L; intros t Ht; apply Ub, in_or_app; left; exact Ht | apply Ub, in_or_app; right; exact Ht].
    + apply Lb. intros t Ht. apply in_app_or in Ht as [Ht|Ht]; [|apply Ua; right; exact Ht].
      assert (X := U t Ht). assert (Y := Ua r (or_introl eq_refl)). destruct X as [X1 X2], Y as [Y1 Y2]. split; [lia | auto].
Qed.
Print Assumptions C46_common_order_independent.

(* to_real / to_complex keep the precision and reject exactly bool and int64; eps is that of the precision class *)
Theorem C46_real_complex_parts :
  forall d, match to_complex d with
            | Some c => precision c = precision d /\ complexness c = true
            | None => d = DBool \/ d = DInt64 end /\
            match to_real d with
            | Some c => precision c = precision d /\ complexness c = false
            | None => d = DBool \/ d = DInt64 end /\
            match eps_bits d with
            | Some k => k = (if precision d =? 2 then 23 else 52)
            | None => d = DBool \/ d = DInt64 end.
Proof. intros []; cbn; auto. Qed.
Print Assumptions C46_real_complex_parts.

Example C46_example : common [DFloat64; DComplex64; DInt64] = Some DComplex128 /\ common [DBool; DFloat32] = Some DFloat32.
Proof. split; reflexivity. Qed.

(* Integers that a dtype stores exactly. *)
Definition stores_int (d : dtype) (z : Z) : Prop :=
  match d with
  | DBool => z = 0 \/ z = 1
  | DInt64 => - 2 ^ 63 <= z < 2 ^ 63
  | DFloat32 | DComplex64 => exists m e, Z.abs m < 2 ^ 24 /\ 0 <= e /\ z = m * 2 ^ e
  | DFloat64 | DComplex128 => exists m e, Z.abs m < 2 ^ 53 /\ 0 <= e /\ z = m * 2 ^ e
  end.
(* "can be promoted" is about precision class only: mixing int64 with float32 gives float32, which loses integers. *)
Theorem C46_int64_with_float32_refuted :
  common [DInt64; DFloat32] = Some DFloat32 /\ stores_int DInt64 (2 ^ 24 + 1) /\ ~ stores_int DFloat32 (2 ^ 24 + 1).
Proof.
  split; [reflexivity|]. split; [cbn; lia|]. intros (m & e & Hm & He & E).
  destruct (Z.eq_dec e 0) as [ -> | Ne ].
  - rewrite Z.pow_0_r, Z.mul_1_r in E. subst m. cbn in Hm. lia.
  - replace e with (1 + (e - 1)) in E by lia. rewrite Z.pow_add_r in E by lia. rewrite Z.pow_1_r in E.
    assert (X : 2 ^ 24 + 1 = 2 * (m * 2 ^ (e - 1))) by (rewrite E; ring). cbn in X. lia.
Qed.
Print Assumptions C46_int64_with_float32_refuted.
