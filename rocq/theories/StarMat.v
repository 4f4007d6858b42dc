(** Finite matrices over a commutative ring with a positive conjugation: a square matrix with orthonormal rows has
    orthonormal columns. *)
From Coq Require Import List Arith Lia Bool Permutation Ring Setoid.
From Verif Require Import Util RowModel SymModel CatSpec Sums.
Import ListNotations.
Set Implicit Arguments.
Unset Strict Implicit.

Record star_laws (K : Type) (o : ops K) : Prop := {
  st_ring : ring_theory (o0 o) (o1 o) (oadd o) (omul o) (fun x y => oadd o x (oopp o y)) (oopp o) (@eq K);
  st_add : forall x y, oconj o (oadd o x y) = oadd o (oconj o x) (oconj o y);
  st_mul : forall x y, oconj o (omul o x y) = omul o (oconj o x) (oconj o y);
  st_invol : forall x, oconj o (oconj o x) = x;
  st_definite : forall l, osum o (map (fun x => omul o x (oconj o x)) l) = o0 o -> forall x, In x l -> x = o0 o;
}.

Section Star.
  Variable K : Type.
  Variable o : ops K.
  Hypothesis ST : star_laws o.
  Notation "0" := (o0 o).
  Notation "1" := (o1 o).
  Infix "+" := (oadd o).
  Infix "*" := (omul o).
  Notation "- x" := (oopp o x).
  Notation sum := (osum o).
  Notation conj := (oconj o).
  Lemma st_RT : ring_theory 0 1 (oadd o) (omul o) (fun x y => x + - y) (oopp o) (@eq K).
  Proof. exact (st_ring ST). Qed.
  Add Ring Kr : st_RT.
  Lemma st_semi : semi_ring_theory 0 1 (oadd o) (omul o) (@eq K).
  Proof. constructor; intros; ring. Qed.
  Notation SR := st_semi.
  Lemma conj_0 : conj 0 = 0.
  Proof.
    assert (H : conj 0 + conj 0 = conj 0) by (rewrite <- (st_add ST); f_equal; ring).
    transitivity (conj 0 + conj 0 + - conj 0); [ring|]. rewrite H. ring.
  Qed.
  Lemma conj_1 : conj 1 = 1.
  Proof.
    transitivity (conj 1 * conj (conj 1)); [rewrite (st_invol ST); ring|]. rewrite <- (st_mul ST).
    transitivity (conj (conj 1)); [f_equal; ring|apply (st_invol ST)].
  Qed.
  Lemma conj_opp x : conj (- x) = - conj x.
  Proof.
    assert (H : conj x + conj (- x) = 0) by (rewrite <- (st_add ST), <- conj_0; f_equal; ring).
    transitivity (- conj x + (conj x + conj (- x))); [ring|]. rewrite H. ring.
  Qed.
  Lemma conj_sum A (f : A -> K) l : conj (sum (map f l)) = sum (map (fun x => conj (f x)) l).
  Proof. induction l as [|x l IH]; [apply conj_0|]. cbn [map]. rewrite !sum_cons, (st_add ST), IH. reflexivity. Qed.

  (** sums of a delta *)
  Lemma sum_delta A (eqb : A -> A -> bool) (E : forall x y, eqb x y = true <-> x = y) l x (f : A -> K) :
    NoDup l -> In x l -> sum (map (fun y => (if eqb x y then 1 else 0) * f y) l) = f x.
  Proof.
    intros ND I. rewrite (sum_single SR (f := fun y => (if eqb x y then 1 else 0) * f y) ND I).
    - replace (eqb x x) with true by (symmetry; now apply E). ring.
    - intros y _ NE. destruct (eqb x y) eqn:Q; [apply E in Q; congruence|]. ring.
  Qed.

  Variables A B : Type.
  Variable eqA : A -> A -> bool.
  Variable eqB : B -> B -> bool.
  Hypothesis EA : forall x y, eqA x y = true <-> x = y.
  Hypothesis EB : forall x y, eqB x y = true <-> x = y.
  Variable M : A -> B -> K.
  Variable I : list A.
  Variable J : list B.
  Hypothesis NI : NoDup I.
  Hypothesis NJ : NoDup J.
  Hypothesis SQ : length I = length J.
  Definition ortho_rows : Prop := forall i i', In i I -> In i' I ->
    sum (map (fun j => M i j * conj (M i' j)) J) = if eqA i i' then 1 else 0.
  Definition ortho_cols : Prop := forall j j', In j J -> In j' J ->
    sum (map (fun i => conj (M i j) * M i j') I) = if eqB j j' then 1 else 0.
  Hypothesis ROWS : ortho_rows.
  Let P (j j' : B) : K := sum (map (fun i => conj (M i j) * M i j') I).
  Let dl (j j' : B) : K := if eqB j j' then 1 else 0.
  Let ones X (l : list X) : K := sum (map (fun _ => 1) l).
  Lemma ones_len X Y (l : list X) (l' : list Y) : length l = length l' -> ones l = ones l'.
  Proof.
    revert l'. induction l as [|x l IH]; intros [|y l'] H; try discriminate; [reflexivity|]. unfold ones in *. cbn [map]. rewrite !sum_cons. f_equal.
    apply IH. cbn in H. lia.
  Qed.
  Lemma ones_delta X (eqb : X -> X -> bool) (E : forall x y, eqb x y = true <-> x = y) l : NoDup l ->
    sum (map (fun x => sum (map (fun y => (if eqb x y then 1 else 0) * (if eqb x y then 1 else 0)) l)) l) = ones l.
  Proof.
    intros ND. unfold ones. apply sum_ext. intros x Hx. rewrite (sum_delta E (fun y => if eqb x y then 1 else 0) ND Hx).
    replace (eqb x x) with true by (symmetry; now apply E). reflexivity.
  Qed.
  Lemma row_norm i : In i I -> sum (map (fun j => M i j * conj (M i j)) J) = 1.
  Proof. intros Hi. rewrite (ROWS Hi Hi). now replace (eqA i i) with true by (symmetry; now apply EA). Qed.
  Lemma sum_P_delta : sum (map (fun j => sum (map (fun j' => dl j j' * P j j') J)) J) = ones I.
  Proof.
    transitivity (sum (map (fun j => P j j) J)).
    { apply sum_ext. intros j Hj. unfold dl. now rewrite (sum_delta EB (fun j' => P j j') NJ Hj). }
    unfold P. rewrite (sum_swap SR (fun j i => conj (M i j) * M i j)). unfold ones. apply sum_ext. intros i Hi.
    rewrite <- (row_norm Hi). apply sum_ext. intros j _. ring.
  Qed.
  Lemma conj_P j j' : conj (P j j') = sum (map (fun i => M i j * conj (M i j')) I).
  Proof. unfold P. rewrite conj_sum. apply sum_ext. intros i _. rewrite (st_mul ST), (st_invol ST). reflexivity. Qed.
  Lemma sum_P_delta' : sum (map (fun j => sum (map (fun j' => dl j j' * conj (P j j')) J)) J) = ones I.
  Proof.
    transitivity (sum (map (fun j => conj (P j j)) J)).
    { apply sum_ext. intros j Hj. unfold dl. now rewrite (sum_delta EB (fun j' => conj (P j j')) NJ Hj). }
    transitivity (sum (map (fun j => sum (map (fun i => M i j * conj (M i j)) I)) J)).
    { apply sum_ext. intros j _. apply conj_P. }
    rewrite (sum_swap SR (fun j i => M i j * conj (M i j))). unfold ones. apply sum_ext. intros i Hi. now apply row_norm.
  Qed.
  Lemma sum_PP : sum (map (fun j => sum (map (fun j' => P j j' * conj (P j j')) J)) J) = ones I.
  Proof.
    transitivity (sum (map (fun j => sum (map (fun j' => sum (map (fun i => sum (map (fun i' =>
       (M i' j * conj (M i j)) * (M i j' * conj (M i' j'))) I)) I)) J)) J)).
    { apply sum_ext. intros j _. apply sum_ext. intros j' _. rewrite conj_P. unfold P at 1. rewrite <- (sum_mul_r SR). apply sum_ext. intros i _.
      rewrite <- (sum_mul_l SR). apply sum_ext. intros i' _. ring. }
    transitivity (sum (map (fun j => sum (map (fun i => sum (map (fun i' => sum (map (fun j' =>
       (M i' j * conj (M i j)) * (M i j' * conj (M i' j'))) J)) I)) I)) J)).
    { apply sum_ext. intros j _. rewrite (sum_swap SR (fun j' i => sum (map (fun i' => M i' j * conj (M i j) * (M i j' * conj (M i' j'))) I))).
      apply sum_ext. intros i _. now rewrite (sum_swap SR (fun j' i' => M i' j * conj (M i j) * (M i j' * conj (M i' j')))). }
    transitivity (sum (map (fun j => sum (map (fun i => M i j * conj (M i j)) I)) J)).
    { apply sum_ext. intros j _. apply sum_ext. intros i Hi.
      transitivity (sum (map (fun i' => (if eqA i i' then 1 else 0) * (M i' j * conj (M i j))) I)).
      - apply sum_ext. intros i' Hi'. rewrite (sum_mul_l SR), (ROWS Hi Hi'). ring.
      - now rewrite (sum_delta EA (fun i' => M i' j * conj (M i j)) NI Hi). }
    rewrite (sum_swap SR (fun j i => M i j * conj (M i j))). unfold ones. apply sum_ext. intros i Hi. now apply row_norm.
  Qed.
  Theorem rows_cols : ortho_cols.
  Proof.
    assert (Z : sum (map (fun x => x * conj x) (flat_map (fun j => map (fun j' => dl j j' + - P j j') J) J)) = 0).
    { rewrite (sum_flat_map SR).
      transitivity (sum (map (fun j => sum (map (fun j' => dl j j' * dl j j' + (- (1) * (dl j j' * P j j') + (- (1) * (dl j j' * conj (P j j')) + P j j' * conj (P j j')))) J)) J)).
      { apply sum_ext. intros j _. rewrite map_map. apply sum_ext. intros j' _. rewrite (st_add ST), conj_opp.
        replace (conj (dl j j')) with (dl j j'); [ring|]. unfold dl. destruct (eqB j j'); [now rewrite conj_1|now rewrite conj_0]. }
      transitivity (sum (map (fun j => sum (map (fun j' => dl j j' * dl j j') J) + (- (1) * sum (map (fun j' => dl j j' * P j j') J) +
         (- (1) * sum (map (fun j' => dl j j' * conj (P j j')) J) + sum (map (fun j' => P j j' * conj (P j j')) J)))) J)).
      { apply sum_ext. intros j _. rewrite !(sum_plus SR), !(sum_mul_l SR). reflexivity. }
      rewrite !(sum_plus SR), !(sum_mul_l SR), sum_P_delta, sum_P_delta', sum_PP. unfold dl. rewrite (ones_delta EB NJ).
      rewrite (ones_len SQ). ring. }
    intros j j' Hj Hj'. assert (Q := st_definite ST Z (x := dl j j' + - P j j')). 
    assert (Q' : dl j j' + - P j j' = 0).
    { apply Q. apply in_flat_map. exists j. split; [exact Hj|]. now apply in_map with (f := fun j' => dl j j' + - P j j'). }
    change (P j j' = dl j j'). transitivity (dl j j' + - (dl j j' + - P j j')); [ring|]. rewrite Q'. ring.
  Qed.
End Star.
