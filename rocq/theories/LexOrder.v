(* Three-way comparisons, as std::string / std::vector / std::pair / tuple operator<=> use them: first component first. *)
From Coq Require Import List Arith ZArith NArith Lia Bool Ascii.
Import ListNotations.
Set Implicit Arguments.
Unset Strict Implicit.

Record cmp_laws (A : Type) (c : A -> A -> comparison) : Prop := CmpLaws {
  cmp_eq : forall x y, c x y = Eq <-> x = y;
  cmp_sym : forall x y, c y x = CompOpp (c x y);
  cmp_trans : forall x y z, c x y = Lt -> c y z = Lt -> c x z = Lt;
}.

Lemma cmp_refl A (c : A -> A -> comparison) : cmp_laws c -> forall x, c x x = Eq.
Proof. intros L x. apply (cmp_eq L). reflexivity. Qed.
Lemma cmp_gt A (c : A -> A -> comparison) : cmp_laws c -> forall x y, c x y = Gt <-> c y x = Lt.
Proof. intros L x y. rewrite (cmp_sym L x y). destruct (c x y); cbn; intuition discriminate. Qed.
Lemma cmp_dec A (c : A -> A -> comparison) : cmp_laws c -> forall x y : A, {x = y} + {x <> y}.
Proof.
  intros L x y. destruct (c x y) eqn:E.
  - left. apply (cmp_eq L). exact E.
  - right. intros ->. rewrite (cmp_refl L) in E. discriminate.
  - right. intros ->. rewrite (cmp_refl L) in E. discriminate.
Qed.

Lemma Z_cmp : cmp_laws Z.compare.
Proof.
  constructor; intros *; [apply Z.compare_eq_iff | apply Z.compare_antisym |].
  rewrite !Z.compare_lt_iff. lia.
Qed.
Lemma nat_cmp : cmp_laws Nat.compare.
Proof.
  constructor; intros *; [apply Nat.compare_eq_iff | apply Nat.compare_antisym |].
  rewrite !Nat.compare_lt_iff. lia.
Qed.
Definition ascii_compare (a b : ascii) : comparison := N.compare (N_of_ascii a) (N_of_ascii b).
Lemma ascii_cmp : cmp_laws ascii_compare.
Proof.
  unfold ascii_compare. constructor; intros *.
  - rewrite N.compare_eq_iff. split; [|intros ->; reflexivity]. intros H.
    rewrite <- (ascii_N_embedding x), <- (ascii_N_embedding y), H. reflexivity.
  - apply N.compare_antisym.
  - rewrite !N.compare_lt_iff. lia.
Qed.
(* false < true *)
Definition bool_compare (a b : bool) : comparison :=
  match a, b with false, true => Lt | true, false => Gt | _, _ => Eq end.
Lemma bool_cmp : cmp_laws bool_compare.
Proof. constructor; [intros [] [] | intros [] [] | intros [] [] []]; cbn; try split; congruence. Qed.

Section ListCmp.
  Variable A : Type.
  Variable c : A -> A -> comparison.
  (* std::lexicographical_compare_three_way *)
  Fixpoint list_compare (x y : list A) : comparison :=
    match x, y with
    | [], [] => Eq
    | [], _ :: _ => Lt
    | _ :: _, [] => Gt
    | a :: x', b :: y' => match c a b with Eq => list_compare x' y' | r => r end
    end.
  Lemma list_cmp : cmp_laws c -> cmp_laws list_compare.
  Proof.
    intros L. constructor.
    - induction x as [|a x IH]; intros [|b y]; cbn [list_compare]; try (split; [discriminate || reflexivity | discriminate || reflexivity]).
      destruct (c a b) eqn:E.
      + apply (cmp_eq L) in E. subst b. rewrite IH. split; [intros ->; reflexivity | intros H; injection H as ->; reflexivity].
      + split; [discriminate|]. intros H. injection H as -> ->. rewrite (cmp_refl L) in E. discriminate.
      + split; [discriminate|]. intros H. injection H as -> ->. rewrite (cmp_refl L) in E. discriminate.
    - induction x as [|a x IH]; intros [|b y]; cbn [list_compare]; try reflexivity.
      rewrite (cmp_sym L a b). destruct (c a b); cbn [CompOpp]; [apply IH | reflexivity | reflexivity].
    - induction x as [|a x IH]; intros [|b y] [|d z]; cbn [list_compare]; try discriminate; try reflexivity.
      destruct (c a b) eqn:E1, (c b d) eqn:E2; try discriminate; intros H1 H2.
      + apply (cmp_eq L) in E1, E2. subst. rewrite (cmp_refl L). exact (IH _ _ H1 H2).
      + apply (cmp_eq L) in E1. subst. rewrite E2. reflexivity.
      + apply (cmp_eq L) in E2. subst. rewrite E1. reflexivity.
      + rewrite (cmp_trans L E1 E2). reflexivity.
  Qed.
End ListCmp.

Section PairCmp.
  Variables A B : Type.
  Variable c : A -> A -> comparison.
  Variable d : B -> B -> comparison.
  Definition pair_compare (x y : A * B) : comparison :=
    match c (fst x) (fst y) with Eq => d (snd x) (snd y) | r => r end.
  Lemma pair_cmp : cmp_laws c -> cmp_laws d -> cmp_laws pair_compare.
  Proof.
    intros L M. unfold pair_compare. constructor.
    - intros [a b] [a' b']. cbn. destruct (c a a') eqn:E.
      + apply (cmp_eq L) in E. subst. rewrite (cmp_eq M). split; [intros ->; reflexivity | intros H; injection H; auto].
      + split; [discriminate|]. intros H. injection H as -> ->. rewrite (cmp_refl L) in E. discriminate.
      + split; [discriminate|]. intros H. injection H as -> ->. rewrite (cmp_refl L) in E. discriminate.
    - intros [a b] [a' b']. cbn. rewrite (cmp_sym L a a'). destruct (c a a'); cbn; [apply (cmp_sym M) | reflexivity | reflexivity].
    - intros [a b] [a' b'] [a2 b2]. cbn. destruct (c a a') eqn:E1, (c a' a2) eqn:E2; try discriminate; intros H1 H2.
      + apply (cmp_eq L) in E1, E2. subst. rewrite (cmp_refl L). exact (cmp_trans M H1 H2).
      + apply (cmp_eq L) in E1. subst. rewrite E2. reflexivity.
      + apply (cmp_eq L) in E2. subst. rewrite E1. reflexivity.
      + rewrite (cmp_trans L E1 E2). reflexivity.
  Qed.
End PairCmp.

(* ---- strictly increasing lists: std::set / keys of std::map ---- *)
Section Sorted.
  Variable A : Type.
  Variable c : A -> A -> comparison.
  Hypothesis L : cmp_laws c.

  Fixpoint increasing (l : list A) : Prop :=
    match l with
    | [] => True
    | x :: r => (forall y, In y r -> c x y = Lt) /\ increasing r
    end.

  (* std::set::insert *)
  Fixpoint set_insert (x : A) (l : list A) : list A :=
    match l with
    | [] => [x]
    | y :: r => match c x y with Lt => x :: l | Eq => l | Gt => y :: set_insert x r end
    end.

  Lemma set_insert_In : forall x l y, In y (set_insert x l) <-> y = x \/ In y l.
  Proof.
    intros x l. induction l as [|z l IH]; intros y; cbn [set_insert].
    - cbn. firstorder congruence.
    - destruct (c x z) eqn:E.
      + apply (cmp_eq L) in E. subst z. cbn. firstorder congruence.
      + cbn. firstorder congruence.
      + cbn [In]. rewrite IH. firstorder congruence.
  Qed.
  Lemma set_insert_increasing : forall x l, increasing l -> increasing (set_insert x l).
  Proof.
    intros x l. induction l as [|z l IH]; intros H; cbn [set_insert].
    - split; [intros y [] | exact I].
    - destruct H as [H1 H2]. destruct (c x z) eqn:E.
      + split; assumption.
      + split; [|split; assumption]. intros y [ <- | Hy ]; [exact E | exact (cmp_trans L E (H1 y Hy))].
      + split; [|apply IH; exact H2]. intros y Hy. apply set_insert_In in Hy as [ -> | Hy ]; [apply (cmp_gt L); exact E | exact (H1 y Hy)].
  Qed.
  Lemma increasing_ext : forall l1 l2, increasing l1 -> increasing l2 -> (forall x, In x l1 <-> In x l2) -> l1 = l2.
  Proof.
    induction l1 as [|x l1 IH]; intros [|y l2] H1 H2 E.
    - reflexivity.
    - exfalso. apply (proj2 (E y)). left. reflexivity.
    - exfalso. apply (proj1 (E x)). left. reflexivity.
    - destruct H1 as [A1 B1], H2 as [A2 B2].
      assert (x = y).
      { destruct (proj1 (E x) (or_introl eq_refl)) as [Ex|Ix]; [congruence|].
        destruct (proj2 (E y) (or_introl eq_refl)) as [Ey|Iy]; [congruence|].
        specialize (A1 y Iy). specialize (A2 x Ix). rewrite (cmp_sym L y x), A2 in A1. discriminate. }
      subst y. f_equal. apply IH; [exact B1 | exact B2|]. intros z. split; intros Hz.
      + destruct (proj1 (E z) (or_intror Hz)) as [ <- | Iz ]; [|exact Iz]. specialize (A1 x Hz). rewrite (cmp_refl L) in A1. discriminate.
      + destruct (proj2 (E z) (or_intror Hz)) as [ <- | Iz ]; [|exact Iz]. specialize (A2 x Hz). rewrite (cmp_refl L) in A2. discriminate.
  Qed.
  Lemma increasing_NoDup : forall l, increasing l -> NoDup l.
  Proof.
    induction l as [|x l IH]; intros H; constructor.
    - intros Hx. apply (proj1 H) in Hx. rewrite (cmp_refl L) in Hx. discriminate.
    - apply IH. exact (proj2 H).
  Qed.
  Lemma increasing_filter : forall (p : A -> bool) l, increasing l -> increasing (filter p l).
  Proof.
    induction l as [|x l IH]; intros H; [exact I|]. destruct H as [H1 H2]. cbn [filter]. destruct (p x); [|apply IH; exact H2].
    split; [|apply IH; exact H2]. intros y Hy. apply filter_In in Hy as [Hy _]. exact (H1 y Hy).
  Qed.
  Definition set_of_list (l : list A) : list A := fold_left (fun s x => set_insert x s) l [].
  Lemma fold_insert_In : forall l s y, In y (fold_left (fun s x => set_insert x s) l s) <-> In y l \/ In y s.
  Proof.
    induction l as [|x l IH]; intros s y; cbn [fold_left]; [cbn; tauto|]. rewrite IH, set_insert_In. cbn. firstorder congruence.
  Qed.
  Lemma fold_insert_increasing : forall l s, increasing s -> increasing (fold_left (fun s x => set_insert x s) l s).
  Proof. induction l as [|x l IH]; intros s H; [exact H|]. cbn [fold_left]. apply IH. apply set_insert_increasing. exact H. Qed.
  Lemma set_of_list_In : forall l y, In y (set_of_list l) <-> In y l.
  Proof. intros l y. unfold set_of_list. rewrite fold_insert_In. cbn. tauto. Qed.
  Lemma set_of_list_increasing : forall l, increasing (set_of_list l).
  Proof. intros l. apply fold_insert_increasing. exact I. Qed.
End Sorted.
