(** Stable sorting (std::stable_sort) as insertion sort, generic in the comparison. *)
From Verif Require Import Util.
Set Implicit Arguments. Unset Strict Implicit.

Section Sort.
  Variable A : Type.
  Variable ltb : A -> A -> bool.   (* the comparison lambda passed to std::stable_sort *)

  Fixpoint insert (x : A) (l : list A) : list A :=
    match l with
    | [] => [x]
    | y :: t => if ltb y x then y :: insert x t else x :: y :: t
    end.
  Fixpoint stable_sort (l : list A) : list A :=
    match l with [] => [] | x :: t => insert x (stable_sort t) end.

  Lemma insert_perm x l : Permutation (insert x l) (x :: l).
  Proof.
    induction l as [|y t IH]; simpl; [reflexivity|]. destruct (ltb y x); [|reflexivity].
    rewrite IH. apply perm_swap.
  Qed.
  Lemma stable_sort_perm l : Permutation (stable_sort l) l.
  Proof. induction l; simpl; [reflexivity|]. rewrite insert_perm. now constructor. Qed.

  (** Sortedness/stability: with the position [pos] of an element in the input, the output is strictly sorted by
      (ltb, position).  [lt'] below is "not greater, and if not smaller then earlier". *)
  Variable P : A -> Prop.
  Hypothesis ltb_asym : forall x y, P x -> P y -> ltb x y = true -> ltb y x = false.
  Hypothesis ltb_trans : forall x y z, P x -> P y -> P z -> ltb x y = true -> ltb y z = true -> ltb x z = true.
  Hypothesis ltb_cotrans : forall x y z, P x -> P y -> P z -> ltb x z = true -> ltb x y = true \/ ltb y z = true.

  Variable R : A -> A -> Prop.      (* "occurs before in the input" *)
  Definition stab_lt (x y : A) : Prop := ltb x y = true \/ (ltb y x = false /\ R x y).

  Lemma insert_sorted x l :
    P x -> Forall P l -> Forall (R x) l -> StronglySorted stab_lt l -> StronglySorted stab_lt (insert x l).
  Proof.
    intros HP Hf Hr Hs. induction Hs as [|y t Hs IH Hy]; simpl.
    - constructor; constructor.
    - inversion Hf as [|? ? Py Pt]; subst. inversion Hr as [|? ? Ry Rt]; subst. destruct (ltb y x) eqn:E.
      + constructor; [now apply IH|].
        apply Forall_forall. intros z Hz. apply (Permutation_in _ (insert_perm x t)) in Hz.
        destruct Hz as [<-|Hz]; [now left|]. rewrite Forall_forall in Hy; auto.
      + constructor; [constructor; auto|]. constructor.
        * right. split; auto.
        * apply Forall_forall. intros z Hz. rewrite Forall_forall in Hy, Pt, Rt.
          specialize (Hy z Hz). specialize (Pt z Hz). specialize (Rt z Hz).
          destruct (ltb x z) eqn:Exz; [now left|]. right. split; auto.
          destruct (ltb z x) eqn:Ezx; auto. exfalso.
          destruct Hy as [Hy|[Hy _]].
          -- rewrite (ltb_trans Py Pt HP Hy Ezx) in E. discriminate.
          -- destruct (ltb_cotrans Pt Py HP Ezx) as [C|C]; congruence.
  Qed.

  Lemma stable_sort_sorted l :
    Forall P l -> StronglySorted R l -> StronglySorted stab_lt (stable_sort l).
  Proof.
    intros Hf Hr. induction Hr as [|x t Hr IH Hx]; simpl; [constructor|].
    inversion Hf; subst. apply insert_sorted; auto.
    - apply Forall_forall. intros y Hy. apply (Permutation_in _ (stable_sort_perm t)) in Hy.
      rewrite Forall_forall in H2; auto.
    - apply Forall_forall. intros y Hy. apply (Permutation_in _ (stable_sort_perm t)) in Hy.
      rewrite Forall_forall in Hx; auto.
  Qed.
End Sort.

Lemma insert_ext A (f g : A -> A -> bool) x l :
  (forall y, In y l -> f y x = g y x) -> insert f x l = insert g x l.
Proof.
  induction l as [|y t IH]; simpl; intros H; auto. rewrite (H y) by auto.
  destruct (g y x); auto. f_equal; auto.
Qed.
Lemma stable_sort_ext A (f g : A -> A -> bool) l :
  (forall x y, In x l -> In y l -> f x y = g x y) -> stable_sort f l = stable_sort g l.
Proof.
  induction l as [|x t IH]; simpl; intros H; auto. rewrite IH by auto. apply insert_ext.
  intros y Hy. apply (Permutation_in _ (stable_sort_perm _ _)) in Hy. auto.
Qed.
Lemma stable_sort_length A (f : A -> A -> bool) l : length (stable_sort f l) = length l.
Proof. apply Permutation_length, stable_sort_perm. Qed.
