(* Finite sums over an abstract commutative (semi)ring given as an [ops] record. *)
From Coq Require Import List Arith Lia Bool Permutation Ring Setoid Morphisms.
From Verif Require Import Util RowModel SymModel CatSpec.
Import ListNotations.
Set Implicit Arguments.
Unset Strict Implicit.

Definition is_semiring (K : Type) (o : ops K) : Prop :=
  semi_ring_theory (o0 o) (o1 o) (oadd o) (omul o) (@eq K).

Section Sums.
  Variable K : Type.
  Variable o : ops K.
  Hypothesis SR : semi_ring_theory (o0 o) (o1 o) (oadd o) (omul o) (@eq K).
  Add Ring Kring : SR.
  Notation "0" := (o0 o).
  Notation "1" := (o1 o).
  Infix "+" := (oadd o).
  Infix "*" := (omul o).
  Notation sum := (osum o).

  Lemma sum_nil : sum [] = 0.
  Proof. reflexivity. Qed.
  Lemma sum_cons : forall x l, sum (x :: l) = x + sum l.
  Proof. reflexivity. Qed.
  Lemma sum_app : forall a b, sum (a ++ b) = sum a + sum b.
  Proof.
    induction a as [|x a IH]; intros b; cbn [app]; rewrite ?sum_cons, ?sum_nil; [ring|]. rewrite IH. ring.
  Qed.
  Lemma sum_perm : forall a b, Permutation a b -> sum a = sum b.
  Proof.
    intros a b P. induction P as [|x a b _ IH|x y a|a b c _ IH1 _ IH2].
    - reflexivity.
    - rewrite !sum_cons, IH. reflexivity.
    - rewrite !sum_cons. ring.
    - congruence.
  Qed.
  Lemma sum_zero : forall (A : Type) (f : A -> K) l, (forall x, In x l -> f x = 0) -> sum (map f l) = 0.
  Proof.
    induction l as [|x l IH]; intros H; [reflexivity|]. cbn [map]. rewrite sum_cons, (H x (or_introl eq_refl)), IH; [ring|].
    intros y Hy. apply H. right. exact Hy.
  Qed.
  Lemma sum_ext : forall (A : Type) (f g : A -> K) l, (forall x, In x l -> f x = g x) -> sum (map f l) = sum (map g l).
  Proof. intros A f g l H. f_equal. apply map_ext_in. exact H. Qed.
  Lemma sum_plus : forall (A : Type) (f g : A -> K) l, sum (map (fun x => f x + g x) l) = sum (map f l) + sum (map g l).
  Proof. induction l as [|x l IH]; cbn [map]; rewrite ?sum_cons, ?sum_nil; [ring|]. rewrite IH. ring. Qed.
  Lemma sum_mul_l : forall (A : Type) c (f : A -> K) l, sum (map (fun x => c * f x) l) = c * sum (map f l).
  Proof. induction l as [|x l IH]; cbn [map]; rewrite ?sum_cons, ?sum_nil; [ring|]. rewrite IH. ring. Qed.
  Lemma sum_mul_r : forall (A : Type) c (f : A -> K) l, sum (map (fun x => f x * c) l) = sum (map f l) * c.
  Proof. induction l as [|x l IH]; cbn [map]; rewrite ?sum_cons, ?sum_nil; [ring|]. rewrite IH. ring. Qed.
  Lemma sum_swap : forall (A B : Type) (f : A -> B -> K) la lb,
    sum (map (fun a => sum (map (fun b => f a b) lb)) la) = sum (map (fun b => sum (map (fun a => f a b) la)) lb).
  Proof.
    induction la as [|a la IH]; intros lb.
    - cbn [map]. rewrite sum_nil. symmetry. apply sum_zero. reflexivity.
    - cbn [map]. rewrite sum_cons, IH, <- sum_plus. reflexivity.
  Qed.
  Lemma sum_flat_map : forall (A B : Type) (f : B -> K) (g : A -> list B) l,
    sum (map f (flat_map g l)) = sum (map (fun a => sum (map f (g a))) l).
  Proof. induction l as [|a l IH]; [reflexivity|]. cbn [flat_map map]. rewrite map_app, sum_app, sum_cons, IH. reflexivity. Qed.
  (* one non-zero term *)
  Lemma sum_single : forall (A : Type) (f : A -> K) l x, NoDup l -> In x l ->
    (forall y, In y l -> y <> x -> f y = 0) -> sum (map f l) = f x.
  Proof.
    induction l as [|y l IH]; intros x ND I H; [contradiction|]. inversion ND as [|? ? NI ND']; subst.
    cbn [map]. rewrite sum_cons. destruct I as [ -> | I ].
    - rewrite (sum_zero (f := f) (l := l)); [ring|]. intros z Hz. apply H; [right; exact Hz|]. intros ->. contradiction.
    - rewrite (H y); [|left; reflexivity | intros ->; contradiction]. rewrite (IH x ND' I); [ring|].
      intros z Hz Nz. apply H; [right; exact Hz | exact Nz].
  Qed.
  (* adding terms that vanish *)
  Lemma sum_incl : forall (A : Type) (dec : forall x y : A, {x = y} + {x <> y}) (f : A -> K) l1 l2, NoDup l1 -> NoDup l2 -> incl l1 l2 ->
    (forall x, In x l2 -> ~ In x l1 -> f x = 0) -> sum (map f l1) = sum (map f l2).
  Proof.
    intros A dec f l1. induction l1 as [|x l1 IH]; intros l2 N1 N2 I H.
    - cbn [map]. rewrite sum_nil. symmetry. apply sum_zero. intros x Hx. apply H; [exact Hx | intros []].
    - inversion N1 as [|? ? NI N1']; subst.
      assert (Ix : In x l2) by (apply I; left; reflexivity).
      destruct (in_split _ _ Ix) as (u & v & ->).
      assert (P : Permutation (x :: u ++ v) (u ++ x :: v)) by apply Permutation_middle.
      assert (N2' : NoDup (x :: u ++ v)) by (eapply Permutation_NoDup; [symmetry; exact P | exact N2]).
      inversion N2' as [|? ? NI2 N2'']; subst.
      rewrite <- (sum_perm (Permutation_map f P)). cbn [map]. rewrite !sum_cons. f_equal.
      apply IH; [exact N1' | exact N2'' | |].
      + intros y Hy. assert (Hy2 : In y (u ++ x :: v)) by (apply I; right; exact Hy).
        apply (Permutation_in _ (Permutation_sym P)) in Hy2. destruct Hy2 as [ -> | Hy2 ]; [contradiction | exact Hy2].
      + intros y Hy Ny. apply H; [apply (Permutation_in _ P); right; exact Hy|].
        intros [ -> | Hy1 ]; [contradiction | exact (Ny Hy1)].
  Qed.
  Lemma sum_filter : forall (A : Type) (p : A -> bool) (f : A -> K) l,
    sum (map f (filter p l)) = sum (map (fun x => if p x then f x else 0) l).
  Proof.
    induction l as [|x l IH]; [reflexivity|]. cbn [filter map]. destruct (p x); cbn [map]; rewrite !sum_cons, IH; [reflexivity | ring].
  Qed.
End Sums.

(* the integers as a concrete instance, used in examples *)
From Coq Require Import ZArith.
Definition Zops : ops Z := Ops 0%Z 1%Z Z.add Z.mul Z.opp (fun x => x).
Lemma Zops_semiring : is_semiring Zops.
Proof. constructor; cbn [Zops o0 o1 oadd omul]; intros; lia || nia. Qed.
