(** Specification vocabulary: complex vector spaces with an inner product (the VectorLike interface of include/cyten/tensors/vector_like.h: clone, scaled, axpy,
    vector_inner, vector_norm), in exact arithmetic. *)
From Coq Require Import Reals Lra List Lia Setoid.
From Verif Require Import Cplx.
Import ListNotations.
Set Implicit Arguments. Unset Strict Implicit.
Open Scope R_scope.

Record hspace (V : Type) := HSpace { hzero : V; hadd : V -> V -> V; hscale : C -> V -> V; hinner : V -> V -> C }.
(** [hinner x y] = <x, y> is linear in y *)
Record hlaws (V : Type) (h : hspace V) : Prop := {
  hl_comm : forall x y, hadd h x y = hadd h y x;
  hl_assoc : forall x y z, hadd h x (hadd h y z) = hadd h (hadd h x y) z;
  hl_zero : forall x, hadd h (hzero h) x = x;
  hl_one : forall x, hscale h C1 x = x;
  hl_null : forall x, hscale h C0 x = hzero h;
  hl_mul : forall a b x, hscale h a (hscale h b x) = hscale h (Cmul a b) x;
  hl_distr_l : forall a b x, hscale h (Cadd a b) x = hadd h (hscale h a x) (hscale h b x);
  hl_distr_r : forall a x y, hscale h a (hadd h x y) = hadd h (hscale h a x) (hscale h a y);
  hl_inner_add : forall x y z, hinner h x (hadd h y z) = Cadd (hinner h x y) (hinner h x z);
  hl_inner_scale : forall a x y, hinner h x (hscale h a y) = Cmul a (hinner h x y);
  hl_inner_conj : forall x y, hinner h y x = Cconj (hinner h x y);
  hl_inner_pos : forall x, 0 <= fst (hinner h x x);
  hl_inner_def : forall x, fst (hinner h x x) = 0 -> x = hzero h }.

Section Hilbert.
  Variables (V : Type) (h : hspace V).
  (** a x + y *)
  Definition axpy (a : C) (x y : V) : V := hadd h (hscale h a x) y.
  Definition hnorm2 (x : V) : R := fst (hinner h x x).
  Definition hnorm (x : V) : R := sqrt (hnorm2 x).
  Definition rscale (a : R) (x : V) : V := hscale h (RtoC a) x.
  Definition hsub (x y : V) : V := hadd h x (hscale h (Copp C1) y).
  (** sum of c_i q_i *)
  Fixpoint lincomb (c : list C) (q : list V) : V :=
    match c, q with a :: c', x :: q' => hadd h (hscale h a x) (lincomb c' q') | _, _ => hzero h end.
  Definition csum (l : list C) : C := fold_right Cadd C0 l.
  Definition linear (A : V -> V) : Prop := (forall x y, A (hadd h x y) = hadd h (A x) (A y)) /\ (forall a x, A (hscale h a x) = hscale h a (A x)).
  Definition adjoint_pair (A B : V -> V) : Prop := forall x y, hinner h x (A y) = hinner h (B x) y.
  Definition hermitian (A : V -> V) : Prop := linear A /\ adjoint_pair A A.
  Definition orthogonal (l : list V) : Prop := forall i j, (i < j < length l)%nat -> hinner h (nth i l (hzero h)) (nth j l (hzero h)) = C0.
  Definition orthonormal (l : list V) : Prop := orthogonal l /\ forall x, In x l -> hinner h x x = C1.

  Hypothesis L : hlaws h.
  Lemma inner_add_l x y z : hinner h (hadd h x y) z = Cadd (hinner h x z) (hinner h y z).
  Proof. rewrite (hl_inner_conj L z), (hl_inner_add L), Cconj_add. now rewrite <- !(hl_inner_conj L z). Qed.
  Lemma inner_scale_l a x y : hinner h (hscale h a x) y = Cmul (Cconj a) (hinner h x y).
  Proof. rewrite (hl_inner_conj L y), (hl_inner_scale L), Cconj_mul. now rewrite <- (hl_inner_conj L y). Qed.
  Lemma inner_0_r x : hinner h x (hzero h) = C0.
  Proof. rewrite <- (hl_null L x), (hl_inner_scale L). ring. Qed.
  Lemma inner_0_l x : hinner h (hzero h) x = C0.
  Proof. rewrite <- (hl_null L x), inner_scale_l. apply C_eq; unfold Cmul, Cconj, C0; cbn [fst snd]; ring. Qed.
  Lemma inner_real x : hinner h x x = RtoC (hnorm2 x).
  Proof. apply C_eq; [reflexivity|]. assert (E := hl_inner_conj L x x). apply (f_equal snd) in E. cbn [Cconj snd] in E. unfold RtoC. cbn [snd]. lra. Qed.
  Lemma inner_ext u v : (forall x, hinner h x u = hinner h x v) -> u = v.
  Proof.
    intros E. assert (Z : hadd h u (hscale h (Copp C1) v) = hzero h).
    { apply (hl_inner_def L). rewrite (hl_inner_add L), (hl_inner_scale L), E.
      replace (Cadd (hinner h (hadd h u (hscale h (Copp C1) v)) v) (Cmul (Copp C1) (hinner h (hadd h u (hscale h (Copp C1) v)) v))) with C0 by ring. reflexivity. }
    assert (X : hadd h (hadd h u (hscale h (Copp C1) v)) v = hadd h (hzero h) v) by now rewrite Z.
    rewrite (hl_zero L) in X. rewrite <- (hl_assoc L) in X. rewrite <- (hl_one L v) in X at 2. rewrite <- (hl_distr_l L) in X.
    replace (Cadd (Copp C1) C1) with C0 in X by ring. rewrite (hl_null L), (hl_comm L), (hl_zero L) in X. exact X.
  Qed.
  Lemma norm2_pos x : 0 <= hnorm2 x. Proof. apply (hl_inner_pos L). Qed.
  Lemma norm_sq x : hnorm x * hnorm x = hnorm2 x. Proof. apply sqrt_sqrt, norm2_pos. Qed.
  Lemma norm_nonneg x : 0 <= hnorm x. Proof. apply sqrt_pos. Qed.
  Lemma norm_0_iff x : hnorm x = 0 <-> x = hzero h.
  Proof.
    split; intros E.
    - apply (hl_inner_def L). change (hnorm2 x = 0). rewrite <- norm_sq, E. ring.
    - subst. unfold hnorm, hnorm2. rewrite inner_0_r. cbn [fst C0]. apply sqrt_0.
  Qed.
  Lemma inner_axpy_r a x y z : hinner h z (axpy a x y) = Cadd (Cmul a (hinner h z x)) (hinner h z y).
  Proof. unfold axpy. now rewrite (hl_inner_add L), (hl_inner_scale L). Qed.
  Lemma inner_axpy_l a x y z : hinner h (axpy a x y) z = Cadd (Cmul (Cconj a) (hinner h x z)) (hinner h y z).
  Proof. unfold axpy. now rewrite inner_add_l, inner_scale_l. Qed.
  Lemma inner_rscale_r a x y : hinner h x (rscale a y) = Cmul (RtoC a) (hinner h x y). Proof. apply (hl_inner_scale L). Qed.
  Lemma inner_rscale_l a x y : hinner h (rscale a x) y = Cmul (RtoC a) (hinner h x y). Proof. unfold rscale. now rewrite inner_scale_l, RtoC_conj. Qed.
  Lemma inner_sub_r x y z : hinner h x (hsub y z) = Cadd (hinner h x y) (Copp (hinner h x z)).
  Proof. unfold hsub. rewrite (hl_inner_add L), (hl_inner_scale L). ring. Qed.
  Lemma inner_lincomb_r x : forall c q, hinner h x (lincomb c q) = csum (map (fun p => Cmul (fst p) (hinner h x (snd p))) (combine c q)).
  Proof.
    induction c as [|a c IH]; intros [|y q]; cbn [lincomb combine map csum fold_right fst snd]; try apply inner_0_r.
    rewrite (hl_inner_add L), (hl_inner_scale L), IH. reflexivity.
  Qed.
  Lemma normalized x : hnorm x <> 0 -> hinner h (rscale (/ hnorm x) x) (rscale (/ hnorm x) x) = C1.
  Proof.
    intros N. rewrite inner_rscale_l, inner_rscale_r, inner_real, <- !RtoC_mul, <- norm_sq. unfold C1, RtoC. f_equal. field. exact N.
  Qed.
  Lemma linear_0 A : linear A -> A (hzero h) = hzero h.
  Proof. intros [_ H]. rewrite <- (hl_null L (hzero h)) at 1. rewrite H. apply (hl_null L). Qed.
  Lemma linear_axpy A a x y : linear A -> A (axpy a x y) = axpy a (A x) (A y).
  Proof. intros [H1 H2]. unfold axpy. now rewrite H1, H2. Qed.
  Lemma linear_lincomb A : linear A -> forall c q, A (lincomb c q) = lincomb c (map A q).
  Proof.
    intros HA. induction c as [|a c IH]; intros [|x q]; cbn [lincomb map]; try apply (linear_0 HA). destruct HA as [H1 H2]. now rewrite H1, H2, IH.
  Qed.
End Hilbert.
(** prove an equation between vectors by comparing inner products *)
Ltac hvec L := apply (inner_ext L); let x := fresh "x" in intros x; unfold hsub, axpy, rscale in *;
  repeat first [rewrite (hl_inner_add L) | rewrite (hl_inner_scale L) | rewrite (inner_0_r L)]; try ring.

(** ** An instance of every dimension: C^n *)
Fixpoint vecC (n : nat) : Type := match n with O => unit | S n => (C * vecC n)%type end.
Fixpoint vecC_zero n : vecC n := match n with O => tt | S n => (C0, vecC_zero n) end.
Fixpoint vecC_add n : vecC n -> vecC n -> vecC n :=
  match n with O => fun _ _ => tt | S n => fun x y => (Cadd (fst x) (fst y), vecC_add (snd x) (snd y)) end.
Fixpoint vecC_scale n (a : C) : vecC n -> vecC n := match n with O => fun _ => tt | S n => fun x => (Cmul a (fst x), vecC_scale a (snd x)) end.
Fixpoint vecC_inner n : vecC n -> vecC n -> C :=
  match n with O => fun _ _ => C0 | S n => fun x y => Cadd (Cmul (Cconj (fst x)) (fst y)) (vecC_inner (snd x) (snd y)) end.
Definition Cn (n : nat) : hspace (vecC n) := HSpace (vecC_zero n) (@vecC_add n) (@vecC_scale n) (@vecC_inner n).
Lemma Cn_laws n : hlaws (Cn n).
Proof.
  constructor; cbn [Cn hzero hadd hscale hinner].
  - induction n as [|n IH]; [intros [] []; reflexivity|]. intros [x1 x2] [y1 y2]. cbn [vecC_add fst snd]. f_equal; [ring|apply IH].
  - induction n as [|n IH]; [intros [] [] []; reflexivity|]. intros [x1 x2] [y1 y2] [z1 z2]. cbn [vecC_add fst snd]. f_equal; [ring|apply IH].
  - induction n as [|n IH]; [intros []; reflexivity|]. intros [x1 x2]. cbn [vecC_add vecC_zero fst snd]. f_equal; [ring|apply IH].
  - induction n as [|n IH]; [intros []; reflexivity|]. intros [x1 x2]. cbn [vecC_scale fst snd]. f_equal; [ring|apply IH].
  - induction n as [|n IH]; [intros []; reflexivity|]. intros [x1 x2]. cbn [vecC_scale vecC_zero fst snd]. f_equal; [ring|apply IH].
  - intros a b. induction n as [|n IH]; [intros []; reflexivity|]. intros [x1 x2]. cbn [vecC_scale fst snd]. f_equal; [ring|apply IH].
  - intros a b. induction n as [|n IH]; [intros []; reflexivity|]. intros [x1 x2]. cbn [vecC_scale vecC_add fst snd]. f_equal; [ring|apply IH].
  - intros a. induction n as [|n IH]; [intros [] []; reflexivity|]. intros [x1 x2] [y1 y2]. cbn [vecC_scale vecC_add fst snd]. f_equal; [ring|apply IH].
  - induction n as [|n IH]; [intros [] [] []; cbn; ring|]. intros [x1 x2] [y1 y2] [z1 z2]. cbn [vecC_inner vecC_add fst snd]. rewrite IH. ring.
  - intros a. induction n as [|n IH]; [intros [] []; cbn; ring|]. intros [x1 x2] [y1 y2]. cbn [vecC_inner vecC_scale fst snd]. rewrite IH. ring.
  - induction n as [|n IH]; [intros [] []; apply C_eq; cbn; ring|]. intros [x1 x2] [y1 y2]. cbn [vecC_inner fst snd]. rewrite (IH x2 y2), Cconj_add, Cconj_mul, Cconj_invol. ring.
  - induction n as [|n IH]; [intros []; cbn; lra|]. intros [[a b] x2]. cbn [vecC_inner fst snd Cadd Cmul Cconj]. specialize (IH x2). pose proof (Rle_0_sqr a). pose proof (Rle_0_sqr b). unfold Rsqr in *. lra.
  - assert (P : forall n (x : vecC n), 0 <= fst (vecC_inner x x)).
    { clear. induction n as [|n IH]; [intros []; cbn; lra|]. intros [[a b] x2]. cbn [vecC_inner fst snd Cadd Cmul Cconj]. specialize (IH x2). pose proof (Rle_0_sqr a). pose proof (Rle_0_sqr b). unfold Rsqr in *. lra. }
    induction n as [|n IH]; [intros []; reflexivity|]. intros [[a b] x2]. cbn [vecC_inner vecC_zero fst snd Cadd Cmul Cconj]. intros E. specialize (P n x2).
    pose proof (Rle_0_sqr a). pose proof (Rle_0_sqr b). unfold Rsqr in *. rewrite (IH x2) by lra.
    assert (a = 0) by (apply Rsqr_0_uniq; unfold Rsqr; lra). assert (b = 0) by (apply Rsqr_0_uniq; unfold Rsqr; lra). subst. reflexivity.
Qed.
