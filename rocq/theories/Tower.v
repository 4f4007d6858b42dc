(** Exact arithmetic in towers of quadratic extensions of Q inside the complex numbers: used to
    decide equations between algebraic numbers by computation. *)
From Coq Require Import Reals QArith Qreals Lra.
From Verif Require Import Util RowModel SymModel CatSpec CatProofs Cplx.
Set Implicit Arguments.
Unset Strict Implicit.
Open Scope R_scope.

(** complex numbers as a ring with conjugation *)
Definition Cops : ops C := Ops C0 C1 Cadd Cmul Copp Cconj.

Record exact (K : Type) := Exact {
  x_ops : ops K;
  x_h : K -> C;
  x_eqb : K -> K -> bool;
  x_hom : hom x_ops Cops x_h;
  x_sound : forall a b, x_eqb a b = true -> x_h a = x_h b;
}.

Definition Qops : ops Q :=
  Ops 0%Q 1%Q (fun a b => Qred (Qplus a b)) (fun a b => Qred (Qmult a b)) Qopp (fun a => a).
Definition Qh (a : Q) : C := RtoC (Q2R a).
Lemma Q2R_red a : Q2R (Qred a) = Q2R a.
Proof. apply Qeq_eqR, Qred_correct. Qed.
Lemma Qhom : hom Qops Cops Qh.
Proof.
  constructor; intros; unfold Qh; cbn [Qops Cops o0 o1 oadd omul oopp oconj].
  - unfold Q2R, RtoC, C0. cbn. apply C_eq; cbn [fst snd]; lra.
  - unfold Q2R, RtoC, C1. cbn. apply C_eq; cbn [fst snd]; lra.
  - rewrite Q2R_red, Q2R_plus. apply RtoC_add.
  - rewrite Q2R_red, Q2R_mult. apply RtoC_mul.
  - rewrite Q2R_opp. apply C_eq; cbn; lra.
  - apply C_eq; cbn; lra.
Qed.
Definition Qx : exact Q.
Proof.
  refine (@Exact Q Qops Qh Qeq_bool Qhom _).
  intros a b E. unfold Qh. f_equal. now apply Qeq_eqR, Qeq_bool_eq.
Defined.

Section Ext.
  Variable K : Type.
  Variable x : exact K.
  Variables (t u : K) (w : C).
  Hypothesis w_sq : Cmul w w = x_h x t.
  Hypothesis w_conj : Cconj w = Cmul (x_h x u) w.
  Notation o := (x_ops x).
  Definition ext_ops : ops (K * K) :=
    Ops (o0 o, o0 o) (o1 o, o0 o)
      (fun a b => (oadd o (fst a) (fst b), oadd o (snd a) (snd b)))
      (fun a b => (oadd o (omul o (fst a) (fst b)) (omul o t (omul o (snd a) (snd b))),
                   oadd o (omul o (fst a) (snd b)) (omul o (snd a) (fst b))))
      (fun a => (oopp o (fst a), oopp o (snd a)))
      (fun a => (oconj o (fst a), omul o u (oconj o (snd a)))).
  Definition ext_h (a : K * K) : C := Cadd (x_h x (fst a)) (Cmul (x_h x (snd a)) w).
  Lemma ext_hom : hom ext_ops Cops ext_h.
  Proof.
    destruct (x_hom x) as [E0 E1 EA EM EO EC].
    constructor; unfold ext_h; cbn [ext_ops Cops o0 o1 oadd omul oopp oconj fst snd] in *; intros.
    - rewrite E0. ring.
    - rewrite E0, E1. ring.
    - rewrite !EA. ring.
    - rewrite !EA, !EM. rewrite <- w_sq. ring.
    - rewrite !EO. ring.
    - rewrite EM, !EC, Cconj_add, Cconj_mul, w_conj. ring.
  Qed.
  Definition ext : exact (K * K).
  Proof.
    refine (@Exact (K * K) ext_ops ext_h
      (fun a b => x_eqb x (fst a) (fst b) && x_eqb x (snd a) (snd b))%bool ext_hom _).
    intros [a1 a2] [b1 b2] E. cbn [fst snd] in E. apply andb_prop in E. destruct E as [E1 E2].
    apply (x_sound (e := x)) in E1, E2. unfold ext_h. cbn [fst snd]. now rewrite E1, E2.
  Defined.
End Ext.

Fixpoint opow K (o : ops K) (a : K) (n : nat) : K :=
  match n with O => o1 o | S n => omul o a (opow o a n) end.
Lemma h_pow K L (o : ops K) (p : ops L) h (H : hom o p h) a n : h (opow o a n) = opow p (h a) n.
Proof. induction n; cbn [opow]; [apply H|]. now rewrite (h_mul H), IHn. Qed.
Lemma cis_pow t n : opow Cops (cis t) n = cis (INR n * t).
Proof.
  induction n; cbn [opow].
  - cbn [INR]. rewrite Rmult_0_l. now rewrite cis_0.
  - rewrite IHn. cbn [Cops omul]. rewrite <- cis_add. f_equal. rewrite S_INR. lra.
Qed.

Lemma sqrt_C_sq r : 0 <= r -> Cmul (RtoC (sqrt r)) (RtoC (sqrt r)) = RtoC r.
Proof. intros. rewrite <- RtoC_mul. now rewrite sqrt_sqrt. Qed.
Lemma RtoC_conj r : Cconj (RtoC r) = RtoC r.
Proof. apply C_eq; cbn; lra. Qed.
