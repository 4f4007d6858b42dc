(** Complex numbers as pairs of (standard library) reals; used only in specifications and
    proofs about exact symbol values. *)
From Coq Require Import Reals Lra ZArith Lia List.
Import ListNotations.
Set Implicit Arguments.
Unset Strict Implicit.
Open Scope R_scope.

Definition C : Type := (R * R)%type.
Definition C0 : C := (0, 0).
Definition C1 : C := (1, 0).
Definition Cadd (x y : C) : C := (fst x + fst y, snd x + snd y).
Definition Cmul (x y : C) : C := (fst x * fst y - snd x * snd y, fst x * snd y + snd x * fst y).
Definition Copp (x : C) : C := (- fst x, - snd x).
Definition Csub (x y : C) : C := Cadd x (Copp y).
Definition Cconj (x : C) : C := (fst x, - snd x).
Definition RtoC (r : R) : C := (r, 0).
(** exp(i t) *)
Definition cis (t : R) : C := (cos t, sin t).
(** integer power of exp(i t):  pow(phase, k) *)
Definition Cnorm2 (x : C) : R := fst x * fst x + snd x * snd x.

Lemma C_eq (x y : C) : fst x = fst y -> snd x = snd y -> x = y.
Proof. destruct x, y; cbn; intros; now subst. Qed.

Lemma C_ring : ring_theory C0 C1 Cadd Cmul Csub Copp eq.
Proof.
  constructor; intros; apply C_eq; unfold Csub, Cadd, Cmul, Copp, C0, C1; cbn [fst snd]; ring.
Qed.
Add Ring Cring : C_ring.

Lemma cis_add s t : cis (s + t) = Cmul (cis s) (cis t).
Proof. unfold cis, Cmul. cbn [fst snd]. rewrite cos_plus, sin_plus. apply C_eq; cbn [fst snd]; ring. Qed.
Lemma cis_0 : cis 0 = C1.
Proof. unfold cis. now rewrite cos_0, sin_0. Qed.
Lemma cis_opp t : cis (- t) = Cconj (cis t).
Proof. unfold cis, Cconj. cbn [fst snd]. now rewrite cos_neg, sin_neg. Qed.
Lemma cis_norm t : Cmul (cis t) (Cconj (cis t)) = C1.
Proof.
  unfold cis, Cconj, Cmul, C1. cbn [fst snd]. assert (H := sin2_cos2 t). unfold Rsqr in H.
  apply C_eq; cbn [fst snd]; lra.
Qed.

Lemma sin_2PI_mult k : sin (IZR k * (2 * PI)) = 0.
Proof.
  apply sin_eq_0_1. exists (2 * k)%Z. rewrite mult_IZR. lra.
Qed.
Lemma cos_2PI_mult k : cos (IZR k * (2 * PI)) = 1.
Proof.
  assert (E : IZR k * (2 * PI) = 2 * (IZR k * PI)) by lra. rewrite E, cos_2a_sin.
  rewrite (sin_eq_0_1 (IZR k * PI)); [lra|]. exists k. reflexivity.
Qed.
Lemma cis_period t k : cis (t + IZR k * (2 * PI)) = cis t.
Proof.
  rewrite cis_add. unfold cis at 2. rewrite sin_2PI_mult, cos_2PI_mult. change (1, 0) with C1. ring.
Qed.
Lemma cis_2PI k : cis (IZR k * (2 * PI)) = C1.
Proof. rewrite <- (Rplus_0_l (IZR k * _)), cis_period. apply cis_0. Qed.
Lemma cis_PI_mult k : cis (IZR k * PI) = if Z.even k then C1 else Copp C1.
Proof.
  destruct (Z.even k) eqn:E.
  - apply Z.even_spec in E. destruct E as [m ->]. rewrite mult_IZR.
    replace (2 * IZR m * PI) with (IZR m * (2 * PI)) by ring. apply cis_2PI.
  - assert (O : Z.odd k = true) by (rewrite <- Z.negb_even, E; reflexivity).
    apply Z.odd_spec in O. destruct O as [m ->]. rewrite plus_IZR, mult_IZR.
    replace ((2 * IZR m + 1) * PI) with (PI + IZR m * (2 * PI)) by ring. rewrite cis_period.
    unfold cis. rewrite cos_PI, sin_PI. unfold Copp, C1. cbn [fst snd]. apply C_eq; cbn [fst snd]; lra.
Qed.

Lemma Cconj_mul x y : Cconj (Cmul x y) = Cmul (Cconj x) (Cconj y).
Proof. apply C_eq; unfold Cconj, Cmul; cbn [fst snd]; ring. Qed.
Lemma Cconj_add x y : Cconj (Cadd x y) = Cadd (Cconj x) (Cconj y).
Proof. apply C_eq; unfold Cconj, Cadd; cbn [fst snd]; ring. Qed.
Lemma Cconj_opp x : Cconj (Copp x) = Copp (Cconj x).
Proof. apply C_eq; unfold Cconj, Copp; cbn [fst snd]; ring. Qed.
Lemma Cconj_invol x : Cconj (Cconj x) = x.
Proof. apply C_eq; unfold Cconj; cbn [fst snd]; ring. Qed.
Lemma RtoC_mul a b : RtoC (a * b) = Cmul (RtoC a) (RtoC b).
Proof. apply C_eq; unfold RtoC, Cmul; cbn [fst snd]; ring. Qed.
Lemma RtoC_add a b : RtoC (a + b) = Cadd (RtoC a) (RtoC b).
Proof. apply C_eq; unfold RtoC, Cadd; cbn [fst snd]; ring. Qed.
Lemma RtoC_opp a : RtoC (- a) = Copp (RtoC a).
Proof. apply C_eq; unfold RtoC, Copp; cbn [fst snd]; ring. Qed.
Lemma RtoC_conj a : Cconj (RtoC a) = RtoC a.
Proof. apply C_eq; unfold RtoC, Cconj; cbn [fst snd]; ring. Qed.
