(* C45: symbolic cost polynomials.  src/tools/cost_polynomials.cpp
   [canonical m]: the keys of the std::map are increasing and every exponent is positive, which is what
   BigOMonomial::from_str produces (cost_polynomials.cpp:29-60 rejects exponents <= 0) and products preserve.
   [is_poly p]: p is what the BigOPolynomial constructor returns for some set of such monomials. *)
From Coq Require Import List ZArith Lia Bool Ascii String.
From Verif Require Import Util LexOrder CostModel CostProofs.
Import ListNotations.
Open Scope Z_scope.

(* Monomials: the product adds exponents, is commutative, associative, has the empty monomial as unit, and evaluates
   to the product of the values. *)
Theorem C45_monomial_algebra :
  forall a b c, canonical a -> canonical b -> canonical c ->
  canonical (mono_mul a b) /\
  (forall x, exponent (mono_mul a b) x = exponent a x + exponent b x) /\
  mono_mul a b = mono_mul b a /\
  mono_mul (mono_mul a b) c = mono_mul a (mono_mul b c) /\
  mono_mul a [] = a /\ mono_mul [] a = a /\
  (forall v, eval_mono v (mono_mul a b) = eval_mono v a * eval_mono v b) /\
  (mono_eqb a b = true <-> forall x, exponent a x = exponent b x).
Proof.
  intros a b c Ca Cb Cc. assert (C0 : canonical []) by (split; [exact I | intros x e []]).
  split; [apply mono_mul_canonical; assumption|].
  split; [intros x; apply mono_mul_exponent; [apply Ca | apply Cb]|].
  split; [apply mono_mul_comm; assumption|]. split; [apply mono_mul_assoc; assumption|]. split; [reflexivity|].
  split; [rewrite mono_mul_comm by assumption; reflexivity|].
  split; [intros v; apply eval_mono_mul; assumption | apply mono_eqb_spec; [apply Ca | apply Cb]].
Qed.
Print Assumptions C45_monomial_algebra.

(* Simplification keeps exactly the monomials that divide no other monomial of the set, and every dropped monomial
   divides a kept one. *)
Theorem C45_simplification_keeps_maximal_terms :
  forall terms, (forall t, In t terms -> canonical t) ->
  (forall t, In t (poly terms) <->
     In t terms /\ (forall u, In u terms -> (forall x, exponent t x <= exponent u x) -> u = t)) /\
  (forall t, In t terms -> exists u, In u (poly terms) /\ forall x, exponent t x <= exponent u x) /\
  NoDup (poly terms).
Proof.
  intros terms C. split; [intros t; apply (poly_spec t C)|]. split; [exact (poly_dominates C)|].
  apply (increasing_NoDup mono_cmp). apply simplify_increasing.
Qed.
Print Assumptions C45_simplification_keeps_maximal_terms.

(* The algebra of polynomials. *)
Theorem C45_polynomial_algebra :
  forall p q r, is_poly p -> is_poly q -> is_poly r ->
  is_poly (poly_add p q) /\ is_poly (poly_mul p q) /\
  poly_add p q = poly_add q p /\ poly_add (poly_add p q) r = poly_add p (poly_add q r) /\ poly_add p p = p /\
  poly_mul p q = poly_mul q p /\ poly_mul (poly_mul p q) r = poly_mul p (poly_mul q r) /\
  poly_mul p [[]] = p /\ poly_mul p (poly_add q r) = poly_add (poly_mul p q) (poly_mul p r) /\
  poly_prod p [q; r] = poly_mul (poly_mul p q) r.
Proof.
  intros p q r Pp Pq Pr. assert (Cp := is_poly_canonical Pp). assert (Cq := is_poly_canonical Pq). assert (Cr := is_poly_canonical Pr).
  split; [exists (p ++ q); split; [apply all_canonical_app; assumption | reflexivity]|].
  split; [exists (products p q); split; [apply products_canonical; assumption | reflexivity]|].
  split; [apply poly_add_comm; assumption|]. split; [apply poly_add_assoc; assumption|]. split; [apply poly_add_idem; exact Pp|].
  split; [apply poly_mul_comm; assumption|]. split; [apply poly_mul_assoc; assumption|]. split; [apply poly_mul_one; exact Pp|].
  split; [apply poly_distr; assumption | reflexivity].
Qed.
Print Assumptions C45_polynomial_algebra.

(* Evaluation at any sizes >= 1 is additive and multiplicative up to the dropped terms, i.e. up to a factor that only
   depends on the number of terms. *)
Theorem C45_evaluation_up_to_negligible_terms :
  forall p q v, is_poly p -> is_poly q -> (forall x, 1 <= v x) ->
  let n := Z.of_nat (List.length p) in let m := Z.of_nat (List.length q) in
  eval_poly v (poly_add p q) <= eval_poly v p + eval_poly v q <= (n + m) * eval_poly v (poly_add p q) /\
  eval_poly v (poly_mul p q) <= eval_poly v p * eval_poly v q <= (n * m) * eval_poly v (poly_mul p q).
Proof.
  intros p q v Pp Pq V n m. assert (Cp := is_poly_canonical Pp). assert (Cq := is_poly_canonical Pq).
  assert (Capp := all_canonical_app Cp Cq). assert (Cprod := products_canonical Cp Cq).
  assert (Eapp : eval_poly v (p ++ q) = eval_poly v p + eval_poly v q).
  { unfold eval_poly. rewrite map_app. apply zsum_app. }
  assert (G : forall l, all_canonical l -> eval_poly v (poly l) <= eval_poly v l <= Z.of_nat (List.length l) * eval_poly v (poly l)).
  { intros l C. split.
    - apply eval_incl; [exact V | exact C | apply (increasing_NoDup mono_cmp); apply simplify_increasing | intros t Ht; exact (poly_sub C Ht)].
    - apply eval_dominated; [exact V | exact C | apply poly_canonical; exact C | apply poly_dominates; exact C]. }
  assert (G1 := G _ Capp). assert (G2 := G _ Cprod). rewrite Eapp in G1. rewrite (eval_products v Cp Cq) in G2.
  assert (L1 : Z.of_nat (List.length (p ++ q)) = n + m) by (rewrite app_length; unfold n, m; lia).
  assert (L2 : Z.of_nat (List.length (products p q)) = n * m).
  { unfold products, n, m. clear. induction p as [|a p IH]; [reflexivity|]. cbn [flat_map List.length].
    rewrite app_length, map_length. lia. }
  rewrite L1 in G1. rewrite L2 in G2. split; assumption.
Qed.
Print Assumptions C45_evaluation_up_to_negligible_terms.

Definition sy (x : string) := list_ascii_of_string x.
Example C45_example :
  let x2y := [(sy "x", 2); (sy "y", 1)] in let y3 := [(sy "y", 3)] in let xy := [(sy "x", 1); (sy "y", 1)] in
  canonical x2y /\ canonical y3 /\ canonical xy /\
  poly [xy; y3; x2y] = [x2y; y3] /\
  poly_mul (poly [x2y; y3]) (poly [xy]) = [[(sy "x", 1); (sy "y", 4)]; [(sy "x", 3); (sy "y", 2)]].
Proof.
  cbn zeta.
  assert (K : forall m, forallb (fun f => 0 <? snd f) m = true -> sorted_keys m -> canonical m).
  { intros m P S. split; [exact S|]. intros x e I. rewrite forallb_forall in P. specialize (P _ I). apply Z.ltb_lt in P. exact P. }
  split; [apply K; [reflexivity|]; split; [intros k' e' [H|[]]; injection H as <- <-; reflexivity | split; [intros k' e' [] | exact I]]|].
  split; [apply K; [reflexivity|]; split; [intros k' e' [] | exact I]|].
  split; [apply K; [reflexivity|]; split; [intros k' e' [H|[]]; injection H as <- <-; reflexivity | split; [intros k' e' [] | exact I]]|].
  split; vm_compute; reflexivity.
Qed.

(* The positivity hypothesis is needed: a monomial constructed directly with a zero exponent equals the constant
   monomial, but the std::set keeps both, so a polynomial can hold two equal terms. *)
Theorem C45_zero_exponent_refuted :
  exists a b, mono_eqb a b = true /\ poly [a; b] = [a; b] /\ a <> b /\
    eval_poly (fun _ => 1) (mono_add a b) = 2.
Proof. exists [], [(sy "x", 0)]. repeat split. discriminate. Qed.
Print Assumptions C45_zero_exponent_refuted.
