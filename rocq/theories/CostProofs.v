From Coq Require Import List ZArith Lia Bool Ascii Permutation.
From Verif Require Import Util LexOrder CostModel.
Import ListNotations.
Set Implicit Arguments.
Unset Strict Implicit.
Open Scope Z_scope.

Lemma mono_cmp : cmp_laws mono_compare.
Proof. exact (list_cmp (pair_cmp sym_cmp Z_cmp)). Qed.

(* ---- monomials as finite maps ---- *)
Fixpoint sorted_keys (m : mono) : Prop :=
  match m with [] => True | (k, _) :: r => (forall k' e', In (k', e') r -> sym_compare k k' = Lt) /\ sorted_keys r end.
Definition canonical (m : mono) : Prop := sorted_keys m /\ (forall x e, In (x, e) m -> 0 < e).

Lemma sym_eq : forall x y, sym_compare x y = Eq <-> x = y.
Proof. apply (cmp_eq sym_cmp). Qed.
Lemma sym_refl : forall x, sym_compare x x = Eq.
Proof. apply (cmp_refl sym_cmp). Qed.

Lemma exponent_In : forall m x e, sorted_keys m -> In (x, e) m -> exponent m x = e.
Proof.
  induction m as [|[k n] m IH]; intros x e S I; [contradiction|]. destruct S as [S1 S2]. cbn [exponent].
  destruct I as [E|I].
  - injection E as -> ->. rewrite sym_refl. reflexivity.
  - rewrite (S1 x e I). apply IH; assumption.
Qed.
Lemma exponent_notin : forall m x, (forall e, ~ In (x, e) m) -> exponent m x = 0.
Proof.
  induction m as [|[k n] m IH]; intros x H; [reflexivity|]. cbn [exponent].
  destruct (sym_compare k x) eqn:E.
  - apply sym_eq in E. subst. exfalso. apply (H n). left. reflexivity.
  - apply IH. intros e I. apply (H e). right. exact I.
  - apply IH. intros e I. apply (H e). right. exact I.
Qed.
Lemma exponent_nonneg : forall m x, canonical m -> 0 <= exponent m x.
Proof.
  intros m x [_ P]. induction m as [|[k n] m IH]; cbn [exponent]; [lia|].
  assert (IH' : 0 <= exponent m x) by (apply IH; intros y e I; apply (P y e); right; exact I).
  destruct (sym_compare k x); [|exact IH'|exact IH']. specialize (P k n (or_introl eq_refl)). lia.
Qed.
Lemma exponent_pos_In : forall m x, exponent m x <> 0 -> In (x, exponent m x) m.
Proof.
  induction m as [|[k n] m IH]; intros x H; [cbn in H; lia|]. cbn [exponent] in *.
  destruct (sym_compare k x) eqn:E.
  - apply sym_eq in E. subst. left. reflexivity.
  - right. apply IH. exact H.
  - right. apply IH. exact H.
Qed.

Lemma pair_incr : forall m, sorted_keys m -> increasing (pair_compare sym_compare Z.compare) m.
Proof.
  induction m as [|[k n] m IH]; intros H; [exact I|]. destruct H as [H1 H2]. split; [|apply IH; exact H2].
  intros [k' e'] Hy. unfold pair_compare. cbn [fst]. rewrite (H1 k' e' Hy). reflexivity.
Qed.

Lemma canonical_ext : forall a b, canonical a -> canonical b -> (forall x, exponent a x = exponent b x) -> a = b.
Proof.
  intros a b [Sa Pa] [Sb Pb] E.
  apply (increasing_ext (pair_cmp sym_cmp Z_cmp) (pair_incr Sa) (pair_incr Sb)).
  intros [x e]. split; intros I.
  - assert (X := exponent_In Sa I). assert (e > 0) by (specialize (Pa x e I); lia).
    rewrite E in X. rewrite <- X. apply exponent_pos_In. lia.
  - assert (X := exponent_In Sb I). assert (e > 0) by (specialize (Pb x e I); lia).
    rewrite <- E in X. rewrite <- X. apply exponent_pos_In. lia.
Qed.

Lemma add_factor_exponent : forall m x e y, sorted_keys m ->
  exponent (add_factor m x e) y = exponent m y + (match sym_compare x y with Eq => e | _ => 0 end).
Proof.
  induction m as [|[k n] m IH]; intros x e y S; cbn [add_factor exponent].
  - destruct (sym_compare x y); lia.
  - destruct S as [S1 S2]. destruct (sym_compare x k) eqn:E; cbn [exponent].
    + apply sym_eq in E. subst k. destruct (sym_compare x y); lia.
    + destruct (sym_compare x y) eqn:F; try lia. apply sym_eq in F. subst y.
      rewrite (cmp_sym sym_cmp x k), E. cbn [CompOpp].
      assert (Z0 : exponent m x = 0).
      { apply exponent_notin. intros e' I. specialize (S1 x e' I). rewrite (cmp_sym sym_cmp x k), E in S1. discriminate. }
      rewrite Z0. lia.
    + rewrite IH by exact S2. destruct (sym_compare k y) eqn:F; [|reflexivity|reflexivity].
      apply sym_eq in F. subst k. rewrite E. lia.
Qed.
Lemma add_factor_keys : forall m x e k' e', In (k', e') (add_factor m x e) -> k' = x \/ exists e'', In (k', e'') m.
Proof.
  induction m as [|[k n] m IH]; intros x e k' e' I; cbn [add_factor] in I.
  - destruct I as [E|[]]. injection E as <- _. left. reflexivity.
  - destruct (sym_compare x k) eqn:E.
    + destruct I as [F|F]; right; [injection F as <- _; exists n; left; reflexivity | exists e'; right; exact F].
    + destruct I as [F|F]; [injection F as <- _; left; reflexivity | right; exists e'; exact F].
    + destruct I as [F|F]; [right; exists n; injection F as <- _; left; reflexivity|].
      destruct (IH _ _ _ _ F) as [ -> | [e'' G] ]; [left; reflexivity | right; exists e''; right; exact G].
Qed.
Lemma add_factor_sorted : forall m x e, sorted_keys m -> sorted_keys (add_factor m x e).
Proof.
  induction m as [|[k n] m IH]; intros x e S; cbn [add_factor].
  - split; [intros k' e' [] | exact I].
  - destruct S as [S1 S2]. destruct (sym_compare x k) eqn:E.
    + split; assumption.
    + split; [|split; assumption]. intros k' e' [F|F]; [injection F as <- _; exact E | exact (cmp_trans sym_cmp E (S1 k' e' F))].
    + split; [|apply IH; exact S2]. intros k' e' F. apply add_factor_keys in F as [ -> | [e'' G] ].
      * apply (cmp_gt sym_cmp). exact E.
      * exact (S1 k' e'' G).
Qed.
Lemma add_factor_canonical : forall m x e, canonical m -> 0 < e -> canonical (add_factor m x e).
Proof.
  intros m x e [S P] He. split; [apply add_factor_sorted; exact S|].
  induction m as [|[k n] m IH]; intros y f I; cbn [add_factor] in I.
  - destruct I as [E|[]]. injection E as _ <-. lia.
  - destruct S as [S1 S2]. assert (P' : forall x e, In (x, e) m -> 0 < e) by (intros a b Hab; apply (P a b); right; exact Hab).
    assert (Pn := P k n (or_introl eq_refl)).
    destruct (sym_compare x k).
    + destruct I as [E|E]; [injection E as _ <-; lia | exact (P' y f E)].
    + destruct I as [E|E]; [injection E as _ <-; lia | exact (P y f E)].
    + destruct I as [E|E]; [injection E as _ <-; lia | exact (IH S2 P' y f E)].
Qed.

Lemma mono_mul_sorted : forall b a, sorted_keys a -> sorted_keys (mono_mul a b).
Proof.
  unfold mono_mul. induction b as [|[k n] b IH]; intros a S; [exact S|]. cbn [fold_left fst snd]. apply IH.
  apply add_factor_sorted. exact S.
Qed.
Lemma mono_mul_canonical : forall b a, canonical a -> canonical b -> canonical (mono_mul a b).
Proof.
  unfold mono_mul. induction b as [|[k n] b IH]; intros a Ca Cb; [exact Ca|]. cbn [fold_left fst snd].
  destruct Cb as [[_ Sb] Pb]. apply IH.
  - apply add_factor_canonical; [exact Ca | exact (Pb k n (or_introl eq_refl))].
  - split; [exact Sb | intros x e I; apply (Pb x e); right; exact I].
Qed.
Lemma mono_mul_exponent : forall b a x, sorted_keys a -> sorted_keys b ->
  exponent (mono_mul a b) x = exponent a x + exponent b x.
Proof.
  unfold mono_mul. induction b as [|[k n] b IH]; intros a x Sa Sb; cbn [fold_left fst snd exponent]; [lia|].
  destruct Sb as [S1 S2]. rewrite IH; [|apply add_factor_sorted; exact Sa | exact S2].
  rewrite add_factor_exponent by exact Sa. destruct (sym_compare k x) eqn:E; [|lia|lia].
  apply sym_eq in E. subst k.
  rewrite (exponent_notin (m := b) (x := x)); [lia|]. intros e I. specialize (S1 x e I). rewrite sym_refl in S1. discriminate.
Qed.

Lemma mono_eqb_spec : forall a b, sorted_keys a -> sorted_keys b ->
  (mono_eqb a b = true <-> forall x, exponent a x = exponent b x).
Proof.
  intros a b Sa Sb. unfold mono_eqb. rewrite andb_true_iff, !forallb_forall. split.
  - intros [H1 H2] x. destruct (Z.eq_dec (exponent a x) 0) as [E|N].
    + destruct (Z.eq_dec (exponent b x) 0) as [E2|N2]; [congruence|].
      specialize (H2 _ (exponent_pos_In N2)). cbn in H2. apply Z.eqb_eq in H2. exact H2.
    + specialize (H1 _ (exponent_pos_In N)). cbn in H1. apply Z.eqb_eq in H1. symmetry. exact H1.
  - intros H. split; intros [x e] I; cbn [fst snd]; apply Z.eqb_eq.
    + rewrite <- H. apply exponent_In; assumption.
    + rewrite H. apply exponent_In; assumption.
Qed.
Lemma mono_eqb_canonical : forall a b, canonical a -> canonical b -> (mono_eqb a b = true <-> a = b).
Proof.
  intros a b Ca Cb. rewrite (mono_eqb_spec (proj1 Ca) (proj1 Cb)). split; [apply canonical_ext; assumption | intros ->; reflexivity].
Qed.

(* divisibility: t <= u in every exponent *)
Definition divides (t u : mono) : Prop := forall x, exponent t x <= exponent u x.
Lemma divides_b : forall t u, canonical t -> canonical u ->
  (forallb (fun f => snd f <=? exponent u (fst f)) t = true <-> divides t u).
Proof.
  intros t u Ct Cu. rewrite forallb_forall. split.
  - intros H x. destruct (Z.eq_dec (exponent t x) 0) as [E|N].
    + rewrite E. apply exponent_nonneg. exact Cu.
    + specialize (H _ (exponent_pos_In N)). cbn in H. apply Z.leb_le in H. exact H.
  - intros H [x e] I. cbn [fst snd]. apply Z.leb_le. rewrite <- (exponent_In (proj1 Ct) I). apply H.
Qed.
Lemma divides_antisym : forall t u, canonical t -> canonical u -> divides t u -> divides u t -> t = u.
Proof. intros t u Ct Cu H1 H2. apply canonical_ext; [exact Ct | exact Cu|]. intros x. specialize (H1 x). specialize (H2 x). lia. Qed.
Lemma divides_trans : forall a b c, divides a b -> divides b c -> divides a c.
Proof. intros a b c H1 H2 x. specialize (H1 x). specialize (H2 x). lia. Qed.
Lemma divides_refl : forall a, divides a a.
Proof. intros a x. lia. Qed.

(* ---- simplification ---- *)
Lemma simplify_fold_In : forall all terms acc t,
  In t (fold_left (fun acc t =>
    let others := filter (fun u => negb (mono_eqb u t)) all in
    if is_negligible t others then acc else insert_mono t acc) terms acc) <->
  (In t terms /\ is_negligible t (filter (fun u => negb (mono_eqb u t)) all) = false) \/ In t acc.
Proof.
  intros all. induction terms as [|a terms IH]; intros acc t; cbn [fold_left].
  - cbn. tauto.
  - rewrite IH. cbn zeta. destruct (is_negligible a _) eqn:E.
    + cbn [In]. split.
      * intros [[H1 H2]|H]; [left; split; [right; exact H1 | exact H2] | right; exact H].
      * intros [[[ -> | H1] H2]|H]; [congruence | left; split; assumption | right; exact H].
    + unfold insert_mono. rewrite (set_insert_In mono_cmp). cbn [In]. split.
      * intros [[H1 H2]|[ -> | H ]]; [left; split; [right; exact H1 | exact H2] | left; split; [left; reflexivity | exact E] | right; exact H].
      * intros [[[ -> | H1] H2]|H]; [right; left; reflexivity | left; split; assumption | right; right; exact H].
Qed.
Lemma simplify_increasing : forall terms, increasing mono_compare (simplify terms).
Proof.
  intros terms. unfold simplify. assert (G : forall l acc, increasing mono_compare acc -> increasing mono_compare
    (fold_left (fun acc t => let others := filter (fun u => negb (mono_eqb u t)) terms in
                if is_negligible t others then acc else insert_mono t acc) l acc)).
  { induction l as [|a l IH]; intros acc H; [exact H|]. cbn [fold_left]. apply IH. cbn zeta.
    destruct (is_negligible a _); [exact H | apply (set_insert_increasing mono_cmp); exact H]. }
  apply G. exact I.
Qed.

Definition all_canonical (l : list mono) : Prop := forall t, In t l -> canonical t.
Definition maximal (t : mono) (l : list mono) : Prop := In t l /\ forall u, In u l -> divides t u -> u = t.

Lemma simplify_spec : forall terms, all_canonical terms -> forall t, In t (simplify terms) <-> maximal t terms.
Proof.
  intros terms C t. unfold simplify. rewrite simplify_fold_In. cbn [In]. unfold maximal. split.
  - intros [[H1 H2]|[]]. split; [exact H1|]. intros u Hu D. destruct (cmp_dec mono_cmp u t) as [E|N]; [exact E|]. exfalso.
    assert (T : is_negligible t (filter (fun u => negb (mono_eqb u t)) terms) = true).
    { apply existsb_exists. exists u. split.
      - apply filter_In. split; [exact Hu|]. destruct (mono_eqb u t) eqn:E; [|reflexivity].
        apply mono_eqb_canonical in E; [contradiction | exact (C u Hu) | exact (C t H1)].
      - apply divides_b; [exact (C t H1) | exact (C u Hu) | exact D]. }
    congruence.
  - intros [H1 H2]. left. split; [exact H1|]. destruct (is_negligible t _) eqn:E; [|reflexivity]. exfalso.
    apply existsb_exists in E as [u [Hu D]]. apply filter_In in Hu as [Hu N].
    apply divides_b in D; [|exact (C t H1) | exact (C u Hu)]. specialize (H2 u Hu D). subst u.
    assert (T : mono_eqb t t = true) by (apply mono_eqb_canonical; auto). rewrite T in N. discriminate.
Qed.

(* degree *)
Definition degree_on (X : list symbol) (m : mono) : Z := zsum (map (exponent m) X).
Lemma degree_le : forall (X : list symbol) a b, divides a b -> degree_on X a <= degree_on X b.
Proof.
  unfold degree_on. induction X as [|x X IH]; intros a b H; cbn [map]; [cbn; lia|].
  unfold zsum in *. cbn [fold_right]. specialize (IH a b H). specialize (H x). lia.
Qed.
Lemma degree_eq : forall X a b, divides a b -> degree_on X a = degree_on X b -> forall x, In x X -> exponent a x = exponent b x.
Proof.
  unfold degree_on. induction X as [|y X IH]; intros a b H E x I; [contradiction|]. unfold zsum in *. cbn [map fold_right] in E.
  assert (L := degree_le (X := X) H). unfold degree_on, zsum in L. assert (Hy := H y).
  destruct I as [ -> | I ]; [lia|]. apply IH; [exact H | lia | exact I].
Qed.
Lemma argmax : forall (A : Type) (f : A -> Z) l, l <> [] -> exists x, In x l /\ forall y, In y l -> f y <= f x.
Proof.
  intros A f. induction l as [|a l IH]; intros H; [congruence|]. destruct l as [|b l].
  - exists a. split; [left; reflexivity|]. intros y [ -> | [] ]. lia.
  - destruct IH as [x [Hx Mx]]; [discriminate|]. destruct (Z_le_gt_dec (f x) (f a)).
    + exists a. split; [left; reflexivity|]. intros y [ -> | Hy ]; [lia | specialize (Mx y Hy); lia].
    + exists x. split; [right; exact Hx|]. intros y [ <- | Hy ]; [lia | exact (Mx y Hy)].
Qed.

Definition dominated (S1 S2 : list mono) : Prop := forall t, In t S1 -> exists u, In u S2 /\ divides t u.

Lemma simplify_dominates : forall terms, all_canonical terms -> dominated terms (simplify terms).
Proof.
  intros terms C t Ht.
  set (X := flat_map (fun m : mono => map fst m) terms).
  set (above := filter (fun u => forallb (fun f => snd f <=? exponent u (fst f)) t) terms).
  assert (AB : forall u, In u above <-> In u terms /\ divides t u).
  { intros u. unfold above. rewrite filter_In. split; intros [H1 H2]; (split; [exact H1|]); apply (divides_b (C t Ht) (C u H1)); exact H2. }
  assert (NE : above <> []).
  { intros E. assert (In t above) by (apply AB; split; [exact Ht | apply divides_refl]). rewrite E in H. contradiction. }
  destruct (argmax (degree_on X) NE) as [u [Hu Mu]]. apply AB in Hu as [Hu Du].
  exists u. split; [|exact Du]. apply simplify_spec; [exact C|]. split; [exact Hu|].
  intros w Hw Dw. assert (Iw : In w above) by (apply AB; split; [exact Hw | exact (divides_trans Du Dw)]).
  specialize (Mu w Iw). assert (Lw := degree_le (X := X) Dw).
  assert (EQ := degree_eq (X := X) Dw ltac:(lia)).
  symmetry. apply canonical_ext; [exact (C u Hu) | exact (C w Hw)|]. intros x.
  destruct (Z.eq_dec (exponent u x) (exponent w x)) as [E|N]; [exact E|].
  apply EQ. unfold X. apply in_flat_map.
  destruct (Z.eq_dec (exponent w x) 0) as [E0|N0].
  - exists u. split; [exact Hu|]. apply (in_map fst _ (x, exponent u x)). apply exponent_pos_In. lia.
  - exists w. split; [exact Hw|]. apply (in_map fst _ (x, exponent w x)). apply exponent_pos_In. exact N0.
Qed.

Lemma simplify_sub : forall terms t, all_canonical terms -> In t (simplify terms) -> In t terms.
Proof. intros terms t C H. apply simplify_spec in H; [exact (proj1 H) | exact C]. Qed.

Lemma simplify_same : forall S1 S2, all_canonical S1 -> all_canonical S2 -> dominated S1 S2 -> dominated S2 S1 ->
  simplify S1 = simplify S2.
Proof.
  assert (H : forall S1 S2, all_canonical S1 -> all_canonical S2 -> dominated S1 S2 -> dominated S2 S1 ->
              forall t, maximal t S1 -> maximal t S2).
  { intros S1 S2 C1 C2 D1 D2 t [I M]. destruct (D1 t I) as [u [Hu Du]].
    destruct (D2 u Hu) as [t' [Ht' Dt']]. assert (t' = t) by (apply M; [exact Ht' | exact (divides_trans Du Dt')]). subst t'.
    assert (t = u) by (apply divides_antisym; auto). subst u. split; [exact Hu|].
    intros w Hw Dw. destruct (D2 w Hw) as [v [Hv Dv]]. assert (v = t) by (apply M; [exact Hv | exact (divides_trans Dw Dv)]). subst v.
    apply divides_antisym; auto. }
  intros S1 S2 C1 C2 D1 D2. apply (increasing_ext mono_cmp (simplify_increasing _) (simplify_increasing _)).
  intros t. rewrite (simplify_spec C1), (simplify_spec C2). split; apply H; assumption.
Qed.

Lemma to_set_In : forall l t, In t (to_set l) <-> In t l.
Proof. intros l t. apply (set_of_list_In mono_cmp). Qed.
Lemma to_set_canonical : forall l, all_canonical l -> all_canonical (to_set l).
Proof. intros l C t H. apply C. apply to_set_In. exact H. Qed.
Lemma poly_spec : forall l t, all_canonical l -> (In t (poly l) <-> maximal t l).
Proof.
  intros l t C. unfold poly. rewrite (simplify_spec (to_set_canonical C)). unfold maximal. rewrite to_set_In.
  split; intros [H1 H2]; (split; [exact H1|]); intros u Hu; apply H2; apply to_set_In; exact Hu.
Qed.
Lemma poly_sub : forall l t, all_canonical l -> In t (poly l) -> In t l.
Proof. intros l t C H. apply poly_spec in H; [exact (proj1 H) | exact C]. Qed.
Lemma poly_canonical : forall l, all_canonical l -> all_canonical (poly l).
Proof. intros l C t H. apply C. exact (poly_sub C H). Qed.
Lemma poly_dominates : forall l, all_canonical l -> dominated l (poly l).
Proof.
  intros l C t Ht. unfold poly. apply (simplify_dominates (to_set_canonical C)). apply to_set_In. exact Ht.
Qed.
Lemma poly_dominated : forall l, all_canonical l -> dominated (poly l) l.
Proof. intros l C t Ht. exists t. split; [exact (poly_sub C Ht) | apply divides_refl]. Qed.
Lemma poly_same : forall S1 S2, all_canonical S1 -> all_canonical S2 -> dominated S1 S2 -> dominated S2 S1 -> poly S1 = poly S2.
Proof.
  intros S1 S2 C1 C2 D1 D2. unfold poly. apply simplify_same; try (apply to_set_canonical; assumption).
  - intros t Ht. apply (proj1 (to_set_In _ _)) in Ht. destruct (D1 t Ht) as [u [Hu Du]]. exists u. split; [apply to_set_In; exact Hu | exact Du].
  - intros t Ht. apply (proj1 (to_set_In _ _)) in Ht. destruct (D2 t Ht) as [u [Hu Du]]. exists u. split; [apply to_set_In; exact Hu | exact Du].
Qed.
Lemma dominated_trans : forall a b c, dominated a b -> dominated b c -> dominated a c.
Proof.
  intros a b c H1 H2 t Ht. destruct (H1 t Ht) as [u [Hu Du]]. destruct (H2 u Hu) as [v [Hv Dv]].
  exists v. split; [exact Hv | exact (divides_trans Du Dv)].
Qed.
Lemma dominated_incl : forall a b, incl a b -> dominated a b.
Proof. intros a b H t Ht. exists t. split; [exact (H t Ht) | apply divides_refl]. Qed.
Lemma dominated_app : forall a b c d, dominated a c -> dominated b d -> dominated (a ++ b) (c ++ d).
Proof.
  intros a b c d H1 H2 t Ht. apply in_app_or in Ht as [Ht|Ht]; [destruct (H1 t Ht) as [u [Hu Du]] | destruct (H2 t Ht) as [u [Hu Du]]];
    exists u; (split; [apply in_or_app; auto | exact Du]).
Qed.
Lemma all_canonical_app : forall a b, all_canonical a -> all_canonical b -> all_canonical (a ++ b).
Proof. intros a b Ca Cb t H. apply in_app_or in H as [H|H]; auto. Qed.

Lemma products_In : forall p q t, In t (products p q) <-> exists a b, In a p /\ In b q /\ t = mono_mul a b.
Proof.
  intros p q t. unfold products. rewrite in_flat_map. split.
  - intros (a & Ha & H). apply in_map_iff in H as [b [E Hb]]. exists a, b. auto.
  - intros (a & b & Ha & Hb & ->). exists a. split; [exact Ha | apply in_map; exact Hb].
Qed.
Lemma products_canonical : forall p q, all_canonical p -> all_canonical q -> all_canonical (products p q).
Proof. intros p q Cp Cq t H. apply products_In in H as (a & b & Ha & Hb & ->). apply mono_mul_canonical; auto. Qed.
Lemma divides_mul : forall a b c d, canonical a -> canonical b -> canonical c -> canonical d ->
  divides a c -> divides b d -> divides (mono_mul a b) (mono_mul c d).
Proof.
  intros a b c d Ca Cb Cc Cd H1 H2 x. rewrite !mono_mul_exponent by (apply Ca || apply Cb || apply Cc || apply Cd).
  specialize (H1 x). specialize (H2 x). lia.
Qed.
Lemma products_dominated : forall p q p' q', all_canonical p -> all_canonical q -> all_canonical p' -> all_canonical q' ->
  dominated p p' -> dominated q q' -> dominated (products p q) (products p' q').
Proof.
  intros p q p' q' Cp Cq Cp' Cq' H1 H2 t Ht. apply products_In in Ht as (a & b & Ha & Hb & ->).
  destruct (H1 a Ha) as [c [Hc Dc]]. destruct (H2 b Hb) as [d [Hd Dd]].
  exists (mono_mul c d). split; [apply products_In; exists c, d; auto | apply divides_mul; auto].
Qed.

Lemma mono_mul_comm : forall a b, canonical a -> canonical b -> mono_mul a b = mono_mul b a.
Proof.
  intros a b Ca Cb. apply canonical_ext; [apply mono_mul_canonical; assumption | apply mono_mul_canonical; assumption|].
  intros x. rewrite !mono_mul_exponent by (apply Ca || apply Cb). lia.
Qed.
Lemma mono_mul_assoc : forall a b c, canonical a -> canonical b -> canonical c ->
  mono_mul (mono_mul a b) c = mono_mul a (mono_mul b c).
Proof.
  intros a b c Ca Cb Cc.
  assert (Cab := mono_mul_canonical Ca Cb). assert (Cbc := mono_mul_canonical Cb Cc).
  apply canonical_ext; [apply mono_mul_canonical; assumption | apply mono_mul_canonical; assumption|].
  intros x. rewrite !mono_mul_exponent by (apply Ca || apply Cb || apply Cc || apply Cab || apply Cbc). lia.
Qed.

Lemma poly_mul_comm : forall p q, all_canonical p -> all_canonical q -> poly_mul p q = poly_mul q p.
Proof.
  intros p q Cp Cq. unfold poly_mul. apply poly_same; try (apply products_canonical; assumption);
    apply dominated_incl; intros t Ht; apply products_In in Ht as (a & b & Ha & Hb & ->); apply products_In;
    exists b, a; (split; [exact Hb|]; split; [exact Ha|]); apply mono_mul_comm; auto.
Qed.
Lemma poly_mul_assoc : forall p q r, all_canonical p -> all_canonical q -> all_canonical r ->
  poly_mul (poly_mul p q) r = poly_mul p (poly_mul q r).
Proof.
  intros p q r Cp Cq Cr. unfold poly_mul.
  assert (Cpq := products_canonical Cp Cq). assert (Cqr := products_canonical Cq Cr).
  assert (E1 : poly (products (poly (products p q)) r) = poly (products (products p q) r)).
  { apply poly_same.
    - apply products_canonical; [apply poly_canonical; exact Cpq | exact Cr].
    - apply products_canonical; assumption.
    - apply products_dominated; try assumption; [apply poly_canonical; exact Cpq | apply poly_dominated; exact Cpq | intros t Ht; exists t; split; [exact Ht | apply divides_refl]].
    - apply products_dominated; try assumption; [apply poly_canonical; exact Cpq | apply poly_dominates; exact Cpq | intros t Ht; exists t; split; [exact Ht | apply divides_refl]]. }
  assert (E2 : poly (products p (poly (products q r))) = poly (products p (products q r))).
  { apply poly_same.
    - apply products_canonical; [exact Cp | apply poly_canonical; exact Cqr].
    - apply products_canonical; assumption.
    - apply products_dominated; try assumption; [apply poly_canonical; exact Cqr | intros t Ht; exists t; split; [exact Ht | apply divides_refl] | apply poly_dominated; exact Cqr].
    - apply products_dominated; try assumption; [apply poly_canonical; exact Cqr | intros t Ht; exists t; split; [exact Ht | apply divides_refl] | apply poly_dominates; exact Cqr]. }
  rewrite E1, E2. apply poly_same.
  - apply products_canonical; assumption.
  - apply products_canonical; assumption.
  - apply dominated_incl. intros t Ht. apply products_In in Ht as (ab & c & Hab & Hc & ->). apply products_In in Hab as (a & b & Ha & Hb & ->).
    apply products_In. exists a, (mono_mul b c). split; [exact Ha|]. split; [apply products_In; exists b, c; auto | apply mono_mul_assoc; auto].
  - apply dominated_incl. intros t Ht. apply products_In in Ht as (a & bc & Ha & Hbc & ->). apply products_In in Hbc as (b & c & Hb & Hc & ->).
    apply products_In. exists (mono_mul a b), c. split; [apply products_In; exists a, b; auto|]. split; [exact Hc | symmetry; apply mono_mul_assoc; auto].
Qed.
Lemma poly_add_comm : forall p q, all_canonical p -> all_canonical q -> poly_add p q = poly_add q p.
Proof.
  intros p q Cp Cq. unfold poly_add. apply poly_same; try (apply all_canonical_app; assumption);
    apply dominated_incl; intros t Ht; apply in_app_or in Ht as [H|H]; apply in_or_app; auto.
Qed.
Lemma poly_add_assoc : forall p q r, all_canonical p -> all_canonical q -> all_canonical r ->
  poly_add (poly_add p q) r = poly_add p (poly_add q r).
Proof.
  intros p q r Cp Cq Cr. unfold poly_add.
  assert (Cpq := all_canonical_app Cp Cq). assert (Cqr := all_canonical_app Cq Cr).
  assert (R : forall l, dominated l l) by (intros l t Ht; exists t; split; [exact Ht | apply divides_refl]).
  transitivity (poly ((p ++ q) ++ r)); [|rewrite <- app_assoc]; apply poly_same;
    try (apply all_canonical_app; try assumption; apply poly_canonical; assumption); try (apply all_canonical_app; assumption).
  - apply dominated_app; [apply poly_dominated; exact Cpq | apply R].
  - apply dominated_app; [apply poly_dominates; exact Cpq | apply R].
  - apply dominated_app; [apply R | apply poly_dominates; exact Cqr].
  - apply dominated_app; [apply R | apply poly_dominated; exact Cqr].
Qed.
Lemma poly_distr : forall p q r, all_canonical p -> all_canonical q -> all_canonical r ->
  poly_mul p (poly_add q r) = poly_add (poly_mul p q) (poly_mul p r).
Proof.
  intros p q r Cp Cq Cr. unfold poly_mul, poly_add.
  assert (Cqr := all_canonical_app Cq Cr). assert (Cpq := products_canonical Cp Cq). assert (Cpr := products_canonical Cp Cr).
  assert (R : forall l, dominated l l) by (intros l t Ht; exists t; split; [exact Ht | apply divides_refl]).
  transitivity (poly (products p (q ++ r))); [|transitivity (poly (products p q ++ products p r))]; apply poly_same.
  - apply products_canonical; [exact Cp | apply poly_canonical; exact Cqr].
  - apply products_canonical; assumption.
  - apply products_dominated; auto; [apply poly_canonical; exact Cqr | apply poly_dominated; exact Cqr].
  - apply products_dominated; auto; [apply poly_canonical; exact Cqr | apply poly_dominates; exact Cqr].
  - apply products_canonical; assumption.
  - apply all_canonical_app; assumption.
  - apply dominated_incl. intros t Ht. apply products_In in Ht as (a & b & Ha & Hb & ->). apply in_or_app.
    apply in_app_or in Hb as [Hb|Hb]; [left | right]; apply products_In; exists a, b; auto.
  - apply dominated_incl. intros t Ht. apply in_app_or in Ht as [Ht|Ht]; apply products_In in Ht as (a & b & Ha & Hb & ->); apply products_In; exists a, b;
      (split; [exact Ha|]; split; [apply in_or_app; auto | reflexivity]).
  - apply all_canonical_app; assumption.
  - apply all_canonical_app; apply poly_canonical; assumption.
  - apply dominated_app; apply poly_dominates; assumption.
  - apply dominated_app; apply poly_dominated; assumption.
Qed.

(* the class invariant of a polynomial: what the constructor produces *)
Definition is_poly (p : list mono) : Prop := exists l, all_canonical l /\ p = poly l.
Lemma is_poly_canonical : forall p, is_poly p -> all_canonical p.
Proof. intros p [l [C ->]]. apply poly_canonical. exact C. Qed.
Lemma is_poly_simplified : forall p, is_poly p -> poly p = p.
Proof.
  intros p [l [C ->]]. apply poly_same; [apply poly_canonical; exact C | exact C | apply poly_dominated; exact C | apply poly_dominates; exact C].
Qed.
Lemma poly_mul_one : forall p, is_poly p -> poly_mul p [[]] = p.
Proof.
  intros p P. transitivity (poly p); [|apply is_poly_simplified; exact P]. unfold poly_mul. f_equal.
  unfold products. induction p as [|m p IH] in |- *; [reflexivity|]. cbn [flat_map map app]. f_equal.
  clear. induction p as [|m p IH]; [reflexivity|]. cbn [flat_map map app]. f_equal. exact IH.
Qed.
Lemma poly_add_idem : forall p, is_poly p -> poly_add p p = p.
Proof.
  intros p P. transitivity (poly p); [|apply is_poly_simplified; exact P]. assert (C := is_poly_canonical P).
  apply poly_same; [apply all_canonical_app; exact C | exact C | |]; apply dominated_incl; intros t Ht;
    [apply in_app_or in Ht as [H|H]; exact H | apply in_or_app; left; exact Ht].
Qed.

(* ---- evaluation ---- *)
Definition eval_mono (v : symbol -> Z) (m : mono) : Z := fold_right (fun f acc => v (fst f) ^ snd f * acc) 1 m.
Definition eval_poly (v : symbol -> Z) (p : list mono) : Z := zsum (map (eval_mono v) p).

Definition prod_on (v : symbol -> Z) (X : list symbol) (m : mono) : Z := fold_right (fun x acc => v x ^ exponent m x * acc) 1 X.

Lemma eval_mono_pos : forall v m, (forall x, 1 <= v x) -> canonical m -> 1 <= eval_mono v m.
Proof.
  intros v m V [_ P]. induction m as [|[k n] m IH]; [cbn; lia|]. cbn [eval_mono fold_right fst snd]. fold (eval_mono v m).
  assert (1 <= eval_mono v m) by (apply IH; intros x e I; apply (P x e); right; exact I).
  assert (0 < v k ^ n). { apply Z.pow_pos_nonneg; [specialize (V k); lia | specialize (P k n (or_introl eq_refl)); lia]. }
  nia.
Qed.

Lemma eval_add_factor : forall v m x e, canonical m -> 0 < e -> eval_mono v (add_factor m x e) = v x ^ e * eval_mono v m.
Proof.
  intros v m x e [S P] He. induction m as [|[k n] m IH]; cbn [add_factor].
  - reflexivity.
  - destruct S as [S1 S2]. assert (Pn := P k n (or_introl eq_refl)).
    destruct (sym_compare x k) eqn:E.
    + apply sym_eq in E. subst k. cbn [eval_mono fold_right fst snd]. rewrite Z.pow_add_r by lia. ring.
    + reflexivity.
    + cbn [eval_mono fold_right fst snd] in *. fold (eval_mono v (add_factor m x e)). fold (eval_mono v m).
      rewrite IH; [ring | exact S2 | intros y f I; apply (P y f); right; exact I].
Qed.
Lemma eval_mono_mul : forall v b a, canonical a -> canonical b -> eval_mono v (mono_mul a b) = eval_mono v a * eval_mono v b.
Proof.
  intros v b. unfold mono_mul. induction b as [|[k n] b IH]; intros a Ca Cb.
  - cbn [fold_left]. change (eval_mono v []) with 1. ring.
  - cbn [fold_left fst snd]. assert (Pn := proj2 Cb k n (or_introl eq_refl)).
    rewrite IH.
    + rewrite eval_add_factor by assumption. change (eval_mono v ((k, n) :: b)) with (v k ^ n * eval_mono v b). ring.
    + apply add_factor_canonical; assumption.
    + destruct Cb as [[_ S] P]. split; [exact S | intros x e I; apply (P x e); right; exact I].
Qed.

(* quotient monomial: divides a b -> b = a * c *)
Lemma divides_quotient : forall a b, canonical a -> canonical b -> divides a b -> exists c, canonical c /\ b = mono_mul a c.
Proof.
  intros a b Ca Cb D.
  set (c := fold_right (fun f acc => if snd f - exponent a (fst f) =? 0 then acc else (fst f, snd f - exponent a (fst f)) :: acc) [] b).
  assert (CI : forall l, sorted_keys l -> (forall x e, In (x, e) l -> exponent a x <= e) ->
    let q := fold_right (fun f acc => if snd f - exponent a (fst f) =? 0 then acc else (fst f, snd f - exponent a (fst f)) :: acc) [] l in
    (forall x e, In (x, e) q -> exists e', In (x, e') l /\ e = e' - exponent a x /\ 0 < e) /\ sorted_keys q /\
    (forall x e', In (x, e') l -> exponent q x = e' - exponent a x)).
  { induction l as [|[k n] l IH]; intros S H; cbn [fold_right fst snd].
    - split; [intros x e [] | split; [exact I | intros x e' []]].
    - destruct S as [S1 S2]. destruct IH as (I1 & I2 & I3); [exact S2 | intros x e Hx; apply H; right; exact Hx|].
      cbn zeta in *. set (q := fold_right _ [] l) in *.
      assert (Hk := H k n (or_introl eq_refl)).
      destruct (Z.eqb_spec (n - exponent a k) 0) as [E|N].
      + split; [|split; [exact I2|]].
        * intros x e Hx. destruct (I1 x e Hx) as (e' & A & B). exists e'. split; [right; exact A | exact B].
        * intros x e' [F|F]; [|apply I3; exact F]. injection F as <- <-. rewrite E.
          apply exponent_notin. intros e Hx. destruct (I1 k e Hx) as (e2 & A & _). specialize (S1 k e2 A). rewrite sym_refl in S1. discriminate.
      + split; [|split].
        * intros x e [F|F]; [injection F as <- <-; exists n; split; [left; reflexivity | lia]|].
          destruct (I1 x e F) as (e' & A & B). exists e'. split; [right; exact A | exact B].
        * split; [|exact I2]. intros k' e' F. destruct (I1 k' e' F) as (e2 & A & _). exact (S1 k' e2 A).
        * intros x e' F. cbn [exponent]. destruct F as [F|F].
          -- injection F as <- <-. rewrite sym_refl. reflexivity.
          -- rewrite (S1 x e' F). apply I3. exact F. }
  destruct (CI b (proj1 Cb)) as (I1 & I2 & I3).
  { intros x e Hx. rewrite <- (exponent_In (proj1 Cb) Hx). apply D. }
  fold c in I1, I2, I3.
  assert (Cc : canonical c). { split; [exact I2|]. intros x e Hx. destruct (I1 x e Hx) as (e' & _ & _ & G). exact G. }
  exists c. split; [exact Cc|]. apply canonical_ext; [exact Cb | apply mono_mul_canonical; assumption|].
  intros x. rewrite mono_mul_exponent by (apply Ca || apply Cc).
  destruct (Z.eq_dec (exponent b x) 0) as [E|N].
  - specialize (D x). assert (A0 := @exponent_nonneg a x Ca). rewrite (exponent_notin (m := c)); [lia|].
    intros e Hx. destruct (I1 x e Hx) as (e' & A & B & G). apply (exponent_In (proj1 Cb)) in A. lia.
  - apply exponent_pos_In in N. rewrite (I3 _ _ N). lia.
Qed.

Lemma eval_divides : forall v a b, (forall x, 1 <= v x) -> canonical a -> canonical b -> divides a b -> eval_mono v a <= eval_mono v b.
Proof.
  intros v a b V Ca Cb D. destruct (divides_quotient Ca Cb D) as [c [Cc ->]]. rewrite eval_mono_mul by assumption.
  assert (1 <= eval_mono v a) by (apply eval_mono_pos; assumption). assert (1 <= eval_mono v c) by (apply eval_mono_pos; assumption). nia.
Qed.

Lemma eval_poly_nonneg : forall v p, (forall x, 1 <= v x) -> all_canonical p -> 0 <= eval_poly v p.
Proof.
  intros v p V C. unfold eval_poly, zsum. induction p as [|m p IH]; cbn [map fold_right]; [lia|].
  assert (1 <= eval_mono v m) by (apply eval_mono_pos; [exact V | apply C; left; reflexivity]).
  assert (0 <= fold_right Z.add 0 (map (eval_mono v) p)) by (apply IH; intros t Ht; apply C; right; exact Ht). lia.
Qed.
Lemma eval_poly_member : forall v p m, (forall x, 1 <= v x) -> all_canonical p -> In m p -> eval_mono v m <= eval_poly v p.
Proof.
  intros v p m V C I. induction p as [|a p IH]; [contradiction|].
  assert (Ca : canonical a) by (apply C; left; reflexivity).
  assert (Cp : all_canonical p) by (intros t Ht; apply C; right; exact Ht).
  assert (1 <= eval_mono v a) by (apply eval_mono_pos; assumption). assert (0 <= eval_poly v p) by (apply eval_poly_nonneg; assumption).
  unfold eval_poly, zsum in *. cbn [map fold_right]. destruct I as [ -> | I ]; [lia | specialize (IH Cp I); lia].
Qed.
Lemma eval_dominated : forall v S1 S2, (forall x, 1 <= v x) -> all_canonical S1 -> all_canonical S2 -> dominated S1 S2 ->
  eval_poly v S1 <= Z.of_nat (length S1) * eval_poly v S2.
Proof.
  intros v S1 S2 V C1 C2 D. induction S1 as [|t S1 IH]; [cbn; lia|].
  destruct (D t (or_introl eq_refl)) as [u [Hu Du]].
  assert (E1 := eval_divides V (C1 t (or_introl eq_refl)) (C2 u Hu) Du). assert (E2 := eval_poly_member V C2 Hu).
  assert (IH' : eval_poly v S1 <= Z.of_nat (length S1) * eval_poly v S2).
  { apply IH; [intros x Hx; apply C1; right; exact Hx | intros x Hx; apply D; right; exact Hx]. }
  change (eval_poly v (t :: S1)) with (eval_mono v t + eval_poly v S1).
  cbn [length]. rewrite Nat2Z.inj_succ. nia.
Qed.
Lemma eval_incl : forall v S1 S2, (forall x, 1 <= v x) -> all_canonical S2 -> NoDup S1 -> incl S1 S2 -> eval_poly v S1 <= eval_poly v S2.
Proof.
  intros v S1. induction S1 as [|t S1 IH]; intros S2 V C2 ND I; [apply eval_poly_nonneg; assumption|].
  inversion ND as [|? ? NI ND']; subst. destruct (in_split t S2) as (a & b & ->); [apply I; left; reflexivity|].
  assert (P : Permutation (t :: a ++ b) (a ++ t :: b)) by apply Permutation_middle.
  assert (IH' : eval_poly v S1 <= eval_poly v (a ++ b)).
  { apply IH; [exact V | | exact ND' |].
    - intros x Hx. apply C2. apply (Permutation_in _ P). right. exact Hx.
    - intros x Hx. assert (Hx2 : In x (a ++ t :: b)) by (apply I; right; exact Hx).
      apply (Permutation_in _ (Permutation_sym P)) in Hx2. destruct Hx2 as [ -> | Hx2 ]; [contradiction | exact Hx2]. }
  assert (E : eval_poly v (a ++ t :: b) = eval_mono v t + eval_poly v (a ++ b)).
  { unfold eval_poly, zsum. rewrite !map_app. cbn [map]. rewrite !fold_right_app. cbn [fold_right].
    generalize (fold_right Z.add 0 (map (eval_mono v) b)) as c. intros c. induction a as [|y a IHa]; cbn [map fold_right]; [lia|].
    clear -IHa. 
    assert (G : forall l x y, fold_right Z.add (x + y) l = x + fold_right Z.add y l).
    { induction l as [|z l IHl]; intros p q; cbn [fold_right]; [lia|]. rewrite IHl. lia. }
    rewrite G. lia. }
  rewrite E. change (eval_poly v (t :: S1)) with (eval_mono v t + eval_poly v S1). lia.
Qed.
Lemma eval_products : forall v p q, all_canonical p -> all_canonical q -> eval_poly v (products p q) = eval_poly v p * eval_poly v q.
Proof.
  intros v p q Cp Cq. unfold products. induction p as [|a p IH]; [reflexivity|].
  cbn [flat_map]. unfold eval_poly in *. rewrite map_app, zsum_app, IH by (intros t Ht; apply Cp; right; exact Ht).
  assert (Ca : canonical a) by (apply Cp; left; reflexivity).
  assert (E : zsum (map (eval_mono v) (map (fun m2 => mono_mul a m2) q)) = eval_mono v a * zsum (map (eval_mono v) q)).
  { clear IH Cp. induction q as [|b q IHq]; cbn [map]; unfold zsum in *; cbn [fold_right]; [ring|].
    rewrite IHq by (intros t Ht; apply Cq; right; exact Ht). rewrite eval_mono_mul by (auto; apply Cq; left; reflexivity). ring. }
  rewrite E. change (zsum (map (eval_mono v) (a :: p))) with (eval_mono v a + zsum (map (eval_mono v) p)). ring.
Qed.
