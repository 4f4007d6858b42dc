(** C70, part 4: the pairs become neighbours if they are given in order, or if all legs between them are traced. *)
From Coq Require Import ZArith List Bool Lia Permutation Sorted.
From Verif Require Import Util PlanarModel PlanarSpec PlanarProofs1 PlanarProofs2 PtModel PtSpec PtProofs1 PtProofs3.
Import ListNotations.
Set Implicit Arguments. Unset Strict Implicit.
Open Scope nat_scope.

Definition fle (p q : nat * nat) : Prop := fst p <= fst q.
Lemma pair_leb_true p q : pair_leb p q = true -> fle p q.
Proof. unfold pair_leb, fle. destruct (Nat.eqb_spec (fst p) (fst q)); [lia|]. intros H. apply Nat.ltb_lt in H. lia. Qed.
Lemma pair_leb_false p q : pair_leb p q = false -> fle q p.
Proof. unfold pair_leb, fle. destruct (Nat.eqb_spec (fst p) (fst q)); [lia|]. intros H. apply Nat.ltb_ge in H. lia. Qed.
Lemma insert_pair_perm p l : Permutation (insert_pair p l) (p :: l).
Proof. induction l as [|q t IH]; cbn [insert_pair]; [reflexivity|]. destruct (pair_leb p q); [reflexivity|]. rewrite IH. apply perm_swap. Qed.
Lemma sort_pairs_perm l : Permutation (sort_pairs l) l.
Proof. induction l as [|p t IH]; cbn [sort_pairs]; [reflexivity|]. rewrite insert_pair_perm. now rewrite IH. Qed.
Lemma insert_pair_sorted p l : StronglySorted fle l -> StronglySorted fle (insert_pair p l).
Proof.
  induction 1 as [|q t S IH F]; cbn [insert_pair]; [repeat constructor|]. destruct (pair_leb p q) eqn:E.
  - apply pair_leb_true in E. constructor; [now constructor|]. constructor; [exact E|]. eapply Forall_impl; [|exact F]. unfold fle in *. intros; lia.
  - apply pair_leb_false in E. constructor; [exact IH|]. apply Forall_forall. intros r Hr. apply (Permutation_in _ (insert_pair_perm p t)) in Hr. destruct Hr as [<-|Hr]; [exact E|]. rewrite Forall_forall in F. now apply F.
Qed.
Lemma sort_pairs_sorted l : StronglySorted fle (sort_pairs l).
Proof. induction l as [|p t IH]; cbn [sort_pairs]; [constructor|now apply insert_pair_sorted]. Qed.
Lemma sorted_slots (slot : nat * nat -> nat) (g : nat * nat -> nat * nat) l : (forall p q, In p l -> In q l -> fle p q -> slot (g p) <= slot (g q)) -> StronglySorted fle l -> forall prev, (forall p, In p l -> prev <= slot (g p)) -> slots_ascend slot prev (map g l).
Proof.
  intros M S. induction S as [|p t S IH F]; intros prev H; cbn [map slots_ascend]; [exact Logic.I|]. split; [apply H; now left|]. apply IH; [intros a b I J; apply M; now right|]. intros q I. apply M; [now left|now right|]. rewrite Forall_forall in F. now apply F.
Qed.

Definition below (l : list nat) (x : nat) : nat := length (filter (fun r => r <? x) l).
Lemma below_le l x y : x <= y -> below l x <= below l y.
Proof. intros L. unfold below. induction l as [|r t IH]; [reflexivity|]. cbn [filter]. destruct (Nat.ltb_spec r x), (Nat.ltb_spec r y); cbn [length]; lia. Qed.
Lemma below_app l l' x : below (l ++ l') x = below l x + below l' x.
Proof. unfold below. now rewrite filter_app, app_length. Qed.
Lemma below_perm l l' x : Permutation l l' -> below l x = below l' x.
Proof. intros P. unfold below. apply Permutation_length. now apply Permutation_filter'. Qed.
Lemma below_seq a m x : a <= x -> x <= a + m -> below (seq a m) x = x - a.
Proof.
  intros A B. unfold below. replace m with ((x - a) + (m - (x - a))) by lia. rewrite seq_app, filter_app, app_length. rewrite filter_all, seq_length; [|intros r I; apply in_seq in I; apply Nat.ltb_lt; lia].
  rewrite filter_none; [cbn; lia|]. intros r I. apply in_seq in I. apply Nat.ltb_ge. lia.
Qed.
Lemma filter_length_mono A (f g : A -> bool) l : (forall x, In x l -> f x = true -> g x = true) -> length (filter f l) <= length (filter g l).
Proof.
  induction l as [|x t IH]; intros H; [reflexivity|]. cbn [filter]. assert (IH' := IH (fun y I => H y (or_intror I))). specialize (H x (or_introl eq_refl)). destruct (f x); [rewrite H by reflexivity; cbn [length]; lia|]. destruct (g x); cbn [length]; lia.
Qed.

Section Order.
  Variable nc nd : nat.
  Let n := nc + nd.
  Variable ps : list (nat * nat).
  Hypothesis ND : NoDup (pair_legs ps).
  Hypothesis F : Forall (fun x => x < n) (pair_legs ps).
  Hypothesis LT : forall p, In p ps -> fst p < snd p.
  Let rem := filter (fun i => negb (contains (pair_legs ps) i)) (seq 0 n).
  Let slot (p : nat * nat) := below rem (fst p).
  Hypothesis SA : slots_ascend slot 0 ps.
  Let count := nc + length (filter (fun p => (fst p <? nc) && (nc <=? snd p)) ps).
  Let k := below rem nc.
  Let c := length (filter (fun p : nat * nat => fst p <? nc) ps).

  Lemma rem_perm : Permutation (rem ++ pair_legs ps) (seq 0 n).
  Proof.
    apply NoDup_Permutation.
    - apply NoDup_app_intro; [apply NoDup_filter, seq_NoDup|exact ND|]. intros x I J. apply filter_In in I. destruct I as [_ I]. apply negb_true_iff in I. apply contains_In in J. congruence.
    - apply seq_NoDup.
    - intros x. rewrite in_app_iff. unfold rem. rewrite filter_In. split.
      + intros [[I _]|I]; [exact I|]. rewrite Forall_forall in F. apply F in I. apply in_seq. lia.
      + intros I. destruct (contains (pair_legs ps) x) eqn:C; [right; now apply contains_In|left]. split; [exact I|now apply negb_true_iff].
  Qed.
  Lemma count_eq : count = k + 2 * c.
  Proof.
    assert (B := below_perm nc rem_perm). rewrite below_app, below_seq in B by (unfold n; lia). fold k in B. rewrite Nat.sub_0_r in B.
    assert (X : below (pair_legs ps) nc + length (filter (fun p => (fst p <? nc) && (nc <=? snd p)) ps) = 2 * c).
    { unfold c. clear -LT. induction ps as [|p t IH]; [reflexivity|]. cbn [pair_legs flat_map app]. fold (pair_legs t). unfold below in *. cbn [filter]. specialize (IH (fun q I => LT (or_intror I))). assert (L := LT (or_introl eq_refl)).
      destruct (Nat.ltb_spec (fst p) nc), (Nat.ltb_spec (snd p) nc), (Nat.leb_spec nc (snd p)); cbn [andb length]; lia. }
    unfold count. lia.
  Qed.
  Lemma insert_is_weave : insert_pairs rem 0 ps rem = weave slot 0 ps rem.
  Proof. apply (@insert_pairs_weave rem ps 0 0 [] rem); [reflexivity|reflexivity|exact SA]. Qed.
  Lemma prefix : firstn count (weave slot 0 ps rem) = weave slot 0 (firstn c ps) (firstn k rem) /\ c <= length ps.
  Proof.
    assert (KL : k <= length rem) by apply filter_length_le.
    destruct (@weave_cut slot 0 ps rem k c SA) as (j & J & E & Ec & _); [lia|exact KL| | |].
    - apply filter_length_mono. intros p _ H. apply Nat.ltb_lt in H. apply Nat.ltb_lt. destruct (Nat.lt_ge_cases (fst p) nc) as [|G]; [assumption|]. exfalso. assert (Q := below_le rem G). unfold slot, k in *. lia.
    - apply filter_length_mono. intros p _ H. apply Nat.ltb_lt in H. apply Nat.leb_le. apply below_le. lia.
    - rewrite <- Ec in J, E. rewrite count_eq. rewrite Nat.sub_0_r in E. now split.
  Qed.
  Lemma rem_below : firstn k rem = filter (fun i => negb (contains (pair_legs ps) i)) (seq 0 nc).
  Proof.
    unfold k, rem, n. rewrite seq_app, filter_app. set (f := fun i => negb (contains (pair_legs ps) i)). assert (E : below (filter f (seq 0 nc) ++ filter f (seq (0 + nc) nd)) nc = length (filter f (seq 0 nc))).
    { rewrite below_app. unfold below. rewrite (@filter_all _ _ (filter f (seq 0 nc))), (@filter_none _ _ (filter f (seq (0 + nc) nd))); [cbn; lia| |].
      - intros x I. apply filter_In in I. destruct I as [I _]. apply in_seq in I. apply Nat.ltb_ge. lia.
      - intros x I. apply filter_In in I. destruct I as [I _]. apply in_seq in I. apply Nat.ltb_lt. lia. }
    rewrite E. rewrite firstn_app, firstn_all, Nat.sub_diag. cbn [firstn]. apply app_nil_r.
  Qed.
  Lemma order_neighbours : neighbours nc nd ps (insert_pairs rem 0 ps rem) count.
  Proof.
    rewrite insert_is_weave. destruct prefix as [PF CL]. set (W := weave slot 0 ps rem) in *.
    assert (NF : forall p, In p ps -> negb (contains (pair_legs ps) (fst p)) = false /\ negb (contains (pair_legs ps) (snd p)) = false).
    { intros p I. rewrite !negb_false_iff, !contains_traced. split; exists p; auto. }
    assert (NF' : forall p, In p (firstn c ps) -> negb (contains (pair_legs ps) (fst p)) = false /\ negb (contains (pair_legs ps) (snd p)) = false).
    { intros p I. apply NF. rewrite <- (firstn_skipn c ps). apply in_or_app. now left. }
    assert (IDEM : forall l, filter (fun i => negb (contains (pair_legs ps) i)) (filter (fun i => negb (contains (pair_legs ps) i)) l) = filter (fun i => negb (contains (pair_legs ps) i)) l).
    { intros l. apply filter_all. intros x I. now apply filter_In in I. }
    split; [|split; [|split]].
    - unfold W. rewrite weave_perm. apply rem_perm.
    - intros p I. rewrite <- (firstn_skipn c ps) in I. apply in_app_or in I. assert (LC : length (firstn count W) <= count) by apply firstn_le_length. destruct I as [I|I].
      + destruct (weave_pair slot 0 (firstn k rem) I) as (i & A & B). rewrite <- PF in A, B. exists i. assert (LI : i + 1 < length (firstn count W)) by (apply nth_error_Some; congruence).
        rewrite <- (firstn_skipn count W). split; [left|lia]. rewrite !nth_error_app1 by lia. now split.
      + assert (I' : In p ps) by (rewrite <- (firstn_skipn c ps); apply in_or_app; now right). destruct (weave_pair slot 0 rem I') as (i & A & B). fold W in A, B. exists i. split; [now left|]. intros E.
        assert (LW : i + 1 < length W) by (apply nth_error_Some; congruence).
        assert (J : In (fst p) (firstn count W)). { apply nth_error_In with (n := i). rewrite <- A. rewrite <- (firstn_skipn count W) at 2. symmetry. apply nth_error_app1. rewrite firstn_length. lia. }
        rewrite PF in J. apply (Permutation_in _ (weave_perm slot 0 (firstn c ps) (firstn k rem))) in J. apply in_app_or in J. destruct J as [J|J].
        * assert (K : In (fst p) rem) by (rewrite <- (firstn_skipn k rem); apply in_or_app; now left). apply filter_In in K. destruct (NF p I') as [Z _]. rewrite Z in K. destruct K as [_ K]. discriminate.
        * assert (ND' : NoDup (pair_legs (firstn c ps) ++ pair_legs (skipn c ps))) by (rewrite <- pair_legs_app, firstn_skipn; exact ND).
          apply (@in_split _ (fst p)) in J. destruct J as (u & v & J). rewrite J in ND'. rewrite <- app_assoc in ND'. cbn [app] in ND'. apply NoDup_remove_2 in ND'. apply ND'. apply in_or_app. right. apply in_or_app. right. apply pair_legs_In. exists p. auto.
    - unfold W. rewrite weave_filter by exact NF. apply IDEM.
    - rewrite PF, weave_filter by exact NF'. rewrite rem_below. apply IDEM.
  Qed.
End Order.

Lemma ordered_traced pairs x : traced_leg (ordered_pairs pairs) x <-> traced_leg pairs x.
Proof.
  unfold ordered_pairs, traced_leg. assert (M : forall p, (x = pmin p \/ x = pmax p) <-> (x = fst p \/ x = snd p)) by (intros p; destruct (pmin_pmax p) as [_ [[-> ->]|[-> ->]]]; tauto). split.
  - intros (p & I & E). apply in_map_iff in I. destruct I as (q & <- & I). cbn [fst snd] in E. exists q. split; [apply (Permutation_in _ (sort_pairs_perm pairs) I)|now apply M].
  - intros (p & I & E). exists (pmin p, pmax p). split; [apply in_map_iff; exists p; split; [reflexivity|apply (Permutation_in _ (Permutation_sym (sort_pairs_perm pairs)) I)]|now apply M].
Qed.
Lemma pair_legs_perm ps qs : Permutation ps qs -> Permutation (pair_legs ps) (pair_legs qs).
Proof. intros P. unfold pair_legs. now apply Permutation_flat_map. Qed.
Lemma ordered_legs pairs : Permutation (pair_legs (ordered_pairs pairs)) (pair_legs pairs).
Proof.
  rewrite <- (pair_legs_perm (sort_pairs_perm pairs)). unfold ordered_pairs. induction (sort_pairs pairs) as [|p t IH]; [reflexivity|]. cbn [map pair_legs flat_map app fst snd]. fold (pair_legs t). fold (pair_legs (map (fun p => (pmin p, pmax p)) t)).
  destruct (pmin_pmax p) as [_ [[-> ->]|[-> ->]]]; rewrite IH; [reflexivity|apply perm_swap].
Qed.
Lemma fst_snd_contains ps x : contains (map fst ps ++ map snd ps) x = contains (pair_legs ps) x.
Proof.
  apply eq_true_iff_eq. rewrite contains_traced, contains_In, in_app_iff, !in_map_iff. unfold traced_leg. split.
  - intros [(p & <- & I)|(p & <- & I)]; exists p; auto.
  - intros (p & I & [->| ->]); [left|right]; exists p; auto.
Qed.
Lemma contains_ordered pairs x : contains (pair_legs (ordered_pairs pairs)) x = contains (pair_legs pairs) x.
Proof. apply eq_true_iff_eq. rewrite !contains_traced. apply ordered_traced. Qed.

Lemma trace_order_neighbours nc nd pairs : NoDup (pair_legs pairs) -> Forall (fun x => x < nc + nd) (pair_legs pairs) ->
  (forall p, In p pairs -> below (filter (fun i => negb (contains (pair_legs pairs) i)) (seq 0 (nc + nd))) (pmin p) = below (filter (fun i => negb (contains (pair_legs pairs) i)) (seq 0 (nc + nd))) (fst p)) ->
  neighbours nc nd pairs (fst (trace_order nc nd pairs)) (snd (trace_order nc nd pairs)).
Proof.
  intros ND F H. unfold trace_order. cbv zeta. cbn [fst snd]. assert (R : remaining (nc + nd) (ordered_pairs pairs) = filter (fun i => negb (contains (pair_legs (ordered_pairs pairs)) i)) (seq 0 (nc + nd))).
  { apply filter_ext. intros x. now rewrite fst_snd_contains. }
  rewrite R. assert (ND' : NoDup (pair_legs (ordered_pairs pairs))) by (eapply Permutation_NoDup; [symmetry; apply ordered_legs|exact ND]).
  assert (F' : Forall (fun x => x < nc + nd) (pair_legs (ordered_pairs pairs))) by (eapply Permutation_Forall; [symmetry; apply ordered_legs|exact F]).
  assert (FE : filter (fun i => negb (contains (pair_legs (ordered_pairs pairs)) i)) (seq 0 (nc + nd)) = filter (fun i => negb (contains (pair_legs pairs) i)) (seq 0 (nc + nd))) by (apply filter_ext; intros x; now rewrite contains_ordered).
  destruct (@order_neighbours nc nd (ordered_pairs pairs) ND' F') as (A & B & C & D).
  - intros p I. unfold ordered_pairs in I. apply in_map_iff in I. destruct I as (q & <- & I). apply (Permutation_in _ (sort_pairs_perm pairs)) in I. cbn [fst snd]. assert (X := distinct_legs ND I). destruct (pmin_pmax q) as [L [[E1 E2]|[E1 E2]]]; rewrite E1, E2 in *; lia.
  - rewrite FE. unfold ordered_pairs. apply sorted_slots; [|apply sort_pairs_sorted|intros; lia]. intros p q I J L. apply (Permutation_in _ (sort_pairs_perm pairs)) in I, J. cbn [fst]. rewrite (H p I), (H q J). now apply below_le.
  - split; [exact A|]. split; [|split].
    + intros p I. destruct (B (pmin p, pmax p)) as (i & X & Y).
      { unfold ordered_pairs. apply in_map_iff. exists p. split; [reflexivity|]. apply (Permutation_in _ (Permutation_sym (sort_pairs_perm pairs)) I). }
      exists i. split; [|exact Y]. cbn [fst snd] in X. destruct (pmin_pmax p) as [_ [[E1 E2]|[E1 E2]]]; rewrite E1, E2 in X; tauto.
    + etransitivity; [|etransitivity; [exact C|exact FE]]. apply filter_ext. intros x. now rewrite contains_ordered.
    + etransitivity; [|etransitivity; [exact D|]]; apply filter_ext; intros x; now rewrite contains_ordered.
Qed.
Lemma same_slot n pairs p : NoDup (pair_legs pairs) -> In p pairs -> fst p < snd p \/ (forall x, between p x -> traced_leg pairs x) ->
  below (filter (fun i => negb (contains (pair_legs pairs) i)) (seq 0 n)) (pmin p) = below (filter (fun i => negb (contains (pair_legs pairs) i)) (seq 0 n)) (fst p).
Proof.
  intros ND I [L|B]; [unfold pmin; destruct (Nat.ltb_spec (snd p) (fst p)); [lia|reflexivity]|]. unfold below. f_equal. apply filter_ext_in. intros x J. apply filter_In in J. destruct J as [_ J]. apply negb_true_iff in J.
  destruct (pmin_pmax p) as [_ [[-> _]|[E _]]]; [reflexivity|]. rewrite E. assert (NT : ~ traced_leg pairs x) by (rewrite <- contains_traced; congruence).
  assert (N1 : x <> fst p) by (intros ->; apply NT; exists p; auto). assert (N2 : x <> snd p) by (intros ->; apply NT; exists p; auto). assert (NB : ~ between p x) by (intros Z; apply NT; now apply B).
  unfold between in NB. destruct (Nat.ltb_spec x (snd p)), (Nat.ltb_spec x (fst p)); try reflexivity; exfalso; apply NB; lia.
Qed.
