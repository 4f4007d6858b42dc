(** C68, part 1: the word of adjacent transpositions. *)
From Coq Require Import ZArith List Bool Lia Permutation Sorted Arith.
From Verif Require Import Util GridModel GridProofs PermLegsSpec PermLegsProofs CPermModel CPermSpec.
Import ListNotations.
Open Scope nat_scope.
Set Implicit Arguments. Unset Strict Implicit.

Lemma NoDup_app_l A (a b : list A) : NoDup (a ++ b) -> NoDup a.
Proof. induction a as [|x a IH]; intros H; [constructor|]. inversion H; subst. constructor; [|now apply IH]. intros Q. apply H2. apply in_or_app. now left. Qed.
Lemma NoDup_app_r A (a b : list A) : NoDup (a ++ b) -> NoDup b.
Proof. induction a as [|x a IH]; intros H; [exact H|]. inversion H; subst. now apply IH. Qed.
Lemma crossings_log l w : crossings l w = log l w.
Proof. revert l. induction w as [|j w IH]; intros l; [reflexivity|]. cbn [crossings log]. now rewrite IH. Qed.
Lemma bubble_spec k : forall t w s, bubble k (t + k) w s = (do_swaps w (rev (seq t k)), s ++ rev (seq t k)).
Proof.
  induction k as [|k IH]; intros t w s; [cbn [bubble seq rev]; now rewrite app_nil_r|]. cbn [bubble]. rewrite seq_S, rev_app_distr. cbn [rev app].
  replace (t + S k - 1) with (t + k) by lia. rewrite IH. rewrite do_swaps_cons. f_equal. now rewrite <- app_assoc.
Qed.
Lemma find_seq f : forall n t, (forall i, i < n -> f (t + i) = false) -> f (t + n) = true -> forall m, n < m -> List.find f (seq t m) = Some (t + n).
Proof.
  induction n as [|n IH]; intros t F E m Hm; destruct m as [|m]; try lia; cbn [seq List.find].
  - rewrite Nat.add_0_r in E. rewrite E. f_equal; lia.
  - assert (Z : f t = false) by (rewrite <- (Nat.add_0_r t); apply F; lia). rewrite Z. rewrite (@IH (S t)); [f_equal; lia| |replace (S t + n) with (t + S n) by lia; exact E|lia].
    intros i Hi. replace (S t + i) with (t + S i) by lia. apply F. lia.
Qed.
Lemma find_cur_spec pre m v r n : NoDup (pre ++ m ++ v :: r) -> n = length (pre ++ m ++ v :: r) -> find_cur (pre ++ m ++ v :: r) v (length pre) n = length pre + length m.
Proof.
  intros ND ->. unfold find_cur. rewrite (@find_seq _ (length m) (length pre)); [reflexivity| | |].
  - intros i Hi. apply Nat.eqb_neq. intros E. rewrite app_nth2 in E by lia. replace (length pre + i - length pre) with i in E by lia. rewrite app_nth1 in E by lia.
    apply NoDup_app_r in ND. apply NoDup_remove_2 in ND. apply ND. apply in_or_app. left. rewrite <- E. now apply nth_In.
  - apply Nat.eqb_eq. rewrite app_nth2 by lia. replace (length pre + length m - length pre) with (length m) by lia. apply nth_middle.
  - rewrite !app_length. cbn [length]. lia.
Qed.
(** the loop: the first entries are final, the rest is sorted *)
Fixpoint rounds (t : nat) (rem p : list nat) : list nat :=
  match p with
  | [] => []
  | v :: p => let k := length (filter (fun y => y <? v) rem) in rev (seq t k) ++ rounds (S t) (filter (fun y => negb (y =? v)) rem) p
  end.
Lemma sorted_split v rem : StronglySorted lt rem -> In v rem -> exists m r, rem = m ++ v :: r /\ filter (fun y => y <? v) rem = m /\ filter (fun y => negb (y =? v)) rem = m ++ r /\ StronglySorted lt (m ++ r).
Proof.
  intros S0 H. apply in_split in H. destruct H as [m [r ->]]. exists m, r. split; [reflexivity|].
  assert (Hm : forall y, In y m -> y < v). { intros y Hy. apply (@before_sorted lt (m ++ v :: r)); [exact S0|]. apply before_app_lr; [exact Hy|now left]. }
  assert (Hr : forall y, In y r -> v < y). { intros y Hy. apply (@before_sorted lt (m ++ v :: r)); [exact S0|]. apply before_app_r. now apply before_hd. }
  split; [|split].
  - rewrite filter_app. cbn [filter]. rewrite Nat.ltb_irrefl. rewrite filter_all, filter_none, app_nil_r; [reflexivity| |].
    + intros y Hy. apply Nat.ltb_ge. specialize (Hr y Hy). lia.
    + intros y Hy. apply Nat.ltb_lt. now apply Hm.
  - rewrite filter_app. cbn [filter]. rewrite Nat.eqb_refl. cbn [negb]. rewrite !filter_all; [reflexivity| |].
    + intros y Hy. apply negb_true_iff, Nat.eqb_neq. specialize (Hr y Hy). lia.
    + intros y Hy. apply negb_true_iff, Nat.eqb_neq. specialize (Hm y Hy). lia.
  - clear Hm Hr. induction m as [|a m IH]; cbn [app] in *; inversion S0 as [|? ? S1 F]; subst; [exact S1|]. constructor; [now apply IH|]. apply Forall_app in F. destruct F as [F1 F2]. inversion F2; subst. now apply Forall_app.
Qed.
Lemma transpositions_loop_spec p : forall pre rem done swaps, StronglySorted lt rem -> Permutation rem p -> NoDup (pre ++ rem) -> length done = length pre ->
  transpositions_loop (seq (length pre) (length p)) (done ++ p) (pre ++ rem) swaps = swaps ++ rounds (length pre) rem p.
Proof.
  induction p as [|v p IH]; intros pre rem done swaps SS P ND Ld; [cbn; now rewrite app_nil_r|]. cbn [length seq transpositions_loop]. 
  assert (I0 : In v rem) by (apply (Permutation_in _ (Permutation_sym P)); now left).
  destruct (sorted_split SS I0) as [m [r [E [F1 [F2 S2]]]]]. cbn [rounds]. rewrite F1, F2. subst rem.
  replace (nth (length pre) (done ++ v :: p) 0) with v by (rewrite <- Ld, nth_middle; reflexivity).
  assert (Pm : Permutation (m ++ r) p). { apply Permutation_cons_inv with (a := v). rewrite <- P. apply Permutation_middle. }
  rewrite find_cur_spec; [|exact ND|rewrite !app_length; cbn [length]; apply Permutation_length in Pm; rewrite app_length in Pm; lia].
  replace (length pre + length m - length pre) with (length m) by lia. rewrite bubble_spec. rewrite do_swaps_down'.
  specialize (IH (pre ++ [v]) (m ++ r) (done ++ [v]) (swaps ++ rev (seq (length pre) (length m))) S2 Pm). rewrite <- !app_assoc in IH. cbn [app] in IH.
  rewrite !app_length in IH. cbn [length] in IH. rewrite !Nat.add_1_r in IH. rewrite IH; [reflexivity| |lia].
  apply Permutation_NoDup with (l := pre ++ m ++ v :: r); [|exact ND]. apply Permutation_app_head. symmetry. apply Permutation_middle.
Qed.
Lemma seq_sorted s n : StronglySorted lt (seq s n).
Proof. revert s. induction n as [|n IH]; intros s; constructor; [apply IH|]. apply Forall_forall. intros x H. apply in_seq in H. lia. Qed.
Lemma adjacent_rounds n p : is_perm n p -> adjacent_transpositions p = rounds 0 (seq 0 n) p.
Proof.
  intros H. unfold adjacent_transpositions. rewrite (is_perm_length H). assert (L := is_perm_length H). pose proof (@transpositions_loop_spec p [] (seq 0 n) [] [] (seq_sorted 0 n)) as Q. cbn [length app] in Q. rewrite L in Q.
  apply Q; [symmetry; exact H|apply seq_NoDup|reflexivity].
Qed.
(** consequences *)
Lemma rounds_spec p : forall pre rem, StronglySorted lt rem -> Permutation rem p ->
  do_swaps (pre ++ rem) (rounds (length pre) rem p) = pre ++ p /\ Forall (fun j => length pre <= j /\ S j < length pre + length rem) (rounds (length pre) rem p) /\
  length (rounds (length pre) rem p) = inversions p /\
  (forall a b, In (a, b) (log (pre ++ rem) (rounds (length pre) rem p)) -> a < b /\ before p b a) /\ (NoDup rem -> NoDup (log (pre ++ rem) (rounds (length pre) rem p))).
Proof.
  induction p as [|v p IH]; intros pre rem SS P.
  - apply Permutation_sym, Permutation_nil in P. subst rem. cbn [rounds]. split; [reflexivity|]. split; [constructor|]. split; [reflexivity|]. split; [intros a b []|intros; constructor].
  - assert (I0 : In v rem) by (apply (Permutation_in _ (Permutation_sym P)); now left).
    destruct (sorted_split SS I0) as [m [r [E [F1 [F2 S2]]]]]. cbn [rounds]. rewrite F1, F2.
    assert (Pm : Permutation (m ++ r) p). { subst rem. apply Permutation_cons_inv with (a := v). rewrite <- P. apply Permutation_middle. }
    destruct (IH (pre ++ [v]) (m ++ r) S2 Pm) as [D [L [N [G ND]]]]. rewrite app_length in D, L, N, G, ND. cbn [length] in D, L, N, G, ND. rewrite Nat.add_1_r in D, L, N, G, ND. rewrite <- app_assoc in D, G, ND. cbn [app] in D, G, ND.
    assert (Dd : do_swaps (pre ++ rem) (rev (seq (length pre) (length m))) = pre ++ v :: m ++ r) by (subst rem; apply do_swaps_down').
    assert (Ll : log (pre ++ rem) (rev (seq (length pre) (length m)) ++ rounds (S (length pre)) (m ++ r) p) = map (fun y => (y, v)) (rev m) ++ log (pre ++ v :: m ++ r) (rounds (S (length pre)) (m ++ r) p)).
    { rewrite log_app, Dd. f_equal. subst rem. apply log_down. }
    assert (Hm : forall y, In y m -> y < v). { intros y Hy. rewrite <- F1 in Hy. apply filter_In in Hy. now apply Nat.ltb_lt. }
    split; [|split; [|split; [|split]]].
    + rewrite do_swaps_app, Dd, D. rewrite <- app_assoc. reflexivity.
    + subst rem. rewrite app_length. cbn [length]. apply Forall_app. split.
      * apply Forall_forall. intros x Hx. apply in_rev, in_seq in Hx. lia.
      * apply (Forall_impl _ (P := fun j => S (length pre) <= j /\ S j < S (length pre) + length (m ++ r))); [|exact L]. intros j. rewrite app_length. lia.
    + rewrite app_length, rev_length, seq_length, N. cbn [inversions]. f_equal. rewrite <- F1. apply Permutation_length.
      transitivity (filter (fun y => y <? v) (v :: p)); [apply Permutation_filter'; exact P|]. cbn [filter]. rewrite Nat.ltb_irrefl. reflexivity.
    + rewrite Ll. intros a b H. apply in_app_or in H. destruct H as [H|H].
      * apply in_map_iff in H. destruct H as [y [H Hy]]. injection H as <- <-. apply in_rev in Hy. split; [now apply Hm|]. apply before_hd. apply (Permutation_in _ Pm). apply in_or_app. now left.
      * destruct (G a b H) as [H1 H2]. split; [exact H1|]. now apply before_cons.
    + intros NR. rewrite Ll. assert (NM : NoDup (m ++ v :: r)) by (now rewrite <- E). assert (NMr : NoDup (m ++ r)) by (now apply NoDup_remove_1 in NM). apply NoDup_app_intro.
      * apply NoDup_map_inj; [intros x y _ _ Q; now injection Q|]. apply NoDup_rev. apply NoDup_app_l in NMr. exact NMr.
      * now apply ND.
      * intros [a b] H1 H2. apply in_map_iff in H1. destruct H1 as [y [H1 Hy]]. injection H1 as <- <-. destruct (G _ _ H2) as [_ Hb]. apply before_In in Hb. destruct Hb as [Hb _].
        apply (Permutation_in _ (Permutation_sym Pm)) in Hb. apply NoDup_remove_2 in NM. now apply NM.
Qed.
(** minimality: a swap changes the number of inversions by at most one *)
Lemma inversions_swap j : forall l, inversions (swap_at j l) <= S (inversions l).
Proof.
  induction j as [|j IH]; intros l; destruct l as [|x l]; cbn [swap_at]; try (cbn; lia).
  - destruct l as [|y l]; [cbn; lia|]. cbn [inversions filter]. destruct (x <? y), (y <? x); cbn [length]; lia.
  - cbn [inversions]. specialize (IH l). assert (Q : length (filter (fun y => y <? x) (swap_at j l)) = length (filter (fun y => y <? x) l)) by (apply Permutation_length, Permutation_filter', swap_at_perm). lia.
Qed.
Lemma inversions_swaps w : forall l, inversions (do_swaps l w) <= length w + inversions l.
Proof. induction w as [|j w IH]; intros l; [cbn; lia|]. rewrite do_swaps_cons. cbn [length]. specialize (IH (swap_at j l)). assert (Q := inversions_swap j l). lia. Qed.
Lemma inversions_sorted l : StronglySorted lt l -> inversions l = 0.
Proof.
  induction 1 as [|x l _ IH F]; [reflexivity|]. cbn [inversions]. rewrite IH, filter_none; [reflexivity|]. intros y Hy. rewrite Forall_forall in F. apply Nat.ltb_ge. specialize (F y Hy). lia.
Qed.
