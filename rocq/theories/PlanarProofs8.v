(** C69, part 8: bipartitions of the circle of legs. *)
From Coq Require Import ZArith List Bool Lia Permutation Sorted.
From Verif Require Import Util GridModel PermLegsModel PermLegsSpec PermLegsProps PlanarModel PlanarSpec PlanarProofs1 PlanarProofs2 PlanarProofs3 PlanarProofs4 PlanarProofs5 PlanarProofs7.
Import ListNotations.
Set Implicit Arguments. Unset Strict Implicit.
Open Scope nat_scope.

Lemma insert_sorted_perm x l : Permutation (insert_sorted x l) (x :: l).
Proof. induction l as [|y t IH]; cbn [insert_sorted]; [reflexivity|]. destruct (x <=? y); [reflexivity|]. rewrite IH. apply perm_swap. Qed.
Lemma sorted_permutation l : Permutation (sorted l) l.
Proof. induction l as [|x t IH]; cbn [sorted]; [reflexivity|]. rewrite insert_sorted_perm. now rewrite IH. Qed.
Lemma insert_sorted_le x l : StronglySorted le l -> StronglySorted le (insert_sorted x l).
Proof.
  induction 1 as [|y t S IH F]; cbn [insert_sorted]; [repeat constructor|]. destruct (Nat.leb_spec x y).
  - constructor; [now constructor|]. constructor; [exact H|]. eapply Forall_impl; [|exact F]. intros; lia.
  - constructor; [exact IH|]. apply Forall_forall. intros z Hz. apply (Permutation_in _ (insert_sorted_perm x t)) in Hz. destruct Hz as [<-|Hz]; [lia|]. rewrite Forall_forall in F. now apply F.
Qed.
Lemma sorted_le l : StronglySorted le (sorted l).
Proof. induction l as [|x t IH]; cbn [sorted]; [constructor|now apply insert_sorted_le]. Qed.
Lemma le_sorted_lt l : NoDup l -> StronglySorted le l -> StronglySorted lt l.
Proof.
  induction l as [|x t IH]; intros N S; [constructor|]. inversion N as [|? ? NI N']; subst. inversion S as [|? ? S' F]; subst. constructor; [now apply IH|]. rewrite Forall_forall in *. intros y Hy. specialize (F y Hy). assert (x <> y) by (intros ->; easy). lia.
Qed.
Lemma lt_sorted_eq l l' : StronglySorted lt l -> StronglySorted lt l' -> Permutation l l' -> l = l'.
Proof. intros A B P. apply (@StronglySorted_unique nat lt); [intros; lia|intros; lia|exact A|exact B|]. intros x. split; apply Permutation_in; [exact P|now symmetry]. Qed.
Lemma seq_lt a m : StronglySorted lt (seq a m).
Proof. revert a. induction m as [|m IH]; intros a; cbn [seq]; constructor; [apply IH|]. apply Forall_forall. intros x I. apply in_seq in I. lia. Qed.

Lemma steps_seq l : (forall i, i + 1 < length l -> nth (i + 1) l 0 = nth i l 0 + 1) -> l = seq (hd 0 l) (length l).
Proof.
  induction l as [|x t IH]; intros H; [reflexivity|]. cbn [hd length seq]. f_equal. destruct t as [|y t]; [reflexivity|].
  assert (E := H 0 ltac:(cbn [length]; lia)). cbn [nth plus] in E. transitivity (seq (hd 0 (y :: t)) (length (y :: t))); [apply IH|cbn [hd]; f_equal; lia]. intros i Hi. apply (H (Datatypes.S i)). cbn [length] in *. lia.
Qed.
Definition jumps (l : list nat) : list nat := filter (fun i => negb (nth (i + 1) l 0 =? nth i l 0 + 1)) (seq 0 (length l - 1)).
Lemma jumps_nil l : jumps l = [] -> l = seq (hd 0 l) (length l).
Proof.
  intros J. apply steps_seq. intros i Hi. destruct (Nat.eqb_spec (nth (i + 1) l 0) (nth i l 0 + 1)) as [E|E]; [exact E|]. exfalso.
  assert (I : In i (jumps l)). { apply filter_In. split; [apply in_seq; lia|]. apply negb_true_iff. now apply Nat.eqb_neq. } rewrite J in I. destruct I.
Qed.
Lemma hd_skipn A (d : A) j l : hd d (skipn j l) = nth j l d.
Proof. revert l. induction j as [|j IH]; intros [|x l]; cbn; auto. Qed.
Lemma jumps_one l j : jumps l = [j] -> j + 1 < length l /\ l = seq (hd 0 l) (j + 1) ++ seq (nth (j + 1) l 0) (length l - (j + 1)) /\ nth (j + 1) l 0 <> nth j l 0 + 1.
Proof.
  intros J. assert (Ij : In j (jumps l)) by (rewrite J; now left). apply filter_In in Ij. destruct Ij as [Ij Nj]. apply in_seq in Ij. apply negb_true_iff, Nat.eqb_neq in Nj.
  assert (H : forall i, i + 1 < length l -> i <> j -> nth (i + 1) l 0 = nth i l 0 + 1).
  { intros i Hi NE. destruct (Nat.eqb_spec (nth (i + 1) l 0) (nth i l 0 + 1)) as [E|E]; [exact E|]. exfalso.
    assert (I : In i (jumps l)). { apply filter_In. split; [apply in_seq; lia|]. apply negb_true_iff. now apply Nat.eqb_neq. } rewrite J in I. destruct I as [I|[]]. congruence. }
  split; [lia|]. split; [|exact Nj]. rewrite <- (firstn_skipn (j + 1) l) at 1. f_equal.
  - assert (LF : length (firstn (j + 1) l) = j + 1) by (rewrite firstn_length; lia). rewrite <- LF at 2. assert (HF : hd 0 (firstn (j + 1) l) = hd 0 l) by (rewrite Nat.add_1_r; clear; destruct l; reflexivity). rewrite <- HF.
    apply steps_seq. intros i Hi. rewrite LF in Hi. rewrite !nth_firstn_lt by lia. apply H; lia.
  - assert (LS : length (skipn (j + 1) l) = length l - (j + 1)) by apply skipn_length. rewrite <- LS. replace (nth (j + 1) l 0) with (hd 0 (skipn (j + 1) l)) by (rewrite hd_skipn; reflexivity).
    apply steps_seq. intros i Hi. rewrite LS in Hi. rewrite !nth_skipn'. rewrite !Nat.add_assoc. apply H; lia.
Qed.
Lemma jumps_seq a m : jumps (seq a m) = [].
Proof. apply filter_none. intros i I. apply in_seq in I. rewrite seq_length in I. rewrite !seq_nth by lia. apply negb_false_iff, Nat.eqb_eq. lia. Qed.
Lemma jumps_two b k m : 0 < b -> b < k -> 0 < m -> jumps (seq 0 b ++ seq k m) = [b - 1].
Proof.
  intros B K M. unfold jumps. rewrite app_length, !seq_length. replace (b + m - 1) with ((b - 1) + (1 + (m - 1))) by lia. rewrite !seq_app, !filter_app. cbn [plus seq].
  rewrite filter_none, (@filter_none _ _ (seq (b - 1 + 1) _)).
  - cbn [app]. rewrite app_nil_r. cbn [filter]. replace (b - 1 + 1) with b by lia. rewrite app_nth2 by (rewrite seq_length; lia). rewrite seq_length, Nat.sub_diag. rewrite app_nth1 by (rewrite seq_length; lia). rewrite !seq_nth by lia. cbn [plus].
    destruct (Nat.eqb_spec (k + 0) (b - 1 + 1)); [lia|reflexivity].
  - intros i I. apply in_seq in I. rewrite !app_nth2 by (rewrite seq_length; lia). rewrite !seq_length, !seq_nth by lia. apply negb_false_iff, Nat.eqb_eq. lia.
  - intros i I. apply in_seq in I. rewrite !app_nth1 by (rewrite seq_length; lia). rewrite !seq_nth by lia. apply negb_false_iff, Nat.eqb_eq. lia.
Qed.

Lemma bipartition_unfold legs n : legs <> [] -> length legs <> n -> NoDup legs -> Forall (fun i => i < n) legs -> parse_leg_bipartition legs n =
  let l := sorted legs in
  match jumps l with
  | [] => Some (l, range (last l 0 + 1) n ++ range 0 (hd 0 l))
  | [j] => if (hd 0 l =? 0) && (last l 0 =? n - 1) then Some (range (nth (j + 1) l 0) n ++ range 0 (nth j l 0 + 1), range (nth j l 0 + 1) (nth (j + 1) l 0)) else None
  | _ => None
  end.
Proof.
  intros NE L ND F. unfold parse_leg_bipartition. rewrite (proj2 (has_dup_NoDup legs) ND). cbn [orb].
  replace (existsb (fun l => n <=? l) legs) with false.
  - destruct legs as [|x t]; [easy|]. destruct (Nat.eqb_spec (length (x :: t)) n); [easy|]. reflexivity.
  - symmetry. apply not_true_iff_false. intros E. apply existsb_exists in E. destruct E as (x & I & E). rewrite Forall_forall in F. apply F in I. apply Nat.leb_le in E. lia.
Qed.
Lemma bipartition_legs legs n r : parse_leg_bipartition legs n = Some r -> NoDup legs /\ Forall (fun i => i < n) legs.
Proof.
  unfold parse_leg_bipartition. destruct (has_dup legs) eqn:E1; [discriminate|]. destruct (existsb _ legs) eqn:E2; [discriminate|]. intros _. split; [now apply has_dup_NoDup|]. apply Forall_forall. intros x I. apply Nat.nle_gt. intros L.
  apply not_true_iff_false in E2. apply E2. apply existsb_exists. exists x. split; [exact I|]. now apply Nat.leb_le.
Qed.
Lemma full_perm legs n : NoDup legs -> Forall (fun i => i < n) legs -> length legs = n -> Permutation (seq 0 n) legs.
Proof.
  intros ND F L. symmetry. apply NoDup_Permutation_bis; [exact ND|rewrite seq_length; lia|]. intros x I. rewrite Forall_forall in F. apply in_seq. specialize (F x I). lia.
Qed.

Lemma bipartition_sound legs n c o : parse_leg_bipartition legs n = Some (c, o) ->
  NoDup legs /\ Forall (fun i => i < n) legs /\ Permutation c legs /\ exists k, k <= n /\ c ++ o = rotation k (seq 0 n).
Proof.
  intros E. destruct (bipartition_legs E) as [ND F]. split; [exact ND|]. split; [exact F|].
  destruct (list_eq_dec Nat.eq_dec legs []) as [->|NE].
  { cbn in E. injection E as <- <-. split; [constructor|]. exists 0. split; [lia|]. unfold rotation, range. cbn [skipn firstn app]. rewrite ?app_nil_r, ?Nat.sub_0_r. reflexivity. }
  destruct (Nat.eq_dec (length legs) n) as [L|L].
  { unfold parse_leg_bipartition in E. destruct (_ || _); [discriminate|]. destruct legs as [|x t]; [easy|]. rewrite (proj2 (Nat.eqb_eq _ _) L) in E. injection E as <- <-.
    unfold range. rewrite Nat.sub_0_r. split; [now apply full_perm|]. exists 0. split; [lia|]. unfold rotation. cbn. reflexivity. }
  rewrite (bipartition_unfold NE L ND F) in E. cbv zeta in E. assert (P := sorted_permutation legs). set (l := sorted legs) in *.
  assert (LL := Permutation_length P). assert (FL : Forall (fun i => i < n) l) by (eapply Permutation_Forall; [symmetry; exact P|exact F]).
  assert (PL : 0 < length legs) by (destruct legs; [easy|cbn; lia]).
  destruct (jumps l) as [|j [|]] eqn:J; [| |discriminate].
  - injection E as <- <-. split; [exact P|]. apply jumps_nil in J. set (a := hd 0 l) in *. assert (A : a + length l <= n).
    { rewrite Forall_forall in FL. assert (I : In (a + length l - 1) (seq a (length l))) by (apply in_seq; lia). rewrite <- J in I. apply FL in I. lia. }
    exists a. split; [lia|]. rewrite rotation_seq by lia. assert (LAST : last l 0 = a + length l - 1) by (rewrite J; rewrite last_seq by lia; rewrite seq_length; reflexivity). rewrite LAST. unfold range. rewrite Nat.sub_0_r, app_assoc. f_equal. rewrite J at 1.
    replace (n - a) with (length l + (n - (a + length l - 1 + 1))) by lia. rewrite seq_app. do 2 f_equal. lia.
  - destruct (jumps_one J) as (J1 & J2 & J3). destruct (Nat.eqb_spec (hd 0 l) 0) as [H0|H0]; [|discriminate]. destruct (Nat.eqb_spec (last l 0) (n - 1)) as [H1|H1]; [|discriminate]. cbn [andb] in E. injection E as <- <-.
    rewrite H0 in J2. set (m := length l - (j + 1)) in *. set (f := nth (j + 1) l 0) in *.
    assert (NJ : nth j l 0 = j). { rewrite J2, app_nth1 by (rewrite seq_length; lia). rewrite seq_nth by lia. reflexivity. }
    assert (LF : f + m = n).
    { assert (X := f_equal (fun l => last l 0) J2). cbv beta in X. rewrite H1 in X. assert (M : seq f m = seq f (m - 1) ++ [f + (m - 1)]) by (replace m with ((m - 1) + 1) at 1 by lia; apply seq_app). rewrite M, app_assoc, last_last in X.
      assert (In f l) by (unfold f; apply nth_In; lia). rewrite Forall_forall in FL. apply FL in H. lia. }
    rewrite NJ in *. assert (SO : StronglySorted lt l) by (apply le_sorted_lt; [eapply Permutation_NoDup; [symmetry; exact P|exact ND]|apply sorted_le]).
    assert (JF : j < f). { rewrite J2 in SO. apply StronglySorted_app in SO. destruct SO as (_ & _ & SO). apply SO; apply in_seq; lia. }
    unfold range. rewrite Nat.sub_0_r. replace (n - f) with m by lia. split.
    + rewrite <- P. rewrite J2. apply Permutation_app_comm.
    + exists f. split; [lia|]. rewrite rotation_seq by lia. replace (n - f) with m by lia. rewrite <- app_assoc. f_equal. assert (SF := seq_app (j + 1) (f - (j + 1)) 0). replace (j + 1 + (f - (j + 1))) with f in SF by lia. symmetry. exact SF.
Qed.
Lemma bipartition_complete legs n c o k : NoDup legs -> Forall (fun i => i < n) legs -> Permutation c legs -> k <= n -> c ++ o = rotation k (seq 0 n) -> c <> [] -> o <> [] ->
  parse_leg_bipartition legs n = Some (c, o).
Proof.
  intros ND F P K E NC NO. assert (PL : planar n c (rev o)) by (exists k; split; [exact K|now rewrite rev_involutive]).
  assert (N : 0 < n). { destruct n; [|lia]. cbn in E. replace k with 0 in E by lia. cbn in E. now apply app_eq_nil in E. }
  destruct (planar_cut N PL) as (k' & Hk & Hc & CUT). clear k K E PL. rename k' into k. rewrite rev_involutive in CUT. assert (LC : 0 < length c) by (destruct c; [easy|cbn; lia]).
  assert (LO : length c < n).
  { destruct (Nat.eq_dec (length c) n) as [X|X]; [|lia]. exfalso. apply NO. apply length_zero_iff_nil. destruct CUT as [(H1 & _ & ->)|(H1 & _ & ->)]; rewrite ?app_length, !seq_length; lia. }
  assert (LL := Permutation_length P). rewrite bipartition_unfold; try assumption; [|intros ->; cbn in LL; lia|lia]. cbv zeta.
  assert (SO : StronglySorted lt (sorted legs)). { apply le_sorted_lt; [|apply sorted_le]. eapply Permutation_NoDup; [symmetry; apply sorted_permutation|exact ND]. }
  assert (SP : Permutation (sorted legs) c) by (rewrite sorted_permutation; now symmetry).
  destruct CUT as [(H1 & C & O)|(H1 & C & O)].
  - assert (S1 : sorted legs = c). { apply lt_sorted_eq; [exact SO|rewrite C; apply seq_lt|exact SP]. }
    rewrite S1. set (m := length c) in *. rewrite O, C. rewrite jumps_seq, last_seq, hd_seq by lia. unfold range. do 2 f_equal. rewrite Nat.sub_0_r. f_equal. f_equal; lia.
  - set (b := k + length c - n) in *. assert (B1 : 0 < b) by lia. assert (B2 : b < k) by lia.
    assert (S1 : sorted legs = seq 0 b ++ seq k (n - k)).
    { apply lt_sorted_eq; [exact SO| |rewrite SP, C; apply Permutation_app_comm]. apply StronglySorted_app. split; [apply seq_lt|]. split; [apply seq_lt|]. intros x y I J. apply in_seq in I, J. lia. }
    rewrite S1, jumps_two by lia. assert (M : seq k (n - k) = seq k (n - k - 1) ++ [k + (n - k - 1)]) by (replace (n - k) with ((n - k - 1) + 1) at 1 by lia; apply seq_app).
    replace (last (seq 0 b ++ seq k (n - k)) 0) with (n - 1); [|rewrite M, app_assoc, last_last; lia].
    replace (hd 0 (seq 0 b ++ seq k (n - k))) with 0; [|destruct b; [lia|reflexivity]]. rewrite !Nat.eqb_refl. cbn [andb].
    replace (b - 1 + 1) with b by lia. rewrite (app_nth2 _ _ _ (n := b)) by (rewrite seq_length; lia). rewrite seq_length, Nat.sub_diag, seq_nth by lia.
    rewrite app_nth1 by (rewrite seq_length; lia). rewrite seq_nth by lia. rewrite Nat.add_0_r. cbn [plus].
    assert (X1 : range k n ++ range 0 (b - 1 + 1) = c) by (etransitivity; [|symmetry; exact C]; unfold range; f_equal; f_equal; lia).
    assert (X2 : range (b - 1 + 1) k = o) by (etransitivity; [|symmetry; exact O]; unfold range; f_equal; lia). now rewrite X1, X2.
Qed.
