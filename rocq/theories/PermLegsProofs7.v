(** C22, part 7: leg pipes. *)
From Coq Require Import ZArith List Bool Lia Permutation Sorted.
From Verif Require Import Util StableSort RowModel RowProofs GridModel GridProofs PermLegsModel PermLegsSpec PermLegsProofs PermLegsProofs2 PermLegsProofs3 PermLegsProofs4 PermLegsProofs5 PermLegsProofs6.
Import ListNotations.
Set Implicit Arguments. Unset Strict Implicit.
Open Scope nat_scope.

Definition grp (pipes : list nat) (i : nat) : list nat := nth i (flat_groups pipes 0) [].
Lemma flat_groups_length pipes : forall s, length (flat_groups pipes s) = length pipes.
Proof. induction pipes as [|p t IH]; intros s; cbn [flat_groups length]; [reflexivity|]. now rewrite IH. Qed.
Lemma flat_groups_nth pipes : forall s i, i < length pipes -> nth i (flat_groups pipes s) [] = seq (s + nsum (firstn i pipes)) (nth i pipes 0).
Proof.
  induction pipes as [|p t IH]; intros s i Hi; cbn [length] in Hi; [lia|]. destruct i as [|i]; cbn [flat_groups nth firstn nsum fold_right].
  - f_equal. lia.
  - rewrite IH by lia. f_equal. unfold nsum. lia.
Qed.
Lemma grp_seq pipes i : i < length pipes -> grp pipes i = seq (nsum (firstn i pipes)) (nth i pipes 0).
Proof. intros Hi. unfold grp. rewrite flat_groups_nth by exact Hi. reflexivity. Qed.
Lemma In_grp pipes x i : In x (grp pipes i) <-> part_of pipes x i.
Proof.
  unfold part_of. destruct (Nat.lt_ge_cases i (length pipes)) as [Hi|Hi].
  - rewrite grp_seq by exact Hi. rewrite in_seq. tauto.
  - unfold grp. rewrite nth_overflow by (rewrite flat_groups_length; exact Hi). cbn [In]. lia.
Qed.
Lemma nsum_firstn_S pipes i : i < length pipes -> nsum (firstn (S i) pipes) = nsum (firstn i pipes) + nth i pipes 0.
Proof. intros Hi. rewrite (firstn_S_nth 0) by exact Hi. rewrite nsum_app. cbn [nsum fold_right]. lia. Qed.
Lemma nsum_firstn_mono pipes i j : i <= j -> nsum (firstn i pipes) <= nsum (firstn j pipes).
Proof.
  intros Hij. replace (firstn i pipes) with (firstn i (firstn j pipes)) by (rewrite firstn_firstn; f_equal; lia).
  rewrite <- (firstn_skipn i (firstn j pipes)) at 2. rewrite nsum_app. lia.
Qed.
Lemma part_lt pipes x y i j : part_of pipes x i -> part_of pipes y j -> i < j -> x < y.
Proof.
  intros [Hi Hx] [Hj Hy] Hij. pose proof (nsum_firstn_S Hi). pose proof (@nsum_firstn_mono pipes (S i) j). lia.
Qed.
Lemma part_unique pipes x i j : part_of pipes x i -> part_of pipes x j -> i = j.
Proof. intros H1 H2. destruct (Nat.lt_trichotomy i j) as [H|[H|H]]; [pose proof (part_lt H1 H2 H); lia|exact H|pose proof (part_lt H2 H1 H); lia]. Qed.
Lemma flat_seq pipes n : forall s, s + n <= length pipes -> flat_map (grp pipes) (seq s n) = seq (nsum (firstn s pipes)) (nsum (firstn (s + n) pipes) - nsum (firstn s pipes)).
Proof.
  induction n as [|n IH]; intros s Hs.
  - rewrite Nat.add_0_r, Nat.sub_diag. reflexivity.
  - cbn [seq flat_map]. rewrite IH by lia. rewrite grp_seq by lia. rewrite nsum_firstn_S by lia.
    replace (S s + n) with (s + S n) by lia. pose proof (@nsum_firstn_mono pipes (S s) (s + S n)). rewrite nsum_firstn_S in H by lia.
    rewrite <- seq_app. f_equal. lia.
Qed.
Lemma part_exists pipes x : x < nsum pipes -> exists i, part_of pipes x i.
Proof.
  intros Hx. assert (I : In x (flat_map (grp pipes) (seq 0 (length pipes)))).
  { rewrite flat_seq by lia. cbn [plus firstn]. rewrite firstn_all. change (nsum []) with 0. apply in_seq. lia. }
  apply in_flat_map in I. destruct I as [i [_ I]]. exists i. now apply In_grp.
Qed.

Lemma filter_flat (g : nat -> list nat) f f' l : (forall i a, In i l -> In a (g i) -> f' a = f i) -> filter f' (flat_map g l) = flat_map g (filter f l).
Proof.
  induction l as [|i l IH]; intros E; [reflexivity|]. cbn [flat_map filter]. rewrite filter_app. rewrite IH by (intros j a Hj; apply E; now right).
  destruct (f i) eqn:Ef.
  - cbn [flat_map]. f_equal. apply filter_all. intros a Ha. rewrite (E i a) by (auto; now left). exact Ef.
  - rewrite filter_none; [reflexivity|]. intros a Ha. rewrite (E i a) by (auto; now left). exact Ef.
Qed.
Lemma rev_flat_rev (g : nat -> list nat) l : rev (flat_map (fun i => rev (g i)) l) = flat_map g (rev l).
Proof.
  induction l as [|i l IH]; [reflexivity|]. cbn [flat_map rev]. rewrite rev_app_distr, rev_involutive, IH. rewrite flat_map_app. cbn [flat_map]. now rewrite app_nil_r.
Qed.
Lemma flat_values_nth A (d : A) pipes : forall v x i, length v = length pipes -> part_of pipes x i -> nth x (flat_values pipes v) d = nth i v d.
Proof.
  unfold part_of, flat_values. induction pipes as [|p t IH]; intros v x i L [Hi Hx]; cbn [length] in *; [lia|]. destruct v as [|y v]; [discriminate|]. cbn [combine flat_map fst snd].
  destruct i as [|i]; cbn [firstn nsum fold_right nth] in *.
  - rewrite app_nth1 by (rewrite repeat_length; lia). apply nth_repeat_lt. lia.
  - fold (nsum (firstn i t)) in Hx. rewrite app_nth2 by (rewrite repeat_length; lia). rewrite repeat_length. apply IH; [cbn [length] in L; lia|]. split; lia.
Qed.
Lemma flat_values_length A pipes : forall v : list A, length v = length pipes -> length (flat_values pipes v) = nsum pipes.
Proof.
  unfold flat_values. induction pipes as [|p t IH]; intros v L; [reflexivity|]. destruct v as [|y v]; [discriminate|]. cbn [combine flat_map fst snd nsum fold_right].
  rewrite app_length, repeat_length. f_equal. apply IH. cbn [length] in L. lia.
Qed.

Lemma before_flat pipes l a b i j : NoDup l -> part_of pipes a i -> part_of pipes b j -> before (flat_map (grp pipes) l) a b -> before l i j \/ (i = j /\ a < b).
Proof.
  intros ND Pa Pb. induction l as [|k l IH]; intros H.
  - destruct H as [l1 [l2 [l3 E]]]. destruct l1; discriminate.
  - inversion ND as [|? ? N1 N2]; subst. cbn [flat_map] in H. apply before_inv in H. destruct H as [H|[[Ha Hb]|H]].
    + right. destruct (before_In H) as [Ha Hb]. apply In_grp in Ha, Hb. assert (i = k) by exact (part_unique Pa Ha). assert (j = k) by exact (part_unique Pb Hb). subst. split; [reflexivity|].
      rewrite grp_seq in H by apply Ha. apply before_seq in H. lia.
    + left. apply In_grp in Ha. assert (i = k) by exact (part_unique Pa Ha). subst. apply in_flat_map in Hb. destruct Hb as [j' [Hj Hb]]. apply In_grp in Hb. rewrite (part_unique Pb Hb). now apply before_hd.
    + destruct (IH N2 H) as [X|X]; [left; now apply before_cons|now right].
Qed.
Lemma flat_before pipes l a b i j : part_of pipes a i -> part_of pipes b j -> before l i j -> before (flat_map (grp pipes) l) a b.
Proof.
  intros Pa Pb [l1 [l2 [l3 ->]]]. rewrite !flat_map_app. cbn [flat_map]. rewrite flat_map_app. cbn [flat_map]. apply before_app_r. apply before_app_lr.
  - now apply In_grp.
  - apply in_or_app. right. apply in_or_app. left. now apply In_grp.
Qed.
Lemma inverted_flat pipes l l' a b i j : NoDup l -> NoDup l' -> part_of pipes a i -> part_of pipes b j ->
  inverted (flat_map (grp pipes) l) (flat_map (grp pipes) l') a b <-> inverted l l' i j.
Proof.
  intros ND ND' Pa Pb. split.
  - intros [H1 H2]. apply (before_flat ND Pa Pb) in H1. apply (before_flat ND' Pb Pa) in H2. destruct H1 as [H1|[E1 H1]].
    + destruct H2 as [H2|[E2 H2]]; [now split|]. exfalso. subst. exact (before_asym ND H1 H1).
    + destruct H2 as [H2|[_ H2]]; [|lia]. exfalso. subst. exact (before_asym ND' H2 H2).
  - intros [H1 H2]. split; [exact (flat_before Pa Pb H1)|exact (flat_before Pb Pa H2)].
Qed.

Section Flat.
  Variable pipes : list nat.
  Variable r : request.
  Hypothesis V : valid_request r.
  Hypothesis LP : length pipes = r_nc r + r_nd r.
  Notation r' := (flat_request pipes r).
  Notation g := (grp pipes).
  Notation nc := (r_nc r).
  Notation nd := (r_nd r).

  Lemma off_nc : nsum (firstn nc pipes) + nsum (skipn nc pipes) = nsum pipes.
  Proof. rewrite <- nsum_app. now rewrite firstn_skipn. Qed.
  Lemma flat_seq_cod : seq 0 (r_nc r') = flat_map g (seq 0 nc).
  Proof. rewrite flat_seq by lia. cbn [r_nc flat_request plus firstn]. change (nsum []) with 0. f_equal. lia. Qed.
  Lemma flat_seq_dom : seq (r_nc r') (r_nd r') = flat_map g (seq nc nd).
  Proof. rewrite flat_seq by lia. cbn [r_nc r_nd flat_request]. rewrite <- LP, firstn_all. f_equal. pose proof off_nc. lia. Qed.
  Lemma flat_seq_all : seq 0 (r_nc r' + r_nd r') = flat_map g (seq 0 (nc + nd)).
  Proof. rewrite !seq_app, flat_map_app, !Nat.add_0_l. now rewrite flat_seq_cod, flat_seq_dom. Qed.
  Lemma flat_N : r_nc r' + r_nd r' = nsum pipes. Proof. exact off_nc. Qed.
  Lemma flat_T : r_cod r' ++ rev (r_dom r') = flat_map g (r_cod r ++ rev (r_dom r)).
  Proof. cbn [r_cod r_dom flat_request]. rewrite flat_map_app. f_equal. apply rev_flat_rev. Qed.
  Lemma perm_flat l l' : Permutation l l' -> Permutation (flat_map g l) (flat_map g l').
  Proof. intros P. now apply Permutation_flat_map. Qed.
  Lemma part_side a i : part_of pipes a i -> (a <? r_nc r') = (i <? nc).
  Proof.
    intros P. pose proof P as [Hi Ha]. cbn [r_nc flat_request]. destruct (Nat.ltb_spec i nc) as [H|H].
    - apply Nat.ltb_lt. pose proof (nsum_firstn_S Hi). pose proof (@nsum_firstn_mono pipes (S i) nc). lia.
    - apply Nat.ltb_ge. pose proof (@nsum_firstn_mono pipes nc i). lia.
  Qed.
  Lemma memb_flat l a i : part_of pipes a i -> memb a (flat_map g l) = memb i l.
  Proof.
    intros P. apply eq_true_iff_eq. rewrite !memb_In, in_flat_map. split.
    - intros [k [Hk Ha]]. apply In_grp in Ha. now rewrite (part_unique P Ha).
    - intros H. exists i. split; [exact H|now apply In_grp].
  Qed.
  Lemma memb_rev a l : memb a (rev l) = memb a l.
  Proof. apply eq_true_iff_eq. rewrite !memb_In. symmetry. apply in_rev. Qed.
  Lemma side_flat a i : part_of pipes a i -> changes_side r' a = changes_side r i.
  Proof.
    intros P. unfold changes_side. rewrite (part_side P). destruct (i <? nc).
    - rewrite <- (memb_rev a (r_dom r')). cbn [r_dom flat_request]. unfold flat_domain_idcs. rewrite rev_flat_rev. rewrite (memb_flat _ P). apply memb_rev.
    - exact (memb_flat _ P).
  Qed.
  Lemma bend_flat a i : part_of pipes a i -> nth a (r_bend r') None = nth i (r_bend r) None.
  Proof. apply flat_values_nth. rewrite LP. apply V. Qed.
  Lemma level_flat a i : part_of pipes a i -> nth a (r_levels r') None = nth i (r_levels r) None.
  Proof. apply flat_values_nth. rewrite LP. apply V. Qed.
  Lemma flat_valid : valid_request r'.
  Proof.
    pose proof V as [Pm [VL [VB VN]]]. split; [|split; [|split]].
    - rewrite flat_T. unfold is_perm. rewrite flat_seq_all. apply perm_flat. exact Pm.
    - rewrite flat_N. apply flat_values_length. lia.
    - rewrite flat_N. apply flat_values_length. lia.
    - intros x Hx. rewrite flat_N in Hx. destruct (part_exists Hx) as [i Pi]. rewrite (side_flat Pi), (bend_flat Pi). apply VN. rewrite <- LP. apply Pi.
  Qed.
  Lemma bl_flat i a : In a (g i) -> bends_left r' a = bends_left r i.
  Proof. intros P. apply In_grp in P. unfold bends_left. now rewrite (side_flat P), (bend_flat P). Qed.
  Lemma br_flat i a : In a (g i) -> bends_right r' a = bends_right r i.
  Proof. intros P. apply In_grp in P. unfold bends_right. now rewrite (side_flat P), (bend_flat P). Qed.
  Lemma nb_flat i a : In a (g i) -> neither r' a = neither r i.
  Proof. intros P. apply In_grp in P. unfold neither. now rewrite (side_flat P). Qed.
  Lemma flat_left_out : left_out r' = flat_map g (left_out r).
  Proof. unfold left_out. rewrite flat_seq_cod. apply filter_flat. intros i a _. apply bl_flat. Qed.
  Lemma flat_left_in : left_in r' = flat_map g (left_in r).
  Proof. unfold left_in. rewrite flat_seq_dom. apply filter_flat. intros i a _. apply bl_flat. Qed.
  Lemma flat_stay : stay_cod r' = flat_map g (stay_cod r).
  Proof. unfold stay_cod. rewrite flat_seq_cod. apply filter_flat. intros i a _. apply nb_flat. Qed.
  Lemma flat_rest1 : rest1 r' = flat_map g (rest1 r).
  Proof.
    unfold rest1. rewrite !flat_map_app. rewrite flat_stay, flat_seq_dom. do 2 f_equal. rewrite flat_seq_cod. apply filter_flat. intros i a _. apply br_flat.
  Qed.
  Lemma flat_rest2 : rest2 r' = flat_map g (rest2 r).
  Proof.
    unfold rest2. rewrite !flat_map_app. rewrite flat_stay. f_equal. f_equal.
    - unfold right_in. rewrite flat_seq_dom. apply filter_flat. intros i a _. apply br_flat.
    - apply rev_flat_rev.
  Qed.
  Lemma flat_must_cross a b i j : part_of pipes a i -> part_of pipes b j -> must_cross r' a b <-> must_cross r i j.
  Proof.
    intros Pa Pb. destruct (stage_perms V) as [P1 P2].
    assert (ND : forall l, Permutation l (seq 0 (nc + nd)) -> NoDup l) by (intros k P; apply (Permutation_NoDup (Permutation_sym P)), seq_NoDup).
    assert (PV : is_perm (nc + nd) (r_cod r ++ rev (r_dom r))) by apply V.
    assert (P1' : Permutation (rest1 r ++ left_out r) (seq 0 (nc + nd))) by (rewrite Permutation_app_comm; exact P1).
    assert (P2' : Permutation (rest2 r ++ left_in r) (seq 0 (nc + nd))) by (rewrite Permutation_app_comm; exact P2).
    unfold must_cross. rewrite flat_seq_all, flat_T, flat_left_out, flat_left_in, flat_rest1, flat_rest2. rewrite <- !flat_map_app.
    rewrite !(fun N1 N2 => inverted_flat N1 N2 Pa Pb) by (apply ND; first [apply Permutation_refl|assumption]). reflexivity.
  Qed.
  Lemma flat_good a b i j : part_of pipes a i -> part_of pipes b j -> good r' (a, b) <-> good r (i, j).
  Proof. intros Pa Pb. unfold good, comparable. cbn [fst snd]. rewrite (level_flat Pa), (level_flat Pb). reflexivity. Qed.
End Flat.
