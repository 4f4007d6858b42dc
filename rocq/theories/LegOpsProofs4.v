(** combine_legs: the result; split_legs; the round trip. *)
From Coq Require Import List Arith Bool ZArith Permutation Lia Sorted Ascii.
From Verif Require Import Util GridModel GridProofs SymModel PipeModel PipeProofs4 LabelsModel LabelsProofs LegOpsModel LegOpsSpec LegOpsProofs LegOpsProofs2 LegOpsProofs3.
Import ListNotations.
Set Implicit Arguments. Unset Strict Implicit.
Open Scope nat_scope.

(** ** sorting the groups *)
Definition hlt (a b : list nat) : Prop := hd 0 a < hd 0 b.
Lemma list_ltb_hd a b : a <> [] -> b <> [] -> hd 0 a <> hd 0 b -> list_ltb a b = (hd 0 a <? hd 0 b).
Proof.
  destruct a as [|x a]; [congruence|]. destruct b as [|y b]; [congruence|]. cbn [hd list_ltb]. intros _ _ NE. destruct (Nat.eqb_spec x y); [congruence|]. now rewrite orb_false_r.
Qed.
Lemma insert_perm g l : Permutation (insert_sorted g l) (g :: l).
Proof.
  induction l as [|h t IH]; [reflexivity|]. cbn [insert_sorted]. destruct (list_ltb h g); [|reflexivity]. rewrite IH. apply perm_swap.
Qed.
Lemma insert_sorted_sorted g l : g <> [] -> Forall (fun h => h <> [] /\ hd 0 h <> hd 0 g) l -> StronglySorted hlt l -> StronglySorted hlt (insert_sorted g l).
Proof.
  intros NE. induction l as [|h t IH]; intros F SS; [repeat constructor|]. cbn [insert_sorted]. inversion F as [|? ? [F1 F2] F3]; subst.
  inversion SS as [|? ? S1 S2]; subst. rewrite (list_ltb_hd F1 NE F2). destruct (Nat.ltb_spec (hd 0 h) (hd 0 g)) as [L|L].
  - constructor; [now apply IH|]. apply Forall_forall. intros x X. apply (Permutation_in _ (insert_perm g t)) in X. destruct X as [<-|X]; [exact L|].
    rewrite Forall_forall in S2. now apply S2.
  - constructor; [exact SS|]. constructor; [unfold hlt; lia|]. rewrite Forall_forall in *. intros x X. specialize (S2 x X). unfold hlt in *. lia.
Qed.
Lemma sort_perm l : Permutation (sort_groups l) l.
Proof. unfold sort_groups. induction l as [|g l IH]; [reflexivity|]. cbn [fold_right]. rewrite insert_perm. now constructor. Qed.
Lemma sort_sorted l : Forall (fun g => g <> []) l -> NoDup (map (hd 0) l) -> StronglySorted hlt (sort_groups l).
Proof.
  induction l as [|g l IH]; intros F ND; [constructor|]. inversion F as [|? ? F1 F2]; subst. cbn [map] in ND. inversion ND as [|? ? N1 N2]; subst.
  change (sort_groups (g :: l)) with (insert_sorted g (sort_groups l)). apply insert_sorted_sorted; [exact F1| |now apply IH].
  apply Forall_forall. intros h I. apply (Permutation_in _ (sort_perm l)) in I. rewrite Forall_forall in F2. split; [now apply F2|]. intros E. apply N1. rewrite <- E. now apply in_map.
Qed.
Lemma sorted_unique l1 l2 : StronglySorted hlt l1 -> StronglySorted hlt l2 -> Permutation l1 l2 -> l1 = l2.
Proof.
  revert l2. induction l1 as [|x l1 IH]; intros l2 S1 S2 P.
  - symmetry. apply Permutation_nil. exact P.
  - destruct l2 as [|y l2]; [symmetry in P; now apply Permutation_nil in P|].
    inversion S1 as [|? ? S1a S1b]; subst. inversion S2 as [|? ? S2a S2b]; subst. rewrite Forall_forall in S1b, S2b.
    assert (x = y).
    { assert (X := Permutation_in x P (or_introl eq_refl)). assert (Y := Permutation_in y (Permutation_sym P) (or_introl eq_refl)).
      destruct X as [X|X]; [now symmetry|]. destruct Y as [Y|Y]; [exact Y|]. specialize (S1b y Y). specialize (S2b x X). unfold hlt in *. lia. }
    subst y. f_equal. apply IH; [assumption|assumption|]. now apply Permutation_cons_inv in P.
Qed.

(** the first legs of the groups in leg order *)
Definition heads (N : nat) (groups : list (list nat)) : list nat := filter (fun n => match group_at groups n with Some _ => true | None => false end) (seq 0 N).
Lemma heads_In N groups n : In n (heads N groups) <-> n < N /\ exists g, group_at groups n = Some g.
Proof.
  unfold heads. rewrite filter_In, in_seq. destruct (group_at groups n) as [g|]; split; intros [H1 H2]; (split; [lia|]).
  - now exists g.
  - reflexivity.
  - discriminate.
  - destruct H2; discriminate.
Qed.
Lemma heads_S N groups : heads (S N) groups = heads N groups ++ match group_at groups N with Some _ => [N] | None => [] end.
Proof. unfold heads. rewrite seq_S, filter_app. cbn [plus filter]. destruct (group_at groups N); reflexivity. Qed.
Lemma heads_length N groups n : groups_ok N groups -> length (heads n groups) = rank groups n.
Proof.
  intros G. induction n as [|n IH]; [symmetry; apply rank_0|]. rewrite heads_S, app_length, IH, (rank_S n (heads_NoDup G)). destruct (group_at groups n); reflexivity.
Qed.
Lemma rank_N N groups : groups_ok N groups -> rank groups N = length groups.
Proof.
  intros G. unfold rank. f_equal. apply filter_all. intros g I. apply Nat.ltb_lt. apply (g_lt G I). now apply (g_hd_in G).
Qed.
Lemma heads_map_rank A N groups (f : nat -> A) (l : list A) (dflt : A) : groups_ok N groups -> (forall m g, group_at groups m = Some g -> m < N -> nth (rank groups m) l dflt = f m) ->
  forall n, n <= N -> rank groups n <= length l -> map f (heads n groups) = firstn (rank groups n) l.
Proof.
  intros G H. induction n as [|n IH]; intros Hn HL; [rewrite rank_0; reflexivity|].
  assert (R := rank_S n (heads_NoDup G)). rewrite heads_S, map_app. rewrite IH by lia. rewrite R. destruct (group_at groups n) as [g|] eqn:E.
  - cbn [map]. rewrite <- (H n g E) by lia. rewrite R in HL. clear - HL. revert HL. generalize (rank groups n). intros k HL.
    revert l HL. induction k as [|k IH]; intros [|x l] HL; cbn [length] in HL; try lia; [reflexivity|]. cbn [plus firstn app nth]. f_equal. apply IH. lia.
  - now rewrite app_nil_r, Nat.add_0_r.
Qed.
Lemma heads_sorted_seq N groups n (f : nat -> nat) : (forall a b, a < b -> b < n -> In a (heads N groups) -> In b (heads N groups) -> f a < f b) -> n <= N -> StronglySorted lt (map f (heads n groups)).
Proof.
  intros H. induction n as [|n IH]; intros Hn; [constructor|]. rewrite heads_S, map_app.
  assert (IHn : StronglySorted lt (map f (heads n groups))) by (apply IH; [intros a b A B; apply H; lia|lia]).
  destruct (group_at groups n) as [g|] eqn:E; [|now rewrite app_nil_r]. cbn [map].
  assert (LT : Forall (fun x => x < f n) (map f (heads n groups))).
  { apply Forall_forall. intros x X. apply in_map_iff in X. destruct X as [a [<- A]]. apply heads_In in A. destruct A as [A [g' A']]. apply H; [exact A|lia|apply heads_In; split; [lia|now exists g']|apply heads_In; split; [lia|now exists g]]. }
  clear - IHn LT. induction (map f (heads n groups)) as [|y l IH]; cbn [app]; [repeat constructor|]. inversion IHn; subst. inversion LT; subst. constructor; [now apply IH|].
  apply Forall_app. split; [assumption|now constructor].
Qed.

Lemma filter_kept_split (kb : nat -> bool) J N : J <= N -> filter kb (seq 0 N) = filter (fun m => kb m && (m <? J)) (seq 0 N) ++ filter (fun m => kb m && negb (m <? J)) (seq 0 N).
Proof.
  intros H. replace (seq 0 N) with (seq 0 J ++ seq J (N - J)) by (rewrite <- seq_app; f_equal; lia). rewrite !filter_app.
  assert (E1 : filter (fun m => kb m && (m <? J)) (seq J (N - J)) = []).
  { apply filter_none. intros m M. apply in_seq in M. destruct (Nat.ltb_spec m J); [lia|apply andb_false_r]. }
  assert (E2 : filter (fun m => kb m && negb (m <? J)) (seq 0 J) = []).
  { apply filter_none. intros m M. apply in_seq in M. destruct (Nat.ltb_spec m J); [apply andb_false_r|lia]. }
  rewrite E1, E2, app_nil_r. cbn [app]. f_equal.
  - apply filter_ext_in. intros m M. apply in_seq in M. destruct (Nat.ltb_spec m J); [now rewrite andb_true_r|lia].
  - apply filter_ext_in. intros m M. apply in_seq in M. destruct (Nat.ltb_spec m J); [lia|now rewrite andb_true_r].
Qed.

Lemma combine_spec debug ab S t groups dualities pipes : tens_ok t -> groups_ok (num_legs t) groups -> pipes_ok t groups (fun r => nth r dualities false) pipes ->
  exists r, combine_legs debug ab S t groups dualities pipes = Some r /\
    legs (r_tensor r) = map (result_leg t groups (fun r => nth r dualities false)) (kept (num_legs t) groups) /\
    t_labels (r_tensor r) = map (result_label t groups) (kept (num_legs t) groups) /\
    num_codomain (r_tensor r) = length (filter (fun n => n <? num_codomain t) (kept (num_legs t) groups)) /\
    legs (r_permuted r) = map (leg_at t) (flat_map (expand groups) (seq 0 (num_legs t))) /\
    t_labels (r_permuted r) = map (label_at t) (flat_map (expand groups) (seq 0 (num_legs t))) /\
    num_codomain (r_permuted r) = length (flat_map (expand groups) (seq 0 (num_codomain t))) /\
    r_which r = map (fun n => seq (start groups n) (length (expand groups n))) (heads (num_legs t) groups) /\
    r_pipes r = map (fun n => Some (result_pipe t groups (fun r => nth r dualities false) n)) (heads (num_legs t) groups).
Proof.
  intros TOK GOK POK. set (N := num_legs t). set (J := num_codomain t).
  assert (JN : J <= N) by (unfold J, N, num_codomain, num_legs; lia).
  unfold combine_legs. fold N J. assert (ND := proj2 GOK). apply has_dup_iff in ND. rewrite ND.
  destruct (idcs_eq GOK JN) as [E1 E2]. fold N in E1, E2. rewrite E1, E2.
  assert (P := t1_perm GOK). fold N J in P. unfold permute_legs. rewrite (parse_both_perm P).
  assert (FA := fp_app t groups). fold N J in FA. rewrite <- FA.
  destruct (walk_result debug ab S TOK GOK POK) as [ps [PI W]]. fold N J in W.
  unfold groups1, inv in W. fold N in W. rewrite W. eexists. split; [reflexivity|]. cbn [r_tensor r_permuted r_which r_pipes stt c_cod c_dom c_codl c_doml c_pipes].
  assert (FS := filter_kept_split (fun m => negb (absorbed groups m)) JN). unfold kept. fold N.
  split; [|split; [|split; [|split; [|split; [|split; [|split]]]]]].
  - rewrite tens_eq_legs. rewrite map_rev, rev_involutive, map_map. rewrite FS, map_app. f_equal. apply map_ext. intros m. apply dual_leg_invol.
  - cbn [t_labels]. rewrite FS, map_app. reflexivity.
  - unfold num_codomain at 1. cbn [t_codomain]. rewrite map_length. f_equal. unfold keptb. fold N J. generalize (seq 0 N) as l. clear. intros l. induction l as [|x l IH]; [reflexivity|].
    cbn [filter]. destruct (absorbed groups x); cbn [negb andb filter]; [exact IH|]. destruct (x <? J); cbn; [now f_equal|exact IH].
  - apply (t1_legs TOK GOK).
  - apply (t1_labels TOK GOK).
  - exact (t1_J TOK GOK).
  - assert (GO1 := groups1_ok GOK). fold N in GO1. apply sorted_unique.
    + apply sort_sorted; [apply Forall_forall; intros g I; apply (g_nonempty GO1 I)|apply (heads_NoDup GO1)].
    + assert (HS : StronglySorted lt (map (start groups) (heads N groups))).
      { apply heads_sorted_seq with (N := N); [|lia]. intros a b AB B HA HB. apply heads_In in HA. destruct HA as [HA [g HA']].
        assert (M := start_mono t groups (m := Datatypes.S a) (n := b) AB). rewrite start_S in M. rewrite (expand_group HA') in M.
        apply (group_at_iff GOK) in HA'. assert (NE := g_nonempty GOK (proj1 HA')). destruct g; [congruence|cbn in M; lia]. }
      revert HS. assert (HI : forall n, In n (heads N groups) -> expand groups n <> []).
      { intros n I. apply heads_In in I. destruct I as [_ [g I]]. rewrite (expand_group I). apply (group_at_iff GOK) in I. apply (g_nonempty GOK (proj1 I)). }
      revert HI. generalize (heads N groups) as l. intros l HI HS. induction l as [|n l IH]; [constructor|]. cbn [map] in HS |- *. inversion HS as [|? ? H1 H2]; subst.
      constructor; [apply IH; [intros m M; apply HI; now right|exact H1]|]. apply Forall_forall. intros x X. apply in_map_iff in X. destruct X as [m [<- M]].
      assert (Q1 := HI n (or_introl eq_refl)). assert (Q2 := HI m (or_intror M)). unfold hlt. rewrite Forall_forall in H2. specialize (H2 (start groups m) (in_map _ _ _ M)).
      destruct (expand groups n); [congruence|]. destruct (expand groups m); [congruence|]. exact H2.
    + rewrite sort_perm. change (map (map (fun l => nth l (inverse_permutation (fp N groups)) 0)) groups) with (groups1 N groups).
      apply NoDup_Permutation.
      * apply (NoDup_map_inv (hd 0)). apply (heads_NoDup GO1).
      * apply NoDup_map_inj; [|unfold heads; apply NoDup_filter, seq_NoDup].
        intros a b A B E. apply heads_In in A. apply heads_In in B. destruct A as [A [g GA]]. destruct B as [B [g' GB]].
        assert (GA' := g1_head GOK GA A). assert (GB' := g1_head GOK GB B). rewrite (expand_group GA), (expand_group GB) in E. fold N in GA', GB'.
        assert (NG : g <> []) by (apply (group_at_iff GOK) in GA; apply (g_nonempty GOK (proj1 GA))).
        assert (NG' : g' <> []) by (apply (group_at_iff GOK) in GB; apply (g_nonempty GOK (proj1 GB))).
        assert (ES : start groups a = start groups b) by (destruct g; [congruence|]; destruct g'; [congruence|]; cbn in E; injection E; congruence).
        assert (Ha := inv_at GOK A (p := 0)). assert (Hb := inv_at GOK B (p := 0)). rewrite (expand_group GA) in Ha. rewrite (expand_group GB) in Hb.
        apply (group_at_iff GOK) in GA. apply (group_at_iff GOK) in GB. destruct GA as [_ GA]. destruct GB as [_ GB].
        destruct g as [|x g]; [congruence|]. destruct g' as [|y g']; [congruence|]. cbn [hd] in GA, GB. cbn [nth length] in Ha, Hb. subst x y.
        apply (inv_inj GOK A B). rewrite Ha, Hb by lia. lia.
      * intros x. rewrite groups1_in, in_map_iff. split.
        { intros [g [I ->]]. exists (hd 0 g). assert (HN : hd 0 g < N) by (apply (g_lt GOK I); now apply (g_hd_in GOK)).
          assert (EG : group_at groups (hd 0 g) = Some g) by (apply (group_at_iff GOK); now split). split.
          - rewrite <- (map_inv_expand GOK HN). now rewrite (expand_group EG).
          - apply heads_In. split; [exact HN|now exists g]. }
        { intros [n [<- I]]. apply heads_In in I. destruct I as [HN [g I]]. exists g. split; [apply (group_at_iff GOK) in I; apply I|].
          rewrite <- (map_inv_expand GOK HN). now rewrite (expand_group I). }
  - destruct PI as [H1 [H2 _]]. assert (K := heads_map_rank (f := fun n => Some (result_pipe t groups (fun r => nth r dualities false) n)) (dflt := None) GOK H2 (le_n N)).
    assert (RN : rank groups N = length groups) by exact (rank_N GOK). rewrite RN in K. rewrite K by lia. rewrite <- H1. symmetry. apply firstn_all.
Qed.
