(** Pipes handed to combine_legs are checked (assertions enabled). *)
From Verif Require Import Util StableSort RowModel GridModel GridProofs SymModel CatSpec SpaceModel PipeModel PipeProofs4 LabelsModel LegOpsModel LegOpsSpec LegOpsProofs LegOpsProofs2 LegOpsProofs3 LegOpsProofs4.
Set Implicit Arguments. Unset Strict Implicit.
Open Scope nat_scope.

Lemma make_pipe_check ab S ls d p q : make_pipe true ab S ls d (Some p) = Some q ->
  exists ls', p = LPipe ls' d (negb d) /\ (ab = true \/ leg_eqb S (LPipe ls' false true) (LPipe ls false true) = true).
Proof.
  unfold make_pipe. destruct p as [e|ls' d' c]; [discriminate|]. destruct (Bool.eqb c (negb d)) eqn:E1; [|discriminate]. destruct (Bool.eqb d' d) eqn:E2; [|discriminate].
  apply eqb_prop in E1. apply eqb_prop in E2. subst. cbn [andb]. destruct (ab || _) eqn:E3; [|discriminate]. intros _. exists ls'. split; [reflexivity|].
  apply orb_prop in E3. exact E3.
Qed.

Section Check.
  Variables (debug ab : bool) (S : symmetry) (t : tens) (groups : list (list nat)) (dualities : list bool) (pipes : list (option leg)).
  Hypothesis TOK : tens_ok t.
  Let N := num_legs t.
  Let J := num_codomain t.
  Hypothesis GOK : groups_ok N groups.
  Let ci := flat_map (expand groups) (seq 0 J).
  Let dr := flat_map (expand groups) (seq J (N - J)).
  Let t1 := permute t ci (rev dr).
  Let g1s := groups1 N groups.
  Let ST := start groups.
  Definition before (n : nat) (s : cstate) : Prop := c_i s = rank groups n /\ forall i, rank groups n <= i -> nth i (c_pipes s) None = nth i pipes None.
  Definition group_pipe (n : nat) (g : list nat) : option leg :=
    if n <? J then make_pipe debug ab S (map (leg_at t) g) (nth (rank groups n) dualities false) (nth (rank groups n) pipes None)
    else make_pipe debug ab S (rev (map dual_leg (map (leg_at t) g))) (negb (nth (rank groups n) dualities false)) (nth (rank groups n) pipes None).

  Lemma block n s s' : n < N -> before n s -> walk_all (walk_combine debug ab S t1 g1s dualities) s (seq (ST n) (length (expand groups n))) = Some s' ->
    before (Datatypes.S n) s' /\ forall g, group_at groups n = Some g -> group_pipe n g <> None.
  Proof.
    intros H [B1 B2] W. assert (RS := rank_S n (heads_NoDup GOK)).
    destruct (cases GOK n) as [[g E]|[[E A]|[E [A NI]]]]; rewrite E in RS.
    - assert (EX := expand_group E). assert (I := proj1 (proj1 (group_at_iff GOK _ _) E)). assert (NE := g_nonempty GOK I).
      set (k := length g). assert (K0 : 0 < k) by (unfold k; destruct g; [congruence|cbn; lia]).
      rewrite EX in W. fold k in W. destruct k as [|k'] eqn:EK; [lia|]. cbn [seq walk_all] in W.
      destruct (walk_combine debug ab S t1 g1s dualities s (ST n)) as [s1|] eqn:STEP; [|discriminate].
      assert (W' : walk_all (walk_combine debug ab S t1 g1s dualities) s1 (seq (Datatypes.S (ST n)) k') = Some s1).
      { apply walk_all_skip. intros p P. apply in_seq in P.
        assert (Q : exists q, p = ST n + q /\ 0 < q < length (expand groups n)) by (exists (p - ST n); rewrite EX; fold k; lia).
        destruct Q as [q [-> [Q1 Q2]]].
        set (x := nth q (expand groups n) 0).
        assert (X : In x (tl g)).
        { unfold x. rewrite EX. rewrite EX in Q2. destruct g as [|y g]; [congruence|]. destruct q as [|q]; [lia|]. cbn [nth tl]. cbn [length] in Q2. apply nth_In. lia. }
        assert (AX : absorbed groups x = true) by (apply absorbed_iff; exists g; now split).
        assert (GX : group_at groups x = None).
        { destruct (group_at groups x) eqn:F; [|reflexivity]. apply (head_not_absorbed GOK) in F. congruence. }
        unfold walk_combine. rewrite (lookup_codomain (groups1_ok GOK)), (lookup_domain (groups1_ok GOK)).
        change (groups1 N groups) with g1s. assert (Y1 := g1_none (t := t) GOK H Q2 GX). assert (Y2 := g1_contains (t := t) GOK H Q2). fold N g1s ST x in Y1, Y2. rewrite Y1, Y2.
        assert (CX : contains (concat groups) x = true) by (rewrite (contains_concat GOK), GX; exact AX).
        rewrite CX. destruct (_ <? _); reflexivity. }
      rewrite W' in W. injection W as <-.
      unfold walk_combine in STEP. rewrite (lookup_codomain (groups1_ok GOK)), (lookup_domain (groups1_ok GOK)) in STEP.
      assert (TJ := t1_J TOK GOK). fold N J ci dr t1 in TJ. rewrite TJ in STEP.
      change (groups1 N groups) with g1s in STEP. assert (G1 := g1_head (t := t) GOK E H). fold N g1s ST in G1. rewrite G1 in STEP.
      assert (SL : (ST n <? ST J) = (n <? J)) by (apply (start_ltb t); now rewrite EX).
      change (start groups J) with (ST J) in STEP. rewrite SL in STEP.
      assert (HDs : hd 0 (seq (ST n) (length g)) = ST n) by (fold k; rewrite EK; reflexivity).
      assert (LAST : last (seq (ST n) (length g)) 0 + 1 = ST n + length (expand groups n)) by (rewrite last_seq by (fold k; lia); rewrite EX; fold k; lia).
      assert (LAST2 : last (seq (ST n) (length g)) 0 = ST n + length (expand groups n) - 1) by lia.
      assert (PN : nth (c_i s) (c_pipes s) None = nth (rank groups n) pipes None) by (rewrite B1; apply B2; lia).
      assert (NX : forall q i, rank groups (Datatypes.S n) <= i -> nth i (upd (c_pipes s) (c_i s) (Some q)) None = nth i pipes None).
      { intros q i Hi. rewrite nth_upd_neq by lia. apply B2. lia. }
      rewrite PN, B1 in STEP.
      destruct (Nat.ltb_spec n J) as [L|L].
      + rewrite HDs, LAST in STEP. assert (SC := slice_codomain TOK GOK L). fold N J ci dr t1 ST in SC. rewrite SC, EX in STEP.
        destruct (make_pipe debug ab S (map (leg_at t) g) (nth (rank groups n) dualities false) (nth (rank groups n) pipes None)) as [p|] eqn:MP; [|discriminate].
        injection STEP as <-. split.
        * split; cbn [c_i c_pipes]; [lia|]. rewrite <- B1. apply NX.
        * intros g' G'. injection (eq_trans (eq_sym E) G') as <-. unfold group_pipe. destruct (Nat.ltb_spec n J); [|lia]. now rewrite MP.
      + rewrite HDs, LAST2 in STEP. assert (TN : num_legs t1 = N) by exact (t1_N TOK GOK). rewrite TN in STEP.
        replace (N - 1 - (ST n + length (expand groups n) - 1)) with (N - (ST n + length (expand groups n))) in STEP by (rewrite EX; fold k; lia).
        assert (L2 : ST (Datatypes.S n) <= N) by (assert (SN : ST N = N) by exact (start_N GOK); rewrite <- SN; apply (start_mono t); lia). unfold ST in L2. rewrite start_S in L2. fold ST in L2.
        assert (L3 : 0 < length (expand groups n)) by (rewrite EX; fold k; lia).
        replace (N - 1 - ST n + 1) with (N - ST n) in STEP by lia.
        assert (SC := slice_domain TOK GOK (conj L H)). fold N J ci dr t1 ST in SC. rewrite SC in STEP by (rewrite EX; exact NE). rewrite EX in STEP.
        match type of STEP with match ?m with _ => _ end = _ => destruct m as [p|] eqn:MP; [|discriminate] end.
        injection STEP as <-. split.
        * split; cbn [c_i c_pipes]; [lia|]. rewrite <- B1. apply NX.
        * intros g' G'. injection (eq_trans (eq_sym E) G') as <-. unfold group_pipe. destruct (Nat.ltb_spec n J); [lia|]. now rewrite MP.
    - rewrite (expand_absorbed GOK A) in W. cbn [length seq walk_all] in W. injection W as <-. split; [|intros g G; congruence].
      rewrite Nat.add_0_r in RS. unfold before. rewrite RS. now split.
    - assert (EX := expand_single GOK NI). rewrite EX in W. cbn [length seq walk_all] in W.
      assert (Q : 0 < length (expand groups n)) by (rewrite EX; cbn; lia).
      assert (X : nth 0 (expand groups n) 0 = n) by (rewrite EX; reflexivity).
      assert (G0 : group_at g1s (ST n) = None) by (rewrite <- (Nat.add_0_r (ST n)); apply (g1_none (t := t) GOK H Q); rewrite X; exact E).
      assert (CC : contains (concat g1s) (ST n) = false) by (rewrite <- (Nat.add_0_r (ST n)); assert (Y := g1_contains (t := t) GOK H Q); fold N g1s ST in Y; rewrite Y, X; now apply contains_false).
      unfold walk_combine in W. rewrite (lookup_codomain (groups1_ok GOK)), (lookup_domain (groups1_ok GOK)) in W.
      change (groups1 N groups) with g1s in W. rewrite G0, CC in W.
      split; [|intros g G; congruence]. rewrite Nat.add_0_r in RS. unfold before. rewrite RS.
      destruct (ST n <? num_codomain t1); injection W as <-; cbn [c_i c_pipes]; now split.
  Qed.
  Lemma walk_checks s : walk_all (walk_combine debug ab S t1 g1s dualities) (CState 0 0 pipes [] [] [] []) (seq 0 N) = Some s ->
    forall n g, n < N -> group_at groups n = Some g -> group_pipe n g <> None.
  Proof.
    intros W.
    assert (K : forall n, n <= N -> exists s, before n s /\ walk_all (walk_combine debug ab S t1 g1s dualities) (CState 0 0 pipes [] [] [] []) (seq 0 (ST n)) = Some s /\
      forall m g, m < n -> group_at groups m = Some g -> group_pipe m g <> None).
    { induction n as [|n IH]; intros Hn.
      - exists (CState 0 0 pipes [] [] [] []). split; [split; [cbn; now rewrite rank_0|reflexivity]|]. split; [reflexivity|intros; lia].
      - destruct (IH ltac:(lia)) as [s0 [B [W0 P]]].
        assert (L2 : ST (Datatypes.S n) <= N) by (assert (SN : ST N = N) by exact (start_N GOK); rewrite <- SN; apply (start_mono t); lia).
        assert (EQ : ST (Datatypes.S n) = ST n + length (expand groups n)) by apply start_S.
        assert (W2 := W). replace N with (ST (Datatypes.S n) + (N - ST (Datatypes.S n))) in W2 by lia. rewrite seq_app, walk_all_app in W2.
        destruct (walk_all _ _ (seq 0 (ST (Datatypes.S n)))) as [s1|] eqn:W1; [|discriminate]. clear W2.
        assert (W3 := W1). rewrite EQ, seq_app, walk_all_app, W0 in W3. cbn [plus] in W3.
        destruct (block (n := n) ltac:(lia) B W3) as [B' P']. exists s1. split; [exact B'|]. split; [reflexivity|].
        intros m g M G. destruct (Nat.eq_dec m n) as [->|]; [now apply P'|apply (P m g); [lia|exact G]]. }
    intros n g Hn G. destruct (K N (le_n N)) as [s1 [_ [_ P]]]. now apply (P n g).
  Qed.
End Check.

Lemma combine_checks ab S t groups dualities pipes r : tens_ok t -> groups_ok (num_legs t) groups -> combine_legs true ab S t groups dualities pipes = Some r ->
  forall n g p, n < num_legs t -> group_at groups n = Some g -> nth (rank groups n) pipes None = Some p ->
    let d := if n <? num_codomain t then nth (rank groups n) dualities false else negb (nth (rank groups n) dualities false) in
    let ls := if n <? num_codomain t then map (leg_at t) g else rev (map dual_leg (map (leg_at t) g)) in
    exists ls', p = LPipe ls' d (negb d) /\ (ab = true \/ leg_eqb S (LPipe ls' false true) (LPipe ls false true) = true).
Proof.
  intros TOK GOK. set (N := num_legs t). set (J := num_codomain t).
  assert (JN : J <= N) by (unfold J, N, num_codomain, num_legs; lia).
  unfold combine_legs. fold N J. assert (ND := proj2 GOK). apply has_dup_iff in ND. rewrite ND.
  destruct (idcs_eq GOK JN) as [E1 E2]. fold N in E1, E2. rewrite E1, E2.
  assert (P := t1_perm GOK). fold N J in P. unfold permute_legs. rewrite (parse_both_perm P).
  assert (FA := fp_app t groups). fold N J in FA. rewrite <- FA.
  destruct (walk_all _ _ _) as [s|] eqn:W; [|discriminate]. intros _.
  intros n g p Hn G NP.
  assert (GP := walk_checks (debug := true) (ab := ab) (S := S) (dualities := dualities) (pipes := pipes) TOK GOK W Hn G).
  unfold group_pipe in GP. rewrite NP in GP. fold J in GP. destruct (n <? J).
  - destruct (make_pipe _ _ _ _ _ _) as [q|] eqn:M; [|congruence]. apply (make_pipe_check M).
  - destruct (make_pipe _ _ _ _ _ _) as [q|] eqn:M; [|congruence]. apply (make_pipe_check M).
Qed.
