(** combine_legs: the walk that builds the new legs. *)
From Coq Require Import List Arith Bool ZArith Permutation Lia.
From Verif Require Import Util GridModel GridProofs SymModel PipeModel PipeProofs4 LabelsModel LegOpsModel LegOpsSpec LegOpsProofs LegOpsProofs2.
Import ListNotations.
Set Implicit Arguments. Unset Strict Implicit.
Open Scope nat_scope.

Lemma slice_mid A (a b c : list A) : slice (a ++ b ++ c) (length a) (length a + length b) = b.
Proof.
  unfold slice. rewrite skipn_app, Nat.sub_diag, skipn_all. cbn [app skipn]. replace (length a + length b - length a) with (length b) by lia.
  rewrite firstn_app, Nat.sub_diag, firstn_all. cbn. apply app_nil_r.
Qed.
Lemma slice_firstn A (l : list A) k a b : b <= k -> slice (firstn k l) a b = slice l a b.
Proof. intros H. unfold slice. rewrite skipn_firstn_comm, firstn_firstn. f_equal. lia. Qed.
Lemma skipn_skipn' A (l : list A) a b : skipn a (skipn b l) = skipn (b + a) l.
Proof. revert l. induction b as [|b IH]; intros l; [reflexivity|]. destruct l as [|x l]; [now rewrite !skipn_nil|]. cbn [plus skipn]. apply IH. Qed.
Lemma slice_skipn A (l : list A) k a b : k <= a -> slice (skipn k l) (a - k) (b - k) = slice l a b.
Proof. intros H. unfold slice. rewrite skipn_skipn'. f_equal; [lia|]. f_equal. lia. Qed.
Lemma slice_map A B (f : A -> B) l a b : slice (map f l) a b = map f (slice l a b).
Proof. unfold slice. now rewrite skipn_map, firstn_map. Qed.
Lemma slice_rev A (l : list A) a b : a <= b -> b <= length l -> slice (rev l) (length l - b) (length l - a) = rev (slice l a b).
Proof.
  intros H1 H2. unfold slice. rewrite skipn_rev, firstn_rev, firstn_length.
  replace (length l - (length l - b)) with b by lia.
  replace (Nat.min b (length l) - (length l - a - (length l - b))) with a by lia.
  f_equal. rewrite skipn_firstn_comm. reflexivity.
Qed.
Lemma slice_nth_seq A (d : A) l a n : a + n <= length l -> map (fun i => nth i l d) (seq a n) = slice l a (a + n).
Proof.
  intros H. unfold slice. replace (a + n - a) with n by lia. apply list_eq_nth with (d := d).
  - rewrite map_length, seq_length, firstn_length, skipn_length. lia.
  - intros i Hi. rewrite map_length, seq_length in Hi. rewrite nth_map_lt with (d := 0) by (now rewrite seq_length). rewrite seq_nth by exact Hi.
    rewrite nth_firstn_lt by exact Hi. now rewrite nth_skipn'.
Qed.
Lemma last_seq a n : 0 < n -> last (seq a n) 0 = a + n - 1.
Proof.
  intros H. destruct n as [|n]; [lia|]. rewrite seq_S. rewrite last_last. lia.
Qed.

(** ** counting groups *)
Lemma heads_NoDup N groups : groups_ok N groups -> NoDup (map (hd 0) groups).
Proof.
  intros G. apply NoDup_map_inj.
  - intros x y X Y. now apply (g_hd_unique G).
  - destruct G as [F ND]. clear - F ND. induction groups as [|g gs IH]; [constructor|]. cbn [concat] in ND. inversion F as [|? ? F1 F2]; subst.
    destruct (NoDup_app_both ND) as [_ [H2 H3]]. constructor; [|now apply IH]. intros I. destruct F1 as [NE _]. destruct g as [|x g]; [congruence|].
    apply (H3 x); [now left|]. apply in_concat. exists (x :: g). split; [exact I|now left].
Qed.
Lemma count_S (f : list nat -> nat) groups n : NoDup (map (hd 0) groups) ->
  nsum (map f (filter (fun g => hd 0 g <? Datatypes.S n) groups)) = nsum (map f (filter (fun g => hd 0 g <? n) groups)) + match group_at groups n with Some g => f g | None => 0 end.
Proof.
  unfold group_at. induction groups as [|g gs IH]; intros ND; [reflexivity|]. cbn [map] in ND. inversion ND as [|? ? NI ND']; subst.
  specialize (IH ND'). cbn [filter find]. destruct (Nat.eqb_spec (hd 0 g) n) as [E|E].
  - destruct (Nat.ltb_spec (hd 0 g) (Datatypes.S n)); [|lia]. destruct (Nat.ltb_spec (hd 0 g) n); [lia|].
    assert (F : find (fun g => hd 0 g =? n) gs = None).
    { destruct (find _ gs) as [g'|] eqn:F; [|reflexivity]. exfalso. apply find_some in F. destruct F as [I F]. apply Nat.eqb_eq in F.
      apply NI. rewrite E, <- F. now apply in_map. }
    rewrite F in IH. cbn [map]. change (nsum (f g :: map f (filter (fun g => hd 0 g <? Datatypes.S n) gs))) with (f g + nsum (map f (filter (fun g => hd 0 g <? Datatypes.S n) gs))).
    rewrite IH. lia.
  - destruct (Nat.ltb_spec (hd 0 g) (Datatypes.S n)); destruct (Nat.ltb_spec (hd 0 g) n); cbn [map]; [|exfalso; lia|exfalso; lia|exact IH].
    change (nsum (f g :: map f (filter (fun g => hd 0 g <? Datatypes.S n) gs))) with (f g + nsum (map f (filter (fun g => hd 0 g <? Datatypes.S n) gs))).
    change (nsum (f g :: map f (filter (fun g => hd 0 g <? n) gs))) with (f g + nsum (map f (filter (fun g => hd 0 g <? n) gs))). rewrite IH. lia.
Qed.
Lemma nsum_ones A (l : list A) : nsum (map (fun _ => 1) l) = length l.
Proof. induction l as [|x l IH]; [reflexivity|]. cbn [map length]. change (nsum (1 :: map (fun _ => 1) l)) with (1 + nsum (map (fun _ : A => 1) l)). lia. Qed.
Lemma rank_S groups n : NoDup (map (hd 0) groups) -> rank groups (Datatypes.S n) = rank groups n + match group_at groups n with Some _ => 1 | None => 0 end.
Proof. intros ND. unfold rank. rewrite <- !nsum_ones. apply count_S with (f := fun _ => 1). exact ND. Qed.
Lemma rank_mono groups m n : m <= n -> rank groups m <= rank groups n.
Proof.
  intros H. unfold rank. induction groups as [|g gs IH]; [cbn; lia|]. cbn [filter].
  destruct (Nat.ltb_spec (hd 0 g) m); destruct (Nat.ltb_spec (hd 0 g) n); cbn [length]; lia.
Qed.
Lemma rank_le groups n : rank groups n <= length groups.
Proof. unfold rank. induction groups as [|g gs IH]; [cbn; lia|]. cbn [filter]. destruct (hd 0 g <? n); cbn [length]; lia. Qed.
Lemma rank_lt N groups m n g : groups_ok N groups -> group_at groups m = Some g -> m < n -> rank groups m < rank groups n.
Proof.
  intros G E H. assert (R := rank_S m (heads_NoDup G)). rewrite E in R. assert (M := rank_mono groups (m := Datatypes.S m) (n := n)). lia.
Qed.
Lemma rank_lt_length N groups m g : groups_ok N groups -> group_at groups m = Some g -> rank groups m < length groups.
Proof. intros G E. assert (H := rank_lt (n := Datatypes.S m) G E (Nat.lt_succ_diag_r m)). assert (R := rank_le groups (Datatypes.S m)). lia. Qed.
Lemma rank_0 groups : rank groups 0 = 0.
Proof. unfold rank. induction groups as [|g gs IH]; [reflexivity|]. cbn [filter]. destruct (Nat.ltb_spec (hd 0 g) 0); [lia|exact IH]. Qed.
Lemma filter_false A (l : list A) : filter (fun _ => false) l = [].
Proof. induction l; [reflexivity|assumption]. Qed.
Lemma unlabelled_0 t groups : unlabelled_before t groups 0 = 0.
Proof. unfold unlabelled_before. replace (filter (fun g => hd 0 g <? 0) groups) with (@nil (list nat)); [reflexivity|]. symmetry. apply filter_none. intros g _. apply Nat.ltb_ge. lia. Qed.

Lemma walk_all_app f s a b : walk_all f s (a ++ b) = match walk_all f s a with Some s => walk_all f s b | None => None end.
Proof. revert s. induction a as [|n a IH]; intros s; [reflexivity|]. cbn [app walk_all]. destruct (f s n); [apply IH|reflexivity]. Qed.
Lemma walk_all_skip f s l : (forall n, In n l -> f s n = Some s) -> walk_all f s l = Some s.
Proof. induction l as [|n l IH]; intros H; [reflexivity|]. cbn [walk_all]. rewrite (H n (or_introl eq_refl)). apply IH. intros m M. apply H. now right. Qed.

Lemma make_pipe_eq debug ab S ls d pipe : pipe = None \/ pipe = Some (LPipe ls d (negb d)) -> make_pipe debug ab S ls d pipe = Some (LPipe ls d (negb d)).
Proof.
  intros [->| ->]; [reflexivity|]. unfold make_pipe. destruct debug; [|reflexivity]. rewrite !Bool.eqb_reflx, leg_eqb_refl, orb_true_r. reflexivity.
Qed.

Section Walk.
  Variables (debug ab : bool) (S : symmetry) (t : tens) (groups : list (list nat)) (dualities : list bool) (pipes : list (option leg)).
  Hypothesis TOK : tens_ok t.
  Let N := num_legs t.
  Let J := num_codomain t.
  Hypothesis GOK : groups_ok N groups.
  Let d r := nth r dualities false.
  Hypothesis POK : pipes_ok t groups d pipes.
  Let ci := flat_map (expand groups) (seq 0 J).
  Let dr := flat_map (expand groups) (seq J (N - J)).
  Let t1 := permute t ci (rev dr).
  Let g1s := groups1 N groups.
  Let FP := fp N groups.
  Let ST := start groups.

  Lemma J_le : J <= N. Proof. unfold J, N, num_codomain, num_legs. lia. Qed.
  Lemma fp_app : FP = ci ++ dr.
  Proof.
    unfold FP, fp, ci, dr. rewrite <- flat_map_app, <- seq_app. do 2 f_equal. assert (H := J_le). lia.
  Qed.
  Lemma FP_length : length FP = N. Proof. apply (fp_length GOK). Qed.
  Lemma t1_perm : is_perm N (ci ++ rev (rev dr)).
  Proof. rewrite rev_involutive, <- fp_app. apply (fp_perm GOK). Qed.
  Lemma t1_legs : legs t1 = map (leg_at t) FP.
  Proof. unfold t1. rewrite (proj1 (permute_spec TOK t1_perm)), rev_involutive, <- fp_app. reflexivity. Qed.
  Lemma t1_labels : t_labels t1 = map (label_at t) FP.
  Proof. unfold t1. rewrite (proj1 (proj2 (permute_spec TOK t1_perm))), rev_involutive, <- fp_app. reflexivity. Qed.
  Lemma t1_J : num_codomain t1 = ST J.
  Proof. unfold t1. rewrite (proj2 (proj2 (permute_spec TOK t1_perm))). reflexivity. Qed.
  Lemma t1_N : num_legs t1 = N.
  Proof. rewrite <- legs_length, t1_legs, map_length. apply (fp_length GOK). Qed.

  Lemma start_S n : ST (Datatypes.S n) = ST n + length (expand groups n).
  Proof. unfold ST, start. rewrite seq_S, flat_map_app, app_length. cbn [plus flat_map]. rewrite app_nil_r. reflexivity. Qed.
  Lemma start_mono m n : m <= n -> ST m <= ST n.
  Proof. intros H. induction H as [|n H IH]; [lia|]. rewrite start_S. lia. Qed.
  Lemma start_N : ST N = N. Proof. unfold ST, start. apply (fp_length GOK). Qed.
  Lemma start_ltb n : expand groups n <> [] -> (ST n <? ST J) = (n <? J).
  Proof.
    intros E. assert (0 < length (expand groups n)) by (destruct (expand groups n); [congruence|cbn; lia]).
    destruct (Nat.ltb_spec n J) as [L|L].
    - apply Nat.ltb_lt. assert (K := start_mono (m := Datatypes.S n) (n := J)). rewrite start_S in K. lia.
    - apply Nat.ltb_ge. now apply start_mono.
  Qed.
  Lemma slice_fp A (f : nat -> A) n : n < N -> slice (map f FP) (ST n) (ST n + length (expand groups n)) = map f (expand groups n).
  Proof. intros H. rewrite slice_map. f_equal. unfold FP, ST, start. rewrite (fp_split _ H). apply slice_mid. Qed.
  Lemma slice_codomain n : n < J -> slice (t_codomain t1) (ST n) (ST n + length (expand groups n)) = map (leg_at t) (expand groups n).
  Proof.
    intros H. rewrite codomain_firstn, t1_J, t1_legs. rewrite slice_firstn.
    - apply slice_fp. assert (K := J_le). lia.
    - rewrite <- start_S. apply start_mono. lia.
  Qed.
  Lemma slice_domain n : J <= n < N -> expand groups n <> [] ->
    slice (t_domain t1) (N - (ST n + length (expand groups n))) (N - ST n) = rev (map dual_leg (map (leg_at t) (expand groups n))).
  Proof.
    intros H NE. rewrite domain_skipn, t1_J, t1_legs.
    assert (L1 := start_mono (proj1 H)). assert (L2 : ST (Datatypes.S n) <= N) by (rewrite <- start_N; apply start_mono; lia). rewrite start_S in L2.
    assert (LF : length (map (leg_at t) FP) = N) by (rewrite map_length; apply (fp_length GOK)).
    replace (N - (ST n + length (expand groups n))) with (length (map dual_leg (skipn (ST J) (map (leg_at t) FP))) - ((ST n + length (expand groups n)) - ST J))
      by (rewrite map_length, skipn_length, LF; lia).
    replace (N - ST n) with (length (map dual_leg (skipn (ST J) (map (leg_at t) FP))) - (ST n - ST J)) by (rewrite map_length, skipn_length, LF; lia).
    rewrite slice_rev; [|lia|rewrite map_length, skipn_length, LF; lia].
    f_equal. rewrite slice_map. f_equal. rewrite slice_skipn by exact L1. apply slice_fp. lia.
  Qed.
  Lemma slice_labels n : n < N -> slice (t_labels t1) (ST n) (ST n + length (expand groups n)) = map (label_at t) (expand groups n).
  Proof. intros H. rewrite t1_labels. now apply slice_fp. Qed.
  Lemma nth_label n : n < N -> expand groups n = [n] -> nth (ST n) (t_labels t1) None = label_at t n.
  Proof.
    intros H E. assert (K := slice_labels H). rewrite E in K. cbn [length map] in K. unfold slice in K. replace (ST n + 1 - ST n) with 1 in K by lia.
    rewrite <- (Nat.add_0_r (ST n)), <- nth_skipn'. destruct (skipn (ST n) (t_labels t1)) as [|x l]; [discriminate K|]. cbn in K. now injection K.
  Qed.
  Lemma nth_leg n : n < N -> expand groups n = [n] -> leg_at t1 (ST n) = leg_at t n.
  Proof.
    intros H E. unfold leg_at at 1. rewrite t1_legs. assert (K := slice_fp (leg_at t) H). rewrite E in K. cbn [length map] in K. unfold slice in K. replace (ST n + 1 - ST n) with 1 in K by lia.
    rewrite <- (Nat.add_0_r (ST n)), <- nth_skipn'. destruct (skipn (ST n) (map (leg_at t) FP)) as [|x l]; [discriminate K|]. cbn in K. now injection K.
  Qed.

  (** the groups in the new numbering *)
  Lemma g1_head n g : group_at groups n = Some g -> n < N -> group_at g1s (ST n) = Some (seq (ST n) (length g)).
  Proof.
    intros E H. apply (group_at_iff (groups1_ok GOK)). assert (EX := expand_group E). assert (K := map_inv_expand GOK H). rewrite EX in K.
    assert (I := proj1 (proj1 (group_at_iff GOK _ _) E)). split.
    - apply groups1_in. exists g. split; [exact I|]. now symmetry.
    - assert (NE := g_nonempty GOK I). destruct g; [congruence|reflexivity].
  Qed.
  Lemma inv_at' n q : n < N -> q < length (expand groups n) -> nth (nth q (expand groups n) 0) (inv N groups) 0 = ST n + q.
  Proof. intros H Q. exact (inv_at GOK H Q). Qed.
  Lemma g1_none n q : n < N -> q < length (expand groups n) -> group_at groups (nth q (expand groups n) 0) = None -> group_at g1s (ST n + q) = None.
  Proof.
    intros H Q E. apply (group_at_none (groups1_ok GOK)). intros g1 I F. apply groups1_in in I. destruct I as [g [I ->]].
    rewrite (hd_map_inv GOK I) in F. rewrite <- (inv_at' H Q) in F. apply (inv_inj GOK) in F.
    - rewrite (group_at_none GOK) in E. now apply (E g).
    - apply (g_lt GOK I). now apply (g_hd_in GOK).
    - destruct (fp_at GOK H Q) as [F1 F2]. rewrite <- F1. apply (is_perm_nth_lt (fp_perm GOK) F2).
  Qed.
  Lemma g1_contains n q : n < N -> q < length (expand groups n) -> contains (concat g1s) (ST n + q) = contains (concat groups) (nth q (expand groups n) 0).
  Proof.
    intros H Q. apply eq_true_iff_eq. rewrite !contains_iff. unfold g1s, groups1. rewrite <- concat_map, in_map_iff. split.
    - intros [x [E I]]. rewrite <- (inv_at' H Q) in E. apply (inv_inj GOK) in E.
      + now rewrite <- E.
      + apply in_concat in I. destruct I as [g [I1 I2]]. apply (g_lt GOK I1 I2).
      + destruct (fp_at GOK H Q) as [F1 F2]. rewrite <- F1. apply (is_perm_nth_lt (fp_perm GOK) F2).
    - intros I. exists (nth q (expand groups n) 0). split; [now apply inv_at'|exact I].
  Qed.

  Definition keptb (n : nat) : bool := negb (absorbed groups n).
  Definition pinv (n : nat) (ps : list (option leg)) : Prop :=
    length ps = length groups /\ (forall m g, group_at groups m = Some g -> m < n -> nth (rank groups m) ps None = Some (result_pipe t groups d m)) /\
    (forall i, rank groups n <= i -> nth i ps None = nth i pipes None).
  Definition stt (n : nat) (ps : list (option leg)) : cstate :=
    CState (rank groups n) (Z.of_nat (unlabelled_before t groups n)) ps
      (map (result_leg t groups d) (filter (fun m => keptb m && (m <? J)) (seq 0 n)))
      (map (result_label t groups) (filter (fun m => keptb m && (m <? J)) (seq 0 n)))
      (map (fun m => dual_leg (result_leg t groups d m)) (filter (fun m => keptb m && negb (m <? J)) (seq 0 n)))
      (map (result_label t groups) (filter (fun m => keptb m && negb (m <? J)) (seq 0 n))).
  Lemma filter_seq_S f n : filter f (seq 0 (Datatypes.S n)) = filter f (seq 0 n) ++ (if f n then [n] else []).
  Proof. rewrite seq_S, filter_app. cbn [plus filter]. destruct (f n); reflexivity. Qed.
  Lemma pinv_skip n ps : group_at groups n = None -> pinv n ps -> pinv (Datatypes.S n) ps.
  Proof.
    intros E [H1 [H2 H3]]. split; [exact H1|]. split.
    - intros m g G M. apply (H2 m g G). destruct (Nat.eq_dec m n) as [->|]; [congruence|lia].
    - intros i I. apply H3. assert (R := rank_mono groups (m := n) (n := Datatypes.S n)). lia.
  Qed.
  Lemma pinv_upd n ps g : group_at groups n = Some g -> pinv n ps -> pinv (Datatypes.S n) (upd ps (rank groups n) (Some (result_pipe t groups d n))).
  Proof.
    intros E [H1 [H2 H3]]. assert (RL := rank_lt_length GOK E). split; [now rewrite upd_length|]. split.
    - intros m g' G M. destruct (Nat.eq_dec m n) as [->|NE].
      + rewrite nth_upd_eq; [reflexivity|lia].
      + assert (RK := rank_lt (n := n) GOK G). rewrite nth_upd_neq by lia. apply (H2 m g' G). lia.
    - intros i I. assert (R := rank_S n (heads_NoDup GOK)). rewrite E in R. rewrite nth_upd_neq by lia. apply H3. lia.
  Qed.
  Lemma unl_S n : unlabelled_before t groups (Datatypes.S n) = unlabelled_before t groups n + match group_at groups n with Some g => length (filter (fun l => match label_at t l with None => true | _ => false end) g) | None => 0 end.
  Proof. unfold unlabelled_before. apply (count_S (fun g => length (filter (fun l => match label_at t l with None => true | _ => false end) g)) n (heads_NoDup GOK)). Qed.
  Lemma none_count_map (f : nat -> label) g : none_count (map f g) = Z.of_nat (length (filter (fun l => match f l with None => true | _ => false end) g)).
  Proof.
    unfold none_count. f_equal. induction g as [|x g IH]; [reflexivity|]. cbn [map filter]. destruct (f x); cbn [length]; lia.
  Qed.

  Lemma step_block n ps : n < N -> pinv n ps -> exists ps', pinv (Datatypes.S n) ps' /\
    walk_all (walk_combine debug ab S t1 g1s dualities) (stt n ps) (seq (ST n) (length (expand groups n))) = Some (stt (Datatypes.S n) ps').
  Proof.
    intros H PI. destruct (cases GOK n) as [[g E]|[[E A]|[E [A NI]]]].
    - (* a group *)
      assert (EX := expand_group E). assert (I := proj1 (proj1 (group_at_iff GOK _ _) E)). assert (NE := g_nonempty GOK I).
      assert (HD := proj2 (proj1 (group_at_iff GOK _ _) E)).
      set (k := length g). assert (K0 : 0 < k) by (unfold k; destruct g; [congruence|cbn; lia]).
      exists (upd ps (rank groups n) (Some (result_pipe t groups d n))). split; [now apply pinv_upd with (g := g)|].
      rewrite EX. fold k. destruct k as [|k'] eqn:EK; [lia|]. cbn [seq walk_all].
      set (s' := stt (Datatypes.S n) (upd ps (rank groups n) (Some (result_pipe t groups d n)))).
      assert (STEP : walk_combine debug ab S t1 g1s dualities (stt n ps) (ST n) = Some s').
      { unfold walk_combine. rewrite (lookup_codomain (groups1_ok GOK)), (lookup_domain (groups1_ok GOK)), t1_J.
        change (groups1 N groups) with g1s. rewrite (g1_head E H).
        assert (SL : (ST n <? ST J) = (n <? J)) by (apply start_ltb; now rewrite EX).
        rewrite SL.
        assert (HDs : hd 0 (seq (ST n) (length g)) = ST n) by (fold k; rewrite EK; reflexivity).
        assert (LAST : last (seq (ST n) (length g)) 0 + 1 = ST n + length (expand groups n)) by (rewrite last_seq by (fold k; lia); rewrite EX; fold k; lia).
        assert (LAST2 : last (seq (ST n) (length g)) 0 = ST n + length (expand groups n) - 1) by lia.
        assert (LB : map (fun l => nth l (t_labels t1) None) (seq (ST n) (length g)) = map (label_at t) g).
        { assert (L2 : ST (Datatypes.S n) <= N) by (rewrite <- start_N; apply start_mono; lia). rewrite start_S, EX in L2.
          rewrite slice_nth_seq; [|rewrite t1_labels, map_length, FP_length; exact L2].
          assert (K := slice_labels H). rewrite EX in K. exact K. }
        assert (RS := rank_S n (heads_NoDup GOK)). rewrite E in RS.
        assert (US := unl_S n). rewrite E in US.
        destruct (proj2 POK n g E) as [P0|P0].
        all: assert (PN : nth (rank groups n) ps None = nth (rank groups n) pipes None) by (apply (proj2 (proj2 PI)); lia).
        all: unfold s', stt; cbn [c_i c_off c_pipes c_cod c_codl c_dom c_doml].
        all: destruct (Nat.ltb_spec n J) as [L|L].
        - rewrite HDs, LAST, (slice_codomain L), EX. rewrite make_pipe_eq by (left; congruence).
          rewrite RS, US, LB, none_count_map. rewrite Nat2Z.inj_add. rewrite !filter_seq_S.
          unfold keptb. rewrite (head_not_absorbed GOK E). cbn [negb andb].
          destruct (Nat.ltb_spec n J) as [_|]; [|lia]. cbn [negb]. rewrite !app_nil_r, !map_app. cbn [map].
          f_equal. f_equal.
          + f_equal. unfold result_pipe. destruct (Nat.ltb_spec n (num_codomain t)) as [_|B]; [|exfalso; unfold J in L; lia].
            unfold result_leg. rewrite E. reflexivity.
          + f_equal. unfold result_leg. rewrite E. reflexivity.
          + f_equal. unfold result_label. rewrite E. f_equal. f_equal. f_equal. assert (K := slice_labels H). rewrite EX in K. exact K.
        - rewrite HDs, LAST2. rewrite t1_N.
          replace (N - 1 - (ST n + length (expand groups n) - 1)) with (N - (ST n + length (expand groups n))) by (rewrite EX; fold k; lia).
          assert (L2 : ST (Datatypes.S n) <= N) by (rewrite <- start_N; apply start_mono; lia). rewrite start_S in L2.
          assert (L3 : 0 < length (expand groups n)) by (rewrite EX; fold k; lia).
          replace (N - 1 - ST n + 1) with (N - ST n) by lia.
          rewrite (slice_domain (conj L H)) by (rewrite EX; exact NE). rewrite EX. rewrite make_pipe_eq by (left; congruence).
          rewrite RS, US, LB, none_count_map. rewrite Nat2Z.inj_add. rewrite !filter_seq_S.
          unfold keptb. rewrite (head_not_absorbed GOK E). cbn [negb andb].
          destruct (Nat.ltb_spec n J) as [|_]; [lia|]. cbn [negb]. rewrite !app_nil_r, !map_app. cbn [map].
          f_equal. f_equal.
          + f_equal. unfold result_pipe. destruct (Nat.ltb_spec n (num_codomain t)) as [B|_]; [exfalso; unfold J in L; lia|].
            unfold result_leg. rewrite E. cbn [dual_leg]. fold d. reflexivity.
          + f_equal. unfold result_leg. rewrite E. cbn [dual_leg]. reflexivity.
          + f_equal. unfold result_label. rewrite E. f_equal. f_equal. f_equal.
            replace (ST n + length g - 1 + 1) with (ST n + length g) by (fold k; lia).
            assert (K := slice_labels H). rewrite EX in K. exact K.
        - rewrite HDs, LAST, (slice_codomain L), EX. rewrite make_pipe_eq.
          2:{ right. rewrite PN, P0. f_equal. unfold result_pipe. destruct (Nat.ltb_spec n (num_codomain t)) as [_|B]; [|exfalso; unfold J in L; lia].
              unfold result_leg. rewrite E. reflexivity. }
          rewrite RS, US, LB, none_count_map. rewrite Nat2Z.inj_add. rewrite !filter_seq_S.
          unfold keptb. rewrite (head_not_absorbed GOK E). cbn [negb andb].
          destruct (Nat.ltb_spec n J) as [_|]; [|lia]. cbn [negb]. rewrite !app_nil_r, !map_app. cbn [map].
          f_equal. f_equal.
          + f_equal. unfold result_pipe. destruct (Nat.ltb_spec n (num_codomain t)) as [_|B]; [|exfalso; unfold J in L; lia].
            unfold result_leg. rewrite E. reflexivity.
          + f_equal. unfold result_leg. rewrite E. reflexivity.
          + f_equal. unfold result_label. rewrite E. f_equal. f_equal. f_equal. assert (K := slice_labels H). rewrite EX in K. exact K.
        - rewrite HDs, LAST2. rewrite t1_N.
          replace (N - 1 - (ST n + length (expand groups n) - 1)) with (N - (ST n + length (expand groups n))) by (rewrite EX; fold k; lia).
          assert (L2 : ST (Datatypes.S n) <= N) by (rewrite <- start_N; apply start_mono; lia). rewrite start_S in L2.
          assert (L3 : 0 < length (expand groups n)) by (rewrite EX; fold k; lia).
          replace (N - 1 - ST n + 1) with (N - ST n) by lia.
          rewrite (slice_domain (conj L H)) by (rewrite EX; exact NE). rewrite EX. rewrite make_pipe_eq.
          2:{ right. rewrite PN, P0. f_equal. unfold result_pipe. destruct (Nat.ltb_spec n (num_codomain t)) as [B|_]; [exfalso; unfold J in L; lia|].
              unfold result_leg. rewrite E. reflexivity. }
          rewrite RS, US, LB, none_count_map. rewrite Nat2Z.inj_add. rewrite !filter_seq_S.
          unfold keptb. rewrite (head_not_absorbed GOK E). cbn [negb andb].
          destruct (Nat.ltb_spec n J) as [|_]; [lia|]. cbn [negb]. rewrite !app_nil_r, !map_app. cbn [map].
          f_equal. f_equal.
          + f_equal. unfold result_pipe. destruct (Nat.ltb_spec n (num_codomain t)) as [B|_]; [exfalso; unfold J in L; lia|].
            unfold result_leg. rewrite E. cbn [dual_leg]. reflexivity.
          + f_equal. unfold result_leg. rewrite E. cbn [dual_leg]. reflexivity.
          + f_equal. unfold result_label. rewrite E. f_equal. f_equal. f_equal.
            replace (ST n + length g - 1 + 1) with (ST n + length g) by (fold k; lia).
            assert (K := slice_labels H). rewrite EX in K. exact K. }
      rewrite STEP. apply walk_all_skip. intros p P. apply in_seq in P.
      assert (Q : exists q, p = ST n + q /\ 0 < q < length (expand groups n)) by (exists (p - ST n); rewrite EX; fold k; lia).
      destruct Q as [q [-> [Q1 Q2]]].
      set (x := nth q (expand groups n) 0).
      assert (X : In x (tl g)).
      { unfold x. rewrite EX. rewrite EX in Q2. destruct g as [|y g]; [congruence|]. destruct q as [|q]; [lia|]. cbn [nth tl]. cbn [length] in Q2. apply nth_In. lia. }
      assert (AX : absorbed groups x = true) by (apply absorbed_iff; exists g; now split).
      assert (GX : group_at groups x = None).
      { destruct (group_at groups x) eqn:F; [|reflexivity]. apply (head_not_absorbed GOK) in F. congruence. }
      unfold walk_combine. rewrite (lookup_codomain (groups1_ok GOK)), (lookup_domain (groups1_ok GOK)).
      change (groups1 N groups) with g1s. rewrite (g1_none H Q2 GX), (g1_contains H Q2). fold x.
      assert (CX : contains (concat groups) x = true) by (rewrite (contains_concat GOK), GX; exact AX).
      rewrite CX. destruct (_ <? _); reflexivity.
    - (* absorbed *)
      exists ps. split; [now apply pinv_skip|]. rewrite (expand_absorbed GOK A). cbn [length seq walk_all]. f_equal.
      unfold stt. assert (RS := rank_S n (heads_NoDup GOK)). rewrite E in RS. assert (US := unl_S n). rewrite E in US. rewrite RS, US, !Nat.add_0_r.
      rewrite !filter_seq_S. unfold keptb. rewrite A. cbn [negb andb]. now rewrite !app_nil_r.
    - (* an uncombined leg *)
      exists ps. split; [now apply pinv_skip|]. assert (EX := expand_single GOK NI). rewrite EX. cbn [length seq walk_all].
      assert (Q : 0 < length (expand groups n)) by (rewrite EX; cbn; lia).
      assert (X : nth 0 (expand groups n) 0 = n) by (rewrite EX; reflexivity).
      assert (G0 : group_at g1s (ST n) = None) by (rewrite <- (Nat.add_0_r (ST n)); apply (g1_none H Q); rewrite X; exact E).
      assert (CC : contains (concat g1s) (ST n) = false) by (rewrite <- (Nat.add_0_r (ST n)), (g1_contains H Q), X; now apply contains_false).
      unfold walk_combine. rewrite (lookup_codomain (groups1_ok GOK)), (lookup_domain (groups1_ok GOK)).
      change (groups1 N groups) with g1s. rewrite G0, CC, t1_J.
      assert (SL : (ST n <? ST J) = (n <? J)) by (apply start_ltb; now rewrite EX). rewrite SL.
      rewrite (nth_label H EX). rewrite t1_N.
      assert (RS := rank_S n (heads_NoDup GOK)). rewrite E in RS. assert (US := unl_S n). rewrite E in US.
      assert (SN : ST n < num_legs t1).
      { rewrite t1_N. assert (K := start_mono (m := Datatypes.S n) (n := N) H). rewrite start_S, start_N in K. lia. }
      assert (RL : result_leg t groups d n = leg_at t n) by (unfold result_leg; now rewrite E).
      assert (RB : result_label t groups n = label_at t n) by (unfold result_label; now rewrite E).
      destruct (Nat.ltb_spec n J) as [L|L].
      + unfold stt. cbn [c_i c_off c_pipes c_cod c_codl c_dom c_doml]. rewrite RS, US, !Nat.add_0_r, !filter_seq_S. unfold keptb. rewrite A. cbn [negb andb].
        destruct (Nat.ltb_spec n J) as [_|]; [|lia]. cbn [negb]. rewrite !app_nil_r, !map_app. cbn [map]. rewrite RL, RB.
        f_equal. f_equal. f_equal. f_equal. rewrite <- (nth_leg H EX). rewrite legs_nth by exact SN. unfold as_codomain_leg. now rewrite t1_J, SL.
      + unfold stt. cbn [c_i c_off c_pipes c_cod c_codl c_dom c_doml]. rewrite RS, US, !Nat.add_0_r, !filter_seq_S. unfold keptb. rewrite A. cbn [negb andb].
        destruct (Nat.ltb_spec n J) as [|_]; [lia|]. cbn [negb]. rewrite !app_nil_r, !map_app. cbn [map]. rewrite RL, RB.
        f_equal. f_equal. f_equal. f_equal. rewrite <- (nth_leg H EX). rewrite legs_nth by exact SN. unfold as_codomain_leg. rewrite t1_J, SL, dual_leg_invol, t1_N. reflexivity.
  Qed.
  Lemma walk_result : exists ps, pinv N ps /\ walk_all (walk_combine debug ab S t1 g1s dualities) (CState 0 0 pipes [] [] [] []) (seq 0 N) = Some (stt N ps).
  Proof.
    assert (K : forall n, n <= N -> exists ps, pinv n ps /\ walk_all (walk_combine debug ab S t1 g1s dualities) (CState 0 0 pipes [] [] [] []) (seq 0 (ST n)) = Some (stt n ps)).
    { induction n as [|n IH]; intros Hn.
      - exists pipes. split.
        + split; [apply POK|]. split; [intros; lia|reflexivity].
        + change (ST 0) with 0. cbn [seq walk_all]. unfold stt. rewrite rank_0, unlabelled_0. reflexivity.
      - destruct (IH ltac:(lia)) as [ps [P W]]. destruct (step_block (n := n) ltac:(lia) P) as [ps' [P' W']]. exists ps'. split; [exact P'|].
        rewrite start_S, seq_app, walk_all_app, W. cbn [plus]. exact W'. }
    destruct (K N (le_n N)) as [ps [P W]]. rewrite start_N in W. now exists ps.
  Qed.
End Walk.
