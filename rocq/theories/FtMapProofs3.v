(** TreePairMapping::transform_tensor: the blocks of the result. *)
From Verif Require Import Util StableSort RowModel RowProofs GridModel GridProofs SymModel SymProofs CatSpec Sums SpaceModel SpaceSpec SpaceProofs SpaceProofs2 SpaceProofs7
  PipeModel PipeProofs PipeProofs4 TreeModel TreeProofs TreeProofs5 TensorModel TensorSpec FormalSum TensorProofs TensorProofs2 TensorProofs3 TensorProofs4 TensorProofs5 TensorProofs6 BlockModel BlockProofs
  SparseModel ConvertModel ConvertSpec ConvertProofs3 FtOpsModel FtOpsSpec FtOpsProofs2 FtOpsProofs3 FtOpsProofs4 MappingModel MappingProofs PermLegsModel FtMapModel FtMapSpec FtMapProofs FtMapProofs2.
Set Implicit Arguments. Unset Strict Implicit.
Open Scope nat_scope.

Lemma app_inv_len T (a b c d : list T) : length a = length c -> a ++ b = c ++ d -> a = c /\ b = d.
Proof. revert c. induction a as [|x a IH]; intros [|y c] L E; try discriminate; [auto|]. injection E as -> E. destruct (IH c ltac:(cbn in L; lia) E) as [-> ->]. auto. Qed.
Lemma flat_lt s r : valid_idx s r -> flat_index s true r < prod s.
Proof. intros V. now apply flat_index_lt. Qed.

(** *** legs *)
Section Legs.
  Variables (J Kn : nat) (ci di : list nat).
  Let N := J + Kn.
  Hypothesis PM : is_perm N (leg_order ci di).
  Notation axis := (axis J N).
  Lemma leg_len : length ci + length di = N.
  Proof. rewrite <- (is_perm_length PM). unfold leg_order. rewrite app_length, rev_length. reflexivity. Qed.
  Lemma axes_perm : is_perm N (map axis ci ++ map axis di).
  Proof.
    rewrite <- map_app. apply axis_perm; [unfold N; lia|]. unfold is_perm. eapply Permutation_trans; [|exact PM]. apply Permutation_app_head. apply Permutation_rev.
  Qed.
  Lemma leg_bounds : Forall (fun i => i < N) ci /\ Forall (fun i => i < N) di.
  Proof.
    assert (F := Util.is_perm_Forall PM). unfold leg_order in F. apply Forall_app in F. destruct F as [A B]. split; [exact A|]. apply Forall_forall. intros x Hx. apply (proj1 (Forall_forall _ _) B). now apply in_rev in Hx.
  Qed.
  (** the new lists, given by [leg_order], and the axes that are used *)
  Lemma permuted_parts (T : Type) (d : T) cod dom cod' dom' : length cod = J -> length dom = Kn -> length cod' = length ci -> permuted_legs d ci di cod dom cod' dom' ->
    cod' = take d (cod ++ dom) (map axis ci) /\ dom' = take d (cod ++ dom) (map axis di).
  Proof.
    intros L1 L2 L3 H. unfold permuted_legs, leg_order in H. rewrite take_app_idx in H. apply app_inv_len in H; [|now rewrite take_length]. destruct H as [E1 E2].
    destruct leg_bounds as [B1 B2]. rewrite !axis_take by (auto; unfold N; lia). split; [exact E1|]. apply (f_equal (@rev T)) in E2. rewrite rev_involutive in E2. rewrite E2.
    unfold take. rewrite <- map_rev, rev_involutive. reflexivity.
  Qed.
  Lemma permuted_old (T : Type) (d : T) cod dom cod' dom' : length cod = J -> length dom = Kn -> permuted_legs d ci di cod dom cod' dom' ->
    let old := take d (cod' ++ rev dom') (inverse_permutation (leg_order ci di)) in firstn J old = cod /\ rev (skipn J old) = dom.
  Proof.
    intros L1 L2 H old. assert (E : old = cod ++ rev dom). { apply take_inv_unique; [|exact H]. rewrite app_length, rev_length, L1, L2. exact PM. }
    rewrite E. split; [rewrite firstn_app, firstn_all2, L1, Nat.sub_diag by lia; cbn; apply app_nil_r|]. rewrite skipn_app, skipn_all2, L1, Nat.sub_diag by lia. cbn [skipn app]. apply rev_involutive.
  Qed.
  Lemma permuted_valid cod dom cod' dom' (p q p' q' : list nat) : length cod = J -> length dom = Kn -> length p = J -> length q = Kn -> length cod' = length ci -> length dom' = length di ->
    permuted_legs 0 ci di cod dom cod' dom' -> permuted_legs 0 ci di p q p' q' -> valid_idx cod' p' -> valid_idx dom' q' -> valid_idx cod p /\ valid_idx dom q.
  Proof.
    intros L1 L2 L3 L4 L5 L6 H1 H2 V1 V2. assert (V : valid_idx (cod' ++ rev dom') (p' ++ rev q')) by (rewrite valid_app by (apply (valid_length V1)); split; [exact V1|apply (proj1 (valid_rev _ _)); exact V2]).
    unfold permuted_legs in *. rewrite H1 in V. assert (PM1 : is_perm (length (cod ++ rev dom)) (leg_order ci di)) by (rewrite app_length, rev_length, L1, L2; exact PM).
    apply (valid_untake PM1) in V. rewrite (@take_inv_unique _ 0 (p' ++ rev q') (p ++ rev q)) in V; [|rewrite app_length, rev_length, L3, L4; exact PM|exact H2].
    rewrite valid_app in V by lia. destruct V as [A B]. split; [exact A|]. now apply (proj2 (valid_rev _ _)).
  Qed.
End Legs.

Section Cells.
  Variable S : tsymm.
  Hypothesis OK : tsymm_ok S.
  Variable K : Type.
  Variable o : ops K.
  Hypothesis SR : semi_ring_theory (o0 o) (o1 o) (oadd o) (omul o) (@eq K).
  Add Ring Kr : SR.
  Variable re : K -> K.
  Notation block := (blk K).
  Notation fdata := (list (nat * nat * blk K)).
  Notation pair_map := (list ((tree * tree) * list ((tree * tree) * K))).
  Variables P Q P' Q' : tprod.
  Variable F : fdata.
  Hypothesis HP : tp_ok S P.
  Hypothesis HQ : tp_ok S Q.
  Hypothesis HP' : tp_ok S P'.
  Hypothesis HQ' : tp_ok S Q'.
  Hypothesis FO : ft_ok P Q F.
  Variables ci di : list nat.
  Notation J := (length (tp_flat_legs P)).
  Notation Kn := (length (tp_flat_legs Q)).
  Notation axis := (axis J (J + Kn)).
  Hypothesis PM : is_perm (J + Kn) (leg_order ci di).
  Hypothesis LC : length ci = length (tp_flat_legs P').
  Hypothesis LD : length di = length (tp_flat_legs Q').
  Variable real : bool.
  Variable m : pair_map.
  (** every entry of the mapping goes from a pair of trees of the old legs to a pair of trees of the permuted legs *)
  Definition maps_pairs : Prop := forall X Y col X' Y' c', In ((X, Y), col) m -> In (X', Y') (map fst col) -> tree_of S P' c' X' -> tree_of S Q' c' Y' ->
    exists c, tree_of S P c X /\ tree_of S Q c Y /\ permuted_legs 0 ci di (tree_mults S P X) (tree_mults S Q Y) (tree_mults S P' X') (tree_mults S Q' Y').
  Hypothesis MP : maps_pairs.
  Hypothesis RE : forall k col i c, In (k, col) m -> In (i, c) col -> as_scalar re real c = c.

  Definition new_value (X' Y' : tree) (p q : list nat) : K :=
    osum o (map (fun e => omul o (match find pair_dec (snd e) (X', Y') with Some c => c | None => o0 o end) (tree_value S o P Q F (fst (fst e)) p (snd (fst e)) q)) m).
  Notation perm_idx := (permuted_legs 0 ci di).

  (** the permuted block of one pair of new trees *)
  Lemma cell_spec c' X' Y' : tree_of S P' c' X' -> tree_of S Q' c' Y' -> let d := tree_mults S P' X' in let d' := tree_mults S Q' Y' in
    let old := take 0 (d ++ rev d') (inverse_permutation (leg_order ci di)) in
    exists res, pair_sum S o re real m F P Q (X', Y') None = Some res /\
      (res = None -> forall p q p' q', length p = J -> length q = Kn -> perm_idx p q p' q' -> valid_idx d p' -> valid_idx d' q' -> new_value X' Y' p q = o0 o) /\
      (forall B, res = Some B -> let B' := permute_combined_matrix o B (firstn J old) (map axis ci) (rev (skipn J old)) (map axis di) in
         is_matrix (prod d) (prod d') B' /\
         forall p q p' q', length p = J -> length q = Kn -> perm_idx p q p' q' -> valid_idx d p' -> valid_idx d' q' ->
           bat o B' [flat_index d true p'; flat_index d' true q'] = new_value X' Y' p q).
  Proof.
    intros TX TY d d' old. set (d1 := firstn J old). set (d2 := rev (skipn J old)).
    assert (Ld : length d = length ci) by (rewrite LC; apply (tree_mults_len TX)). assert (Ld' : length d' = length di) by (rewrite LD; apply (tree_mults_len TY)).
    assert (LN := leg_len PM). assert (LI : length (inverse_permutation (leg_order ci di)) = J + Kn).
    { rewrite inverse_permutation_length. apply (is_perm_length PM). }
    assert (Lo : length old = J + Kn) by (unfold old; rewrite take_length; exact LI).
    assert (L1 : length d1 = J) by (unfold d1; rewrite firstn_length; lia). assert (L2 : length d2 = Kn) by (unfold d2; rewrite rev_length, skipn_length; lia).
    assert (PD : permuted_legs 0 ci di d1 d2 d d').
    { unfold permuted_legs. assert (E : d1 ++ rev d2 = old) by (unfold d1, d2; rewrite rev_involutive; apply firstn_skipn). rewrite E. unfold old. rewrite take_take by (rewrite Forall_forall; intros i Hi; rewrite LI; exact (proj1 (is_perm_In i PM) Hi)).
      assert (PI : take 0 (inverse_permutation (leg_order ci di)) (leg_order ci di) = seq 0 (J + Kn)).
      { apply list_eq_nth with (d := 0); rewrite take_length, ?seq_length; [apply (is_perm_length PM)|]. intros i Hi. rewrite nth_take by exact Hi. rewrite (is_perm_length PM) in Hi. rewrite seq_nth by exact Hi. rewrite (inverse_permutation_l PM) by exact Hi. reflexivity. }
      rewrite PI. assert (LL : J + Kn = length (d ++ rev d')) by (rewrite app_length, rev_length; lia). rewrite LL. symmetry. apply take_seq. }
    assert (CON : forall e c, In e m -> find pair_dec (snd e) (X', Y') = Some c -> as_scalar re real c = c /\
      exists k, tree_of S P k (fst (fst e)) /\ tree_of S Q k (snd (fst e)) /\ tree_mults S P (fst (fst e)) = d1 /\ tree_mults S Q (snd (fst e)) = d2).
    { intros [[X Y] col] c I FD. cbn [fst snd] in *. assert (IC := find_In FD). split; [eapply RE; eauto|].
      destruct (MP I (in_map fst _ _ IC) TX TY) as (k & T1 & T2 & PL). exists k. split; [exact T1|]. split; [exact T2|].
      destruct (permuted_old PM (tree_mults_len T1) (tree_mults_len T2) PL) as [E1 E2]. fold d d' in E1, E2. split; [symmetry; exact E1|symmetry; exact E2]. }
    assert (SUM : forall p q p' q', length p = J -> length q = Kn -> perm_idx p q p' q' -> valid_idx d p' -> valid_idx d' q' -> valid_idx d1 p /\ valid_idx d2 q /\
      osum o (map (fun e => contribution S o P Q F (X', Y') e (flat_index d1 true p) (flat_index d2 true q)) m) = new_value X' Y' p q).
    { intros p q p' q' Lp Lq PL V V'. destruct (permuted_valid PM L1 L2 Lp Lq Ld Ld' PD PL V V') as [V1 V2]. split; [exact V1|]. split; [exact V2|]. unfold new_value. f_equal. apply map_ext_in. intros e Ie. unfold contribution.
      destruct (find pair_dec (snd e) (X', Y')) as [c|] eqn:FD; [|ring]. destruct (CON e c Ie FD) as (_ & k & T1 & T2 & E1 & E2). f_equal.
      unfold tree_value, start_of. destruct (tree_item OK HP T1) as (x1 & _ & _ & SL1 & _). destruct (tree_item OK HQ T2) as (x2 & _ & _ & SL2 & _). rewrite SL1, SL2, E1, E2. reflexivity. }
    destruct (@pair_sum_spec S OK K o SR re P Q F HP HQ FO real (X', Y') (prod d1) (prod d2) m) with (acc := @None block) as (res & E & MR & _ & V).
    { intros e c I FD. destruct (CON e c I FD) as (A & k & T1 & T2 & E1 & E2). split; [exact A|]. exists k. rewrite E1, E2. auto. }
    { exact Logic.I. }
    exists res. split; [exact E|]. split.
    - intros -> p q p' q' Lp Lq PL V1 V2. destruct (SUM p q p' q' Lp Lq PL V1 V2) as (W1 & W2 & <-). assert (VV := V _ _ (flat_lt W1) (flat_lt W2)). cbn [optat] in VV.
      rewrite (SRadd_0_l SR) in VV. symmetry. exact VV.
    - intros B -> B'. cbn [opt_matrix optat] in *. destruct (permuted_parts PM L1 L2 Ld PD) as [Ed Ed'].
      split.
      + split; [unfold B'; rewrite permute_matrix_shape; fold d1 d2; now rewrite <- Ed, <- Ed'|apply permute_matrix_wf].
      + intros p q p' q' Lp Lq PL V1 V2. destruct (SUM p q p' q' Lp Lq PL V1 V2) as (W1 & W2 & <-).
        assert (Lp' : length p' = length ci) by (rewrite (valid_length V1); exact Ld). destruct (permuted_parts PM Lp Lq Lp' PL) as [Ep Eq].
        rewrite Ed, Ed', Ep, Eq. unfold B'. fold d1 d2. rewrite permute_matrix_bat.
        * rewrite (V _ _ (flat_lt W1) (flat_lt W2)). ring.
        * apply MR.
        * apply MR.
        * rewrite L1, L2. apply axes_perm. exact PM.
        * exact W1.
        * exact W2.
  Qed.
End Cells.
