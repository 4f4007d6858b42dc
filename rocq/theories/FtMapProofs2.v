(** TreePairMapping::transform_tensor: the block of one pair of new trees. *)
From Verif Require Import Util StableSort RowModel RowProofs GridModel GridProofs SymModel SymProofs CatSpec Sums SpaceModel SpaceSpec SpaceProofs SpaceProofs2 SpaceProofs7
  PipeModel PipeProofs PipeProofs4 TreeModel TreeProofs TreeProofs5 TensorModel TensorSpec FormalSum TensorProofs TensorProofs2 TensorProofs3 TensorProofs4 TensorProofs5 TensorProofs6 BlockModel BlockProofs
  SparseModel ConvertModel ConvertSpec ConvertProofs3 FtOpsModel FtOpsSpec MappingModel MappingProofs PermLegsModel FtMapModel FtMapSpec FtMapProofs.
Set Implicit Arguments. Unset Strict Implicit.
Open Scope nat_scope.

Lemma mult_r_0 K (o : ops K) : is_semiring o -> forall x, omul o x (o0 o) = o0 o.
Proof. intros SR x. rewrite (SRmul_comm SR). apply (SRmul_0_l SR). Qed.

(** *** axes *)
Section Axis.
  Variables J N : nat.
  Definition axis (i : nat) : nat := if i <? J then i else (N - 1) + J - i.
  Lemma axis_nth (T : Type) (d : T) l1 l2 i : length l1 = J -> J + length l2 = N -> i < N -> nth (axis i) (l1 ++ l2) d = nth i (l1 ++ rev l2) d.
  Proof.
    intros L1 L2 Hi. unfold axis. destruct (Nat.ltb_spec i J) as [A|A].
    - rewrite !app_nth1 by lia. reflexivity.
    - rewrite !app_nth2 by lia. rewrite rev_nth by lia. f_equal. lia.
  Qed.
  Lemma axis_take (T : Type) (d : T) l1 l2 p : length l1 = J -> J + length l2 = N -> Forall (fun i => i < N) p -> take d (l1 ++ l2) (map axis p) = take d (l1 ++ rev l2) p.
  Proof. intros L1 L2 F. unfold take. rewrite map_map. apply map_ext_in. intros i Hi. apply axis_nth; auto. exact (proj1 (Forall_forall _ _) F i Hi). Qed.
  Lemma axis_perm p : J <= N -> is_perm N p -> is_perm N (map axis p).
  Proof.
    intros LE H. apply is_perm_intro; [rewrite map_length; apply (is_perm_length H)| |].
    - apply NoDup_map_inj; [|apply (is_perm_NoDup H)]. intros x y Hx Hy. apply (is_perm_In x H) in Hx. apply (is_perm_In y H) in Hy. unfold axis.
      destruct (Nat.ltb_spec x J), (Nat.ltb_spec y J); lia.
    - apply Forall_map, Forall_forall. intros x Hx. apply (is_perm_In x H) in Hx. unfold axis. destruct (Nat.ltb_spec x J); lia.
  Qed.
End Axis.

Lemma bslice_matrix K (o : ops K) (B : blk K) a b c d m n : is_matrix m n B -> b <= m -> d <= n -> is_matrix (b - a) (d - c) (bslice o B [a; c] [b; d]) /\
  forall x y, x < b - a -> y < d - c -> bat o (bslice o B [a; c] [b; d]) [x; y] = bat o B [a + x; c + y].
Proof.
  intros _ _ _. split; [split; [reflexivity|apply bmk_wf]|]. intros x y Hx Hy. unfold bslice. rewrite bat_bmk; [reflexivity|]. repeat constructor; assumption.
Qed.
Lemma matrix_valid K m n (B : blk K) x y : is_matrix m n B -> x < m -> y < n -> valid_idx (bshape B) [x; y].
Proof. intros [-> _] Hx Hy. repeat constructor; assumption. Qed.

Section PairSum.
  Variable S : tsymm.
  Hypothesis OK : tsymm_ok S.
  Variable K : Type.
  Variable o : ops K.
  Hypothesis SR : semi_ring_theory (o0 o) (o1 o) (oadd o) (omul o) (@eq K).
  Add Ring Kr : SR.
  Variable re : K -> K.
  Notation block := (blk K).
  Notation fdata := (list (nat * nat * blk K)).
  Notation pair_map := (list ((tree * tree) * list ((tree * tree) * K))).
  Variables P Q : tprod.
  Variable F : fdata.
  Hypothesis HP : tp_ok S P.
  Hypothesis HQ : tp_ok S Q.
  Hypothesis FO : ft_ok P Q F.

  Definition start_of (R : tprod) (t : tree) : nat := match tree_block_slice S R t with Some (a, _) => a | None => 0 end.
  (** what the entry [e] of the mapping contributes to the block of the new pair [XY] *)
  Definition contribution (XY : tree * tree) (e : (tree * tree) * list ((tree * tree) * K)) (x y : nat) : K :=
    match find pair_dec (snd e) XY with
    | None => o0 o
    | Some c => omul o c (ft_entry o Q F (t_coup (fst (fst e))) (start_of P (fst (fst e)) + x) (start_of Q (snd (fst e)) + y))
    end.
  Definition optat (B : option block) (x y : nat) : K := match B with Some b => bat o b [x; y] | None => o0 o end.
  Definition opt_matrix (m n : nat) (B : option block) : Prop := match B with Some b => is_matrix m n b | None => True end.

  Lemma pair_sum_spec real XY M N (m : pair_map) : 
    (forall e c, In e m -> find pair_dec (snd e) XY = Some c -> as_scalar re real c = c /\ exists k, tree_of S P k (fst (fst e)) /\ tree_of S Q k (snd (fst e)) /\ prod (tree_mults S P (fst (fst e))) = M /\ prod (tree_mults S Q (snd (fst e))) = N) ->
    forall acc, opt_matrix M N acc ->
    exists res, pair_sum S o re real m F P Q XY acc = Some res /\ opt_matrix M N res /\
      (res = None -> acc = None) /\
      forall x y, x < M -> y < N -> optat res x y = oadd o (optat acc x y) (osum o (map (fun e => contribution XY e x y) m)).
  Proof.
    induction m as [|[XYo col] m IH]; intros H acc HA.
    - exists acc. split; [reflexivity|]. split; [exact HA|]. split; [auto|]. intros x y _ _. cbn [map]. rewrite sum_nil. ring.
    - assert (H' : forall e c, In e m -> find pair_dec (snd e) XY = Some c -> as_scalar re real c = c /\ exists k, tree_of S P k (fst (fst e)) /\ tree_of S Q k (snd (fst e)) /\ prod (tree_mults S P (fst (fst e))) = M /\ prod (tree_mults S Q (snd (fst e))) = N) by (intros e c I; apply H; now right).
      cbn [pair_sum]. assert (CT : forall x y, osum o (map (fun e => contribution XY e x y) ((XYo, col) :: m)) = oadd o (contribution XY (XYo, col) x y) (osum o (map (fun e => contribution XY e x y) m))) by (intros; cbn [map]; apply sum_cons).
      destruct (find pair_dec col XY) as [c|] eqn:FD.
      2: { destruct (IH H' acc HA) as (res & E & M1 & NN & V). exists res. split; [exact E|]. split; [exact M1|]. split; [exact NN|]. intros x y Hx Hy. rewrite (V x y Hx Hy), CT.
           assert (Z : contribution XY (XYo, col) x y = o0 o) by (unfold contribution; cbn [fst snd]; now rewrite FD). rewrite Z. ring. }
      destruct (H (XYo, col) c (or_introl eq_refl) FD) as (RE & k & T1 & T2 & EM & EN). cbn [fst snd] in *. rewrite (tree_of_coup T1).
      destruct (tree_item OK HP T1) as (x1 & I1 & E1 & SL1 & MU1 & ST1 & B1). destruct (tree_item OK HQ T2) as (x2 & I2 & E2 & SL2 & MU2 & ST2 & B2).
      assert (S1 : start_of P (fst XYo) = tb_start x1) by (unfold start_of; now rewrite SL1). assert (S2 : start_of Q (snd XYo) = tb_start x2) by (unfold start_of; now rewrite SL2).
      destruct (coupled_spec OK HQ k FO) as [[b [E [Hb Fb]]]|[E NB]]; rewrite E.
      + rewrite SL1, SL2. cbn [fst snd]. assert (MB : is_matrix (block_size P k) (block_size Q k) (snd (frow F b))).
        { split; [|apply (ft_wf FO Hb)]. assert (X := ft_shape OK HP HQ FO Hb). rewrite Fb in X. exact X. }
        destruct (@bslice_matrix K o (snd (frow F b)) (tb_start x1) (tb_stop x1) (tb_start x2) (tb_stop x2) _ _ MB B1 B2) as [MS VS].
        replace (tb_stop x1 - tb_start x1) with M in * by lia. replace (tb_stop x2 - tb_start x2) with N in * by lia.
        set (sub := bslice o (snd (frow F b)) [tb_start x1; tb_start x2] [tb_stop x1; tb_stop x2]) in *. rewrite RE.
        assert (MA : is_matrix M N (bmul o c sub)) by (split; [apply MS|apply bmul_wf; apply MS]).
        assert (VA : forall x y, x < M -> y < N -> bat o (bmul o c sub) [x; y] = contribution XY (XYo, col) x y).
        { intros x y Hx Hy. rewrite bat_mul by (apply MS || eapply matrix_valid; eauto). rewrite VS by assumption. unfold contribution. cbn [fst snd]. rewrite FD, (tree_of_coup T1), S1, S2. f_equal.
          rewrite <- Fb. symmetry. apply (ft_entry_at OK o HQ _ _ FO Hb). }
        set (acc' := Some (match acc with None => bmul o c sub | Some t => badd o t (bmul o c sub) end)).
        assert (MA' : opt_matrix M N acc').
        { unfold acc'. destruct acc as [t|]; [|exact MA]. cbn [opt_matrix] in *. split; [apply HA|]. apply badd_wf; [apply HA|apply MA|]. rewrite (proj1 HA). symmetry. apply MA. }
        destruct (IH H' acc' MA') as (res & E' & M1 & NN & V). exists res. split; [exact E'|]. split; [exact M1|]. split; [intros X; apply NN in X; discriminate|].
        intros x y Hx Hy. rewrite (V x y Hx Hy), CT. unfold acc'. destruct acc as [t|]; cbn [optat opt_matrix] in *.
        * rewrite bat_add by (apply HA || apply MA || (rewrite (proj1 HA); symmetry; apply MA) || (eapply matrix_valid; eauto)). rewrite VA by assumption. ring.
        * rewrite VA by assumption. ring.
      + destruct (IH H' acc HA) as (res & E' & M1 & NN & V). exists res. split; [exact E'|]. split; [exact M1|]. split; [exact NN|]. intros x y Hx Hy. rewrite (V x y Hx Hy), CT.
        assert (Z : contribution XY (XYo, col) x y = o0 o). { unfold contribution. cbn [fst snd]. rewrite FD, (tree_of_coup T1). rewrite (ft_entry_none o _ _ FO NB). now apply mult_r_0. }
        rewrite Z. ring.
  Qed.
End PairSum.
