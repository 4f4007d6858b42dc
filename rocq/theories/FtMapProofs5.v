(** FactorizedTreeMapping::transform_tensor. *)
From Verif Require Import Util StableSort RowModel RowProofs GridModel GridProofs SymModel SymProofs CatSpec Sums SpaceModel SpaceSpec SpaceProofs SpaceProofs2 SpaceProofs7
  PipeModel PipeProofs PipeProofs4 TreeModel TreeProofs TreeProofs5 TensorModel TensorSpec FormalSum TensorProofs TensorProofs2 TensorProofs3 TensorProofs4 TensorProofs5 TensorProofs6 BlockModel BlockProofs
  SparseModel ConvertModel ConvertSpec ConvertProofs3 FtOpsModel FtOpsSpec FtOpsProofs2 FtOpsProofs3 FtOpsProofs4 MappingModel MappingProofs PermLegsModel FtMapModel FtMapSpec FtMapProofs FtMapProofs2 FtMapProofs3 FtMapProofs4.
Set Implicit Arguments. Unset Strict Implicit.
Open Scope nat_scope.

Lemma block_size_perm S (OK : tsymm_ok S) P Q c : tp_ok S P -> tp_ok S Q -> Permutation (tp_flat_legs P) (tp_flat_legs Q) -> block_size P c = block_size Q c.
Proof.
  intros HP HQ H. rewrite !(block_size_spec OK) by assumption. unfold fsum_of. apply (convs_perm (to_ring OK)); [apply (pairs_valid OK (proj1 HP))|]. now apply Permutation_map.
Qed.

Section Axes1.
  Variable K : Type.
  Variable o : ops K.
  Notation block := (blk K).
  Variables (dims idcs : list nat).
  Hypothesis PM : is_perm (length dims) idcs.
  Lemma prod_take : prod (take 0 dims idcs) = prod dims.
  Proof. apply prod_perm. apply take_Permutation. exact PM. Qed.
  Lemma permute_rows_matrix (B : block) N : is_matrix (prod dims) N B -> is_matrix (prod dims) N (permute_combined_rows o B dims idcs).
  Proof.
    intros [SH W]. unfold permute_combined_rows. cbv zeta. rewrite SH. cbn [nth]. split; [reflexivity|]. apply breshape_wf; [apply btranspose_wf|].
    rewrite btranspose_shape. cbn [breshape bshape]. rewrite prod_cons, prod_one, take_app_idx, prod_app. f_equal.
    - rewrite <- prod_take. f_equal. unfold take. apply map_ext_in. intros i Hi. apply (is_perm_In i PM) in Hi. symmetry. apply app_nth1. exact Hi.
    - unfold take. cbn [map]. rewrite app_nth2, (is_perm_length PM), Nat.sub_diag by (rewrite (is_perm_length PM); lia). cbn [nth]. symmetry. apply prod_one.
  Qed.
  Lemma permute_rows_bat (B : block) N r y : is_matrix (prod dims) N B -> valid_idx dims r -> y < N ->
    bat o (permute_combined_rows o B dims idcs) [flat_index (take 0 dims idcs) true (take 0 r idcs); y] = bat o B [flat_index dims true r; y].
  Proof.
    intros [SH W] V Hy. assert (LV := valid_length V). assert (LI := is_perm_length PM). unfold permute_combined_rows. cbv zeta. rewrite SH. cbn [nth].
    assert (T1 : forall (l : list nat) d, length l = length dims -> take 0 (l ++ [d]) (idcs ++ [length idcs]) = take 0 l idcs ++ [d]).
    { intros l d L. rewrite take_app_idx. f_equal.
      - unfold take. apply map_ext_in. intros i Hi. apply (is_perm_In i PM) in Hi. apply app_nth1. lia.
      - unfold take. cbn [map]. rewrite app_nth2, LI, L, Nat.sub_diag by lia. reflexivity. }
    set (T := btranspose o (breshape B (dims ++ [N])) (idcs ++ [length idcs])).
    assert (ST : bshape T = take 0 dims idcs ++ [N]) by (unfold T; rewrite btranspose_shape; cbn [breshape bshape]; now apply T1).
    assert (VV : valid_idx (dims ++ [N]) (r ++ [y])) by (rewrite valid_app by exact LV; split; [exact V|]; constructor; [exact Hy|constructor]).
    assert (PM' : is_perm (length (dims ++ [N])) (idcs ++ [length idcs])).
    { unfold is_perm. rewrite app_length. cbn [length]. rewrite seq_app. cbn [seq Nat.add]. rewrite LI. apply Permutation_app; [exact PM|reflexivity]. }
    rewrite (@bat_reshape K o T [prod dims; N] (take 0 (r ++ [y]) (idcs ++ [length idcs])) [flat_index (take 0 dims idcs) true (take 0 r idcs); y]).
    - unfold T. assert (BT := bat_transpose_take o (B := breshape B (dims ++ [N])) (p := idcs ++ [length idcs]) (r := r ++ [y])). unfold bndim in BT. cbn [breshape bshape] in BT. rewrite BT by auto. clear BT.
      rewrite (@bat_reshape K o B (dims ++ [N]) [flat_index dims true r; y] (r ++ [y])); [reflexivity|rewrite SH; reflexivity|apply (valid_length VV)|].
      rewrite SH, flat_index_2. rewrite flat_index_app by (exact LV || reflexivity). rewrite flat_index_1, prod_one. lia.
    - rewrite ST, take_length, !app_length, take_length. reflexivity.
    - reflexivity.
    - rewrite ST, (T1 r y LV), flat_index_2. rewrite flat_index_app by (rewrite ?take_length; reflexivity). rewrite flat_index_1, prod_one. lia.
  Qed.
  Lemma permute_cols_matrix (B : block) M : is_matrix M (prod dims) B -> is_matrix M (prod dims) (permute_combined_cols o B dims idcs).
  Proof.
    intros [SH W]. unfold permute_combined_cols. cbv zeta. rewrite SH. cbn [nth]. split; [reflexivity|]. apply breshape_wf; [apply btranspose_wf|].
    rewrite btranspose_shape. cbn [breshape bshape]. rewrite prod_cons, prod_one. assert (TT : take 0 (M :: dims) (0 :: map (fun i => 1 + i) idcs) = M :: take 0 dims idcs) by (unfold take; cbn [map nth]; rewrite map_map; reflexivity). rewrite TT, prod_cons, prod_take. reflexivity.
  Qed.
  Lemma permute_cols_bat (B : block) M r x : is_matrix M (prod dims) B -> valid_idx dims r -> x < M ->
    bat o (permute_combined_cols o B dims idcs) [x; flat_index (take 0 dims idcs) true (take 0 r idcs)] = bat o B [x; flat_index dims true r].
  Proof.
    intros [SH W] V Hx. assert (LV := valid_length V). assert (LI := is_perm_length PM). unfold permute_combined_cols. cbv zeta. rewrite SH. cbn [nth].
    assert (T1 : forall (l : list nat) d, take 0 (d :: l) (0 :: map (fun i => 1 + i) idcs) = d :: take 0 l idcs) by (intros l d; unfold take; cbn [map nth]; rewrite map_map; reflexivity).
    set (T := btranspose o (breshape B (M :: dims)) (0 :: map (fun i => 1 + i) idcs)).
    assert (ST : bshape T = M :: take 0 dims idcs) by (unfold T; rewrite btranspose_shape; cbn [breshape bshape]; now apply T1).
    assert (VV : valid_idx (M :: dims) (x :: r)) by (constructor; assumption).
    assert (PM' : is_perm (length (M :: dims)) (0 :: map (fun i => 1 + i) idcs)).
    { unfold is_perm. cbn [length seq]. constructor. rewrite <- seq_shift. apply Permutation_map. exact PM. }
    rewrite (@bat_reshape K o T [M; prod dims] (take 0 (x :: r) (0 :: map (fun i => 1 + i) idcs)) [x; flat_index (take 0 dims idcs) true (take 0 r idcs)]).
    - unfold T. assert (BT := bat_transpose_take o (B := breshape B (M :: dims)) (p := 0 :: map (fun i => 1 + i) idcs) (r := x :: r)). unfold bndim in BT. cbn [breshape bshape] in BT. rewrite BT by auto. clear BT.
      rewrite (@bat_reshape K o B (M :: dims) [x; flat_index dims true r] (x :: r)); [reflexivity|rewrite SH; reflexivity|apply (valid_length VV)|].
      rewrite SH, flat_index_2. assert (FA := @flat_index_app [M] dims [x] r eq_refl LV). cbn [app] in FA. rewrite FA, flat_index_1. reflexivity.
    - rewrite ST, take_length. cbn [length]. rewrite map_length, take_length. reflexivity.
    - reflexivity.
    - rewrite ST, (T1 r x), flat_index_2. assert (FA := @flat_index_app [M] (take 0 dims idcs) [x] (take 0 r idcs) eq_refl ltac:(rewrite !take_length; reflexivity)). cbn [app] in FA. rewrite FA, flat_index_1, prod_take. reflexivity.
  Qed.
End Axes1.

Lemma take_inverse (l : list nat) axes : is_perm (length l) axes -> take 0 (take 0 l axes) (inverse_permutation axes) = l.
Proof. intros H. apply take_inv_unique; [exact H|reflexivity]. Qed.

(** *** one side *)
Section Side.
  Variable S : tsymm.
  Hypothesis OK : tsymm_ok S.
  Variable K : Type.
  Variable o : ops K.
  Hypothesis SR : semi_ring_theory (o0 o) (o1 o) (oadd o) (omul o) (@eq K).
  Add Ring Kr : SR.
  Variable re : K -> K.
  Notation block := (blk K).
  Notation tree_map := (list (tree * list (tree * K))).
  Variables R R' : tprod.
  Hypothesis HR : tp_ok S R.
  Hypothesis HR' : tp_ok S R'.
  Variable axes : list nat.
  Hypothesis PM : is_perm (length (tp_flat_legs R)) axes.
  Variable real : bool.
  (** every entry of the mapping goes from a tree of the old legs to a tree of the permuted legs with the same coupled sector *)
  Definition maps_trees (m : tree_map) : Prop := forall X col X' c, In (X, col) m -> In X' (map fst col) -> tree_of S R' c X' -> tree_of S R c X /\ tree_mults S R' X' = take 0 (tree_mults S R X) axes.
  Definition real_entries (m : tree_map) : Prop := forall k col i c, In (k, col) m -> In (i, c) col -> as_scalar re real c = c.
  Definition coef (e : tree * list (tree * K)) (X' : tree) : K := match find tree_dec (snd e) X' with Some c => c | None => o0 o end.

  (** rows *)
  Definition new_row (m : tree_map) (B : block) (X' : tree) (p : list nat) (y : nat) : K :=
    osum o (map (fun e => omul o (coef e X') (bat o B [start_of S R (fst e) + flat_index (tree_mults S R (fst e)) true p; y])) m).
  Lemma rows_sum_spec c N (B : block) X' M : is_matrix (block_size R c) N B -> forall m, (forall e k, In e m -> find tree_dec (snd e) X' = Some k -> as_scalar re real k = k /\ tree_of S R c (fst e) /\ prod (tree_mults S R (fst e)) = M) ->
    forall acc, opt_matrix M N acc ->
    exists res, rows_sum S o re real m B R X' acc = Some res /\ opt_matrix M N res /\ (res = None -> acc = None) /\
      forall x y, x < M -> y < N -> optat o res x y = oadd o (optat o acc x y) (osum o (map (fun e => omul o (coef e X') (bat o B [start_of S R (fst e) + x; y])) m)).
  Proof.
    intros MB. induction m as [|[X col] m IH]; intros H acc HA.
    - exists acc. split; [reflexivity|]. split; [exact HA|]. split; [auto|]. intros x y _ _. cbn [map]. rewrite sum_nil. ring.
    - assert (H' : forall e k, In e m -> find tree_dec (snd e) X' = Some k -> as_scalar re real k = k /\ tree_of S R c (fst e) /\ prod (tree_mults S R (fst e)) = M) by (intros e k I; apply H; now right).
      cbn [rows_sum]. assert (CT : forall x y, osum o (map (fun e => omul o (coef e X') (bat o B [start_of S R (fst e) + x; y])) ((X, col) :: m)) = oadd o (omul o (coef (X, col) X') (bat o B [start_of S R X + x; y])) (osum o (map (fun e => omul o (coef e X') (bat o B [start_of S R (fst e) + x; y])) m))) by (intros; cbn [map]; apply sum_cons).
      destruct (find tree_dec col X') as [k|] eqn:FD.
      + destruct (H (X, col) k (or_introl eq_refl) FD) as (RE & T1 & EM). cbn [fst snd] in *. destruct (tree_item OK HR T1) as (x1 & I1 & E1 & SL1 & MU1 & ST1 & B1).
        assert (S1 : start_of S R X = tb_start x1) by (unfold start_of; now rewrite SL1). rewrite SL1. cbn [fst snd]. rewrite RE. rewrite (proj1 MB). cbn [nth].
        destruct (@bslice_matrix K o B (tb_start x1) (tb_stop x1) 0 N _ _ MB B1 ((le_n N))) as [MS VS]. replace (tb_stop x1 - tb_start x1) with M in * by lia. rewrite Nat.sub_0_r in *.
        set (sub := bslice o B [tb_start x1; 0] [tb_stop x1; N]) in *. assert (MA : is_matrix M N (bmul o k sub)) by (split; [apply MS|apply bmul_wf; apply MS]).
        assert (VA : forall x y, x < M -> y < N -> bat o (bmul o k sub) [x; y] = omul o (coef (X, col) X') (bat o B [start_of S R X + x; y])).
        { intros x y Hx Hy. rewrite bat_mul by (apply MS || eapply matrix_valid; eauto). rewrite VS by assumption. unfold coef. cbn [fst snd]. rewrite FD, S1. reflexivity. }
        set (acc' := Some (match acc with None => bmul o k sub | Some t => badd o t (bmul o k sub) end)).
        assert (MA' : opt_matrix M N acc').
        { unfold acc'. destruct acc as [t|]; [|exact MA]. cbn [opt_matrix] in *. split; [apply HA|]. apply badd_wf; [apply HA|apply MA|]. rewrite (proj1 HA). symmetry. apply MA. }
        destruct (IH H' acc' MA') as (res & E' & M1 & NN & V). exists res. split; [exact E'|]. split; [exact M1|]. split; [intros Z; apply NN in Z; discriminate|].
        intros x y Hx Hy. rewrite (V x y Hx Hy), CT. unfold acc'. destruct acc as [t|]; cbn [optat opt_matrix] in *.
        * rewrite bat_add by (apply HA || apply MA || (rewrite (proj1 HA); symmetry; apply MA) || (eapply matrix_valid; eauto)). rewrite VA by assumption. ring.
        * rewrite VA by assumption. ring.
      + destruct (IH H' acc HA) as (res & E & M1 & NN & V). exists res. split; [exact E|]. split; [exact M1|]. split; [exact NN|]. intros x y Hx Hy. rewrite (V x y Hx Hy), CT.
        assert (Z : coef (X, col) X' = o0 o) by (unfold coef; cbn [fst snd]; now rewrite FD). rewrite Z. ring.
  Qed.
  Lemma rows_cells_spec c N (B : block) (m : tree_map) M' : maps_trees m -> real_entries m -> is_matrix (block_size R c) N B -> M' = block_size R' c ->
    forall cells st, NoDup cells -> incl cells (items S R' c) -> is_matrix M' N (fst st) -> (forall x, In x cells -> forall i j, tb_start x <= i < tb_stop x -> j < N -> bat o (fst st) [i; j] = o0 o) ->
    exists st', rows_cells S o re real m B R axes cells st = Some st' /\ is_matrix M' N (fst st') /\
      (forall x, In x cells -> forall p p' y, length p = length (tp_flat_legs R) -> p' = take 0 p axes -> valid_idx (tb_mults x) p' -> y < N ->
         bat o (fst st') [tb_start x + flat_index (tb_mults x) true p'; y] = new_row m B (tb_tree x) p y /\
         (snd st' = true -> new_row m B (tb_tree x) p y = o0 o)) /\
      (forall i j, i < M' -> j < N -> (forall x, In x cells -> ~ tb_start x <= i < tb_stop x) -> bat o (fst st') [i; j] = bat o (fst st) [i; j]) /\
      (snd st' = true -> snd st = true).
  Proof.
    intros MT RE MB EM. induction cells as [|x cells IH]; intros [A z] ND INC MA ZA.
    - exists (A, z). split; [reflexivity|]. split; [exact MA|]. split; [intros ? []|]. split; [reflexivity|auto].
    - apply NoDup_cons_iff in ND. destruct ND as [NI ND]. assert (INC' : incl cells (items S R' c)) by (intros e I; apply INC; now right).
      assert (Ix := INC x (or_introl eq_refl)). assert (TX : tree_of S R' c (tb_tree x)) by (apply (items_trees OK c HR'); now apply in_map).
      destruct (items_mults OK HR' Ix) as [MX SX]. assert (BX := items_bound OK HR' Ix). assert (LX := tree_mults_len TX). rewrite <- MX in LX.
      set (dims := take 0 (tb_mults x) (inverse_permutation axes)).
      assert (CON : forall e k, In e m -> find tree_dec (snd e) (tb_tree x) = Some k -> as_scalar re real k = k /\ tree_of S R c (fst e) /\ tree_mults S R (fst e) = dims /\ tb_mults x = take 0 dims axes).
      { intros [X col] k I FD. cbn [fst snd] in *. assert (IC := find_In FD). split; [eapply RE; eauto|]. destruct (MT X col (tb_tree x) c I (in_map fst _ _ IC) TX) as [T1 E]. split; [exact T1|].
        assert (ED : tree_mults S R X = dims). { unfold dims. rewrite MX, E. symmetry. apply take_inverse. rewrite (tree_mults_len T1). exact PM. } split; [exact ED|]. rewrite <- ED, MX. exact E. }
      destruct (@rows_sum_spec c N B (tb_tree x) (prod dims) MB m) with (acc := @None block) as (res & EP & MR & _ & V).
      { intros e k I FD. destruct (CON e k I FD) as (A1 & A2 & A3 & _). split; [exact A1|]. split; [exact A2|]. now rewrite A3. }
      { exact Logic.I. }
      assert (LD : length dims = length (tp_flat_legs R)) by (unfold dims; rewrite take_length, inverse_permutation_length; apply (is_perm_length PM)).
      assert (PMd : is_perm (length dims) axes) by (rewrite LD; exact PM).
      assert (XD : tb_mults x = take 0 dims axes -> prod (tb_mults x) = prod dims) by (intros E; rewrite E; now apply prod_take).
      assert (VAL : forall p p', tb_mults x = take 0 dims axes -> length p = length (tp_flat_legs R) -> p' = take 0 p axes -> valid_idx (tb_mults x) p' -> valid_idx dims p).
      { intros p p' E Lp -> V'. rewrite E in V'. assert (W := valid_untake PMd V'). rewrite take_inverse in W by (rewrite Lp; exact PM). exact W. }
      assert (SUM : forall p y, length p = length (tp_flat_legs R) -> osum o (map (fun e => omul o (coef e (tb_tree x)) (bat o B [start_of S R (fst e) + flat_index dims true p; y])) m) = new_row m B (tb_tree x) p y).
      { intros p y Lp. unfold new_row. f_equal. apply map_ext_in. intros e Ie. unfold coef. destruct (find tree_dec (snd e) (tb_tree x)) as [k|] eqn:FD; [|ring]. destruct (CON e k Ie FD) as (_ & _ & -> & _). reflexivity. }
      assert (DIS : forall x' i, In x' cells -> tb_start x <= i < tb_stop x -> ~ tb_start x' <= i < tb_stop x').
      { intros x' i I Hi Hi'. assert (Ix' := INC' _ I). apply NI. rewrite (items_disjoint OK HR' Ix Ix' Hi Hi'). exact I. }
      assert (POS : forall p', valid_idx (tb_mults x) p' -> tb_start x <= tb_start x + flat_index (tb_mults x) true p' < tb_stop x) by (intros p' Vp; apply flat_lt in Vp; lia).
      cbn [rows_cells]. fold dims. rewrite EP. destruct res as [tr|].
      + cbn [opt_matrix optat] in *. assert (NE : exists e k, In e m /\ find tree_dec (snd e) (tb_tree x) = Some k).
        { clear -EP. revert EP. assert (G : forall l a, a = None -> rows_sum S o re real l B R (tb_tree x) a = Some (Some tr) -> exists e k, In e l /\ find tree_dec (snd e) (tb_tree x) = Some k).
          { clear. induction l as [|[X col] l IH]; intros a E H; cbn [rows_sum] in H; [congruence|]. destruct (find tree_dec col (tb_tree x)) as [k|] eqn:FD; [exists (X, col), k; split; [now left|exact FD]|].
            destruct (IH a E H) as (e & k & I & FE). exists e, k. split; [now right|exact FE]. }
          intros H. exact (G m None eq_refl H). }
        destruct NE as (e0 & k0 & Ie0 & F0). destruct (CON e0 k0 Ie0 F0) as (_ & _ & _ & ED). assert (PD := XD ED).
        assert (MP' := permute_rows_matrix o PMd MR). set (pm := permute_combined_rows o tr dims axes) in *. set (A2 := bset_slice o (fst (A, z)) [tb_start x; 0] [tb_stop x; nth 1 (bshape (fst (A, z))) 0] pm).
        assert (EN : nth 1 (bshape A) 0 = N) by (cbn [fst] in MA; rewrite (proj1 MA); reflexivity). cbn [fst] in A2, MA, ZA.
        assert (M2 : is_matrix M' N A2) by (split; [exact (proj1 MA)|apply bmk_wf]).
        assert (OUT : forall i j, i < M' -> j < N -> ~ tb_start x <= i < tb_stop x -> bat o A2 [i; j] = bat o A [i; j]).
        { intros i j Hi Hj NB. apply bat_set_slice_out; [eapply matrix_valid; eauto|]. cbn [in_box]. tauto. }
        destruct (IH (A2, false) ND INC' M2) as (st' & E & M3 & V3 & O3 & Z3).
        { intros x' I i j Hi Hj. cbn [fst]. assert (Ix' := INC' _ I). assert (B1' := items_bound OK HR' Ix'). rewrite OUT by (lia || (intros A1; now apply (DIS x' i I A1))). apply (ZA x'); auto. now right. }
        exists st'. split; [exact E|]. split; [exact M3|]. split; [|split].
        * intros x' [<- |I] p p' y Lp EP' V1 Hy; [|apply V3 with (p := p); auto]. split; [|intros Zt; apply Z3 in Zt; discriminate]. assert (PX := POS _ V1).
          rewrite O3; [|lia|lia|intros x' I; now apply DIS]. cbn [fst]. unfold A2. cbn [fst]. rewrite EN. rewrite bat_set_slice_in; [|eapply matrix_valid; [exact MA|lia|lia]|cbn [in_box]; lia].
          cbn [combine map fst snd]. rewrite Nat.sub_0_r, Nat.add_comm, Nat.add_sub. assert (Vd := VAL p p' ED Lp EP' V1). rewrite ED, EP'. unfold pm.
          rewrite (@permute_rows_bat K o dims axes PMd tr N p y MR Vd Hy). rewrite (V _ _ (flat_lt Vd) Hy). rewrite (SUM p y Lp). ring.
        * intros i j Hi Hj NB. rewrite O3; auto; [|intros x' I; apply NB; now right]. apply OUT; auto; apply NB; now left.
        * intros Zt. apply Z3 in Zt. discriminate.
      + cbn [optat] in V. destruct (IH (A, z) ND INC' MA) as (st' & E & M3 & V3 & O3 & Z3). { intros x' I. apply ZA. now right. }
        exists st'. split; [exact E|]. split; [exact M3|]. split; [|split].
        * intros x' [<- |I] p p' y Lp EP' V1 Hy; [|apply V3 with (p := p); auto]. assert (PX := POS _ V1).
          assert (Z0 : new_row m B (tb_tree x) p y = o0 o).
          { unfold new_row. apply (sum_zero SR). intros e Ie. unfold coef. destruct (find tree_dec (snd e) (tb_tree x)) as [k|] eqn:FD; [exfalso|ring].
            clear -EP Ie FD. revert EP. assert (G : forall l a r, (a <> None \/ In e l) -> rows_sum S o re real l B R (tb_tree x) a = Some r -> r <> None).
            { clear -FD. induction l as [|[X col] l IH]; intros a r H E; cbn [rows_sum] in E.
              - injection E as <-. destruct H as [H|[]]. exact H.
              - destruct (find tree_dec col (tb_tree x)) as [k'|] eqn:F'.
                + destruct (tree_block_slice S R X); [|discriminate]. eapply IH; [|exact E]. left. discriminate.
                + eapply IH; [|exact E]. destruct H as [H|[ <- |H]]; [left; exact H| |right; exact H]. cbn [snd] in FD. congruence. }
            intros EP. apply (G m None None (or_intror Ie) EP). reflexivity. }
          rewrite Z0. split; [|reflexivity]. rewrite O3; [|lia|lia|intros x' I; now apply DIS]. apply (ZA x); auto. now left.
        * intros i j Hi Hj NB. apply O3; auto. intros x' I. apply NB. now right.
        * exact Z3.
  Qed.

  (** columns *)
  Definition new_col (m : tree_map) (B : block) (X' : tree) (p : list nat) (y : nat) : K :=
    osum o (map (fun e => omul o (coef e X') (bat o B [y; start_of S R (fst e) + flat_index (tree_mults S R (fst e)) true p])) m).
  Lemma cols_sum_spec c N (B : block) X' M : is_matrix N (block_size R c) B -> forall m, (forall e k, In e m -> find tree_dec (snd e) X' = Some k -> as_scalar re real k = k /\ tree_of S R c (fst e) /\ prod (tree_mults S R (fst e)) = M) ->
    forall acc, opt_matrix N M acc ->
    exists res, cols_sum S o re real m B R X' acc = Some res /\ opt_matrix N M res /\ (res = None -> acc = None) /\
      forall x y, x < M -> y < N -> optat o res y x = oadd o (optat o acc y x) (osum o (map (fun e => omul o (coef e X') (bat o B [y; start_of S R (fst e) + x])) m)).
  Proof.
    intros MB. induction m as [|[X col] m IH]; intros H acc HA.
    - exists acc. split; [reflexivity|]. split; [exact HA|]. split; [auto|]. intros x y _ _. cbn [map]. rewrite sum_nil. ring.
    - assert (H' : forall e k, In e m -> find tree_dec (snd e) X' = Some k -> as_scalar re real k = k /\ tree_of S R c (fst e) /\ prod (tree_mults S R (fst e)) = M) by (intros e k I; apply H; now right).
      cbn [cols_sum]. assert (CT : forall x y, osum o (map (fun e => omul o (coef e X') (bat o B [y; start_of S R (fst e) + x])) ((X, col) :: m)) = oadd o (omul o (coef (X, col) X') (bat o B [y; start_of S R X + x])) (osum o (map (fun e => omul o (coef e X') (bat o B [y; start_of S R (fst e) + x])) m))) by (intros; cbn [map]; apply sum_cons).
      destruct (find tree_dec col X') as [k|] eqn:FD.
      + destruct (H (X, col) k (or_introl eq_refl) FD) as (RE & T1 & EM). cbn [fst snd] in *. destruct (tree_item OK HR T1) as (x1 & I1 & E1 & SL1 & MU1 & ST1 & B1).
        assert (S1 : start_of S R X = tb_start x1) by (unfold start_of; now rewrite SL1). rewrite SL1. cbn [fst snd]. rewrite RE. rewrite (proj1 MB). cbn [nth].
        destruct (@bslice_matrix K o B 0 N (tb_start x1) (tb_stop x1) _ _ MB ((le_n N)) B1) as [MS VS]. replace (tb_stop x1 - tb_start x1) with M in * by lia. rewrite Nat.sub_0_r in *.
        set (sub := bslice o B [0; tb_start x1] [N; tb_stop x1]) in *. assert (MA : is_matrix N M (bmul o k sub)) by (split; [apply MS|apply bmul_wf; apply MS]).
        assert (VA : forall x y, x < M -> y < N -> bat o (bmul o k sub) [y; x] = omul o (coef (X, col) X') (bat o B [y; start_of S R X + x])).
        { intros x y Hx Hy. rewrite bat_mul by (apply MS || eapply matrix_valid; eauto). rewrite VS by assumption. unfold coef. cbn [fst snd]. rewrite FD, S1. reflexivity. }
        set (acc' := Some (match acc with None => bmul o k sub | Some t => badd o t (bmul o k sub) end)).
        assert (MA' : opt_matrix N M acc').
        { unfold acc'. destruct acc as [t|]; [|exact MA]. cbn [opt_matrix] in *. split; [apply HA|]. apply badd_wf; [apply HA|apply MA|]. rewrite (proj1 HA). symmetry. apply MA. }
        destruct (IH H' acc' MA') as (res & E' & M1 & NN & V). exists res. split; [exact E'|]. split; [exact M1|]. split; [intros Z; apply NN in Z; discriminate|].
        intros x y Hx Hy. rewrite (V x y Hx Hy), CT. unfold acc'. destruct acc as [t|]; cbn [optat opt_matrix] in *.
        * rewrite bat_add by (apply HA || apply MA || (rewrite (proj1 HA); symmetry; apply MA) || (eapply matrix_valid; eauto)). rewrite VA by assumption. ring.
        * rewrite VA by assumption. ring.
      + destruct (IH H' acc HA) as (res & E & M1 & NN & V). exists res. split; [exact E|]. split; [exact M1|]. split; [exact NN|]. intros x y Hx Hy. rewrite (V x y Hx Hy), CT.
        assert (Z : coef (X, col) X' = o0 o) by (unfold coef; cbn [fst snd]; now rewrite FD). rewrite Z. ring.
  Qed.
  Lemma cols_cells_spec c N (B : block) (m : tree_map) M' : maps_trees m -> real_entries m -> is_matrix N (block_size R c) B -> M' = block_size R' c ->
    forall cells st, NoDup cells -> incl cells (items S R' c) -> is_matrix N M' (fst st) -> (forall x, In x cells -> forall i j, tb_start x <= i < tb_stop x -> j < N -> bat o (fst st) [j; i] = o0 o) ->
    exists st', cols_cells S o re real m B R axes cells st = Some st' /\ is_matrix N M' (fst st') /\
      (forall x, In x cells -> forall p p' y, length p = length (tp_flat_legs R) -> p' = take 0 p axes -> valid_idx (tb_mults x) p' -> y < N ->
         bat o (fst st') [y; tb_start x + flat_index (tb_mults x) true p'] = new_col m B (tb_tree x) p y /\
         (snd st' = true -> new_col m B (tb_tree x) p y = o0 o)) /\
      (forall i j, i < M' -> j < N -> (forall x, In x cells -> ~ tb_start x <= i < tb_stop x) -> bat o (fst st') [j; i] = bat o (fst st) [j; i]) /\
      (snd st' = true -> snd st = true).
  Proof.
    intros MT RE MB EM. induction cells as [|x cells IH]; intros [A z] ND INC MA ZA.
    - exists (A, z). split; [reflexivity|]. split; [exact MA|]. split; [intros ? []|]. split; [reflexivity|auto].
    - apply NoDup_cons_iff in ND. destruct ND as [NI ND]. assert (INC' : incl cells (items S R' c)) by (intros e I; apply INC; now right).
      assert (Ix := INC x (or_introl eq_refl)). assert (TX : tree_of S R' c (tb_tree x)) by (apply (items_trees OK c HR'); now apply in_map).
      destruct (items_mults OK HR' Ix) as [MX SX]. assert (BX := items_bound OK HR' Ix). assert (LX := tree_mults_len TX). rewrite <- MX in LX.
      set (dims := take 0 (tb_mults x) (inverse_permutation axes)).
      assert (CON : forall e k, In e m -> find tree_dec (snd e) (tb_tree x) = Some k -> as_scalar re real k = k /\ tree_of S R c (fst e) /\ tree_mults S R (fst e) = dims /\ tb_mults x = take 0 dims axes).
      { intros [X col] k I FD. cbn [fst snd] in *. assert (IC := find_In FD). split; [eapply RE; eauto|]. destruct (MT X col (tb_tree x) c I (in_map fst _ _ IC) TX) as [T1 E]. split; [exact T1|].
        assert (ED : tree_mults S R X = dims). { unfold dims. rewrite MX, E. symmetry. apply take_inverse. rewrite (tree_mults_len T1). exact PM. } split; [exact ED|]. rewrite <- ED, MX. exact E. }
      destruct (@cols_sum_spec c N B (tb_tree x) (prod dims) MB m) with (acc := @None block) as (res & EP & MR & _ & V).
      { intros e k I FD. destruct (CON e k I FD) as (A1 & A2 & A3 & _). split; [exact A1|]. split; [exact A2|]. now rewrite A3. }
      { exact Logic.I. }
      assert (LD : length dims = length (tp_flat_legs R)) by (unfold dims; rewrite take_length, inverse_permutation_length; apply (is_perm_length PM)).
      assert (PMd : is_perm (length dims) axes) by (rewrite LD; exact PM).
      assert (XD : tb_mults x = take 0 dims axes -> prod (tb_mults x) = prod dims) by (intros E; rewrite E; now apply prod_take).
      assert (VAL : forall p p', tb_mults x = take 0 dims axes -> length p = length (tp_flat_legs R) -> p' = take 0 p axes -> valid_idx (tb_mults x) p' -> valid_idx dims p).
      { intros p p' E Lp -> V'. rewrite E in V'. assert (W := valid_untake PMd V'). rewrite take_inverse in W by (rewrite Lp; exact PM). exact W. }
      assert (SUM : forall p y, length p = length (tp_flat_legs R) -> osum o (map (fun e => omul o (coef e (tb_tree x)) (bat o B [y; start_of S R (fst e) + flat_index dims true p])) m) = new_col m B (tb_tree x) p y).
      { intros p y Lp. unfold new_col. f_equal. apply map_ext_in. intros e Ie. unfold coef. destruct (find tree_dec (snd e) (tb_tree x)) as [k|] eqn:FD; [|ring]. destruct (CON e k Ie FD) as (_ & _ & -> & _). reflexivity. }
      assert (DIS : forall x' i, In x' cells -> tb_start x <= i < tb_stop x -> ~ tb_start x' <= i < tb_stop x').
      { intros x' i I Hi Hi'. assert (Ix' := INC' _ I). apply NI. rewrite (items_disjoint OK HR' Ix Ix' Hi Hi'). exact I. }
      assert (POS : forall p', valid_idx (tb_mults x) p' -> tb_start x <= tb_start x + flat_index (tb_mults x) true p' < tb_stop x) by (intros p' Vp; apply flat_lt in Vp; lia).
      cbn [cols_cells]. fold dims. rewrite EP. destruct res as [tr|].
      + cbn [opt_matrix optat] in *. assert (NE : exists e k, In e m /\ find tree_dec (snd e) (tb_tree x) = Some k).
        { clear -EP. revert EP. assert (G : forall l a, a = None -> cols_sum S o re real l B R (tb_tree x) a = Some (Some tr) -> exists e k, In e l /\ find tree_dec (snd e) (tb_tree x) = Some k).
          { clear. induction l as [|[X col] l IH]; intros a E H; cbn [cols_sum] in H; [congruence|]. destruct (find tree_dec col (tb_tree x)) as [k|] eqn:FD; [exists (X, col), k; split; [now left|exact FD]|].
            destruct (IH a E H) as (e & k & I & FE). exists e, k. split; [now right|exact FE]. }
          intros H. exact (G m None eq_refl H). }
        destruct NE as (e0 & k0 & Ie0 & F0). destruct (CON e0 k0 Ie0 F0) as (_ & _ & _ & ED). assert (PD := XD ED).
        assert (MP' := permute_cols_matrix o PMd MR). set (pm := permute_combined_cols o tr dims axes) in *. set (A2 := bset_slice o (fst (A, z)) [0; tb_start x] [nth 0 (bshape (fst (A, z))) 0; tb_stop x] pm).
        assert (EN : nth 0 (bshape A) 0 = N) by (cbn [fst] in MA; rewrite (proj1 MA); reflexivity). cbn [fst] in A2, MA, ZA.
        assert (M2 : is_matrix N M' A2) by (split; [exact (proj1 MA)|apply bmk_wf]).
        assert (OUT : forall i j, i < M' -> j < N -> ~ tb_start x <= i < tb_stop x -> bat o A2 [j; i] = bat o A [j; i]).
        { intros i j Hi Hj NB. apply bat_set_slice_out; [eapply matrix_valid; eauto|]. cbn [in_box]. tauto. }
        destruct (IH (A2, false) ND INC' M2) as (st' & E & M3 & V3 & O3 & Z3).
        { intros x' I i j Hi Hj. cbn [fst]. assert (Ix' := INC' _ I). assert (B1' := items_bound OK HR' Ix'). rewrite OUT by (lia || (intros A1; now apply (DIS x' i I A1))). apply (ZA x'); auto. now right. }
        exists st'. split; [exact E|]. split; [exact M3|]. split; [|split].
        * intros x' [<- |I] p p' y Lp EP' V1 Hy; [|apply V3 with (p := p); auto]. split; [|intros Zt; apply Z3 in Zt; discriminate]. assert (PX := POS _ V1).
          rewrite O3; [|lia|lia|intros x' I; now apply DIS]. cbn [fst]. unfold A2. cbn [fst]. rewrite EN. rewrite bat_set_slice_in; [|eapply matrix_valid; [exact MA|lia|lia]|cbn [in_box]; lia].
          cbn [combine map fst snd]. rewrite Nat.sub_0_r, Nat.add_comm, Nat.add_sub. assert (Vd := VAL p p' ED Lp EP' V1). rewrite ED, EP'. unfold pm.
          rewrite (@permute_cols_bat K o dims axes PMd tr N p y MR Vd Hy). rewrite (V _ _ (flat_lt Vd) Hy). rewrite (SUM p y Lp). ring.
        * intros i j Hi Hj NB. rewrite O3; auto; [|intros x' I; apply NB; now right]. apply OUT; auto; apply NB; now left.
        * intros Zt. apply Z3 in Zt. discriminate.
      + cbn [optat] in V. destruct (IH (A, z) ND INC' MA) as (st' & E & M3 & V3 & O3 & Z3). { intros x' I. apply ZA. now right. }
        exists st'. split; [exact E|]. split; [exact M3|]. split; [|split].
        * intros x' [<- |I] p p' y Lp EP' V1 Hy; [|apply V3 with (p := p); auto]. assert (PX := POS _ V1).
          assert (Z0 : new_col m B (tb_tree x) p y = o0 o).
          { unfold new_col. apply (sum_zero SR). intros e Ie. unfold coef. destruct (find tree_dec (snd e) (tb_tree x)) as [k|] eqn:FD; [exfalso|ring].
            clear -EP Ie FD. revert EP. assert (G : forall l a r, (a <> None \/ In e l) -> cols_sum S o re real l B R (tb_tree x) a = Some r -> r <> None).
            { clear -FD. induction l as [|[X col] l IH]; intros a r H E; cbn [cols_sum] in E.
              - injection E as <-. destruct H as [H|[]]. exact H.
              - destruct (find tree_dec col (tb_tree x)) as [k'|] eqn:F'.
                + destruct (tree_block_slice S R X); [|discriminate]. eapply IH; [|exact E]. left. discriminate.
                + eapply IH; [|exact E]. destruct H as [H|[ <- |H]]; [left; exact H| |right; exact H]. cbn [snd] in FD. congruence. }
            intros EP. apply (G m None None (or_intror Ie) EP). reflexivity. }
          rewrite Z0. split; [|reflexivity]. rewrite O3; [|lia|lia|intros x' I; now apply DIS]. apply (ZA x); auto. now left.
        * intros i j Hi Hj NB. apply O3; auto. intros x' I. apply NB. now right.
        * exact Z3.
  Qed.
End Side.
