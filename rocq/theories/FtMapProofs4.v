(** TreePairMapping::transform_tensor: writing the blocks, and the data of the result. *)
From Verif Require Import Util StableSort RowModel RowProofs GridModel GridProofs SymModel SymProofs CatSpec Sums SpaceModel SpaceSpec SpaceProofs SpaceProofs2 SpaceProofs7
  PipeModel PipeProofs PipeProofs4 TreeModel TreeProofs TreeProofs5 TensorModel TensorSpec FormalSum TensorProofs TensorProofs2 TensorProofs3 TensorProofs4 TensorProofs5 TensorProofs6 BlockModel BlockProofs
  SparseModel ConvertModel ConvertSpec ConvertProofs3 FtOpsModel FtOpsSpec FtOpsProofs2 FtOpsProofs3 FtOpsProofs4 MappingModel MappingProofs PermLegsModel FtMapModel FtMapSpec FtMapProofs FtMapProofs2 FtMapProofs3.
Set Implicit Arguments. Unset Strict Implicit.
Open Scope nat_scope.

(** *** data given by a block for some of the common coupled sectors *)
Section Walk.
  Variable S : tsymm.
  Hypothesis OK : tsymm_ok S.
  Variable K : Type.
  Variable o : ops K.
  Notation block := (blk K).
  Notation fdata := (list (nat * nat * blk K)).
  Variables P Q : tprod.
  Hypothesis HP : tp_ok S P.
  Hypothesis HQ : tp_ok S Q.
  Variable g : nat * nat -> option block.
  Definition opt_data (ijs : list (nat * nat)) : fdata := flat_map (fun ij => match g ij with Some B => [(ij, B)] | None => [] end) ijs.
  Lemma opt_data_In ijs e : In e (opt_data ijs) <-> In (fst e) ijs /\ g (fst e) = Some (snd e).
  Proof.
    unfold opt_data. rewrite in_flat_map. split.
    - intros [ij [I J]]. destruct (g ij) as [B|] eqn:E; [|destruct J]. destruct J as [ <- |[]]. cbn [fst snd]. auto.
    - intros [I E]. exists (fst e). split; [exact I|]. rewrite E. left. symmetry. apply surjective_pairing.
  Qed.
  Lemma opt_data_sorted ijs : StronglySorted (fun p q => fst p < fst q /\ snd p < snd q) ijs -> StronglySorted lt (map (fun e => snd (fst e)) (opt_data ijs)).
  Proof.
    induction 1 as [|p ijs H IH F]; [constructor|]. unfold opt_data in *. cbn [flat_map]. destruct (g p) as [B|]; [|exact IH]. cbn [app map fst snd]. constructor; [exact IH|].
    apply Forall_forall. intros x Hx. apply in_map_iff in Hx. destruct Hx as [e [<- I]]. apply opt_data_In in I. destruct I as [I _]. apply (proj1 (Forall_forall _ _) F) in I. lia.
  Qed.
  Notation walk := (common_walk true true 0 (tp_secs P) 0 (tp_secs Q)).
  Hypothesis GM : forall i j B, In (i, j) walk -> g (i, j) = Some B -> is_matrix (nth i (tp_mults P) 0) (nth j (tp_mults Q) 0) B.
  Lemma walk_ok : ft_ok P Q (opt_data walk).
  Proof.
    split.
    - apply opt_data_sorted, common_walk_sorted.
    - intros [[i j] B] I. apply opt_data_In in I. destruct I as [I _]. apply (common_In OK HP HQ) in I. cbn [fst snd]. tauto.
    - intros [[i j] B] I. apply opt_data_In in I. destruct I as [I _]. apply (common_In OK HP HQ) in I. cbn [fst snd]. tauto.
    - intros [[i j] B] I. apply opt_data_In in I. destruct I as [I E]. cbn [fst snd] in *. apply (GM I E).
    - intros [[i j] B] I. apply opt_data_In in I. destruct I as [I E]. cbn [fst snd] in *. apply (GM I E).
  Qed.
  Lemma walk_entry i j x y : In (i, j) walk -> ft_entry o Q (opt_data walk) (nth i (tp_secs P) []) x y = match g (i, j) with Some B => bat o B [x; y] | None => o0 o end.
  Proof.
    intros I. destruct (proj1 (common_In OK HP HQ _ _) I) as (R1 & R2 & R3). rewrite ft_entry_get.
    assert (G : ft_get Q (opt_data walk) (nth i (tp_secs P) []) = g (i, j)); [|now rewrite G].
    apply get_eq; [apply (secs_NoDup OK HQ)|apply (ft_keyed walk_ok)|]. intros B. split.
    - intros [[[i' j'] B'] [I' [E EB]]]. cbn [fst snd] in *. subst B'. apply opt_data_In in I'. cbn [fst snd] in I'. destruct I' as [I' E']. destruct (proj1 (common_In OK HP HQ _ _) I') as (R1' & R2' & R3').
      assert (i' = i) by (apply (inj_idx OK HP R1' R1); congruence). assert (j' = j) by (apply (inj_idx OK HQ R2' R2); congruence). now subst.
    - intros E. exists ((i, j), B). cbn [fst snd]. split; [apply opt_data_In; auto|]. split; [congruence|reflexivity].
  Qed.
  Lemma walk_some c t u : tree_of S P c t -> tree_of S Q c u -> exists i j, In (i, j) walk /\ nth i (tp_secs P) [] = c /\ nth j (tp_secs Q) [] = c /\ nth i (tp_mults P) 0 = block_size P c /\ nth j (tp_mults Q) 0 = block_size Q c.
  Proof.
    intros T U. apply (tree_of_sec OK HP) in T. apply (tree_of_sec OK HQ) in U. destruct (In_nth _ _ [] T) as (i & Hi & Ei). destruct (In_nth _ _ [] U) as (j & Hj & Ej).
    exists i, j. split; [apply (common_In OK HP HQ); repeat split; congruence|]. split; [exact Ei|]. split; [exact Ej|]. split; [rewrite <- Ei|rewrite <- Ej]; [apply (block_size_nth OK HP Hi)|apply (block_size_nth OK HQ Hj)].
  Qed.
End Walk.

Lemma NoDup_cells (A B : Type) (l : list A) (l' : list B) : NoDup l -> NoDup l' -> NoDup (list_prod l l').
Proof.
  induction 1 as [|x l NI ND IH]; intros H; [constructor|]. cbn [list_prod]. apply NoDup_app_intro; [|auto|].
  - apply NoDup_map_inj; [|exact H]. intros a b _ _ E. now injection E.
  - intros [a b] I J. apply in_map_iff in I. destruct I as [b' [E _]]. injection E as <- _. apply in_prod_iff in J. tauto.
Qed.
Section Pair.
  Variable S : tsymm.
  Hypothesis OK : tsymm_ok S.
  Variable K : Type.
  Variable o : ops K.
  Hypothesis SR : semi_ring_theory (o0 o) (o1 o) (oadd o) (omul o) (@eq K).
  Variable re : K -> K.
  Notation block := (blk K).
  Notation fdata := (list (nat * nat * blk K)).
  Notation pair_map := (list ((tree * tree) * list ((tree * tree) * K))).
  Variables P Q P' Q' : tprod.
  Variable F : fdata.
  Hypothesis HP : tp_ok S P.
  Hypothesis HQ : tp_ok S Q.
  Hypothesis HP' : tp_ok S P'.
  Hypothesis HQ' : tp_ok S Q'.
  Hypothesis FO : ft_ok P Q F.
  Variables ci di : list nat.
  Notation J := (length (tp_flat_legs P)).
  Notation Kn := (length (tp_flat_legs Q)).
  Notation axis := (axis J (J + Kn)).
  Hypothesis PM : is_perm (J + Kn) (leg_order ci di).
  Hypothesis LC : length ci = length (tp_flat_legs P').
  Hypothesis LD : length di = length (tp_flat_legs Q').
  Variable real : bool.
  Variable m : pair_map.
  Hypothesis MP : maps_pairs S P Q P' Q' ci di m.
  Hypothesis RE : forall k col i c, In (k, col) m -> In (i, c) col -> as_scalar re real c = c.
  Notation perm_idx := (permuted_legs 0 ci di).
  Notation new_value := (new_value S o P Q F m).

  Lemma pair_cells_spec c M N : M = block_size P' c -> N = block_size Q' c -> forall cells st, NoDup cells -> incl cells (list_prod (items S P' c) (items S Q' c)) ->
    is_matrix M N (fst st) -> (forall x y, In (x, y) cells -> forall i j, tb_start x <= i < tb_stop x -> tb_start y <= j < tb_stop y -> bat o (fst st) [i; j] = o0 o) ->
    exists st', pair_cells S o re real m F P Q J (inverse_permutation (leg_order ci di)) (map axis ci) (map axis di) cells st = Some st' /\
      is_matrix M N (fst st') /\
      (forall x y, In (x, y) cells -> forall p q p' q', length p = J -> length q = Kn -> perm_idx p q p' q' -> valid_idx (tb_mults x) p' -> valid_idx (tb_mults y) q' ->
         bat o (fst st') [tb_start x + flat_index (tb_mults x) true p'; tb_start y + flat_index (tb_mults y) true q'] = new_value (tb_tree x) (tb_tree y) p q /\
         (snd st' = true -> new_value (tb_tree x) (tb_tree y) p q = o0 o)) /\
      (forall i j, i < M -> j < N -> (forall x y, In (x, y) cells -> ~ (tb_start x <= i < tb_stop x /\ tb_start y <= j < tb_stop y)) -> bat o (fst st') [i; j] = bat o (fst st) [i; j]) /\
      (snd st' = true -> snd st = true).
  Proof.
    intros EM EN. induction cells as [|[x y] cells IH]; intros [B z] ND INC MB ZB.
    - exists (B, z). split; [reflexivity|]. split; [exact MB|]. split; [intros ? ? []|]. split; [reflexivity|auto].
    - apply NoDup_cons_iff in ND. destruct ND as [NI ND]. assert (INC' : incl cells (list_prod (items S P' c) (items S Q' c))) by (intros e I; apply INC; now right).
      assert (Ixy := INC (x, y) (or_introl eq_refl)). apply in_prod_iff in Ixy. destruct Ixy as [Ix Iy].
      assert (TX : tree_of S P' c (tb_tree x)) by (apply (items_trees OK c HP'); now apply in_map). assert (TY : tree_of S Q' c (tb_tree y)) by (apply (items_trees OK c HQ'); now apply in_map).
      destruct (items_mults OK HP' Ix) as [MX SX]. destruct (items_mults OK HQ' Iy) as [MY SY]. assert (BX := items_bound OK HP' Ix). assert (BY := items_bound OK HQ' Iy).
      destruct (@cell_spec S OK K o SR re P Q P' Q' F HP HQ FO ci di PM LC LD real m MP RE c (tb_tree x) (tb_tree y) TX TY) as (res & EP & RN & RS). rewrite <- MX, <- MY in *.
      cbn [pair_cells]. rewrite EP.
      assert (DIS : forall x' y' i j, In (x', y') cells -> tb_start x <= i < tb_stop x -> tb_start y <= j < tb_stop y -> ~ (tb_start x' <= i < tb_stop x' /\ tb_start y' <= j < tb_stop y')).
      { intros x' y' i j I Hi Hj [Hi' Hj']. assert (I2 := INC' _ I). apply in_prod_iff in I2. destruct I2 as [Ix' Iy']. apply NI.
        rewrite (items_disjoint OK HP' Ix Ix' Hi Hi'), (items_disjoint OK HQ' Iy Iy' Hj Hj'). exact I. }
      assert (POS : forall p', valid_idx (tb_mults x) p' -> tb_start x <= tb_start x + flat_index (tb_mults x) true p' < tb_stop x) by (intros p' V; apply flat_lt in V; lia).
      assert (POSy : forall p', valid_idx (tb_mults y) p' -> tb_start y <= tb_start y + flat_index (tb_mults y) true p' < tb_stop y) by (intros p' V; apply flat_lt in V; lia).
      destruct res as [tb|].
      + destruct (RS tb eq_refl) as [MB' VB']. clear RS RN.
        set (pm := permute_combined_matrix _ _ _ _ _ _) in *. set (B2 := bset_slice o B [tb_start x; tb_start y] [tb_stop x; tb_stop y] pm).
        assert (M2 : is_matrix M N B2) by (split; [exact (proj1 MB)|apply bmk_wf]).
        assert (OUT : forall i j, i < M -> j < N -> ~ (tb_start x <= i < tb_stop x /\ tb_start y <= j < tb_stop y) -> bat o B2 [i; j] = bat o B [i; j]).
        { intros i j Hi Hj NB. apply bat_set_slice_out; [eapply matrix_valid; eauto|]. cbn [in_box]. tauto. }
        destruct (IH (B2, false) ND INC' M2) as (st' & E & M3 & V3 & O3 & Z3).
        { intros x' y' I i j Hi Hj. cbn [fst]. assert (I2 := INC' _ I). apply in_prod_iff in I2. destruct I2 as [Ix' Iy']. assert (B1' := items_bound OK HP' Ix'). assert (B2' := items_bound OK HQ' Iy').
          rewrite OUT by (lia || (intros [A1 A2]; apply (DIS x' y' i j I A1 A2); auto)). apply (ZB x' y'); auto. now right. }
        exists st'. split; [exact E|]. split; [exact M3|]. split; [|split].
        * intros x' y' [EQ|I] p q p' q' Lp Lq PL V1 V2.
          -- injection EQ as <- <-. split; [|intros Zt; apply Z3 in Zt; discriminate]. assert (PX := POS _ V1). assert (PY := POSy _ V2).
             rewrite O3; [|lia|lia|intros x' y' I; now apply DIS]. cbn [fst]. unfold B2. rewrite bat_set_slice_in; [|eapply matrix_valid; [exact MB|lia|lia]|cbn [in_box]; lia].
             cbn [combine map fst snd]. rewrite !Nat.add_comm with (n := tb_start _), !Nat.add_sub. apply VB'; auto.
          -- apply V3; auto.
        * intros i j Hi Hj NB. rewrite O3; auto; [|intros x' y' I; apply NB; now right]. apply OUT; auto. apply NB. now left.
        * intros Zt. apply Z3 in Zt. discriminate.
      + specialize (RN eq_refl). clear RS.
        destruct (IH (B, z) ND INC' MB) as (st' & E & M3 & V3 & O3 & Z3). { intros x' y' I. apply ZB. now right. }
        exists st'. split; [exact E|]. split; [exact M3|]. split; [|split].
        * intros x' y' [EQ|I] p q p' q' Lp Lq PL V1 V2; [|apply V3; auto]. injection EQ as <- <-. rewrite (RN p q p' q' Lp Lq PL V1 V2). split; [|reflexivity]. assert (PX := POS _ V1). assert (PY := POSy _ V2).
          rewrite O3; [|lia|lia|intros x' y' I; now apply DIS]. apply (ZB x y); auto. now left.
        * intros i j Hi Hj NB. apply O3; auto. intros x' y' I. apply NB. now right.
        * exact Z3.
  Qed.

  Definition cells_of (ij : nat * nat) : option (block * bool) := let coupled := nth (fst ij) (tp_secs P') [] in
    pair_cells S o re real m F P Q J (inverse_permutation (leg_order ci di)) (map axis ci) (map axis di) (list_prod (iter_tree_blocks S P' [coupled]) (iter_tree_blocks S Q' [coupled]))
      (bzeros o [nth (fst ij) (tp_mults P') 0; nth (snd ij) (tp_mults Q') 0], true).
  Definition written (r : option (block * bool)) : option block := match r with Some (B, false) => Some B | _ => None end.
  Lemma pair_blocks_eq ijs : (forall ij, In ij ijs -> cells_of ij <> None) ->
    pair_blocks S o re real m F P Q P' Q' J (inverse_permutation (leg_order ci di)) (map axis ci) (map axis di) ijs = Some (opt_data (fun ij => written (cells_of ij)) ijs).
  Proof.
    induction ijs as [|[i j] ijs IH]; intros H; [reflexivity|]. cbn [pair_blocks opt_data flat_map]. rewrite IH by (intros ij I; apply H; now right).
    assert (NN := H (i, j) (or_introl eq_refl)). unfold cells_of in *. cbn [fst snd] in *. cbv zeta in *. destruct (pair_cells _ _ _ _ _ _ _ _ _ _ _ _ _ _) as [[B z]|]; [|easy]. cbn [written]. destruct z; reflexivity.
  Qed.
  Notation walk := (common_walk true true 0 (tp_secs P') 0 (tp_secs Q')).
  Lemma cells_of_spec i j : In (i, j) walk -> let c := nth i (tp_secs P') [] in exists B z, cells_of (i, j) = Some (B, z) /\ is_matrix (nth i (tp_mults P') 0) (nth j (tp_mults Q') 0) B /\
    forall X Y p q p' q', tree_of S P' c X -> tree_of S Q' c Y -> length p = J -> length q = Kn -> perm_idx p q p' q' -> valid_idx (tree_mults S P' X) p' -> valid_idx (tree_mults S Q' Y) q' ->
      bat o B [start_of S P' X + flat_index (tree_mults S P' X) true p'; start_of S Q' Y + flat_index (tree_mults S Q' Y) true q'] = new_value X Y p q /\ (z = true -> new_value X Y p q = o0 o).
  Proof.
    intros I c. destruct (proj1 (common_In OK HP' HQ' _ _) I) as (R1 & R2 & R3). 
    assert (E1 : nth i (tp_mults P') 0 = block_size P' c) by (apply (block_size_nth OK HP' R1)). assert (E2 : nth j (tp_mults Q') 0 = block_size Q' c) by (unfold c; rewrite R3; apply (block_size_nth OK HQ' R2)).
    destruct (@pair_cells_spec c _ _ E1 E2 (list_prod (items S P' c) (items S Q' c)) (bzeros o [nth i (tp_mults P') 0; nth j (tp_mults Q') 0], true)) as ([B z] & E & MB & V & _).
    - apply NoDup_cells; apply (items_NoDup OK); assumption.
    - apply incl_refl.
    - split; [reflexivity|apply bmk_wf].
    - intros x y Ixy a b Ha Hb. apply in_prod_iff in Ixy. destruct Ixy as [Ix Iy]. assert (B1 := items_bound OK HP' Ix). assert (B2 := items_bound OK HQ' Iy). cbn [fst]. apply bat_zeros. repeat constructor; lia.
    - exists B, z. split; [exact E|]. split; [exact MB|]. intros X Y p q p' q' TX TY Lp Lq PL V1 V2.
      destruct (tree_item OK HP' TX) as (x & Ix & <- & SX & MX & _). destruct (tree_item OK HQ' TY) as (y & Iy & <- & SY & MY & _).
      unfold start_of. rewrite SX, SY, <- MX, <- MY in *. apply (V x y); auto. now apply in_prod.
  Qed.
  Lemma pair_transform_spec data_real is_real : data_real && is_real = real ->
    exists F', pair_transform S o re data_real is_real m F P Q P' Q' ci di = Some F' /\ ft_ok P' Q' F' /\
      forall c X Y p q p' q', tree_of S P' c X -> tree_of S Q' c Y -> length p = J -> length q = Kn -> perm_idx p q p' q' -> valid_idx (tree_mults S P' X) p' -> valid_idx (tree_mults S Q' Y) q' ->
        tree_value S o P' Q' F' X p' Y q' = new_value X Y p q.
  Proof.
    intros ER. unfold pair_transform. cbv zeta. rewrite ER. change (ci ++ rev di) with (leg_order ci di).
    assert (NN : forall ij, In ij walk -> cells_of ij <> None). { intros [i j] I. destruct (cells_of_spec I) as (B & z & E & _). now rewrite E. }
    change (fun i : nat => if i <? J then i else J + Kn - 1 + J - i) with axis. rewrite (pair_blocks_eq NN), ft_make_true. set (g := fun ij => written (cells_of ij)).
    assert (GM : forall i j B, In (i, j) walk -> g (i, j) = Some B -> is_matrix (nth i (tp_mults P') 0) (nth j (tp_mults Q') 0) B).
    { intros i j B I E. destruct (cells_of_spec I) as (B' & z & E' & MB & _). unfold g in E. rewrite E' in E. cbn [written] in E. destruct z; [discriminate|]. injection E as <-. exact MB. }
    eexists. split; [reflexivity|]. split; [exact (walk_ok OK HP' HQ' GM)|]. intros c X Y p q p' q' TX TY Lp Lq PL V1 V2.
    destruct (walk_some OK HP' HQ' TX TY) as (i & j & I & Ei & Ej & _). destruct (tree_item OK HP' TX) as (x & _ & _ & SX & _). destruct (tree_item OK HQ' TY) as (y & _ & _ & SY & _).
    unfold tree_value. rewrite SX, SY, (tree_of_coup TX). rewrite <- Ei at 1. rewrite (walk_entry OK o HP' HQ' GM _ _ I). unfold g.
    destruct (cells_of_spec I) as (B & z & E & _ & V). cbv zeta in V. rewrite Ei in V. destruct (V X Y p q p' q' TX TY Lp Lq PL V1 V2) as [VB VZ]. rewrite E. unfold start_of in VB. rewrite SX, SY in VB. cbn [written].
    destruct z; [|exact VB]. symmetry. now apply VZ.
  Qed.
End Pair.
