(** FactorizedTreeMapping::transform_tensor: the data of the result. *)
From Verif Require Import Util StableSort RowModel RowProofs GridModel GridProofs SymModel SymProofs CatSpec Sums SpaceModel SpaceSpec SpaceProofs SpaceProofs2 SpaceProofs7
  PipeModel PipeProofs PipeProofs4 TreeModel TreeProofs TreeProofs5 TensorModel TensorSpec FormalSum TensorProofs TensorProofs2 TensorProofs3 TensorProofs4 TensorProofs5 TensorProofs6 BlockModel BlockProofs
  SparseModel ConvertModel ConvertSpec ConvertProofs3 FtOpsModel FtOpsSpec FtOpsProofs2 FtOpsProofs3 FtOpsProofs4 MappingModel MappingProofs PermLegsModel FtMapModel FtMapSpec FtMapProofs FtMapProofs2 FtMapProofs3 FtMapProofs4 FtMapProofs5.
Set Implicit Arguments. Unset Strict Implicit.
Open Scope nat_scope.

Section Same.
  Variable S : tsymm.
  Variables R R' : tprod.
  Hypothesis E : tp_flat_legs R' = tp_flat_legs R.
  Lemma same_tree_of c t : tree_of S R' c t <-> tree_of S R c t.
  Proof. unfold tree_of. rewrite E. reflexivity. Qed.
  Lemma same_mults t : tree_mults S R' t = tree_mults S R t.
  Proof. unfold tree_mults. now rewrite E. Qed.
  Lemma same_slice t : tree_block_slice S R' t = tree_block_slice S R t.
  Proof. unfold tree_block_slice, iter_uncoupled. rewrite E. reflexivity. Qed.
  Lemma same_start t : start_of S R' t = start_of S R t.
  Proof. unfold start_of. now rewrite same_slice. Qed.
End Same.

Section Factorized.
  Variable S : tsymm.
  Hypothesis OK : tsymm_ok S.
  Variable K : Type.
  Variable o : ops K.
  Hypothesis SR : semi_ring_theory (o0 o) (o1 o) (oadd o) (omul o) (@eq K).
  Add Ring Kr : SR.
  Variable re : K -> K.
  Notation block := (blk K).
  Notation fdata := (list (nat * nat * blk K)).
  Notation tree_map := (list (tree * list (tree * K))).
  Notation variant := (list tree + tree_map)%type.

  (** what a mapping of trees makes of a function of trees *)
  Definition side_sum (v : variant) (X' : tree) (h : tree -> K) : K := match v with inl _ => h X' | inr m => osum o (map (fun e => omul o (coef o e X') (h (fst e))) m) end.
  Definition side_ok (real : bool) (v : variant) (R R' : tprod) (axes : list nat) : Prop :=
    match v with inl _ => tp_flat_legs R' = tp_flat_legs R /\ axes = seq 0 (length (tp_flat_legs R)) | inr m => maps_trees S R R' axes m /\ real_entries re real m end.
  Lemma side_sum_zero v X' h : (forall X, h X = o0 o) -> side_sum v X' h = o0 o.
  Proof. intros H. destruct v; [apply H|]. apply (sum_zero SR). intros e _. rewrite H. ring. Qed.
  Lemma side_sum_ext real v R R' axes c X' h h' : side_ok real v R R' axes -> tree_of S R' c X' -> (forall X, tree_of S R c X -> h X = h' X) -> side_sum v X' h = side_sum v X' h'.
  Proof.
    intros SO T H. destruct v as [keys|m]; cbn [side_sum side_ok] in *.
    - apply H. apply (same_tree_of S (proj1 SO)). exact T.
    - f_equal. apply map_ext_in. intros e Ie. unfold coef. destruct (find tree_dec (snd e) X') as [k|] eqn:FD; [|ring]. rewrite H; [reflexivity|]. destruct e as [X col]. apply (proj1 SO X col X' c Ie (in_map fst _ _ (find_In FD)) T).
  Qed.

  Variables P Q P' Q' : tprod.
  Hypothesis HP : tp_ok S P.
  Hypothesis HQ : tp_ok S Q.
  Hypothesis HP' : tp_ok S P'.
  Hypothesis HQ' : tp_ok S Q'.

  Lemma splitting_spec (axes : list nat) real_old real_new s c (B : block) M' N : is_perm (length (tp_flat_legs P)) axes -> side_ok real_old s P P' axes ->
    is_matrix (block_size P c) N B -> M' = block_size P' c ->
    exists B1 z, transform_splitting_trees S o re real_old real_new s B (bzeros o [M'; N]) c P P' axes = Some (B1, match s with inl _ => real_old | inr _ => real_new end, z) /\ is_matrix M' N B1 /\
      forall X' p p' y, tree_of S P' c X' -> length p = length (tp_flat_legs P) -> p' = take 0 p axes -> valid_idx (tree_mults S P' X') p' -> y < N ->
        bat o B1 [start_of S P' X' + flat_index (tree_mults S P' X') true p'; y] = side_sum s X' (fun X => bat o B [start_of S P X + flat_index (tree_mults S P X) true p; y]) /\
        (z = true -> side_sum s X' (fun X => bat o B [start_of S P X + flat_index (tree_mults S P X) true p; y]) = o0 o).
  Proof.
    intros PM SO MB EM. destruct s as [keys|m]; cbn [transform_splitting_trees side_ok side_sum] in *.
    - destruct SO as [EL ->]. exists B, false. split; [reflexivity|]. split.
      + rewrite EM, !(block_size_spec OK) by assumption. rewrite EL. rewrite <- (block_size_spec OK) by assumption. exact MB.
      + intros X' p p' y T Lp Ep V Hy. split; [|discriminate]. rewrite (same_start S EL), (same_mults S EL). rewrite Ep, <- Lp, take_seq. reflexivity.
    - destruct SO as [MT RE].
      destruct (@rows_cells_spec S OK K o SR re P P' HP HP' axes PM real_old c N B m M' MT RE MB EM (items S P' c) (bzeros o [M'; N], true)) as ([B1 z] & E & MB1 & V & _).
      + apply (items_NoDup OK); assumption.
      + apply incl_refl.
      + split; [reflexivity|apply bmk_wf].
      + intros x Ix i j Hi Hj. cbn [fst]. assert (B2 := items_bound OK HP' Ix). apply bat_zeros. repeat constructor; lia.
      + unfold items in E. rewrite E. exists B1, z. split; [reflexivity|]. split; [exact MB1|]. intros X' p p' y T Lp Ep V1 Hy. destruct (tree_item OK HP' T) as (x & Ix & <- & SX & MX & _).
        unfold start_of at 1. rewrite SX, <- MX in *. apply (V x Ix p p' y Lp Ep V1 Hy).
  Qed.
  Lemma fusion_spec (axes : list nat) real_old f c (B : block) M N' : is_perm (length (tp_flat_legs Q)) axes -> side_ok real_old f Q Q' axes ->
    is_matrix M (block_size Q c) B -> N' = block_size Q' c ->
    exists B1 z, transform_fusion_trees S o re real_old f B (bzeros o [M; N']) c Q Q' axes = Some (B1, z) /\ is_matrix M N' B1 /\
      forall Y' q q' x, tree_of S Q' c Y' -> length q = length (tp_flat_legs Q) -> q' = take 0 q axes -> valid_idx (tree_mults S Q' Y') q' -> x < M ->
        bat o B1 [x; start_of S Q' Y' + flat_index (tree_mults S Q' Y') true q'] = side_sum f Y' (fun Y => bat o B [x; start_of S Q Y + flat_index (tree_mults S Q Y) true q]) /\
        (z = true -> side_sum f Y' (fun Y => bat o B [x; start_of S Q Y + flat_index (tree_mults S Q Y) true q]) = o0 o).
  Proof.
    intros PM SO MB EM. destruct f as [keys|m]; cbn [transform_fusion_trees side_ok side_sum] in *.
    - destruct SO as [EL ->]. exists B, false. split; [reflexivity|]. split.
      + rewrite EM, !(block_size_spec OK) by assumption. rewrite EL. rewrite <- (block_size_spec OK) by assumption. exact MB.
      + intros X' p p' y T Lp Ep V Hy. split; [|discriminate]. rewrite (same_start S EL), (same_mults S EL). rewrite Ep, <- Lp, take_seq. reflexivity.
    - destruct SO as [MT RE].
      destruct (@cols_cells_spec S OK K o SR re Q Q' HQ HQ' axes PM real_old c M B m N' MT RE MB EM (items S Q' c) (bzeros o [M; N'], true)) as ([B1 z] & E & MB1 & V & _).
      + apply (items_NoDup OK); assumption.
      + apply incl_refl.
      + split; [reflexivity|apply bmk_wf].
      + intros x Ix i j Hi Hj. cbn [fst]. assert (B2 := items_bound OK HQ' Ix). apply bat_zeros. repeat constructor; lia.
      + unfold items in E. rewrite E. exists B1, z. split; [reflexivity|]. split; [exact MB1|]. intros X' p p' y T Lp Ep V1 Hy. destruct (tree_item OK HQ' T) as (x & Ix & <- & SX & MX & _).
        unfold start_of at 1. rewrite SX, <- MX in *. apply (V x Ix p p' y Lp Ep V1 Hy).
  Qed.

  Variable F : fdata.
  Hypothesis FO : ft_ok P Q F.
  Variables ci di : list nat.
  Notation J := (length (tp_flat_legs P)).
  Notation Kn := (length (tp_flat_legs Q)).
  Notation di' := (map (fun i => (J + Kn - 1) - i) di).
  Hypothesis PC : is_perm J ci.
  Hypothesis PD : is_perm Kn di'.
  Hypothesis QQ : Permutation (tp_flat_legs Q') (tp_flat_legs Q).
  Variables data_real is_real : bool.
  Variables s f : variant.
  Hypothesis SO : side_ok data_real s P P' ci.
  Hypothesis FS : side_ok (match s with inl _ => data_real | inr _ => data_real && is_real end) f Q Q' di'.
  Notation walk := (common_walk true true 0 (tp_secs P') 0 (tp_secs Q')).
  Definition factorized_value (X' Y' : tree) (p q : list nat) : K := side_sum f Y' (fun Y => side_sum s X' (fun X => tree_value S o P Q F X p Y q)).

  Definition fact_of (ij : nat * nat) : option (block * bool) :=
    let coupled := nth (fst ij) (tp_secs P') [] in
    let zeros := bzeros o [nth (fst ij) (tp_mults P') 0; nth (snd ij) (tp_mults Q') 0] in
    match block_ind_from_coupled (map fst F) coupled Q with
    | None => None
    | Some None => Some (zeros, true)
    | Some (Some k) =>
        match transform_splitting_trees S o re data_real (data_real && is_real) s (snd (frow F k)) zeros coupled P P' ci with
        | None => None
        | Some (b, _, true) => Some (b, true)
        | Some (after_split, real_split, false) => transform_fusion_trees S o re real_split f after_split zeros coupled Q Q' di'
        end
    end.
  Lemma factorized_blocks_eq ijs : (forall ij, In ij ijs -> fact_of ij <> None) ->
    factorized_blocks S o re data_real (data_real && is_real) s f F P Q P' Q' ci di' ijs = Some (opt_data (fun ij => written (fact_of ij)) ijs).
  Proof.
    induction ijs as [|[i j] ijs IH]; intros H; [reflexivity|]. cbn [factorized_blocks opt_data flat_map]. rewrite IH by (intros ij I; apply H; now right).
    assert (NN := H (i, j) (or_introl eq_refl)). unfold fact_of in *. cbn [fst snd] in *. cbv zeta in *. destruct (block_ind_from_coupled _ _ _) as [[k|]|]; [|reflexivity|easy].
    destruct (transform_splitting_trees _ _ _ _ _ _ _ _ _ _ _ _) as [[[b r] z]|]; [|easy]. destruct z; [reflexivity|].
    destruct (transform_fusion_trees _ _ _ _ _ _ _ _ _ _ _) as [[b' z']|]; [|easy]. destruct z'; reflexivity.
  Qed.
  Lemma fact_of_spec i j : In (i, j) walk -> let c := nth i (tp_secs P') [] in exists B z, fact_of (i, j) = Some (B, z) /\ is_matrix (nth i (tp_mults P') 0) (nth j (tp_mults Q') 0) B /\
    forall X Y p q, tree_of S P' c X -> tree_of S Q' c Y -> length p = J -> length q = Kn -> valid_idx (tree_mults S P' X) (take 0 p ci) -> valid_idx (tree_mults S Q' Y) (take 0 q di') ->
      (z = false -> bat o B [start_of S P' X + flat_index (tree_mults S P' X) true (take 0 p ci); start_of S Q' Y + flat_index (tree_mults S Q' Y) true (take 0 q di')] = factorized_value X Y p q) /\
      (z = true -> factorized_value X Y p q = o0 o).
  Proof.
    intros I c. destruct (proj1 (common_In OK HP' HQ' _ _) I) as (R1 & R2 & R3).
    assert (E1 : nth i (tp_mults P') 0 = block_size P' c) by (apply (block_size_nth OK HP' R1)). assert (E2 : nth j (tp_mults Q') 0 = block_size Q' c) by (unfold c; rewrite R3; apply (block_size_nth OK HQ' R2)).
    assert (E3 : block_size Q' c = block_size Q c) by (apply (block_size_perm OK); assumption).
    unfold fact_of. cbn [fst snd]. cbv zeta. fold c.
    assert (TV : forall X Y p q, tree_of S P c X -> tree_of S Q c Y -> tree_value S o P Q F X p Y q = ft_entry o Q F c (start_of S P X + flat_index (tree_mults S P X) true p) (start_of S Q Y + flat_index (tree_mults S Q Y) true q)).
    { intros X Y p q TX TY. unfold tree_value, start_of. destruct (tree_item OK HP TX) as (x1 & _ & _ & SL1 & _). destruct (tree_item OK HQ TY) as (x2 & _ & _ & SL2 & _). rewrite SL1, SL2, (tree_of_coup TX). reflexivity. }
    destruct (coupled_spec OK HQ c FO) as [[b [E [Hb Fb]]]|[E NB]]; rewrite E.
    - assert (MB : is_matrix (block_size P c) (nth j (tp_mults Q') 0) (snd (frow F b))).
      { rewrite E2, E3. split; [|apply (ft_wf FO Hb)]. assert (X := ft_shape OK HP HQ FO Hb). rewrite Fb in X. exact X. }
      assert (BE : forall x y, ft_entry o Q F c x y = bat o (snd (frow F b)) [x; y]) by (intros x y; rewrite <- Fb; apply (ft_entry_at OK o HQ _ _ FO Hb)).
      assert (FV : forall X' Y' p q, tree_of S P' c X' -> tree_of S Q' c Y' -> factorized_value X' Y' p q =
         side_sum f Y' (fun Y => side_sum s X' (fun X => bat o (snd (frow F b)) [start_of S P X + flat_index (tree_mults S P X) true p; start_of S Q Y + flat_index (tree_mults S Q Y) true q]))).
      { intros X' Y' p q TX TY. unfold factorized_value. apply (side_sum_ext FS TY). intros Y HY. apply (side_sum_ext SO TX). intros X HX. rewrite TV by assumption. apply BE. }
      destruct (@splitting_spec ci data_real (data_real && is_real) s c (snd (frow F b)) (nth i (tp_mults P') 0) (nth j (tp_mults Q') 0) PC SO MB E1) as (B1 & z1 & EB1 & MB1 & V1). rewrite EB1.
      assert (TQ : forall Y q, tree_of S Q c Y -> valid_idx (tree_mults S Q Y) q -> start_of S Q Y + flat_index (tree_mults S Q Y) true q < nth j (tp_mults Q') 0).
      { intros Y q TY Vq. destruct (tree_item OK HQ TY) as (y & _ & _ & SL & _ & ST & BD). unfold start_of. rewrite SL. apply flat_lt in Vq. rewrite E2, E3. lia. }
      assert (VQ : forall Y' q Y, tree_of S Q' c Y' -> length q = Kn -> valid_idx (tree_mults S Q' Y') (take 0 q di') -> tree_of S Q c Y -> tree_mults S Q' Y' = take 0 (tree_mults S Q Y) di' -> valid_idx (tree_mults S Q Y) q).
      { intros Y' q Y TY' Lq V TY EM. rewrite EM in V. assert (PQ : is_perm (length (tree_mults S Q Y)) di') by (rewrite (tree_mults_len TY); exact PD).
        assert (W := valid_untake PQ V). rewrite take_inverse in W by (rewrite Lq; exact PD). exact W. }
      assert (SF : forall Y' q h h', tree_of S Q' c Y' -> length q = Kn -> valid_idx (tree_mults S Q' Y') (take 0 q di') -> (forall Y, tree_of S Q c Y -> valid_idx (tree_mults S Q Y) q -> h Y = h' Y) -> side_sum f Y' h = side_sum f Y' h').
      { intros Y' q h h' TY' Lq V H. destruct f as [keys|m]; cbn [side_sum side_ok] in *.
        - destruct FS as [EL ED]. assert (TY : tree_of S Q c Y') by (apply (same_tree_of S EL); exact TY'). apply H; [exact TY|]. rewrite ED, <- Lq, take_seq, (same_mults S EL) in V. exact V.
        - f_equal. apply map_ext_in. intros e Ie. unfold coef. destruct (find tree_dec (snd e) Y') as [k|] eqn:FD; [|ring]. destruct e as [Y col]. cbn [fst snd] in *.
          destruct (proj1 FS Y col Y' c Ie (in_map fst _ _ (find_In FD)) TY') as [TY EM]. rewrite H; [reflexivity|exact TY|]. eapply VQ; eauto. }
      destruct z1.
      + exists B1, true. split; [reflexivity|]. split; [exact MB1|]. intros X Y p q TX TY Lp Lq Vp Vq. split; [discriminate|]. intros _. rewrite FV by assumption. rewrite (SF Y q _ (fun _ => o0 o) TY Lq Vq); [now apply side_sum_zero|].
        intros Y0 TY0 Vq0. apply (V1 X p _ _ TX Lp eq_refl Vp (TQ _ _ TY0 Vq0)). reflexivity.
      + assert (MB1' := MB1). rewrite E2, E3 in MB1'. 
        destruct (@fusion_spec di' (match s with inl _ => data_real | inr _ => data_real && is_real end) f c B1 (nth i (tp_mults P') 0) (nth j (tp_mults Q') 0) PD FS MB1' E2) as (B2 & z2 & EB2 & MB2 & V2). rewrite EB2.
        exists B2, z2. split; [reflexivity|]. split; [exact MB2|]. intros X Y p q TX TY Lp Lq Vp Vq. rewrite FV by assumption.
        assert (HX : start_of S P' X + flat_index (tree_mults S P' X) true (take 0 p ci) < nth i (tp_mults P') 0).
        { destruct (tree_item OK HP' TX) as (x & _ & _ & SL & _ & ST & BD). unfold start_of. rewrite SL. assert (VL := flat_lt Vp). rewrite E1. lia. }
        destruct (V2 Y q _ _ TY Lq eq_refl Vq HX) as [W2 Z2].
        assert (EQ : side_sum f Y (fun Y0 => bat o B1 [start_of S P' X + flat_index (tree_mults S P' X) true (take 0 p ci); start_of S Q Y0 + flat_index (tree_mults S Q Y0) true q]) =
          side_sum f Y (fun Y0 => side_sum s X (fun X0 => bat o (snd (frow F b)) [start_of S P X0 + flat_index (tree_mults S P X0) true p; start_of S Q Y0 + flat_index (tree_mults S Q Y0) true q]))).
        { apply (SF Y q _ _ TY Lq Vq). intros Y0 TY0 Vq0. apply (V1 X p _ _ TX Lp eq_refl Vp (TQ _ _ TY0 Vq0)). }
        rewrite EQ in W2, Z2. split; [intros _; exact W2|exact Z2].
    - exists (bzeros o [nth i (tp_mults P') 0; nth j (tp_mults Q') 0]), true. split; [reflexivity|]. split; [split; [reflexivity|apply bmk_wf]|]. intros X Y p q TX TY _ _ _ _. split; [discriminate|]. intros _.
      unfold factorized_value. rewrite (side_sum_ext FS TY (h' := fun _ => o0 o)); [now apply side_sum_zero|]. intros Y0 TY0. rewrite (side_sum_ext SO TX (h' := fun _ => o0 o)); [now apply side_sum_zero|].
      intros X0 TX0. rewrite TV by assumption. apply (ft_entry_none o _ _ FO NB).
  Qed.
  Lemma factorized_transform_spec : exists F', factorized_transform S o re data_real is_real s f F P Q P' Q' ci di = Some F' /\ ft_ok P' Q' F' /\
      forall c X Y p q, tree_of S P' c X -> tree_of S Q' c Y -> length p = J -> length q = Kn -> valid_idx (tree_mults S P' X) (take 0 p ci) -> valid_idx (tree_mults S Q' Y) (take 0 q di') ->
        tree_value S o P' Q' F' X (take 0 p ci) Y (take 0 q di') = factorized_value X Y p q.
  Proof.
    unfold factorized_transform. cbv zeta. assert (NN : forall ij, In ij walk -> fact_of ij <> None). { intros [i j] I. destruct (fact_of_spec I) as (B & z & E & _). now rewrite E. }
    rewrite (factorized_blocks_eq NN), ft_make_true. set (g := fun ij => written (fact_of ij)).
    assert (GM : forall i j B, In (i, j) walk -> g (i, j) = Some B -> is_matrix (nth i (tp_mults P') 0) (nth j (tp_mults Q') 0) B).
    { intros i j B I E. destruct (fact_of_spec I) as (B' & z & E' & MB & _). unfold g in E. rewrite E' in E. cbn [written] in E. destruct z; [discriminate|]. injection E as <-. exact MB. }
    eexists. split; [reflexivity|]. split; [exact (walk_ok OK HP' HQ' GM)|]. intros c X Y p q TX TY Lp Lq V1 V2.
    destruct (walk_some OK HP' HQ' TX TY) as (i & j & I & Ei & Ej & _). destruct (tree_item OK HP' TX) as (x & _ & _ & SX & _). destruct (tree_item OK HQ' TY) as (y & _ & _ & SY & _).
    unfold tree_value. rewrite SX, SY, (tree_of_coup TX). rewrite <- Ei at 1. rewrite (walk_entry OK o HP' HQ' GM _ _ I). unfold g.
    destruct (fact_of_spec I) as (B & z & E & _ & V). cbv zeta in V. rewrite Ei in V. destruct (V X Y p q TX TY Lp Lq V1 V2) as [VB VZ]. rewrite E. unfold start_of in VB. rewrite SX, SY in VB. cbn [written].
    destruct z; [|now apply VB]. symmetry. now apply VZ.
  Qed.
End Factorized.
