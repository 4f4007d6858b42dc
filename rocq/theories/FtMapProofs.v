(** Blocks of fusion trees in a coupled sector, and permutations of the axes of a matrix with combined legs. *)
From Verif Require Import Util StableSort RowModel RowProofs GridModel GridProofs SymModel SymProofs CatSpec Sums SpaceModel SpaceSpec SpaceProofs SpaceProofs2 SpaceProofs7
  PipeModel PipeProofs PipeProofs4 TreeModel TreeProofs TreeProofs5 TensorModel TensorSpec FormalSum TensorProofs TensorProofs2 TensorProofs3 TensorProofs4 TensorProofs5 TensorProofs6 BlockModel BlockProofs
  SparseModel ConvertModel ConvertSpec ConvertProofs3 FtOpsModel FtOpsSpec MappingModel MappingProofs PermLegsModel FtMapModel FtMapSpec.
Set Implicit Arguments. Unset Strict Implicit.
Open Scope nat_scope.

Section Items.
  Variable S : tsymm.
  Hypothesis OK : tsymm_ok S.
  Definition items (R : tprod) (c : sector) : list tb_item := iter_tree_blocks S R [c].
  Lemma items_eq R c : items R c = unc_loop S (iter_uncoupled S R) c (map es_dual (tp_flat_legs R)) 0 0.
  Proof. unfold items, iter_tree_blocks. cbn [length seq flat_map nth]. apply app_nil_r. Qed.
  Lemma items_trees R c : tp_ok S R -> forall t, In t (map tb_tree (items R c)) <-> tree_of S R c t.
  Proof. intros H t. rewrite items_eq. now apply tree_blocks_trees. Qed.
  Lemma items_tree_NoDup R c : tp_ok S R -> NoDup (map tb_tree (items R c)).
  Proof. intros H. rewrite items_eq. now apply tree_blocks_NoDup. Qed.
  Lemma items_NoDup R c : tp_ok S R -> NoDup (items R c).
  Proof. intros H. eapply NoDup_map_inv. apply items_tree_NoDup; eauto. Qed.
  Lemma items_inj R c x y : tp_ok S R -> In x (items R c) -> In y (items R c) -> tb_tree x = tb_tree y -> x = y.
  Proof.
    intros H Ix Iy E. assert (ND := items_tree_NoDup c H). revert Ix Iy ND. generalize (items R c). intros l. induction l as [|z l IH]; [easy|]. cbn [map In]. intros Ix Iy ND. inversion ND as [|? ? NI ND']; subst.
    destruct Ix as [ -> |Ix], Iy as [ -> |Iy]; auto; exfalso; apply NI; [rewrite E|rewrite <- E]; now apply in_map.
  Qed.
  Lemma items_slice R c x : tp_ok S R -> In x (items R c) -> tree_block_slice S R (tb_tree x) = Some (tb_start x, tb_stop x).
  Proof. intros H I. rewrite items_eq in I. apply (tree_block_slice_spec OK H I). Qed.
  Lemma items_mults R c x : tp_ok S R -> In x (items R c) -> tb_mults x = tree_mults S R (tb_tree x) /\ tb_stop x = tb_start x + prod (tb_mults x).
  Proof.
    intros H I. rewrite items_eq in I. destruct (unc_loop_In I) as (it & k & Ii & NE & M & ST & _).
    assert (V : valid_tree S (u_secs it) c (map es_dual (tp_flat_legs R)) (tb_tree x)).
    { apply all_trees_In; [|eapply nth_error_In; exact NE]. rewrite map_length. symmetry. apply (item_valid OK H Ii). }
    rewrite ST, M, product_prod. split; [|reflexivity]. unfold tree_mults. rewrite (proj1 (valid_tree_fields V)). apply (item_spec OK it H). exact Ii.
  Qed.
  Lemma tiles_bound l : forall s e, tiles s l e -> s <= e /\ forall a b, In (a, b) l -> s <= a /\ a <= b /\ b <= e.
  Proof.
    induction l as [|[a b] l IH]; intros s e; cbn [tiles]; [intros ->; split; [lia|intros ? ? []]|]. intros (-> & L & T). destruct (IH _ _ T) as [L2 B]. split; [lia|].
    intros a' b' [E|I]; [injection E as <- <-; lia|]. destruct (B _ _ I) as (? & ? & ?). lia.
  Qed.
  Lemma tiles_disjoint (T : Type) (f : T -> nat * nat) l : forall s e, tiles s (map f l) e -> forall x y i, In x l -> In y l -> fst (f x) <= i < snd (f x) -> fst (f y) <= i < snd (f y) -> x = y.
  Proof.
    induction l as [|z l IH]; intros s e; [easy|]. cbn [map]. destruct (f z) as [a b] eqn:Ez. cbn [tiles]. intros (-> & L & T2) x y i Ix Iy Hx Hy.
    assert (B := proj2 (tiles_bound T2)). assert (G : forall w, In w l -> b <= fst (f w)). { intros w Iw. assert (IW : In (fst (f w), snd (f w)) (map f l)) by (rewrite <- surjective_pairing; now apply in_map). apply B in IW. lia. }
    destruct Ix as [<- |Ix], Iy as [<- |Iy]; auto.
    - exfalso. rewrite Ez in Hx. cbn [fst snd] in Hx. specialize (G y Iy). lia.
    - exfalso. rewrite Ez in Hy. cbn [fst snd] in Hy. specialize (G x Ix). lia.
    - eapply IH; eauto.
  Qed.
  Lemma items_tiles R c : tp_ok S R -> tiles 0 (map tb_slice (items R c)) (block_size R c).
  Proof. intros H. rewrite items_eq, (block_size_width OK c H). apply (unc_loop_tiles S (iter_uncoupled S R) c _ 0 0). Qed.
  Lemma items_bound R c x : tp_ok S R -> In x (items R c) -> tb_stop x <= block_size R c.
  Proof. intros H I. assert (B := proj2 (tiles_bound (items_tiles c H))). apply (in_map tb_slice) in I. apply B in I. lia. Qed.
  Lemma items_disjoint R c x y i : tp_ok S R -> In x (items R c) -> In y (items R c) -> tb_start x <= i < tb_stop x -> tb_start y <= i < tb_stop y -> x = y.
  Proof. intros H Ix Iy Hx Hy. exact (tiles_disjoint (items_tiles c H) Ix Iy Hx Hy). Qed.
  (** the item of a tree *)
  Lemma tree_item R c t : tp_ok S R -> tree_of S R c t -> exists x, In x (items R c) /\ tb_tree x = t /\ tree_block_slice S R t = Some (tb_start x, tb_stop x) /\
    tb_mults x = tree_mults S R t /\ tb_stop x = tb_start x + prod (tree_mults S R t) /\ tb_stop x <= block_size R c.
  Proof.
    intros H T. apply (items_trees c H) in T. apply in_map_iff in T. destruct T as [x [E I]]. exists x. destruct (items_mults H I) as [M ST]. rewrite E in M. rewrite M in ST.
    split; [exact I|]. split; [exact E|]. split; [rewrite <- E; now apply items_slice with (c := c)|]. split; [exact M|]. split; [exact ST|now apply items_bound].
  Qed.
  Lemma tree_of_coup R c t : tree_of S R c t -> t_coup t = c.
  Proof. intros [V _]. apply (valid_tree_fields V). Qed.
  Lemma tree_of_len R c t : tree_of S R c t -> length (t_unc t) = length (tp_flat_legs R).
  Proof. intros [_ F]. eapply Forall2_len; eauto. Qed.
  Lemma tree_mults_len R c t : tree_of S R c t -> length (tree_mults S R t) = length (tp_flat_legs R).
  Proof. intros T. unfold tree_mults. rewrite map_length, combine_length, (tree_of_len T). lia. Qed.
  Lemma tree_of_sec R c t : tp_ok S R -> tree_of S R c t -> In c (tp_secs R).
  Proof.
    intros H T. destruct (tp_ok_spec OK H) as [O _]. destruct (tree_item H T) as (x & I & _ & _ & M & ST & B).
    assert (PO : 0 < prod (tree_mults S R t)).
    { destruct T as [_ F]. destruct H as [HL _]. unfold tree_mults. revert F HL. generalize (tp_flat_legs R). generalize (t_unc t). clear -OK.
      intros us legs F. induction F as [|a E us legs Ia F IH]; intros HL; cbn [combine map]; [cbn; lia|]. inversion HL as [|? ? O HL']; subst. rewrite prod_cons. cbn [fst snd].
      assert (0 < es_mult S E a). { assert (SO := es_space_ok' OK O). rewrite <- es_sp_mult. apply (mult_of_pos a (sk_nodup SO) (sk_len SO)); [apply (sk_pos SO)|exact Ia]. } specialize (IH HL'). nia. }
    assert (X := sector_multiplicity_spec c (sk_nodup O) (sk_len O)). change (sector_multiplicity (tp_space R) c) with (block_size R c) in X.
    apply (mult_of_pos c (sk_nodup O) (sk_len O)); [apply (sk_pos O)|]. unfold sp_mult in X. rewrite <- X. lia.
  Qed.
End Items.

(** ** permutations of combined axes *)
Section Axes.
  Variable K : Type.
  Variable o : ops K.
  Notation block := (blk K).
  Lemma take_map_idx (T : Type) (d : T) l (g : nat -> nat) p : take d l (map g p) = map (fun i => nth (g i) l d) p.
  Proof. unfold take. now rewrite map_map. Qed.
  Lemma permute_matrix_shape B dims1 idcs1 dims2 idcs2 : 
    bshape (permute_combined_matrix o B dims1 idcs1 dims2 idcs2) = [prod (take 0 (dims1 ++ dims2) idcs1); prod (take 0 (dims1 ++ dims2) idcs2)].
  Proof.
    unfold permute_combined_matrix. cbv zeta. cbn [breshape bshape]. rewrite btranspose_shape. cbn [breshape bshape]. rewrite take_app_idx.
    rewrite firstn_app, skipn_app, take_length, Nat.sub_diag, firstn_all2, skipn_all2 by (rewrite take_length; lia). cbn [firstn skipn app]. now rewrite app_nil_r.
  Qed.
  Lemma permute_matrix_wf B dims1 idcs1 dims2 idcs2 : bwf (permute_combined_matrix o B dims1 idcs1 dims2 idcs2).
  Proof.
    unfold permute_combined_matrix. cbv zeta. apply breshape_wf; [apply btranspose_wf|]. rewrite prod_cons, prod_one, <- prod_app. f_equal. apply firstn_skipn.
  Qed.
  Lemma permute_matrix_bat (B : block) dims1 idcs1 dims2 idcs2 r1 r2 : bwf B -> bshape B = [prod dims1; prod dims2] -> is_perm (length dims1 + length dims2) (idcs1 ++ idcs2) ->
    valid_idx dims1 r1 -> valid_idx dims2 r2 ->
    let dims := dims1 ++ dims2 in let r := r1 ++ r2 in
    bat o (permute_combined_matrix o B dims1 idcs1 dims2 idcs2) [flat_index (take 0 dims idcs1) true (take 0 r idcs1); flat_index (take 0 dims idcs2) true (take 0 r idcs2)] =
    bat o B [flat_index dims1 true r1; flat_index dims2 true r2].
  Proof.
    intros W SH PM V1 V2 dims r. assert (L1 := valid_length V1). assert (L2 := valid_length V2).
    assert (V : valid_idx dims r) by (apply valid_app; auto). assert (LD : length dims = length dims1 + length dims2) by apply app_length.
    assert (PM' : is_perm (length dims) (idcs1 ++ idcs2)) by (rewrite LD; exact PM).
    assert (SHP := permute_matrix_shape B dims1 idcs1 dims2 idcs2). unfold permute_combined_matrix in *. cbv zeta in *. cbn [breshape bshape] in SHP. fold dims in SHP |- *.
    rewrite SHP. set (T := btranspose o (breshape B dims) (idcs1 ++ idcs2)).
    assert (ST : bshape T = take 0 dims idcs1 ++ take 0 dims idcs2) by (unfold T; rewrite btranspose_shape; cbn [breshape bshape]; apply take_app_idx).
    rewrite (@bat_reshape K o T [prod (take 0 dims idcs1); prod (take 0 dims idcs2)] (take 0 r (idcs1 ++ idcs2)) [flat_index (take 0 dims idcs1) true (take 0 r idcs1); flat_index (take 0 dims idcs2) true (take 0 r idcs2)]).
    - unfold T. assert (BT := bat_transpose_take o (B := breshape B dims) (p := idcs1 ++ idcs2) (r := r)). unfold bndim in BT. cbn [breshape bshape] in BT. rewrite BT by auto. clear BT.
      rewrite (@bat_reshape K o B dims [flat_index dims1 true r1; flat_index dims2 true r2] r); [reflexivity| | |].
      + rewrite SH. reflexivity.
      + apply (valid_length V).
      + rewrite SH, flat_index_2. unfold dims, r. rewrite flat_index_app by assumption. reflexivity.
    - rewrite ST, app_length, !take_length, app_length. reflexivity.
    - reflexivity.
    - rewrite ST, flat_index_2, take_app_idx. rewrite flat_index_app by (rewrite !take_length; reflexivity). reflexivity.
  Qed.
End Axes.
