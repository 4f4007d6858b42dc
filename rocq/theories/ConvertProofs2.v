(** Offsets of the tree blocks: the sum over the earlier sector combinations is the slice of forest_block_slice. *)
From Verif Require Import Util StableSort RowModel RowProofs GridModel GridProofs SymModel SymProofs CatSpec Sums SpaceModel SpaceSpec SpaceProofs SpaceProofs2 SpaceProofs3 SpaceProofs7
  PipeModel PipeProofs PipeProofs2 PipeProofs4 TreeModel TreeProofs TensorModel TensorSpec FormalSum TensorProofs TensorProofs2 TensorProofs3 TensorProofs4 TensorProofs5 BlockModel BlockProofs SparseModel SparseSpec SparseProofs
  SparseProofs6 SparseCharge ConvertModel ConvertSpec ConvertProofs.
Set Implicit Arguments. Unset Strict Implicit.
Open Scope nat_scope.

Lemma map_snd_combine' A B (l : list A) : forall m : list B, length m = length l -> map snd (combine l m) = m.
Proof. induction l as [|a l IH]; intros [|b m] L; try discriminate; [reflexivity|]. cbn [combine map snd]. rewrite IH; auto. Qed.
Lemma map_flat_map' A B C (g : B -> C) (f : A -> list B) l : map g (flat_map f l) = flat_map (fun x => map g (f x)) l.
Proof. induction l as [|x l IH]; [reflexivity|]. cbn [flat_map]. now rewrite map_app, IH. Qed.
Lemma flat_map_map2 A B C (f : B -> list C) (g : A -> B) l : flat_map f (map g l) = flat_map (fun x => f (g x)) l.
Proof. induction l as [|x l IH]; [reflexivity|]. cbn [map flat_map]. now rewrite IH. Qed.
Section Off.
  Variable S : tsymm.
  Hypothesis OK : tsymm_ok S.
  Variable fuse : sector -> sector -> sector.
  Hypothesis G : abelian_group_laws S fuse.
  Section Legs.
  Variable legs : list espace.
  Hypothesis LO : Forall (es_ok S) legs.

  Definition grid := make_grid (map nsec legs) true.
  Definition fus (a : list nat) : sector := fuse_all S fuse (row_sectors S legs a).
  Definition hgt (a : list nat) : nat := prod (shp (mults legs) a).
  Definition wd (c : sector) (a : list nat) : nat := if row_eqb (fus a) c then hgt a else 0.
  Definition tot (c : sector) (l : list (list nat)) : nat := nsum (map (wd c) l).
  Fixpoint off (c : sector) (l : list (list nat)) (a : list nat) : nat :=
    match l with [] => 0 | x :: l => if list_eq_dec Nat.eq_dec x a then 0 else wd c x + off c l a end.

  Lemma LO' : forall L, In L legs -> es_ok S L. Proof. now apply Forall_forall. Qed.
  Lemma grid_valid a : In a grid <-> valid_idx (map nsec legs) a. Proof. apply make_grid_In. Qed.
  Lemma grid_NoDup : NoDup grid. Proof. apply make_grid_NoDup. Qed.
  Lemma valids_at a : In a grid -> Forall (fun x => sym_valid S x = true) (row_sectors S legs a).
  Proof. intros I. apply (row_sectors_valid G); [exact LO'|now apply grid_valid]. Qed.
  Lemma fus_valid a : In a grid -> sym_valid S (fus a) = true.
  Proof. intros I. apply (fuse_all_valid G). now apply valids_at. Qed.
  Lemma mf_at a : In a grid -> multiple_fusion S (row_sectors S legs a) = Some (fus a).
  Proof. intros I. apply (fall_multiple G). now apply valids_at. Qed.
  Lemma shp_pos a : In a grid -> 0 < hgt a.
  Proof.
    intros I. apply grid_valid in I. unfold hgt, mults. revert a I. induction LO as [|L l O LO'' IH]; intros a V; inversion V as [|i n a' s Hi Hr]; subst; [cbn; lia|].
    cbn [map shp]. change (0 < nth i (es_mults L) 0 * prod (shp (map es_mults l) a')). apply Nat.mul_pos_pos; [|now apply IH]. apply (ok_pos O). now apply nth_In.
  Qed.
  Lemma items_combos : map item_of (combos (map (leg_pairs S) legs)) = map (fun a => Unc (row_sectors S legs a) (shp (mults legs) a)) grid.
  Proof.
    unfold grid, make_grid. enough (G1 : combos (map (leg_pairs S) legs) = map (fun a => combine (row_sectors S legs a) (shp (mults legs) a)) (cgrid (map nsec legs))).
    { rewrite G1, map_map. apply map_ext_in. intros a I. unfold item_of. apply cgrid_In in I. assert (L1 : length (shp (mults legs) a) = length (row_sectors S legs a)).
      { unfold row_sectors. rewrite zipw_length by (rewrite (valid_length I); apply map_length). rewrite shp_length; unfold mults; [apply map_length|rewrite map_map; exact I]. }
      rewrite map_fst_combine by exact L1. rewrite map_snd_combine' by lia. reflexivity. }
    clear - LO. induction LO as [|L l O _ IH]; [reflexivity|]. cbn [map combos cgrid]. rewrite IH by (now inversion LO).
    assert (E : leg_pairs S L = map (fun i => (nth i (es_decomp S L) [], nth i (es_mults L) 0)) (seq 0 (nsec L))).
    { unfold leg_pairs, sp_pairs. change (sp_secs (es_space S L)) with (es_decomp S L). change (sp_mults (es_space S L)) with (es_mults L).
      apply list_eq_nth with (d := ([], 0)); [rewrite combine_length, map_length, seq_length; rewrite decomp_len by exact O; unfold nsec; lia|].
      intros i Hi. rewrite combine_length, decomp_len in Hi by exact O. rewrite nth_map_lt with (d := 0) by (rewrite seq_length; lia). rewrite seq_nth by lia. cbn [Nat.add]. apply combine_nth. rewrite decomp_len by exact O. reflexivity. }
    rewrite E. rewrite flat_map_map2, map_flat_map'. apply flat_map_ext. intros i. rewrite !map_map. apply map_ext. intros a. reflexivity.
  Qed.
  Lemma tot_app c l1 l2 : tot c (l1 ++ l2) = tot c l1 + tot c l2.
  Proof. unfold tot. now rewrite map_app, nsum_app. Qed.
  Lemma tot_cons c a l : tot c (a :: l) = wd c a + tot c l.
  Proof. unfold tot. cbn [map]. apply nsum_cons. Qed.
  Lemma off_split c l1 a l2 : ~ In a l1 -> off c (l1 ++ a :: l2) a = tot c l1.
  Proof.
    induction l1 as [|x l1 IH]; intros NI; cbn [app off]; [destruct (list_eq_dec _ a a); [reflexivity|congruence]|].
    destruct (list_eq_dec Nat.eq_dec x a) as [E|E]; [exfalso; apply NI; now left|]. rewrite IH by (intros X; apply NI; now right). unfold tot. cbn [map]. now rewrite nsum_cons.
  Qed.
  Lemma off_grid c l1 a l2 : grid = l1 ++ a :: l2 -> off c grid a = tot c l1.
  Proof. intros E. rewrite E. apply off_split. assert (ND := grid_NoDup). rewrite E in ND. apply NoDup_remove_2 in ND. intros X. apply ND, in_app_iff. now left. Qed.
  Lemma off_bound c a : In a grid -> off c grid a + wd c a <= tot c grid.
  Proof. intros I. apply in_split in I. destruct I as [l1 [l2 E]]. rewrite (off_grid c E). rewrite E, tot_app, tot_cons. lia. Qed.
  (** the slices cover the range *)
  Lemma off_cover c x : x < tot c grid -> exists a, In a grid /\ fus a = c /\ off c grid a <= x < off c grid a + hgt a.
  Proof.
    assert (GEN : forall l1 l2, grid = l1 ++ l2 -> tot c l1 <= x < tot c grid -> exists a, In a grid /\ fus a = c /\ off c grid a <= x < off c grid a + hgt a).
    { intros l1 l2. revert l1. induction l2 as [|a l2 IH]; intros l1 E X; [rewrite app_nil_r in E; rewrite E in X; lia|].
      destruct (Nat.lt_ge_cases x (tot c (l1 ++ [a]))) as [L|L]; [|apply (IH (l1 ++ [a])); [now rewrite <- app_assoc|lia]].
      rewrite tot_app, tot_cons in L. change (tot c []) with 0 in L. unfold wd in L.
      destruct (row_eqb (fus a) c) eqn:R; [|exfalso; lia]. exists a. assert (I : In a grid) by (rewrite E; apply in_app_iff; right; now left).
      split; [exact I|]. split; [now apply row_eqb_eq|]. rewrite (off_grid c E). lia. }
    intros X. apply (GEN [] grid); [reflexivity|]. split; [apply Nat.le_0_l|exact X].
  Qed.
  End Legs.

  Variable P : tprod.
  Hypothesis HP : tp_ok S P.
  Notation legs := (tp_flat_legs P).
  Let LO := proj1 HP.
  Lemma items_grid : iter_uncoupled S P = map (fun a => Unc (row_sectors S legs a) (shp (mults legs) a)) (grid legs).
  Proof. rewrite iter_uncoupled_eq by (apply lens; [exact OK|exact LO]). unfold tp_combos. apply items_combos. exact LO. Qed.
  Lemma width_at c a : In a (grid legs) -> width S c (Unc (row_sectors S legs a) (shp (mults legs) a)) = wd legs c a.
  Proof.
    intros I. unfold width. cbn [u_secs u_mults]. rewrite (num_trees_abelian (to_ring OK) G) by (now apply valids_at). rewrite product_prod. unfold delta, wd, hgt. fold (fus legs a). destruct (row_eqb (fus legs a) c); lia.
  Qed.
  Lemma block_size_tot c : block_size P c = tot legs c (grid legs).
  Proof. rewrite (block_size_width OK c HP), items_grid, map_map. unfold tot. f_equal. apply map_ext_in. intros a I. now apply width_at. Qed.
  Lemma rows_inj a a' : In a (grid legs) -> In a' (grid legs) -> row_sectors S legs a = row_sectors S legs a' -> a = a'.
  Proof.
    intros I I' E. assert (ND := items_NoDup OK HP). rewrite items_grid, map_map in ND. cbn [u_secs] in ND. revert I I' E ND. generalize (grid legs) as l. induction l as [|x l IH]; [intros []|]. intros I I' E ND.
    inversion ND as [|? ? NI ND']; subst. destruct I as [-> |I], I' as [-> |I']; auto.
    - exfalso. apply NI. rewrite E. now apply (in_map (fun x => row_sectors S legs x)).
    - exfalso. apply NI. rewrite <- E. now apply (in_map (fun x => row_sectors S legs x)).
  Qed.
  Lemma forest_slice_at c a : In a (grid legs) -> exists e, forest_block_slice S P (row_sectors S legs a) c = Some (off legs c (grid legs) a, e).
  Proof.
    intros I. unfold forest_block_slice. rewrite items_grid.
    assert (GEN : forall l s, In a l -> (forall x, In x l -> In x (grid legs)) -> forest_offset S (map (fun a => Unc (row_sectors S legs a) (shp (mults legs) a)) l) (row_sectors S legs a) c s = Some (s + off legs c l a)).
    { induction l as [|x l IH]; intros s Ia IN; [easy|]. cbn [map forest_offset off u_secs u_mults]. destruct (list_eq_dec Nat.eq_dec x a) as [-> |NE].
      - assert (R : rows_eqb (row_sectors S legs a) (row_sectors S legs a) = true) by (now apply rows_eqb_eq). rewrite R. f_equal. lia.
      - destruct (rows_eqb (row_sectors S legs x) (row_sectors S legs a)) eqn:R.
        + apply rows_eqb_eq in R. exfalso. apply NE. apply rows_inj; auto. apply IN; now left.
        + assert (W := width_at c (IN x (or_introl eq_refl))). unfold width in W. cbn [u_secs u_mults] in W. rewrite W. destruct Ia as [Ia|Ia]; [congruence|]. rewrite IH; auto; [f_equal; lia|]. intros y Iy. apply IN; now right. }
    rewrite GEN; auto. cbn [Nat.add]. eauto.
  Qed.
End Off.
