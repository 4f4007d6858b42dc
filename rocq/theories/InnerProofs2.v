(** The inner product of tensors as a sum over pairs of trees and multiplicity indices. *)
From Verif Require Import Util StableSort RowModel RowProofs GridModel GridProofs SymModel SymProofs CatSpec Sums StarMat SpaceModel SpaceSpec SpaceProofs PipeModel PipeProofs4 TreeModel TreeProofs TreeProofs5 TensorModel TensorSpec TensorProofs4 TensorProofs5 BlockModel BlockProofs
  SparseModel ConvertModel ConvertSpec ConvertProofs3 FtOpsModel FtOpsProofs5 MappingModel MappingProofs PermLegsModel PermLegsSpec MoveModel FtMapModel FtMapSpec FtMapProofs FtMapProofs17.
Set Implicit Arguments. Unset Strict Implicit.
Open Scope nat_scope.

Section Sums.
  Variable K : Type.
  Variable o : ops K.
  Hypothesis SR : semi_ring_theory (o0 o) (o1 o) (oadd o) (omul o) (@eq K).
  Add Ring Kr : SR.
  Notation sum := (osum o).
  Lemma tiles_sum (f : nat -> K) l : forall s e, tiles s l e -> sum (map f (seq s (e - s))) = sum (map (fun ab => sum (map f (seq (fst ab) (snd ab - fst ab)))) l).
  Proof.
    induction l as [|[a b] l IH]; intros s e T; cbn [tiles] in T; [subst; now rewrite Nat.sub_diag|]. destruct T as (-> & LE & T). destruct (tiles_bound T) as [LE2 _]. cbn [map fst snd]. rewrite sum_cons, <- (IH _ _ T).
    replace (e - s) with ((b - s) + (e - b)) by lia. rewrite seq_app, map_app, (sum_app SR). now replace (s + (b - s)) with b by lia.
  Qed.
  Lemma box_sum (f : nat -> K) a m : sum (map f (seq a (prod m))) = sum (map (fun p => f (a + flat_index m true p)) (make_grid m true)).
  Proof. rewrite <- (map_map (flat_index m true) (fun x => f (a + x))), make_grid_index. now rewrite <- (map_map (fun i => a + i) f), seq_shift_map. Qed.
  Lemma grid_split (a b : list nat) (f : list nat -> list nat -> K) : sum (map (fun p => sum (map (fun q => f p q) (make_grid b true))) (make_grid a true)) =
    sum (map (fun r => f (firstn (length a) r) (rev (skipn (length a) r))) (make_grid (a ++ rev b) true)).
  Proof.
    assert (H : forall p, In p (make_grid a true) -> sum (map (fun q => f p q) (make_grid b true)) = sum (map (fun r => f (firstn (length a) r) (rev (skipn (length a) r))) (map (fun q => p ++ rev q) (make_grid b true)))).
    { intros p Ip. apply make_grid_In, valid_length in Ip. rewrite map_map. f_equal. apply map_ext. intros q. rewrite <- Ip. rewrite firstn_app, skipn_app, firstn_all, skipn_all, Nat.sub_diag. cbn [firstn skipn app]. now rewrite app_nil_r, rev_involutive. }
    rewrite (sum_ext o H). rewrite <- (sum_flat_map SR (fun r => f (firstn (length a) r) (rev (skipn (length a) r))) (fun p => map (fun q => p ++ rev q) (make_grid b true))).
    apply (sum_perm SR). apply Permutation_map. apply NoDup_Permutation; [|apply make_grid_NoDup|].
    - apply NoDup_flat_map; [apply make_grid_NoDup| |].
      + intros p _. apply NoDup_map_inj; [|apply make_grid_NoDup]. intros q q' _ _ E. apply app_inv_head in E. now rewrite <- (rev_involutive q), E, rev_involutive.
      + intros p p' r Ip Ip' I1 I2. apply make_grid_In, valid_length in Ip. apply make_grid_In, valid_length in Ip'. apply in_map_iff in I1. destruct I1 as (q & E1 & _). apply in_map_iff in I2. destruct I2 as (q' & E2 & _).
        rewrite <- (firstn_all p), <- (firstn_all p'). transitivity (firstn (length a) r); [rewrite <- E1, <- Ip, firstn_app, Nat.sub_diag; cbn [firstn]; now rewrite app_nil_r|rewrite <- E2, <- Ip', firstn_app, Nat.sub_diag; cbn [firstn]; now rewrite app_nil_r].
    - intros r. rewrite in_flat_map, make_grid_In. split.
      + intros (p & Ip & I). apply in_map_iff in I. destruct I as (q & <- & Iq). apply make_grid_In in Ip. apply make_grid_In in Iq. rewrite valid_app by (apply (valid_length Ip)). split; [exact Ip|]. apply (proj1 (valid_rev _ _)). exact Iq.
      + intros V. destruct (valid_split V) as (V1 & V2 & E). exists (firstn (length a) r). split; [now apply make_grid_In|]. apply in_map_iff. exists (rev (skipn (length a) r)). split; [now rewrite rev_involutive, <- E|].
        apply make_grid_In. apply (proj2 (valid_rev _ _)). now rewrite rev_involutive.
  Qed.
  Lemma grid_perm (m : list nat) p (h : list nat -> K) : is_perm (length m) p -> sum (map h (make_grid (take 0 m p) true)) = sum (map (fun r => h (take 0 r p)) (make_grid m true)).
  Proof.
    intros PM. rewrite <- (map_map (fun r => take 0 r p) h). apply (sum_perm SR). apply Permutation_map. apply NoDup_Permutation; [apply make_grid_NoDup| |].
    - apply NoDup_map_inj; [|apply make_grid_NoDup]. intros r r' Ir Ir' E. apply make_grid_In, valid_length in Ir. apply make_grid_In, valid_length in Ir'.
      rewrite <- (@take_inv_unique _ 0 (take 0 r p) r p), <- (@take_inv_unique _ 0 (take 0 r' p) r' p); [now rewrite E|now rewrite Ir'|reflexivity|now rewrite Ir|reflexivity].
    - intros r. rewrite make_grid_In, in_map_iff. split.
      + intros V. exists (take 0 r (inverse_permutation p)). split; [|apply make_grid_In; now apply valid_untake].
        assert (L := valid_length V). rewrite take_length in L. assert (LP := is_perm_length PM). refine (proj2 (@take_inverse _ 0 r p _)). now rewrite L, LP.
      + intros (r0 & <- & I). apply make_grid_In in I. apply valid_take; [exact I|]. apply (is_perm_Forall PM).
  Qed.
End Sums.

Section Inner.
  Variable S : tsymm.
  Hypothesis OK : tsymm_ok S.
  Variable K : Type.
  Variable o : ops K.
  Hypothesis ST : star_laws o.
  Notation SR := (st_semi ST).
  Add Ring Kr2 : SR.
  Notation sum := (osum o).
  Notation "x ** y" := (omul o x y) (at level 40, left associativity).
  Notation conj := (oconj o).
  Variable qdim : sector -> K.
  Notation fdata := (list (nat * nat * blk K)).
  Lemma block_sum P c (f : nat -> K) : tp_ok S P -> sumn o (block_size P c) f = sum (map (fun t => sum (map (fun p => f (FtMapProofs2.start_of S P t + flat_index (tree_mults S P t) true p)) (make_grid (tree_mults S P t) true))) (map tb_tree (items S P c))).
  Proof.
    intros HP. unfold sumn. assert (T := items_tiles OK c HP). assert (E := tiles_sum SR f T). rewrite Nat.sub_0_r in E. rewrite E, !map_map. apply sum_ext. intros i Ii. unfold tb_slice. cbn [fst snd].
    destruct (items_mults OK HP Ii) as [M1 M2]. rewrite <- M1. replace (tb_stop i - tb_start i) with (prod (tb_mults i)) by lia. rewrite (box_sum o). unfold FtMapProofs2.start_of. rewrite (items_slice OK HP Ii). reflexivity.
  Qed.
  (** the entry for a pair of trees and one index for each leg: codomain, reversed domain *)
  Definition entry_at (P Q : tprod) (F : fdata) (k : tree * tree) (r : list nat) : K :=
    tree_value S o P Q F (fst k) (firstn (length (tp_flat_legs P)) r) (snd k) (rev (skipn (length (tp_flat_legs P)) r)).
  Definition box (P Q : tprod) (k : tree * tree) : list nat := tree_mults S P (fst k) ++ rev (tree_mults S Q (snd k)).
  Definition weight (k : tree * tree) : K := qdim (t_coup (fst k)).
  Lemma inner_trees P Q (A B : fdata) L : tp_ok S P -> tp_ok S Q -> ft_ok P Q A -> ft_ok P Q B -> all_pairs S P Q L ->
    ft_inner o (fun x => x) (map qdim (tp_secs P)) A B true = sum (map (fun k => weight k ** sum (map (fun r => conj (entry_at P Q A k r) ** entry_at P Q B k r) (make_grid (box P Q k) true))) L).
  Proof.
    intros HP HQ FA FB AL. rewrite (inner_true SR OK HP HQ qdim FA FB (conj_0 ST)).
    set (L0 := flat_map (fun c => flat_map (fun t => map (fun u => (t, u)) (map tb_tree (items S Q c))) (map tb_tree (items S P c))) (tp_secs P)).
    assert (PL : Permutation L0 L).
    { apply NoDup_Permutation; [|exact (proj1 AL)|].
      - apply NoDup_flat_map; [exact (secs_NoDup OK HP)| |].
        + intros c _. apply NoDup_flat_map; [apply (items_tree_NoDup OK c HP)| |].
          * intros t _. apply NoDup_map_inj; [|apply (items_tree_NoDup OK c HQ)]. intros u u' _ _ [=]. assumption.
          * intros t t' k _ _ I1 I2. apply in_map_iff in I1. destruct I1 as (u & <- & _). apply in_map_iff in I2. destruct I2 as (u' & E & _). now injection E.
        + intros c c' k _ _ I1 I2. apply in_flat_map in I1. destruct I1 as (t & It & I1). apply in_map_iff in I1. destruct I1 as (u & <- & _). apply in_flat_map in I2. destruct I2 as (t' & It' & I2). apply in_map_iff in I2. destruct I2 as (u' & E & _).
          injection E as -> _. apply (items_trees OK c HP) in It. apply (items_trees OK c' HP) in It'. now rewrite <- (tree_of_coup It), <- (tree_of_coup It').
      - intros [X Y]. rewrite (proj2 AL X Y). unfold L0. rewrite in_flat_map. split.
        + intros (c & _ & I). exists c. apply in_flat_map in I. destruct I as (t & It & I). apply in_map_iff in I. destruct I as (u & E & Iu). injection E as -> ->. split; [now apply (items_trees OK c HP)|now apply (items_trees OK c HQ)].
        + intros (c & TX & TY). exists c. split; [exact (tree_of_sec OK HP TX)|]. apply in_flat_map. exists X. split; [now apply (items_trees OK c HP)|]. apply in_map_iff. exists Y. split; [reflexivity|now apply (items_trees OK c HQ)]. }
    rewrite <- (sum_perm SR (Permutation_map _ PL)). unfold L0. rewrite (sum_flat_map SR). apply sum_ext. intros c Ic. rewrite (sum_flat_map SR). rewrite (block_sum c _ HP), <- (sum_mul_l SR). apply sum_ext. intros t It. apply (items_trees OK c HP) in It.
    rewrite map_map. cbn [fst snd].
    transitivity (qdim c ** sum (map (fun u => sum (map (fun p => sum (map (fun q => conj (tree_value S o P Q A t p u q) ** tree_value S o P Q B t p u q) (make_grid (tree_mults S Q u) true))) (make_grid (tree_mults S P t) true))) (map tb_tree (items S Q c)))).
    { f_equal. rewrite (sum_swap SR). apply sum_ext. intros p Ip. rewrite (block_sum c _ HQ). apply sum_ext. intros u Iu. apply (items_trees OK c HQ) in Iu. apply sum_ext. intros q Iq. unfold tree_value, FtMapProofs2.start_of.
      destruct (tree_item OK HP It) as (x & _ & _ & EX & _). destruct (tree_item OK HQ Iu) as (y & _ & _ & EY & _). rewrite EX, EY, (tree_of_coup It). reflexivity. }
    rewrite <- (sum_mul_l SR). apply sum_ext. intros u Iu. unfold weight. cbn [fst]. rewrite (tree_of_coup It). f_equal. unfold box, entry_at. cbn [fst snd]. rewrite (grid_split SR). now rewrite (tree_mults_len It).
  Qed.
End Inner.
