(** Inner product and trace. *)
From Verif Require Import Util StableSort RowModel RowProofs GridModel GridProofs SymModel SymProofs CatSpec Sums SpaceModel SpaceSpec SpaceProofs SpaceProofs7
  PipeModel TreeModel TensorModel TensorSpec TensorProofs TensorProofs5 BlockModel BlockProofs SparseModel SparseProofs SparseProofs3 SparseProofs5 SparseCompose3 ConvertModel ConvertSpec ConvertProofs3 FtOpsModel FtOpsSpec FtOpsProofs FtOpsProofs2 FtOpsProofs3 FtOpsProofs4.
Set Implicit Arguments. Unset Strict Implicit.
Open Scope nat_scope.

Section Five.
  Variable K : Type.
  Variable o : ops K.
  Hypothesis SR : is_semiring o.
  Notation block := (blk K).
  Notation fdata := (list (nat * nat * blk K)).
  Notation key1 := (fun e : nat * nat * blk K => snd (fst e)).
  Notation key0 := (fun e : nat * nat * blk K => fst (fst e)).
  Notation nob := ((0, 0), Blk [] []).
  Variable S : tsymm.
  Hypothesis OK : tsymm_ok S.
  Lemma fold_sum (X : Type) (f : X -> K) l : forall z, fold_left (fun res x => oadd o res (f x)) l z = oadd o z (osum o (map f l)).
  Proof.
    induction l as [|x l IH]; intros z; cbn [fold_left map].
    - rewrite sum_nil, (SRadd_comm SR), (SRadd_0_l SR). reflexivity.
    - rewrite IH, sum_cons, (SRadd_assoc SR). reflexivity.
  Qed.
  Definition sec_dec : forall x y : sector, {x = y} + {x <> y} := list_eq_dec Z.eq_dec.
  (** a sum over a list that names every sector at most once, and every sector with a nonzero summand *)
  Lemma sum_sectors (X : Type) (key : X -> sector) (g : X -> K) (G : sector -> K) (l : list X) secs : NoDup secs -> NoDup (map key l) -> (forall x, In x l -> In (key x) secs /\ g x = G (key x)) ->
    (forall c, In c secs -> ~ In c (map key l) -> G c = o0 o) -> osum o (map g l) = osum o (map G secs).
  Proof.
    intros NS ND H Z. rewrite <- (@sum_incl K o SR _ sec_dec G (map key l) secs ND NS).
    - rewrite map_map. apply sum_ext. intros x I. now apply H.
    - intros c I. apply in_map_iff in I. destruct I as [x [<- I]]. now apply H.
    - exact Z.
  Qed.
  Lemma sum_grid2 m n (f : list nat -> K) : osum o (map f (make_grid [m; n] true)) = sumn o m (fun x => sumn o n (fun y => f [x; y])).
  Proof.
    unfold sumn. rewrite <- (@sum_flat_map K o SR _ _ (fun p => f [fst p; snd p]) (fun x => map (fun y => (x, y)) (seq 0 n)) (seq 0 m)) || idtac.
    transitivity (osum o (map f (flat_map (fun x => map (fun y => [x; y]) (seq 0 n)) (seq 0 m)))).
    - apply (sum_perm SR). apply Permutation_map. apply NoDup_Permutation; [apply make_grid_NoDup| |].
      + apply NoDup_flat_map; [apply seq_NoDup| |].
        * intros x _. apply NoDup_map_inj; [|apply seq_NoDup]. intros y y' _ _ [=]. auto.
        * intros x x' z _ _ I I'. apply in_map_iff in I, I'. destruct I as [y [<- _]], I' as [y' [[=] _]]. auto.
      + intros r. rewrite make_grid_In, in_flat_map. split.
        * intros V. inversion V as [|x m' r' s' Hx V' E1 E2]. subst. inversion V' as [|y n' r'' s'' Hy V'' E1 E2]. subst. inversion V''. subst. exists x. split; [apply in_seq; lia|]. apply in_map_iff. exists y. split; [reflexivity|apply in_seq; lia].
        * intros [x [Ix I]]. apply in_map_iff in I. destruct I as [y [<- Iy]]. apply in_seq in Ix, Iy. constructor; [lia|]. constructor; [lia|constructor].
    - rewrite (sum_flat_map SR). apply sum_ext. intros x _. rewrite map_map. reflexivity.
  Qed.
  Variables P Q : tprod.
  Hypothesis HP : tp_ok S P.
  Hypothesis HQ : tp_ok S Q.
  Variable qdim : sector -> K.
  Notation qdims := (map qdim (tp_secs P)).
  Lemma qdims_nth i : i < length (tp_secs P) -> nth i qdims (o0 o) = qdim (nth i (tp_secs P) []).
  Proof. intros H. now rewrite nth_map_lt with (d := []). Qed.

  Lemma inner_block m n (a b : block) : is_matrix m n a -> binner o a b true = sumn o m (fun x => sumn o n (fun y => omul o (oconj o (bat o a [x; y])) (bat o b [x; y]))).
  Proof. intros [E _]. unfold binner. rewrite E, sum_grid2. reflexivity. Qed.
  Lemma inner_block' m n (a b : block) : is_matrix m n a -> binner o a b false = sumn o m (fun x => sumn o n (fun y => omul o (bat o a [x; y]) (bat o b [y; x]))).
  Proof. intros [E _]. unfold binner. rewrite E, sum_grid2. reflexivity. Qed.
  Lemma sum0 (A : Type) (l : list A) : osum o (map (fun _ => o0 o) l) = o0 o.
  Proof. apply (sum_zero SR). reflexivity. Qed.

  Lemma inner_true A B : ft_ok P Q A -> ft_ok P Q B -> oconj o (o0 o) = o0 o ->
    ft_inner o (fun x => x) qdims A B true = osum o (map (fun c => omul o (qdim c)
      (sumn o (block_size P c) (fun x => sumn o (block_size Q c) (fun y => omul o (oconj o (ft_entry o Q A c x y)) (ft_entry o Q B c x y))))) (tp_secs P)).
  Proof.
    intros OA OB CZ. unfold ft_inner. rewrite fold_sum, (SRadd_0_l SR).
    assert (CS := col0_sorted OK HP HQ OA). assert (CSB := col0_sorted OK HP HQ OB).
    assert (IN := @wpairs_spec _ _ key0 key0 nob nob A [] B [] CS CSB). set (L := wpairs key0 key0 nob nob [] A [] B) in *. destruct IN as [IN SS].
    transitivity (osum o (map (fun p => omul o (nth (fst (fst (fst p))) qdims (o0 o)) (binner o (snd (fst p)) (snd (snd p)) true)) L)).
    { unfold L, wpairs. rewrite map_map. cbn [fst snd app]. apply sum_ext. intros [i j] I. cbn [fst snd]. unfold frow. f_equal. f_equal. unfold col0, col1 in *.
      assert (Hi : i < length A). { apply walk_1d_In in I. idtac. destruct I as [I _]. rewrite map_length, Nat.sub_0_r in I. exact I. } rewrite nth_map_lt with (d := nob) by exact Hi. reflexivity. }
    apply (sum_sectors (key := fun p => nth (fst (fst (fst p))) (tp_secs P) [])); [apply (secs_NoDup OK HP)| | |].
    - apply (NoDup_map_from (f := fun p => fst (fst (fst p)))); [apply lt_NoDup; exact SS|]. intros [a b] [a' b'] I I' E. cbn [fst snd] in *. apply IN in I, I'. apply (inj_idx OK HP); auto; [apply (fo_range OA (proj1 I))|apply (fo_range OA (proj1 I'))].
    - intros [a b] I. cbn [fst snd]. apply IN in I. destruct I as (Ia & Ib & E). destruct (fo_range OA Ia) as [R1 R2]. split; [now apply nth_In|]. rewrite qdims_nth by exact R1. f_equal.
      assert (SA := fo_sector OA Ia). assert (GA : ft_get Q A (nth (fst (fst a)) (tp_secs P) []) = Some (snd a)) by (apply (get_ok OK _ _ HQ OA); exists a; auto).
      assert (GB : ft_get Q B (nth (fst (fst a)) (tp_secs P) []) = Some (snd b)) by (apply (get_ok OK _ _ HQ OB); exists b; split; [exact Ib|]; split; [|reflexivity]; rewrite <- (fo_sector OB Ib), E; reflexivity).
      rewrite (inner_block _ (get_matrix OK HP HQ OA GA)). unfold sumn. apply sum_ext. intros x _. apply sum_ext. intros y _. now rewrite !ft_entry_get, GA, GB.
    - intros c Ic N. replace (sumn o (block_size P c) _) with (o0 o); [apply (mul_0_r SR)|]. symmetry. unfold sumn. apply (sum_zero SR). intros x _. apply (sum_zero SR). intros y _. rewrite !ft_entry_get.
      destruct (ft_get Q A c) as [xa|] eqn:GA; [destruct (ft_get Q B c) as [xb|] eqn:GB; [exfalso|apply (mul_0_r SR)]|rewrite CZ; apply (SRmul_0_l SR)].
      apply (get_ok OK _ _ HQ OA) in GA. apply (get_ok OK _ _ HQ OB) in GB. destruct GA as [a [Ia [Ea _]]], GB as [b [Ib [Eb _]]]. apply N. apply in_map_iff. exists (a, b). cbn [fst snd]. split; [rewrite (fo_sector OA Ia); exact Ea|].
      apply IN. split; [exact Ia|]. split; [exact Ib|]. apply (inj_idx OK HP); [apply (fo_range OA Ia)|apply (fo_range OB Ib)|]. rewrite (fo_sector OA Ia), (fo_sector OB Ib). congruence.
  Qed.
  Lemma inner_false A B : ft_ok P Q A -> ft_ok Q P B ->
    ft_inner o (fun x => x) qdims A B false = osum o (map (fun c => omul o (qdim c)
      (sumn o (block_size P c) (fun x => sumn o (block_size Q c) (fun y => omul o (ft_entry o Q A c x y) (ft_entry o P B c y x))))) (tp_secs P)).
  Proof.
    intros OA OB. unfold ft_inner. rewrite fold_sum, (SRadd_0_l SR).
    assert (CS := col0_sorted OK HP HQ OA). assert (CSB := fo_sorted OB).
    assert (IN := @wpairs_spec _ _ key0 key1 nob nob A [] B [] CS CSB). set (L := wpairs key0 key1 nob nob [] A [] B) in *. destruct IN as [IN SS].
    transitivity (osum o (map (fun p => omul o (nth (fst (fst (fst p))) qdims (o0 o)) (binner o (snd (fst p)) (snd (snd p)) false)) L)).
    { unfold L, wpairs. rewrite map_map. cbn [fst snd app]. apply sum_ext. intros [i j] I. cbn [fst snd]. unfold frow. f_equal. f_equal. unfold col0, col1 in *.
      assert (Hi : i < length A). { apply walk_1d_In in I. idtac. destruct I as [I _]. rewrite map_length, Nat.sub_0_r in I. exact I. } rewrite nth_map_lt with (d := nob) by exact Hi. reflexivity. }
    apply (sum_sectors (key := fun p => nth (fst (fst (fst p))) (tp_secs P) [])); [apply (secs_NoDup OK HP)| | |].
    - apply (NoDup_map_from (f := fun p => fst (fst (fst p)))); [apply lt_NoDup; exact SS|]. intros [a b] [a' b'] I I' E. cbn [fst snd] in *. apply IN in I, I'. apply (inj_idx OK HP); auto; [apply (fo_range OA (proj1 I))|apply (fo_range OA (proj1 I'))].
    - intros [a b] I. cbn [fst snd]. apply IN in I. destruct I as (Ia & Ib & E). destruct (fo_range OA Ia) as [R1 R2]. split; [now apply nth_In|]. rewrite qdims_nth by exact R1. f_equal.
      assert (SA := fo_sector OA Ia). assert (GA : ft_get Q A (nth (fst (fst a)) (tp_secs P) []) = Some (snd a)) by (apply (get_ok OK _ _ HQ OA); exists a; auto).
      assert (GB : ft_get P B (nth (fst (fst a)) (tp_secs P) []) = Some (snd b)) by (apply (get_ok OK _ _ HP OB); exists b; split; [exact Ib|]; split; [|reflexivity]; rewrite E; reflexivity).
      rewrite (inner_block' _ (get_matrix OK HP HQ OA GA)). unfold sumn. apply sum_ext. intros x _. apply sum_ext. intros y _. now rewrite !ft_entry_get, GA, GB.
    - intros c Ic N. replace (sumn o (block_size P c) _) with (o0 o); [apply (mul_0_r SR)|]. symmetry. unfold sumn. apply (sum_zero SR). intros x _. apply (sum_zero SR). intros y _. rewrite !ft_entry_get.
      destruct (ft_get Q A c) as [xa|] eqn:GA; [destruct (ft_get P B c) as [xb|] eqn:GB; [exfalso|apply (mul_0_r SR)]|apply (SRmul_0_l SR)].
      apply (get_ok OK _ _ HQ OA) in GA. apply (get_ok OK _ _ HP OB) in GB. destruct GA as [a [Ia [Ea _]]], GB as [b [Ib [Eb _]]]. apply N. apply in_map_iff. exists (a, b). cbn [fst snd]. split; [rewrite (fo_sector OA Ia); exact Ea|].
      apply IN. split; [exact Ia|]. split; [exact Ib|]. apply (inj_idx OK HP); [apply (fo_range OA Ia)|apply (fo_range OB Ib)|]. rewrite (fo_sector OA Ia). congruence.
  Qed.
  Lemma rows_sum (A : fdata) (g : nat * nat * block -> K) (G : sector -> K) : ft_ok P Q A -> (forall e, In e A -> g e = G (nth (fst (fst e)) (tp_secs P) [])) -> (forall c, In c (tp_secs P) -> ft_get Q A c = None -> G c = o0 o) ->
    osum o (map g A) = osum o (map G (tp_secs P)).
  Proof.
    intros OA E Z. apply (sum_sectors (key := fun e => nth (fst (fst e)) (tp_secs P) [])); [apply (secs_NoDup OK HP)| | |].
    - apply (NoDup_map_from (f := key0)); [apply lt_NoDup, (col0_sorted OK HP HQ OA)|]. intros a b Ia Ib X. apply (inj_idx OK HP); auto; [apply (fo_range OA Ia)|apply (fo_range OA Ib)].
    - intros e I. split; [apply nth_In, (fo_range OA I)|now apply E].
    - intros c Ic N. apply Z; [exact Ic|]. destruct (ft_get Q A c) as [B|] eqn:G'; [|reflexivity]. exfalso. apply (get_ok OK _ _ HQ OA) in G'. destruct G' as [e [I [Ee _]]]. apply N. apply in_map_iff. exists e. split; [rewrite (fo_sector OA I); exact Ee|exact I].
  Qed.
End Five.
Section Trace.
  Variable K : Type.
  Variable o : ops K.
  Hypothesis SR : is_semiring o.
  Variable S : tsymm.
  Hypothesis OK : tsymm_ok S.
  Variable P : tprod.
  Hypothesis HP : tp_ok S P.
  Variable qdim : sector -> K.
  Lemma trace_block n (a : blk K) : is_matrix n n a -> btrace_full o a = sumn o n (fun x => bat o a [x; x]).
  Proof.
    intros [E _]. rewrite (@trace_full_block K o a [n]) by (rewrite E; reflexivity). unfold sumn. rewrite <- (map_map (fun x => [x]) (fun q => bat o a (q ++ rev q)) (seq 0 n)) || idtac.
    apply (sum_perm SR). transitivity (map (fun q => bat o a (q ++ rev q)) (map (fun x => [x]) (seq 0 n))); [|rewrite map_map; reflexivity]. apply Permutation_map. apply NoDup_Permutation; [apply make_grid_NoDup| |].
    - apply NoDup_map_inj; [|apply seq_NoDup]. intros x y _ _ [=]. auto.
    - intros r. rewrite make_grid_In, in_map_iff. split.
      + intros V. inversion V as [|x m' r' s' Hx V' E1 E2]. subst. inversion V'. subst. exists x. split; [reflexivity|apply in_seq; lia].
      + intros [x [<- I]]. apply in_seq in I. constructor; [lia|constructor].
  Qed.
  Lemma trace_entry A : ft_ok P P A -> ft_trace o (map qdim (tp_secs P)) A = osum o (map (fun c => omul o (qdim c) (sumn o (block_size P c) (fun x => ft_entry o P A c x x))) (tp_secs P)).
  Proof.
    intros OA. unfold ft_trace. rewrite (fold_sum SR), (SRadd_0_l SR). apply (rows_sum SR OK HP HP OA).
    - intros e I. destruct (fo_range OA I) as [R1 R2]. rewrite qdims_nth by exact R1. f_equal. assert (SA := fo_sector OA I).
      assert (GA : ft_get P A (nth (fst (fst e)) (tp_secs P) []) = Some (snd e)) by (apply (get_ok OK _ _ HP OA); exists e; auto).
      rewrite (trace_block (get_matrix OK HP HP OA GA)). unfold sumn. apply sum_ext. intros x _. now rewrite ft_entry_get, GA.
    - intros c _ N. replace (sumn o _ _) with (o0 o); [apply (mul_0_r SR)|]. symmetry. apply (sum_zero SR). intros x _. now rewrite ft_entry_get, N.
  Qed.
End Trace.
