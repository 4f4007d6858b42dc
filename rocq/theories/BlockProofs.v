(** Entries of the results of the block operations. *)
From Coq Require Import Ring.
From Verif Require Import Util StableSort RowModel GridModel GridProofs SymModel CatSpec Sums PipeProofs PipeProofs2 PipeProofs4 BlockModel.
Set Implicit Arguments. Unset Strict Implicit.
Open Scope nat_scope.

Lemma valid_app s s' r r' : length r = length s -> (valid_idx (s ++ s') (r ++ r') <-> valid_idx s r /\ valid_idx s' r').
Proof.
  revert s. unfold valid_idx. induction r as [|x r IH]; intros [|n s] L; try discriminate; cbn [app].
  - split; [intros H; split; [constructor|exact H]|intros [_ H]; exact H].
  - cbn in L. assert (L' : length r = length s) by lia. split.
    + intros H. inversion H; subst. apply (IH s L') in H5. destruct H5. split; [constructor|]; auto.
    + intros [H H']. inversion H; subst. constructor; auto. apply (IH s L'). auto.
Qed.
Lemma valid_split s s' r : valid_idx (s ++ s') r -> valid_idx s (firstn (length s) r) /\ valid_idx s' (skipn (length s) r) /\ r = firstn (length s) r ++ skipn (length s) r.
Proof.
  intros V. assert (L := valid_length V). rewrite app_length in L. rewrite <- (firstn_skipn (length s) r) in V.
  apply valid_app in V; [|rewrite firstn_length; lia]. destruct V. split; [auto|]. split; [auto|]. now rewrite firstn_skipn.
Qed.
Lemma valid_nth s r : valid_idx s r <-> length r = length s /\ forall i, i < length s -> nth i r 0 < nth i s 0.
Proof.
  unfold valid_idx. revert s. induction r as [|x r IH]; intros [|n s]; (split; [intros H|intros [L H]]); try (inversion H; fail); try discriminate.
  - split; [reflexivity|]. cbn; lia.
  - constructor.
  - inversion H; subst. apply IH in H5. destruct H5 as [L H5]. split; [cbn; lia|]. intros [|i] Hi; cbn [nth]; auto. apply H5. cbn in Hi. lia.
  - constructor; [apply (H 0); cbn; lia|]. apply IH. split; [cbn in L; lia|]. intros i Hi. apply (H (S i)). cbn; lia.
Qed.
Lemma valid_take s r p : valid_idx s r -> Forall (fun i => i < length s) p -> valid_idx (take 0 s p) (take 0 r p).
Proof.
  intros V F. apply valid_nth in V. destruct V as [L V]. apply valid_nth. rewrite !take_length. split; [reflexivity|]. intros i Hi. rewrite !nth_take by auto.
  apply V. rewrite Forall_forall in F. apply F. now apply nth_In.
Qed.
Lemma is_perm_Forall n p : is_perm n p -> Forall (fun i => i < n) p.
Proof. intros H. apply Forall_forall. intros i Hi. apply (Permutation_in _ H) in Hi. apply in_seq in Hi. lia. Qed.
Lemma valid_untake s r p : is_perm (length s) p -> valid_idx (take 0 s p) r -> valid_idx s (take 0 r (inverse_permutation p)).
Proof.
  intros P V. assert (L := valid_length V). rewrite take_length in L. assert (V' := valid_take V (p := inverse_permutation p)).
  rewrite take_length in V'. rewrite (is_perm_length P) in V', L.
  specialize (V' (is_perm_Forall (inverse_permutation_perm P))). now rewrite (proj1 (take_inverse 0 P)) in V'.
Qed.
Lemma prod_take_perm s p : is_perm (length s) p -> prod (take 0 s p) = prod s.
Proof. intros P. apply prod_perm. apply take_Permutation. exact P. Qed.
Lemma seq_split_perm n k : k <= n -> seq 0 n = seq 0 k ++ seq k (n - k).
Proof. intros H. rewrite <- seq_app. f_equal. lia. Qed.
Lemma is_perm_rev n : is_perm n (rev (seq 0 n)).
Proof. unfold is_perm. symmetry. apply Permutation_rev. Qed.
Lemma take_rev_seq A (d : A) l : take d l (rev (seq 0 (length l))) = rev l.
Proof. unfold take. rewrite map_rev. f_equal. apply (take_seq d l). Qed.
Lemma take_app_idx A (d : A) l p q : take d l (p ++ q) = take d l p ++ take d l q.
Proof. apply map_app. Qed.
Lemma take_seq_slice A (d : A) l a n : a + n <= length l -> take d l (seq a n) = firstn n (skipn a l).
Proof.
  intros H. apply list_eq_nth with (d := d).
  - rewrite take_length, seq_length, firstn_length, skipn_length. lia.
  - intros i Hi. rewrite take_length, seq_length in Hi. rewrite nth_take by now rewrite seq_length. rewrite seq_nth by auto.
    rewrite nth_firstn_lt by auto. rewrite nth_skipn'. reflexivity.
Qed.
Lemma take_inv_unique A (d : A) (r r' : list A) p : is_perm (length r') p -> r = take d r' p -> take d r (inverse_permutation p) = r'.
Proof. intros P ->. apply (proj1 (take_inverse d P)). Qed.

Section Blocks.
  Variable K : Type.
  Variable o : ops K.
  Hypothesis SR : semi_ring_theory (o0 o) (o1 o) (oadd o) (omul o) (@eq K).
  Add Ring Kring : SR.
  Notation block := (blk K).


  Implicit Types A B V W : block.

  Definition bwf B := length (bdata B) = prod (bshape B).
  Lemma bat_flat B r : length r = length (bshape B) -> bat o B r = nth (flat_index (bshape B) true r) (bdata B) (o0 o).
  Proof. intros L. unfold bat. now rewrite dot_make_stride. Qed.
  Lemma bmk_wf s f : bwf (bmk s f).
  Proof. unfold bwf, bmk; cbn [bshape bdata]. now rewrite map_length, make_grid_length. Qed.
  Lemma bat_bmk s (f : list nat -> K) r : valid_idx s r -> bat o (bmk s f) r = f r.
  Proof.
    intros V. rewrite bat_flat by (cbn; apply (valid_length V)). unfold bmk; cbn [bshape bdata].
    assert (H := flat_index_lt true V). rewrite nth_map_lt with (d := []) by now rewrite make_grid_length.
    f_equal. rewrite (proj1 (make_grid_nth true H)). now apply grid_row_flat.
  Qed.
  Lemma blk_ext A B : bwf A -> bwf B -> bshape A = bshape B -> (forall r, valid_idx (bshape A) r -> bat o A r = bat o B r) -> A = B.
  Proof.
    destruct A as [s a], B as [s' b]. unfold bwf; cbn [bshape bdata]. intros WA WB <- H. f_equal. apply list_eq_nth with (d := o0 o); [congruence|].
    intros i Hi. rewrite WA in Hi. destruct (flat_index_surj true Hi) as [r [V E]]. specialize (H r V).
    rewrite !bat_flat in H by (cbn; apply (valid_length V)). cbn [bshape bdata] in H. now rewrite E in H.
  Qed.
  Lemma bat_zeros s r : valid_idx s r -> bat o (bzeros o s) r = o0 o.
  Proof. intros V. unfold bzeros. now rewrite bat_bmk. Qed.
  Lemma bat_data_map (f : K -> K) B r : bwf B -> valid_idx (bshape B) r -> bat o (Blk (bshape B) (map f (bdata B))) r = f (bat o B r).
  Proof.
    intros W V. rewrite !bat_flat by (cbn; apply (valid_length V)). cbn [bshape bdata]. apply nth_map_lt. rewrite W. now apply flat_index_lt.
  Qed.
  Lemma bat_conj B r : bwf B -> valid_idx (bshape B) r -> bat o (bconj o B) r = oconj o (bat o B r).
  Proof. apply bat_data_map. Qed.
  Lemma bat_mul a B r : bwf B -> valid_idx (bshape B) r -> bat o (bmul o a B) r = omul o a (bat o B r).
  Proof. apply bat_data_map. Qed.
  Lemma bmul_wf a B : bwf B -> bwf (bmul o a B).
  Proof. unfold bwf, bmul; cbn. now rewrite map_length. Qed.
  Lemma bconj_wf B : bwf B -> bwf (bconj o B).
  Proof. unfold bwf, bconj; cbn. now rewrite map_length. Qed.
  Lemma badd_wf A B : bwf A -> bwf B -> bshape A = bshape B -> bwf (badd o A B).
  Proof. unfold bwf, badd; cbn [bshape bdata]. intros WA WB E. rewrite map_length, combine_length, WA, WB, <- E. lia. Qed.
  Lemma bat_add A B r : bwf A -> bwf B -> bshape A = bshape B -> valid_idx (bshape A) r -> bat o (badd o A B) r = oadd o (bat o A r) (bat o B r).
  Proof.
    intros WA WB E V. assert (H := flat_index_lt true V). rewrite !bat_flat by (rewrite <- ?E; cbn; apply (valid_length V)). unfold badd; cbn [bshape bdata].
    unfold bwf in *. rewrite nth_map_lt with (d := (o0 o, o0 o)) by (rewrite combine_length, WA, WB, <- E; lia).
    rewrite combine_nth by (rewrite WA, WB, E; reflexivity). cbn [fst snd]. now rewrite <- E.
  Qed.
  Lemma blincomb_shape a V b W : bshape (blincomb o a V b W) = bshape V.
  Proof. reflexivity. Qed.
  Lemma blincomb_wf a V b W : bwf V -> bwf W -> bshape V = bshape W -> bwf (blincomb o a V b W).
  Proof. intros WV WW E. unfold blincomb. apply badd_wf; try apply bmul_wf; auto. Qed.
  Lemma bat_lincomb a V b W r : bwf V -> bwf W -> bshape V = bshape W -> valid_idx (bshape V) r ->
    bat o (blincomb o a V b W) r = oadd o (omul o a (bat o V r)) (omul o b (bat o W r)).
  Proof.
    intros WV WW E V'. unfold blincomb. rewrite bat_add; auto; try apply bmul_wf; auto. rewrite !bat_mul; auto. now rewrite <- E.
  Qed.

  (** transposition *)
  Lemma btranspose_shape B p : bshape (btranspose o B p) = take 0 (bshape B) p.
  Proof. reflexivity. Qed.
  Lemma btranspose_wf B p : bwf (btranspose o B p).
  Proof. apply bmk_wf. Qed.
  Lemma bat_transpose B p r : valid_idx (take 0 (bshape B) p) r -> bat o (btranspose o B p) r = bat o B (take 0 r (inverse_permutation p)).
  Proof. intros V. unfold btranspose. now rewrite bat_bmk. Qed.
  Lemma bat_transpose_take B p r : is_perm (bndim B) p -> valid_idx (bshape B) r -> bat o (btranspose o B p) (take 0 r p) = bat o B r.
  Proof.
    intros P V. unfold bndim in P. rewrite bat_transpose.
    - f_equal. apply (proj1 (take_inverse 0 (l := r) (p := p) ltac:(rewrite (valid_length V); exact P))).
    - apply valid_take; auto. apply (is_perm_Forall P).
  Qed.
  Lemma bat_dagger B r : bwf B -> valid_idx (bshape B) r -> bat o (bdagger o B) (rev r) = oconj o (bat o B r).
  Proof.
    intros WB V. unfold bdagger. assert (L := valid_length V).
    assert (P : is_perm (bndim B) (rev (seq 0 (bndim B)))) by apply is_perm_rev.
    rewrite bat_conj.
    - f_equal. rewrite <- (bat_transpose_take P V). f_equal. unfold bndim. rewrite <- L. symmetry. apply take_rev_seq.
    - apply btranspose_wf.
    - rewrite btranspose_shape. unfold bndim. rewrite take_rev_seq. now apply (proj1 (valid_rev _ _)) in V.
  Qed.
  Lemma bdagger_shape B : bshape (bdagger o B) = rev (bshape B).
  Proof. unfold bdagger, bconj; cbn [bshape]. rewrite btranspose_shape. unfold bndim. apply take_rev_seq. Qed.
  Lemma bdagger_wf B : bwf (bdagger o B).
  Proof. unfold bdagger. apply bconj_wf, btranspose_wf. Qed.

  (** outer products *)
  Lemma bouter_wf A B : bwf (bouter o A B).
  Proof. apply bmk_wf. Qed.
  Lemma bat_outer A B r r' : valid_idx (bshape A) r -> valid_idx (bshape B) r' -> bat o (bouter o A B) (r ++ r') = omul o (bat o A r) (bat o B r').
  Proof.
    intros V V'. unfold bouter. rewrite bat_bmk by (apply valid_app; auto; apply (valid_length V)). unfold bndim. rewrite <- (valid_length V).
    rewrite firstn_app, firstn_all, Nat.sub_diag, skipn_app, skipn_all, Nat.sub_diag. cbn [firstn skipn app]. now rewrite app_nil_r.
  Qed.
  Lemma outer_perm k n m : k <= n -> is_perm (n + m) (seq 0 k ++ seq n m ++ seq k (n - k)).
  Proof.
    intros H. unfold is_perm. rewrite seq_app. cbn [plus]. rewrite (seq_split_perm H). rewrite <- app_assoc. apply Permutation_app_head. apply Permutation_app_comm.
  Qed.
  Lemma take_outer T (d : T) (l l' : list T) k : k <= length l ->
    take d (l ++ l') (seq 0 k ++ seq (length l) (length l') ++ seq k (length l - k)) = firstn k l ++ l' ++ skipn k l.
  Proof.
    intros H. rewrite !take_app_idx, !take_seq_slice by (rewrite app_length; lia). cbn [skipn]. f_equal.
    - rewrite firstn_app. replace (k - length l) with 0 by lia. cbn [firstn]. now rewrite app_nil_r.
    - f_equal.
      + rewrite skipn_app, skipn_all, Nat.sub_diag. cbn [skipn app]. apply firstn_all.
      + rewrite skipn_app. replace (k - length l) with 0 by lia. cbn [skipn]. rewrite firstn_app, skipn_length, Nat.sub_diag. cbn [firstn].
        rewrite app_nil_r. rewrite <- skipn_length. apply firstn_all.
  Qed.
  Lemma btensor_outer_shape A B k : k <= bndim A -> bshape (btensor_outer o A B k) = firstn k (bshape A) ++ bshape B ++ skipn k (bshape A).
  Proof. intros H. unfold btensor_outer. cbv zeta. rewrite btranspose_shape. unfold bouter, bmk, bndim in *. cbn [bshape]. now apply take_outer. Qed.
  Lemma bat_tensor_outer A B k r1 r2 r' : length r1 = k -> valid_idx (bshape A) (r1 ++ r2) -> valid_idx (bshape B) r' ->
    bat o (btensor_outer o A B k) (r1 ++ r' ++ r2) = omul o (bat o A (r1 ++ r2)) (bat o B r').
  Proof.
    intros Hk V V'. rewrite <- bat_outer by auto. unfold btensor_outer. cbv zeta.
    assert (L := valid_length V). assert (L' := valid_length V'). rewrite app_length in L.
    replace (r1 ++ r' ++ r2) with (take 0 ((r1 ++ r2) ++ r') (seq 0 k ++ seq (bndim A) (bndim B) ++ seq k (bndim A - k))).
    - apply bat_transpose_take.
      + unfold bndim at 1. unfold bouter, bmk; cbn [bshape]. rewrite app_length. apply outer_perm. unfold bndim. lia.
      + unfold bouter, bmk; cbn [bshape]. apply valid_app; auto. apply (valid_length V).
    - unfold bndim. rewrite <- (valid_length V), <- (valid_length V'). rewrite take_outer by (rewrite app_length; lia).
      rewrite firstn_app, skipn_app. subst k. rewrite firstn_all, skipn_all, Nat.sub_diag. cbn [firstn skipn app]. now rewrite app_nil_r.
  Qed.

  (** reshapes *)
  Lemma breshape_wf B s : bwf B -> prod s = prod (bshape B) -> bwf (breshape B s).
  Proof. unfold bwf, breshape. cbn [bshape bdata]. congruence. Qed.
  Lemma bat_reshape B s r r' : length r = length (bshape B) -> length r' = length s -> flat_index s true r' = flat_index (bshape B) true r ->
    bat o (breshape B s) r' = bat o B r.
  Proof. intros L L' E. rewrite !bat_flat by auto. unfold breshape; cbn [bshape bdata]. now rewrite E. Qed.
  Lemma flat_index_1 n i : flat_index [n] true [i] = i.
  Proof. cbn. lia. Qed.
  Lemma flat_index_2 n m i j : flat_index [n; m] true [i; j] = i * m + j.
  Proof. cbn. lia. Qed.
  Lemma prod_cons n s : prod (n :: s) = n * prod s.
  Proof. reflexivity. Qed.
  Lemma prod_one n : prod [n] = n.
  Proof. cbn. lia. Qed.

  (** matrix products *)
  Lemma bdot_wf A B : bwf (bdot o A B).
  Proof. apply bmk_wf. Qed.
  Lemma bat_dot A B s n t r r' : bshape A = s ++ [n] -> bshape B = n :: t -> valid_idx s r -> valid_idx t r' ->
    bat o (bdot o A B) (r ++ r') = sumn o n (fun k => omul o (bat o A (r ++ [k])) (bat o B (k :: r'))).
  Proof.
    intros EA EB V V'. unfold bdot, bndim. rewrite EA, EB. cbn [tl]. rewrite removelast_last, last_last, bat_bmk by (apply valid_app; auto; apply (valid_length V)).
    unfold sumn. apply (f_equal (osum o)). apply map_ext. intros k. rewrite app_length; cbn [length]. replace (length s + 1 - 1) with (length r) by (rewrite (valid_length V); lia).
    rewrite firstn_app, firstn_all, Nat.sub_diag, skipn_app, skipn_all, Nat.sub_diag. cbn [firstn skipn app]. now rewrite app_nil_r.
  Qed.

  (** slices *)
  Fixpoint in_box (starts stops r : list nat) : Prop :=
    match starts, stops, r with a :: starts', b :: stops', x :: r' => a <= x < b /\ in_box starts' stops' r' | _, _, _ => True end.
  Lemma in_box_b starts : forall stops r, forallb (fun p => (fst (fst p) <=? snd p) && (snd p <? snd (fst p))) (combine (combine starts stops) r) = true <-> in_box starts stops r.
  Proof.
    induction starts as [|a starts IH]; intros [|b stops] [|x r]; cbn [combine forallb in_box]; try tauto.
    rewrite andb_true_iff, IH. cbn [fst snd]. rewrite andb_true_iff, Nat.leb_le, Nat.ltb_lt. tauto.
  Qed.
  Lemma bat_set_slice_in B starts stops V r : valid_idx (bshape B) r -> in_box starts stops r ->
    bat o (bset_slice o B starts stops V) r = bat o V (map (fun p => snd p - fst p) (combine starts r)).
  Proof.
    intros W H. unfold bset_slice. rewrite bat_bmk by auto. now rewrite (proj2 (in_box_b _ _ _) H).
  Qed.
  Lemma bat_set_slice_out B starts stops V r : valid_idx (bshape B) r -> ~ in_box starts stops r ->
    bat o (bset_slice o B starts stops V) r = bat o B r.
  Proof.
    intros W H. unfold bset_slice. rewrite bat_bmk by auto.
    destruct (forallb _ _) eqn:E; auto. now apply in_box_b in E.
  Qed.
End Blocks.
