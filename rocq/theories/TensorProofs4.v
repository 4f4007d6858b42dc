(** TensorProduct: iteration over uncoupled sectors, tree blocks and forest blocks. *)
From Verif Require Import Util StableSort RowModel RowProofs GridModel GridProofs SymModel SymProofs SpaceModel SpaceSpec SpaceProofs SpaceProofs2 SpaceProofs7
  PipeModel PipeProofs PipeProofs4 TreeModel TreeProofs TreeProofs2 TreeProofs4 FormalSum TensorModel TensorSpec TensorProofs TensorProofs2 TensorProofs3.
Set Implicit Arguments. Unset Strict Implicit.
Open Scope nat_scope.

Lemma prod_fold l : forall a, fold_left Nat.mul l a = a * prod l.
Proof. induction l as [|x l IH]; intros a; [cbn; lia|]. cbn [fold_left]. rewrite IH. change (prod (x :: l)) with (x * prod l). lia. Qed.
Lemma product_prod l : product l = prod l.
Proof. unfold product. rewrite prod_fold. lia. Qed.

Definition item_of (cb : list (sector * nat)) : unc_item := Unc (map fst cb) (map snd cb).

Lemma c_strides_spec spaces : lens_ok spaces -> snd (c_strides spaces) = csize (map sp_pairs spaces) /\ length (fst (c_strides spaces)) = length spaces.
Proof.
  induction 1 as [|V r L LL [IH1 IH2]]; [easy|]. cbn [c_strides map csize]. destruct (c_strides r) as [s t]. cbn [fst snd] in *.
  rewrite pairs_length by auto. subst t. cbn [length]. auto.
Qed.
Definition nosp : space := Sp [] [] None.
Lemma c_entries spaces : lens_ok spaces -> forall m B (d : B) (get : space -> list B) (f : sector * nat -> B),
  (forall V, In V spaces -> forall i, nth i (get V) d = f (nth i (sp_pairs V) nomult)) ->
  map (fun n => nth ((m / nth n (fst (c_strides spaces)) 0) mod length (sp_secs (nth n spaces nosp))) (get (nth n spaces nosp)) d) (seq 0 (length spaces))
  = map f (cpick m (map sp_pairs spaces)).
Proof.
  induction 1 as [|V r L LL IH]; intros m B d get f H; [easy|]. cbn [length seq map cpick c_strides].
  destruct (c_strides_spec LL) as [E1 _]. destruct (c_strides r) as [s t] eqn:EC. cbn [fst snd] in *. cbn [nth]. rewrite <- seq_shift, map_map. cbn [nth].
  rewrite pairs_length by auto. rewrite H by (now left). rewrite E1. f_equal. apply IH. intros V' IV. apply H. now right.
Qed.

Section Iter.
  Variable S : tsymm.
  Definition leg_pairs (E : espace) : list (sector * nat) := sp_pairs (es_space S E).
  Definition tp_combos (P : tprod) : list (list (sector * nat)) := combos (map leg_pairs (tp_flat_legs P)).

  Lemma iter_uncoupled_eq P : lens_ok (map (es_space S) (tp_flat_legs P)) -> iter_uncoupled S P = map item_of (tp_combos P).
  Proof.
    intros LO. unfold iter_uncoupled, tp_combos. change (map leg_pairs (tp_flat_legs P)) with (map (fun E => sp_pairs (es_space S E)) (tp_flat_legs P)).
    rewrite <- (map_map (es_space S) sp_pairs). set (spaces := map (es_space S) (tp_flat_legs P)) in *.
    destruct spaces as [|V0 r0] eqn:ES; [reflexivity|]. rewrite <- ES in *. clear V0 r0 ES.
    destruct (c_strides spaces) as [strides total] eqn:EC. destruct (c_strides_spec LO) as [E1 E2]. rewrite EC in E1, E2. cbn [fst snd] in *. subst total.
    rewrite <- cpick_combos, map_map. apply map_ext. intros m. unfold item_of.
    assert (H : forall B (d : B) (get : space -> list B) (f : sector * nat -> B), (forall V, In V spaces -> forall i, nth i (get V) d = f (nth i (sp_pairs V) nomult)) ->
      map (fun n => nth (nth n (map (fun n => (m / nth n strides 0) mod length (sp_secs (nth n spaces nosp))) (seq 0 (length spaces))) 0) (get (nth n spaces nosp)) d) (seq 0 (length spaces))
      = map f (cpick m (map sp_pairs spaces))).
    { intros B d get f Hf. rewrite <- (c_entries LO m Hf). rewrite EC. cbn [fst]. apply map_ext_in. intros n Hn. apply in_seq in Hn.
      rewrite nth_map_lt with (d := 0) by (rewrite seq_length; lia). rewrite seq_nth by lia. reflexivity. }
    f_equal.
    - apply (H _ [] sp_secs fst). intros V IV i. rewrite pairs_nth by (exact (proj1 (Forall_forall _ _) LO V IV)). reflexivity.
    - apply (H _ 0 sp_mults snd). intros V IV i. rewrite pairs_nth by (exact (proj1 (Forall_forall _ _) LO V IV)). reflexivity.
  Qed.

  (** ** the loops *)
  Lemma tiles_app s l l' e : (exists mid, tiles s l mid /\ tiles mid l' e) <-> tiles s (l ++ l') e.
  Proof.
    revert s. induction l as [|[a b] l IH]; intros s; cbn [app tiles].
    - split; [intros (mid & -> & H); exact H|intros H; exists s; auto].
    - split.
      + intros (mid & (H1 & H2 & H3) & H4). repeat split; auto. apply IH. eauto.
      + intros (H1 & H2 & H3). apply IH in H3. destruct H3 as (mid & H3 & H4). exists mid. auto.
  Qed.
  Definition tb_slice (it : tb_item) : nat * nat := (tb_start it, tb_stop it).
  Definition width (c : sector) (it : unc_item) : nat := num_trees S (u_secs it) c * product (u_mults it).

  Lemma tree_loop_spec trees : forall start block mults i,
    tree_loop trees start block mults i =
    (map (fun k => TB (nth k trees (Tree [] [] [] [] [])) (start + k * block) (start + k * block + block) mults i) (seq 0 (length trees)), start + length trees * block).
  Proof.
    induction trees as [|t r IH]; intros start block mults i; cbn [tree_loop length seq map]; [f_equal; lia|]. rewrite IH. cbn [nth]. f_equal; [|lia].
    f_equal; [f_equal; lia|]. rewrite <- seq_shift, map_map. apply map_ext. intros k. cbn [nth]. f_equal; lia.
  Qed.
  Lemma unc_loop_cons it r c dual start i : unc_loop S (it :: r) c dual start i =
    fst (tree_loop (all_trees S (u_secs it) c dual) start (product (u_mults it)) (u_mults it) i) ++ unc_loop S r c dual (start + width c it) i.
  Proof.
    cbn [unc_loop]. rewrite tree_loop_spec. cbn [fst]. rewrite all_trees_length. reflexivity.
  Qed.
  Lemma tree_loop_tiles trees : forall start block mults i, tiles start (map tb_slice (fst (tree_loop trees start block mults i))) (start + length trees * block).
  Proof.
    induction trees as [|t r IH]; intros start block mults i; cbn [tree_loop length]; [cbn; lia|].
    specialize (IH (start + block) block mults i). destruct (tree_loop r (start + block) block mults i) as [l e]. cbn [fst map tiles] in *. unfold tb_slice at 1. cbn [tb_start tb_stop tiles].
    repeat split; [lia|]. replace (start + Datatypes.S (length r) * block) with (start + block + length r * block) by lia. exact IH.
  Qed.
  Lemma unc_loop_tiles items c dual i : forall start, tiles start (map tb_slice (unc_loop S items c dual start i)) (start + nsum (map (width c) items)).
  Proof.
    induction items as [|it r IH]; intros start; [cbn; lia|]. rewrite unc_loop_cons, map_app. apply tiles_app. exists (start + width c it). split.
    - unfold width. rewrite <- (all_trees_length S (u_secs it) c dual). apply tree_loop_tiles.
    - cbn [map]. rewrite nsum_cons, Nat.add_assoc. apply IH.
  Qed.
  Lemma unc_loop_trees items c dual i : forall start, map tb_tree (unc_loop S items c dual start i) = flat_map (fun it => all_trees S (u_secs it) c dual) items.
  Proof.
    induction items as [|it r IH]; intros start; [easy|]. rewrite unc_loop_cons, map_app, IH. cbn [flat_map]. f_equal.
    rewrite tree_loop_spec. cbn [fst]. rewrite map_map. cbn [tb_tree]. apply map_nth_seq.
  Qed.
  Lemma unc_loop_ind items c dual i start x : In x (unc_loop S items c dual start i) -> tb_ind x = i.
  Proof.
    revert start. induction items as [|it r IH]; intros start; [easy|]. rewrite unc_loop_cons, in_app_iff, tree_loop_spec. cbn [fst]. intros [H|H]; [|eauto].
    apply in_map_iff in H. destruct H as (k & <- & _). reflexivity.
  Qed.
  Lemma unc_loop_In items c dual i x : forall start, In x (unc_loop S items c dual start i) -> exists it k, In it items /\ nth_error (all_trees S (u_secs it) c dual) k = Some (tb_tree x) /\
    tb_mults x = u_mults it /\ tb_stop x = tb_start x + product (u_mults it) /\
    ((forall it', In it' items -> length (u_secs it') = length dual) -> NoDup (map u_secs items) ->
     tree_offset S items (t_unc (tb_tree x)) c start = Some (tb_start x - product (u_mults it) * k, product (u_mults it)) /\ product (u_mults it) * k <= tb_start x).
  Proof.
    induction items as [|it r IH]; intros start; [easy|]. rewrite unc_loop_cons, in_app_iff, tree_loop_spec. cbn [fst]. intros [H|H].
    - apply in_map_iff in H. destruct H as (k & <- & Ik). apply in_seq in Ik. exists it, k. cbn [tb_tree tb_mults tb_stop tb_start].
      assert (NE : nth_error (all_trees S (u_secs it) c dual) k = Some (nth k (all_trees S (u_secs it) c dual) (Tree [] [] [] [] []))) by (apply nth_error_nth'; lia).
      split; [now left|]. split; [exact NE|]. split; [reflexivity|]. split; [reflexivity|].
      intros LD _. assert (V : valid_tree S (u_secs it) c dual (nth k (all_trees S (u_secs it) c dual) (Tree [] [] [] [] []))).
      { apply all_trees_In; [symmetry; apply LD; now left|]. eapply nth_error_In. exact NE. }
      rewrite (proj1 (valid_tree_fields V)). cbn [tree_offset]. rewrite (proj2 (rows_eqb_eq _ _) eq_refl). split; [f_equal; f_equal; lia|lia].
    - destruct (IH _ H) as (it' & k & I & NE & M & ST & REST). exists it', k. split; [now right|]. split; [exact NE|]. split; [exact M|]. split; [exact ST|].
      intros LD ND. assert (V : valid_tree S (u_secs it') c dual (tb_tree x)).
      { apply all_trees_In; [symmetry; apply LD; now right|]. eapply nth_error_In. exact NE. }
      inversion ND as [|? ? NI ND']; subst. cbn [tree_offset].
      destruct (rows_eqb (u_secs it) (t_unc (tb_tree x))) eqn:E.
      + apply rows_eqb_eq in E. exfalso. apply NI. rewrite E, (proj1 (valid_tree_fields V)). now apply in_map.
      + apply REST; auto. intros; apply LD; now right.
  Qed.
End Iter.
