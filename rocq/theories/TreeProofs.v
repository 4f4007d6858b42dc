(** Proofs about the enumeration of fusion trees (C17) and the order on trees (C19). *)
From Verif Require Import Util RowModel RowProofs SymModel SymProofs CatSpec LexOrder SpaceModel SpaceProofs SpaceProofs2 TreeModel.
Set Implicit Arguments.
Unset Strict Implicit.
Open Scope nat_scope.

Lemma bools_eqb_eq a b : bools_eqb a b = true <-> a = b.
Proof.
  revert b. induction a as [|x a IH]; intros [|y b]; cbn [bools_eqb]; try (split; congruence).
  rewrite Bool.andb_true_iff, Bool.eqb_true_iff, IH. split; [intros [-> ->]; reflexivity|intros [= -> ->]; auto].
Qed.
Lemma slice_0 A (l : list A) n : slice l 0 n = firstn n l.
Proof. unfold slice. now rewrite Nat.sub_0_r. Qed.
Lemma slice_end A (l : list A) n : slice l n (length l) = skipn n l.
Proof. unfold slice. apply firstn_all2. rewrite skipn_length. lia. Qed.
Lemma slice_join A (l : list A) n : slice l 0 n ++ slice l n (length l) = l.
Proof. rewrite slice_0, slice_end. apply firstn_skipn. Qed.
Lemma slice_nil A a b : slice (@nil A) a b = [].
Proof. unfold slice. rewrite skipn_nil. apply firstn_nil. Qed.

Lemma skipn_cons_nth A (d : A) l i : i < length l -> skipn i l = nth i l d :: skipn (S i) l.
Proof. revert i. induction l as [|x l IH]; intros [|i] H; cbn [length] in H; try lia; [reflexivity|]. apply (IH i). lia. Qed.
Lemma firstn_S_nth A (d : A) l i : i < length l -> firstn (S i) l = firstn i l ++ [nth i l d].
Proof.
  revert i. induction l as [|x l IH]; intros [|i] H; cbn [length] in H; try lia; [reflexivity|].
  change (firstn (S (S i)) (x :: l)) with (x :: firstn (S i) l). rewrite IH by lia. reflexivity.
Qed.

Section Trees.
  Variable S : symmetry.
  Notation N := (n_symbol S).
  Notation out := (sym_outcomes S).
  Notation path := (path S).
  Notation valid_tree := (valid_tree S).

  Lemma n_symbol_lt a b c mu : mu < N a b c <-> In c (out a b) /\ mu < sym_n S a b c.
  Proof.
    unfold n_symbol. destruct (can_fuse_to S a b c) eqn:E.
    - apply can_fuse_to_In in E. tauto.
    - split; [lia|]. intros [I _]. apply can_fuse_to_In in I. congruence.
  Qed.
  Lemma path_lengths a us inners mus c : path a us inners mus c -> us <> [] /\ length inners = length us - 1 /\ length mus = length us.
  Proof.
    induction 1 as [|a u us e inners mu mus c H1 H2 H (IH1 & IH2 & IH3)]; cbn [length]; [repeat split; discriminate|].
    destruct us; [congruence|]. cbn [length] in *. repeat split; [discriminate|lia|lia].
  Qed.
  Lemma path_nil a inners mus c : ~ path a [] inners mus c.
  Proof. intros H. apply path_lengths in H. destruct H as [H _]. congruence. Qed.

  (** ** The enumeration is exactly the set of valid trees *)
  Lemma all_trees1_In c us : forall a1 dual t, length dual = Datatypes.S (length us) ->
    (In t (all_trees1 S c a1 us dual) <-> valid_tree (a1 :: us) c dual t).
  Proof.
    induction us as [|a2 us IH]; intros a1 dual t LD.
    - cbn [all_trees1]. destruct dual as [|d [|? ?]]; cbn [length] in LD; try lia. destruct (row_eqb a1 c) eqn:E.
      + apply row_eqb_eq in E. subst. split.
        * intros [<-|[]]. constructor.
        * intros H. inversion H; subst; [now left|]. exfalso. eapply path_nil. eassumption.
      + apply row_eqb_neq in E. split; [intros []|]. intros H. inversion H; subst; [congruence|]. exfalso. eapply path_nil. eassumption.
    - destruct us as [|a3 us].
      + cbn [all_trees1]. rewrite in_map_iff. split.
        * intros (mu & <- & Hmu). apply in_seq in Hmu. apply vt_more; [exact LD|]. assert (X : In c (out a1 a2) /\ mu < sym_n S a1 a2 c) by (apply n_symbol_lt; lia). now apply path_one.
        * intros H. inversion H; subst. match goal with P : path _ _ _ _ _ |- _ => inversion P; subst end.
          -- eexists. split; [reflexivity|]. apply in_seq. split; [lia|]. cbn. apply n_symbol_lt. auto.
          -- exfalso. eapply path_nil. eassumption.
      + change (all_trees1 S c a1 (a2 :: a3 :: us) dual) with (flat_map (fun b =>
          flat_map (fun rest => map (set_mult0 (insert rest (Tree [a1; a2] b (slice dual 0 2) [] [0]))) (seq 0 (sym_n S a1 a2 b)))
                   (all_trees1 S c b (a3 :: us) (false :: slice dual 2 (length dual)))) (out a1 a2)).
        assert (LD' : length (false :: slice dual 2 (length dual)) = Datatypes.S (length (a3 :: us))).
        { rewrite slice_end. cbn [length]. rewrite skipn_length. cbn [length] in LD. lia. }
        assert (INS : forall b inners mus mu, set_mult0 (insert (Tree (b :: a3 :: us) c (false :: slice dual 2 (length dual)) inners mus)
            (Tree [a1; a2] b (slice dual 0 2) [] [0])) mu = Tree (a1 :: a2 :: a3 :: us) c dual (b :: inners) (mu :: mus)).
        { intros. unfold insert, set_mult0. cbn [t_unc t_coup t_dual t_inner t_mult skipn app upd].
          replace (slice (b :: a3 :: us) 1 (num_uncoupled (Tree (b :: a3 :: us) c (false :: slice dual 2 (length dual)) inners mus))) with (a3 :: us)
            by (symmetry; unfold num_uncoupled; cbn [t_unc]; rewrite slice_end; reflexivity).
          change (slice (b :: a3 :: us) 0 1) with [b]. rewrite slice_join. reflexivity. }
        rewrite in_flat_map. split.
        * intros (b & Hb & Ht). apply in_flat_map in Ht. destruct Ht as (rest & Hr & Ht). apply in_map_iff in Ht. destruct Ht as (mu & <- & Hmu).
          apply in_seq in Hmu. apply IH in Hr; [|exact LD']. inversion Hr; subst. rewrite INS. apply vt_more; [exact LD|].
          apply path_cons; [exact Hb|lia|assumption].
        * intros H. inversion H; subst. match goal with P : path _ _ _ _ _ |- _ => inversion P; subst end.
          match goal with He : In ?e (out a1 a2) |- _ => exists e; split; [exact He|] end.
          apply in_flat_map. eexists. split.
          -- apply IH; [exact LD'|]. apply vt_more; [|eassumption]. exact LD'.
          -- apply in_map_iff. eexists. split; [apply INS|]. apply in_seq. lia.
  Qed.
  Lemma valid_tree_dual us c dual t : valid_tree us c dual t -> length dual = length us.
  Proof. intros H. inversion H; subst; cbn [length]; auto. Qed.
  Lemma valid_tree_fields us c dual t : valid_tree us c dual t -> t_unc t = us /\ t_coup t = c /\ t_dual t = dual.
  Proof. intros H. inversion H; subst; auto. Qed.
  Lemma all_trees_In us c dual t : length dual = length us -> (In t (all_trees S us c dual) <-> valid_tree us c dual t).
  Proof.
    intros LD. destruct us as [|a us]; [|now apply all_trees1_In]. destruct dual; [|discriminate]. unfold all_trees.
    destruct (row_eqb c (sym_trivial S)) eqn:E.
    - apply row_eqb_eq in E. subst. split; [intros [<-|[]]; constructor|]. intros H. inversion H; subst. now left.
    - apply row_eqb_neq in E. split; [intros []|]. intros H. inversion H; subst. congruence.
  Qed.
  (** ** len *)
  Lemma fold_count A (f : A -> nat) l : forall n, fold_left (fun count b => count + f b) l n = n + nsum (map f l).
  Proof. induction l as [|x l IH]; intros n; cbn [fold_left map]; [cbn; lia|]. rewrite IH. change (nsum (f x :: map f l)) with (f x + nsum (map f l)). lia. Qed.
  Lemma flat_map_const A B (f : A -> list B) n l : (forall x, In x l -> length (f x) = n) -> length (flat_map f l) = length l * n.
  Proof.
    induction l as [|x l IH]; intros H; [reflexivity|]. cbn [flat_map length]. rewrite app_length, IH by (intros; apply H; now right).
    rewrite H by now left. lia.
  Qed.
  Lemma all_trees1_length c us : forall a1 dual, length (all_trees1 S c a1 us dual) = num_trees1 S c a1 us.
  Proof.
    induction us as [|a2 us IH]; intros a1 dual.
    - cbn [all_trees1 num_trees1]. destruct (row_eqb a1 c); reflexivity.
    - destruct us as [|a3 us].
      + cbn [all_trees1 num_trees1]. now rewrite map_length, seq_length.
      + cbn [all_trees1 num_trees1]. rewrite length_flat_map, fold_count. cbn [Nat.add]. f_equal. apply map_ext. intros b.
        rewrite flat_map_const with (n := sym_n S a1 a2 b) by (intros; now rewrite map_length, seq_length).
        specialize (IH b (false :: slice dual 2 (length dual))). cbn [all_trees1 num_trees1] in IH. rewrite IH. apply Nat.mul_comm.
  Qed.
  Lemma all_trees_length us c dual : length (all_trees S us c dual) = num_trees S us c.
  Proof. destruct us; [|apply all_trees1_length]. cbn. destruct (row_eqb c (sym_trivial S)); reflexivity. Qed.

  (** ** No duplicates *)
  Variable RING : fusion_ring S.
  Notation valid a := (sym_valid S a = true).
  Lemma all_trees1_NoDup c us : forall a1 dual, length dual = Datatypes.S (length us) -> valid a1 -> Forall (fun a => valid a) us ->
    NoDup (all_trees1 S c a1 us dual).
  Proof.
    induction us as [|a2 us IH]; intros a1 dual LD V1 VU.
    - cbn [all_trees1]. destruct (row_eqb a1 c); constructor; [intros []|constructor].
    - inversion VU as [|? ? V2 VU']; subst. destruct us as [|a3 us].
      + cbn [all_trees1]. apply NoDup_map_inj; [|apply seq_NoDup]. intros x y _ _ [= ->]. reflexivity.
      + cbn [all_trees1]. assert (LD' : length (false :: slice dual 2 (length dual)) = Datatypes.S (length (a3 :: us))).
        { rewrite slice_end. cbn [length]. rewrite skipn_length. cbn [length] in LD. lia. }
        apply NoDup_flat_map.
        * now apply (fr_nodup RING).
        * intros b Hb. assert (Vb : valid b) by (eapply (fr_closed RING); [exact V1|exact V2|exact Hb]). apply NoDup_flat_map.
          -- specialize (IH b (false :: slice dual 2 (length dual)) LD' Vb VU'). exact IH.
          -- intros rest _. apply NoDup_map_inj; [|apply seq_NoDup]. intros x y _ _ E. apply (f_equal t_mult) in E. cbn in E. congruence.
          -- intros r1 r2 t Hr1 Hr2 Ht1 Ht2. apply in_map_iff in Ht1, Ht2. destruct Ht1 as (m1 & <- & _), Ht2 as (m2 & E & _).
             apply (all_trees1_In c (us := a3 :: us) b r1 LD') in Hr1. apply (all_trees1_In c (us := a3 :: us) b r2 LD') in Hr2. inversion Hr1; subst. inversion Hr2; subst.
             assert (E1 := f_equal t_inner E). assert (E2 := f_equal t_mult E). cbn in E1, E2. congruence.
        * intros b1 b2 t Hb1 Hb2 Ht1 Ht2. apply in_flat_map in Ht1, Ht2. destruct Ht1 as (r1 & Hr1 & Ht1), Ht2 as (r2 & Hr2 & Ht2).
          apply in_map_iff in Ht1, Ht2. destruct Ht1 as (m1 & <- & _), Ht2 as (m2 & E & _).
          apply (all_trees1_In c (us := a3 :: us) b1 r1 LD') in Hr1. apply (all_trees1_In c (us := a3 :: us) b2 r2 LD') in Hr2. inversion Hr1; subst. inversion Hr2; subst.
          apply (f_equal t_inner) in E. cbn in E. congruence.
  Qed.
  Lemma all_trees_NoDup us c dual : length dual = length us -> Forall (fun a => valid a) us -> NoDup (all_trees S us c dual).
  Proof.
    intros LD V. destruct us as [|a us]; [|inversion V; now apply all_trees1_NoDup].
    cbn. destruct (row_eqb c (sym_trivial S)); constructor; [intros []|constructor].
  Qed.
End Trees.
