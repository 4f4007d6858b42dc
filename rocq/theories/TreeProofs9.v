(** insert_at with an empty tree. *)
From Verif Require Import Util RowModel RowProofs SymModel SymProofs CatSpec Sums StarMat LexOrder SpaceModel SpaceProofs SpaceProofs2 SpaceProofs7 TreeModel TreeProofs TreeProofs2 TreeProofs3 TreeProofs4 TreeProofs5 TreeProofs6.
Set Implicit Arguments.
Unset Strict Implicit.
Open Scope nat_scope.

Lemma Forall_firstn' A (P : A -> Prop) l n : Forall P l -> Forall P (firstn n l).
Proof. rewrite !Forall_forall. intros H x Hx. apply H. rewrite <- (firstn_skipn n l). apply in_or_app. now left. Qed.
Section T.
  Variable S : symmetry.
  Hypothesis RING : fusion_ring S.
  Notation out := (sym_outcomes S).
  Notation valid a := (sym_valid S a = true).
  Lemma unit_r a e : valid a -> In e (out a (sym_trivial S)) -> e = a.
  Proof.
    intros Va H. apply (Permutation_in _ (out_comm RING Va (fr_trivial_valid RING))) in H. rewrite (proj1 (fr_unit RING Va)) in H. destruct H as [H|[]]. congruence.
  Qed.
  Lemma path_remove us1 : forall a in1 m1 e m us2 in2 m2 c, valid a -> Forall (fun x => valid x) us1 ->
    length in1 = length us1 -> length m1 = length us1 ->
    path S a (us1 ++ sym_trivial S :: us2) (in1 ++ e :: in2) (m1 ++ m :: m2) c -> path S a (us1 ++ us2) (in1 ++ in2) (m1 ++ m2) c.
  Proof.
    induction us1 as [|u us1 IH]; intros a in1 m1 e m us2 in2 m2 c Va VU L1 L2 P.
    - destruct in1; [|discriminate]. destruct m1; [|discriminate]. cbn [app] in *. inversion P as [|? ? ? ? ? ? ? ? A1 A2 P']; subst.
      apply unit_r in A1; [|exact Va]. now subst.
    - destruct in1 as [|e1 in1]; [discriminate|]. destruct m1 as [|mu m1]; [discriminate|]. cbn [app length] in *. inversion VU as [|? ? Vu VU']; subst.
      inversion P as [|? ? ? ? ? ? ? ? A1 A2 P']; subst. apply path_cons; [exact A1|exact A2|]. apply IH with (e := e) (m := m); auto; try lia.
      apply (fr_closed RING Va Vu A1).
  Qed.
  Lemma insert_at_empty_ok t n : tree_ok S t -> n < num_uncoupled t -> nth n (t_unc t) [] = sym_trivial S ->
    n + 1 < num_uncoupled t \/ num_uncoupled t <= 2 -> tree_ok S (insert_at_empty t n).
  Proof.
    intros OK Hn HT HC. destruct (le_lt_dec 2 (num_uncoupled t)) as [L2|L2].
    2:{ destruct (tree_cases OK) as [->|[(a & d & ->)|(a & us & c & dual & inn & mus & E & P)]]; unfold num_uncoupled in *; cbn [t_unc length] in *.
        - lia.
        - assert (n = 0) by lia. subst n. cbn [nth] in HT. subst a. unfold insert_at_empty, tree_ok. cbn. split; [constructor|]. apply vt_empty.
        - subst t. cbn [t_unc length] in L2. destruct us; [exfalso; eapply path_nil; apply (proj2 P)|cbn [length] in L2; lia]. }
    apply tree_ok_path in OK; [|exact L2]. destruct OK as (V & LD & P). destruct t as [unc coup dual inner mult]. unfold insert_at_empty, num_inner, num_uncoupled in *.
    cbn [t_unc t_coup t_dual t_inner t_mult] in *. destruct unc as [|a us]; [cbn in L2; lia|]. cbn [hd tl] in P. inversion V as [|? ? Va VU]; subst.
    destruct (path_lengths P) as (NE & LI & LM). cbn [length] in *.
    assert (NU : forall n, slice (a :: us) 0 n ++ slice (a :: us) (n + 1) (Datatypes.S (length us)) = firstn n (a :: us) ++ skipn (n + 1) (a :: us)).
    { intros m. rewrite slice_0. f_equal. now rewrite slice_full by reflexivity. }
    rewrite NU, !slice_0. rewrite (@slice_full _ dual) by reflexivity. rewrite (@slice_full _ mult) by reflexivity. rewrite (@slice_full _ inner) by lia.
    assert (VR : Forall (fun x => valid x) (firstn n (a :: us) ++ skipn (n + 1) (a :: us))).
    { apply Forall_app. split; [now apply Forall_firstn'|]. rewrite Forall_forall in *. intros x Hx. apply V. rewrite <- (firstn_skipn (n + 1) (a :: us)). apply in_or_app. now right. }
    assert (LDR : length (firstn n dual ++ skipn (n + 1) dual) = length us) by (rewrite app_length, firstn_length, skipn_length; lia).
    assert (LUR : length (firstn n (a :: us) ++ skipn (n + 1) (a :: us)) = length us) by (rewrite app_length, firstn_length, skipn_length; cbn [length]; lia).
    destruct us as [|b us]; [congruence|]. destruct us as [|b' us].
    - (* two legs *)
      destruct inner; [|discriminate]. destruct mult as [|mu [|]]; try discriminate. inversion P as [? ? ? ? A1 A2|]; subst. inversion VU as [|? ? Vb _]; subst.
      unfold tree_ok. cbn [t_unc t_coup t_dual]. split; [exact VR|]. destruct n as [|[|n]]; cbn [length] in Hn; try lia; cbn [nth] in HT; subst.
      + rewrite (proj1 (fr_unit RING Vb)) in A1. destruct A1 as [<-|[]]. cbn in *. destruct dual as [|? [|d [|]]]; try discriminate. cbn in *. apply vt_one.
      + apply unit_r in A1; [|exact Va]. subst coup. cbn in *. destruct dual as [|d [|? [|]]]; try discriminate. cbn in *. apply vt_one.
    - cbn [length] in *. apply tree_ok_path; unfold num_uncoupled; cbn [t_unc t_coup t_dual t_inner t_mult]; [rewrite LUR; lia|]. split; [exact VR|]. split; [now rewrite LDR, LUR|].
      destruct n as [|n].
      + cbn [nth] in HT. subst a. cbn [Nat.sub Nat.max firstn app Nat.add skipn hd tl]. destruct inner as [|e inner]; [discriminate|]. destruct mult as [|mu mult]; [discriminate|].
        inversion P as [|? ? ? ? ? ? ? ? A1 A2 P']; subst. inversion VU as [|? ? Vb _]; subst. rewrite (proj1 (fr_unit RING Vb)) in A1. destruct A1 as [<-|[]]. exact P'.
      + change (nth n (b :: b' :: us) [] = sym_trivial S) in HT. replace (Datatypes.S n - 1) with n by lia. rewrite Nat.max_0_l. replace (Datatypes.S n + 1) with (Datatypes.S (n + 1)) by lia. cbn [firstn skipn app hd tl].
        set (us' := b :: b' :: us) in *. assert (LU : length us' = Datatypes.S (Datatypes.S (length us))) by reflexivity.
        apply path_remove with (e := nth n inner []) (m := nth n mult 0).
        * exact Va.
        * now apply Forall_firstn'.
        * rewrite !firstn_length. lia.
        * rewrite !firstn_length. lia.
        * rewrite <- HT. rewrite Nat.add_1_r. rewrite <- !skipn_cons_nth by lia. rewrite !firstn_skipn. exact P.
  Qed.
End T.
