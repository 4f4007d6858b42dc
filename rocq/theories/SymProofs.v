(** Generic facts about symmetries: groups are fusion rings, bracketing does not matter. *)
From Verif Require Import Util RowModel RowProofs SymModel.
Set Implicit Arguments.
Unset Strict Implicit.
Open Scope Z_scope.

Lemma can_fuse_to_In S a b c : can_fuse_to S a b c = true <-> In c (sym_outcomes S a b).
Proof.
  unfold can_fuse_to. rewrite existsb_exists. split.
  - intros (x & H & E). apply row_eqb_eq in E. now subst.
  - intros H. exists c. split; auto. apply row_eqb_refl.
Qed.

Lemma n_symbol_In S a b c : In c (sym_outcomes S a b) -> n_symbol S a b c = sym_n S a b c.
Proof. intros H. unfold n_symbol. now rewrite (proj2 (can_fuse_to_In S a b c) H). Qed.
Lemma n_symbol_notIn S a b c : ~ In c (sym_outcomes S a b) -> n_symbol S a b c = 0%nat.
Proof.
  intros H. unfold n_symbol. destruct (can_fuse_to S a b c) eqn:E; auto.
  apply can_fuse_to_In in E. tauto.
Qed.

Lemma n_symbol_pos S a b c : fusion_ring S -> sym_valid S a = true -> sym_valid S b = true ->
  ((0 < n_symbol S a b c)%nat <-> In c (sym_outcomes S a b)).
Proof.
  intros FR Ha Hb. split; intros H.
  - destruct (in_dec row_eq_dec c (sym_outcomes S a b)) as [i|i]; auto.
    rewrite n_symbol_notIn in H; auto. lia.
  - rewrite n_symbol_In; auto. now apply (fr_pos FR).
Qed.

Section Group.
  Variable S : symmetry.
  Variable fuse : sector -> sector -> sector.
  Hypothesis G : abelian_group_laws S fuse.
  Let valid a := sym_valid S a = true.

  Lemma ag_n_symbol a b c : valid a -> valid b ->
    n_symbol S a b c = if row_eqb (fuse a b) c then 1%nat else 0%nat.
  Proof.
    intros Ha Hb. unfold n_symbol, can_fuse_to. rewrite (ag_outcomes G) by auto. cbn [existsb].
    rewrite (ag_n G). destruct (row_eqb (fuse a b) c); reflexivity.
  Qed.

  Lemma ag_cancel a b c : valid a -> valid b -> valid c -> fuse a b = fuse a c -> b = c.
  Proof.
    intros Ha Hb Hc E.
    assert (H : fuse (fuse (sym_dual S a) a) b = fuse (fuse (sym_dual S a) a) c).
    { rewrite !(ag_assoc G); auto using (ag_dual_valid G). now rewrite E. }
    rewrite (ag_comm G (a := sym_dual S a)) in H; auto using (ag_dual_valid G).
    rewrite (ag_inv G) in H by auto. now rewrite !(ag_unit G) in H.
  Qed.

  Lemma ag_dual_invol a : valid a -> sym_dual S (sym_dual S a) = a.
  Proof.
    intros Ha. assert (D := ag_dual_valid G Ha). apply (@ag_cancel (sym_dual S a)); auto.
    - apply (ag_dual_valid G); auto.
    - rewrite (ag_inv G) by auto. rewrite (ag_comm G) by auto. symmetry. now apply (ag_inv G).
  Qed.

  Lemma ag_dual_trivial : sym_dual S (sym_trivial S) = sym_trivial S.
  Proof.
    assert (T := ag_trivial_valid G). rewrite <- (ag_unit G (a := sym_dual S (sym_trivial S))).
    - now apply (ag_inv G).
    - now apply (ag_dual_valid G).
  Qed.

  Lemma ag_dual_fuse a b : valid a -> valid b ->
    sym_dual S (fuse a b) = fuse (sym_dual S a) (sym_dual S b).
  Proof.
    intros Ha Hb. assert (Hab := ag_closed G Ha Hb).
    assert (Da := ag_dual_valid G Ha). assert (Db := ag_dual_valid G Hb).
    apply (@ag_cancel (fuse a b)); auto.
    - now apply (ag_dual_valid G).
    - now apply (ag_closed G).
    - rewrite (ag_inv G) by auto. rewrite (ag_comm G (a := a) (b := b)) by auto.
      rewrite (ag_assoc G); auto; [|now apply (ag_closed G)].
      rewrite <- (ag_assoc G (a := a)); auto. rewrite (ag_inv G (a := a)) by auto.
      rewrite (ag_unit G) by auto. symmetry. now apply (ag_inv G).
  Qed.

  Lemma ag_fusion_ring : fusion_ring S.
  Proof.
    constructor.
    - apply (ag_len G).
    - apply (ag_trivial_valid G).
    - apply (ag_dual_valid G).
    - intros a b c Ha Hb. rewrite (ag_outcomes G) by auto. intros [<-|[]]. now apply (ag_closed G).
    - intros a b Ha Hb. rewrite (ag_outcomes G) by auto. repeat constructor. intros [].
    - intros. rewrite (ag_n G). lia.
    - intros a Ha. assert (T := ag_trivial_valid G).
      rewrite (ag_outcomes G), ag_n_symbol, (ag_unit G), row_eqb_refl; auto.
    - intros a b c Ha Hb Hc. rewrite !ag_n_symbol by auto. now rewrite (ag_comm G Ha Hb).
    - intros a b c d Ha Hb Hc Hd. unfold left_count, right_count.
      rewrite !(ag_outcomes G) by auto. cbn [map nsum fold_right].
      assert (Hab := ag_closed G Ha Hb). assert (Hbc := ag_closed G Hb Hc).
      rewrite !ag_n_symbol by auto. rewrite !row_eqb_refl. now rewrite (ag_assoc G).
    - intros a b Ha Hb. rewrite ag_n_symbol by auto. assert (Da := ag_dual_valid G Ha).
      destruct (row_eq_dec b (sym_dual S a)) as [->|n].
      + now rewrite (ag_inv G), !row_eqb_refl.
      + rewrite (proj2 (row_eqb_neq _ _) n).
        destruct (row_eqb (fuse a b) (sym_trivial S)) eqn:E; auto.
        apply row_eqb_eq in E. elim n. apply (@ag_cancel a); auto. now rewrite (ag_inv G).
    - exact ag_dual_invol.
    - exact ag_dual_trivial.
    - intros a b c Ha Hb Hc.
      assert (Da := ag_dual_valid G Ha). assert (Db := ag_dual_valid G Hb).
      rewrite !ag_n_symbol by auto. rewrite <- ag_dual_fuse by auto.
      assert (Hab := ag_closed G Ha Hb).
      destruct (row_eq_dec (fuse a b) c) as [->|n]; [now rewrite !row_eqb_refl|].
      rewrite (proj2 (row_eqb_neq _ _) n).
      destruct (row_eqb (sym_dual S (fuse a b)) (sym_dual S c)) eqn:E; auto.
      apply row_eqb_eq in E. elim n. rewrite <- (ag_dual_invol Hab), E. now apply ag_dual_invol.
  Qed.

  Lemma ag_dim_law : dim_law S.
  Proof.
    split; [intros; rewrite (ag_dim G); lia|]. split; [apply (ag_dim G)|].
    split; [intros; now rewrite !(ag_dim G)|]. intros a b Ha Hb.
    rewrite (ag_outcomes G) by auto. cbn [map nsum fold_right].
    rewrite ag_n_symbol, row_eqb_refl, !(ag_dim G) by auto. reflexivity.
  Qed.

  (** n-ary fusion as the library computes it *)
  Lemma fob_spec a b : Forall valid a -> Forall valid b -> length a = length b ->
    fusion_outcomes_broadcast S a b = Some (map (fun p => fuse (fst p) (snd p)) (combine a b)).
  Proof.
    intros Ha. revert b. induction Ha as [|x a Hx Ha IH]; intros [|y b] Hb L; try discriminate; auto.
    inversion Hb; subst. cbn [fusion_outcomes_broadcast combine map fst snd].
    rewrite (ag_outcomes G) by auto. rewrite IH; auto.
  Qed.

  Fixpoint fsum (acc : sector) (l : list sector) : sector :=
    match l with [] => acc | x :: l' => fsum (fuse acc x) l' end.

  Lemma fsum_valid acc l : valid acc -> Forall valid l -> valid (fsum acc l).
  Proof.
    intros H F. revert acc H. induction F; intros; cbn [fsum]; auto.
    apply IHF. now apply (ag_closed G).
  Qed.

  Lemma fsum_assoc acc a l : valid acc -> valid a -> Forall valid l ->
    fsum (fuse acc a) l = fuse acc (fsum a l).
  Proof.
    intros H Ha F. revert acc a H Ha. induction F; intros; cbn [fsum]; auto.
    rewrite (ag_assoc G) by auto. apply IHF; auto. now apply (ag_closed G).
  Qed.

  Lemma multiple_fusion_spec a l : valid a -> Forall valid l ->
    multiple_fusion S (a :: l) = Some (fsum a l).
  Proof.
    intros Ha F. unfold multiple_fusion, multiple_fusion_broadcast. cbn [map].
    assert (K : multiple_fusion_broadcast_loop S [a] (map (fun s => [s]) l) = Some [fsum a l]).
    { unfold multiple_fusion_broadcast_loop. revert a Ha. induction F; intros; cbn [map fold_left fsum]; auto.
      rewrite fob_spec; auto. cbn [combine map fst snd]. apply IHF. now apply (ag_closed G). }
    destruct l as [|y l]; cbn [map] in *; [reflexivity|]. now rewrite K.
  Qed.

  Lemma fsum_app a l1 l2 : fsum a (l1 ++ l2) = fsum (fsum a l1) l2.
  Proof. revert a; induction l1; intros; cbn [fsum app]; auto. Qed.

  Lemma bleaves_cons t : exists a l, bleaves t = a :: l.
  Proof.
    induction t as [a|l (x & xs & E) r _]; cbn [bleaves]; [eauto|]. rewrite E. cbn [app]. eauto.
  Qed.

  Lemma beval_spec t : Forall valid (bleaves t) ->
    beval S t = multiple_fusion S (bleaves t) /\
    exists c, beval S t = Some c /\ valid c.
  Proof.
    induction t as [a|l IHl r IHr]; cbn [bleaves beval]; intros F.
    - inversion F; subst. rewrite multiple_fusion_spec; auto. split; eauto.
    - apply Forall_app in F. destruct F as [Fl Fr].
      destruct (IHl Fl) as (El & c & Hc & Vc). destruct (IHr Fr) as (Er & d & Hd & Vd).
      rewrite Hc, Hd, (ag_outcomes G) by auto.
      destruct (bleaves_cons l) as (x & xs & Ex). destruct (bleaves_cons r) as (y & ys & Ey).
      rewrite Ex, Ey in *. inversion Fl; subst. inversion Fr; subst.
      rewrite multiple_fusion_spec in El, Er by auto.
      split; [|eexists; split; [reflexivity|now apply (ag_closed G)]].
      cbn [app]. rewrite multiple_fusion_spec; auto; [|apply Forall_app; auto].
      rewrite fsum_app. cbn [fsum]. rewrite fsum_assoc; auto; [|now apply fsum_valid].
      f_equal. congruence.
  Qed.
End Group.
