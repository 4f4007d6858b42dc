(** Abelian group laws from a fusion ring with unique outcomes; products of single-style factors. *)
From Verif Require Import Util RowModel RowProofs SymModel SymProofs CatSpec ProductModel ProductProofs SpaceModel DropModel.
Set Implicit Arguments. Unset Strict Implicit.
Open Scope nat_scope.

Lemma ring_group S fuse : fusion_ring S -> (forall a b, sym_valid S a = true -> sym_valid S b = true -> sym_outcomes S a b = [fuse a b]) ->
  (forall a b c, sym_n S a b c = 1) -> (forall a, sym_dim S a = 1) -> abelian_group_laws S fuse.
Proof.
  intros FR O N D.
  assert (NS : forall a b c, sym_valid S a = true -> sym_valid S b = true -> n_symbol S a b c = if row_eqb (fuse a b) c then 1 else 0).
  { intros a b c Ha Hb. unfold n_symbol, can_fuse_to. rewrite O by auto. cbn [existsb]. rewrite N. now destruct (row_eqb (fuse a b) c). }
  assert (CL : forall a b, sym_valid S a = true -> sym_valid S b = true -> sym_valid S (fuse a b) = true).
  { intros a b Ha Hb. apply (fr_closed FR Ha Hb). rewrite O by auto. cbn; auto. }
  constructor; auto.
  - apply (fr_len FR).
  - apply (fr_trivial_valid FR).
  - apply (fr_dual_valid FR).
  - intros a b c Ha Hb Hc. assert (A := fr_assoc FR Ha Hb Hc (CL _ _ (CL _ _ Ha Hb) Hc)). unfold left_count, right_count in A. rewrite !O in A by auto. cbn [map] in A.
    rewrite !NS in A by auto. rewrite !row_eqb_refl in A. destruct (row_eqb (fuse a (fuse b c)) (fuse (fuse a b) c)) eqn:E; [|discriminate A]. apply row_eqb_eq in E. auto.
  - intros a b Ha Hb. assert (A := fr_comm FR Ha Hb (CL _ _ Ha Hb)). rewrite !NS, row_eqb_refl in A by auto.
    destruct (row_eqb (fuse b a) (fuse a b)) eqn:E; [|discriminate A]. apply row_eqb_eq in E. auto.
  - intros a Ha. destruct (fr_unit FR Ha) as [E _]. rewrite O in E; auto; [congruence|apply (fr_trivial_valid FR)].
  - intros a Ha. assert (A := fr_dual FR Ha (fr_dual_valid FR Ha)). rewrite row_eqb_refl in A. rewrite NS in A; auto; [|now apply (fr_dual_valid FR)].
    destruct (row_eqb (fuse a (sym_dual S a)) (sym_trivial S)) eqn:E; [|discriminate A]. apply row_eqb_eq in E. auto.
Qed.

Section P.
  Variable K : Type.
  Variable o : ops K.
  Lemma cartesian_one ll : Forall (fun l : list sector => exists c, l = [c]) ll -> exists c, cartesian ll = [c].
  Proof.
    unfold cartesian. generalize (@nil Z) as x. intros x F. revert x. induction F as [|l ll [c ->] F IH]; intros x; cbn [fold_left]; [eauto|].
    unfold cart_step at 2. cbn [flat_map map app]. apply IH.
  Qed.
  Definition product_fuse (fs : list (factor K)) (a b : sector) : sector := hd [] (product_outcomes o fs a b).
  Lemma product_group fs : fs <> [] -> Forall (honest o) fs -> Forall (@single_outcome K) fs -> max_fusion_style fs = style_single ->
    abelian_group_laws (product_sym o fs) (product_fuse fs).
  Proof.
    intros NE H SO M. apply ring_group.
    - now apply product_ring.
    - intros a b Ha Hb. cbn [sym_outcomes product_sym]. unfold product_fuse.
      assert (EX : exists c, product_outcomes o fs a b = [c]); [|destruct EX as [c ->]; reflexivity].
      unfold product_outcomes. destruct fs as [|f0 fs0] eqn:EF; [congruence|]. rewrite <- EF in *.
      apply cartesian_one. apply Forall_forall. intros l Hl. apply in_map_iff in Hl. destruct Hl as (i & <- & Hi). apply in_seq in Hi.
      cbn [sym_valid product_sym] in Ha, Hb. unfold product_valid in Ha, Hb. apply andb_true_iff in Ha, Hb. destruct Ha as [_ Ha], Hb as [_ Hb].
      rewrite forallb_forall in Ha, Hb. rewrite Forall_forall in SO. apply SO; [apply nth_In; lia|apply Ha|apply Hb]; apply in_seq; lia.
    - intros a b c. cbn [sym_n product_sym]. unfold product_n. rewrite M. reflexivity.
    - intros a. cbn [sym_dim product_sym]. unfold product_dim. rewrite M. reflexivity.
  Qed.
End P.
