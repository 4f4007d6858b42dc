(** TensorProduct: the abelian grid, the full calculation, combinations and trees. *)
From Verif Require Import Util StableSort RowModel RowProofs GridModel GridProofs SymModel SymProofs SpaceModel SpaceSpec SpaceProofs SpaceProofs2 SpaceProofs7
  PipeModel PipeProofs TreeModel TreeProofs FormalSum TensorModel TensorSpec TensorProofs.
Set Implicit Arguments. Unset Strict Implicit.
Open Scope nat_scope.

Lemma row_eqb_sym' a b : row_eqb a b = row_eqb b a.
Proof. destruct (row_eqb a b) eqn:E, (row_eqb b a) eqn:F; try reflexivity; [apply row_eqb_eq in E; subst; now rewrite row_eqb_refl in F|apply row_eqb_eq in F; subst; now rewrite row_eqb_refl in E]. Qed.

Definition nomult : sector * nat := ([], 0).
(** combination number [m] of the F-style grid *)
Fixpoint fpick (m : nat) (ll : list (list (sector * nat))) : list (sector * nat) :=
  match ll with [] => [] | l :: r => nth (m mod length l) l nomult :: fpick (m / length l) r end.
(** ... and of the C-style grid *)
Fixpoint csize (ll : list (list (sector * nat))) : nat := match ll with [] => 1 | l :: r => csize r * length l end.
Fixpoint cpick (m : nat) (ll : list (list (sector * nat))) : list (sector * nat) :=
  match ll with [] => [] | l :: r => nth ((m / csize r) mod length l) l nomult :: cpick m r end.

Lemma seq_blocks n : forall k s, seq s (k * n) = flat_map (fun q => seq (s + q * n) n) (seq 0 k).
Proof.
  induction k as [|k IH]; intros s; [reflexivity|]. cbn [Nat.mul]. rewrite seq_app, IH. cbn [seq flat_map]. rewrite Nat.mul_0_l, Nat.add_0_r. f_equal.
  rewrite <- (seq_shift k), flat_map_map'. apply flat_map_ext. intros q. f_equal. lia.
Qed.
Lemma map_nth_seq A (d : A) l : map (fun i => nth i l d) (seq 0 (length l)) = l.
Proof. apply take_seq. Qed.

Lemma fpick_perm ll : Permutation (map (fun m => fpick m ll) (seq 0 (csize ll))) (combos ll).
Proof.
  induction ll as [|l r IH]; [reflexivity|]. cbn [csize combos].
  rewrite seq_blocks, flat_map_concat_map, concat_map, map_map, <- flat_map_concat_map.
  transitivity (flat_map (fun q => map (fun a => a :: fpick q r) l) (seq 0 (csize r))).
  - apply Permutation_flat_map_ext. intros q Hq. cbn [Nat.add].
    assert (E : map (fun m => fpick m (l :: r)) (seq (q * length l) (length l)) = map (fun a => a :: fpick q r) l); [|rewrite E; reflexivity].
    transitivity (map (fun a => a :: fpick q r) (map (fun i => nth i l nomult) (seq 0 (length l)))); [|now rewrite map_nth_seq].
    rewrite map_map, (seq_shift_map (q * length l)), map_map. apply map_ext_in. intros i Hi. apply in_seq in Hi.
    cbn [fpick]. rewrite Nat.add_comm, Nat.mod_add, Nat.mod_small, Nat.div_add, Nat.div_small by lia. reflexivity.
  - rewrite (flat_map_ext _ (fun q => flat_map (fun a => [a :: fpick q r]) l)).
    + rewrite flat_map_swap. apply Permutation_flat_map_ext. intros a _.
      rewrite <- (Permutation_map (cons a) IH), map_map. clear.
      induction (seq 0 (csize r)); [reflexivity|]. cbn. now rewrite IHl.
    + intros q. clear. induction l as [|x l IH]; [easy|]. cbn. now rewrite <- IH.
Qed.

Lemma cpick_add ll : forall m k, cpick (m + k * csize ll) ll = cpick m ll.
Proof.
  induction ll as [|l r IH]; intros m k; [reflexivity|]. cbn [cpick csize].
  replace (m + k * (csize r * length l)) with (m + (k * length l) * csize r) by lia. rewrite IH. f_equal.
  destruct (Nat.eq_dec (csize r) 0) as [Z|Z].
  - rewrite Z. reflexivity.
  - rewrite Nat.div_add by auto. destruct l as [|x l].
    + now rewrite !nth_overflow by (cbn; lia).
    + rewrite Nat.mod_add by (cbn; lia). reflexivity.
Qed.
Lemma cpick_combos ll : map (fun m => cpick m ll) (seq 0 (csize ll)) = combos ll.
Proof.
  induction ll as [|l r IH]; [reflexivity|]. cbn [csize combos].
  rewrite Nat.mul_comm, seq_blocks, flat_map_concat_map, concat_map, map_map, <- flat_map_concat_map.
  transitivity (flat_map (fun a => map (cons a) (combos r)) (map (fun i => nth i l nomult) (seq 0 (length l)))); [|now rewrite map_nth_seq].
  rewrite flat_map_map'. apply flat_map_ext_in. intros q Hq. apply in_seq in Hq.
  cbn [Nat.add]. rewrite <- IH, map_map, (seq_shift_map (q * csize r)), map_map. apply map_ext_in. intros i Hi. apply in_seq in Hi.
  cbn [cpick]. rewrite Nat.add_comm, cpick_add. f_equal. rewrite Nat.div_add, Nat.div_small, Nat.add_0_l by lia.
  now rewrite Nat.mod_small by lia.
Qed.

(** ** combinations, trees and fusion products *)
Section Count.
  Variable S : symmetry.
  Hypothesis RING : fusion_ring S.
  Notation valid a := (sym_valid S a = true).

  Lemma num_trees1_cons c a v us : valid a -> valid v ->
    num_trees1 S c a (v :: us) = nsum (map (fun e => sym_n S a v e * num_trees1 S c e us) (sym_outcomes S a v)).
  Proof.
    intros Va Vv. destruct us as [|w us].
    - cbn [num_trees1]. rewrite <- (n_symbol_sum RING c Va Vv). reflexivity.
    - change (num_trees1 S c a (v :: w :: us)) with (fold_left (fun count b => count + sym_n S a v b * num_trees1 S c b (w :: us)) (sym_outcomes S a v) 0).
      now rewrite fold_count.
  Qed.
  Definition all_valid (cb : list (sector * nat)) : Prop := Forall (fun p => valid (fst p)) cb.
  Lemma combos_valid ll : Forall (valids S) ll -> forall cb, In cb (combos ll) -> all_valid cb.
  Proof.
    induction 1 as [|l ll V VV IH]; intros cb I.
    - destruct I as [<-|[]]. constructor.
    - cbn [combos] in I. apply in_flat_map in I. destruct I as (a & Ia & I). apply in_map_iff in I. destruct I as (cb' & <- & I).
      constructor; [exact (proj1 (Forall_forall _ _) V _ Ia)|now apply IH].
  Qed.
  Definition cprod (cb : list (sector * nat)) : nat := prod (map snd cb).
  Lemma conv_combos c ll : forall M, valids S M -> Forall (valids S) ll ->
    fmult (conv S M (convs S ll)) c = weight M (fun a => nsum (map (fun cb => cprod cb * num_trees1 S c a (map fst cb)) (combos ll))).
  Proof.
    induction ll as [|N ll IH]; intros M VM VL.
    - cbn [convs fold_right combos map]. rewrite (conv_comm RING VM (valids_unit RING) c), (conv_unit_l RING VM c), fmult_weight.
      apply weight_ext. intros p _. unfold cprod, delta. cbn. destruct (row_eqb (fst p) c); reflexivity.
    - inversion VL as [|? ? VN VL']; subst. cbn [convs fold_right]. fold (convs S ll).
      rewrite <- (conv_assoc RING VM VN (valids_convs RING VL') c), IH by auto using valids_conv.
      rewrite weight_conv. apply weight_ext. intros p Ip. assert (Vp := proj1 (Forall_forall _ _) VM _ Ip). cbn beta in Vp.
      cbn [combos]. rewrite nsum_flat_map. unfold weight. apply nsum_map_ext. intros q Iq. assert (Vq := proj1 (Forall_forall _ _) VN _ Iq). cbn beta in Vq.
      rewrite map_map. cbn [map fst].
      rewrite (nsum_map_ext (f := fun cb => cprod (q :: cb) * num_trees1 S c (fst p) (fst q :: map fst cb))
                 (g := fun cb => snd q * nsum (map (fun e => sym_n S (fst p) (fst q) e * (cprod cb * num_trees1 S c e (map fst cb))) (sym_outcomes S (fst p) (fst q))))).
      + rewrite nsum_map_mul. f_equal. rewrite nsum_map_swap. apply nsum_map_ext. intros e _. now rewrite nsum_map_mul.
      + intros cb _. rewrite num_trees1_cons by auto. change (cprod (q :: cb)) with (snd q * cprod cb). rewrite <- Nat.mul_assoc. f_equal.
        rewrite <- nsum_map_mul. apply nsum_map_ext. intros e _. lia.
  Qed.
  Lemma convs_combos c ll : Forall (valids S) ll ->
    fmult (convs S ll) c = nsum (map (fun cb => cprod cb * num_trees S (map fst cb) c) (combos ll)).
  Proof.
    intros V. destruct ll as [|M ll].
    - cbn. unfold unit_sum, fmult, cprod. cbn. rewrite row_eqb_sym'. destruct (row_eqb c (sym_trivial S)); reflexivity.
    - inversion V; subst. cbn [convs fold_right]. fold (convs S ll). rewrite conv_combos by auto.
      cbn [combos]. rewrite nsum_flat_map. apply nsum_map_ext. intros p _. rewrite map_map. cbn [map fst num_trees]. rewrite <- nsum_map_mul.
      apply nsum_map_ext. intros cb _. change (cprod (p :: cb)) with (snd p * cprod cb). lia.
  Qed.

  (** abelian groups *)
  Variable fuse : sector -> sector -> sector.
  Hypothesis G : abelian_group_laws S fuse.
  Lemma num_trees_abelian c us : Forall (fun a => valid a) us -> num_trees S us c = delta c (fuse_all S fuse us).
  Proof.
    destruct us as [|a us]; [intros _; cbn; unfold delta; now rewrite row_eqb_sym'|]. intros V. inversion V as [|? ? Va Vu]; subst. clear V.
    cbn [num_trees fuse_all]. revert a Va. induction Vu as [|b us Vb Vu IH]; intros a Va; [reflexivity|].
    rewrite num_trees1_cons by auto. rewrite (ag_outcomes G Va Vb). cbn [map]. rewrite nsum_cons, (ag_n G). cbn [nsum fold_right].
    rewrite Nat.add_0_r, Nat.mul_1_l. rewrite IH by (now apply (ag_closed G)). reflexivity.
  Qed.
End Count.
