(** compose: one pair of blocks, then a pair of groups. *)
From Coq Require Import Ring.
From Verif Require Import Util StableSort RowModel RowProofs GridModel GridProofs SymModel SymProofs CatSpec Sums SpaceModel SpaceSpec SpaceProofs SpaceProofs2 SpaceProofs3
  PipeModel PipeProofs PipeProofs2 PipeProofs4 BlockModel BlockProofs SparseModel SparseSpec SparseProofs SparseProofs2 SparseProofs3 SparseProofs4 SparseProofs5 SparseProofs6 SparseCharge.
Set Implicit Arguments. Unset Strict Implicit.
Open Scope nat_scope.

Section Mat.
  Variable K : Type.
  Variable o : ops K.
  Hypothesis SR : semi_ring_theory (o0 o) (o1 o) (oadd o) (omul o) (@eq K).
  Add Ring Kring : SR.
  Notation block := (blk K).
  (** the matrices of [compose_worker] *)
  Definition a_mat (sa : list nat) (X : block) : block := if length sa =? 0 then bflat X else bfold_last X (prod sa).
  Definition b_mat (nc : nat) (sb : list nat) (Y : block) : block :=
    let Yp := btranspose o Y (rev (seq 0 nc) ++ seq nc (length sb)) in if length sb =? 0 then bflat Yp else bfold_first Yp (prod sb).
  Definition side (s : list nat) : list nat := if length s =? 0 then [] else [prod s].
  Definition sidx (s q : list nat) : list nat := if length s =? 0 then [] else [flat_index s true q].
  Lemma side_prod s : prod (side s) = prod s.
  Proof. unfold side. destruct s; auto. cbn [length Nat.eqb]. apply prod_one. Qed.
  Lemma sidx_len s q : length (sidx s q) = length (side s).
  Proof. unfold sidx, side. now destruct (length s =? 0). Qed.
  Lemma sidx_valid s q : valid_idx s q -> valid_idx (side s) (sidx s q).
  Proof. intros V. unfold sidx, side. destruct (length s =? 0); constructor; [|constructor]. now apply flat_index_lt. Qed.
  Lemma sidx_flat s q : valid_idx s q -> flat_index (side s) true (sidx s q) = flat_index s true q.
  Proof.
    intros V. unfold sidx, side. destruct s as [|n s]; cbn [length Nat.eqb]; [|apply flat_index_1].
    inversion V. reflexivity.
  Qed.
  Lemma a_mat_shape (X : block) sa t : bwf X -> bshape X = sa ++ t -> 0 < prod sa -> bshape (a_mat sa X) = side sa ++ [prod t] /\ bwf (a_mat sa X).
  Proof.
    intros WX SX P. unfold a_mat, side, bflat, bfold_last. unfold bwf in WX. rewrite SX, prod_app in WX.
    destruct (Nat.eqb_spec (length sa) 0) as [E|E].
    - apply length_zero_iff_nil in E. subst sa. change (prod []) with 1 in WX. rewrite Nat.mul_1_l in WX. split; [|unfold bwf]; unfold breshape; cbn [bshape bdata app]; rewrite WX, ?Nat.add_0_r; auto. now rewrite prod_one.
    - rewrite WX, Nat.mul_comm, Nat.div_mul by lia. split; auto. unfold bwf, breshape. cbn [bshape bdata]. rewrite WX, prod_cons, prod_one. auto.
  Qed.
  Lemma a_mat_at (X : block) sa t q u : bwf X -> bshape X = sa ++ t -> 0 < prod sa -> valid_idx sa q -> valid_idx t u ->
    bat o (a_mat sa X) (sidx sa q ++ [flat_index t true u]) = bat o X (q ++ u).
  Proof.
    intros WX SX P V U. destruct (a_mat_shape WX SX P) as [SM _]. assert (Lq := valid_length V). assert (Lu := valid_length U).
    assert (E : a_mat sa X = breshape X (side sa ++ [prod t])).
    { destruct (a_mat sa X) as [s d] eqn:EM. cbn [bshape] in SM. subst s. unfold breshape. f_equal. unfold a_mat in EM. destruct (length sa =? 0); injection EM; auto. }
    rewrite E. apply bat_reshape.
    - rewrite SX, !app_length. lia.
    - rewrite !app_length, sidx_len. auto.
    - rewrite SX. rewrite !flat_index_app by (auto; apply sidx_len). rewrite sidx_flat by auto. now rewrite flat_index_1, prod_one.
  Qed.
  Lemma bperm_perm nc m : is_perm (nc + m) (rev (seq 0 nc) ++ seq nc m).
  Proof. unfold is_perm. rewrite seq_app. cbn [Nat.add]. apply Permutation_app_tail. symmetry. apply Permutation_rev. Qed.
  Lemma bperm_take T (d : T) (l l' : list T) : take d (l ++ l') (rev (seq 0 (length l)) ++ seq (length l) (length l')) = rev l ++ l'.
  Proof.
    rewrite take_app_idx, take_seq_slice by (rewrite app_length; lia). rewrite skipn_len, firstn_all. f_equal.
    unfold take. rewrite map_rev. f_equal. change (take d (l ++ l') (seq 0 (length l)) = l). rewrite take_seq_slice by (rewrite app_length; lia). cbn [skipn]. apply firstn_len.
  Qed.
  Lemma b_mat_shape (Y : block) sc sb : bshape Y = sc ++ sb -> 0 < prod sb -> bshape (b_mat (length sc) sb Y) = prod sc :: side sb /\ bwf (b_mat (length sc) sb Y).
  Proof.
    intros SY P. unfold b_mat. set (Yp := btranspose o Y _). assert (SP : bshape Yp = rev sc ++ sb) by (unfold Yp; rewrite btranspose_shape, SY; apply bperm_take).
    assert (WP : bwf Yp) by apply btranspose_wf. unfold bwf in WP. rewrite SP, prod_app, prod_rev in WP. unfold side, bflat, bfold_first.
    destruct (Nat.eqb_spec (length sb) 0) as [E|E].
    - apply length_zero_iff_nil in E. subst sb. change (prod []) with 1 in WP. rewrite Nat.mul_1_r in WP. clearbody Yp. split; [|unfold bwf]; unfold breshape; cbn [bshape bdata]; rewrite WP; auto. now rewrite prod_one.
    - rewrite WP, Nat.div_mul by lia. split; auto. unfold bwf, breshape. cbn [bshape bdata]. rewrite WP, prod_cons, prod_one. auto.
  Qed.
  Lemma b_mat_at (Y : block) sc sb u q : bshape Y = sc ++ sb -> 0 < prod sb -> valid_idx sb q -> valid_idx sc u ->
    bat o (b_mat (length sc) sb Y) (flat_index (rev sc) true (rev u) :: sidx sb q) = bat o Y (u ++ q).
  Proof.
    intros SY P V U. destruct (b_mat_shape SY P) as [SM _]. assert (Lq := valid_length V). assert (Lu := valid_length U).
    set (p := rev (seq 0 (length sc)) ++ seq (length sc) (length sb)).
    assert (E : b_mat (length sc) sb Y = breshape (btranspose o Y p) (prod sc :: side sb)).
    { destruct (b_mat (length sc) sb Y) as [s d] eqn:EM. cbn [bshape] in SM. subst s. unfold breshape. f_equal. unfold b_mat in EM. fold p in EM. destruct (length sb =? 0); injection EM; auto. }
    assert (SP : bshape (btranspose o Y p) = rev sc ++ sb) by (rewrite btranspose_shape, SY; apply bperm_take).
    rewrite E. transitivity (bat o (btranspose o Y p) (rev u ++ q)).
    - apply bat_reshape.
      + rewrite SP, !app_length, !rev_length. lia.
      + cbn [length]. now rewrite sidx_len.
      + rewrite SP. change (flat_index (rev sc) true (rev u) :: sidx sb q) with ([flat_index (rev sc) true (rev u)] ++ sidx sb q).
        change (prod sc :: side sb) with ([prod sc] ++ side sb). rewrite !flat_index_app by (rewrite ?rev_length; auto; apply sidx_len).
        rewrite flat_index_1, sidx_flat, side_prod by auto. reflexivity.
    - replace (rev u ++ q) with (take 0 (u ++ q) p).
      + apply bat_transpose_take; [|rewrite SY; apply valid_app; auto]. unfold bndim. rewrite SY, app_length. apply bperm_perm.
      + unfold p. rewrite <- Lu, <- Lq. apply bperm_take.
  Qed.
  (** the product of the matrices is the contraction over the common legs *)
  Definition bcontract (sc : list nat) (X Y : block) (qa qb : list nat) : K :=
    osum o (map (fun qc => omul o (bat o X (qa ++ rev qc)) (bat o Y (qc ++ qb))) (make_grid sc true)).
  Lemma dot_shape X Y sa sc sb : bwf X -> bshape X = sa ++ rev sc -> bshape Y = sc ++ sb -> 0 < prod sa -> 0 < prod sb ->
    bshape (bdot o (a_mat sa X) (b_mat (length sc) sb Y)) = side sa ++ side sb.
  Proof.
    intros WX SX SY PA PB. destruct (a_mat_shape WX SX PA) as [SA _]. destruct (b_mat_shape SY PB) as [SB _].
    unfold bdot, bmk. cbn [bshape]. rewrite SA, SB. cbn [tl]. now rewrite removelast_last.
  Qed.
  Lemma dot_at X Y sa sc sb qa qb : bwf X -> bshape X = sa ++ rev sc -> bshape Y = sc ++ sb -> 0 < prod sa -> 0 < prod sb -> valid_idx sa qa -> valid_idx sb qb ->
    bat o (bdot o (a_mat sa X) (b_mat (length sc) sb Y)) (sidx sa qa ++ sidx sb qb) = bcontract sc X Y qa qb.
  Proof.
    intros WX SX SY PA PB VA VB. destruct (a_mat_shape WX SX PA) as [SA _]. destruct (b_mat_shape SY PB) as [SB _]. rewrite prod_rev in SA.
    rewrite (bat_dot o SA SB (sidx_valid VA) (sidx_valid VB)). unfold bcontract. rewrite <- (prod_rev sc), sumn_grid.
    rewrite (sum_perm SR (Permutation_map _ (grid_rev_perm sc))), map_map. apply (sum_ext o). intros u Hu. apply make_grid_In in Hu.
    rewrite (a_mat_at WX SX PA VA) by now apply valid_rev in Hu. now rewrite (b_mat_at SY PB VB Hu).
  Qed.
  (** the sum over the matching pairs of blocks, in the order the loop adds them *)
  Lemma sum_dots X (sh : list nat) (f : X -> block) x0 l : (forall x, In x (x0 :: l) -> bwf (f x) /\ bshape (f x) = sh) ->
    let B := fold_left (fun acc x => badd o acc (f x)) l (f x0) in
    bwf B /\ bshape B = sh /\ forall r, valid_idx sh r -> bat o B r = osum o (map (fun x => bat o (f x) r) (x0 :: l)).
  Proof.
    intros H.
    assert (Q : forall l (acc : block), bwf acc -> bshape acc = sh -> (forall x, In x l -> bwf (f x) /\ bshape (f x) = sh) ->
      bwf (fold_left (fun acc x => badd o acc (f x)) l acc) /\ bshape (fold_left (fun acc x => badd o acc (f x)) l acc) = sh /\
      forall r, valid_idx sh r -> bat o (fold_left (fun acc x => badd o acc (f x)) l acc) r = oadd o (bat o acc r) (osum o (map (fun x => bat o (f x) r) l))).
    { clear H. clear l. intros l. induction l as [|x l IH]; intros acc WA SA HL; cbn [fold_left map].
      - split; [|split]; auto. intros. rewrite (sum_nil o). ring.
      - destruct (HL x (or_introl eq_refl)) as [Wx Sx]. destruct (IH (badd o acc (f x))) as (W & S' & V).
        + apply badd_wf; auto; congruence.
        + exact SA.
        + intros y Hy. apply HL. now right.
        + split; [|split]; auto. intros r Hr. rewrite V by auto. rewrite bat_add by (auto; congruence). rewrite (sum_cons o). ring. }
    destruct (H x0 (or_introl eq_refl)) as [W0 S0]. destruct (Q l (f x0) W0 S0) as (W & S' & V); [intros x Hx; apply H; now right|].
    cbn zeta. split; [exact W|split; [exact S'|]]. intros r Hr. rewrite V by auto. cbn [map]. now rewrite (sum_cons o).
  Qed.
End Mat.
