From Verif Require Import Util RowModel RowProofs SymModel SymProofs AbelianModel.
Set Implicit Arguments.
Unset Strict Implicit.
Open Scope Z_scope.

Lemma int16b_spec x : int16b x = true <-> int16 x.
Proof. unfold int16b, int16. rewrite andb_true_iff, Z.leb_le, Z.ltb_lt. tauto. Qed.

Lemma to_i16_range x : int16 (to_i16 x).
Proof. unfold to_i16, int16. assert (H := Z.mod_pos_bound (x + 32768) 65536). lia. Qed.
Lemma to_i16_id x : int16 x -> to_i16 x = x.
Proof. unfold to_i16, int16. intros. rewrite Z.mod_small; lia. Qed.
Lemma to_i16_cong x : exists k, to_i16 x = x + 65536 * k.
Proof.
  unfold to_i16. exists (- ((x + 32768) / 65536)).
  assert (H := Z.div_mod (x + 32768) 65536). lia.
Qed.
Lemma to_i16_uniq x y k : int16 x -> int16 y -> x = y + 65536 * k -> x = y.
Proof. unfold int16. intros. assert (k = 0) by lia. subst. lia. Qed.

Lemma mod_n_spec x N : 0 < N <= 32768 -> mod_n x N = x mod N.
Proof.
  intros H. unfold mod_n.
  assert (E : (if Z.rem x N <? 0 then Z.rem x N + N else Z.rem x N) = x mod N).
  { assert (Q := Z.quot_rem' x N).
    destruct (Z.ltb_spec (Z.rem x N) 0).
    - destruct (Z.le_gt_cases 0 x) as [P|P].
      + assert (R := Z.rem_bound_pos x N P ltac:(lia)). lia.
      + assert (R := Z.rem_bound_pos_neg x N ltac:(lia) ltac:(lia)).
        apply Z.mod_unique_pos with (q := Z.quot x N - 1); lia.
    - destruct (Z.le_gt_cases 0 x) as [P|P].
      + assert (R := Z.rem_bound_pos x N P ltac:(lia)).
        apply Z.mod_unique_pos with (q := Z.quot x N); lia.
      + assert (R := Z.rem_bound_pos_neg x N ltac:(lia) ltac:(lia)).
        apply Z.mod_unique_pos with (q := Z.quot x N); lia. }
  rewrite E. apply to_i16_id. assert (B := Z.mod_pos_bound x N). unfold int16. lia.
Qed.

Lemma len1_inv a : len1 a = true -> exists x, a = [x].
Proof. unfold len1. rewrite Nat.eqb_eq. destruct a as [|x [|]]; try discriminate. eauto. Qed.

Definition lift2 (f : Z -> Z -> Z) (a b : sector) : sector := [f (q0 a) (q0 b)].

Lemma u1_valid_inv a : sym_valid U1 a = true -> exists x, a = [x] /\ int16 x.
Proof.
  cbn [sym_valid U1]. rewrite andb_true_iff. intros [L V]. apply len1_inv in L. destruct L as [x ->].
  exists x. split; auto. now apply int16b_spec.
Qed.
Lemma u1_valid_intro x : int16 x -> sym_valid U1 [x] = true.
Proof. intros. cbn [sym_valid U1]. rewrite andb_true_iff. split; auto. now apply int16b_spec. Qed.

Lemma U1_group : abelian_group_laws U1 (lift2 u1_fuse).
Proof.
  constructor; try reflexivity.
  - intros a Ha. apply u1_valid_inv in Ha. destruct Ha as (x & -> & _). reflexivity.
  - intros a b Ha Hb. apply u1_valid_intro, to_i16_range.
  - intros a Ha. apply u1_valid_intro, to_i16_range.
  - intros a b c Ha Hb Hc. unfold lift2, u1_fuse. cbn [q0 nth]. f_equal.
    change (nth 0 ?a 0) with (q0 a).
    destruct (to_i16_cong (q0 a + q0 b)) as [k1 E1]. destruct (to_i16_cong (q0 b + q0 c)) as [k2 E2].
    destruct (to_i16_cong (to_i16 (q0 a + q0 b) + q0 c)) as [k3 E3].
    destruct (to_i16_cong (q0 a + to_i16 (q0 b + q0 c))) as [k4 E4].
    apply (@to_i16_uniq _ _ (k1 + k3 - k2 - k4)); try apply to_i16_range. lia.
  - intros. unfold lift2, u1_fuse. now rewrite Z.add_comm.
  - intros a Ha. apply u1_valid_inv in Ha. destruct Ha as (x & -> & V).
    unfold lift2, u1_fuse. cbn [q0 nth sym_trivial U1]. now rewrite to_i16_id.
  - intros a Ha. unfold lift2, u1_fuse. cbn [sym_dual U1 sym_trivial q0 nth].
    change (nth 0 ?a 0) with (q0 a). f_equal. unfold u1_dual.
    destruct (to_i16_cong (- q0 a)) as [k1 E1].
    destruct (to_i16_cong (q0 a + to_i16 (- q0 a))) as [k2 E2].
    apply (@to_i16_uniq _ _ (k1 + k2)); [apply to_i16_range|unfold int16; lia|lia].
Qed.

Lemma FN_group : abelian_group_laws FermionNumber (lift2 u1_fuse).
Proof. destruct U1_group. constructor; assumption. Qed.

Lemma zn_valid_inv N a : sym_valid (ZN N) a = true -> exists x, a = [x] /\ 0 <= x < N /\ int16 x.
Proof.
  cbn [sym_valid ZN]. rewrite !andb_true_iff, Z.leb_le, Z.ltb_lt. intros [[L V] B].
  apply len1_inv in L. destruct L as [x ->]. cbn [q0 nth] in *. exists x.
  split; auto. split; auto. now apply int16b_spec.
Qed.
Lemma zn_valid_intro N x : 0 <= x < N -> int16 x -> sym_valid (ZN N) [x] = true.
Proof.
  intros. cbn [sym_valid ZN]. rewrite !andb_true_iff, Z.leb_le, Z.ltb_lt. cbn [q0 nth].
  split; [split|lia]; auto. now apply int16b_spec.
Qed.

Lemma ZN_group N : 1 < N <= 32768 -> abelian_group_laws (ZN N) (lift2 (zn_fuse N)).
Proof.
  intros HN. assert (B : forall x, 0 <= x mod N < N) by (intros; apply Z.mod_pos_bound; lia).
  constructor; try reflexivity.
  - intros a Ha. apply zn_valid_inv in Ha. destruct Ha as (x & -> & _). reflexivity.
  - intros a b Ha Hb. unfold lift2, zn_fuse. rewrite mod_n_spec by lia.
    apply zn_valid_intro; auto. specialize (B (q0 a + q0 b)). unfold int16. lia.
  - apply zn_valid_intro; unfold int16; lia.
  - intros a Ha. cbn [sym_dual ZN]. unfold zn_dual. rewrite mod_n_spec by lia.
    apply zn_valid_intro; auto. specialize (B (- q0 a)). unfold int16. lia.
  - intros a b c Ha Hb Hc. unfold lift2, zn_fuse. cbn [q0 nth].
    change (nth 0 ?a 0) with (q0 a). rewrite !mod_n_spec by lia. f_equal.
    rewrite Zplus_mod_idemp_l, Zplus_mod_idemp_r. f_equal. lia.
  - intros. unfold lift2, zn_fuse. now rewrite Z.add_comm.
  - intros a Ha. apply zn_valid_inv in Ha. destruct Ha as (x & -> & V & _).
    unfold lift2, zn_fuse. cbn [q0 nth sym_trivial ZN]. rewrite mod_n_spec by lia.
    f_equal. apply Z.mod_small. lia.
  - intros a Ha. unfold lift2, zn_fuse. cbn [sym_dual ZN sym_trivial q0 nth].
    change (nth 0 ?a 0) with (q0 a). unfold zn_dual. rewrite !mod_n_spec by lia.
    f_equal. rewrite Zplus_mod_idemp_r. replace (q0 a + - q0 a) with 0 by lia. apply Z.mod_0_l. lia.
Qed.

Lemma FP_group : abelian_group_laws FermionParity (lift2 fp_fuse).
Proof.
  destruct (@ZN_group 2 ltac:(lia)). constructor; try assumption.
  - intros a Ha. exact Ha.
  - intros a Ha. apply (@zn_valid_inv 2) in Ha. destruct Ha as (x & -> & V & _).
    assert (x = 0 \/ x = 1) as [-> | ->] by lia; reflexivity.
Qed.

Lemma NoSymmetry_group : abelian_group_laws NoSymmetry (fun a _ => a).
Proof.
  assert (I : forall a, sym_valid NoSymmetry a = true -> a = [0]).
  { intros a. cbn [sym_valid NoSymmetry]. rewrite andb_true_iff, Z.eqb_eq. intros [L V].
    apply len1_inv in L. destruct L as [x ->]. cbn in V. now subst. }
  constructor; try reflexivity; auto.
  - intros a Ha. now rewrite (I a Ha).
  - intros a b Ha Hb. now rewrite (I a Ha), (I b Hb).
  - intros a Ha. now rewrite (I a Ha).
Qed.

(** batched loops *)
Lemma fuse_loop_combine f a b : length a = length b ->
  fuse_loop f a b = map (fun p => lift2 f (fst p) (snd p)) (combine a b).
Proof.
  intros L. unfold fuse_loop. apply list_eq_nth with (d := lift2 f [] []).
  - rewrite !map_length, seq_length, combine_length. lia.
  - intros i Hi. rewrite map_length, seq_length in Hi.
    rewrite nth_map_lt with (d := 0%nat) by now rewrite seq_length.
    rewrite seq_nth by auto. rewrite (@nth_map_lt (sector*sector) sector _ _ ([] : sector, [] : sector)) by (rewrite combine_length; lia).
    rewrite combine_nth by auto. reflexivity.
Qed.

Lemma multi_loop_spec S f (G : abelian_group_laws S (lift2 f)) n out rest :
  length out = n -> Forall (fun a => sym_valid S a = true) out ->
  Forall (fun s => length s = n /\ Forall (fun a => sym_valid S a = true) s) rest ->
  multiple_fusion_broadcast_loop S out rest = Some (fold_left (fuse_loop f) rest out).
Proof.
  intros L V F. unfold multiple_fusion_broadcast_loop. revert out L V.
  induction F as [|s rest [Ls Vs] F IH]; intros; cbn [fold_left]; auto.
  rewrite (fob_spec G) by (auto; lia). rewrite <- fuse_loop_combine by lia. apply IH.
  - unfold fuse_loop. now rewrite map_length, seq_length.
  - rewrite fuse_loop_combine by lia. apply Forall_forall. intros x Hx. apply in_map_iff in Hx.
    destruct Hx as ([p q] & <- & Hpq). apply (ag_closed G).
    + apply in_combine_l in Hpq. rewrite Forall_forall in V. now apply V.
    + apply in_combine_r in Hpq. rewrite Forall_forall in Vs. now apply Vs.
Qed.

Lemma ZN_all_sectors_spec N : 1 < N <= 32768 ->
  NoDup (ZN_all_sectors N) /\ forall a, In a (ZN_all_sectors N) <-> sym_valid (ZN N) a = true.
Proof.
  intros HN. unfold ZN_all_sectors. split.
  - apply NoDup_map_inj; [|apply seq_NoDup]. intros x y Hx Hy E. injection E as E.
    apply in_seq in Hx, Hy. rewrite !to_i16_id in E by (unfold int16; lia). lia.
  - intros a. rewrite in_map_iff. split.
    + intros (i & <- & Hi). apply in_seq in Hi. rewrite to_i16_id by (unfold int16; lia).
      apply zn_valid_intro; unfold int16; lia.
    + intros H. apply zn_valid_inv in H. destruct H as (x & -> & V & I).
      exists (Z.to_nat x). rewrite Z2Nat.id by lia. rewrite to_i16_id by auto.
      split; auto. apply in_seq. lia.
Qed.

(** fermionic signs *)
Lemma mod2_cases x : mod_n x 2 = x mod 2.
Proof. apply mod_n_spec; lia. Qed.
