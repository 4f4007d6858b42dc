(** Lemmas for C72, third part: tdot as a whole. *)
From Coq Require Import String ZArith List Bool Permutation Lia.
From Verif Require Import Util GridModel PermLegsModel PermLegsSpec PlanarModel PlanarSpec PlanarProofs1 PlanarProofs2 PcModel PcSpec TdModel TdSpec TdProofs1 TdProofs2.
Import ListNotations.
Set Implicit Arguments. Unset Strict Implicit.
Open Scope nat_scope.

Lemma open_last nc a t : t_nc t = nc -> t_nd t = 1 -> a = nc -> open t [a] = seq 0 nc.
Proof.
  intros E1 E2 ->. unfold open, num_legs. rewrite E1, E2, seq_app, filter_app. rewrite filter_all.
  - cbn [plus seq filter existsb]. rewrite Nat.eqb_refl. cbn [orb negb]. apply app_nil_r.
  - intros x H. apply in_seq in H. cbn [existsb]. destruct (Nat.eqb_spec x nc); [lia|reflexivity].
Qed.

Section Tdot.
Variables triv sym : bool.

Lemma start t1 t2 legs1 legs2 : tdot_args t1 t2 legs1 legs2 ->
  (has_dup legs1 || has_dup legs2) = false /\ (length legs2 =? length legs1) = true /\ proper (num_legs t1) legs1 /\ proper (num_legs t2) legs2.
Proof.
  intros [F1 F2 [N1 R1] [N2 R2] L]. apply has_dup_NoDup in N1 as D1. apply has_dup_NoDup in N2 as D2. rewrite D1, D2, L, Nat.eqb_refl. now repeat split.
Qed.

Lemma id_left t1 t2 a b : t_kind t1 = Identity -> num_legs t1 = 2 -> a < 2 -> b < num_legs t2 ->
  outcome triv sym t1 t2 [a] [b] (orelse (tdot_id1 triv sym t1 t2 [a] [b]) (TErr MaskMask)).
Proof.
  intros K N A B. unfold tdot_id1. rewrite K. cbn [orelse]. assert (X := @permute_codomain_spec triv sym (legs_of2 t2) [b]). rewrite total_2 in X. specialize (X (proper_one B)).
  destruct (permute_codomain _ _ _ _) as [e|r]; [exact X|]. apply (@one_left t1 t2 a b [(inl a, inr b)]); try assumption; try reflexivity.
  cbn [j_legs]. rewrite X. rewrite (map_legs (lin_2 t2) (others_range _ _)). rewrite open_others. reflexivity.
Qed.
Lemma id_right t1 t2 a b : t_kind t2 = Identity -> num_legs t2 = 2 -> b < 2 -> t_nd t1 = 1 -> a = t_nc t1 ->
  outcome triv sym t1 t2 [a] [b] (orelse (tdot_id2 triv sym t1 t2 [a] [b]) (TErr MaskMask)).
Proof.
  intros K N A D B. unfold tdot_id2. rewrite K. cbn [orelse]. assert (X := @permute_domain_spec triv sym (legs_of1 t1) [a]). rewrite total_1 in X.
  assert (L : a < num_legs t1) by (unfold num_legs; lia). specialize (X (proper_one L)).
  destruct (permute_domain _ _ _ _) as [e|r]; [exact X|]. apply (@one_right t1 t2 a b [(inr b, inl a)]); try assumption; try reflexivity.
  cbn [j_legs]. rewrite (@open_last (t_nc t1) a t1) by auto. subst a. unfold legs_of1, name1, legs0. cbn [fst snd]. rewrite D. cbn [seq rev app map]. unfold set_leg, total. cbn [fst snd]. rewrite !map_length, seq_length.
  rewrite Nat.ltb_irrefl. cbn [length]. replace (t_nc t1 + 1 - 1 - t_nc t1) with 0 by lia. reflexivity.
Qed.

Lemma outcome_swap (large a a' b b' : nat) : large < 2 -> a < 2 -> a' = 1 - a ->
  Permutation [(large, if a =? large then b else b'); (1 - large, if a =? large then b' else b)] (combine [a; a'] [b; b']).
Proof.
  intros L A ->. cbn [combine]. destruct (Nat.eqb_spec a large) as [->|N]; [reflexivity|]. assert (E : large = 1 - a) by lia. subst large. replace (1 - (1 - a)) with a by lia. apply perm_swap.
Qed.
Lemma outcome_swap' (large a a' b b' : nat) : large < 2 -> b < 2 -> b' = 1 - b ->
  Permutation [(if b =? large then a else a', large); (if b =? large then a' else a, 1 - large)] (combine [a; a'] [b; b']).
Proof.
  intros L A ->. cbn [combine]. destruct (Nat.eqb_spec b large) as [->|N]; [reflexivity|]. assert (E : large = 1 - b) by lia. subst large. replace (1 - (1 - b)) with b by lia. apply perm_swap.
Qed.
Lemma proper_swap n b b' : proper n [b; b'] -> proper n [b'; b].
Proof. intros [N F]. split; [apply (Permutation_NoDup (perm_swap _ _ _) N)|]. apply (Permutation_Forall (perm_swap _ _ _) F). Qed.

Lemma mask_left t1 t2 proj a a' b b' : t_kind t1 = Mask proj -> is_mask t2 = false -> num_legs t1 = 2 -> proper (num_legs t1) [a; a'] -> proper (num_legs t2) [b; b'] ->
  outcome triv sym t1 t2 [a; a'] [b; b'] (orelse (tdot_mask1 triv sym t1 t2 [a; a'] [b; b']) (TErr MaskMask)).
Proof.
  intros K M N P1 P2. unfold tdot_mask1. rewrite K. unfold is_mask in M. rewrite M. rewrite N in P1. destruct (open_two N P1) as (O & E & A). cbv zeta.
  set (large := if proj then 1 else 0). assert (L : large < 2) by (subst large; destruct proj; lia). assert (SW := @outcome_swap large a a' b b' L A E). clearbody large.
  destruct (a =? large); cbn [orelse]; apply trace_left.
  - exact N. - exact P2. - now left. - exact L. - exact O. - reflexivity. - exact SW.
  - exact N. - now apply proper_swap. - now left. - exact L. - exact O. - apply others_swap. - exact SW.
Qed.
Lemma mask_right t1 t2 proj a a' b b' : t_kind t2 = Mask proj -> num_legs t2 = 2 -> proper (num_legs t1) [a; a'] -> proper (num_legs t2) [b; b'] ->
  outcome triv sym t1 t2 [a; a'] [b; b'] (orelse (tdot_mask2 triv sym t1 t2 [a; a'] [b; b']) (TErr MaskMask)).
Proof.
  intros K N P1 P2. unfold tdot_mask2. rewrite K. rewrite N in P2. destruct (open_two N P2) as (O & E & A). cbv zeta.
  set (large := if proj then 1 else 0). assert (L : large < 2) by (subst large; destruct proj; lia). assert (SW := @outcome_swap' large a a' b b' L A E). clearbody large.
  destruct (b =? large); cbn [orelse]; apply trace_right.
  - exact N. - exact P1. - now left. - exact L. - exact O. - reflexivity. - exact SW.
  - exact N. - now apply proper_swap. - now left. - exact L. - exact O. - apply others_swap. - exact SW.
Qed.

Lemma tdot_ok t1 t2 legs1 legs2 : tdot_args t1 t2 legs1 legs2 -> supported t1 t2 legs1 legs2 = true -> outcome triv sym t1 t2 legs1 legs2 (tdot triv sym t1 t2 legs1 legs2).
Proof.
  intros RQ SU. destruct (start RQ) as (D & L & P1 & P2). unfold tdot. rewrite D, L. cbn [negb]. destruct RQ as [F1 F2 _ _ LL].
  assert (SY := @tdot_sym_ok triv sym t1 t2 legs1 legs2 P1 P2 LL).
  assert (T1 := special_two F1). assert (T2 := special_two F2).
  destruct legs1 as [|a [|a' [|a'' l1]]], legs2 as [|b [|b' [|b'' l2]]]; try discriminate LL.
  - unfold tdot_mask1, tdot_mask2, tdot_id1, tdot_id2, tdot_diag1, tdot_diag2. destruct (t_kind t1), (t_kind t2); exact SY.
  - clear SY D L LL. assert (A := proper_single P1). assert (B := proper_single P2). clear P1 P2. unfold supported in SU.
    destruct (t_kind t1) as [| | |proj1] eqn:K1.
    + destruct (t_kind t2) as [| | |proj2] eqn:K2; unfold is_mask, is_identity, is_diagonal in SU; rewrite K1, K2 in SU.
      * unfold tdot_mask1, tdot_mask2, tdot_id1, tdot_id2, tdot_diag1, tdot_diag2. rewrite K1, K2. cbn [orelse]. apply tdot_sym_ok; [now apply proper_one|now apply proper_one|reflexivity].
      * unfold tdot_mask1, tdot_mask2, tdot_id1, tdot_id2, tdot_diag1, tdot_diag2. rewrite K1, K2. assert (N2 : num_legs t2 = 2) by (apply T2; discriminate). rewrite N2 in B. apply attach_right; assumption.
      * assert (N2 : num_legs t2 = 2) by (apply T2; discriminate). rewrite N2 in B. apply andb_true_iff in SU. destruct SU as [S1 S2]. apply Nat.eqb_eq in S1, S2.
        assert (X := @id_right t1 t2 a b K2 N2 B S1 S2). unfold tdot_mask1, tdot_mask2, tdot_id1, tdot_diag1, tdot_diag2. rewrite K1, K2. cbn [orelse]. unfold tdot_id2 in *. rewrite K2 in *. exact X.
      * assert (N2 : num_legs t2 = 2) by (apply T2; discriminate). rewrite N2 in B. apply Nat.eqb_eq in SU. subst b.
        unfold tdot_mask1, tdot_mask2. rewrite K1, K2. apply attach_right; assumption.
    + assert (N1 : num_legs t1 = 2) by (apply T1; discriminate). rewrite N1 in A.
      destruct (t_kind t2) as [| | |proj2] eqn:K2; unfold is_mask, is_identity, is_diagonal in SU; rewrite K1, K2 in SU.
      * apply Nat.eqb_eq in SU. subst b. unfold tdot_mask1, tdot_mask2, tdot_id1, tdot_id2, tdot_diag1, tdot_diag2. rewrite K1, K2. apply attach_left; assumption.
      * apply Nat.eqb_eq in SU. subst b. unfold tdot_mask1, tdot_mask2, tdot_id1, tdot_id2, tdot_diag1, tdot_diag2. rewrite K1, K2. apply attach_left; assumption.
      * assert (N2 : num_legs t2 = 2) by (apply T2; discriminate). rewrite N2 in B. apply andb_true_iff in SU. destruct SU as [S1 S2]. apply Nat.eqb_eq in S1, S2.
        assert (X := @id_right t1 t2 a b K2 N2 B S1 S2). unfold tdot_mask1, tdot_mask2, tdot_id1, tdot_diag1, tdot_diag2. rewrite K1, K2. cbn [orelse]. unfold tdot_id2 in *. rewrite K2 in *. exact X.
      * assert (N2 : num_legs t2 = 2) by (apply T2; discriminate). rewrite N2 in B. apply Nat.eqb_eq in SU. subst b.
        unfold tdot_mask1, tdot_mask2. rewrite K1, K2. apply attach_right; [assumption|assumption|lia].
    + assert (N1 : num_legs t1 = 2) by (apply T1; discriminate). rewrite N1 in A. unfold is_mask, is_identity in SU. rewrite K1 in SU.
      assert (X := @id_left t1 t2 a b K1 N1 A B). destruct (t_kind t2) as [| | |proj2] eqn:K2;
        [unfold tdot_mask1, tdot_mask2, tdot_id2, tdot_diag1, tdot_diag2; rewrite K1, K2; cbn [orelse]; unfold tdot_id1 in *; rewrite K1 in *; exact X ..|].
      assert (N2 : num_legs t2 = 2) by (apply T2; discriminate). rewrite N2 in B. apply Nat.eqb_eq in SU. subst b.
      unfold tdot_mask1, tdot_mask2. rewrite K1, K2. apply attach_right; [assumption|assumption|lia].
    + assert (N1 : num_legs t1 = 2) by (apply T1; discriminate). rewrite N1 in A. unfold is_mask in SU. rewrite K1 in SU. apply andb_true_iff in SU. destruct SU as [S1 S2]. apply Nat.eqb_eq in S2. subst b.
      unfold tdot_mask1. rewrite K1. destruct (t_kind t2); [| | |discriminate S1]; apply attach_left; assumption.
  - clear SY D L LL. unfold supported in SU. destruct (t_kind t1) as [| | |proj1] eqn:K1.
    + destruct (t_kind t2) as [| | |proj2] eqn:K2; unfold is_mask, is_identity, is_diagonal in SU; rewrite K1, K2 in SU.
      * unfold tdot_mask1, tdot_mask2, tdot_id1, tdot_id2, tdot_diag1, tdot_diag2. rewrite K1, K2. cbn [orelse]. apply tdot_sym_ok; [assumption|assumption|reflexivity].
      * unfold tdot_mask1, tdot_mask2, tdot_id1, tdot_id2, tdot_diag1, tdot_diag2. rewrite K1, K2. cbn [orelse]. assert (N2 : num_legs t2 = 2) by (apply T2; discriminate). rewrite N2 in P2. destruct (open_two N2 P2) as (O & -> & B).
        apply trace_right; try assumption; [now left|reflexivity|reflexivity].
      * unfold tdot_mask1, tdot_mask2, tdot_id1, tdot_id2, tdot_diag1, tdot_diag2. rewrite K1, K2. cbn [orelse]. assert (N2 : num_legs t2 = 2) by (apply T2; discriminate). rewrite N2 in P2. destruct (open_two N2 P2) as (O & -> & B).
        apply trace_right; try assumption; [right; now apply Nat.ltb_lt|reflexivity|reflexivity].
      * assert (N2 : num_legs t2 = 2) by (apply T2; discriminate). assert (X := @mask_right t1 t2 proj2 a a' b b' K2 N2 P1 P2). unfold tdot_mask1, tdot_mask2 in *. rewrite K1, K2 in *. cbv zeta in *. destruct (b =? _); exact X.
    + destruct (t_kind t2) as [| | |proj2] eqn:K2; unfold is_mask, is_identity, is_diagonal in SU; rewrite K1, K2 in SU.
      * unfold tdot_mask1, tdot_mask2, tdot_id1, tdot_id2, tdot_diag1, tdot_diag2. rewrite K1, K2. cbn [orelse]. assert (N1 : num_legs t1 = 2) by (apply T1; discriminate). rewrite N1 in P1. destruct (open_two N1 P1) as (O & -> & B).
        apply trace_left; try assumption; [now left|reflexivity|reflexivity].
      * unfold tdot_mask1, tdot_mask2, tdot_id1, tdot_id2, tdot_diag1, tdot_diag2. rewrite K1, K2. cbn [orelse]. assert (N1 : num_legs t1 = 2) by (apply T1; discriminate). rewrite N1 in P1. destruct (open_two N1 P1) as (O & -> & B).
        apply trace_left; try assumption; [now left|reflexivity|reflexivity].
      * unfold tdot_mask1, tdot_mask2, tdot_id1, tdot_id2, tdot_diag1, tdot_diag2. rewrite K1, K2. cbn [orelse]. assert (N2 : num_legs t2 = 2) by (apply T2; discriminate). rewrite N2 in P2. destruct (open_two N2 P2) as (O & -> & B).
        apply trace_right; try assumption; [right; now apply Nat.ltb_lt|reflexivity|reflexivity].
      * assert (N2 : num_legs t2 = 2) by (apply T2; discriminate). assert (X := @mask_right t1 t2 proj2 a a' b b' K2 N2 P1 P2). unfold tdot_mask1, tdot_mask2 in *. rewrite K1, K2 in *. cbv zeta in *. destruct (b =? _); exact X.
    + destruct (t_kind t2) as [| | |proj2] eqn:K2; unfold is_mask, is_identity in SU; rewrite K1, K2 in SU;
        [unfold tdot_mask1, tdot_mask2, tdot_id1, tdot_id2, tdot_diag1, tdot_diag2; rewrite K1, K2; cbn [orelse]; assert (N1 : num_legs t1 = 2) by (apply T1; discriminate); rewrite N1 in P1; destruct (open_two N1 P1) as (O & -> & B);
         apply trace_left; try assumption; [right; now apply Nat.ltb_lt|reflexivity|reflexivity] ..|].
      assert (N2 : num_legs t2 = 2) by (apply T2; discriminate). assert (X := @mask_right t1 t2 proj2 a a' b b' K2 N2 P1 P2). unfold tdot_mask1, tdot_mask2 in *. rewrite K1, K2 in *. cbv zeta in *. destruct (b =? _); exact X.
    + assert (N1 : num_legs t1 = 2) by (apply T1; discriminate). unfold is_mask at 1 in SU. rewrite K1 in SU. apply negb_true_iff in SU.
      assert (X := @mask_left t1 t2 proj1 a a' b b' K1 SU N1 P1 P2). unfold tdot_mask1 in *. rewrite K1 in *. unfold is_mask in SU. rewrite SU in *. cbv zeta in *. destruct (a =? _); exact X.
  - unfold tdot_mask1, tdot_mask2, tdot_id1, tdot_id2, tdot_diag1, tdot_diag2. destruct (t_kind t1), (t_kind t2); exact SY.
Qed.
End Tdot.
