(** Multiplying a leg of a tensor with a diagonal tensor (scale_axis). *)
From Coq Require Import Ring.
From Verif Require Import Util StableSort RowModel RowProofs GridModel GridProofs SymModel SymProofs CatSpec Sums SpaceModel SpaceSpec SpaceProofs SpaceProofs2 SpaceProofs3 TensorModel TensorSpec
  PipeModel PipeProofs PipeProofs2 BlockModel BlockProofs SparseModel SparseSpec SparseProofs SparseProofs3 SparseDense FtOpsModel FtOpsSpec AbDecModel AbDecSpec AbDecProofs AbDecProofs2 AbDecProofs3 AbDecProofs4 AbDiagModel AbDiagProofs AbDiagProofs2.
Set Implicit Arguments. Unset Strict Implicit.
Open Scope nat_scope.

Lemma shp_nth mss : forall b i, i < length mss -> i < length b -> nth i (shp mss b) 0 = nth (nth i b 0) (nth i mss []) 0.
Proof. induction mss as [|m mss IH]; intros [|x b] [|i] H H'; cbn in H, H'; try lia; [reflexivity|]. cbn [shp nth]. apply IH; lia. Qed.
Section Scale.
  Variable K : Type.
  Variable o : ops K.
  Hypothesis SR : semi_ring_theory (o0 o) (o1 o) (oadd o) (omul o) (@eq K).
  Add Ring Kr : SR.
  Notation adata := (list (list nat * blk K)).
  Variable S : tsymm.
  Variable fuse : sector -> sector -> sector.
  Hypothesis G : abelian_group_laws S fuse.
  Variables cod dom : list espace.
  Notation legs := (leg_order cod dom).
  Variable leg : nat.
  Hypothesis HL : leg < length legs.
  Variable L : espace.
  Hypothesis EL : nth_error legs leg = Some L.
  Variables A B : adata.
  Hypothesis TA : tensor_ok S cod dom A.
  Hypothesis OB : diag_data_ok L B.
  Definition cont (D : adata) (c : nat) : list row := map (fun e => [Z.of_nat (nth c (fst e) 0)]) D.
  Definition sortA : adata := if leg =? length legs - 1 then A else take (noentry K) A (lexsort_indices (cont A leg)).
  Lemma sortA_perm : Permutation sortA A.
  Proof. unfold sortA. destruct (leg =? length legs - 1); [reflexivity|]. apply take_Permutation. pose proof (lexsort_perm (cont A leg)) as P. unfold cont in P at 1. rewrite map_length in P. exact P. Qed.
  Lemma cont_width D c : same_width 1 (cont D c).
  Proof. apply Forall_forall. intros r I. apply in_map_iff in I. destruct I as (e & <- & _). reflexivity. Qed.
  Lemma one_lt a b : (a < b)%Z -> lex_lt [a] [b].
  Proof. intros H. split; [reflexivity|]. exists 0. cbn. split; [lia|]. split; [exact H|]. intros j Hj. lia. Qed.
  Lemma sortA_sorted : weakly_sorted (cont sortA leg).
  Proof.
    unfold sortA. destruct (Nat.eqb_spec leg (length legs - 1)) as [E|_].
    - pose proof (do_sorted (to_data TA)) as SS. assert (V : forall e, In e A -> length (fst e) = length legs) by (intros e I; rewrite (valid_length (do_valid (to_data TA) I)); apply map_length). unfold strictly_sorted, zrows in SS. unfold weakly_sorted, cont. clear TA. induction A as [|e W IH]; [constructor|].
      cbn [map] in *. apply StronglySorted_inv in SS. destruct SS as [SS FA]. constructor; [apply IH; [exact SS|intros e' I; apply V; now right]|]. rewrite Forall_forall in *. intros z Iz. apply in_map_iff in Iz. destruct Iz as (e' & <- & I).
      specialize (FA _ (in_map _ _ _ (in_map fst _ _ I))). destruct FA as (_ & k & Hk & Lk & EK). rewrite map_length, (V e (or_introl eq_refl)) in Hk. 
      assert (NM : forall (r : list nat), nth leg (map Z.of_nat r) 0%Z = Z.of_nat (nth leg r 0)) by (intros r; change 0%Z with (Z.of_nat 0); apply map_nth).
      destruct (Nat.eq_dec k leg) as [ -> |NE]; [left; apply one_lt; now rewrite <- !NM|].
      right. f_equal. rewrite <- !NM. apply EK. rewrite map_length, (V e (or_introl eq_refl)). lia.
    - replace (cont (take (noentry K) A (lexsort_indices (cont A leg))) leg) with (take [] (cont A leg) (lexsort_indices (cont A leg))); [unfold take; apply StronglySorted_map; eapply StronglySorted_impl; [|apply (lexsort_sorted (w := 1)), cont_width]; intros i j _ _ [H|[H _]]; [now left|now right]|].
      unfold take. unfold cont at 3. rewrite map_map. apply map_ext_in. intros i Ii. unfold cont at 1. pose proof (is_perm_In i (lexsort_perm (cont A leg))) as PI. apply PI in Ii. unfold cont in Ii. rewrite map_length in Ii. now rewrite nth_map_lt with (d := noentry K) by exact Ii.
  Qed.
  Lemma contB_sorted : strictly_sorted (cont B 0).
  Proof.
    destruct (dd_from OB) as [SS _]. unfold strictly_sorted, cont. clear OB. induction B as [|e W IH]; [constructor|]. cbn [map] in *. apply StronglySorted_inv in SS. destruct SS as [SS FA]. constructor; [now apply IH|]. rewrite Forall_forall in *. intros z Iz. apply in_map_iff in Iz. destruct Iz as (e' & <- & I).
    specialize (FA _ (in_map _ _ _ I)). apply one_lt. unfold dcol in FA. lia.
  Qed.
  Definition raw : adata := map (fun ij => let e := nth (fst ij) sortA (noentry K) in (fst e, bscale_axis o (snd e) (snd (nth (snd ij) B (noentry K))) leg)) (common_walk false true 0 (cont sortA leg) 0 (cont B 0)).
  Lemma scale_raw : scale_axis o A B leg (length legs) = make_data raw false.
  Proof. reflexivity. Qed.
  Lemma raw_In e : In e raw <-> exists a Y, In a A /\ dg B (nth leg (fst a) 0) = Some Y /\ e = (fst a, bscale_axis o (snd a) Y leg).
  Proof.
    unfold raw. pose proof (common_walk_spec (w := 1) (sa := false) (sb := true) (or_intror eq_refl)) as CW. specialize (CW (cont sortA leg) 0 (cont B 0) 0 (cont_width _ _) (cont_width _ _) sortA_sorted (strictly_weakly contB_sorted)). destruct CW as [CW _]; [discriminate|intros _; exact contB_sorted|].
    assert (LA : length (cont sortA leg) = length sortA) by apply map_length. assert (LB : length (cont B 0) = length B) by apply map_length.
    rewrite in_map_iff. split.
    - intros ([p q] & <- & I). apply CW in I. destruct I as (Hp & Hq & E). rewrite LA in Hp. rewrite LB in Hq. rewrite !Nat.sub_0_r in E. unfold cont in E. rewrite nth_map_lt with (d := noentry K) in E by lia. rewrite nth_map_lt with (d := noentry K) in E by lia. cbn [fst snd].
      exists (nth p sortA (noentry K)), (snd (nth q B (noentry K))). split; [apply (Permutation_in _ sortA_perm); apply nth_In; lia|]. split; [|reflexivity].
      assert (IB : In (nth q B (noentry K)) B) by (apply nth_In; lia). injection E as E. apply Nat2Z.inj in E. rewrite E. apply (dg_In _ _ (dd_from OB)). destruct (proj2 (dd_from OB) _ IB) as [RB _]. unfold dcol in RB. rewrite <- RB. now destruct (nth q B (noentry K)).
    - intros (a & Y & Ia & DY & ->). apply (Permutation_in _ (Permutation_sym sortA_perm)) in Ia. destruct (In_nth _ _ (noentry K) Ia) as (p & Hp & Ep). apply (dg_In _ _ (dd_from OB)) in DY. destruct (In_nth _ _ (noentry K) DY) as (q & Hq & Eq). exists (p, q). cbn [fst snd]. rewrite Ep, Eq. cbn [snd]. split; [reflexivity|].
      apply CW. rewrite LA, LB, !Nat.sub_0_r. split; [lia|]. split; [lia|]. unfold cont. rewrite nth_map_lt with (d := noentry K) by lia. rewrite nth_map_lt with (d := noentry K) by lia. rewrite Ep, Eq. reflexivity.
  Qed.
  Lemma raw_NoDup : NoDup (map fst raw).
  Proof.
    unfold raw. rewrite map_map. cbn [fst]. pose proof (common_walk_spec (w := 1) (sa := false) (sb := true) (or_intror eq_refl)) as CW. specialize (CW (cont sortA leg) 0 (cont B 0) 0 (cont_width _ _) (cont_width _ _) sortA_sorted (strictly_weakly contB_sorted)). destruct CW as [CW ND]; [discriminate|intros _; exact contB_sorted|].
    assert (LA : length (cont sortA leg) = length sortA) by apply map_length. assert (LB : length (cont B 0) = length B) by apply map_length.
    assert (NA : NoDup (map fst sortA)) by (eapply Permutation_NoDup; [apply Permutation_map, Permutation_sym, sortA_perm|exact (data_ok_NoDup (to_data TA))]).
    apply NoDup_map_inj; [|exact ND]. intros [p q] [p' q'] I I' E. cbn [fst] in E. apply CW in I, I'. rewrite LA, LB, !Nat.sub_0_r in *. destruct I as (Hp & Hq & E1). destruct I' as (Hp' & Hq' & E2).
    assert (p = p'). { assert (X : forall i, i < length sortA -> nth i (map fst sortA) [] = fst (nth i sortA (noentry K))) by (intros i Hi; now rewrite nth_map_lt with (d := noentry K)). apply (proj1 (NoDup_nth (map fst sortA) []) NA); [rewrite map_length; lia|rewrite map_length; lia|]. now rewrite !X by lia. }
    subst p'. f_equal. assert (NB : NoDup (cont B 0)) by (apply StronglySorted_NoDup with (R := lex_lt); [exact lex_lt_irrefl|exact contB_sorted]). apply (proj1 (NoDup_nth (cont B 0) []) NB); [rewrite LB; lia|rewrite LB; lia|]. congruence.
  Qed.
  Lemma raw_ok : tensor_ok S cod dom (make_data raw false).
  Proof.
    constructor; [exact (to_legs TA)| |].
    - apply data_ok_make; [exact raw_NoDup|]. intros e I. apply raw_In in I. destruct I as (a & Y & Ia & _ & ->). cbn [fst snd]. split; [exact (do_valid (to_data TA) Ia)|]. split; [exact (do_shape (to_data TA) Ia)|apply bmk_wf].
    - intros e I. apply make_data_In, raw_In in I. destruct I as (a & Y & Ia & _ & ->). cbn [fst]. exact (to_charge TA Ia).
  Qed.
  Lemma raw_sval b q : valid_idx (map nsec legs) b -> valid_idx (shp (mults legs) b) q -> sval o (make_data raw false) b q = omul o (sval o A b q) (sval o B [nth leg b 0; nth leg b 0] [nth leg q 0]).
  Proof.
    intros Vb Vq. assert (NR : NoDup (map fst (make_data raw false))) by exact (data_ok_NoDup (to_data raw_ok)). rewrite (dg_sval o (nth leg b 0) [nth leg q 0] (dd_from OB)).
    destruct (in_dec (list_eq_dec Nat.eq_dec) b (map fst A)) as [Ib|Nb].
    - apply in_map_iff in Ib. destruct Ib as ([b' X] & E & I). cbn [fst] in E. subst b'. rewrite (sval_in o q (data_ok_NoDup (to_data TA)) I). destruct (dg B (nth leg b 0)) as [Y|] eqn:DY.
      + assert (IR : In (b, bscale_axis o X Y leg) (make_data raw false)) by (apply make_data_In, raw_In; exists (b, X), Y; split; [exact I|split; [exact DY|reflexivity]]). rewrite (sval_in o q NR IR). unfold bscale_axis. rewrite bat_bmk; [reflexivity|]. pose proof (do_shape (to_data TA) I) as SH. cbn [fst snd] in SH. now rewrite SH.
      + rewrite sval_notin; [ring|]. intros J. apply in_map_iff in J. destruct J as (e & E & J). apply make_data_In, raw_In in J. destruct J as (a & Y & _ & DY' & ->). cbn [fst] in E. rewrite E in DY'. congruence.
    - rewrite (sval_notin o q Nb), sval_notin; [ring|]. intros J. apply in_map_iff in J. destruct J as (e & E & J). apply make_data_In, raw_In in J. destruct J as (a & Y & Ia & _ & ->). cbn [fst] in E. apply Nb. rewrite <- E. now apply in_map.
  Qed.
  Theorem scale_axis_ok : tensor_ok S cod dom (scale_axis o A B leg (length legs)) /\
    forall g, dense_idx S legs g -> entry o S cod dom (scale_axis o A B leg (length legs)) g = omul o (entry o S cod dom A g) (nth (nth leg g 0) (vec_list o S L B) (o0 o)).
  Proof.
    rewrite scale_raw. split; [exact raw_ok|]. intros g Hg. destruct (locate G (to_legs TA) Hg) as (b & q & Vb & Vq & ->). rewrite (entry_locs o G raw_ok Vb Vq), (entry_locs o G TA Vb Vq), raw_sval by assumption. f_equal.
    assert (OL : es_ok S L) by (apply (to_legs TA); exact (nth_error_In _ _ EL)). assert (NL : nth leg (mults legs) [] = es_mults L) by (unfold mults; rewrite nth_map_lt with (d := L) by exact HL; now rewrite (nth_error_nth _ _ L EL)).
    assert (Hb : nth leg b 0 < nsec L). { assert (X : nth leg b 0 < nth leg (map nsec legs) 0) by (apply (proj2 (proj1 (valid_nth _ _) Vb)); now rewrite map_length). rewrite nth_map_lt with (d := L) in X by exact HL. rewrite (nth_error_nth _ _ L EL) in X. exact X. }
    assert (SHP : nth leg (shp (mults legs) b) 0 = nth (nth leg b 0) (es_mults L) 0).
    { rewrite shp_nth by (unfold mults; now rewrite ?map_length, ?(valid_length Vb), ?map_length). now rewrite NL. }
    assert (Hq : nth leg q 0 < nth (nth leg b 0) (es_mults L) 0). { rewrite <- SHP. apply (proj2 (proj1 (valid_nth _ _) Vq)). rewrite shp_len; [unfold mults; now rewrite map_length|now apply row_len]. }
    rewrite <- (vec_nth o G OL OB Hb Hq). f_equal. unfold pos. rewrite (locs_nth (row_len Vb) (pos_len Vb Vq)) by (unfold mults; now rewrite map_length). now rewrite NL.
  Qed.
End Scale.
