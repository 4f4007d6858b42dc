(** AbelianLegPipe: block_ind_map and the dual pipe. *)
From Verif Require Import Util StableSort RowModel RowProofs GridModel GridProofs SymModel SymProofs SpaceModel SpaceSpec SpaceProofs SpaceProofs2 SpaceProofs3 PipeModel PipeProofs PipeProofs2.
Set Implicit Arguments. Unset Strict Implicit.
Open Scope nat_scope.

(** * dual of an elementary space *)
Section Dual.
  Variable S : symm.
  Hypothesis SO : symm_ok S.
  Lemma dual_decomp E : es_ok S E -> es_decomp S (dual_es E) = dual_sectors S (es_decomp S E).
  Proof.
    intros OK. unfold es_decomp, es_space, dual_es. cbn [es_dual es_def sp_secs]. destruct (es_dual E); cbn [negb]; [|reflexivity].
    unfold dual_sectors. rewrite map_map. rewrite <- (map_id (es_def E)) at 1. apply map_ext_in. intros s Hs. symmetry. apply (so_dual_invol SO), (ok_valid OK), Hs.
  Qed.
  Lemma dual_dim E : es_ok S E -> es_dim S (dual_es E) = es_dim S E.
  Proof.
    intros OK. rewrite !es_dim_states by apply (ok_len OK). change (es_mults (dual_es E)) with (es_mults E).
    unfold es_decomp, es_space. cbn [sp_secs]. rewrite !states_dual_length; auto; apply (ok_valid OK).
  Qed.
  Lemma dual_ok E : es_ok S E -> es_ok S (dual_es E).
  Proof.
    intros OK. constructor; cbn [dual_es es_def es_mults es_perm]; [apply (ok_valid OK) | apply (ok_sorted OK) | apply (ok_len OK) | apply (ok_pos OK)|].
    intros p Ep. fold (dual_es E). rewrite dual_dim by exact OK. apply (ok_perm OK Ep).
  Qed.
  Lemma dual_bperm E : es_ok S E -> basis_perm S (dual_es E) = basis_perm S E.
  Proof. intros OK. unfold basis_perm. now rewrite dual_dim. Qed.
End Dual.

(** * reversal *)
Lemma make_grid_rev shape c : make_grid (rev shape) (negb c) = map (@rev nat) (make_grid shape c).
Proof.
  destruct c; cbn [negb make_grid].
  - now rewrite rev_involutive.
  - rewrite map_map. rewrite <- map_id at 1. apply map_ext. intros r. symmetry. apply rev_involutive.
Qed.
Lemma flat_index_rev shape c r : flat_index (rev shape) (negb c) (rev r) = flat_index shape c r.
Proof. destruct c; cbn [negb flat_index]; auto. now rewrite !rev_involutive. Qed.
Lemma shp_rev mss idx : length idx = length mss -> shp (rev mss) (rev idx) = rev (shp mss idx).
Proof. intros H. rewrite !shp_zipw. now apply zipw_rev. Qed.
Lemma locs_rev mss idx r : length idx = length mss -> length r = length mss -> locs (rev mss) (rev idx) (rev r) = rev (locs mss idx r).
Proof.
  intros H H'. rewrite <- !zipw_locs. rewrite zipw_rev by exact H.
  assert (L : length (zipw (fun ms i => nsum (firstn i ms)) mss idx) = length mss) by now apply zipw_length.
  assert (CR : forall A B (l : list A) (m : list B), length l = length m -> combine (rev l) (rev m) = rev (combine l m)).
  { clear. intros A B l. induction l as [|a l IH]; intros [|b m] E; try discriminate; auto. cbn [rev combine]. cbn in E.
    rewrite combine_app' by (rewrite !rev_length; lia). rewrite IH by lia. reflexivity. }
  rewrite CR by exact L. rewrite zipw_rev; [reflexivity|]. rewrite combine_length, L. lia.
Qed.

Section DualPipe.
  Variable S : symm.
  Variable fuse : sector -> sector -> sector.
  Hypothesis G : abelian_group_laws S fuse.
  Hypothesis HA : s_abelian S = true.
  Hypothesis HD : s_drop S = true.
  Variable legs : list espace.
  Hypothesis HN : legs <> [].
  Hypothesis OK : forall L, In L legs -> es_ok S L.
  Variables (d c : bool).
  Let legs' := map dual_es (rev legs).
  Let SO : symm_ok S := p_SO G.

  Lemma dl_ok L : In L legs' -> es_ok S L.
  Proof. intros H. apply in_map_iff in H. destruct H as (M & <- & HM). apply dual_ok; auto. apply OK. now apply in_rev. Qed.
  Lemma dl_ne : legs' <> [].
  Proof. intros E. apply HN. apply length_zero_iff_nil. apply (f_equal (@length _)) in E. unfold legs' in E. rewrite map_length, rev_length in E. exact E. Qed.
  Lemma dl_mss : pmss legs' = rev (pmss legs).
  Proof. unfold pmss, legs'. rewrite map_map. now rewrite map_rev. Qed.
  Lemma dl_nums : leg_nums legs' = rev (leg_nums legs).
  Proof. unfold leg_nums, legs'. rewrite map_map. now rewrite map_rev. Qed.
  Lemma dl_dims : pdims S legs' = rev (pdims S legs).
  Proof. unfold pdims, legs'. rewrite map_map, <- map_rev. apply map_ext_in. intros L H. apply dual_dim; auto. apply OK. now apply in_rev. Qed.
  Lemma dl_grid : pgrid legs' (negb c) = map (@rev nat) (pgrid legs c).
  Proof. unfold pgrid. rewrite dl_nums. apply make_grid_rev. Qed.
  Lemma dl_sec idx : In idx (pgrid legs c) -> psec S legs' (rev idx) = rev (map (sym_dual S) (psec S legs idx)).
  Proof.
    intros H. assert (L := pgrid_len OK H). apply (pgrid_In OK) in H. unfold psec, legs'. rewrite zipw_map, zipw_rev by exact L. f_equal. rewrite map_zipw.
    unfold pmss in H. revert idx L H OK. clear HN legs'. induction legs as [|M l IH]; intros [|i idx] L V O; try discriminate; cbn [zipw]; auto. inversion V; subst. f_equal.
    - assert (OM := O M ltac:(cbn; auto)). rewrite dual_decomp; auto. unfold dual_sectors.
      apply nth_map_lt. rewrite ok_decomp_len, <- (ok_len OM). assumption.
    - apply IH; auto. intros; apply O; cbn; auto.
  Qed.
  Lemma dl_fused : pfused S fuse legs' (negb c) = dual_sectors S (pfused S fuse legs c).
  Proof.
    unfold pfused, dual_sectors. rewrite dl_grid, !map_map. apply map_ext_in. intros idx H. rewrite dl_sec by exact H.
    assert (F := psec_valid G OK H). rewrite <- (fuse_all_dual G) by exact F. apply (fuse_all_rev G).
    apply Forall_forall. intros x Hx. apply in_map_iff in Hx. destruct Hx as (y & <- & Hy). rewrite Forall_forall in F. now apply (ag_dual_valid G), F.
  Qed.
  Lemma dl_sectors : psectors S fuse legs' (negb d) (negb c) = psectors S fuse legs d c.
  Proof.
    unfold psectors. rewrite dl_fused. destruct d; cbn [negb]; auto. unfold dual_sectors. rewrite map_map. rewrite <- map_id. apply map_ext_in.
    intros s Hs. apply (ag_dual_invol G). exact (pfused_valid G OK Hs).
  Qed.
  Lemma dl_M : pM legs' (negb c) = pM legs c.
  Proof.
    unfold pM. rewrite dl_grid, map_map, dl_mss. apply map_ext_in. intros idx H. rewrite shp_rev, prod_rev; auto. rewrite (pgrid_len OK H). symmetry. apply pmss_length.
  Qed.
  Lemma dl_chunk idx : In idx (pgrid legs c) -> pchunk S legs' (negb c) (rev idx) = pchunk S legs c idx.
  Proof.
    intros H. assert (L := pgrid_len OK H). assert (LM := pmss_length legs). unfold pchunk, block_locs. rewrite dl_mss, shp_rev by congruence.
    rewrite make_grid_rev, !map_map. apply map_ext_in. intros r Hr. apply make_grid_In in Hr. assert (V := proj1 (pgrid_In OK c idx) H).
    assert (Lr : length r = length (pmss legs)) by (rewrite (valid_length Hr); now apply shp_length).
    rewrite locs_rev by congruence. rewrite dl_dims.
    assert (LV : length (locs (pmss legs) idx r) = length legs) by (rewrite locs_length; auto).
    assert (EP : ppl S legs' (rev (locs (pmss legs) idx r)) = rev (ppl S legs (locs (pmss legs) idx r))).
    { unfold ppl, legs'. rewrite zipw_map, zipw_rev by exact LV. f_equal. apply zipw_ext. intros a i Ha. rewrite dual_bperm; auto. }
    rewrite EP. apply flat_index_rev.
  Qed.
  Lemma dl_p0 : pp0 S legs' (negb c) = pp0 S legs c.
  Proof. unfold pp0. rewrite dl_grid, flat_map_map'. apply flat_map_ext_in. intros idx H. now apply dl_chunk. Qed.
  Lemma dl_E : pE S fuse legs' (negb d) (negb c) = dual_es (pE S fuse legs d c).
  Proof. unfold pE. rewrite dl_sectors, dl_M, dl_p0. reflexivity. Qed.
End DualPipe.

(** * block_ind_map *)
Section Bim.
  Variable S : symm.
  Variable fuse : sector -> sector -> sector.
  Hypothesis G : abelian_group_laws S fuse.
  Hypothesis HA : s_abelian S = true.
  Hypothesis HD : s_drop S = true.
  Variable legs : list espace.
  Hypothesis HN : legs <> [].
  Hypothesis OK : forall L, In L legs -> es_ok S L.
  Variables (d c : bool).
  Notation E := (pE S fuse legs d c).
  Notation bim := (pbim S fuse legs d c).
  Notation diffs := (pdiffs S fuse legs d c).
  Notation sm := (psm S fuse legs d c).
  Lemma bim_idx_perm : Permutation (map bim_idx bim) (make_grid (leg_nums legs) c).
  Proof.
    unfold pbim. rewrite map_map. cbn [prow bim_idx]. rewrite <- (psgrid_length S fuse legs d c).
    assert (X := map_nth_seq [] (psgrid S fuse legs d c)). cbv beta in X.
    change (fun m : nat => bim_idx (prow S fuse legs d c m)) with (fun m => nth m (psgrid S fuse legs d c) []). rewrite X.
    apply take_Permutation. apply psort_perm.
  Qed.
  Lemma bim_nth m x : m < length bim -> nth m bim x = prow S fuse legs d c m.
  Proof. unfold pbim. rewrite map_length, seq_length. intros H. rewrite nth_map_lt with (d := 0) by now rewrite seq_length. now rewrite seq_nth. Qed.
  Lemma bim_length : length bim = prod (leg_nums legs).
  Proof. unfold pbim. rewrite map_length, seq_length. apply pgrid_length. Qed.
  Lemma E_def : es_def E = map (fun k => nth k (take [] (psectors S fuse legs d c) (psort S fuse legs d c)) []) (removelast diffs).
  Proof. rewrite (pE_eq G HA HD OK). reflexivity. Qed.
  Lemma E_mults : es_mults E = pumults S fuse legs d c.
  Proof. rewrite (pE_eq G HA HD OK). reflexivity. Qed.
  Lemma E_num : length (es_def E) = length diffs - 1.
  Proof. rewrite <- (ok_len (pE_ok G HD OK d c)). rewrite E_mults. unfold pumults. now rewrite map_length, seq_length. Qed.
  Lemma sm_pos m : m < length (pgrid legs c) -> 0 < nth m sm 0.
  Proof.
    intros H. apply (pM_pos (c := c) OK). eapply Permutation_in; [|apply nth_In; rewrite psm_length; exact H].
    apply take_Permutation. rewrite (pM_length S fuse legs d c), psectors_length. apply psort_perm.
  Qed.
  (** rows diffs[J] .. diffs[J+1]-1 belong to J *)
  Lemma group_unique m J : J + 1 < length diffs -> nth J diffs 0 <= m < nth (J + 1) diffs 0 -> group_of diffs m = J.
  Proof.
    intros HJ HM. assert (Hm : m < length (pgrid legs c)). { assert (X := @pdiffs_le S fuse legs d c (nth (J + 1) diffs 0) ltac:(apply nth_In; lia)). lia. }
    destruct (pgroup S fuse d Hm) as [A B]. set (K := group_of diffs m) in *.
    assert (SS := proj1 (StronglySorted_nth lt 0 diffs) (pdiffs_sorted S fuse legs d c)).
    destruct (Nat.lt_trichotomy K J) as [LT|[EQ|GT]]; auto; exfalso.
    - destruct (Nat.eq_dec (K + 1) J) as [<-|NE]; [lia|]. assert (X := SS (K + 1) J ltac:(lia)). lia.
    - destruct (Nat.eq_dec (J + 1) K) as [<-|NE]; [lia|]. assert (X := SS (J + 1) K ltac:(lia)). lia.
  Qed.
  Lemma slice_rel m J : J + 1 < length diffs -> nth J diffs 0 <= m <= nth (J + 1) diffs 0 ->
    nth m (pslices S fuse legs d c) 0 - nth J (pstarts S fuse legs d c) 0 = nsum (firstn m sm) - nsum (firstn (nth J diffs 0) sm) /\
    nsum (firstn (nth J diffs 0) sm) <= nsum (firstn m sm) /\ m <= length (pgrid legs c).
  Proof.
    intros HJ HM. assert (X := @pdiffs_le S fuse legs d c (nth (J + 1) diffs 0) ltac:(apply nth_In; lia)).
    rewrite pslices_nth by lia. rewrite pstarts_nth by lia. split; [reflexivity|]. split; [|lia]. apply nsum_firstn_mono. lia.
  Qed.
  Lemma mult_J J : J + 1 < length diffs -> nth J (es_mults E) 0 = nsum (firstn (nth (J + 1) diffs 0) sm) - nsum (firstn (nth J diffs 0) sm).
  Proof.
    intros HJ. rewrite E_mults. unfold pumults. rewrite nth_map_lt with (d := 0) by (rewrite seq_length; lia). rewrite seq_nth by lia. cbn [Nat.add].
    now rewrite !pstarts_nth by lia.
  Qed.

  Lemma row_sector m : m < length (pgrid legs c) -> nth (group_of diffs m) (es_decomp S E) [] = fuse_all S fuse (psec S legs (nth m (psgrid S fuse legs d c) [])).
  Proof.
    intros Hm. destruct (pgroup S fuse d Hm) as [A B]. set (J := group_of diffs m) in *.
    assert (PP := psort_perm S fuse legs d c). assert (Lp := is_perm_length PP).
    set (ss := take [] (psectors S fuse legs d c) (psort S fuse legs d c)).
    assert (EJ : nth J (es_def E) [] = nth m ss []).
    { rewrite E_def. fold ss. assert (LR : length (removelast diffs) = length diffs - 1) by (clear; induction diffs as [|x [|y l] IH]; auto; cbn [removelast length] in *; lia).
      rewrite nth_map_lt with (d := 0) by lia. assert (ER : nth J (removelast diffs) 0 = nth J diffs 0).
      { rewrite removelast_firstn_len. apply nth_firstn_lt. lia. }
      rewrite ER. symmetry. apply (@frd_group_const ss (nth J diffs 0, nth (J + 1) diffs 0)).
      - change (frd row_eqb true ss) with diffs. assert (AS := adj_seq pair diffs). replace (map (fun p => (fst p, snd p)) (adj diffs)) with (adj diffs) in AS by (rewrite <- map_id at 1; apply map_ext; intros []; reflexivity).
        rewrite <- AS. apply in_map_iff. exists J. split; [do 2 f_equal; lia|]. apply in_seq. lia.
      - cbn [fst snd]. rewrite slice_nth_list. assert (LL : length ss = length (pgrid legs c)) by (unfold ss; now rewrite take_length).
        assert (X := @pdiffs_le S fuse legs d c (nth (J + 1) diffs 0) ltac:(apply nth_In; lia)).
        replace (nth m ss []) with (nth (m - nth J diffs 0) (firstn (nth (J + 1) diffs 0 - nth J diffs 0) (skipn (nth J diffs 0) ss)) []).
        + apply nth_In. rewrite firstn_length, skipn_length. lia.
        + rewrite nth_firstn_lt by lia. rewrite nth_skipn'. f_equal. lia. }
    assert (Em : nth m ss [] = nth (nth m (psort S fuse legs d c) 0) (psectors S fuse legs d c) []) by (unfold ss; apply nth_take; lia).
    assert (Hp := is_perm_nth_lt PP Hm). set (i := nth m (psort S fuse legs d c) 0) in *.
    assert (EG : nth m (psgrid S fuse legs d c) [] = nth i (pgrid legs c) []) by (unfold psgrid; rewrite nth_take by lia; reflexivity).
    rewrite EG. assert (EF : nth i (pfused S fuse legs c) [] = fuse_all S fuse (psec S legs (nth i (pgrid legs c) []))) by (unfold pfused; now rewrite nth_map_lt with (d := [])).
    rewrite <- EF. unfold es_decomp, es_space. cbn [sp_secs]. replace (es_dual E) with d by (symmetry; apply fds_dual).
    assert (LD : J < length (es_def E)) by (rewrite E_num; lia).
    rewrite Em in EJ. unfold psectors in EJ. destruct d.
    - unfold dual_sectors. rewrite nth_map_lt with (d := []) by exact LD. rewrite EJ. unfold dual_sectors.
      assert (LF : i < length (pfused S fuse legs c)) by (unfold pfused; now rewrite map_length).
      rewrite nth_map_lt with (d := []) by exact LF. apply (ag_dual_invol G). apply (pfused_valid G OK (c := c)). now apply nth_In.
    - exact EJ.
  Qed.
  Lemma sm_nth m : m < length (pgrid legs c) -> nth m sm 0 = prod (zipw (fun L i => nth i (es_mults L) 0) legs (nth m (psgrid S fuse legs d c) [])).
  Proof.
    intros H. rewrite psm_eq. rewrite nth_map_lt with (d := []) by now rewrite psgrid_length. rewrite pchunk_length, shp_zipw. unfold pmss. now rewrite zipw_map.
  Qed.
  Lemma row_facts m : m < length bim -> let row := nth m bim (Bim 0 0 [] 0) in
    bim_J row < length (es_def E) /\ nth (bim_J row) diffs 0 <= m < nth (bim_J row + 1) diffs 0 /\
    bim_stop row = bim_start row + prod (zipw (fun L i => nth i (es_mults L) 0) legs (bim_idx row)) /\ bim_start row < bim_stop row <= nth (bim_J row) (es_mults E) 0 /\
    nth (bim_J row) (es_decomp S E) [] = fuse_all S fuse (psec S legs (bim_idx row)) /\
    (m = nth (bim_J row) diffs 0 -> bim_start row = 0) /\ (m + 1 = nth (bim_J row + 1) diffs 0 -> bim_stop row = nth (bim_J row) (es_mults E) 0) /\
    (m + 1 < nth (bim_J row + 1) diffs 0 -> bim_J (nth (m + 1) bim (Bim 0 0 [] 0)) = bim_J row /\ bim_start (nth (m + 1) bim (Bim 0 0 [] 0)) = bim_stop row).
  Proof.
    intros Hm. cbv zeta. rewrite bim_nth by exact Hm. assert (Hm' := Hm). rewrite bim_length, <- (pgrid_length legs c) in Hm'.
    destruct (pgroup S fuse d Hm') as [A B]. cbn [prow bim_J bim_start bim_stop bim_idx]. set (J := group_of diffs m) in *.
    destruct (@slice_rel m J A ltac:(lia)) as (E1 & L1 & _). destruct (@slice_rel (m + 1) J A ltac:(lia)) as (E2 & L2 & _).
    rewrite E1, E2. rewrite <- sm_nth by exact Hm'. assert (P := sm_pos Hm'). rewrite mult_J by exact A.
    assert (ES1 : nsum (firstn (m + 1) sm) = nsum (firstn m sm) + nth m sm 0) by (replace (m + 1) with (Datatypes.S m) by lia; apply nsum_firstn_S; now rewrite psm_length).
    assert (ML := @nsum_firstn_mono sm (m + 1) (nth (J + 1) diffs 0) ltac:(lia)).
    split; [rewrite E_num; lia|]. split; [exact B|]. split; [lia|]. split; [lia|]. split; [now apply row_sector|].
    split; [intros H; rewrite <- H; lia|]. split; [intros H; rewrite <- H; lia|]. intros H.
    assert (X := @pdiffs_le S fuse legs d c (nth (J + 1) diffs 0) ltac:(apply nth_In; lia)).
    rewrite bim_nth by (rewrite bim_length, <- (pgrid_length legs c); lia). cbn [prow bim_J bim_start].
    assert (EJ : group_of diffs (m + 1) = J) by (apply group_unique; [exact A|lia]). rewrite EJ. split; [reflexivity|]. rewrite E2. lia.
  Qed.
  (** the basis state at position [k] within the slice of a row *)
  Lemma row_states m k : m < length bim -> let row := nth m bim (Bim 0 0 [] 0) in let shape := zipw (fun L i => nth i (es_mults L) 0) legs (bim_idx row) in
    k < prod shape -> nth (nsum (firstn (bim_J row) (es_mults E)) + bim_start row + k) (basis_perm S E) 0 =
      flat_index (pdims S legs) c (ppl S legs (locs (pmss legs) (bim_idx row) (grid_row k shape c))).
  Proof.
    intros Hm. cbv zeta. rewrite bim_nth by exact Hm. assert (Hm' := Hm). rewrite bim_length, <- (pgrid_length legs c) in Hm'. intros Hk.
    assert (PS := @prow_start S fuse legs d c m Hm'). destruct (pgroup S fuse d Hm') as [A B].
    rewrite boundaries_nth in PS by (unfold pumults; rewrite map_length, seq_length; cbn [prow bim_J]; lia). rewrite E_mults.
    replace (nsum (firstn (bim_J (prow S fuse legs d c m)) (pumults S fuse legs d c)) + bim_start (prow S fuse legs d c m) + k) with (nsum (firstn m sm) + k) by lia.
    unfold basis_perm. rewrite (pE_eq G HA HD OK). cbn [es_perm]. rewrite flat_map_concat_map. rewrite psm_eq.
    rewrite <- (map_map (pchunk S legs c) (@length nat)). cbn [prow bim_idx] in *. set (idx := nth m (psgrid S fuse legs d c) []) in *.
    assert (EN : nth m (map (pchunk S legs c) (psgrid S fuse legs d c)) [] = pchunk S legs c idx) by (rewrite nth_map_lt with (d := []) by (now rewrite psgrid_length); reflexivity).
    assert (ESH : shp (pmss legs) idx = zipw (fun L i => nth i (es_mults L) 0) legs idx) by (rewrite shp_zipw; unfold pmss; now rewrite zipw_map).
    rewrite nth_concat.
    - rewrite EN. unfold pchunk, block_locs. rewrite ESH. rewrite map_map. rewrite nth_map_lt with (d := []) by (rewrite make_grid_length; exact Hk).
      rewrite (proj1 (@make_grid_nth (zipw (fun L i => nth i (es_mults L) 0) legs idx) c k Hk)). reflexivity.
    - rewrite map_length, psgrid_length. exact Hm'.
    - rewrite EN, pchunk_length, ESH. exact Hk.
  Qed.
End Bim.
