(** AbelianLegPipe: the public basis of the fused leg. *)
From Verif Require Import Util StableSort RowModel RowProofs GridModel GridProofs SymModel SymProofs SpaceModel SpaceSpec SpaceProofs SpaceProofs2 SpaceProofs3 PipeModel PipeProofs.
Set Implicit Arguments. Unset Strict Implicit.
Open Scope nat_scope.

Lemma valid_idx_nth shape r n : valid_idx shape r -> n < length shape -> nth n r 0 < nth n shape 0.
Proof.
  intros V. revert n. induction V as [|x y l l' H V IH]; intros n Hn; [cbn in Hn; lia|]. destruct n as [|n]; cbn [nth]; auto. apply IH. cbn in Hn; lia.
Qed.
Lemma valid_zipw A (f : A -> nat -> nat) (l : list A) (h : A -> nat) : forall r, valid_idx (map h l) r -> (forall a i, In a l -> i < h a -> f a i < h a) -> valid_idx (map h l) (zipw f l r).
Proof.
  induction l as [|a l IH]; intros r V H; inversion V; subst; cbn [map zipw]; constructor.
  - apply H; cbn; auto.
  - apply IH; auto. intros; apply H; cbn; auto.
Qed.

Section Pipe.
  Variable S : symm.
  Variable fuse : sector -> sector -> sector.
  Hypothesis G : abelian_group_laws S fuse.
  Hypothesis HA : s_abelian S = true.
  Hypothesis HD : s_drop S = true.
  Variable legs : list espace.
  Hypothesis HN : legs <> [].
  Hypothesis OK : forall L, In L legs -> es_ok S L.
  Variables (d c : bool).

  Definition pmss : list (list nat) := map es_mults legs.
  Definition pdims : list nat := map (es_dim S) legs.
  Definition pgrid : list (list nat) := make_grid (leg_nums legs) c.
  Definition psec (idx : list nat) : list sector := zipw (fun L i => nth i (es_decomp S L) []) legs idx.
  Definition pfused : list sector := map (fun idx => fuse_all S fuse (psec idx)) pgrid.
  Definition pM : list nat := map (fun idx => prod (shp pmss idx)) pgrid.
  Definition ppl (j : list nat) : list nat := zipw (fun L i => nth i (basis_perm S L) 0) legs j.
  Definition pchunk (idx : list nat) : list nat := map (fun j => flat_index pdims c (ppl j)) (block_locs c pmss idx).
  Definition pp0 : list nat := flat_map pchunk pgrid.
  Definition psectors : list sector := if d then dual_sectors S pfused else pfused.
  Definition psort : list nat := lexsort_indices psectors.
  Definition psgrid : list (list nat) := take [] pgrid psort.

  Lemma p_SO : symm_ok S.
  Proof. exact (ag_symm_ok G). Qed.
  Lemma num_states_one secs mults : length mults = length secs -> num_states S secs mults = mults.
  Proof.
    intros L. rewrite num_states_eq by exact L. apply list_eq_nth with (d := 0); rewrite map_length, combine_length; [lia|]. intros i Hi.
    rewrite nth_map_lt with (d := ([], 0)) by (rewrite combine_length; lia). rewrite combine_nth_lt with (x := []) (y := 0) by lia. unfold nstate; cbn [fst snd]. rewrite (ag_dim G). lia.
  Qed.
  Lemma p_dim_one L : es_ok S L -> es_dim S L = nsum (es_mults L).
  Proof. intros O. unfold es_dim, sp_dim, es_space. cbn [sp_secs sp_mults]. rewrite num_states_one; auto. rewrite (ok_len O). destruct (es_dual L); auto. unfold dual_sectors. now rewrite map_length. Qed.
  Lemma pmss_nums : map (@length nat) pmss = leg_nums legs.
  Proof. unfold pmss, leg_nums. rewrite map_map. apply map_ext_in. intros L HL. apply (ok_len (OK HL)). Qed.
  Lemma pmss_dims : map nsum pmss = pdims.
  Proof. unfold pmss, pdims. rewrite map_map. apply map_ext_in. intros L HL. symmetry. now apply p_dim_one, OK. Qed.
  Lemma pgrid_In idx : In idx pgrid <-> valid_idx (map (@length nat) pmss) idx.
  Proof. unfold pgrid. rewrite make_grid_In, pmss_nums. tauto. Qed.
  Lemma leg_nums_length : length (leg_nums legs) = length legs.
  Proof. unfold leg_nums. apply map_length. Qed.
  Lemma pdims_length : length pdims = length legs.
  Proof. apply map_length. Qed.
  Lemma pmss_length : length pmss = length legs.
  Proof. apply map_length. Qed.
  Lemma pgrid_len idx : In idx pgrid -> length idx = length legs.
  Proof. intros H. apply pgrid_In, valid_length in H. rewrite map_length, pmss_length in H. exact H. Qed.
  Lemma psec_valid idx : In idx pgrid -> Forall (fun a => sym_valid S a = true) (psec idx).
  Proof.
    intros H. apply pgrid_In in H. unfold psec. unfold pmss in H. revert idx H. revert OK. clear HN. induction legs as [|L l IH]; intros O idx V; inversion V; subst; cbn [zipw]; constructor.
    - apply (ok_decomp_valid p_SO (O L ltac:(cbn; auto))). apply nth_In. rewrite ok_decomp_len. rewrite <- (ok_len (O L ltac:(cbn; auto))). assumption.
    - apply IH; auto. intros; apply O; cbn; auto.
  Qed.
  Lemma pfused_valid s : In s pfused -> sym_valid S s = true.
  Proof. intros H. apply in_map_iff in H. destruct H as (idx & <- & Hi). apply (fuse_all_valid G). now apply psec_valid. Qed.
  Lemma psectors_valid s : In s psectors -> sym_valid S s = true.
  Proof. unfold psectors. destruct d; [|apply pfused_valid]. intros H. apply in_map_iff in H. destruct H as (t & <- & Ht). now apply (ag_dual_valid G), pfused_valid. Qed.
  Lemma pgrid_length : length pgrid = prod (leg_nums legs).
  Proof. apply make_grid_length. Qed.
  Lemma psectors_length : length psectors = length pgrid.
  Proof. unfold psectors, pfused, dual_sectors. destruct d; now rewrite !map_length. Qed.
  Lemma pM_length : length pM = length psectors.
  Proof. rewrite psectors_length. apply map_length. Qed.
  Lemma pchunk_length idx : length (pchunk idx) = prod (shp pmss idx).
  Proof. unfold pchunk. now rewrite map_length, block_locs_length. Qed.
  Lemma psort_perm : is_perm (length pgrid) psort.
  Proof. rewrite <- psectors_length. apply lexsort_perm. Qed.
  Lemma psgrid_In idx : In idx psgrid <-> In idx pgrid.
  Proof. assert (P : Permutation psgrid pgrid) by (apply take_Permutation, psort_perm). split; intros H; [eapply Permutation_in; [exact P|exact H]|eapply Permutation_in; [symmetry; exact P|exact H]]. Qed.

  Lemma ppl_valid j : valid_idx pdims j -> valid_idx pdims (ppl j).
  Proof.
    intros V. unfold ppl, pdims in *. apply valid_zipw; auto. intros L i HL Hi. apply (is_perm_nth_lt (ok_bperm (OK HL)) Hi).
  Qed.
  Lemma ppl_inj j j' : valid_idx pdims j -> valid_idx pdims j' -> ppl j = ppl j' -> j = j'.
  Proof.
    unfold ppl, pdims. revert j j' OK. clear HN. induction legs as [|L l IH]; intros j j' O V V' E; inversion V; inversion V'; subst; auto.
    cbn [zipw] in E. assert (E1 := f_equal (hd 0) E). assert (E2 := f_equal (@tl nat) E). cbn [hd tl] in E1, E2. f_equal.
    - eapply is_perm_nth_inj; [apply (ok_bperm (O L ltac:(cbn; auto)))|assumption|assumption|exact E1].
    - eapply IH; eauto. intros; apply O; cbn; auto.
  Qed.
  Lemma ppl_surj r : valid_idx pdims r -> exists j, valid_idx pdims j /\ ppl j = r.
  Proof.
    unfold ppl, pdims. revert r OK. clear HN. induction legs as [|L l IH]; intros r O V; inversion V as [|x y t t' Hx Ht]; subst.
    - exists []. split; [constructor|reflexivity].
    - destruct (is_perm_surj (ok_bperm (O L ltac:(cbn; auto))) Hx) as (i & Hi & E). destruct (IH t ltac:(intros; apply O; cbn; auto) Ht) as (j & Vj & Ej).
      exists (i :: j). split; [constructor; auto|]. cbn [zipw]. congruence.
  Qed.

  (** all locations, in the order of the grid of sectors *)
  Definition pJ : list (list nat) := flat_map (block_locs c pmss) pgrid.
  Lemma pJ_perm : Permutation pJ (make_grid pdims c).
  Proof. unfold pJ, pgrid. rewrite <- pmss_nums, <- pmss_dims. apply block_locs_perm. Qed.
  Lemma pp0_eq : pp0 = map (fun j => flat_index pdims c (ppl j)) pJ.
  Proof. unfold pp0, pJ, pchunk. now rewrite flat_map_map_out. Qed.
  Lemma pJ_valid j : In j pJ -> valid_idx pdims j.
  Proof. intros H. apply make_grid_In with (c := c). eapply Permutation_in; [exact pJ_perm|exact H]. Qed.
  Lemma pJ_length : length pJ = prod pdims.
  Proof. rewrite (Permutation_length pJ_perm). apply make_grid_length. Qed.
  Lemma pp0_perm : is_perm (prod pdims) pp0.
  Proof.
    rewrite pp0_eq. apply is_perm_intro.
    - now rewrite map_length, pJ_length.
    - apply NoDup_map_inj.
      + intros x y Hx Hy E. apply pJ_valid in Hx, Hy. apply flat_index_inj in E; try (now apply ppl_valid). now apply ppl_inj.
      + apply (Permutation_NoDup (Permutation_sym pJ_perm)), make_grid_NoDup.
    - apply Forall_forall. intros x Hx. apply in_map_iff in Hx. destruct Hx as (j & <- & Hj). apply flat_index_lt, ppl_valid, pJ_valid, Hj.
  Qed.
  Lemma pM_sum : nsum pM = prod pdims.
  Proof.
    rewrite <- pJ_length. unfold pJ. rewrite length_flat_map. unfold pM. f_equal. apply map_ext. intros idx. symmetry. apply block_locs_length.
  Qed.

  (** the states in the order of the grid *)
  Lemma p_states secs : length secs = length pM -> map fst (states S secs pM) = flat_map (fun p => repeat (fst p) (snd p)) (combine secs pM).
  Proof.
    intros L. rewrite states_labels, flat_map_map_out. apply flat_map_ext_in. intros p _. rewrite map_fst_labels. unfold nstate. rewrite (ag_dim G). now rewrite Nat.mul_1_l.
  Qed.
  Definition pint (j : list nat) : list sector := zipw (fun L i => nth i (internal_sectors S (es_space S L)) []) legs j.
  Lemma nth_states_block secs mults i o : length mults = length secs -> i < length secs -> o < nth i mults 0 ->
    nth (nsum (firstn i mults) + o) (internal_sectors S (Sp secs mults None)) [] = nth i secs [].
  Proof.
    intros L Hi Ho. rewrite (@internal_states S noes) by exact L. cbn [sp_secs sp_mults]. rewrite states_labels, flat_map_map_out.
    rewrite flat_map_concat_map.
    assert (EL : map (@length sector) (map (fun p => map fst (labels S p)) (combine secs mults)) = mults).
    { rewrite map_map. transitivity (num_states S secs mults); [rewrite num_states_eq by exact L; apply map_ext; intros p; now rewrite map_length, labels_length|now apply num_states_one]. }
    assert (EN : nth i (map (fun p => map fst (labels S p)) (combine secs mults)) [] = repeat (nth i secs []) (nth i mults 0)).
    { rewrite nth_map_lt with (d := ([], 0)) by (rewrite combine_length; lia). rewrite combine_nth_lt with (x := []) (y := 0) by lia.
      rewrite map_fst_labels. unfold nstate; cbn [fst snd]. rewrite (ag_dim G). now rewrite Nat.mul_1_l. }
    rewrite <- EL at 1. rewrite nth_concat.
    - rewrite EN. now apply nth_repeat_lt.
    - rewrite map_length, combine_length. lia.
    - rewrite EN, repeat_length. exact Ho.
  Qed.
  Lemma pint_locs idx r : In idx pgrid -> valid_idx (shp pmss idx) r -> pint (locs pmss idx r) = psec idx.
  Proof.
    intros H. apply pgrid_In in H. revert r. unfold pint, psec, pmss in *. revert idx H OK. clear HN. induction legs as [|L l IH]; intros idx V O r W; inversion V; subst; cbn [shp map] in W; inversion W; subst; auto.
    cbn [map locs zipw]. f_equal.
    - assert (OL := O L ltac:(cbn; auto)). unfold es_decomp. unfold es_space at 1. assert (N := @nth_states_block (sp_secs (es_space S L)) (es_mults L) x x0).
      assert (LL : length (es_mults L) = length (sp_secs (es_space S L))) by (rewrite (ok_len OL); symmetry; apply ok_decomp_len).
      specialize (N LL). rewrite <- LL in N. apply N; assumption.
    - apply IH; auto. intros; apply O; cbn; auto.
  Qed.
  Lemma p_states_eq : map fst (states S pfused pM) = map (fun j => fuse_all S fuse (pint j)) pJ.
  Proof.
    rewrite p_states by (unfold pfused, pM; now rewrite !map_length). unfold pfused, pM, pJ. rewrite flat_map_map_out.
    rewrite (flat_map_concat_map _ (combine _ _)).
    replace (combine (map (fun idx => fuse_all S fuse (psec idx)) pgrid) (map (fun idx => prod (shp pmss idx)) pgrid))
      with (map (fun idx => (fuse_all S fuse (psec idx), prod (shp pmss idx))) pgrid).
    2:{ generalize pgrid. intros l. induction l; cbn [map combine]; congruence. }
    rewrite map_map. cbn [fst snd]. rewrite <- flat_map_concat_map. apply flat_map_ext_in. intros idx Hi.
    unfold block_locs. rewrite map_map. rewrite <- (make_grid_length (shp pmss idx) c).
    transitivity (map (fun _ => fuse_all S fuse (psec idx)) (make_grid (shp pmss idx) c)).
    - generalize (make_grid (shp pmss idx) c). intros l. induction l; cbn [length repeat map]; congruence.
    - apply map_ext_in. intros r Hr. apply make_grid_In in Hr. now rewrite pint_locs.
  Qed.
  Lemma pint_public j : valid_idx pdims j -> zipw (fun L i => nth i (sectors_of_basis S L) []) legs (ppl j) = pint j.
  Proof.
    unfold ppl, pint, pdims. revert j OK. clear HN. induction legs as [|L l IH]; intros j O V; inversion V; subst; auto. cbn [zipw]. f_equal.
    - assert (OL := O L ltac:(cbn; auto)). rewrite (sectors_of_basis_public OL), (@internal_states S noes) by (cbn [es_space sp_mults sp_secs]; rewrite (ok_len OL); symmetry; apply ok_decomp_len).
      assert (A := arranged_map fst (ok_public OL)). destruct A as (_ & _ & A). apply A.
      rewrite map_length. rewrite (ok_states OL). assumption.
    - apply IH; auto. intros; apply O; cbn; auto.
  Qed.

  (** * the constructor *)
  Definition psm : list nat := take 0 pM psort.
  Definition pslices : list nat := slice_boundaries psm.
  Definition pdiffs : list nat := find_row_differences true (take [] psectors psort).
  Definition pstarts : list nat := map (fun k => nth k pslices 0) pdiffs.
  Definition pumults : list nat := map (fun k => nth (k + 1) pstarts 0 - nth k pstarts 0) (seq 0 (length pdiffs - 1)).
  Definition prow (m : nat) : bim_row := let J := group_of pdiffs m in Bim (nth m pslices 0 - nth J pstarts 0) (nth (m + 1) pslices 0 - nth J pstarts 0) (nth m psgrid []) J.
  Definition pbim : list bim_row := map prow (seq 0 (length pgrid)).

  Lemma comb_mult_eq idx : length idx = length legs -> comb_mult legs idx = prod (shp pmss idx).
  Proof.
    intros L. unfold comb_mult. rewrite fold_left_mul_map, Nat.mul_1_l. f_equal. rewrite shp_zipw. unfold pmss. rewrite zipw_map.
    apply (@zipw_seq _ _ noes 0 (fun L i => nth i (es_mults L) 0)). exact L.
  Qed.
  Lemma psm_length : length psm = length pgrid.
  Proof. unfold psm. rewrite take_length. apply (is_perm_length psort_perm). Qed.
  Lemma psgrid_length : length psgrid = length pgrid.
  Proof. unfold psgrid. rewrite take_length. apply (is_perm_length psort_perm). Qed.
  Lemma psm_eq : psm = map (fun idx => length (pchunk idx)) psgrid.
  Proof.
    unfold psm, psgrid, take. rewrite map_map. apply map_ext_in. intros i Hi. apply (is_perm_In i psort_perm) in Hi.
    rewrite pchunk_length. unfold pM. now rewrite nth_map_lt with (d := []).
  Qed.
  Lemma pdiffs_sorted : StronglySorted lt pdiffs.
  Proof. apply frd_sorted. Qed.
  Lemma pdiffs_0 : nth 0 pdiffs 0 = 0 /\ 0 < length pdiffs.
  Proof. unfold pdiffs, find_row_differences. destruct (@frd_head _ row_eqb (take [] psectors psort)) as [D ->]. cbn; lia. Qed.
  Lemma pdiffs_last : last pdiffs 0 = length pgrid.
  Proof. unfold pdiffs, find_row_differences. rewrite frd_last, take_length. apply (is_perm_length psort_perm). Qed.
  Lemma pdiffs_le x : In x pdiffs -> x <= length pgrid.
  Proof. intros H. apply frd_le in H. rewrite take_length in H. rewrite <- (is_perm_length psort_perm). exact H. Qed.
  Lemma pgroup m : m < length pgrid -> group_of pdiffs m + 1 < length pdiffs /\ nth (group_of pdiffs m) pdiffs 0 <= m < nth (group_of pdiffs m + 1) pdiffs 0.
  Proof. intros H. apply group_of_spec; [apply pdiffs_sorted|rewrite (proj1 pdiffs_0); lia|now rewrite pdiffs_last]. Qed.
  Lemma pslices_nth m : m <= length pgrid -> nth m pslices 0 = nsum (firstn m psm).
  Proof. intros H. unfold pslices. apply boundaries_nth. now rewrite psm_length. Qed.
  Lemma nsum_firstn_mono v i j : i <= j -> nsum (firstn i v) <= nsum (firstn j v).
  Proof.
    intros H. replace (firstn i v) with (firstn i (firstn j v)) by (rewrite firstn_firstn; f_equal; lia).
    rewrite <- (firstn_skipn i (firstn j v)) at 2. rewrite nsum_app. lia.
  Qed.
  Lemma pstarts_nth k : k < length pdiffs -> nth k pstarts 0 = nsum (firstn (nth k pdiffs 0) psm).
  Proof.
    intros H. unfold pstarts. rewrite nth_map_lt with (d := 0) by exact H. apply pslices_nth. apply pdiffs_le. now apply nth_In.
  Qed.
  Lemma pumults_start J : J < length pdiffs -> nth J (slice_boundaries pumults) 0 = nth J pstarts 0.
  Proof.
    intros H. rewrite boundaries_nth by (unfold pumults; rewrite map_length, seq_length; lia). unfold pumults.
    destruct (@telescope (fun k => nth k pstarts 0) (length pdiffs - 1)) with (k := J) as [A B]; [|lia|].
    - intros i Hi. rewrite !pstarts_nth by lia. apply nsum_firstn_mono. apply Nat.lt_le_incl.
      apply (proj1 (StronglySorted_nth lt 0 pdiffs) pdiffs_sorted). lia.
    - rewrite A. rewrite (pstarts_nth (proj2 pdiffs_0)), (proj1 pdiffs_0). change (nsum (firstn 0 psm)) with 0. lia.
  Qed.
  Lemma prow_start m : m < length pgrid -> bim_start (prow m) + nth (bim_J (prow m)) (slice_boundaries pumults) 0 = nsum (firstn m psm).
  Proof.
    intros H. destruct (pgroup H) as [A B]. unfold prow. cbn [bim_start bim_J]. rewrite pumults_start by lia.
    rewrite pslices_nth by lia. rewrite pstarts_nth by lia. assert (M := @nsum_firstn_mono psm (nth (group_of pdiffs m) pdiffs 0) m ltac:(lia)). lia.
  Qed.

  (** the chunk written for one row *)
  Definition row_chunk (idx : list nat) : list nat := map (flat_index pdims c) (block_locs c pmss idx).
  Lemma zipw_locs mss : forall idx r, zipw (fun p o => fst p + o) (combine (zipw (fun ms i => nsum (firstn i ms)) mss idx) mss) r = locs mss idx r.
  Proof. induction mss as [|ms mss IH]; intros [|i idx] [|o r]; cbn [zipw locs combine fst]; auto. now rewrite IH. Qed.
  Lemma sector_start L i : es_ok S L -> i < length (es_mults L) -> fst (nth i (sp_slices S (es_space S L)) (0, 0)) = nsum (firstn i (es_mults L)).
  Proof.
    intros O H. unfold sp_slices. assert (LL : length (es_mults L) = length (sp_secs (es_space S L))) by (rewrite (ok_len O); symmetry; apply ok_decomp_len).
    rewrite nth_map_lt with (d := 0) by (rewrite seq_length; lia). rewrite seq_nth by lia. cbn [fst Nat.add].
    replace (sp_mults (es_space S L)) with (es_mults L) by reflexivity. rewrite num_states_one by exact LL. apply boundaries_nth. lia.
  Qed.
  Lemma row_chunk_eq idx : In idx pgrid ->
    (let mult_shape := map (fun n => nth (nth n idx 0) (es_mults (nth n legs noes)) 0) (seq 0 (length legs)) in
     let sector_starts := map (fun n => fst (nth (nth n idx 0) (sp_slices S (es_space S (nth n legs noes))) (0, 0))) (seq 0 (length legs)) in
     map (fun k => nsum (map (fun n => (grid_entry k (make_stride mult_shape c) mult_shape n + nth n sector_starts 0) * nth n (make_stride pdims c) 0) (seq 0 (length legs))))
         (seq 0 (prod mult_shape))) = row_chunk idx.
  Proof.
    intros H. assert (L := pgrid_len H). assert (V := proj1 (pgrid_In idx) H). cbv zeta.
    assert (E1 : map (fun n => nth (nth n idx 0) (es_mults (nth n legs noes)) 0) (seq 0 (length legs)) = shp pmss idx).
    { rewrite shp_zipw. unfold pmss. rewrite zipw_map. apply (@zipw_seq _ _ noes 0 (fun L i => nth i (es_mults L) 0)). exact L. }
    rewrite E1. unfold row_chunk, block_locs. rewrite <- grid_rows. rewrite !map_map. apply map_ext_in. intros k Hk. apply in_seq in Hk.
    rewrite nsum_map_dot.
    assert (E2 : map (fun n => nth n (make_stride pdims c) 0) (seq 0 (length legs)) = make_stride pdims c).
    { rewrite <- pdims_length, <- (make_stride_length pdims c). apply map_nth_seq. }
    rewrite E2. assert (LS : length (shp pmss idx) = length legs) by (rewrite shp_length, pmss_length; auto).
    set (r := map (grid_entry k (make_stride (shp pmss idx) c) (shp pmss idx)) (seq 0 (length (shp pmss idx)))).
    assert (Vr : valid_idx (shp pmss idx) r).
    { destruct (@make_grid_nth (shp pmss idx) c k ltac:(lia)) as (A & B & _). unfold r. change (map _ _) with (grid_row k (shp pmss idx) c). now rewrite <- A. }
    assert (LL : length (locs pmss idx r) = length legs) by (rewrite locs_length, pmss_length; auto).
    rewrite dot_make_stride by (rewrite map_length, seq_length; now rewrite pdims_length).
    f_equal. apply list_eq_nth with (d := 0); rewrite map_length, seq_length; [auto|]. intros n Hn.
    rewrite nth_map_lt with (d := 0) by now rewrite seq_length. rewrite seq_nth by auto. cbn [Nat.add].
    rewrite nth_map_lt with (d := 0) by now rewrite seq_length. rewrite seq_nth by auto. cbn [Nat.add].
    rewrite <- zipw_locs. assert (LZ : length (zipw (fun ms i => nsum (firstn i ms)) pmss idx) = length legs) by (rewrite zipw_length; rewrite pmss_length; auto).
    assert (LC : length (combine (zipw (fun ms i => nsum (firstn i ms)) pmss idx) pmss) = length legs) by (rewrite combine_length, LZ, pmss_length; lia).
    assert (Lr : length r = length legs) by (unfold r; now rewrite map_length, seq_length).
    rewrite (@zipw_nth _ _ (0, []) 0) by lia. rewrite combine_nth_lt with (x := 0) (y := []) by (rewrite ?LZ, ?pmss_length; lia). cbn [fst].
    rewrite (@zipw_nth _ _ [] 0) by (rewrite pmss_length; lia).
    assert (En : nth n pmss [] = es_mults (nth n legs noes)) by (unfold pmss; now rewrite nth_map_lt with (d := noes)). rewrite En.
    rewrite sector_start.
    - unfold r. rewrite nth_map_lt with (d := 0) by (rewrite seq_length; lia). rewrite seq_nth by lia. cbn [Nat.add]. lia.
    - apply OK. now apply nth_In.
    - rewrite <- En. assert (W := valid_idx_nth V (n := n) ltac:(rewrite map_length, pmss_length; exact Hn)).
      rewrite nth_map_lt with (d := []) in W by (rewrite pmss_length; exact Hn). exact W.
  Qed.
  Lemma fold_left_ext_in A B (f g : A -> B -> A) l : forall a, (forall a b, In b l -> f a b = g a b) -> fold_left f l a = fold_left g l a.
  Proof. induction l as [|b l IH]; intros a H; cbn [fold_left]; auto. rewrite H by (cbn; auto). apply IH. intros; apply H; cbn; auto. Qed.

  Lemma fop_eq : fusion_outcomes_perm S legs c (prod pdims) pumults pbim = flat_map row_chunk psgrid.
  Proof.
    unfold fusion_outcomes_perm. cbv zeta. fold pdims.
    assert (IDX : forall m, m < length pgrid -> bim_idx (prow m) = nth m psgrid [] /\ In (nth m psgrid []) pgrid).
    { intros m Hm. split; [reflexivity|]. apply psgrid_In. apply nth_In. now rewrite psgrid_length. }
    rewrite (@fold_left_ext_in _ _ _ (fun p r => overwrite (bim_start r + nth (bim_J r) (slice_boundaries pumults) 0) (row_chunk (bim_idx r)) p)).
    2:{ intros a r Hr. apply in_map_iff in Hr. destruct Hr as (m & <- & Hm). apply in_seq in Hm. destruct (IDX m ltac:(lia)) as [-> HI].
        rewrite <- (row_chunk_eq HI). reflexivity. }
    assert (EL : map (fun r => length (row_chunk (bim_idx r))) pbim = psm).
    { unfold pbim. rewrite map_map, psm_eq. rewrite <- (map_nth_seq [] psgrid) at 1. rewrite map_map, psgrid_length. apply map_ext_in. intros m Hm.
      apply in_seq in Hm. destruct (IDX m ltac:(lia)) as [-> _]. unfold row_chunk, pchunk. now rewrite !map_length. }
    assert (ES : nsum psm = prod pdims).
    { rewrite <- pM_sum. apply nsum_perm. apply take_Permutation. rewrite pM_length, psectors_length. apply psort_perm. }
    change (repeat 0 (prod pdims)) with ([] ++ repeat 0 (prod pdims)).
    rewrite (@overwrite_fold _ _ (prow 0)).
    - rewrite EL, ES. cbn [app]. rewrite skipn_all2 by (rewrite repeat_length; lia). rewrite app_nil_r.
      unfold pbim. rewrite flat_map_map'. rewrite <- psgrid_length. exact (@flat_map_seq_nth _ _ row_chunk [] psgrid).
    - rewrite EL, repeat_length. lia.
    - rewrite EL. unfold pbim. rewrite map_length, seq_length. intros m Hm. rewrite nth_map_lt with (d := 0) by now rewrite seq_length.
      rewrite seq_nth by auto. cbn [Nat.add length]. now apply prow_start.
  Qed.
  Lemma cbp_eq : calc_basis_perm S legs c (prod pdims) pumults pbim = flat_map pchunk psgrid.
  Proof.
    unfold calc_basis_perm. cbv zeta. fold pdims. rewrite fop_eq. unfold take. rewrite flat_map_map_out. apply flat_map_ext_in. intros idx Hi. apply psgrid_In in Hi.
    unfold row_chunk, pchunk. rewrite map_map. apply map_ext_in. intros j Hj.
    assert (Vj : valid_idx pdims j). { apply pJ_valid. unfold pJ. apply in_flat_map. eauto. }
    assert (LT := flat_index_lt c Vj). rewrite nth_map_lt with (d := 0) by now rewrite seq_length. rewrite seq_nth by auto. cbn [Nat.add].
    assert (Lj : length j = length legs) by (rewrite (valid_length Vj); apply pdims_length).
    rewrite nsum_map_dot.
    assert (E2 : map (fun n => nth n (make_stride pdims c) 0) (seq 0 (length legs)) = make_stride pdims c).
    { rewrite <- pdims_length, <- (make_stride_length pdims c). apply map_nth_seq. }
    rewrite E2. rewrite dot_make_stride by (rewrite map_length, seq_length; now rewrite pdims_length). f_equal.
    unfold ppl. rewrite <- (@zipw_seq _ _ noes 0) by exact Lj. apply map_ext_in. intros n Hn. apply in_seq in Hn. do 2 f_equal.
    assert (GR := @grid_row_flat pdims c j Vj). unfold grid_row in GR. rewrite <- GR at 2. rewrite nth_map_lt with (d := 0) by (rewrite seq_length, pdims_length; lia).
    rewrite seq_nth by (rewrite pdims_length; lia). reflexivity.
  Qed.

  Definition pE : espace := from_defining_sectors S psectors pM d (Some pp0) false.
  Lemma pE_eq : pE = ES (take [] (take [] psectors psort) (removelast pdiffs)) pumults d (Some (flat_map pchunk psgrid)).
  Proof.
    unfold pE, from_defining_sectors. unfold sort_sectors. unfold sorted. fold psort. cbv zeta iota beta.
    change (find_row_differences true (take [] psectors psort)) with pdiffs. fold psm. fold pslices.
    assert (EP : sort_basis_perm S psectors pM (Some pp0) psort = Some (flat_map pchunk psgrid)).
    { assert (NB : 0 < length pgrid \/ length pgrid = 0) by lia. destruct NB as [NB|NB].
      - unfold psort. rewrite sort_perm_eq; auto.
        + f_equal. rewrite num_states_one by apply pM_length.
          assert (EC : chunks pM pp0 = map pchunk pgrid).
          { unfold pp0, pM. generalize pgrid. intros l. induction l as [|i l IH]; cbn [map flat_map chunks]; auto.
            rewrite firstn_app, skipn_app, !pchunk_length, Nat.sub_diag. rewrite firstn_all2 by (rewrite pchunk_length; lia).
            rewrite (skipn_all2 (pchunk i)) by (rewrite pchunk_length; lia). cbn [firstn skipn app]. rewrite app_nil_r. now rewrite IH. }
          rewrite EC. fold psort. unfold psgrid, take. rewrite flat_map_concat_map. f_equal. rewrite map_map. apply map_ext_in. intros i Hi.
          apply (is_perm_In i psort_perm) in Hi. now rewrite nth_map_lt with (d := []).
        + apply pM_length.
        + rewrite num_states_one by apply pM_length. rewrite pM_sum. apply (is_perm_length pp0_perm).
        + intros E. apply (f_equal (@length sector)) in E. rewrite psectors_length in E. cbn in E. lia.
      - unfold sort_basis_perm. rewrite HD. rewrite psectors_length, NB. cbn [Nat.eqb].
        assert (EG : psgrid = []) by (apply length_zero_iff_nil; rewrite psgrid_length; exact NB). now rewrite EG. }
    rewrite EP, HA. cbn [negb]. f_equal. unfold pumults. apply map_ext_in. intros i Hi. apply in_seq in Hi.
    unfold pstarts. rewrite !nth_map_lt with (d := 0) by lia. reflexivity.
  Qed.
  Lemma new_pipe_eq : new_pipe S legs d c = Some (Pipe legs c pE (make_stride (leg_nums legs) c) psort pdiffs pbim).
  Proof.
    unfold new_pipe. lazymatch goal with |- match legs with [] => None | _ :: _ => ?X end = _ => transitivity X; [clear -HN; destruct legs; [congruence|reflexivity]|] end.
    rewrite HA, HD. cbn [negb orb]. cbv zeta. rewrite fold_left_mul, Nat.mul_1_l, fold_left_mul_map, Nat.mul_1_l. fold pdims.
    assert (EG : map (fun m => map (grid_entry m (make_stride (leg_nums legs) c) (leg_nums legs)) (seq 0 (length legs))) (seq 0 (prod (leg_nums legs))) = pgrid)
      by (rewrite <- leg_nums_length; apply grid_rows).
    rewrite EG.
    assert (EM : map (comb_mult legs) pgrid = pM) by (unfold pM; apply map_ext_in; intros idx Hi; apply comb_mult_eq, pgrid_len, Hi). rewrite EM.
    assert (EF : multiple_fusion_broadcast S (map (fun n => map (fun idx => nth (nth n idx 0) (es_decomp S (nth n legs noes)) []) pgrid) (seq 0 (length legs))) = Some pfused).
    { rewrite <- (map_map (fun n idx => nth (nth n idx 0) (es_decomp S (nth n legs noes)) []) (fun h => map h pgrid)).
      rewrite (mfb_cols G).
      - f_equal. unfold pfused. apply map_ext_in. intros idx Hi. f_equal. rewrite map_map. unfold psec.
        apply (@zipw_seq _ _ noes [] (fun L i => nth i (es_decomp S L) [])). now apply pgrid_len.
      - intros E. apply HN. apply length_zero_iff_nil. apply (f_equal (@length _)) in E. rewrite map_length, seq_length in E. exact E.
      - intros h idx Hh Hi. apply in_map_iff in Hh. destruct Hh as (n & <- & Hn). apply in_seq in Hn.
        assert (F := psec_valid Hi). apply (Forall_nth_iff _ []) with (i := n) in F.
        + unfold psec in F. rewrite (@zipw_nth _ _ noes []) in F; [exact F|lia|now apply pgrid_len].
        + unfold psec. rewrite zipw_length; [lia|now apply pgrid_len]. }
    rewrite EF. fold psectors. fold psort. fold psm. fold psgrid. fold pslices. fold pdiffs. fold pstarts. fold pumults.
    rewrite <- pgrid_length. fold pbim. rewrite pE_eq. rewrite <- cbp_eq. reflexivity.
  Qed.

  (** * what the pipe means *)
  Lemma pp0_states : is_perm (length (states S psectors pM)) pp0.
  Proof. rewrite states_length by apply pM_length. rewrite num_states_one by apply pM_length. rewrite pM_sum. apply pp0_perm. Qed.
  Lemma pM_pos m : In m pM -> 0 < m.
  Proof.
    intros H. apply in_map_iff in H. destruct H as (idx & <- & Hi). apply pgrid_In in Hi. unfold pmss in Hi. unfold pmss. revert idx Hi OK. clear HN. 
    induction legs as [|L l IH]; intros idx V O; inversion V; subst; cbn [map shp]; unfold prod; cbn [fold_right]; [lia|].
    apply Nat.mul_pos_pos; [apply (ok_pos (O L ltac:(cbn; auto))), nth_In; assumption|]. apply IH; auto. intros; apply O; cbn; auto.
  Qed.
  Lemma pE_ok : es_ok S pE.
  Proof.
    unfold pE. apply fds_ok; auto.
    - exact p_SO.
    - exact psectors_valid.
    - apply pM_length.
    - exact pM_pos.
    - discriminate.
    - intros _. apply pp0_states.
    - congruence.
  Qed.
  Lemma pE_dim : es_dim S pE = prod pdims.
  Proof.
    destruct (@fds_public S p_SO psectors pM d (Some pp0) false psectors_valid pM_length HD pp0_states) as (_ & E & _ & _).
    unfold pE. rewrite E. rewrite states_length by apply pM_length. rewrite num_states_one by apply pM_length. apply pM_sum.
  Qed.
  Lemma pdual_fused : (if d then dual_sectors S psectors else psectors) = pfused.
  Proof.
    unfold psectors. destruct d; auto. unfold dual_sectors. rewrite map_map. rewrite <- map_id. apply map_ext_in. intros s Hs. apply (ag_dual_invol G), pfused_valid, Hs.
  Qed.
  Lemma pE_arranged : arranged pp0 (map (fun j => fuse_all S fuse (pint j)) pJ) (sectors_of_basis S pE).
  Proof.
    destruct (@fds_public S p_SO psectors pM d (Some pp0) false psectors_valid pM_length HD pp0_states) as (_ & _ & _ & A).
    rewrite pdual_fused in A. rewrite (sectors_of_basis_public pE_ok). rewrite <- p_states_eq. apply arranged_map. exact A.
  Qed.
  Lemma pE_sector r : valid_idx pdims r ->
    nth (flat_index pdims c r) (sectors_of_basis S pE) [] = fuse_all S fuse (zipw (fun L i => nth i (sectors_of_basis S L) []) legs r).
  Proof.
    intros V. destruct (ppl_surj V) as (j & Vj & <-). rewrite pint_public by exact Vj.
    assert (Hj : In j pJ). { eapply Permutation_in; [symmetry; exact pJ_perm|]. now apply make_grid_In. }
    apply In_nth with (d := []) in Hj. destruct Hj as (k & Hk & <-).
    destruct pE_arranged as (_ & _ & A). specialize (A k [] ltac:(now rewrite map_length)).
    rewrite pp0_eq in A. rewrite !nth_map_lt with (d := []) in A by exact Hk. exact A.
  Qed.
  Lemma p_basis_valid r : valid_idx pdims r -> Forall (fun a => sym_valid S a = true) (zipw (fun L i => nth i (sectors_of_basis S L) []) legs r).
  Proof.
    intros V. destruct (ppl_surj V) as (j & Vj & <-). rewrite pint_public by exact Vj. 
    rewrite <- pmss_dims in Vj. destruct (locs_surj Vj) as (idx & o & A & B & ->). apply pgrid_In in A. rewrite pint_locs by auto. now apply psec_valid.
  Qed.
End Pipe.
