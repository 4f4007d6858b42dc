(** Contracting a leg with a mask: the dense result. *)
From Verif Require Import Util StableSort RowModel RowProofs GridModel GridProofs SymModel SymProofs CatSpec Sums SpaceModel SpaceSpec SpaceProofs SpaceProofs2 SpaceProofs3 SpaceProofs6 TensorModel
  PipeModel PipeProofs PipeProofs2 BlockModel BlockProofs SparseModel SparseSpec SparseProofs SparseProofs3 SparseDense FtOpsModel FtOpsSpec AbDecModel AbDecSpec AbDecProofs2 AbDecProofs3 AbDiagModel AbDiagProofs AbDiagProofs2 AbDiagProofs3 AbDiagProofs4 MaskModel MaskSpec MaskProofs MaskProofs2 MaskProofs3 MaskProofs4.
Set Implicit Arguments. Unset Strict Implicit.
Open Scope nat_scope.

(** a mask as projection or as inclusion *)
Definition orient (projection : bool) (M : mdata) : mdata := if projection then M else mask_dagger M.
Section Contract.
  Variable K : Type.
  Variable o : ops K.
  Notation adata := (list (list nat * blk K)).
  Variable S : tsymm.
  Variable fuse : sector -> sector -> sector.
  Hypothesis G : abelian_group_laws S fuse.
  Variables L N : espace.
  Hypothesis OL : es_ok S L.
  Hypothesis ON : es_ok S N.
  Variable M : mdata.
  Hypothesis OM : mask_ok L N M.
  Notation v := (mask_vector S L M).
  Lemma orient_In (b : bool) f : In f (orient b M) <-> exists k l B, In ([k; l], B) M /\ f = ((if b then [k; l] else [l; k]), B).
  Proof.
    unfold orient, mask_dagger. destruct b.
    - split; [|intros (k & l & B & I & ->); exact I]. intros I. destruct (mk_rows OM I) as (k & l & R & _). exists k, l, (snd f). rewrite <- R. destruct f. auto.
    - rewrite in_map_iff. split.
      + intros (e & <- & I). destruct (mk_rows OM I) as (k & l & R & _). exists k, l, (snd e). rewrite R. cbn [rev app]. split; [|reflexivity]. rewrite <- R. now destruct e.
      + intros (k & l & B & I & ->). exists ([k; l], B). auto.
  Qed.
  Lemma orient_small (b : bool) : map (fun e : list nat * bblk => nth (if b then 0 else 1) (fst e) 0) (orient b M) = seq 0 (nsec N).
  Proof.
    rewrite <- (mk_small OM). unfold orient, mask_dagger. destruct b; [reflexivity|]. rewrite map_map. apply map_ext_in. intros e I. cbn [fst]. destruct (mk_rows OM I) as (k & l & R & _). now rewrite R.
  Qed.
  Lemma orient_large (b : bool) : map (fun e : list nat * bblk => nth (if b then 1 else 0) (fst e) 0) (orient b M) = map (fun e : list nat * bblk => nth 1 (fst e) 0) M.
  Proof.
    unfold orient, mask_dagger. destruct b; [reflexivity|]. rewrite map_map. apply map_ext_in. intros e I. cbn [fst]. destruct (mk_rows OM I) as (k & l & R & _). now rewrite R.
  Qed.
  Lemma large_NoDup : NoDup (map (fun e : list nat * bblk => nth 1 (fst e) 0) M).
  Proof. apply StronglySorted_NoDup with (R := lt); [intros x Hx; lia|exact (mk_large OM)]. Qed.
  Variables cod dom : list espace.
  Variable in_domain : bool.
  Variable idx : nat.
  Hypothesis HI : idx_ok cod dom in_domain idx.
  Notation legs := (leg_order cod dom).
  Notation leg := (leg_of cod dom in_domain idx).
  Notation mc := (if in_domain then 0 else 1).
  Variable T : adata.
  Hypothesis TT : tensor_ok S cod dom T.
  Notation cod' X := (fst (mask_contract_legs cod dom in_domain idx X)).
  Notation dom' X := (snd (mask_contract_legs cod dom in_domain idx X)).
  Lemma HL : leg < length legs. Proof. now apply leg_of_lt. Qed.
  Lemma contract_raw large D : mask_contract o large in_domain (length legs) leg T D = make_data (mraw cod dom leg T D mc (fun a f => if large then bapply_mask o a f leg else benlarge_leg o a f leg)) false.
  Proof. unfold mask_contract, mraw, sortA, sortD. destruct in_domain; reflexivity. Qed.
  Lemma mults_upd X : mults (upd legs leg X) = upd (mults legs) leg (es_mults X). Proof. apply upd_map. Qed.
  Lemma nsecs_upd X : map nsec (upd legs leg X) = upd (map nsec legs) leg (nsec X). Proof. apply upd_map. Qed.
  Lemma row_length e : In e T -> length (fst e) = length legs.
  Proof. intros I. rewrite (valid_length (do_valid (to_data TT) I)). apply map_length. Qed.
  Lemma kept_nth_seq (B : bblk) : take_mask (seq 0 (length (bdata B))) (bdata B) = kept (bdata B).
  Proof. symmetry. apply kept_take. Qed.
  (** back from a position of the new legs *)
  Lemma back_valid X Y b c : nth_error legs leg = Some Y -> valid_idx (map nsec (upd legs leg X)) b -> c < nsec Y -> valid_idx (map nsec legs) (upd b leg c).
  Proof.
    intros EY V Hc. rewrite nsecs_upd in V. assert (E : map nsec legs = upd (upd (map nsec legs) leg (nsec X)) leg (nsec Y)).
    { rewrite upd_upd. rewrite <- (upd_nth 0 (map nsec legs) leg) at 1. f_equal. rewrite nth_map_lt with (d := Y) by exact HL. now rewrite (nth_error_nth _ _ Y EY). }
    rewrite E. now apply valid_upd.
  Qed.
  Lemma back_mults X Y : nth_error legs leg = Some Y -> mults legs = upd (mults (upd legs leg X)) leg (es_mults Y).
  Proof.
    intros EY. rewrite mults_upd, upd_upd. rewrite <- (upd_nth [] (mults legs) leg) at 1. f_equal. unfold mults. rewrite nth_map_lt with (d := Y) by exact HL. now rewrite (nth_error_nth _ _ Y EY).
  Qed.
  Lemma back_pos X Y b q c c' : nth_error legs leg = Some Y -> valid_idx (map nsec (upd legs leg X)) b -> valid_idx (shp (mults (upd legs leg X)) b) q -> c < nsec Y -> c' < nth c (es_mults Y) 0 ->
    valid_idx (shp (mults legs) (upd b leg c)) (upd q leg c') /\ locs (mults legs) (upd b leg c) (upd q leg c') = upd (locs (mults (upd legs leg X)) b q) leg (pos (es_mults Y) c c').
  Proof.
    intros EY V W Hc Hc'. rewrite (back_mults X EY). split.
    - rewrite shp_upd by (now apply row_len). now apply valid_upd.
    - apply locs_upd; [now apply row_len|now apply pos_len with (b := b)].
  Qed.
  Lemma new_pos X b q : valid_idx (map nsec (upd legs leg X)) b -> valid_idx (shp (mults (upd legs leg X)) b) q ->
    nth leg b 0 < nsec X /\ nth leg q 0 < nth (nth leg b 0) (es_mults X) 0 /\ nth leg (locs (mults (upd legs leg X)) b q) 0 = pos (es_mults X) (nth leg b 0) (nth leg q 0) /\ length b = length legs /\ length q = length legs.
  Proof.
    intros V W. pose proof HL as HL. assert (LB : length b = length legs) by (rewrite (valid_length V), map_length; apply upd_length). assert (LQ : length q = length legs) by (rewrite (pos_len V W); unfold mults; rewrite map_length; apply upd_length).
    assert (E1 : nth leg (map nsec (upd legs leg X)) 0 = nsec X) by (rewrite nsecs_upd; apply nth_upd_eq; now rewrite map_length).
    assert (E2 : nth leg (mults (upd legs leg X)) [] = es_mults X) by (rewrite mults_upd; apply nth_upd_eq; unfold mults; now rewrite map_length).
    assert (LM : length (mults (upd legs leg X)) = length legs) by (unfold mults; rewrite map_length; apply upd_length).
    split; [rewrite <- E1; apply (proj2 (proj1 (valid_nth _ _) V)); rewrite map_length, upd_length; exact HL|]. split.
    - pose proof (proj2 (proj1 (valid_nth _ _) W) leg) as H. rewrite shp_len in H by (now apply row_len). rewrite LM in H. specialize (H HL). rewrite shp_nth in H by (rewrite ?LM, ?LB; exact HL). now rewrite E2 in H.
    - split; [|auto]. rewrite locs_nth by (rewrite ?LM; auto). rewrite E2. reflexivity.
  Qed.
  Lemma locate_new X g : (forall Y, In Y (upd legs leg X) -> es_ok S Y) -> dense_idx S (upd legs leg X) g -> exists b q, valid_idx (map nsec (upd legs leg X)) b /\ valid_idx (shp (mults (upd legs leg X)) b) q /\ g = locs (mults (upd legs leg X)) b q.
  Proof. intros OK V. exact (locate G OK V). Qed.
  Lemma new_legs_ok X : es_ok S X -> forall Y, In Y (leg_order (cod' X) (dom' X)) -> es_ok S Y.
  Proof.
    intros OX Y I. rewrite (replaced_legs X HI) in I. destruct (In_nth _ _ X I) as (i & Hi & <-). rewrite upd_length in Hi. destruct (Nat.eq_dec i leg) as [ -> |NE].
    - now rewrite nth_upd_eq.
    - rewrite nth_upd_neq by auto. apply (to_legs TT). now apply nth_In.
  Qed.
  Lemma sval_row (D : adata) b q X : NoDup (map fst D) -> (forall e, In e D -> fst e = b -> snd e = X) -> (In b (map fst D) -> sval o D b q = bat o X q).
  Proof. intros ND H I. apply in_map_iff in I. destruct I as ([b' B] & E & I). cbn [fst] in E. subst b'. rewrite (sval_in o q ND I). f_equal. exact (H _ I eq_refl). Qed.

  (** *** the large leg is contracted *)
  Section Large.
    Hypothesis EL : nth_error legs leg = Some L.
    Notation D := (orient (negb in_domain) M).
    Notation raw := (mraw cod dom leg T D mc (fun a f => bapply_mask o a f leg)).
    Lemma l_HC : NoDup (map (fun e : list nat * bblk => nth mc (fst e) 0) D).
    Proof. pose proof (orient_large (negb in_domain)) as E. destruct in_domain; cbn [negb] in *; rewrite E; exact large_NoDup. Qed.
    Lemma l_HS : mc <> 0 -> StronglySorted lt (map (fun e : list nat * bblk => nth mc (fst e) 0) D).
    Proof. intros _. pose proof (orient_large (negb in_domain)) as E. destruct in_domain; cbn [negb] in *; rewrite E; exact (mk_large OM). Qed.
    Lemma l_HO : NoDup (map (fun e : list nat * bblk => nth (1 - mc) (fst e) 0) D).
    Proof. pose proof (orient_small (negb in_domain)) as E. destruct in_domain; cbn [negb Nat.sub] in *; rewrite E; apply seq_NoDup. Qed.
    Lemma l_In e : In e raw <-> exists b X k l B, In (b, X) T /\ In ([k; l], B) M /\ nth leg b 0 = l /\ e = (upd b leg k, bapply_mask o X B leg).
    Proof.
      rewrite (mraw_In TT l_HC l_HS HL). split.
      - intros (a & f & Ia & If & E & ->). apply orient_In in If. destruct If as (k & l & B & I & ->). exists (fst a), (snd a), k, l, B. split; [now destruct a|]. split; [exact I|]. destruct in_domain; cbn in E |- *; auto.
      - intros (b & X & k & l & B & Ia & I & E & ->). exists (b, X), ((if negb in_domain then [k; l] else [l; k]), B). split; [exact Ia|]. split; [apply orient_In; eauto|]. destruct in_domain; cbn; auto.
    Qed.
    Lemma l_NoDup : NoDup (map fst raw). Proof. exact (mraw_NoDup TT l_HC l_HS l_HO HL _). Qed.
    Lemma l_ok : tensor_ok S (cod' N) (dom' N) (make_data raw false).
    Proof.
      constructor; [exact (new_legs_ok ON)| |].
      - rewrite (replaced_legs N HI). apply data_ok_make; [exact l_NoDup|]. intros e I. apply l_In in I. destruct I as (b & X & k & l & B & Ia & Im & E & ->). cbn [fst snd].
        destruct (mk_rows OM Im) as (k' & l' & R & Hk & Hl & _ & SH & LE & TR). cbn [fst snd] in *. injection R as <- <-. pose proof (do_valid (to_data TT) Ia) as V. pose proof (do_shape (to_data TT) Ia) as SX. cbn [fst snd] in V, SX.
        split; [rewrite nsecs_upd; now apply valid_upd|]. split; [|apply bmk_wf]. unfold bapply_mask, bmk. cbn [bshape]. rewrite SX, mults_upd, shp_upd by (now apply row_len). f_equal. exact TR.
      - intros e I. apply make_data_In, l_In in I. destruct I as (b & X & k & l & B & Ia & Im & E & ->). cbn [fst]. apply replaced_charge with (L0 := L); [exact HI|exact (row_length Ia)| |exact (to_charge TT Ia)].
        rewrite (nth_error_nth _ _ L EL), E. exact (mask_decomp OL ON OM Im).
    Qed.
    Theorem large_ok : tensor_ok S (cod' N) (dom' N) (mask_contract o true in_domain (length legs) leg T D) /\
      forall g, dense_idx S (upd legs leg N) g -> entry o S (cod' N) (dom' N) (mask_contract o true in_domain (length legs) leg T D) g = entry o S cod dom T (upd g leg (nth (nth leg g 0) (kept v) 0)).
    Proof.
      rewrite contract_raw. cbv beta iota. split; [exact l_ok|]. intros g Hg. pose proof (to_legs l_ok) as OK. rewrite (replaced_legs N HI) in OK. destruct (locate_new OK Hg) as (b & q & Vb & Vq & ->).
      pose proof (entry_locs o G l_ok (b := b) (q := q)) as E1. rewrite (replaced_legs N HI) in E1. rewrite (E1 Vb Vq). clear E1.
      destruct (new_pos Vb Vq) as (Hk & Hc & Ep & LB & LQ). rewrite Ep. set (k := nth leg b 0) in *. set (c := nth leg q 0) in *.
      destruct (mask_nth OM Hk) as (l & B & _ & Im & Hl & _ & SH & LE & TR). rewrite (kept_at G OL ON OM Im Hc).
      assert (Hc' : nth c (kept (bdata B)) 0 < nth l (es_mults L) 0) by (rewrite <- LE; apply kept_lt; rewrite TR; exact Hc).
      destruct (back_pos EL Vb Vq Hl Hc') as [W1 W2]. pose proof (back_valid EL Vb Hl) as Vb'. rewrite <- W2. rewrite (entry_locs o G TT Vb' W1).
      assert (ND : NoDup (map fst (make_data raw false))) by exact (data_ok_NoDup (to_data l_ok)).
      destruct (in_dec (list_eq_dec Nat.eq_dec) (upd b leg l) (map fst T)) as [Ib|Nb].
      - apply in_map_iff in Ib. destruct Ib as ([b' X] & E & Ib). cbn [fst] in E. subst b'. rewrite (sval_in o _ (data_ok_NoDup (to_data TT)) Ib).
        assert (IR : In (b, bapply_mask o X B leg) (make_data raw false)).
        { apply make_data_In, l_In. exists (upd b leg l), X, k, l, B. split; [exact Ib|]. split; [exact Im|]. split; [apply nth_upd_eq; rewrite LB; exact HL|]. rewrite upd_upd. f_equal. symmetry. apply upd_nth. }
        rewrite (sval_in o q ND IR). unfold bapply_mask. rewrite kept_nth_seq, bat_bmk; [reflexivity|]. pose proof (do_shape (to_data TT) Ib) as SX. cbn [fst snd] in SX. rewrite SX, (back_mults N EL), shp_upd, upd_upd by (now apply row_len).
        assert (X2 : valid_idx (upd (shp (mults (upd legs leg N)) b) leg (btrues B)) (upd q leg c)) by (apply valid_upd; [exact Vq|]; unfold btrues; fold (trues (bdata B)); rewrite TR; exact Hc). unfold c in X2. rewrite upd_nth in X2. exact X2.
      - rewrite (sval_notin o _ Nb), sval_notin; [reflexivity|]. intros J. apply in_map_iff in J. destruct J as (e & E & J). apply make_data_In, l_In in J. destruct J as (b' & X & k' & l' & B' & Ia & Im' & E' & ->). cbn [fst] in E. apply Nb.
        assert (HB : length b' = length legs) by exact (row_length Ia). assert (k' = k) by (unfold k; rewrite <- E; symmetry; apply nth_upd_eq; rewrite HB; exact HL). subst k'. destruct (row_unique0 OM Im Im') as [<- <-].
        apply in_map_iff. exists (b', X). split; [|exact Ia]. cbn [fst]. rewrite <- E, upd_upd, <- E'. symmetry. apply upd_nth.
    Qed.
  End Large.

  (** *** the small leg is contracted *)
  Section Small.
    Hypothesis EL : nth_error legs leg = Some N.
    Notation D := (orient in_domain M).
    Notation raw := (mraw cod dom leg T D mc (fun a f => benlarge_leg o a f leg)).
    Lemma s_HC : NoDup (map (fun e : list nat * bblk => nth mc (fst e) 0) D).
    Proof. pose proof (orient_small in_domain) as E. rewrite E. apply seq_NoDup. Qed.
    Lemma s_HS : mc <> 0 -> StronglySorted lt (map (fun e : list nat * bblk => nth mc (fst e) 0) D).
    Proof. intros _. pose proof (orient_small in_domain) as E. rewrite E. apply seq_sorted. Qed.
    Lemma s_HO : NoDup (map (fun e : list nat * bblk => nth (1 - mc) (fst e) 0) D).
    Proof. pose proof (orient_large in_domain) as E. destruct in_domain; cbn [Nat.sub] in *; rewrite E; exact large_NoDup. Qed.
    Lemma s_In e : In e raw <-> exists b X k l B, In (b, X) T /\ In ([k; l], B) M /\ nth leg b 0 = k /\ e = (upd b leg l, benlarge_leg o X B leg).
    Proof.
      rewrite (mraw_In TT s_HC s_HS HL). split.
      - intros (a & f & Ia & If & E & ->). apply orient_In in If. destruct If as (k & l & B & I & ->). exists (fst a), (snd a), k, l, B. split; [now destruct a|]. split; [exact I|]. destruct in_domain; cbn in E |- *; auto.
      - intros (b & X & k & l & B & Ia & I & E & ->). exists (b, X), ((if in_domain then [k; l] else [l; k]), B). split; [exact Ia|]. split; [apply orient_In; eauto|]. destruct in_domain; cbn; auto.
    Qed.
    Lemma s_NoDup : NoDup (map fst raw). Proof. exact (mraw_NoDup TT s_HC s_HS s_HO HL _). Qed.
    Lemma s_ok : tensor_ok S (cod' L) (dom' L) (make_data raw false).
    Proof.
      constructor; [exact (new_legs_ok OL)| |].
      - rewrite (replaced_legs L HI). apply data_ok_make; [exact s_NoDup|]. intros e I. apply s_In in I. destruct I as (b & X & k & l & B & Ia & Im & E & ->). cbn [fst snd].
        destruct (mk_rows OM Im) as (k' & l' & R & Hk & Hl & _ & SH & LE & TR). cbn [fst snd] in *. injection R as <- <-. pose proof (do_valid (to_data TT) Ia) as V. pose proof (do_shape (to_data TT) Ia) as SX. cbn [fst snd] in V, SX.
        split; [rewrite nsecs_upd; now apply valid_upd|]. split; [|apply bmk_wf]. unfold benlarge_leg, bmk. cbn [bshape]. rewrite SX, mults_upd, shp_upd by (now apply row_len). f_equal. exact LE.
      - intros e I. apply make_data_In, s_In in I. destruct I as (b & X & k & l & B & Ia & Im & E & ->). cbn [fst]. apply replaced_charge with (L0 := N); [exact HI|exact (row_length Ia)| |exact (to_charge TT Ia)].
        rewrite (nth_error_nth _ _ N EL), E. symmetry. exact (mask_decomp OL ON OM Im).
    Qed.
    Theorem small_ok : tensor_ok S (cod' L) (dom' L) (mask_contract o false in_domain (length legs) leg T D) /\
      forall g, dense_idx S (upd legs leg L) g -> entry o S (cod' L) (dom' L) (mask_contract o false in_domain (length legs) leg T D) g =
        if nth (nth leg g 0) v false then entry o S cod dom T (upd g leg (trues (firstn (nth leg g 0) v))) else o0 o.
    Proof.
      rewrite contract_raw. cbv beta iota. split; [exact s_ok|]. intros g Hg. pose proof (to_legs s_ok) as OK. rewrite (replaced_legs L HI) in OK. destruct (locate_new OK Hg) as (b & q & Vb & Vq & ->).
      pose proof (entry_locs o G s_ok (b := b) (q := q)) as E1. rewrite (replaced_legs L HI) in E1. rewrite (E1 Vb Vq). clear E1.
      destruct (new_pos Vb Vq) as (Hl & Hc & Ep & LB & LQ). rewrite Ep. set (l := nth leg b 0) in *. set (c := nth leg q 0) in *.
      assert (ND : NoDup (map fst (make_data raw false))) by exact (data_ok_NoDup (to_data s_ok)).
      destruct (in_dec Nat.eq_dec l (map (fun e : list nat * bblk => nth 1 (fst e) 0) M)) as [Il|Nl].
      - apply in_map_iff in Il. destruct Il as (e & El & Ie). destruct (mk_rows OM Ie) as (k & l' & R & Hk & _ & _ & SH & LE & TR). rewrite R in El. cbn [nth] in El. subst l'. assert (Im : In ([k; l], snd e) M) by (rewrite <- R; now destruct e). set (B := snd e) in *. change (trues (bdata B) = nth k (es_mults N) 0) in TR.
        rewrite (vec_stored G OL OM Im Hc).
        assert (XB : forall X, In (upd b leg k, X) T -> sval o (make_data raw false) b q = bat o (benlarge_leg o X B leg) q).
        { intros X Ib. apply (sval_in o q ND). apply make_data_In, s_In. exists (upd b leg k), X, k, l, B. split; [exact Ib|]. split; [exact Im|]. split; [apply nth_upd_eq; rewrite LB; exact HL|]. rewrite upd_upd. f_equal. symmetry. apply upd_nth. }
        assert (VB : forall X, In (upd b leg k, X) T -> bat o (benlarge_leg o X B leg) q = if nth c (bdata B) false then bat o X (upd q leg (trues (firstn c (bdata B)))) else o0 o).
        { intros X Ib. unfold benlarge_leg. rewrite bat_bmk; [reflexivity|]. pose proof (do_shape (to_data TT) Ib) as SX. cbn [fst snd] in SX. rewrite SX, (back_mults L EL), shp_upd, upd_upd by (now apply row_len).
          assert (X2 : valid_idx (upd (shp (mults (upd legs leg L)) b) leg (length (bdata B))) (upd q leg c)) by (apply valid_upd; [exact Vq|]; rewrite LE; exact Hc). unfold c in X2. rewrite upd_nth in X2. exact X2. }
        assert (ZB : ~ In (upd b leg k) (map fst T) -> sval o (make_data raw false) b q = o0 o).
        { intros Nb. apply sval_notin. intros J. apply in_map_iff in J. destruct J as (e' & E & J). apply make_data_In, s_In in J. destruct J as (b' & X & k' & l' & B' & Ia & Im' & E' & ->). cbn [fst] in E. apply Nb.
          assert (HB : length b' = length legs) by exact (row_length Ia). assert (l' = l) by (unfold l; rewrite <- E; symmetry; apply nth_upd_eq; rewrite HB; exact HL). subst l'. destruct (row_unique1 OM Im Im') as [<- _].
          apply in_map_iff. exists (b', X). split; [|exact Ia]. cbn [fst]. rewrite <- E, upd_upd, <- E'. symmetry. apply upd_nth. }
        destruct (nth c (bdata B) false) eqn:HB.
        + rewrite (count_at G OL ON OM Im Hc HB). destruct (kept_before HB) as [J1 _]. rewrite TR in J1. destruct (back_pos EL Vb Vq Hk J1) as [W1 W2]. pose proof (back_valid EL Vb Hk) as Vb'. rewrite <- W2. rewrite (entry_locs o G TT Vb' W1).
          destruct (in_dec (list_eq_dec Nat.eq_dec) (upd b leg k) (map fst T)) as [Ib|Nb].
          * apply in_map_iff in Ib. destruct Ib as ([b' X] & E & Ib). cbn [fst] in E. subst b'. rewrite (XB X Ib), (VB X Ib). symmetry. apply (sval_in o _ (data_ok_NoDup (to_data TT)) Ib).
          * rewrite (ZB Nb). symmetry. now apply sval_notin.
        + destruct (in_dec (list_eq_dec Nat.eq_dec) (upd b leg k) (map fst T)) as [Ib|Nb]; [|exact (ZB Nb)]. apply in_map_iff in Ib. destruct Ib as ([b' X] & E & Ib). cbn [fst] in E. subst b'. rewrite (XB X Ib), (VB X Ib). reflexivity.
      - rewrite (vec_unstored G OL OM Hl Hc).
        + apply sval_notin. intros J. apply in_map_iff in J. destruct J as (e' & E & J). apply make_data_In, s_In in J. destruct J as (b' & X & k' & l' & B' & Ia & Im' & E' & ->). cbn [fst] in E. apply Nl.
          assert (HB : length b' = length legs) by exact (row_length Ia). assert (l' = l) by (unfold l; rewrite <- E; symmetry; apply nth_upd_eq; rewrite HB; exact HL). subst l'. apply in_map_iff. exists ([k'; l], B'). auto.
        + intros k B I. apply Nl. apply in_map_iff. exists ([k; l], B). auto.
    Qed.
  End Small.
End Contract.
