(** Masks: diagonal tensors, full tensors, single entries, duals. *)
From Verif Require Import Util StableSort RowModel RowProofs GridModel GridProofs SymModel SymProofs CatSpec Sums SpaceModel SpaceSpec SpaceProofs SpaceProofs2 SpaceProofs3 SpaceProofs6 TensorModel
  PipeModel PipeProofs PipeProofs2 BlockModel BlockProofs SparseModel SparseSpec SparseProofs SparseProofs3 SparseDense SparseDense2 FtOpsModel FtOpsSpec AbDecModel AbDecSpec AbDecProofs AbDecProofs2 AbDecProofs3 AbDiagModel AbDiagProofs AbDiagProofs2 AbDiagProofs3 AbDiagProofs4 MaskModel MaskSpec MaskProofs MaskProofs2 MaskProofs3 MaskProofs4 MaskProofs5.
Set Implicit Arguments. Unset Strict Implicit.
Open Scope nat_scope.

Lemma walk_ascending : forall a i b j, StronglySorted (fun x y => fst x < fst y /\ snd x < snd y) (common_walk true true i a j b) /\ forall x, In x (common_walk true true i a j b) -> i <= fst x /\ j <= snd x.
Proof.
  induction a as [|x a IH]; intros i b; [intros j; split; [constructor|intros x []]|]. induction b as [|y b IHb]; intros j; [split; [constructor|intros z []]|]. cbn [common_walk].
  destruct (cmp_lexsort x y).
  - destruct (IH (S i) b (S j)) as [SS LO]. split.
    + constructor; [exact SS|]. apply Forall_forall. intros z Iz. destruct (LO z Iz). cbn [fst snd]. lia.
    + intros z [ <- |Iz]; [cbn [fst snd]; lia|]. destruct (LO z Iz). lia.
  - destruct (IH (S i) (y :: b) j) as [SS LO]. split; [exact SS|]. intros z Iz. destruct (LO z Iz). lia.
  - destruct (IHb (S j)) as [SS LO]. split; [exact SS|]. intros z Iz. destruct (LO z Iz). lia.
Qed.
Lemma make_data_id (K : Type) (D : list (list nat * blk K)) : strictly_sorted (zrows (map fst D)) -> (exists w, forall e, In e D -> length (fst e) = w) -> make_data D false = D.
Proof.
  intros SS (w & W). assert (ND : NoDup (map fst D)).
  { assert (X : NoDup (zrows (map fst D))) by (apply StronglySorted_NoDup with (R := lex_lt); [exact lex_lt_irrefl|exact SS]). unfold zrows in X. now apply NoDup_map_inv in X. }
  assert (S1 : forall E : list (list nat * blk K), strictly_sorted (zrows (map fst E)) -> StronglySorted (fun x y => lex_lt (map Z.of_nat (fst x)) (map Z.of_nat (fst y))) E).
  { intros E H. unfold strictly_sorted, zrows in H. rewrite map_map in H. apply (proj1 (StronglySorted_map _ _ _)) in H. exact H. }
  apply (@StronglySorted_unique _ (fun x y => lex_lt (map Z.of_nat (fst x)) (map Z.of_nat (fst y)))).
  - intros x H. exact (lex_lt_irrefl H).
  - intros x y z H1 H2. exact (lex_lt_trans H1 H2).
  - apply S1. exact (make_data_sorted W ND).
  - apply S1. exact SS.
  - apply make_data_In.
Qed.

Section More.
  Variable K : Type.
  Variable o : ops K.
  Notation adata := (list (list nat * blk K)).
  Variable S : tsymm.
  Variable fuse : sector -> sector -> sector.
  Hypothesis G : abelian_group_laws S fuse.
  Variables L N : espace.
  Hypothesis OL : es_ok S L.
  Hypothesis ON : es_ok S N.
  Variable M : mdata.
  Hypothesis OM : mask_ok L N M.
  Notation v := (mask_vector S L M).
  Notation msL := (es_mults L).
  Notation msN := (es_mults N).
  (** ** the projection of a diagonal tensor *)
  Section Diag.
    Variable W : adata.
    Hypothesis OW : diag_data_ok L W.
    Notation R := (apply_mask_diagonal o W M).
    Notation cw := (common_walk true true 0 (cont W 0) 0 (cont M 1)).
    Lemma cM_sorted : strictly_sorted (cont M 1).
    Proof.
      pose proof (mk_large OM) as SS. unfold strictly_sorted, cont. clear -SS. induction M as [|e M' IH]; [constructor|]. cbn [map] in *. apply StronglySorted_inv in SS. destruct SS as [SS FA]. constructor; [now apply IH|]. rewrite Forall_forall in *. intros z Iz. apply in_map_iff in Iz. destruct Iz as (e' & <- & I).
      specialize (FA _ (in_map (fun e : list nat * bblk => nth 1 (fst e) 0) _ _ I)). cbv beta in FA. split; [reflexivity|]. exists 0. cbn [nth length]. split; [lia|]. split; [lia|]. intros j Hj. lia.
    Qed.
    Lemma cW_sorted : strictly_sorted (cont W 0).
    Proof.
      destruct (dd_from OW) as [SS _]. unfold strictly_sorted, cont. clear -SS. induction W as [|e W' IH]; [constructor|]. cbn [map] in *. apply StronglySorted_inv in SS. destruct SS as [SS FA]. constructor; [now apply IH|]. rewrite Forall_forall in *. intros z Iz. apply in_map_iff in Iz. destruct Iz as (e' & <- & I).
      specialize (FA _ (in_map _ _ _ I)). unfold dcol in FA. split; [reflexivity|]. exists 0. cbn [nth length]. split; [lia|]. split; [lia|]. intros j Hj. lia.
    Qed.
    Lemma dcw_In (p q : nat) : In (p, q) cw <-> p < length W /\ q < length M /\ nth 0 (fst (nth p W (noentry K))) 0 = nth 1 (fst (nth q M (noentry bool))) 0.
    Proof.
      destruct (@common_walk_spec 1 true true (or_introl eq_refl) (cont W 0) 0 (cont M 1) 0 (cont_width _ _) (cont_width _ _) (strictly_weakly cW_sorted) (strictly_weakly cM_sorted) (fun _ => cW_sorted) (fun _ => cM_sorted)) as [CW _].
      rewrite CW. assert (LA : length (cont W 0) = length W) by apply map_length. assert (LB : length (cont M 1) = length M) by apply map_length. rewrite LA, LB, !Nat.sub_0_r. split.
      - intros (Hp & Hq & E). split; [lia|]. split; [lia|]. unfold cont in E. rewrite nth_map_lt with (d := noentry K) in E by lia. rewrite nth_map_lt with (d := noentry bool) in E by lia. injection E as E. lia.
      - intros (Hp & Hq & E). split; [lia|]. split; [lia|]. unfold cont. rewrite nth_map_lt with (d := noentry K) by lia. rewrite nth_map_lt with (d := noentry bool) by lia. now rewrite E.
    Qed.
    Lemma R_In e : In e R <-> exists k l X B, In ([l; l], X) W /\ In ([k; l], B) M /\ e = ([k; k], bapply_mask o X B 0).
    Proof.
      unfold apply_mask_diagonal. fold (cont W 0). change (map (fun e : list nat * bblk => [Z.of_nat (nth 1 (fst e) 0)]) M) with (cont M 1). rewrite in_map_iff. split.
      - intros ([p q] & <- & I). apply dcw_In in I. destruct I as (Hp & Hq & E). cbn [fst snd]. assert (IW : In (nth p W (noentry K)) W) by (now apply nth_In). assert (IM : In (nth q M (noentry bool)) M) by (now apply nth_In).
        destruct (dd_rows OW IW) as (n & _ & RW & _). destruct (mk_rows OM IM) as (k & l & RM & _). rewrite RW, RM in E. cbn [nth] in E. subst n. exists k, l, (snd (nth p W (noentry K))), (snd (nth q M (noentry bool))). rewrite <- RW, <- RM.
        split; [now destruct (nth p W (noentry K))|]. split; [now destruct (nth q M (noentry bool))|]. now rewrite RM.
      - intros (k & l & X & B & IW & IM & ->). destruct (In_nth _ _ (noentry K) IW) as (p & Hp & Ep). destruct (In_nth _ _ (noentry bool) IM) as (q & Hq & Eq). exists (p, q). cbn [fst snd]. rewrite Ep, Eq. split; [reflexivity|]. apply dcw_In. rewrite Ep, Eq. auto.
    Qed.
    Lemma R_ok : diag_data_ok N R.
    Proof.
      constructor.
      - apply sorted_diag.
        + unfold apply_mask_diagonal. fold (cont W 0). change (map (fun e : list nat * bblk => [Z.of_nat (nth 1 (fst e) 0)]) M) with (cont M 1). rewrite map_map. destruct (walk_ascending (cont W 0) 0 (cont M 1) 0) as [SS _].
          match goal with |- StronglySorted lt ?l => assert (X : l = map snd cw) end.
          { apply map_ext_in. intros [p q] I. apply dcw_In in I. destruct I as (_ & Hq & _). cbn [snd fst]. unfold dcol. cbn [fst nth]. rewrite (mask_len OM) in Hq. destruct (mask_nth OM Hq) as (l & B & E & _). now rewrite E. }
          rewrite X. clear X. apply StronglySorted_map. eapply StronglySorted_impl; [|exact SS]. intros x y _ _ [_ H]. exact H.
        + intros e I. apply R_In in I. destruct I as (k & l & X & B & _ & _ & ->). reflexivity.
      - intros e I. apply R_In in I. destruct I as (k & l & X & B & IW & IM & ->). destruct (mk_rows OM IM) as (k' & l' & E & Hk & _ & _ & _ & _ & TR). cbn [fst snd] in *. injection E as <- <-. exists k. split; [exact Hk|]. split; [reflexivity|].
        destruct (dd_rows OW IW) as (n & _ & E & SX). cbn [fst snd] in *. injection E as <-. unfold bapply_mask, bmk. cbn [bshape]. rewrite SX. cbn [upd]. f_equal. exact TR.
      - intros e I. apply R_In in I. destruct I as (k & l & X & B & IW & IM & ->). cbn [snd]. apply bmk_wf.
    Qed.
    Lemma R_sval k l B c : In ([k; l], B) M -> c < nth k msN 0 -> sval o R [k; k] [c] = sval o W [l; l] [nth c (kept (bdata B)) 0].
    Proof.
      intros IM Hc. rewrite (dg_sval o l _ (dd_from OW)). destruct (dg W l) as [X|] eqn:D.
      - apply (dg_In _ _ (dd_from OW)) in D. assert (IR : In ([k; k], bapply_mask o X B 0) R) by (apply R_In; eauto 10). rewrite (sval_in o [c] (from_NoDup (dd_from R_ok)) IR).
        unfold bapply_mask. destruct (dd_rows OW D) as (n & _ & E & SX). cbn [fst snd] in *. destruct (mk_rows OM IM) as (k' & l' & E' & _ & _ & _ & _ & _ & TR). cbn [fst snd] in *. injection E' as <- <-. rewrite bat_bmk; [cbn [upd nth]; now rewrite <- kept_take|]. rewrite SX. cbn [upd]. constructor; [|constructor]. unfold btrues. now rewrite TR.
      - apply sval_notin. intros I. apply in_map_iff in I. destruct I as (e & E & I). apply R_In in I. destruct I as (k' & l' & X & B' & IW & IM' & ->). cbn [fst] in E. injection E as ->. destruct (row_unique0 OM IM IM') as [<- _]. apply (dg_none l (dd_from OW)) in D. apply D. change [l; l] with (fst ([l; l], X)). now apply in_map.
    Qed.
    Theorem apply_diag_ok : diag_data_ok N R /\ vec_list o S N R = take_mask (vec_list o S L W) v.
    Proof.
      split; [exact R_ok|]. assert (LV : length v = length (vec_list o S L W)).
      { rewrite (mask_vec G OL OM), (vec_length o G OL W), concat_length_nsum. f_equal. apply (segs_length (mfill_ok OM)). }
      rewrite (take_mask_positions (o0 o)) by exact LV. rewrite <- LV. fold (kept v). apply list_eq_nth with (d := o0 o); [rewrite (vec_length o G ON R), map_length, kept_length; symmetry; apply (mask_trues G OL ON OM)|].
      intros x Hx. rewrite (vec_length o G ON R) in Hx. rewrite nth_map_lt with (d := 0) by (rewrite kept_length, (mask_trues G OL ON OM); exact Hx). destruct (pos_surj Hx) as (k & c & Hk & Hc & ->). rewrite (vec_nth o G ON R_ok Hk Hc).
      destruct (mask_nth OM Hk) as (l & B & _ & IM & Hl & _ & _ & LE & TR). rewrite (R_sval IM Hc), (kept_at G OL ON OM IM Hc). symmetry. apply (vec_nth o G OL OW Hl). rewrite <- LE. apply kept_lt. rewrite TR. exact Hc.
    Qed.
  End Diag.

  (** ** as a matrix *)
  Theorem full_mask_ok : tensor_ok S [N] [L] (mask_full o M) /\
    forall x y, x < es_dim S N -> y < es_dim S L -> entry o S [N] [L] (mask_full o M) [x; y] = if nth x (kept v) 0 =? y then o1 o else o0 o.
  Proof.
    assert (DO : data_ok [N; L] (mask_full o M)).
    { constructor.
      - unfold mask_full. rewrite map_map. cbn [fst]. pose proof (mk_large OM) as SS. assert (RR : forall e, In e M -> exists k l, fst e = [k; l]) by (intros e I; destruct (mk_rows OM I) as (k & l & R & _); eauto). unfold strictly_sorted, zrows. rewrite map_map. clear -SS RR. induction M as [|e M' IH]; [constructor|].
        cbn [map] in *. apply StronglySorted_inv in SS. destruct SS as [SS FA]. constructor; [apply IH; [exact SS|intros e' I; apply RR; now right]|]. rewrite Forall_forall in *. intros z Iz. apply in_map_iff in Iz. destruct Iz as (e' & <- & I).
        specialize (FA _ (in_map (fun e : list nat * bblk => nth 1 (fst e) 0) _ _ I)). cbv beta in FA. destruct (RR e (or_introl eq_refl)) as (k & l & E). destruct (RR e' (or_intror I)) as (k' & l' & E'). rewrite E, E' in *. cbn [nth] in FA. split; [reflexivity|]. exists 1. cbn [map nth length]. split; [lia|]. split; [lia|]. intros j Hj. lia.
      - intros e I. apply in_map_iff in I. destruct I as (e0 & <- & I). destruct (mk_rows OM I) as (k & l & E & Hk & Hl & _). cbn [fst]. rewrite E. repeat constructor; assumption.
      - intros e I. apply in_map_iff in I. destruct I as (e0 & <- & I). destruct (mk_rows OM I) as (k & l & E & Hk & Hl & _ & _ & LE & TR). cbn [fst snd]. rewrite E. unfold bfrom_mask, bmk. cbn [bshape mults map shp]. unfold btrues. now rewrite LE, TR.
      - intros e I. apply in_map_iff in I. destruct I as (e0 & <- & I). apply bmk_wf. }
    split.
    - constructor; [intros E [ <- |[ <- |[]]]; assumption|exact DO|]. intros e I. apply in_map_iff in I. destruct I as (e0 & <- & I). destruct (mk_rows OM I) as (k & l & E & _). cbn [fst]. rewrite E. apply charge_two. apply (mask_decomp OL ON OM (B := snd e0)). rewrite <- E. now destruct e0.
    - intros x y Hx Hy. rewrite (p_dim_one G ON) in Hx. rewrite (p_dim_one G OL) in Hy. destruct (pos_surj Hx) as (k & c & Hk & Hc & ->). destruct (pos_surj Hy) as (n & a & Hn & Ha & ->).
      rewrite (two_entry o G ON OL DO Hk Hc Hn Ha). destruct (mask_nth OM Hk) as (l & B & _ & IM & Hl & _ & _ & LE & TR). rewrite (kept_at G OL ON OM IM Hc). pose proof (data_ok_NoDup DO) as ND.
      assert (Hj : nth c (kept (bdata B)) 0 < nth l msL 0) by (rewrite <- LE; apply kept_lt; rewrite TR; exact Hc).
      destruct (Nat.eq_dec n l) as [ -> |NE].
      + assert (IF : In ([k; l], bfrom_mask o B) (mask_full o M)) by (apply in_map_iff; exists ([k; l], B); auto). rewrite (sval_in o _ ND IF). unfold bfrom_mask. rewrite bat_bmk by (repeat constructor; [unfold btrues; fold (trues (bdata B)); rewrite TR; exact Hc|rewrite LE; exact Ha]). cbn [nth]. rewrite <- kept_take. unfold pos.
        destruct (Nat.eqb_spec (nth c (kept (bdata B)) 0) a) as [ -> |NE]; [now rewrite Nat.eqb_refl|]. now rewrite (proj2 (Nat.eqb_neq _ _)) by lia.
      + rewrite sval_notin.
        * rewrite (proj2 (Nat.eqb_neq _ _)); [reflexivity|]. intros E. apply NE. symmetry. exact (proj1 (loc_inj Hl Hj Hn Ha E)).
        * intros I. unfold mask_full in I. rewrite map_map in I. apply in_map_iff in I. destruct I as (e & E & I). cbn [fst] in E. assert (I2 : In ([k; n], snd e) M) by (rewrite <- E; now destruct e). destruct (row_unique0 OM IM I2) as [E2 _]. congruence.
  Qed.

  (** ** one entry *)
  Lemma orient_NoDup b : NoDup (map fst (orient b M)).
  Proof.
    assert (ND : NoDup (map fst M)).
    { pose proof (mk_small OM) as E. assert (X : NoDup (map (fun e : list nat * bblk => nth 0 (fst e) 0) M)) by (rewrite E; apply seq_NoDup). rewrite <- (map_map fst (fun r => nth 0 r 0)) in X. now apply NoDup_map_inv in X. }
    unfold orient, mask_dagger. destruct b; [exact ND|]. rewrite map_map. cbn [fst]. rewrite <- (map_map fst (@rev nat)). apply NoDup_map_inj; [|exact ND]. intros x y _ _ E. rewrite <- (rev_involutive x), E. apply rev_involutive.
  Qed.
  Lemma orient_nth (b : bool) k n : (exists B, In ((if b then [k; n] else [n; k]), B) (orient b M)) <-> exists B, In ([k; n], B) M.
  Proof.
    split; intros (B & I).
    - apply (orient_In OM) in I. destruct I as (k' & l' & B' & I & E). exists B. destruct b; injection E as -> -> ->; exact I.
    - exists B. apply (orient_In OM). eauto.
  Qed.
  Lemma element_block k l B c a : In ([k; l], B) M -> c < nth k msN 0 -> a < nth l msL 0 -> bmask_element B a c = (nth (pos msN k c) (kept v) 0 =? pos msL l a).
  Proof.
    intros IM Hc Ha. rewrite (kept_at G OL ON OM IM Hc). destruct (mk_rows OM IM) as (k' & l' & E' & Hk & _ & _ & _ & LE & TR). cbn [fst snd] in *. injection E' as <- <-. change (trues (bdata B) = nth k msN 0) in TR.
    unfold bmask_element. fold (trues (firstn a (bdata B))). assert (EQ : (pos msL l (nth c (kept (bdata B)) 0) =? pos msL l a) = (nth c (kept (bdata B)) 0 =? a)).
    { unfold pos. destruct (Nat.eqb_spec (nth c (kept (bdata B)) 0) a) as [ -> |NE]; [apply Nat.eqb_refl|apply Nat.eqb_neq; lia]. }
    rewrite EQ. rewrite <- TR in Hc. destruct (nth a (bdata B) false) eqn:H; cbn [negb].
    - destruct (kept_before H) as [J1 J2]. destruct (Nat.eqb_spec c (trues (firstn a (bdata B)))) as [ -> |NE]; [symmetry; now apply Nat.eqb_eq|]. symmetry. apply Nat.eqb_neq. intros E. apply NE. rewrite <- E. symmetry. now apply kept_before_nth.
    - symmetry. apply Nat.eqb_neq. intros E. rewrite <- E, kept_nth in H by exact Hc. discriminate.
  Qed.
  Theorem element_ok (proj : bool) i j x y : s_drop S = true -> internal_position S N i x -> internal_position S L j y ->
    get_element_mask S proj (if proj then N else L) (if proj then L else N) (orient proj M) (if proj then i else j) (if proj then j else i) = Some (nth x (kept v) 0 =? y).
  Proof.
    intros HD HX HY. destruct (parse_position G HD ON HX) as (k & c & EX & Hk & Hc & ->). destruct (parse_position G HD OL HY) as (n & a & EY & Hn & Ha & ->). change (nsum (firstn k msN) + c) with (pos msN k c). change (nsum (firstn n msL) + a) with (pos msL n a).
    unfold get_element_mask. assert (GB : (exists B, In ([k; n], B) M /\ get_block (orient proj M) (if proj then [k; n] else [n; k]) = Some B) \/ (get_block (orient proj M) (if proj then [k; n] else [n; k]) = None /\ forall B, ~ In ([k; n], B) M)).
    { pose proof (get_block_spec (if proj then [k; n] else [n; k]) (orient_NoDup proj)) as GS. destruct (get_block _ _) as [B|].
      - left. exists B. split; [|reflexivity]. apply (orient_In OM) in GS. destruct GS as (k' & l' & B' & I & E). destruct proj; injection E as -> -> ->; exact I.
      - right. split; [reflexivity|]. intros B I. apply GS. apply in_map_iff. exists ((if proj then [k; n] else [n; k]), B). split; [reflexivity|]. apply (orient_In OM). eauto. }
    assert (NO : (forall B, ~ In ([k; n], B) M) -> (nth (pos msN k c) (kept v) 0 =? pos msL n a) = false).
    { intros H. destruct (mask_nth OM Hk) as (l & B & _ & IM & Hl & _ & _ & LE & TR). rewrite (kept_at G OL ON OM IM Hc). apply Nat.eqb_neq. intros E. assert (Hj : nth c (kept (bdata B)) 0 < nth l msL 0) by (rewrite <- LE; apply kept_lt; rewrite TR; exact Hc).
      destruct (loc_inj Hl Hj Hn Ha E) as [E2 _]. subst n. exact (H B IM). }
    destruct proj; rewrite EX, EY; (destruct GB as [(B & IM & ->)|[ -> Z]]; [f_equal; now apply element_block|f_equal; symmetry; now apply NO]).
  Qed.

  (** ** the diagonal tensor of a mask *)
  Theorem to_diagonal_ok proj (to_dtype : bool -> K) : to_dtype false = o0 o -> diag_data_ok L (mask_to_diagonal proj to_dtype (orient proj M)) /\ vec_list o S L (mask_to_diagonal proj to_dtype (orient proj M)) = map to_dtype v.
  Proof.
    intros HF. pose (g := fun B : bblk => Blk (bshape B) (map to_dtype (bdata B))).
    assert (E : map (fun e : list nat * bblk => let l := nth (large_col proj) (fst e) 0 in ([l; l], Blk (bshape (snd e)) (map to_dtype (bdata (snd e))))) (orient proj M) = map (fun e => (fst e, g (snd e))) (mdiag M)).
    { unfold mdiag. rewrite map_map. cbn [fst snd]. unfold orient, mask_dagger, large_col. destruct proj; [reflexivity|]. rewrite map_map. apply map_ext_in. intros e I. cbn [fst snd]. destruct (mk_rows OM I) as (k & l & R & _). rewrite R. reflexivity. }
    pose proof (mask_diag OM) as OD. assert (OK : diag_data_ok L (map (fun e => (fst e, g (snd e))) (mdiag M))).
    { constructor.
      - rewrite map_map. cbn [fst]. exact (dd_sorted OD).
      - intros e I. apply in_map_iff in I. destruct I as (e0 & <- & I). exact (dd_rows OD I).
      - intros e I. apply in_map_iff in I. destruct I as (e0 & <- & I). cbn [snd g bshape bdata]. rewrite map_length. exact (dd_full OD I). }
    assert (E2 : mask_to_diagonal proj to_dtype (orient proj M) = make_data (map (fun e => (fst e, g (snd e))) (mdiag M)) false) by (unfold mask_to_diagonal; f_equal; exact E).
    rewrite E2, make_data_id.
    - split; [exact OK|]. rewrite (vec_concat o G OL OK), (mask_vec G OL OM), concat_map, map_map. f_equal. apply map_ext_in. intros n _. unfold segm, mfill, fills.
      assert (DM : forall (D : mdata), dg (map (fun e => (fst e, g (snd e))) D) n = option_map g (dg D n)).
      { intros D. unfold dg. induction D as [|e D IH]; [reflexivity|]. cbn [map find]. change (dcol (fst e, g (snd e))) with (dcol e). destruct (dcol e =? n); [reflexivity|exact IH]. }
      rewrite DM. destruct (dg (mdiag M) n) as [B|]; [reflexivity|]. cbn [option_map]. rewrite zeros_vec, <- HF. cbn. generalize (nth n msL 0). induction n0 as [|n0 IH]; [reflexivity|]. cbn. now f_equal.
    - exact (dd_sorted OK).
    - exists 2. intros e I. apply in_map_iff in I. destruct I as (e0 & <- & I). destruct (dd_rows OD I) as (n & _ & R & _). cbn [fst]. now rewrite R.
  Qed.
  Theorem to_block_orient proj : mask_to_block S L proj (orient proj M) = mask_to_block S L true M.
  Proof.
    unfold mask_to_block, orient, mask_dagger, large_col. destruct proj; [reflexivity|]. f_equal. rewrite map_map. apply map_ext_in. intros e I. cbn [fst snd]. destruct (mk_rows OM I) as (k & l & R & _). now rewrite R.
  Qed.
  (** ** duals *)
  Lemma dagger_orient b : mask_dagger (orient b M) = orient (negb b) M.
  Proof.
    unfold orient, mask_dagger. destruct b; cbn [negb]; [reflexivity|]. rewrite map_map. cbn [fst snd]. rewrite <- map_id. apply map_ext. intros [r B]. cbn. now rewrite rev_involutive.
  Qed.
  Theorem transpose_orient b : mask_transpose (orient b M) = orient (negb b) M.
  Proof.
    rewrite <- dagger_orient. unfold mask_transpose. fold (mask_dagger (orient b M)). rewrite dagger_orient. apply make_data_id.
    - assert (SS : StronglySorted lt (map (fun e : list nat * bblk => nth 1 (fst e) 0) (orient (negb b) M))).
      { destruct b; cbn [negb]; [|exact (mk_large OM)]. rewrite (orient_small OM false). apply seq_sorted. }
      assert (RR : forall e, In e (orient (negb b) M) -> exists k l, fst e = [k; l]) by (intros e I; apply (orient_In OM) in I; destruct I as (k & l & B & _ & ->); destruct (negb b); cbn; eauto).
      unfold strictly_sorted, zrows. rewrite map_map. generalize dependent (orient (negb b) M). clear. intros D SS RR. induction D as [|e M' IH]; [constructor|].
      cbn [map] in *. apply StronglySorted_inv in SS. destruct SS as [SS FA]. constructor; [apply IH; [exact SS|intros e' I; apply RR; now right]|]. rewrite Forall_forall in *. intros z Iz. apply in_map_iff in Iz. destruct Iz as (e' & <- & I).
      specialize (FA _ (in_map (fun e : list nat * bblk => nth 1 (fst e) 0) _ _ I)). cbv beta in FA. destruct (RR e (or_introl eq_refl)) as (k & l & E). destruct (RR e' (or_intror I)) as (k' & l' & E'). rewrite E, E' in *. cbn [nth] in FA. split; [reflexivity|]. exists 1. cbn [map nth length]. split; [lia|]. split; [lia|]. intros j Hj. lia.
    - exists 2. intros e I. apply (orient_In OM) in I. destruct I as (k & l & B & _ & ->). now destruct (negb b).
  Qed.
  Lemma dual_mask : mask_ok (dual_es L) (dual_es N) M.
  Proof. constructor; [exact (mk_small OM)|exact (mk_large OM)|exact (mk_rows OM)|cbn; f_equal; exact (mk_dual OM)]. Qed.
End More.
