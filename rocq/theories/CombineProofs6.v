(** combine_legs / split_legs on dense arrays. *)
From Verif Require Import Util StableSort RowModel RowProofs GridModel GridProofs SymModel SymProofs CatSpec SpaceModel SpaceSpec SpaceProofs SpaceProofs2 SpaceProofs3 SpaceProofs5
  PipeModel PipeProofs PipeProofs2 PipeProofs3 PipeProofs4 BlockModel BlockProofs SparseModel SparseSpec SparseProofs SparseProofs2 SparseProofs3 SparseCharge SparseCompose2 SparseDense CombineModel CombineSpec CombineProofs CombineProofs2 CombineProofs3 CombineProofs4 CombineProofs5.
Set Implicit Arguments. Unset Strict Implicit.
Open Scope nat_scope.

Lemma alegs_app l l' : alegs (l ++ l') = alegs l ++ alegs l'.
Proof. apply flat_map_app. Qed.
Lemma alegs_cod ic : alegs (map (fun it => (it, false)) ic) = flat_map item_legs ic.
Proof. induction ic as [|it ic IH]; [reflexivity|]. cbn [map]. rewrite alegs_cons, IH. reflexivity. Qed.
Lemma alegs_dom id : alegs (map (fun it => (it, true)) (rev id)) = rev (flat_map item_legs id).
Proof.
  induction id as [|it id IH]; [reflexivity|]. cbn [rev flat_map]. rewrite map_app, alegs_app, IH, rev_app_distr. f_equal.
  cbn [map alegs flat_map]. rewrite app_nil_r. reflexivity.
Qed.
Lemma alegs_items ic id : alegs (leg_items ic id) = leg_order (flat_map item_legs ic) (flat_map item_legs id).
Proof. unfold leg_items, leg_order. now rewrite alegs_app, alegs_cod, alegs_dom. Qed.
Lemma nlegs_items ic id : nlegs (leg_items ic id) = leg_order (map item_leg ic) (map item_leg id).
Proof. unfold leg_items, leg_order, nlegs. rewrite map_app, !map_map. f_equal. rewrite <- map_rev. reflexivity. Qed.
Lemma fst_items ic id : map fst (leg_items ic id) = ic ++ rev id.
Proof. unfold leg_items. rewrite map_app, !map_map. cbn [fst]. now rewrite !map_id. Qed.

Section Dense.
  Variable K : Type.
  Variable o : ops K.
  Variable S : symm.
  Variable fuse : sector -> sector -> sector.
  Hypothesis G : abelian_group_laws S fuse.
  Hypothesis HA : s_abelian S = true.
  Hypothesis HD : s_drop S = true.
  Variables ic id : list item.
  Hypothesis IOK : forall it, In it (ic ++ id) -> item_ok S it.
  Notation its := (leg_items ic id).
  Notation cod := (flat_map item_legs ic).
  Notation dom := (flat_map item_legs id).
  Notation cod' := (map item_leg ic).
  Notation dom' := (map item_leg id).

  Lemma items_ok : its_ok S its.
  Proof.
    intros x Hx. unfold leg_items in Hx. apply IOK, in_or_app. apply in_app_or in Hx. destruct Hx as [H|H]; apply in_map_iff in H; destruct H as (it & <- & H); cbn; [now left|right; now apply in_rev].
  Qed.
  Lemma ok_width x : item_ok S (fst x) -> 0 < width x.
  Proof.
    destruct x as [[L|P] d]; intros H; unfold width; cbn [fst item_legs length]; [lia|]. destruct (P_eq G HA HD H) as [N _]. destruct (p_legs P); [congruence|cbn; lia].
  Qed.
  Lemma items_pos l : its_ok S l -> pos_groups l.
  Proof. intros H x Hx. apply ok_width, H, Hx. Qed.
  Lemma flags_app n l l' : forall pos, flags n pos l -> flags n (pos + wid l) l' -> flags n pos (l ++ l').
  Proof.
    induction l as [|x l IH]; intros pos F F'; [unfold wid in F'; cbn in F'; now rewrite Nat.add_0_r in F'|]. destruct F as [F1 F2]. cbn [app flags]. split; [exact F1|]. apply IH; [exact F2|]. rewrite wid_cons, Nat.add_assoc in F'. exact F'.
  Qed.
  Lemma flags_cod ic' : forall n pos, (forall it, In it ic' -> item_ok S it) -> pos + wid (map (fun it => (it, false)) ic') <= n -> flags n pos (map (fun it => (it, false)) ic').
  Proof.
    induction ic' as [|it ic' IH]; intros n pos H L; [exact I|]. cbn [map flags]. cbn [map] in L. rewrite wid_cons in L. assert (W := @ok_width (it, false) (H it (or_introl eq_refl))).
    split; [apply Nat.leb_gt; cbn [snd]; lia|]. apply IH; [intros; apply H; now right|lia].
  Qed.
  Lemma flags_dom l : forall n pos, n <= pos -> flags n pos (map (fun it => (it, true)) l).
  Proof. induction l as [|it l IH]; intros n pos L; [exact I|]. cbn [map flags]. split; [apply Nat.leb_le; exact L|]. apply IH. lia. Qed.
  Lemma items_flags : flags (length cod) 0 its.
  Proof.
    assert (E : wid (map (fun it => (it, false)) ic) = length cod) by (rewrite <- wid_alegs, alegs_cod; reflexivity).
    unfold leg_items. apply flags_app; [apply flags_cod; [intros; apply IOK, in_or_app; now left|lia]|apply flags_dom; lia].
  Qed.
  Lemma items_iflags : iflags (length ic) 0 its.
  Proof.
    unfold leg_items. assert (H : forall l i, i + length l = length ic -> iflags (length ic) i (map (fun it => (it, false)) l ++ map (fun it => (it, true)) (rev id))).
    { induction l as [|it l IH]; intros i E.
      - cbn [map app]. assert (H2 : forall l' i', length ic <= i' -> iflags (length ic) i' (map (fun it => (it, true)) l')) by (induction l' as [|y l' IH']; intros i' L; [exact I|]; cbn [map iflags]; split; [apply Nat.leb_le; exact L|]; apply IH'; lia).
        apply H2. cbn in E. lia.
      - cbn [map app iflags]. cbn in E. split; [apply Nat.leb_gt; cbn [snd]; lia|]. apply IH. lia. }
    apply H. reflexivity.
  Qed.
  Lemma Jmap_app l l' r : length r = wid (l ++ l') -> Jmap (l ++ l') r = Jmap l (firstn (wid l) r) ++ Jmap l' (skipn (wid l) r).
  Proof.
    revert r; induction l as [|x l IH]; intros r L; [reflexivity|]. rewrite wid_cons. cbn [app Jmap]. cbn [app] in L. rewrite wid_cons in L. rewrite IH by (rewrite skipn_length; lia).
    rewrite skipn_firstn_comm, firstn_firstn, Nat.min_l by lia. replace (width x + wid l - width x) with (wid l) by lia. rewrite skipn_skipn'. reflexivity.
  Qed.
  Lemma sectors_map l r : its_ok S l -> valid_idx (map nsec (alegs l)) r ->
    fuse_all S fuse (row_sectors S (nlegs l) (Jmap l r)) = fuse_all S fuse (row_sectors S (alegs l) r).
  Proof.
    revert r; induction l as [|x l IH]; intros r OK V; [reflexivity|]. destruct (its_ok_cons OK) as [O1 O2]. destruct (row_cons V) as [V1 V2].
    assert (E1 : row_sectors S (alegs (x :: l)) r = row_sectors S (olegs x) (firstn (width x) r) ++ row_sectors S (alegs l) (skipn (width x) r)).
    { rewrite alegs_cons. rewrite <- row_sectors_app by (rewrite (valid_length V1); apply map_length). now rewrite firstn_skipn. }
    assert (F1 := row_sectors_valid G (item_legs_ok O1) V1). assert (F2 := row_sectors_valid G (alegs_ok O2) V2). assert (F3 := row_sectors_valid G (nlegs_ok G HA HD O2) (J_valid G HA HD O2 V2)).
    rewrite E1, (fuse_all_app G) by assumption. rewrite <- IH by assumption. rewrite <- (item_sector G HA HD O1 V1).
    change (row_sectors S (nlegs (x :: l)) (Jmap (x :: l) r)) with (nth (iJ x (firstn (width x) r)) (es_decomp S (xleg x)) [] :: row_sectors S (nlegs l) (Jmap l (skipn (width x) r))).
    apply (fuse_all_cons G); [|assumption]. rewrite (item_sector G HA HD O1 V1). apply (fuse_all_valid G). exact F1.
  Qed.
  Lemma charge_leg_order c d r : (forall L, In L (leg_order c d) -> es_ok S L) -> valid_idx (map nsec (leg_order c d)) r ->
    (row_charge_ok S c d r <-> fuse_all S fuse (row_sectors S c (firstn (length c) r)) = fuse_all S fuse (row_sectors S (rev d) (skipn (length c) r))).
  Proof.
    intros OK V. unfold leg_order in V. rewrite map_app in V. destruct (valid_split V) as (V1 & V2 & _). rewrite map_length in V1, V2. unfold row_charge_ok.
    assert (O1 : forall L, In L c -> es_ok S L) by (intros; apply OK, in_or_app; now left). assert (O2 : forall L, In L (rev d) -> es_ok S L) by (intros; apply OK, in_or_app; now right).
    assert (F1 := row_sectors_valid G O1 V1). assert (F2 := row_sectors_valid G O2 V2).
    assert (E : row_sectors S d (rev (skipn (length c) r)) = rev (row_sectors S (rev d) (skipn (length c) r))).
    { unfold row_sectors. rewrite <- zipw_rev; [now rewrite rev_involutive|]. rewrite (valid_length V2). apply map_length. }
    rewrite E. assert (F2' : Forall (fun a : sector => sym_valid S a = true) (rev (row_sectors S (rev d) (skipn (length c) r)))) by (apply Forall_rev; exact F2).
    rewrite (fall_multiple G F1), (fall_multiple G F2'), (fuse_all_rev G F2). split; [congruence|intros ->; reflexivity].
  Qed.
  Lemma charge_map r : valid_idx (map nsec (leg_order cod dom)) r -> (row_charge_ok S cod' dom' (Jmap its r) <-> row_charge_ok S cod dom r).
  Proof.
    intros V. assert (OK := items_ok). assert (LO := alegs_ok OK). rewrite alegs_items in LO. assert (NO := nlegs_ok G HA HD OK). rewrite nlegs_items in NO.
    assert (V0 := V). rewrite <- alegs_items in V0. assert (VJ := J_valid G HA HD OK V0). rewrite nlegs_items in VJ.
    rewrite (charge_leg_order LO V), (charge_leg_order NO VJ).
    assert (W1 : wid (map (fun it => (it, false)) ic) = length cod) by (rewrite <- wid_alegs, alegs_cod; reflexivity).
    assert (EJ : Jmap its r = Jmap (map (fun it => (it, false)) ic) (firstn (length cod) r) ++ Jmap (map (fun it => (it, true)) (rev id)) (skipn (length cod) r)).
    { rewrite <- W1. apply Jmap_app. rewrite (valid_length V0), map_length. apply wid_alegs. }
    assert (LJ : length (Jmap (map (fun it => (it, false)) ic) (firstn (length cod) r)) = length cod') by (rewrite (proj1 (map_len _ _ [])), !map_length; reflexivity).
    rewrite EJ. destruct (firstn_at (Jmap (map (fun it => (it, true)) (rev id)) (skipn (length cod) r)) LJ) as [-> ->].
    unfold leg_order in V. rewrite map_app in V. destruct (valid_split V) as (V1 & V2 & _). rewrite map_length in V1, V2.
    assert (OK1 : its_ok S (map (fun it => (it, false)) ic)) by (intros x Hx; apply OK, in_or_app; now left).
    assert (OK2 : its_ok S (map (fun it => (it, true)) (rev id))) by (intros x Hx; apply OK, in_or_app; now right).
    assert (N1 : nlegs (map (fun it => (it, false)) ic) = cod') by (unfold nlegs; rewrite map_map; reflexivity).
    assert (N2 : nlegs (map (fun it => (it, true)) (rev id)) = rev dom') by (unfold nlegs; rewrite map_map, <- map_rev; reflexivity).
    assert (X1 := @sectors_map (map (fun it => (it, false)) ic) (firstn (length cod) r) OK1). rewrite alegs_cod, N1 in X1. rewrite (X1 V1).
    assert (X2 := @sectors_map (map (fun it => (it, true)) (rev id)) (skipn (length cod) r) OK2). rewrite alegs_dom, N2 in X2. rewrite (X2 V2). reflexivity.
  Qed.
  Lemma fused_parse g j : dense_idx S (leg_order cod dom) g -> fused_positions S its g j -> exists r q, okpos (alegs its) r q /\ g = locs (mults (leg_order cod dom)) r q /\ j = locs (mults (leg_order cod' dom')) (Jmap its r) (Qmap its r q).
  Proof.
    intros Hg HF. assert (OK := items_ok). assert (LO := alegs_ok OK). rewrite alegs_items in LO. destruct (locate G LO Hg) as (r & q & V & Q & ->). exists r, q.
    assert (HP : okpos (alegs its) r q) by (rewrite alegs_items; split; assumption). split; [exact HP|]. split; [reflexivity|].
    rewrite <- alegs_items in HF. rewrite <- nlegs_items. apply (proj1 (fused_locs G HA HD j OK HP)). exact HF.
  Qed.
  Lemma okpos_dense l r q : (forall L, In L l -> es_ok S L) -> okpos l r q -> dense_idx S l (locs (mults l) r q).
  Proof.
    intros LO [V Q]. unfold dense_idx. assert (E : map (es_dim S) l = map nsum (mults l)) by (unfold mults; rewrite map_map; apply map_ext_in; intros L HL; apply (p_dim_one G (LO L HL))).
    rewrite E. apply locs_valid; [unfold mults; rewrite map_map; exact V|exact Q].
  Qed.
  Theorem dense_combine A : tensor_ok S cod dom A ->
    exists R, combine_legs o (length cod) (leg_order cod dom) (leg_order cod' dom') (groups_of 0 its) A = Some R /\ tensor_ok S cod' dom' R /\
    forall g j, dense_idx S (leg_order cod dom) g -> fused_positions S its g j -> entry o S cod' dom' R j = entry o S cod dom A g.
  Proof.
    intros T. assert (OK := items_ok). assert (DA := to_data T). rewrite <- alegs_items in DA. destruct (@combine_legs_ok K o S fuse G HA HD its (length cod) OK items_flags (items_pos OK) A DA) as (R & ER & DR & VR & KR).
    exists R. rewrite <- alegs_items, <- nlegs_items. split; [exact ER|].
    assert (TR : tensor_ok S cod' dom' R).
    { constructor; [rewrite <- nlegs_items; apply (nlegs_ok G HA HD OK)|rewrite <- nlegs_items; exact DR|]. intros e He. destruct (KR (fst e) (in_map fst _ _ He)) as (a & Ia & E). rewrite E.
      apply charge_map; [apply (do_valid (to_data T) Ia)|apply (to_charge T Ia)]. }
    split; [exact TR|]. intros g j Hg HF. rewrite alegs_items in Hg. destruct (fused_parse Hg HF) as (r & q & HP & -> & ->). assert (HQ := JQ_valid G HA HD OK HP). rewrite nlegs_items in HQ.
    rewrite (entry_locs o G TR (proj1 HQ) (proj2 HQ)). assert (HP' := HP). rewrite alegs_items in HP'. rewrite (entry_locs o G T (proj1 HP') (proj2 HP')). apply VR. exact HP.
  Qed.
  Theorem dense_split R : tensor_ok S cod' dom' R ->
    tensor_ok S cod dom (split_legs o (length ic) (ic ++ rev id) (leg_order cod dom) R) /\
    forall g j, dense_idx S (leg_order cod dom) g -> fused_positions S its g j -> entry o S cod dom (split_legs o (length ic) (ic ++ rev id) (leg_order cod dom) R) g = entry o S cod' dom' R j.
  Proof.
    intros T. assert (OK := items_ok). assert (DR := to_data T). rewrite <- nlegs_items in DR. assert (X := @split_legs_ok K o S fuse G HA HD its (length ic) OK items_iflags R DR). cbv zeta in X.
    rewrite fst_items, alegs_items in X. set (D := split_legs _ _ _ _ _) in *. destruct X as (DD & VD & KD).
    assert (TD : tensor_ok S cod dom D).
    { constructor; [rewrite <- alegs_items; apply (alegs_ok OK)|exact DD|]. intros e He. destruct (KD (fst e) (in_map fst _ _ He)) as (V & I). apply charge_map; [exact V|].
      apply in_map_iff in I. destruct I as (a & E & Ia). rewrite <- E. apply (to_charge T Ia). }
    split; [exact TD|]. intros g j Hg HF. destruct (fused_parse Hg HF) as (r & q & HP & -> & ->). assert (HQ := JQ_valid G HA HD OK HP). rewrite nlegs_items in HQ.
    rewrite (entry_locs o G T (proj1 HQ) (proj2 HQ)). assert (HP' := HP). rewrite alegs_items in HP'. rewrite (entry_locs o G TD (proj1 HP') (proj2 HP')). apply VD. exact HP'.
  Qed.
  Theorem fused_bijection :
    (forall g, dense_idx S (leg_order cod dom) g -> exists j, fused_positions S its g j /\ dense_idx S (leg_order cod' dom') j /\ forall j', fused_positions S its g j' -> j' = j) /\
    (forall j, dense_idx S (leg_order cod' dom') j -> exists g, dense_idx S (leg_order cod dom) g /\ fused_positions S its g j /\
       forall g', dense_idx S (leg_order cod dom) g' -> fused_positions S its g' j -> g' = g).
  Proof.
    assert (OK := items_ok). assert (LO := alegs_ok OK). rewrite alegs_items in LO. assert (NO := nlegs_ok G HA HD OK). rewrite nlegs_items in NO. split.
    - intros g Hg. destruct (locate G LO Hg) as (r & q & V & Q & ->). assert (HP : okpos (alegs its) r q) by (rewrite alegs_items; split; assumption).
      exists (locs (mults (leg_order cod' dom')) (Jmap its r) (Qmap its r q)). rewrite <- alegs_items, <- nlegs_items. split; [apply (proj2 (fused_locs G HA HD _ OK HP)); reflexivity|].
      split; [apply okpos_dense; [rewrite nlegs_items; exact NO|apply (JQ_valid G HA HD OK HP)]|]. intros j' HF. apply (proj1 (fused_locs G HA HD _ OK HP)). exact HF.
    - intros j Hj. destruct (locate G NO Hj) as (b & x & V & Q & ->). rewrite <- nlegs_items in V, Q. destruct (JQ_surj G HA HD OK (conj V Q)) as (r & q & HP & E1 & E2).
      exists (locs (mults (leg_order cod dom)) r q). rewrite <- alegs_items, <- nlegs_items. split; [apply okpos_dense; [rewrite alegs_items; exact LO|exact HP]|].
      split; [apply (proj2 (fused_locs G HA HD _ OK HP)); now rewrite E1, E2|]. intros g' Hg' HF. rewrite alegs_items in Hg'. destruct (fused_parse Hg' HF) as (r' & q' & HP' & -> & E). rewrite <- alegs_items.
      rewrite <- nlegs_items in E. assert (HQ' := JQ_valid G HA HD OK HP'). apply locs_inj in E; [|unfold mults; rewrite map_map; exact V|exact Q|unfold mults; rewrite map_map; apply HQ'|apply HQ'].
      destruct E as [E3 E4]. destruct (JQ_inj G HA HD OK HP' HP) as [-> ->]; [congruence|congruence|reflexivity].
  Qed.
End Dense.
