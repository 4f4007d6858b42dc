(** The block-sparse operations on the level of dense arrays. *)
From Coq Require Import Ring.
From Verif Require Import Util StableSort RowModel RowProofs GridModel GridProofs SymModel SymProofs CatSpec Sums SpaceModel SpaceSpec SpaceProofs SpaceProofs2 SpaceProofs3 SpaceProofs5
  PipeModel PipeProofs PipeProofs2 PipeProofs4 BlockModel BlockProofs SparseModel SparseSpec SparseProofs SparseProofs2 SparseProofs3 SparseProofs4 SparseProofs5 SparseProofs6 SparseCharge SparseCompose SparseCompose2 SparseCompose3 SparseCompose4.
Set Implicit Arguments. Unset Strict Implicit.
Open Scope nat_scope.

Section Dense.
  Variable K : Type.
  Variable o : ops K.
  Hypothesis SR : semi_ring_theory (o0 o) (o1 o) (oadd o) (omul o) (@eq K).
  Add Ring Kring : SR.
  Notation block := (blk K).
  Notation adata := (list (list nat * blk K)).
  Notation sval := (sval o).
  Variable S : symm.
  Variable fuse : sector -> sector -> sector.
  Hypothesis G : abelian_group_laws S fuse.
  Implicit Types (cod dom legs : list espace) (D : adata).

  Lemma entry_locs cod dom D b q : tensor_ok S cod dom D -> valid_idx (map nsec (leg_order cod dom)) b -> valid_idx (shp (mults (leg_order cod dom)) b) q ->
    entry o S cod dom D (locs (mults (leg_order cod dom)) b q) = sval D b q.
  Proof. intros T V W. unfold entry. apply (sval_ok o G (to_legs T) (to_data T) V W). Qed.
  Lemma locate legs g : (forall L, In L legs -> es_ok S L) -> valid_idx (map (es_dim S) legs) g -> exists b q, valid_idx (map nsec legs) b /\ valid_idx (shp (mults legs) b) q /\ g = locs (mults legs) b q.
  Proof. intros OK V. apply (dense_locate G OK V). Qed.
  Lemma row_len legs b : valid_idx (map nsec legs) b -> length b = length (mults legs).
  Proof. intros V. rewrite (valid_length V). unfold mults. now rewrite !map_length. Qed.
  Lemma pos_len legs b q : valid_idx (map nsec legs) b -> valid_idx (shp (mults legs) b) q -> length q = length (mults legs).
  Proof. intros V W. rewrite (valid_length W). apply shp_len. now apply row_len. Qed.

  Lemma dense_lincomb cod dom a V b W : tensor_ok S cod dom V -> tensor_ok S cod dom W ->
    tensor_ok S cod dom (linear_combination o a V b W) /\
    forall g, dense_idx S (leg_order cod dom) g -> entry o S cod dom (linear_combination o a V b W) g = oadd o (omul o a (entry o S cod dom V g)) (omul o b (entry o S cod dom W g)).
  Proof.
    intros HV HW. assert (T : tensor_ok S cod dom (linear_combination o a V b W)).
    { constructor; [apply (to_legs HV)|apply (lincomb_ok o a b (to_data HV) (to_data HW))|apply (lincomb_charge (to_data HV) (to_data HW) (to_charge HV) (to_charge HW))]. }
    split; auto. intros g Hg. destruct (locate (to_legs HV) Hg) as (r & q & Vr & Vq & ->).
    rewrite (entry_locs T Vr Vq), (entry_locs HV Vr Vq), (entry_locs HW Vr Vq). apply (lincomb_sval SR a b (to_data HV) (to_data HW) Vq).
  Qed.
  Lemma dense_mul cod dom is_zero a B : (forall x, is_zero x = true -> x = o0 o) -> tensor_ok S cod dom B ->
    tensor_ok S cod dom (mul_data o is_zero a B) /\
    forall g, dense_idx S (leg_order cod dom) g -> entry o S cod dom (mul_data o is_zero a B) g = omul o a (entry o S cod dom B g).
  Proof.
    intros HZ HB. assert (T : tensor_ok S cod dom (mul_data o is_zero a B)).
    { constructor; [apply (to_legs HB)|apply (mul_ok o is_zero a (to_data HB))|]. intros e He. unfold mul_data in He. destruct (is_zero a); [contradiction|].
      apply in_map_iff in He. destruct He as (x & <- & Hx). apply (to_charge HB Hx). }
    split; auto. intros g Hg. destruct (locate (to_legs HB) Hg) as (r & q & Vr & Vq & ->).
    rewrite (entry_locs T Vr Vq), (entry_locs HB Vr Vq). apply (mul_sval SR a (to_data HB) HZ Vq).
  Qed.
  Lemma leg_order_rev cod dom : rev (leg_order cod dom) = leg_order dom cod.
  Proof. unfold leg_order. rewrite rev_app_distr, rev_involutive. reflexivity. Qed.
  Lemma mults_rev legs : mults (rev legs) = rev (mults legs).
  Proof. apply map_rev. Qed.
  Lemma dense_dagger cod dom A : oconj o (o0 o) = o0 o -> tensor_ok S cod dom A ->
    tensor_ok S dom cod (dagger_data o A) /\
    forall g, dense_idx S (leg_order cod dom) g -> entry o S dom cod (dagger_data o A) (rev g) = oconj o (entry o S cod dom A g).
  Proof.
    intros C0 HA. destruct (dagger_ok o (to_data HA)) as [DD DS]. rewrite leg_order_rev in DD.
    assert (T : tensor_ok S dom cod (dagger_data o A)).
    { constructor; auto.
      - intros L HL. apply (to_legs HA). rewrite <- leg_order_rev in HL. now apply in_rev in HL.
      - intros e He. unfold dagger_data in He. apply make_data_In in He. apply in_map_iff in He. destruct He as (x & <- & Hx). cbn [fst]. apply dagger_charge; [|apply (to_charge HA Hx)].
        rewrite (valid_length (do_valid (to_data HA) Hx)), map_length. unfold leg_order. now rewrite app_length, rev_length. }
    split; auto. intros g Hg. destruct (locate (to_legs HA) Hg) as (r & q & Vr & Vq & ->). rewrite <- locs_rev by (eauto using row_len, pos_len).
    rewrite <- mults_rev, leg_order_rev. rewrite (entry_locs T).
    - rewrite (entry_locs HA Vr Vq). now apply DS.
    - rewrite <- leg_order_rev, map_rev. now apply (proj1 (valid_rev _ _)) in Vr.
    - rewrite <- leg_order_rev, mults_rev, shp_rev by now apply row_len. now apply (proj1 (valid_rev _ _)) in Vq.
  Qed.
  Lemma es_dim_mults L L' : es_ok S L -> es_ok S L' -> es_mults L = es_mults L' -> es_dim S L = es_dim S L'.
  Proof. intros OK OK' E. rewrite (p_dim_one G OK), (p_dim_one G OK'). now rewrite E. Qed.
  Lemma dense_permute cod dom A ci di : let legs := leg_order cod dom in let k := length cod in let p := ci ++ rev di in
    tensor_ok S cod dom A -> is_perm (length legs) p ->
    let cod' := map (as_codomain_leg k legs) ci in let dom' := map (as_domain_leg k legs) di in
    tensor_ok S cod' dom' (permute_data o A p) /\
    forall g, dense_idx S legs g -> dense_idx S (leg_order cod' dom') (take 0 g p) /\ entry o S cod' dom' (permute_data o A p) (take 0 g p) = entry o S cod dom A g.
  Proof.
    intros legs k p HA P cod' dom'. destruct (permute_ok o (to_data HA) P) as [DD DS].
    assert (EM : mults (leg_order cod' dom') = take [] (mults legs) p) by apply perm_mults.
    assert (F := is_perm_Forall P).
    assert (OK' : forall L, In L (leg_order cod' dom') -> es_ok S L) by (apply (perm_legs_ok G (to_legs HA) F)).
    assert (T : tensor_ok S cod' dom' (permute_data o A p)).
    { constructor; auto.
      - apply (@data_ok_mults _ (take noleg legs p)); [rewrite mults_take; auto|exact DD].
      - intros e He. unfold permute_data in He. apply make_data_In in He. apply in_map_iff in He. destruct He as (x & <- & Hx). cbn [fst].
        apply (perm_charge G (to_legs HA) P (do_valid (to_data HA) Hx) (to_charge HA Hx)). }
    split; auto. intros g Hg. destruct (locate (to_legs HA) Hg) as (r & q & Vr & Vq & ->). fold legs in Vr, Vq |- *.
    assert (LR : length r = length (mults legs)) by now apply row_len.
    assert (FM : Forall (fun i => i < length (mults legs)) p) by (unfold mults; now rewrite map_length).
    assert (V' : valid_idx (map nsec (leg_order cod' dom')) (take 0 r p)).
    { rewrite (@nsec_mults _ (take noleg legs p)) by (rewrite mults_take; auto). rewrite nsec_take. apply valid_take; auto. now rewrite map_length. }
    assert (W' : valid_idx (shp (mults (leg_order cod' dom')) (take 0 r p)) (take 0 q p)).
    { rewrite EM, shp_take by auto. apply valid_take; auto. rewrite shp_len by auto. exact FM. }
    assert (EL : take 0 (locs (mults legs) r q) p = locs (mults (leg_order cod' dom')) (take 0 r p) (take 0 q p)).
    { rewrite EM. symmetry. apply locs_take; auto. now apply (pos_len Vr Vq). }
    rewrite EL. split.
    - unfold dense_idx. rewrite (dims_eq G OK'). apply locs_valid; auto. now rewrite <- nsecs_eq.
    - rewrite (entry_locs T V' W'). etransitivity; [|symmetry; apply (entry_locs HA Vr Vq)]. apply (DS r q Vr Vq).
  Qed.
  Lemma dense_app (l1 l2 : list espace) g1 g2 : dense_idx S l1 g1 -> dense_idx S l2 g2 -> dense_idx S (l1 ++ l2) (g1 ++ g2).
  Proof. unfold dense_idx. intros H1 H2. rewrite map_app. apply valid_app; auto. apply (valid_length H1). Qed.
  Lemma mults_app (l1 l2 : list espace) : mults (l1 ++ l2) = mults l1 ++ mults l2.
  Proof. apply map_app. Qed.
  Lemma valid_pos_app (l1 l2 : list espace) b1 b2 q1 q2 : valid_idx (map nsec l1) b1 -> valid_idx (shp (mults l1) b1) q1 -> valid_idx (shp (mults l2) b2) q2 -> valid_idx (shp (mults (l1 ++ l2)) (b1 ++ b2)) (q1 ++ q2).
  Proof. intros V W W2. rewrite mults_app, shp_app by now apply row_len. apply valid_app; auto. apply (valid_length W). Qed.
  Lemma dense_outer codA domA codB domB A B : tensor_ok S codA domA A -> tensor_ok S codB domB B ->
    tensor_ok S (codA ++ codB) (domA ++ domB) (outer_data o (length codA) A B) /\
    forall g1 g2 g, dense_idx S codA g1 -> dense_idx S (rev domA) g2 -> dense_idx S (leg_order codB domB) g ->
      entry o S (codA ++ codB) (domA ++ domB) (outer_data o (length codA) A B) (g1 ++ g ++ g2) = omul o (entry o S codA domA A (g1 ++ g2)) (entry o S codB domB B g).
  Proof.
    intros HA HB. destruct (outer_ok SR (to_data HA) (to_data HB)) as [DD DS].
    assert (EL : leg_order (codA ++ codB) (domA ++ domB) = codA ++ leg_order codB domB ++ rev domA) by (unfold leg_order; rewrite rev_app_distr, !app_assoc; reflexivity).
    assert (OKA := to_legs HA). assert (OKB := to_legs HB).
    assert (T : tensor_ok S (codA ++ codB) (domA ++ domB) (outer_data o (length codA) A B)).
    { constructor.
      - intros L HL. rewrite EL in HL. rewrite !in_app_iff in HL. unfold leg_order in OKA at 1. destruct HL as [HL|[HL|HL]]; [apply OKA| |apply OKA]; [| |]; try (apply in_app_iff; now auto). apply OKB. exact HL.
      - rewrite EL. exact DD.
      - intros e He. apply outer_pairs in He. destruct He as (ea & eb & Ha & Hb & ->). cbn [fst].
        assert (VA := do_valid (to_data HA) Ha). destruct (row_parts VA) as (r1 & r2 & E & W1 & W2 & L1). rewrite E.
        assert (EF : firstn (length codA) (r1 ++ r2) = r1) by (rewrite <- L1; apply firstn_len). assert (ES' : skipn (length codA) (r1 ++ r2) = r2) by (rewrite <- L1; apply skipn_len). rewrite EF, ES'.
        apply (outer_charge G OKA OKB W1 W2 (do_valid (to_data HB) Hb)); [rewrite <- E; apply (to_charge HA Ha)|apply (to_charge HB Hb)]. }
    split; auto. intros g1 g2 g H1 H2 H.
    assert (O1 : forall L, In L codA -> es_ok S L) by (intros; apply OKA, in_app_iff; auto). assert (O2 : forall L, In L (rev domA) -> es_ok S L) by (intros; apply OKA, in_app_iff; auto).
    destruct (locate O1 H1) as (b1 & q1 & V1 & W1 & ->). destruct (locate O2 H2) as (b2 & q2 & V2 & W2 & ->). destruct (locate OKB H) as (b & q & V & W & ->).
    rewrite <- (@locs_app (mults (leg_order codB domB)) (mults (rev domA))) by (eauto using row_len, pos_len).
    rewrite <- (@locs_app (mults codA)) by (eauto using row_len, pos_len). rewrite <- (@locs_app (mults codA)) by (eauto using row_len, pos_len).
    rewrite <- !mults_app. rewrite <- EL. change (codA ++ rev domA) with (leg_order codA domA).
    rewrite (entry_locs T).
    - rewrite (entry_locs HA), (entry_locs HB V W).
      + apply DS; auto.
      + unfold leg_order. now apply valid_row_app.
      + unfold leg_order. now apply valid_pos_app.
    - rewrite EL. apply valid_row_app; auto. now apply valid_row_app.
    - rewrite EL. apply valid_pos_app; auto. now apply valid_pos_app.
  Qed.
  Lemma dense_inner cod dom A B (dg : bool) : leg_order cod dom <> [] -> tensor_ok S cod dom A -> (if dg then tensor_ok S cod dom B else tensor_ok S dom cod B) -> (dg = true -> oconj o (o0 o) = o0 o) ->
    inner_data o (map nsec (leg_order cod dom)) A B dg =
    Some (osum o (map (fun g => if dg then omul o (oconj o (entry o S cod dom A g)) (entry o S cod dom B g) else omul o (entry o S cod dom A g) (entry o S dom cod B (rev g))) (positions S (leg_order cod dom)))).
  Proof.
    intros NE HA HB C0. destruct (inner_data o (map nsec (leg_order cod dom)) A B dg) as [x|] eqn:EI.
    2:{ exfalso. unfold inner_data in EI. destruct (map nsec (leg_order cod dom)) as [|? ?] eqn:EN; [|discriminate]. apply map_eq_nil in EN. contradiction. }
    f_equal. assert (HB' : data_ok (if dg then leg_order cod dom else rev (leg_order cod dom)) B) by (destruct dg; [apply (to_data HB)|rewrite leg_order_rev; apply (to_data HB)]).
    rewrite (inner_ok SR (to_data HA) HB' C0 EI). unfold positions. rewrite (dense_sum SR G (to_legs HA)). apply (sum_ext o). intros b Hb. apply make_grid_In in Hb. apply (sum_ext o). intros q Hq. apply make_grid_In in Hq.
    rewrite (entry_locs HA Hb Hq). destruct dg; [now rewrite (entry_locs HB Hb Hq)|].
    rewrite <- locs_rev by (eauto using row_len, pos_len). rewrite <- mults_rev, leg_order_rev. rewrite (entry_locs HB); auto.
    - rewrite <- leg_order_rev, map_rev. now apply (proj1 (valid_rev _ _)) in Hb.
    - rewrite <- leg_order_rev, mults_rev, shp_rev by now apply row_len. now apply (proj1 (valid_rev _ _)) in Hq.
  Qed.
  Lemma dense_trace cod A : tensor_ok S cod cod A -> trace_full_data o (length cod) A = osum o (map (fun g => entry o S cod cod A (g ++ rev g)) (positions S cod)).
  Proof.
    intros HA. rewrite (trace_full_ok SR (to_data HA)). assert (O1 : forall L, In L cod -> es_ok S L) by (intros; apply (to_legs HA), in_app_iff; auto).
    unfold positions. rewrite (dense_sum SR G O1). apply (sum_ext o). intros b Hb. apply make_grid_In in Hb. apply (sum_ext o). intros q Hq. apply make_grid_In in Hq.
    rewrite <- locs_rev by (eauto using row_len, pos_len). rewrite <- (@locs_app (mults cod)) by (eauto using row_len, pos_len). rewrite <- mults_rev, <- mults_app. change (cod ++ rev cod) with (leg_order cod cod). symmetry. apply (entry_locs HA).
    - apply valid_row_app; auto. rewrite map_rev. now apply (proj1 (valid_rev _ _)) in Hb.
    - apply valid_pos_app; auto. rewrite mults_rev, shp_rev by now apply row_len. now apply (proj1 (valid_rev _ _)) in Hq.
  Qed.
  Lemma dense_compose cod mid dom A B : cod ++ mid ++ dom <> [] -> tensor_ok S cod mid A -> tensor_ok S mid dom B ->
    exists R, compose o S cod mid dom A B = Some R /\ tensor_ok S cod dom R /\
    forall ga gb, dense_idx S cod ga -> dense_idx S (rev dom) gb ->
      entry o S cod dom R (ga ++ gb) = osum o (map (fun gc => omul o (entry o S cod mid A (ga ++ rev gc)) (entry o S mid dom B (gc ++ gb))) (positions S mid)).
  Proof.
    intros NE HA HB. assert (OKA := to_legs HA). assert (OKB := to_legs HB).
    assert (Oc : forall L, In L cod -> es_ok S L) by (intros; apply OKA, in_app_iff; auto). assert (Om : forall L, In L mid -> es_ok S L) by (intros; apply OKB, in_app_iff; auto).
    assert (Od : forall L, In L (rev dom) -> es_ok S L) by (intros; apply OKB, in_app_iff; auto).
    assert (OK : forall L, In L (cod ++ mid ++ dom) -> es_ok S L). { intros L. rewrite !in_app_iff. intros [H|[H|H]]; [apply Oc, H|apply Om, H|]. apply Od, (proj1 (in_rev _ _)), H. }
    destruct (compose_ok SR G OK NE (to_data HA) (to_data HB) (to_charge HA) (to_charge HB)) as (R & ER & DR & CR & SV). exists R. split; [exact ER|].
    assert (T : tensor_ok S cod dom R). { constructor; auto. intros L HL. unfold leg_order in HL. apply in_app_iff in HL. destruct HL; auto. }
    split; auto. intros ga gb Ha Hb. destruct (locate Oc Ha) as (ra & qa & Va & Wa & ->). destruct (locate Od Hb) as (rb & qb & Vb & Wb & ->).
    rewrite <- (@locs_app (mults cod)) by (eauto using row_len, pos_len). rewrite <- mults_app. change (cod ++ rev dom) with (leg_order cod dom). rewrite (entry_locs T); [|now apply valid_row_app|now apply valid_pos_app].
    rewrite (SV ra rb qa qb Va Vb Wa Wb). unfold contraction, positions. rewrite (dense_sum SR G Om). apply (sum_ext o). intros rc Hc. apply make_grid_In in Hc. apply (sum_ext o). intros qc Hq. apply make_grid_In in Hq.
    rewrite <- (@locs_app (mults mid)) by (eauto using row_len, pos_len). rewrite <- (locs_rev (row_len Hc) (pos_len Hc Hq)). rewrite <- mults_rev.
    assert (Hc' : valid_idx (map nsec (rev mid)) (rev rc)) by (rewrite map_rev; now apply (proj1 (valid_rev _ _)) in Hc).
    assert (Hq' : valid_idx (shp (mults (rev mid)) (rev rc)) (rev qc)) by (rewrite mults_rev, (shp_rev (row_len Hc)); now apply (proj1 (valid_rev _ _)) in Hq).
    rewrite <- (@locs_app (mults cod)) by (eauto using row_len, pos_len). rewrite <- !mults_app. change (cod ++ rev mid) with (leg_order cod mid). change (mid ++ rev dom) with (leg_order mid dom).
    rewrite (entry_locs HA); [|now apply valid_row_app|now apply valid_pos_app]. rewrite (entry_locs HB); [|now apply valid_row_app|now apply valid_pos_app]. reflexivity.
  Qed.
End Dense.
