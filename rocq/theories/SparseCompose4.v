(** compose is the contraction of the two arrays. *)
From Coq Require Import Ring.
From Verif Require Import Util StableSort RowModel RowProofs GridModel GridProofs SymModel SymProofs CatSpec Sums SpaceModel SpaceSpec SpaceProofs SpaceProofs2 SpaceProofs3
  PipeModel PipeProofs PipeProofs2 PipeProofs4 BlockModel BlockProofs SparseModel SparseSpec SparseProofs SparseProofs2 SparseProofs3 SparseProofs4 SparseProofs5 SparseProofs6 SparseCharge SparseCompose SparseCompose2 SparseCompose3.
Set Implicit Arguments. Unset Strict Implicit.
Open Scope nat_scope.

Section Compose.
  Variable K : Type.
  Variable o : ops K.
  Hypothesis SR : semi_ring_theory (o0 o) (o1 o) (oadd o) (omul o) (@eq K).
  Add Ring Kring : SR.
  Notation block := (blk K).
  Notation adata := (list (list nat * blk K)).
  Notation sval := (sval o).
  (** contraction over the sectors [rc] of the middle legs and the positions [qc] in the sectors *)
  Definition contraction (mid : list espace) (A B : adata) (ra rb qa qb : list nat) : K :=
    osum o (map (fun rc => osum o (map (fun qc => omul o (sval A (ra ++ rev rc) (qa ++ rev qc)) (sval B (rc ++ rb) (qc ++ qb))) (make_grid (shp (mults mid) rc) true))) (make_grid (map nsec mid) true)).
  Section Pairs.
    Variables (cod mid dom : list espace) (A B : adata).
    Hypothesis HA : data_ok (cod ++ rev mid) A.
    Hypothesis HB : data_ok (mid ++ rev dom) B.
    Lemma step1 ra rb qa qb rc : osum o (map (fun qc => omul o (sval A (ra ++ rev rc) (qa ++ rev qc)) (sval B (rc ++ rb) (qc ++ qb))) (make_grid (shp (mults mid) rc) true)) =
      osum o (map (fun ea => osum o (map (fun eb => if row_dec (fst ea) (ra ++ rev rc) then if row_dec (fst eb) (rc ++ rb) then bcontract o (shp (mults mid) rc) (snd ea) (snd eb) qa qb else o0 o else o0 o) B)) A).
    Proof.
      assert (E : forall qc, omul o (sval A (ra ++ rev rc) (qa ++ rev qc)) (sval B (rc ++ rb) (qc ++ qb)) =
        osum o (map (fun ea => osum o (map (fun eb => if row_dec (fst ea) (ra ++ rev rc) then if row_dec (fst eb) (rc ++ rb) then omul o (bat o (snd ea) (qa ++ rev qc)) (bat o (snd eb) (qc ++ qb)) else o0 o else o0 o) B)) A)).
      { intros qc. rewrite (sval_sum SR _ _ (data_ok_NoDup HA)), (sval_sum SR _ _ (data_ok_NoDup HB)). rewrite <- (sum_mul_r SR). apply (sum_ext o). intros ea _. rewrite <- (sum_mul_l SR). apply (sum_ext o). intros eb _.
        destruct (row_dec (fst ea) (ra ++ rev rc)); destruct (row_dec (fst eb) (rc ++ rb)); ring. }
      rewrite (sum_ext o (g := fun qc => osum o (map (fun ea => osum o (map (fun eb => if row_dec (fst ea) (ra ++ rev rc) then if row_dec (fst eb) (rc ++ rb) then omul o (bat o (snd ea) (qa ++ rev qc)) (bat o (snd eb) (qc ++ qb)) else o0 o else o0 o) B)) A))) by (intros; apply E).
      rewrite (sum_swap SR). apply (sum_ext o). intros ea _. rewrite (sum_swap SR). apply (sum_ext o). intros eb _.
      destruct (row_dec (fst ea) (ra ++ rev rc)); [|now apply (sum_zero SR)]. destruct (row_dec (fst eb) (rc ++ rb)); [|now apply (sum_zero SR)]. reflexivity.
    Qed.
    Lemma pairsum_contraction ra rb qa qb : length ra = length cod -> pairsum o cod mid A B ra rb qa qb = contraction mid A B ra rb qa qb.
    Proof.
      intros La. unfold contraction. rewrite (sum_ext o (g := fun rc => osum o (map (fun ea => osum o (map (fun eb => if row_dec (fst ea) (ra ++ rev rc) then if row_dec (fst eb) (rc ++ rb) then bcontract o (shp (mults mid) rc) (snd ea) (snd eb) qa qb else o0 o else o0 o) B)) A))) by (intros; apply step1).
      rewrite (sum_swap SR). unfold pairsum. apply (sum_ext o). intros ea Hea. rewrite (sum_swap SR). apply (sum_ext o). intros eb Heb.
      destruct (rowA HA Hea) as (VA & VC & _). destruct (rowB HB Heb) as (VM & VB & _).
      set (c := if row_dec (firstn (length cod) (fst ea)) ra then if row_dec (skipn (length mid) (fst eb)) rb then if row_dec (rev (skipn (length cod) (fst ea))) (firstn (length mid) (fst eb)) then true else false else false else false).
      assert (Hc : c = true <-> firstn (length cod) (fst ea) = ra /\ skipn (length mid) (fst eb) = rb /\ rev (skipn (length cod) (fst ea)) = firstn (length mid) (fst eb)).
      { unfold c. destruct (row_dec (firstn (length cod) (fst ea)) ra); destruct (row_dec (skipn (length mid) (fst eb)) rb); destruct (row_dec (rev (skipn (length cod) (fst ea))) (firstn (length mid) (fst eb))); split; intros; try tauto; discriminate. }
      transitivity (if c then bcontract o (shp (mults mid) (firstn (length mid) (fst eb))) (snd ea) (snd eb) qa qb else o0 o).
      { unfold c. now repeat destruct (row_dec _ _). }
      destruct (Bool.bool_dec c true) as [C|C].
      - rewrite C. apply Hc in C. destruct C as (C1 & C2 & C3). symmetry.
        assert (Ea : fst ea = ra ++ rev (firstn (length mid) (fst eb))) by (rewrite <- C3, rev_involutive, <- C1; symmetry; apply firstn_skipn).
        assert (Eb : fst eb = firstn (length mid) (fst eb) ++ rb) by (rewrite <- C2; symmetry; apply firstn_skipn).
        rewrite (sum_single SR (x := firstn (length mid) (fst eb))).
        + destruct (row_dec (fst ea) (ra ++ rev (firstn (length mid) (fst eb)))); [|contradiction]. destruct (row_dec (fst eb) (firstn (length mid) (fst eb) ++ rb)); [|contradiction]. reflexivity.
        + apply make_grid_NoDup.
        + now apply make_grid_In.
        + intros rc Hrc NE. destruct (row_dec (fst ea) (ra ++ rev rc)) as [E1|]; auto. destruct (row_dec (fst eb) (rc ++ rb)) as [E2|]; auto. exfalso. apply NE.
          rewrite E1 in Ea. apply app_inv_head in Ea. now apply rev_inj in Ea.
      - destruct c; [congruence|]. symmetry. apply (sum_zero SR). intros rc Hrc. apply make_grid_In in Hrc. assert (Lc := valid_length Hrc). rewrite map_length in Lc.
        destruct (row_dec (fst ea) (ra ++ rev rc)) as [E1|]; auto. destruct (row_dec (fst eb) (rc ++ rb)) as [E2|]; auto. exfalso. apply C, Hc.
        rewrite E1, E2, <- La, <- Lc, !firstn_len, !skipn_len, rev_involutive. auto.
    Qed.
  End Pairs.

  (** without contracted legs *)
  Section NoContraction.
    Variables (cod dom : list espace) (A B : adata).
    Hypothesis HA : data_ok cod A.
    Hypothesis HB : data_ok dom B.
    Lemma grid2_sorted n m : StronglySorted (fun r r' => lex_lt (map Z.of_nat r) (map Z.of_nat r')) (make_grid [n; m] false).
    Proof.
      apply StronglySorted_impl with (R := fun r r' => flat_index [n; m] false r < flat_index [n; m] false r').
      - intros r r' Hr Hr' H. apply make_grid_In in Hr. apply make_grid_In in Hr'. now apply (fkey_lt Hr Hr').
      - assert (Q := StronglySorted_map lt (flat_index [n; m] false) (make_grid [n; m] false)). apply Q. rewrite make_grid_index. apply seq_sorted.
    Qed.
    Lemma no_contraction_In e : In e (compose_no_contraction o A B) <-> exists ea eb, In ea A /\ In eb B /\ e = (fst ea ++ fst eb, bouter o (snd ea) (snd eb)).
    Proof.
      unfold compose_no_contraction. cbn [make_data]. rewrite in_map_iff. split.
      - intros (ij & <- & H). apply make_grid_In in H. inversion H as [|i n l l' Hi H1]; subst. inversion H1 as [|j m l1 l2 Hj H2]; subst. inversion H2; subst. cbn [nth].
        exists (nth i A (noentry K)), (nth j B (noentry K)). split; [|split]; auto; now apply nth_In.
      - intros (ea & eb & Hea & Heb & ->). apply (In_nth _ _ (noentry K)) in Hea. apply (In_nth _ _ (noentry K)) in Heb. destruct Hea as (i & Hi & <-). destruct Heb as (j & Hj & <-).
        exists [i; j]. split; auto. apply make_grid_In. repeat constructor; auto.
    Qed.
    Lemma no_contraction_ok : data_ok (cod ++ dom) (compose_no_contraction o A B) /\
      forall ra rb qa qb, valid_idx (map nsec cod) ra -> valid_idx (map nsec dom) rb -> valid_idx (shp (mults cod) ra) qa -> valid_idx (shp (mults dom) rb) qb ->
      sval (compose_no_contraction o A B) (ra ++ rb) (qa ++ qb) = omul o (sval A ra qa) (sval B rb qb).
    Proof.
      assert (D : data_ok (cod ++ dom) (compose_no_contraction o A B)).
      { split.
        - unfold strictly_sorted, zrows, compose_no_contraction. cbn [make_data]. rewrite !map_map. cbn [fst]. apply StronglySorted_map.
          eapply StronglySorted_impl; [|apply grid2_sorted]. intros r r' Hr Hr' H. apply make_grid_In in Hr. apply make_grid_In in Hr'.
          inversion Hr as [|i n l l' Hi H1]; subst. inversion H1 as [|j m l1 l2 Hj H2]; subst. inversion H2; subst.
          inversion Hr' as [|i' n' l3 l3' Hi' H1']; subst. inversion H1' as [|j' m' l4 l4' Hj' H2']; subst. inversion H2'; subst. cbn [nth map] in *.
          assert (VA := fun k Hk => valid_length (do_valid HA (@nth_In _ k A (noentry K) Hk))). assert (VB := fun k Hk => valid_length (do_valid HB (@nth_In _ k B (noentry K) Hk))).
          rewrite !map_app. apply lex_lt_app; [rewrite !map_length, !VA; auto|rewrite !map_length, !VB; auto|].
          assert (SA := do_sorted HA). assert (SB := do_sorted HB). unfold strictly_sorted, zrows in SA, SB. rewrite map_map, StronglySorted_map, (StronglySorted_nth _ (noentry K)) in SA, SB.
          apply lex_lt_cons_iff in H; auto. destruct H as [H|[E H]].
          + left. apply SB. apply lex_lt_cons_iff in H; auto. destruct H as [H|[_ H]]; [exfalso; exact (lex_lt_irrefl H)|lia].
          + right. injection E as E. apply Nat2Z.inj in E. subst j'. split; auto. apply SA. lia.
        - intros e He. apply no_contraction_In in He. destruct He as (ea & eb & Hea & Heb & ->). cbn [fst]. apply valid_row_app; [exact (do_valid HA Hea)|exact (do_valid HB Heb)].
        - intros e He. apply no_contraction_In in He. destruct He as (ea & eb & Hea & Heb & ->). cbn [fst snd]. unfold bouter, bmk. cbn [bshape]. rewrite (do_shape HA Hea), (do_shape HB Heb). unfold mults. rewrite map_app. symmetry. apply shp_app.
          rewrite (valid_length (do_valid HA Hea)). now rewrite !map_length.
        - intros e He. apply no_contraction_In in He. destruct He as (ea & eb & Hea & Heb & ->). cbn [snd]. apply bouter_wf. }
      split; auto. intros ra rb qa qb Va Vb Wa Wb.
      assert (NI : ~ In ra (map fst A) \/ ~ In rb (map fst B) -> sval (compose_no_contraction o A B) (ra ++ rb) (qa ++ qb) = o0 o).
      { intros H. apply sval_notin. intros I. apply in_map_iff in I. destruct I as (e & Ee & He). apply no_contraction_In in He. destruct He as (ea & eb & Hea & Heb & ->). cbn [fst] in Ee.
        apply app_inj in Ee. 2:{ rewrite (valid_length (do_valid HA Hea)), (valid_length Va). auto. } destruct Ee as [<- <-]. destruct H as [H|H]; apply H; now apply in_map. }
      destruct (in_dec row_dec ra (map fst A)) as [Ia|Ia]; [|rewrite NI, (sval_notin o _ Ia) by auto; ring]. destruct (in_dec row_dec rb (map fst B)) as [Ib|Ib]; [|rewrite NI, (sval_notin o _ Ib) by auto; ring].
      destruct (in_rows Ia) as [X HX]. destruct (in_rows Ib) as [Y HY]. rewrite (sval_in o _ (data_ok_NoDup HA) HX), (sval_in o _ (data_ok_NoDup HB) HY).
      rewrite (sval_in o (B := bouter o X Y) _ (data_ok_NoDup D)). 2:{ apply no_contraction_In. exists (ra, X), (rb, Y). auto. }
      assert (SX := do_shape HA HX). assert (SY := do_shape HB HY). cbn [fst snd] in SX, SY. apply bat_outer; congruence.
    Qed.
  End NoContraction.

  Variable S : symm.
  Variable fuse : sector -> sector -> sector.
  Hypothesis G : abelian_group_laws S fuse.
  Notation fall := (fuse_all S fuse).
  Lemma charge_fall cod dom r1 r2 : (forall L, In L cod -> es_ok S L) -> (forall L, In L dom -> es_ok S L) -> valid_idx (map nsec cod) r1 -> valid_idx (map nsec (rev dom)) r2 ->
    (row_charge_ok S cod dom (r1 ++ r2) <-> fall (row_sectors S cod r1) = fall (row_sectors S dom (rev r2))).
  Proof.
    intros OC OD V1 V2. unfold row_charge_ok. assert (L := valid_length V1). rewrite map_length in L. rewrite <- L, firstn_len, skipn_len.
    rewrite !(fall_multiple G). split; [intros H; injection H; auto|intros ->; auto].
    - apply (row_sectors_valid G OD). rewrite map_rev in V2. apply valid_rev. now rewrite rev_involutive.
    - now apply (row_sectors_valid G OC).
  Qed.
  Lemma compose_ok cod mid dom A B : (forall L, In L (cod ++ mid ++ dom) -> es_ok S L) -> cod ++ mid ++ dom <> [] ->
    data_ok (leg_order cod mid) A -> data_ok (leg_order mid dom) B -> charge_ok S cod mid A -> charge_ok S mid dom B ->
    exists R, compose o S cod mid dom A B = Some R /\ data_ok (leg_order cod dom) R /\ charge_ok S cod dom R /\
      forall ra rb qa qb, valid_idx (map nsec cod) ra -> valid_idx (map nsec (rev dom)) rb -> valid_idx (shp (mults cod) ra) qa -> valid_idx (shp (mults (rev dom)) rb) qb ->
      sval R (ra ++ rb) (qa ++ qb) = contraction mid A B ra rb qa qb.
  Proof.
    intros OK NE HA HB CA CB. unfold leg_order in *.
    assert (OKc : forall L, In L cod -> es_ok S L) by (intros; apply OK; rewrite !in_app_iff; auto).
    assert (OKm : forall L, In L mid -> es_ok S L) by (intros; apply OK; rewrite !in_app_iff; auto).
    assert (OKd : forall L, In L dom -> es_ok S L) by (intros; apply OK; rewrite !in_app_iff; auto).
    unfold compose. destruct ((length cod =? 0) && (length dom =? 0)) eqn:E0.
    - apply andb_true_iff in E0. destruct E0 as [E1 E2]. apply Nat.eqb_eq in E1. apply Nat.eqb_eq in E2. apply length_zero_iff_nil in E1. apply length_zero_iff_nil in E2. subst cod dom. cbn [app rev leg_order] in *. unfold leg_order. cbn [app].
      rewrite app_nil_r in HB, NE, OK. assert (NM : map nsec (rev mid) <> []). { intros E. apply map_eq_nil in E. apply (f_equal (@rev espace)) in E. rewrite rev_involutive in E. contradiction. }
      destruct (inner_data o (map nsec (rev mid)) A B false) as [x|] eqn:EI.
      2:{ exfalso. unfold inner_data in EI. destruct (map nsec (rev mid)); [congruence|discriminate]. }
      exists [([], Blk [] [x])]. split; [reflexivity|]. split; [|split].
      + split; intros; try (destruct H as [<-|[]]); cbn [fst snd bshape bdata]; try reflexivity; [|constructor]. unfold strictly_sorted, zrows. repeat constructor.
      + intros e [<-|[]]. reflexivity.
      + intros ra rb qa qb Va Vb Wa Wb. inversion Va; subst. inversion Vb; subst. inversion Wa; subst. inversion Wb; subst. cbn [app SparseProofs.sval fst snd].
        assert (HB' : data_ok (rev (rev mid)) B) by now rewrite rev_involutive.
        assert (Q := inner_ok SR HA (dg := false) HB' ltac:(discriminate) EI). cbv beta iota in Q. etransitivity; [exact Q|]. unfold contraction. rewrite map_rev.
        rewrite (sum_perm SR (Permutation_map _ (grid_rev_perm (map nsec mid)))), map_map. apply (sum_ext o). intros rc Hrc. apply make_grid_In in Hrc. assert (Lc := valid_length Hrc). rewrite map_length in Lc.
        unfold mults at 1. rewrite map_rev. fold (mults mid). rewrite shp_rev by (unfold mults; now rewrite map_length).
        rewrite (sum_perm SR (Permutation_map _ (grid_rev_perm (shp (mults mid) rc)))), map_map. apply (sum_ext o). intros qc _. cbn [app]. now rewrite !rev_involutive, !app_nil_r.
    - destruct (Nat.eqb_spec (length mid) 0) as [EM|EM].
      + apply length_zero_iff_nil in EM. subst mid. cbn [app rev] in *. rewrite app_nil_r in HA.
        destruct (no_contraction_ok HA HB) as [D V]. eexists. split; [reflexivity|]. split; [exact D|]. split.
        * intros e He. apply no_contraction_In in He. destruct He as (ea & eb & Hea & Heb & ->). cbn [fst].
          assert (VA := do_valid HA Hea). assert (VB := do_valid HB Heb). assert (LA := valid_length VA). rewrite map_length in LA.
          assert (QA := CA ea Hea). assert (QB := CB eb Heb). unfold row_charge_ok in *. cbn [length firstn skipn] in QB. rewrite <- LA in *. rewrite firstn_len, skipn_len. rewrite firstn_all, skipn_all in QA. 
          rewrite QA. cbn [rev]. rewrite <- QB. reflexivity.
        * intros ra rb qa qb Va Vb Wa Wb. rewrite V by auto. unfold contraction. change (make_grid (map nsec []) true) with [@nil nat]. change (make_grid (shp (mults []) []) true) with [@nil nat]. cbn [map]. change (make_grid (shp (mults []) []) true) with [@nil nat]. cbn [map rev app]. rewrite !(sum_cons o), !(sum_nil o), !app_nil_r. ring.
      + destruct (@worker_ok K o SR S fuse G cod mid dom A B OKc OKd HA HB) as (R & E & D & V & M).
        * intros ea eb Hea Heb E. destruct (rowA HA Hea) as (V1 & V2 & _). destruct (rowB HB Heb) as (V3 & V4 & _).
          assert (QA := CA ea Hea). assert (QB := CB eb Heb). rewrite <- (firstn_skipn (length cod) (fst ea)) in QA. rewrite <- (firstn_skipn (length mid) (fst eb)) in QB.
          apply charge_fall in QA; auto. 2:{ rewrite map_rev. apply valid_rev in V2. now rewrite rev_involutive in V2. } apply charge_fall in QB; auto. rewrite QA, E. exact QB.
        * exists R. split; [exact E|]. split; [exact D|]. split.
          -- intros e He. destruct (M e He) as (ea & eb & Hea & Heb & Er & Em). rewrite Er. destruct (rowA HA Hea) as (V1 & V2 & _). destruct (rowB HB Heb) as (V3 & V4 & _). apply charge_fall; auto.
             assert (QA := CA ea Hea). assert (QB := CB eb Heb). rewrite <- (firstn_skipn (length cod) (fst ea)) in QA. rewrite <- (firstn_skipn (length mid) (fst eb)) in QB.
             apply charge_fall in QA; auto. 2:{ rewrite map_rev. apply valid_rev in V2. now rewrite rev_involutive in V2. } apply charge_fall in QB; auto. rewrite QA, Em. exact QB.
          -- intros ra rb qa qb Va Vb Wa Wb. rewrite V by auto. apply (pairsum_contraction HA HB). rewrite (valid_length Va). apply map_length.
  Qed.
End Compose.
