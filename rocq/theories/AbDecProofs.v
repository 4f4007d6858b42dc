(** Decompositions of the abelian backend: what the loop over the common sectors finds. *)
From Verif Require Import Util StableSort RowModel RowProofs GridModel GridProofs SymModel SymProofs CatSpec Sums SpaceModel SpaceSpec SpaceProofs SpaceProofs2 SpaceProofs7
  PipeModel PipeProofs TreeModel TensorModel TensorSpec TensorProofs4 TensorProofs5 BlockModel BlockProofs SparseModel SparseSpec SparseProofs SparseProofs6 SparseDense ConvertModel ConvertProofs3
  FtOpsModel FtOpsSpec FtOpsProofs2 FtOpsProofs3 FtOpsProofs4 FtOpsProofs8 FtOpsProofs10 AbDecModel.
Set Implicit Arguments. Unset Strict Implicit.
Open Scope nat_scope.

Section Rows.
  Variable K : Type.
  Variable o : ops K.
  Variable S : tsymm.
  Variable fuse : sector -> sector -> sector.
  Hypothesis OK : tsymm_ok S.
  Hypothesis G : abelian_group_laws S fuse.
  Notation adata := (list (list nat * blk K)).
  Notation sec L j := (nth j (es_decomp S L) []).

  (** ** one leg *)
  Section Leg.
    Variable L : espace.
    Hypothesis OL : es_ok S L.
    Lemma sec_inj i j : i < nsec L -> j < nsec L -> sec L i = sec L j -> i = j.
    Proof. intros Hi Hj E. rewrite <- (decomp_len OL) in Hi, Hj. assert (ND := decomp_NoDup G OL). apply (proj1 (NoDup_nth (es_decomp S L) [])) with (i := i) (j := j) in ND; auto. Qed.
    Lemma sec_mult j : j < nsec L -> es_mult S L (sec L j) = nth j (es_mults L) 0.
    Proof. intros Hj. unfold es_mult. apply mult_of_nth; [apply (decomp_NoDup G OL)| |]; rewrite (decomp_len OL); auto. Qed.
    Lemma sec_In c : In c (es_decomp S L) <-> 0 < es_mult S L c.
    Proof. unfold es_mult. apply mult_of_pos; [apply (decomp_NoDup G OL)|now rewrite (decomp_len OL)|apply (ok_pos OL)]. Qed.
    Lemma where_spec c : In c (es_decomp S L) -> exists j, row_where (es_decomp S L) c = Some j /\ j < nsec L /\ sec L j = c.
    Proof.
      intros I. assert (W := row_where_spec (es_decomp S L) c). destruct (row_where (es_decomp S L) c) as [j|]; [|contradiction]. exists j. destruct W as (Hj & E & _). rewrite (decomp_len OL) in Hj. auto.
    Qed.
    Variable P : tprod.
    Hypothesis EP : new_tprod S [LSpace L] = Some P.
    Lemma prod_ok : tp_ok S P /\ forall c, block_size P c = es_mult S L c.
    Proof. destruct (one_leg_product OK OL) as (N & E & _ & HN & M). rewrite EP in E. injection E as <-. auto. Qed.
    Lemma prod_In c : In c (tp_secs P) <-> In c (es_decomp S L).
    Proof. destruct prod_ok as [HP M]. rewrite (In_secs OK c HP), M. now rewrite sec_In. Qed.
    Lemma prod_secs : es_dual L = false -> tp_secs P = es_decomp S L.
    Proof.
      intros ND. apply (StronglySorted_unique (R := lex_lt)); [exact lex_lt_irrefl|exact lex_lt_trans|apply (tp_sorted OK (proj1 prod_ok))| |exact prod_In].
      unfold es_decomp, es_space. cbn [sp_secs]. rewrite ND. apply (ok_sorted OL).
    Qed.
    (** the number of a sector on the leg, as the loops compute it *)
    Lemma index_spec i : i < length (tp_secs P) -> exists j, (if es_dual L then row_where (es_decomp S L) (nth i (tp_secs P) []) else Some i) = Some j /\ j < nsec L /\ sec L j = nth i (tp_secs P) [] /\ (es_dual L = false -> j = i).
    Proof.
      intros Hi. destruct (es_dual L) eqn:D.
      - destruct (where_spec (proj1 (prod_In _) (nth_In _ [] Hi))) as (j & E & Hj & Es). exists j. repeat split; auto. discriminate.
      - exists i. rewrite (prod_secs D) in *. rewrite (decomp_len OL) in Hi. auto.
    Qed.
  End Leg.

  (** ** the rows of a matrix *)
  Variables C D N : espace.
  Hypothesis OC : es_ok S C.
  Hypothesis OD : es_ok S D.
  Hypothesis ON : es_ok S N.
  Variable A : adata.
  Hypothesis TA : tensor_ok S [C] [D] A.
  Definition col0 (e : list nat * blk K) : nat := nth 0 (fst e) 0.
  Definition col1 (e : list nat * blk K) : nat := nth 1 (fst e) 0.
  Lemma row_form e : In e A -> fst e = [col0 e; col1 e] /\ col0 e < nsec C /\ col1 e < nsec D /\ sec C (col0 e) = sec D (col1 e).
  Proof.
    intros I. assert (V := do_valid (to_data TA) I). assert (CH := to_charge TA I). unfold row_charge_ok in CH. unfold col0, col1. cbn [leg_order app rev map] in V. inversion V as [|? ? ? ? H1 V1 E1]. inversion V1 as [|? ? ? ? H2 V2 E2]. inversion V2; subst.
    rewrite <- E1 in CH. cbn in CH. injection CH as CH. cbn. repeat split; auto.
  Qed.
  Lemma col1_sorted : StronglySorted lt (map col1 A).
  Proof.
    assert (SS := do_sorted (to_data TA)). assert (RF := row_form). revert SS RF. clear TA. induction A as [|e l IH]; intros SS RF; [constructor|]. cbn [map zrows] in *. apply StronglySorted_inv in SS. destruct SS as [SS FA]. constructor.
    - apply IH; [exact SS|]. intros e' I. apply RF. now right.
    - apply Forall_forall. intros k I. apply in_map_iff in I. destruct I as [e' [<- I]]. rewrite Forall_forall in FA. assert (LT : lex_lt (map Z.of_nat (fst e)) (map Z.of_nat (fst e'))) by (apply FA; apply in_map; now apply in_map).
      destruct (RF e (or_introl eq_refl)) as (F1 & A1 & A2 & A3). destruct (RF e' (or_intror I)) as (F2 & B1 & B2 & B3). rewrite F1, F2 in LT. destruct LT as (_ & k & Hk & Lk & Ek). cbn [map length] in Hk. destruct k as [|[|k]]; [| |lia].
      + exfalso. cbn [map nth] in Lk. specialize (Ek 1). cbn [map nth length] in Ek. assert (X : col1 e = col1 e') by lia. rewrite X in A3. assert (Y : col0 e = col0 e') by (apply (sec_inj OC); auto; congruence). lia.
      + cbn [map nth] in Lk. lia.
  Qed.
  Lemma rows_NoDup : NoDup (map fst A).
  Proof. apply (data_ok_NoDup (to_data TA)). Qed.

  Definition hit_ok (j k : nat) (h : option nat) : Prop := match h with Some i => i < length A /\ fst (nth i A (noentry K)) = [j; k] | None => ~ In [j; k] (map fst A) end.
  Lemma hit_spec i j k : j < nsec C -> k < nsec D -> sec C j = sec D k -> (forall m, m < i -> m < length A -> nth m (map col1 A) 0 < k) -> (forall m, i <= m < length A -> k <= nth m (map col1 A) 0) ->
    let hit := (i <? length A) && (nth 0 (fst (nth i A (noentry K))) 0 =? j) in hit_ok j k (if hit then Some i else None).
  Proof.
    intros Hj Hk E LO HI. cbv zeta. destruct (Nat.ltb_spec i (length A)) as [Hi|Hi]; cbn [andb].
    - assert (Ie : In (nth i A (noentry K)) A) by now apply nth_In. destruct (row_form Ie) as (F & F1 & F2 & F3). fold (col0 (nth i A (noentry K))). destruct (Nat.eqb_spec (col0 (nth i A (noentry K))) j) as [X|X].
      + split; [exact Hi|]. rewrite F, X. f_equal. f_equal. apply (sec_inj OD); auto. rewrite <- F3, X. exact E.
      + intros I. apply in_map_iff in I. destruct I as [e [Ee I]]. destruct (row_form I) as (H & H1 & H2 & H3). rewrite H in Ee. injection Ee as E0 E1. apply In_nth with (d := noentry K) in I. destruct I as (m & Hm & Em).
        assert (M1 : nth m (map col1 A) 0 = k) by (rewrite nth_map_lt with (d := noentry K) by exact Hm; now rewrite Em).
        assert (mi : i <= m) by (destruct (Nat.le_gt_cases i m) as [?|Q]; [assumption|]; specialize (LO m Q Hm); lia).
        assert (m = i). { destruct (Nat.eq_dec m i) as [?|Q]; [assumption|]. exfalso. assert (Y := proj1 (StronglySorted_nth lt 0 (map col1 A)) col1_sorted i m). rewrite map_length in Y. specialize (Y ltac:(lia)). specialize (HI i ltac:(lia)). lia. }
        subst m. apply X. rewrite Em. exact E0.
    - intros I. apply in_map_iff in I. destruct I as [e [Ee I]]. destruct (row_form I) as (H & H1 & H2 & H3). rewrite H in Ee. injection Ee as E0 E1. apply In_nth with (d := noentry K) in I. destruct I as (m & Hm & Em).
      specialize (LO m ltac:(lia) Hm). rewrite nth_map_lt with (d := noentry K) in LO by exact Hm. rewrite Em in LO. lia.
  Qed.

  Variables P Q : tprod.
  Hypothesis EP : new_tprod S [LSpace C] = Some P.
  Hypothesis EQ : new_tprod S [LSpace D] = Some Q.
  Hypothesis NM : forall c, es_mult S N c = Nat.min (es_mult S C c) (es_mult S D c).
  Notation HP := (proj1 (prod_ok OC EP)).
  Notation HQ := (proj1 (prod_ok OD EQ)).

  (** one row *)
  Record row_ok (r : drow) : Prop := {
    ro_j : dr_j r < nsec C;
    ro_k : dr_k r < nsec D;
    ro_n : dr_n r < nsec N;
    ro_jk : sec C (dr_j r) = sec D (dr_k r);
    ro_jn : sec C (dr_j r) = sec N (dr_n r);
    ro_hit : hit_ok (dr_j r) (dr_k r) (dr_hit r);
  }.
  Definition psec (p : nat * nat) := nth (fst p) (tp_secs P) [].
  Lemma dec_rows_spec : forall pairs n i, StronglySorted (fun p q => fst p < fst q /\ snd p < snd q) pairs -> incl pairs (common_walk true true 0 (tp_secs P) 0 (tp_secs Q)) ->
    (es_dual N = false -> forall m, m < length pairs -> n + m < nsec N /\ sec N (n + m) = psec (nth m pairs (0, 0))) ->
    (es_dual D = false -> (forall m, m < i -> m < length A -> forall p, In p pairs -> nth m (map col1 A) 0 < snd p) /\ (forall m, i <= m < length A -> In (nth m (map col1 A) 0) (map snd pairs))) ->
    exists l, dec_rows S P C D N A pairs n i = Some l /\ (forall r, In r l -> row_ok r) /\ map (fun r => sec C (dr_j r)) l = map psec pairs /\
      (es_dual N = false -> map dr_n l = seq n (length pairs)) /\ (es_dual D = false -> map dr_k l = map snd pairs).
  Proof.
    induction pairs as [|[j k] rest IH]; intros n i SS INC HN HD.
    - exists []. split; [reflexivity|]. split; [intros r []|]. auto.
    - assert (IJK := INC (j, k) (or_introl eq_refl)). apply (common_In OK HP HQ) in IJK. destruct IJK as (Hj & Hk & Ejk).
      destruct (index_spec OC EP Hj) as (j' & Wj & Lj & Sj & Fj). destruct (index_spec OD EQ Hk) as (k' & Wk & Lk & Sk & Fk). rewrite <- Ejk in Wk, Sk.
      assert (exists n', (if es_dual N then row_where (es_decomp S N) (nth j (tp_secs P) []) else Some n) = Some n' /\ n' < nsec N /\ sec N n' = nth j (tp_secs P) [] /\ (es_dual N = false -> n' = n)) as (n' & Wn & Ln & Sn & Fn).
      { destruct (es_dual N) eqn:DN.
        - assert (I : In (nth j (tp_secs P) []) (es_decomp S N)).
          { apply (sec_In ON). rewrite NM. assert (X : 0 < es_mult S C (nth j (tp_secs P) [])) by (apply (sec_In OC), (prod_In OC EP), nth_In, Hj). assert (Y : 0 < es_mult S D (nth j (tp_secs P) [])) by (apply (sec_In OD), (prod_In OD EQ); rewrite Ejk; apply nth_In, Hk). lia. }
          destruct (where_spec ON I) as (n' & E & H1 & H2). exists n'. repeat split; auto. discriminate.
        - exists n. destruct (HN eq_refl 0 ltac:(cbn; lia)) as [H1 H2]. rewrite Nat.add_0_r in *. auto. }
      set (i' := if es_dual D then searchsorted_column (map (fun e => nth 1 (fst e) 0) A) k' else i).
      set (hit := (i' <? length A) && (nth 0 (fst (nth i' A (noentry K))) 0 =? j')).
      apply StronglySorted_inv in SS. destruct SS as [SS FA]. rewrite Forall_forall in FA.
      assert (BND : (forall m, m < i' -> m < length A -> nth m (map col1 A) 0 < k') /\ (forall m, i' <= m < length A -> k' <= nth m (map col1 A) 0)).
      { unfold i'. destruct (es_dual D) eqn:DD.
        - destruct (search_spec (v := k') col1_sorted (fuel := length (map col1 A)) (lo := 0) (hi := length (map col1 A))) as (X & Y & Z); try lia.
          change (map (fun e => nth 1 (fst e) 0) A) with (map col1 A). unfold searchsorted_column. split; [intros m Hm _; now apply Y|intros m [Hm Hl]; apply Z; split; [exact Hm|now rewrite map_length]].
        - rewrite (Fk eq_refl). destruct (HD eq_refl) as [X Y]. split; [intros m Hm Hl; apply (X m Hm Hl (j, k)); now left|]. intros m Hm. specialize (Y m Hm). cbn [map snd] in Y. destruct Y as [Y|Y]; [lia|]. apply in_map_iff in Y. destruct Y as [p [<- Ip]]. apply FA in Ip. cbn [fst snd] in Ip. lia. }
      assert (HO : hit_ok j' k' (if hit then Some i' else None)) by (apply hit_spec; [exact Lj|exact Lk|congruence|apply BND|apply BND]).
      destruct (IH (n + 1) (if hit then i' + 1 else i')) as (l & E & R & M1 & M2 & M3).
      + exact SS.
      + intros p I. apply INC. now right.
      + intros DN m Hm. specialize (HN DN (Datatypes.S m)). cbn [length nth] in HN. rewrite <- Nat.add_assoc. cbn [Nat.add]. apply HN. lia.
      + intros DD. assert (EI : i' = i) by (unfold i'; now rewrite DD). rewrite EI in *. destruct (HD DD) as [X Y]. assert (Ek : k' = k) by auto. rewrite Ek in *. split.
        * intros m Hm Hl p Ip. assert (Lt : k < snd p) by (apply FA in Ip; cbn [fst snd] in Ip; lia). destruct (Nat.lt_trichotomy m i) as [T|[T|T]].
          -- specialize (proj1 BND m T Hl). lia.
          -- subst m. destruct hit eqn:EH; [|lia]. destruct HO as [_ HO]. rewrite nth_map_lt with (d := noentry K) by exact Hl. unfold col1. rewrite HO. exact Lt.
          -- destruct hit; lia.
        * intros m Hm. assert (Z : In (nth m (map col1 A) 0) (map snd ((j, k) :: rest))) by (apply Y; destruct hit; lia). cbn [map snd] in Z. destruct Z as [Z|Z]; [|exact Z]. exfalso.
          assert (Im : In (nth m A (noentry K)) A) by (apply nth_In; lia). rewrite nth_map_lt with (d := noentry K) in Z by lia. destruct (row_form Im) as (F & F1 & F2 & F3).
          assert (Y0 : col0 (nth m A (noentry K)) = j') by (apply (sec_inj OC); auto; rewrite F3, <- Z, Sk, Sj; reflexivity).
          destruct hit eqn:EH.
          -- destruct HO as [H1 H2]. assert (W := proj1 (StronglySorted_nth lt 0 (map col1 A)) col1_sorted i m). rewrite map_length in W. specialize (W ltac:(lia)). rewrite !nth_map_lt with (d := noentry K) in W by lia. unfold col1 at 1 in W. rewrite H2 in W. cbn [nth] in W. lia.
          -- apply HO. apply in_map_iff. exists (nth m A (noentry K)). split; [|exact Im]. rewrite F, Y0, Z. reflexivity.
      + exists (DRow j' k' n' (if hit then Some i' else None) :: l). cbn [dec_rows]. rewrite Wj, Wk, Wn. fold i'. fold hit. rewrite E. split; [reflexivity|]. split; [|split; [|split]].
        * intros r [<-|I]; [|now apply R]. constructor; cbn [dr_j dr_k dr_n dr_hit]; auto; congruence.
        * cbn [map dr_j]. rewrite M1. f_equal. exact Sj.
        * intros DN. cbn [map dr_n length seq]. rewrite (M2 DN), (Fn DN), Nat.add_1_r. reflexivity.
        * intros DD. cbn [map dr_k snd]. rewrite (M3 DD), (Fk DD). reflexivity.
  Qed.

  Definition rows_ok (l : list drow) : Prop := (forall r, In r l -> row_ok r) /\ NoDup (map dr_j l) /\ NoDup (map dr_k l) /\ NoDup (map dr_n l) /\
    (forall n, n < nsec N -> In n (map dr_n l)) /\ (forall j k, j < nsec C -> k < nsec D -> sec C j = sec D k -> exists r, In r l /\ dr_j r = j /\ dr_k r = k) /\
    (es_dual N = false -> StronglySorted lt (map dr_n l)) /\ (es_dual D = false -> StronglySorted lt (map dr_k l)).
  Theorem ab_rows_spec : exists l, ab_rows S P Q C D N A = Some l /\ rows_ok l.
  Proof.
    destruct (one_leg_product OK ON) as (M & EM & _ & HM & MM).
    assert (PN := pairs_N OK HP HQ HM).
    assert (PM : forall c, block_size M c = Nat.min (block_size P c) (block_size Q c)).
    { intros c. rewrite MM, (proj2 (prod_ok OC EP)), (proj2 (prod_ok OD EQ)). apply NM. }
    specialize (PN PM). set (ps := pairs P Q) in *. assert (SS := common_walk_sorted (tp_secs P) 0 (tp_secs Q) 0). change (common_walk true true 0 (tp_secs P) 0 (tp_secs Q)) with ps in SS.
    destruct (@dec_rows_spec ps 0 0 SS) as (l & E & R & M1 & M2 & M3).
    - intros p I. exact I.
    - intros DN m Hm. cbn [Nat.add]. rewrite (prod_secs ON EM DN) in PN. assert (LE : length ps = nsec N) by (rewrite <- (decomp_len ON), <- PN; now rewrite map_length). split; [lia|]. rewrite <- PN. rewrite nth_map_lt with (d := (0, 0)) by exact Hm. reflexivity.
    - intros DD. split; [lia|]. intros m [_ Hm]. rewrite nth_map_lt with (d := noentry K) by exact Hm. assert (I : In (nth m A (noentry K)) A) by now apply nth_In. destruct (row_form I) as (F & F1 & F2 & F3).
      set (k := col1 (nth m A (noentry K))) in *. rewrite <- (decomp_len OD), <- (prod_secs OD EQ DD) in F2. rewrite <- (prod_secs OD EQ DD) in F3.
      assert (Is : In (sec C (col0 (nth m A (noentry K)))) (tp_secs P)) by (apply (prod_In OC EP); apply nth_In; now rewrite (decomp_len OC)). apply In_nth with (d := []) in Is. destruct Is as (j & Hj & Ej).
      apply in_map_iff. exists (j, k). split; [reflexivity|]. apply (common_In OK HP HQ). split; [exact Hj|]. split; [exact F2|]. now rewrite Ej.
    - exists l. split; [exact E|]. change (map psec ps) with (map (fun p => nth (fst p) (tp_secs P) []) ps) in M1. rewrite PN in M1.
      assert (NDs : NoDup (map (fun r => sec C (dr_j r)) l)) by (rewrite M1; apply (secs_NoDup OK HM)).
      split; [exact R|]. split; [|split; [|split; [|split; [|split; [|split]]]]].
      + apply (NoDup_map_from NDs). intros x y _ _ H. now rewrite H.
      + apply (NoDup_map_from NDs). intros x y Ix Iy H. rewrite (ro_jk (R x Ix)), (ro_jk (R y Iy)). now rewrite H.
      + apply (NoDup_map_from NDs). intros x y Ix Iy H. rewrite (ro_jn (R x Ix)), (ro_jn (R y Iy)). now rewrite H.
      + intros n Hn. assert (I : In (sec N n) (map (fun r => sec C (dr_j r)) l)) by (rewrite M1; apply (prod_In ON EM); apply nth_In; now rewrite (decomp_len ON)). apply in_map_iff in I. destruct I as (r & Er & I).
        apply in_map_iff. exists r. split; [|exact I]. apply (sec_inj ON); auto; [apply (ro_n (R r I))|]. rewrite <- (ro_jn (R r I)). exact Er.
      + intros j k Hj Hk Ejk. assert (I : In (sec C j) (map (fun r => sec C (dr_j r)) l)).
        { rewrite M1. apply (prod_In ON EM), (sec_In ON). rewrite NM. assert (X : 0 < es_mult S C (sec C j)) by (apply (sec_In OC); apply nth_In; now rewrite (decomp_len OC)). assert (Y : 0 < es_mult S D (sec C j)) by (apply (sec_In OD); rewrite Ejk; apply nth_In; now rewrite (decomp_len OD)). lia. }
        apply in_map_iff in I. destruct I as (r & Er & I). exists r. split; [exact I|]. split; [apply (sec_inj OC); auto; apply (ro_j (R r I))|apply (sec_inj OD); auto; [apply (ro_k (R r I))|]]. rewrite <- (ro_jk (R r I)). congruence.
      + intros DN. rewrite (M2 DN). apply seq_sorted.
      + intros DD. rewrite (M3 DD). clear -SS. induction SS as [|p l' SS IH FA]; [constructor|]. cbn [map]. constructor; [exact IH|]. apply Forall_forall. intros k I. apply in_map_iff in I. destruct I as [q [<- I]]. rewrite Forall_forall in FA. now apply FA.
  Qed.
End Rows.
