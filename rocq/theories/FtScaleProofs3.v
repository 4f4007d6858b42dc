(** scale_axis on one of several legs: the result. *)
From Verif Require Import Util StableSort RowModel RowProofs GridModel GridProofs SymModel SymProofs CatSpec Sums SpaceModel SpaceSpec SpaceProofs SpaceProofs2 SpaceProofs7
  PipeModel PipeProofs PipeProofs4 TreeModel TreeProofs TreeProofs5 TensorModel TensorSpec FormalSum TensorProofs TensorProofs2 TensorProofs3 TensorProofs4 TensorProofs5 TensorProofs6 BlockModel BlockProofs
  SparseModel ConvertModel ConvertSpec ConvertProofs3 FtOpsModel FtOpsSpec FtOpsProofs2 FtOpsProofs3 FtMapModel FtMapSpec FtMapProofs FtMapProofs2 FtScaleModel FtScaleProofs FtScaleProofs2.
Set Implicit Arguments. Unset Strict Implicit.
Open Scope nat_scope.

Section Result.
  Variable S : tsymm.
  Hypothesis OK : tsymm_ok S.
  Variable K : Type.
  Variable o : ops K.
  Hypothesis SR : semi_ring_theory (o0 o) (o1 o) (oadd o) (omul o) (@eq K).
  Add Ring Kr : SR.
  Notation block := (blk K).
  Notation fdata := (list (nat * nat * blk K)).
  Variables P Q L : tprod.
  Hypothesis HP : tp_ok S P.
  Hypothesis HQ : tp_ok S Q.
  Hypothesis HL : tp_ok S L.
  Variables A D : fdata.
  Hypothesis OA : ft_ok P Q A.
  Hypothesis OD : diag_ok L D.
  Variable in_domain : bool.
  Variable pos : nat.
  Notation T := (if in_domain then Q else P).
  Notation coupled := (map (fun e : nat * nat * blk K => nth (fst (fst e)) (tp_secs P) []) A).
  Notation forests := (iter_forest_blocks S T coupled).
  Lemma HT : tp_ok S T.
  Proof. now destruct in_domain. Qed.
  Lemma diag_lookup s : (exists n, block_ind_from_coupled (map fst D) s L = Some (Some n) /\ ft_get L D s = Some (snd (frow D n))) \/ (block_ind_from_coupled (map fst D) s L = Some None /\ ft_get L D s = None).
  Proof.
    unfold block_ind_from_coupled. assert (R := row_where_spec (tp_secs L) s). destruct (row_where (tp_secs L) s) as [j|].
    - destruct R as [Hj [Ej _]]. assert (ST : StronglySorted lt (map snd (map fst D))) by (rewrite map_map; apply (go_sorted OD)).
      assert (ES : forall k, k < length D -> nth k (map snd (map fst D)) 0 = snd (fst (frow D k))) by (intros k Hk; rewrite map_map; now rewrite nth_map_lt with (d := norow K)).
      destruct (lookup_spec j ST) as [[k [E [Hk Ek]]]|[E NI]].
      + left. exists k. rewrite map_length in Hk. split; [exact E|]. apply (get_diag_ok OK s _ HL OD). exists (frow D k). split; [now apply nth_In|]. split; [|reflexivity]. rewrite <- ES by exact Hk. now rewrite Ek.
      + right. split; [exact E|]. destruct (ft_get L D s) as [B|] eqn:G; [|reflexivity]. exfalso. apply (get_diag_ok OK s _ HL OD) in G. destruct G as (e & I & E' & _). apply NI. rewrite <- Ej in E'.
        apply (proj1 (NoDup_nth _ []) (secs_NoDup OK HL)) in E'; [|now apply (go_range OD)|exact Hj]. rewrite <- E', map_map. now apply (in_map (fun x : nat * nat * blk K => snd (fst x))).
    - right. split; [reflexivity|]. destruct (ft_get L D s) as [B|] eqn:G; [|reflexivity]. exfalso. apply (get_diag_ok OK s _ HL OD) in G. destruct G as (e & I & E' & _). apply R. rewrite <- E'. apply nth_In. now apply (go_range OD).
  Qed.
  Definition scaled (x : fb_item) : option block :=
    match block_ind_from_coupled (map fst D) (nth pos (fb_unc x) []) L with
    | Some (Some n) => Some (scale_forest S o in_domain T pos (snd (frow A (fb_ind x))) (snd (frow D n)) x)
    | _ => None
    end.
  Notation lo := (fun x : fb_item => fst (forest_box in_domain (snd (frow A (fb_ind x))) x)).
  Notation hi := (fun x : fb_item => snd (forest_box in_domain (snd (frow A (fb_ind x))) x)).
  Lemma step_eq st x : scale_step S o in_domain T L pos A D st x = step o A scaled lo hi st x.
  Proof.
    unfold scale_step, step, scaled. destruct st as [st|]; [|reflexivity]. destruct (diag_lookup (nth pos (fb_unc x) [])) as [(n & E & _)|(E & _)]; rewrite E; reflexivity.
  Qed.
  Lemma fold_eq l : forall st, fold_left (scale_step S o in_domain T L pos A D) l st = fold_left (step o A scaled lo hi) l st.
  Proof. induction l as [|x l IH]; intros st; [reflexivity|]. cbn [fold_left]. rewrite step_eq. apply IH. Qed.
  Lemma coupled_sec i : i < length A -> nth i coupled [] = fsec Q A i.
  Proof. intros Hi. rewrite nth_map_lt with (d := norow K) by exact Hi. apply (fo_sector OA). now apply nth_In. Qed.
  Lemma result_inv : exists st js, fold_left (scale_step S o in_domain T L pos A D) forests (Some (SState [] [] [])) = Some st /\ inv o A scaled lo hi forests forests st js.
  Proof.
    rewrite fold_eq. apply loop_inv.
    - apply (fo_sorted OA).
    - intros x I. apply forests_In in I. destruct I as [I _]. now rewrite map_length in I.
    - apply forests_sorted.
    - apply forests_NoDup.
    - intros x y r Ix Iy E Vr Bx By. assert (Hx : fb_ind x < length A) by (apply forests_In in Ix; destruct Ix as [Ix _]; now rewrite map_length in Ix).
      assert (SH := ft_shape OK HP HQ OA Hx). change (nth (fb_ind x) A (norow K)) with (frow A (fb_ind x)) in SH. rewrite SH in Vr. inversion Vr as [|a m ? ? _ V1]; subst. inversion V1 as [|b m' ? ? _ V2]; subst. inversion V2; subst.
      unfold forest_box in Bx, By. destruct in_domain; cbn [fst snd in_box] in Bx, By; [apply (@forests_disjoint S Q coupled x y b Ix Iy E)|apply (@forests_disjoint S P coupled x y a Ix Iy E)]; tauto.
  Qed.
  Lemma key1_map (F : fdata) : map (fun e : nat * nat * blk K => snd (fst e)) F = map snd (map fst F).
  Proof. now rewrite map_map. Qed.
  Lemma result : exists st js, ft_scale_general S o in_domain P Q L pos A D = Some (ss_rows st) /\ inv o A scaled lo hi forests forests st js /\ ft_ok P Q (ss_rows st).
  Proof.
    destruct result_inv as (st & js & E & IV). exists st, js. split; [unfold ft_scale_general; rewrite E; now rewrite ft_make_true|]. split; [exact IV|].
    assert (LR := rows_len IV). assert (KEY : forall k, k < length js -> fst (frow (ss_rows st) k) = fst (frow A (nth k js 0))).
    { intros k Hk. assert (X := f_equal (fun l => nth k l (0, 0)) (iv_keys IV)). cbv beta in X. rewrite nth_map_lt with (d := norow K) in X by lia. rewrite nth_map_lt with (d := 0) in X by exact Hk. exact X. }
    apply ft_ok_sorted.
    - rewrite key1_map, (iv_keys IV), map_map. assert (SS := iv_sorted IV). assert (RG := iv_range IV). assert (SA := proj1 (StronglySorted_nth lt 0 _) (fo_sorted OA)). clear -SS RG SA. induction js as [|j t IH]; [constructor|]. cbn [map]. inversion SS as [|? ? S1 F1]; subst. constructor; [apply IH; auto; intros; apply RG; now right|].
      apply Forall_forall. intros v I. apply in_map_iff in I. destruct I as (i & <- & I). rewrite Forall_forall in F1. assert (LT := F1 i I). assert (Hi : i < length A) by (apply RG; now right). specialize (SA j i). rewrite map_length in SA. specialize (SA (conj LT Hi)). rewrite !nth_map_lt with (d := norow K) in SA by lia. exact SA.
    - intros e I. apply (In_nth _ _ (norow K)) in I. destruct I as (k & Hk & Ee). change (nth k (ss_rows st) (norow K)) with (frow (ss_rows st) k) in Ee. rewrite LR in Hk. subst e. rewrite (KEY k Hk). destruct (iv_wf IV Hk) as [W1 W2]. assert (Hj : nth k js 0 < length A) by (apply (iv_range IV); now apply nth_In). assert (IA : In (frow A (nth k js 0)) A) by now apply nth_In.
      destruct (fo_range OA IA) as [R1 R2]. split; [exact R1|]. split; [exact R2|]. split; [now apply (fo_sector OA)|]. split; [rewrite W1; now apply (fo_shape OA)|exact W2].
  Qed.
  Lemma side_entry c t p y s e : tree_of S T c t -> valid_idx (tree_mults S T t) p -> pos < length (tp_flat_legs T) -> tree_block_slice S T t = Some (s, e) -> y < block_size (if in_domain then P else Q) c ->
    exists F, ft_scale_general S o in_domain P Q L pos A D = Some F /\
    let z := s + flat_index (tree_mults S T t) true p in
    ft_entry o Q F c (if in_domain then y else z) (if in_domain then z else y) = omul o (ft_entry o Q A c (if in_domain then y else z) (if in_domain then z else y)) (diag_entry o L D (nth pos (t_unc t) []) (nth pos p 0)).
  Proof.
    intros TT Vp Hpos SL Hy. destruct result as (st & js & ER & IV & FO). exists (ss_rows st). split; [exact ER|]. cbv zeta. set (z := s + flat_index (tree_mults S T t) true p).
    assert (LR := rows_len IV). assert (SEC : forall k, k < length js -> fsec Q (ss_rows st) k = fsec Q A (nth k js 0)).
    { intros k Hk. unfold fsec. f_equal. assert (X := f_equal (fun l => nth k l (0, 0)) (iv_keys IV)). cbv beta in X. rewrite nth_map_lt with (d := norow K) in X by lia. rewrite nth_map_lt with (d := 0) in X by exact Hk. now rewrite X. }
    destruct (coupled_spec OK HQ c OA) as [(i & _ & Hi & EC)|(_ & NONE)].
    2:{ rewrite (ft_entry_none o _ _ FO), (ft_entry_none o _ _ OA NONE); [ring|]. intros k Hk. rewrite LR in Hk. rewrite SEC by exact Hk. apply NONE. apply (iv_range IV). now apply nth_In. }
    assert (FL := flat_index_lt true Vp). destruct (tree_forest OK HT i TT FL) as (fb & kk & n & s' & e' & If & EU & SL' & Hkk & ES & EE). rewrite SL in SL'. injection SL' as <- <-.
    assert (IND : fb_ind fb = i) by (now apply forest_loop_In in If). assert (CI : nth i coupled [] = c) by (rewrite coupled_sec by exact Hi; exact EC).
    assert (IF : In fb forests) by (apply forests_In; rewrite IND, CI, map_length; now split).
    assert (BD := forests_bound OK HT IF). rewrite IND, CI in BD.
    assert (RM : map (fun p => sector_multiplicity (es_space S (fst p)) (snd p)) (combine (tp_flat_legs T) (fb_unc fb)) = tree_mults S T t) by (rewrite EU; unfold tree_mults; apply (reshape_mults OK HT); exact (proj2 TT)).
    assert (PM : 0 < prod (tree_mults S T t)) by lia. assert (LM : pos < length (tree_mults S T t)) by (rewrite (tree_mults_len TT); exact Hpos).
    assert (SH := ft_shape OK HP HQ OA Hi). assert (WF := ft_wf OA Hi). change (nth i A (norow K)) with (frow A i) in SH, WF. rewrite EC in SH. assert (MB : is_matrix (block_size P c) (block_size Q c) (snd (frow A i))) by (split; [exact SH|exact WF]).
    assert (Z1 : z = fb_start fb + kk * prod (tree_mults S T t) + flat_index (tree_mults S T t) true p) by (unfold z; lia).
    assert (Z2 : fb_start fb <= z < fb_stop fb) by nia.
    set (r := if in_domain then [y; z] else [z; y]). assert (VR : valid_idx (bshape (snd (frow A i))) r).
    { rewrite SH. unfold r. clear -Hy Z2 BD. destruct in_domain; (constructor; [lia|]; constructor; [lia|constructor]). }
    assert (BX : in_box (lo fb) (hi fb) r).
    { unfold forest_box, r. rewrite IND, SH. clear -Hy Z2 BD. destruct in_domain; cbn [fst snd in_box nth]; repeat split; lia. }
    assert (EA : ft_entry o Q A c (if in_domain then y else z) (if in_domain then z else y) = bat o (snd (frow A i)) r).
    { rewrite <- EC. rewrite (ft_entry_at OK o HQ _ _ OA Hi). unfold r. now destruct in_domain. }
    rewrite EA. destruct (in_dec Nat.eq_dec i js) as [IJ|NJ].
    - apply (In_nth _ _ 0) in IJ. destruct IJ as (k & Hk & Ek).
      assert (EF : ft_entry o Q (ss_rows st) c (if in_domain then y else z) (if in_domain then z else y) = bat o (snd (frow (ss_rows st) k)) r).
      { rewrite <- EC. rewrite <- Ek, <- SEC by exact Hk. rewrite (ft_entry_at OK o HQ _ _ FO) by lia. unfold r. now destruct in_domain. }
      rewrite EF. assert (VR' : valid_idx (bshape (snd (frow A (nth k js 0)))) r) by (rewrite Ek; exact VR). destruct (@iv_val _ _ _ _ _ _ _ _ _ _ IV k fb r Hk IF ltac:(congruence) VR' BX) as [VAL _]. rewrite (VAL IF). clear VAL. rewrite diag_entry_get. unfold scaled. rewrite EU.
      destruct (diag_lookup (nth pos (t_unc t) [])) as [(m & E1 & E2)|(E1 & E2)]; rewrite E1, E2; [|ring]. rewrite IND. unfold r, forest_box. destruct in_domain; cbn [fst snd combine map]; rewrite Nat.sub_0_r.
      + apply (scale_forest_col o (snd (frow D m)) MB RM PM EE (k := kk)); auto. lia.
      + apply (scale_forest_row o (snd (frow D m)) MB RM PM EE (k := kk)); auto. lia.
    - rewrite (ft_entry_none o _ _ FO).
      + rewrite diag_entry_get. destruct (diag_lookup (nth pos (t_unc t) [])) as [(m & E1 & E2)|(E1 & E2)]; rewrite E2; [|ring]. exfalso. apply NJ. apply (iv_hit IV). exists fb. split; [exact IF|]. split; [|exact IND]. unfold scaled. rewrite EU, E1. discriminate.
      + intros k Hk E. rewrite LR in Hk. rewrite SEC in E by exact Hk. rewrite <- EC in E. assert (X : nth k js 0 < length A) by (apply (iv_range IV); now apply nth_In). apply (fsec_inj OK HQ OA X Hi) in E. apply NJ. rewrite <- E. now apply nth_In.
  Qed.
End Result.
