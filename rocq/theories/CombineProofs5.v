(** split_legs: the block-sparse data. *)
From Verif Require Import Util StableSort RowModel RowProofs GridModel GridProofs SymModel SymProofs CatSpec SpaceModel SpaceSpec SpaceProofs SpaceProofs2 SpaceProofs3 SpaceProofs5
  PipeModel PipeProofs PipeProofs2 PipeProofs3 PipeProofs4 BlockModel BlockProofs SparseModel SparseSpec SparseProofs SparseProofs2 SparseProofs3 SparseCharge SparseCompose2 SparseDense CombineModel CombineSpec CombineProofs CombineProofs2 CombineProofs3 CombineProofs4.
Set Implicit Arguments. Unset Strict Implicit.
Open Scope nat_scope.

Fixpoint iflags (n i : nat) (its : list (item * bool)) : Prop := match its with [] => True | x :: t => (n <=? i) = snd x /\ iflags n (i + 1) t end.
Fixpoint Mmap (its : list (item * bool)) (r : list nat) : list nat :=
  match its with
  | [] => []
  | x :: t => match fst x with Keep _ => [] | Group P => [mix P (oriented (snd x) (firstn (width x) r))] end ++ Mmap t (skipn (width x) r)
  end.
Definition in_ranges (rg : list (nat * nat)) (ms : list nat) : Prop := Forall2 (fun bl m => fst bl <= m < fst bl + snd bl) rg ms.
Lemma split_map_rows_In its b ms : In ms (split_map_rows its b) <-> in_ranges (split_ranges its b) ms.
Proof.
  unfold split_map_rows. rewrite in_map_iff. generalize (split_ranges its b) as rg. intros rg. split.
  - intros (inds & <- & H). apply make_grid_In in H. revert inds H. induction rg as [|[a l] rg IH]; intros inds V; inversion V as [|x y la lb H1 H2]; subst; cbn; constructor; [cbn; lia|]. apply IH. exact H2.
  - intros H. exists (map (fun p => snd p - fst p) (combine (map fst rg) ms)).
    split; [|apply make_grid_In]; induction H as [|[a l] m rg ms H1 H2 IH]; cbn in *; [reflexivity|f_equal; [lia|exact IH]|constructor|constructor; [lia|exact IH]].
Qed.
Lemma split_map_rows_NoDup its b : NoDup (split_map_rows its b).
Proof.
  unfold split_map_rows. apply NoDup_map_inj; [|apply make_grid_NoDup]. generalize (split_ranges its b) as rg. intros rg x y Hx Hy. apply make_grid_In in Hx, Hy. revert x y Hx Hy.
  induction rg as [|[a l] rg IH]; intros x y Hx Hy E; inversion Hx as [|x1 x2 la lb H1 H2]; subst; inversion Hy as [|y1 y2 lc ld H3 H4]; subst; [reflexivity|].
  cbn in E. injection E as E1 E2. f_equal; [lia|]. apply IH; assumption.
Qed.

Lemma combine_map_stops (s t : list nat) m : length s = m -> length t = m -> map (fun p : nat * nat => fst p + snd p) (combine s t) = stops s t.
Proof. reflexivity. Qed.
Lemma stops_len (s t : list nat) m : length s = m -> length t = m -> map (fun p : nat * nat => snd p - fst p) (combine s (stops s t)) = t.
Proof. intros H1 H2. apply stops_sub. congruence. Qed.

Section Split.
  Variable K : Type.
  Variable o : ops K.
  Variable S : symm.
  Variable fuse : sector -> sector -> sector.
  Hypothesis G : abelian_group_laws S fuse.
  Hypothesis HA : s_abelian S = true.
  Hypothesis HD : s_drop S = true.
  Notation norow := (Bim 0 0 [] 0).

  Lemma P_range P J m : item_ok S (Group P) -> J < nsec (p_es P) -> nth J (p_slices P) 0 <= m < nth (J + 1) (p_slices P) 0 ->
    m < length (p_map P) /\ bim_J (nth m (p_map P) norow) = J.
  Proof.
    intros POK HJ Hm. destruct (P_eq G HA HD POK) as (_ & EE & _ & _ & ED & EM). rewrite ED in Hm.
    assert (HJ' : J + 1 < length (pdiffs S fuse (p_legs P) (es_dual (p_es P)) (p_cstyle P))).
    { unfold nsec in HJ. rewrite (ok_len (P_es_ok G HA HD POK)) in HJ. rewrite EE in HJ. rewrite (E_num G HA HD (P_OK POK)) in HJ. lia. }
    assert (HL := @pdiffs_le S fuse (p_legs P) (es_dual (p_es P)) (p_cstyle P) _ (nth_In _ 0 HJ')).
    assert (Hm' : m < length (p_map P)) by (rewrite EM, bim_length, <- (pgrid_length (p_legs P) (p_cstyle P)); lia).
    split; [exact Hm'|]. rewrite EM in Hm' |- *. rewrite bim_nth by exact Hm'. cbn [prow bim_J]. apply group_unique; assumption.
  Qed.
  Lemma split_row_eq n its : forall i r, its_ok S its -> iflags n i its -> valid_idx (map nsec (alegs its)) r ->
    split_row n i (map fst its) (Jmap its r) (Mmap its r) = (r, combine (Smap its r) (Tmap its r)) /\ in_ranges (split_ranges (map fst its) (Jmap its r)) (Mmap its r).
  Proof.
    induction its as [|x t IH]; intros i r OK F V.
    - assert (E := valid_length V). destruct r; [|discriminate]. split; [reflexivity|constructor].
    - destruct F as [F1 F2]. destruct (its_ok_cons OK) as [O1 O2]. destruct (row_cons V) as [V1 V2]. destruct (IH (i + 1) _ O2 F2 V2) as [E1 E2]. destruct x as [[L|P] d].
      + change (width (Keep L, d)) with 1 in *. cbn [map fst Jmap Mmap split_row split_ranges Smap Tmap combine app]. change (width (Keep L, d)) with 1. rewrite E1. cbn [fst snd]. split; [|exact E2].
        rewrite olegs_keep in V1. cbn [map] in V1. destruct (valid_one V1) as (j & Ej & Hj). unfold iJ, iS, iT. cbn [fst]. rewrite Ej, olegs_keep. cbn [hd mults map shp]. rewrite prod_cons. unfold prod. cbn [fold_right]. rewrite Nat.mul_1_r.
        f_equal. destruct r as [|a r']; [discriminate|]. cbn [firstn] in Ej. injection Ej as ->. reflexivity.
      + cbn [map fst snd Jmap Mmap split_row split_ranges Smap Tmap combine app hd tl]. rewrite E1. cbn [fst snd] in *.
        assert (LR : length (firstn (width (Group P, d)) r) = length (p_legs P)) by (rewrite (valid_length V1), map_length; apply olegs_length).
        assert (V1' := row_orient V1). cbn [item_legs fst snd] in V1'. destruct (mix_spec G HA HD O1 V1') as [Hm EI]. destruct (P_row G HA HD O1 Hm) as (A1 & A2 & A3 & A4 & _). rewrite EI in A3.
        split.
        * rewrite F1, EI. assert (EO : (if d then rev (oriented d (firstn (width (Group P, d)) r)) else oriented d (firstn (width (Group P, d)) r)) = firstn (width (Group P, d)) r) by (destruct d; cbn [oriented]; [apply rev_involutive|reflexivity]).
          rewrite EO, firstn_skipn. do 2 f_equal. unfold iS, iT, pSof. cbn [fst snd]. unfold olegs. cbn [fst snd item_legs]. rewrite shp_orient, prod_orient by exact LR. f_equal. lia.
        * constructor; [|exact E2]. unfold iJ. cbn [fst snd]. unfold pJof in *. cbn [fst snd]. lia.
  Qed.
  Lemma split_ranges_row n its : forall i b ms, its_ok S its -> iflags n i its -> valid_idx (map nsec (nlegs its)) b -> in_ranges (split_ranges (map fst its) b) ms ->
    exists r, valid_idx (map nsec (alegs its)) r /\ Jmap its r = b /\ Mmap its r = ms.
  Proof.
    induction its as [|x t IH]; intros i b ms OK F V R.
    - assert (E := valid_length V). destruct b; [|discriminate]. inversion R; subst. exists []. repeat split; constructor.
    - destruct F as [F1 F2]. destruct (its_ok_cons OK) as [O1 O2]. cbn [nlegs map] in V. inversion V as [|J n' b' l' H1 H2]; subst. destruct x as [[L|P] d].
      + cbn [map fst split_ranges] in R. destruct (IH (i + 1) b' ms O2 F2 H2 R) as (r & Vr & E1 & E2). exists (J :: r). split; [|cbn; now rewrite E1, E2].
        rewrite alegs_cons, olegs_keep. cbn [app map]. constructor; auto.
      + cbn [map fst split_ranges] in R. inversion R as [|a m rg ms' R1 R2]; subst. destruct (IH (i + 1) b' ms' O2 F2 H2 R2) as (r & Vr & E1 & E2). cbn [fst snd] in R1. unfold xleg in H1. cbn [fst item_leg] in H1.
        destruct (@P_range P J m O1 H1 ltac:(lia)) as [Hm EJ]. destruct (mix_back G HA HD O1 Hm) as [Vi Ei]. set (idx := bim_idx _) in *.
        assert (Vo : valid_idx (map nsec (olegs (Group P, d))) (oriented d idx)) by (unfold olegs; cbn [fst snd item_legs]; rewrite oriented_map; apply oriented_valid; exact Vi).
        assert (LL : length (oriented d idx) = width (Group P, d)) by (rewrite (valid_length Vo), map_length; apply olegs_length).
        exists (oriented d idx ++ r). split; [rewrite alegs_cons, map_app; apply Forall2_app; assumption|].
        cbn [Jmap Mmap fst snd]. destruct (firstn_at r LL) as [-> ->]. rewrite E1, E2. unfold iJ. cbn [fst snd]. rewrite oriented_invol, Ei. unfold pJof. rewrite Ei, EJ. split; reflexivity.
  Qed.
  Lemma split_perm_eq n its : forall i k, iflags n i its -> split_perm n i k (map fst its) = cperm k its.
  Proof.
    induction its as [|x t IH]; intros i k F; [reflexivity|]. destruct F as [F1 F2]. destruct x as [[L|P] d]; cbn [map fst split_perm cperm].
    - change (width (Keep L, d)) with 1. cbn [seq oriented revd fst app]. rewrite (IH _ _ F2). reflexivity.
    - change (width (Group P, d)) with (length (p_legs P)). rewrite (IH _ _ F2). cbn [snd] in F1. rewrite F1. f_equal. unfold revd. cbn [fst snd]. destruct (p_cstyle P), d; reflexivity.
  Qed.

  Variable its : list (item * bool).
  Variable n : nat.
  Hypothesis OK : its_ok S its.
  Hypothesis FL : iflags n 0 its.
  Variable R : list (list nat * blk K).
  Hypothesis DR : data_ok (nlegs its) R.
  Definition piece (e : list nat * blk K) (ms : list nat) : list nat * blk K :=
    let rs := split_row n 0 (map fst its) (fst e) ms in
    let shape := map (fun p => nth (snd p) (es_mults (fst p)) 0) (combine (alegs its) (fst rs)) in
    let pc := bslice o (snd e) (map fst (snd rs)) (map (fun p => fst p + snd p) (snd rs)) in
    (fst rs, btranspose o (breshape pc (take 0 shape (split_perm n 0 0 (map fst its)))) (split_perm n 0 0 (map fst its))).
  Definition pieces : list (list nat * blk K) := flat_map (fun e => map (piece e) (split_map_rows (map fst its) (fst e))) R.
  Lemma split_legs_eq : split_legs o n (map fst its) (alegs its) R = make_data pieces false.
  Proof. unfold split_legs, pieces. destruct R; reflexivity. Qed.
  Lemma piece_spec e r : In e R -> valid_idx (map nsec (alegs its)) r -> Jmap its r = fst e ->
    fst (piece e (Mmap its r)) = r /\ bshape (snd (piece e (Mmap its r))) = shp (mults (alegs its)) r /\ bwf (snd (piece e (Mmap its r))) /\
    forall q, okpos (alegs its) r q -> bat o (snd (piece e (Mmap its r))) q = bat o (snd e) (Qmap its r q).
  Proof.
    intros He V EJ. destruct (@split_row_eq n its 0 r OK FL V) as [E _]. unfold piece. rewrite <- EJ, E. cbn [fst snd]. rewrite shape_eq. destruct (row_wid V) as [L1 L2].
    rewrite (split_perm_eq 0 FL). destruct (map_len its r r) as (_ & LS & LT & _). rewrite (take_cperm 0 L2).
    split; [reflexivity|]. split; [rewrite btranspose_shape; cbn [breshape bshape]; rewrite take_cperm by (now rewrite oapply_length); apply (oapply_invol L2)|]. split; [apply btranspose_wf|].
    intros q HP. destruct (okpos_len HP) as [_ L4]. rewrite wid_alegs in L4. rewrite bat_transpose.
    - rewrite (@take_inv_unique _ 0 q (oapply its q) (cperm 0 its)); [|rewrite oapply_length by exact L4; apply cperm_perm|rewrite take_cperm by (now rewrite oapply_length); symmetry; now apply oapply_invol].
      rewrite combine_fst by congruence. rewrite (combine_map_stops LS LT).
      rewrite (@bat_reshape _ o _ _ (Fmap its r q) (oapply its q)).
      + unfold bslice. rewrite bat_bmk; [|rewrite (stops_len LS LT); apply (F_valid G HA HD OK HP)]. rewrite Qmap_SF. reflexivity.
      + cbn [bslice bmk bshape]. rewrite (stops_len LS LT). destruct (map_len its r q) as (_ & _ & A & C & _). congruence.
      + rewrite !oapply_length by assumption. reflexivity.
      + cbn [bslice bmk bshape]. rewrite (stops_len LS LT). symmetry. apply (items_flat OK HP).
    - cbn [breshape bshape]. rewrite take_cperm by (now rewrite oapply_length). rewrite (oapply_invol L2). apply HP.
  Qed.
  Lemma pieces_In e' : In e' pieces <-> exists e r, In e R /\ valid_idx (map nsec (alegs its)) r /\ Jmap its r = fst e /\ e' = piece e (Mmap its r).
  Proof.
    unfold pieces. rewrite in_flat_map. split.
    - intros (e & He & H). apply in_map_iff in H. destruct H as (ms & <- & H). apply split_map_rows_In in H.
      destruct (split_ranges_row OK FL (do_valid DR He) H) as (r & V & E1 & <-). exists e, r. auto.
    - intros (e & r & He & V & E & ->). exists e. split; [exact He|]. apply in_map. apply split_map_rows_In. rewrite <- E. apply (@split_row_eq n its 0 r OK FL V).
  Qed.
  Lemma pieces_NoDup : NoDup (map fst pieces).
  Proof.
    unfold pieces. assert (ND := data_ok_NoDup DR). assert (HR : forall e, In e R -> In e R) by auto. revert ND HR. generalize R at 1 2 4 as R'. induction R' as [|e R' IH]; intros ND HR; [constructor|].
    cbn [flat_map]. rewrite map_app. cbn [map] in ND. inversion ND as [|x l NI ND']; subst. apply NoDup_app_intro.
    - rewrite map_map. apply NoDup_map_inj; [|apply split_map_rows_NoDup]. intros ms ms' H1 H2 E. apply split_map_rows_In in H1, H2.
      assert (He := HR e (or_introl eq_refl)). destruct (split_ranges_row OK FL (do_valid DR He) H1) as (r & V & E1 & <-). destruct (split_ranges_row OK FL (do_valid DR He) H2) as (r' & V' & E1' & <-).
      rewrite (proj1 (piece_spec He V E1)), (proj1 (piece_spec He V' E1')) in E. now subst.
    - apply IH; [exact ND'|]. intros; apply HR; now right.
    - intros r H1 H2. rewrite map_map in H1. apply in_map_iff in H1. destruct H1 as (ms & E & H1). apply split_map_rows_In in H1. assert (He := HR e (or_introl eq_refl)).
      destruct (split_ranges_row OK FL (do_valid DR He) H1) as (r1 & V & E1 & <-). rewrite (proj1 (piece_spec He V E1)) in E. subst r1.
      apply in_map_iff in H2. destruct H2 as (e' & E' & H2). apply in_flat_map in H2. destruct H2 as (e2 & I2 & H2). apply in_map_iff in H2. destruct H2 as (ms' & <- & H2). apply split_map_rows_In in H2.
      assert (He2 := HR e2 (or_intror I2)). destruct (split_ranges_row OK FL (do_valid DR He2) H2) as (r2 & V2 & E2 & <-). rewrite (proj1 (piece_spec He2 V2 E2)) in E'. subst r2.
      apply NI. rewrite <- E1, E2. apply in_map. exact I2.
  Qed.
  Theorem split_legs_ok : let D := split_legs o n (map fst its) (alegs its) R in data_ok (alegs its) D /\
    (forall r q, okpos (alegs its) r q -> sval o D r q = sval o R (Jmap its r) (Qmap its r q)) /\
    (forall r, In r (map fst D) -> valid_idx (map nsec (alegs its)) r /\ In (Jmap its r) (map fst R)).
  Proof.
    cbv zeta. rewrite split_legs_eq. assert (DO : data_ok (alegs its) (make_data pieces false)).
    { apply data_ok_make; [apply pieces_NoDup|]. intros e' H. apply pieces_In in H. destruct H as (e & r & He & V & E & ->). destruct (piece_spec He V E) as (E1 & E2 & E3 & _). rewrite E1. auto. }
    assert (ND := data_ok_NoDup DO).
    assert (KEY : forall r, In r (map fst (make_data pieces false)) <-> valid_idx (map nsec (alegs its)) r /\ In (Jmap its r) (map fst R)).
    { intros r. rewrite in_map_iff. split.
      - intros (e' & <- & H). apply make_data_In in H. apply pieces_In in H. destruct H as (e & r' & He & V & E & ->). rewrite (proj1 (piece_spec He V E)). split; [exact V|]. rewrite E. now apply in_map.
      - intros [V H]. apply in_map_iff in H. destruct H as (e & E & He). exists (piece e (Mmap its r)). split; [apply (piece_spec He V (eq_sym E))|]. apply make_data_In, pieces_In. exists e, r. auto. }
    split; [exact DO|]. split; [|intros r H; now apply KEY]. intros r q HP. destruct (in_dec (list_eq_dec Nat.eq_dec) (Jmap its r) (map fst R)) as [I|N].
    - apply in_map_iff in I. destruct I as (e & E & He). destruct HP as [V Q]. destruct (piece_spec He V (eq_sym E)) as (E1 & _ & _ & E2).
      assert (Hin : In (piece e (Mmap its r)) (make_data pieces false)) by (apply make_data_In, pieces_In; exists e, r; auto).
      rewrite <- E1 at 1. rewrite (sval_in' o q ND Hin), (E2 q (conj V Q)), <- E. symmetry. apply (sval_in' o _ (data_ok_NoDup DR) He).
    - rewrite (sval_notin o _ N). apply sval_notin. intros H. apply N. now apply KEY.
  Qed.
End Split.
