(** abelian -> fusion trees: the three branches. *)
From Verif Require Import Util StableSort RowModel RowProofs GridModel GridProofs SymModel SymProofs CatSpec Sums SpaceModel SpaceSpec SpaceProofs SpaceProofs2 SpaceProofs3 SpaceProofs7
  PipeModel PipeProofs PipeProofs2 PipeProofs4 TreeModel TreeProofs TensorModel TensorSpec FormalSum TensorProofs TensorProofs2 TensorProofs3 TensorProofs4 TensorProofs5 BlockModel BlockProofs SparseModel SparseSpec SparseProofs
  SparseProofs2 SparseProofs3 SparseProofs6 SparseCharge SparseDense ConvertModel ConvertSpec ConvertProofs ConvertProofs2 ConvertProofs3 ConvertProofs4 ConvertProofs5.
Set Implicit Arguments. Unset Strict Implicit.
Open Scope nat_scope.

Section Branches.
  Variable S : tsymm.
  Hypothesis OK : tsymm_ok S.
  Variable fuse : sector -> sector -> sector.
  Hypothesis G : abelian_group_laws S fuse.
  Variable K : Type.
  Variable o : ops K.
  Variables P Q : tprod.
  Hypothesis HP : tp_ok S P.
  Hypothesis HQ : tp_ok S Q.
  Notation block := (blk K).
  Notation cod := (tp_flat_legs P).
  Notation dom := (tp_flat_legs Q).
  Notation gP := (grid cod).
  Notation gQ := (grid dom).
  Notation fusP := (fus S fuse cod).
  Notation fusQ := (fus S fuse dom).
  Let cod_ok := proj1 HP.
  Let dom_ok := proj1 HQ.
  Notation res := (ft_zero_data o P Q).

  Lemma grid_len legs a : In a (grid legs) -> length a = length legs.
  Proof. intros I. apply grid_valid in I. rewrite (valid_length I). apply map_length. Qed.
  Lemma shp_both a b : In a gP -> In b gQ -> shp (mults (leg_order cod dom)) (a ++ rev b) = shp (mults cod) a ++ rev (shp (mults dom) b).
  Proof.
    intros Ia Ib. unfold leg_order, mults. rewrite map_app, map_rev. rewrite shp_app by (rewrite map_length; now apply grid_len). rewrite shp_rev by (rewrite map_length; now apply grid_len). reflexivity.
  Qed.
  Lemma valid_both a b : In a gP -> In b gQ -> valid_idx (map nsec (leg_order cod dom)) (a ++ rev b).
  Proof.
    intros Ia Ib. unfold leg_order. rewrite map_app, map_rev. apply valid_app; [rewrite map_length; now apply grid_len|]. split; [now apply grid_valid|]. apply grid_valid in Ib. now apply valid_rev in Ib.
  Qed.
  Lemma valid_split r : valid_idx (map nsec (leg_order cod dom)) r -> exists a b, r = a ++ rev b /\ In a gP /\ In b gQ.
  Proof.
    intros V. exists (firstn (length cod) r), (rev (skipn (length cod) r)). rewrite rev_involutive, firstn_skipn. split; [reflexivity|]. unfold leg_order in V. rewrite map_app, map_rev in V. rewrite <- (firstn_skipn (length cod) r) in V.
    assert (L : length r = length cod + length dom) by (rewrite firstn_skipn in V; rewrite (valid_length V), app_length, rev_length, !map_length; reflexivity).
    apply valid_app in V; [|rewrite firstn_length, map_length; lia]. destruct V as [V1 V2]. split; [now apply grid_valid|]. apply grid_valid. apply valid_rev. now rewrite rev_involutive.
  Qed.
  Lemma shp_nonempty legs a : In a (grid legs) -> legs <> [] -> shp (mults legs) a <> [].
  Proof. intros I N E. apply grid_len in I. assert (L := shp_len (ms := mults legs) (b := a)). rewrite E in L. unfold mults in L. rewrite map_length in L. specialize (L I). destruct legs; [easy|discriminate]. Qed.

  Section Data.
  Variable D : list (list nat * blk K).
  Hypothesis T : tensor_ok S cod dom D.
  Let ND : NoDup (map fst D) := data_ok_NoDup (to_data T).
  Lemma block_both a b B : In a gP -> In b gQ -> In (a ++ rev b, B) D -> bshape B = shp (mults cod) a ++ rev (shp (mults dom) b) /\ bwf B.
  Proof. intros Ia Ib I. rewrite <- shp_both by assumption. split; [apply (do_shape (to_data T) I)|apply (do_full (to_data T) I)]. Qed.
  Lemma charges e a b : In e D -> fst e = a ++ rev b -> In a gP -> In b gQ -> fusP a = fusQ b.
  Proof.
    intros I E Ia Ib. assert (C := to_charge T I). unfold row_charge_ok in C. rewrite E in C. rewrite firstn_app, skipn_app in C. assert (L := grid_len Ia). rewrite <- L, firstn_all, skipn_all, Nat.sub_diag in C. cbn [firstn skipn] in C. rewrite app_nil_r in C. cbn [app] in C. rewrite rev_involutive in C.
    rewrite (mf_at G cod_ok Ia), (mf_at G dom_ok Ib) in C. congruence.
  Qed.

  (** *** legs on both sides *)
  Definition cmb2 (B : block) : option block := bcombine_legs o B [seq 0 (length cod); seq (length cod) (length dom)] [true; false].
  Lemma cmb2_ok : cod <> [] -> dom <> [] -> forall a b B, In a gP -> In b gQ -> In (a ++ rev b, B) D ->
    exists V, cmb2 B = Some V /\ bshape V = [hgt cod a; hgt dom b] /\ bwf V /\
      forall p q, valid_idx (shp (mults cod) a) p -> valid_idx (shp (mults dom) b) q ->
        bat o V [flat_index (shp (mults cod) a) true p; flat_index (shp (mults dom) b) true q] = bat o B (p ++ rev q).
  Proof.
    intros N1 N2 a b B Ia Ib I. destruct (block_both Ia Ib I) as [SH WF]. unfold cmb2.
    assert (L1 : length cod = length (shp (mults cod) a)) by (rewrite shp_len; unfold mults; rewrite map_length; auto; now apply grid_len).
    assert (L2 : length dom = length (shp (mults dom) b)) by (rewrite shp_len; unfold mults; rewrite map_length; auto; now apply grid_len).
    rewrite L1, L2. apply (combine2_spec o WF SH); now apply shp_nonempty.
  Qed.
  Lemma branch2 : cod <> [] -> dom <> [] -> convert_abelian_to_FT S o P Q D = match fold_left (gdom_step S o P Q D cmb2) gQ (Some (st0 o P Q)) with
    | Some st => Some (keep_touched o P Q (c_blocks st) (c_touched st)) | None => None end.
  Proof.
    intros N1 N2. unfold grid; rewrite <- (odo_all_eq (map nsec dom)). unfold convert_abelian_to_FT. revert N1 N2. change (dom_step S o P Q D) with (gdom_step S o P Q D cmb2). case cod; [intros X; now destruct X|]. intros x1 l1 _. case dom; [intros X; now destruct X|]. reflexivity.
  Qed.

  (** *** no codomain legs *)
  Definition cmb_dom (B : block) : option block := match bcombine_legs o B [seq 0 (length dom)] [false] with Some V => Some (breshape V (1 :: bshape V)) | None => None end.
  Lemma cmb_dom_ok : cod = [] -> dom <> [] -> forall a b B, In a gP -> In b gQ -> In (a ++ rev b, B) D ->
    exists V, cmb_dom B = Some V /\ bshape V = [hgt cod a; hgt dom b] /\ bwf V /\
      forall p q, valid_idx (shp (mults cod) a) p -> valid_idx (shp (mults dom) b) q ->
        bat o V [flat_index (shp (mults cod) a) true p; flat_index (shp (mults dom) b) true q] = bat o B (p ++ rev q).
  Proof.
    intros N1 N2 a b B Ia Ib I. destruct (block_both Ia Ib I) as [SH WF]. unfold cmb_dom.
    assert (L2 : length dom = length (shp (mults dom) b)) by (rewrite shp_len; unfold mults; rewrite map_length; auto; now apply grid_len).
    assert (EA : shp (mults cod) a = []) by (rewrite N1; destruct a; reflexivity). rewrite EA in *. unfold hgt. rewrite EA. cbn [app] in SH.
    destruct (combine_dom_spec o WF SH (shp_nonempty Ib N2)) as [V [EV [SV [WV VV]]]]. rewrite L2, EV. eexists. split; [reflexivity|]. split; [unfold breshape; cbn [bshape]; now rewrite SV|].
    split; [apply breshape_wf; [exact WV|rewrite prod_cons; lia]|]. intros p q Vp Vq. inversion Vp; subst. cbn [flat_index fval rev app]. rewrite <- VV by exact Vq. reflexivity.
  Qed.
  Lemma empty_secs R : tp_ok S R -> tp_flat_legs R = [] -> tp_secs R = [sym_trivial S].
  Proof. intros [_ N] E. unfold new_tprod, calc_sectors_of_factors in N. unfold tp_flat_legs in E. rewrite E in N. cbn in N. injection N as <-. reflexivity. Qed.
  Lemma empty_grid R : tp_flat_legs R = [] -> grid (tp_flat_legs R) = [[]].
  Proof. intros E. unfold grid. rewrite E. reflexivity. Qed.
  Lemma sec_in_P k : k < length res -> In (fsec Q res k) (tp_secs P).
  Proof.
    intros Hk. unfold fsec. assert (I := nth_In res (norow K) Hk). rewrite <- (fo_sector (zero_ok o P Q) I). apply nth_In. apply (fo_range (zero_ok o P Q) I).
  Qed.
  Lemma sec_in_Q k : k < length res -> In (fsec Q res k) (tp_secs Q).
  Proof. intros Hk. unfold fsec. assert (I := nth_In res (norow K) Hk). apply nth_In. apply (fo_range (zero_ok o P Q) I). Qed.
  Lemma secs_pos R a : tp_ok S R -> In a (grid (tp_flat_legs R)) -> In (fus S fuse (tp_flat_legs R) a) (tp_secs R).
  Proof.
    intros HR I. assert (OB := off_bound S fuse (fus S fuse (tp_flat_legs R) a) I). unfold wd in OB. rewrite (proj2 (row_eqb_eq _ _) eq_refl) in OB. assert (PA := shp_pos (proj1 HR) I).
    assert (Px : 0 < tot S fuse (tp_flat_legs R) (fus S fuse (tp_flat_legs R) a) (grid (tp_flat_legs R))) by lia. rewrite <- (block_size_tot OK G HR) in Px. unfold block_size, sector_multiplicity in Px.
    assert (W := row_where_spec (sp_secs (tp_space R)) (fus S fuse (tp_flat_legs R) a)). destruct (row_where _ _) as [i|]; [|lia]. destruct W as [Hi [EW _]]. rewrite <- EW. now apply nth_In.
  Qed.
  Lemma one_block : (cod = [] \/ dom = []) -> forall k, k < length res -> k = 0 /\ fsec Q res k = sym_trivial S.
  Proof.
    intros E k Hk. assert (SK : forall m, m < length res -> fsec Q res m = sym_trivial S).
    { intros m Hm. destruct E as [E|E]; [assert (I := sec_in_P Hm); rewrite (empty_secs HP E) in I|assert (I := sec_in_Q Hm); rewrite (empty_secs HQ E) in I]; destruct I as [I|[]]; congruence. }
    split; [|now apply SK]. apply (fsec_inj OK HQ (zero_ok o P Q)); [exact Hk|lia|]. rewrite !SK; lia || auto.
  Qed.
  Definition sim (x : option (list block * list bool * nat)) (y : option (cstate K)) : Prop :=
    match x, y with
    | None, None => True
    | Some (bl, t, i2), Some st => c_blocks st = bl /\ c_touched st = t /\ (length res = 0 \/ (length res = 1 /\ c_i2 st = [i2]))
    | _, _ => False
    end.
  Lemma sim_step x y b : cod = [] -> In b gQ -> sim x y -> sim (dom_step0 S o Q D x b) (gdom_step S o P Q D cmb_dom y b).
  Proof.
    intros EC Ib H. destruct x as [[[bl t] i2]|], y as [st|]; cbn [sim] in H; try contradiction; [|exact I]. destruct H as [<- [<- H]]. unfold dom_step0, gdom_step.
    rewrite sectors_at_row. fold (row_sectors S dom b). rewrite (mf_at G dom_ok Ib). destruct (row_eqb (fusQ b) (sym_trivial S)) eqn:R; cbn [negb].
    - apply row_eqb_eq in R. assert (I1 : In (fusQ b) (tp_secs P)) by (rewrite (empty_secs HP EC), R; now left). destruct (zero_all o I1 (secs_pos HQ Ib)) as [k0 [Hk0 Sk0]].
      destruct (coupled_spec OK HQ (fusQ b) (zero_ok o P Q)) as [[k [EK [Hk Sk]]]|[EK NK]]; [|exfalso; now apply (NK k0)]. rewrite EK. destruct (one_block (or_introl EC) Hk) as [-> _].
      destruct H as [H|[LR H]]; [lia|]. rewrite H. cbn [nth upd]. rewrite EC. cbn [map]. change (odo_all []) with [@nil nat]. cbn [fold_left]. unfold gcod_step. rewrite EC. cbn [sectors_at combine map].
      change (multiple_fusion S []) with (Some (sym_trivial S)). rewrite <- R, (proj2 (row_eqb_eq _ _) eq_refl). cbn [negb]. change (prod (mults_at [] [])) with 1. change ([] ++ rev b) with (rev b). unfold cmb_dom.
      destruct (get_block D (rev b)) as [B|]; [|cbn [sim c_blocks c_touched c_i2]; repeat (split; [reflexivity|]); right; split; [exact LR|reflexivity]].
      destruct (bcombine_legs o B [seq 0 (length dom)] [false]) as [V|]; [|exact I]. change (0 + 1) with 1. destruct (assign_at o (c_blocks st) 0 [0; i2] [1; i2 + prod (mults_at dom b)] (breshape V (1 :: bshape V))) as [bl|]; [|exact I].
      cbn [sim c_blocks c_touched c_i2]. repeat (split; [reflexivity|]). right; split; [exact LR|reflexivity].
    - destruct (coupled_spec OK HQ (fusQ b) (zero_ok o P Q)) as [[k [EK [Hk Sk]]]|[EK NK]].
      + exfalso. destruct (one_block (or_introl EC) Hk) as [_ X]. rewrite Sk in X. rewrite X, (proj2 (row_eqb_eq _ _) eq_refl) in R. discriminate.
      + rewrite EK. cbn [sim]. auto.
  Qed.
  Lemma sim_loop l : cod = [] -> (forall b, In b l -> In b gQ) -> forall x y, sim x y -> sim (fold_left (dom_step0 S o Q D) l x) (fold_left (gdom_step S o P Q D cmb_dom) l y).
  Proof. intros EC. induction l as [|b l IH]; intros IN x y H; [exact H|]. cbn [fold_left]. apply IH; [intros b' I'; apply IN; now right|]. apply sim_step; auto. apply IN; now left. Qed.
  Lemma res_le1 : (cod = [] \/ dom = []) -> length res = 0 \/ length res = 1.
  Proof. intros E. destruct (length res) as [|[|n]] eqn:L; auto. exfalso. destruct (one_block E (k := 1)) as [X _]; [lia|discriminate]. Qed.
  Lemma branch_dom : cod = [] -> convert_abelian_to_FT S o P Q D = match fold_left (gdom_step S o P Q D cmb_dom) gQ (Some (st0 o P Q)) with
    | Some st => Some (keep_touched o P Q (c_blocks st) (c_touched st)) | None => None end.
  Proof.
    intros EC. assert (E0 : convert_abelian_to_FT S o P Q D = match fold_left (dom_step0 S o Q D) gQ (Some (map snd res, repeat false (length res), 0)) with
      | Some (blocks, touched, _) => Some (keep_touched o P Q blocks touched) | None => None end) by (unfold grid; rewrite <- (odo_all_eq (map nsec dom)); unfold convert_abelian_to_FT; rewrite EC; reflexivity).
    rewrite E0. assert (SM := sim_loop (l := gQ) EC ltac:(auto) (x := Some (map snd res, repeat false (length res), 0)) (y := Some (st0 o P Q))).
    destruct (fold_left (dom_step0 S o Q D) gQ _) as [[[bl t] i2]|], (fold_left (gdom_step S o P Q D cmb_dom) gQ _) as [st|]; cbn [sim] in SM; try (now destruct SM); try reflexivity;
      (assert (SM' := SM ltac:(cbn [st0 c_blocks c_touched c_i2]; repeat (split; [reflexivity|]); destruct (res_le1 (or_introl EC)) as [X|X]; [now left|right; rewrite X; auto])); clear SM); [|contradiction|contradiction]. destruct SM' as [-> [-> _]]. reflexivity.
  Qed.

  (** *** no domain legs *)
  Definition cmb_cod (B : block) : option block := match bcombine_legs o B [seq 0 (length cod)] [true] with Some V => Some (breshape V (bshape V ++ [1])) | None => None end.
  Lemma cmb_cod_ok : cod <> [] -> dom = [] -> forall a b B, In a gP -> In b gQ -> In (a ++ rev b, B) D ->
    exists V, cmb_cod B = Some V /\ bshape V = [hgt cod a; hgt dom b] /\ bwf V /\
      forall p q, valid_idx (shp (mults cod) a) p -> valid_idx (shp (mults dom) b) q ->
        bat o V [flat_index (shp (mults cod) a) true p; flat_index (shp (mults dom) b) true q] = bat o B (p ++ rev q).
  Proof.
    intros N1 N2 a b B Ia Ib I. destruct (block_both Ia Ib I) as [SH WF]. unfold cmb_cod.
    assert (L1 : length cod = length (shp (mults cod) a)) by (rewrite shp_len; unfold mults; rewrite map_length; auto; now apply grid_len).
    assert (EB : shp (mults dom) b = []) by (rewrite N2; destruct b; reflexivity). rewrite EB in *. unfold hgt. rewrite EB. cbn [rev] in SH. rewrite app_nil_r in SH.
    destruct (combine_cod_spec o WF SH (shp_nonempty Ia N1)) as [V [EV [SV [WV VV]]]]. rewrite L1, EV. eexists. split; [reflexivity|]. split; [unfold breshape; cbn [bshape]; now rewrite SV|].
    split; [apply breshape_wf; [exact WV|rewrite prod_app, prod_one; lia]|]. intros p q Vp Vq. inversion Vq; subst. cbn [rev]. rewrite app_nil_r. rewrite <- VV by exact Vp. reflexivity.
  Qed.
  Lemma branch_cod : cod <> [] -> dom = [] -> convert_abelian_to_FT S o P Q D = match fold_left (gdom_step S o P Q D cmb_cod) gQ (Some (st0 o P Q)) with
    | Some st => Some (keep_touched o P Q (c_blocks st) (c_touched st)) | None => None end.
  Proof.
    intros NC ED. assert (E0 : convert_abelian_to_FT S o P Q D = match fold_left (cod_step0 S o P D) gP (Some (map snd res, repeat false (length res), 0)) with
      | Some (blocks, touched, _) => Some (keep_touched o P Q blocks touched) | None => None end).
    { unfold grid; rewrite <- (odo_all_eq (map nsec cod)). unfold convert_abelian_to_FT. rewrite ED. revert NC. case cod; [intros X; now destruct X|]. reflexivity. }
    rewrite E0, (empty_grid ED). cbn [fold_left]. unfold gdom_step. rewrite ED. cbn [sectors_at combine map]. change (multiple_fusion S []) with (Some (sym_trivial S)). change (prod (mults_at [] [])) with 1. cbv zeta. cbn [st0 c_blocks c_touched c_i2].
    rewrite odo_all_eq. fold gP.
    destruct (coupled_spec OK HQ (sym_trivial S) (zero_ok o P Q)) as [[k [EK [Hk Sk]]]|[EK NK]]; rewrite EK.
    - destruct (one_block (or_intror ED) Hk) as [-> _]. rewrite nth_repeat_lt by exact Hk.
      assert (EF : forall l x, (forall a, In a l -> In a gP) -> fold_left (cod_step0 S o P D) l x = fold_left (gcod_step S o P D cmb_cod [] (sym_trivial S) 0 0 1) l x).
      { induction l as [|a l IH]; intros x IN; [reflexivity|]. cbn [fold_left]. rewrite <- IH by (intros a' I'; apply IN; now right). f_equal. unfold cod_step0, gcod_step. destruct x as [[[bl t] i1]|]; [|reflexivity].
        destruct (multiple_fusion S (sectors_at S cod a)) as [c|]; [|reflexivity]. destruct (row_eqb c (sym_trivial S)); [|reflexivity]. cbn [negb rev]. rewrite app_nil_r. destruct (get_block D a) as [B|]; [|reflexivity]. unfold cmb_cod.
        destruct (bcombine_legs o B [seq 0 (length cod)] [true]) as [V|]; reflexivity. }
      rewrite EF by auto. unfold grid. cbn [app]. destruct (fold_left (gcod_step _ _ _ _ _ _ _ _ _ _) _ _) as [[[bl t] i1]|]; reflexivity.
    - assert (EF : forall l x, (forall a, In a l -> In a gP) -> fold_left (cod_step0 S o P D) l (Some x) = Some x).
      { induction l as [|a l IH]; intros x IN; [reflexivity|]. cbn [fold_left]. unfold cod_step0 at 2. destruct x as [[bl t] i1]. assert (Ia : In a gP) by (apply IN; now left). rewrite sectors_at_row. fold (row_sectors S cod a). rewrite (mf_at G cod_ok Ia).
        destruct (row_eqb (fusP a) (sym_trivial S)) eqn:R; cbn [negb]; [|apply IH; intros a' I'; apply IN; now right]. exfalso. apply row_eqb_eq in R.
        assert (I2 : In (fusP a) (tp_secs Q)) by (rewrite (empty_secs HQ ED), R; now left). destruct (zero_all o (secs_pos HP Ia) I2) as [k [Hk Sk]]. apply (NK k Hk). congruence. }
      rewrite EF by auto. reflexivity.
  Qed.

  Theorem to_ft : cod <> [] \/ dom <> [] -> exists F, convert_abelian_to_FT S o P Q D = Some F /\ ft_ok P Q F /\
    forall a p b q, In a gP -> In b gQ -> valid_idx (shp (mults cod) a) p -> valid_idx (shp (mults dom) b) q -> ft_value S o P Q F a p b q = sval o D (a ++ rev b) (p ++ rev q).
  Proof.
    intros NE. assert (EM : forall l : list espace, l = [] \/ l <> []) by (intros l; destruct l; [now left|right; discriminate]). assert (EC := EM cod). assert (ED := EM dom). clear EM.
    assert (FIN : forall cmb, convert_abelian_to_FT S o P Q D = match fold_left (gdom_step S o P Q D cmb) gQ (Some (st0 o P Q)) with Some st => Some (keep_touched o P Q (c_blocks st) (c_touched st)) | None => None end ->
      (forall a b B, In a gP -> In b gQ -> In (a ++ rev b, B) D -> exists V, cmb B = Some V /\ bshape V = [hgt cod a; hgt dom b] /\ bwf V /\
        forall p q, valid_idx (shp (mults cod) a) p -> valid_idx (shp (mults dom) b) q -> bat o V [flat_index (shp (mults cod) a) true p; flat_index (shp (mults dom) b) true q] = bat o B (p ++ rev q)) ->
      exists F, convert_abelian_to_FT S o P Q D = Some F /\ ft_ok P Q F /\
        forall a p b q, In a gP -> In b gQ -> valid_idx (shp (mults cod) a) p -> valid_idx (shp (mults dom) b) q -> ft_value S o P Q F a p b q = sval o D (a ++ rev b) (p ++ rev q)).
    { intros cmb E C. destruct (gdom_result OK G (o := o) HP HQ ND C) as [st [EF [IV _]]]. rewrite E, EF. eexists. split; [reflexivity|]. apply (to_ft_value OK G HP HQ ND C charges EF). }
    destruct EC as [EC|EC], ED as [ED|ED].
    - destruct NE; contradiction.
    - apply (FIN cmb_dom); [now apply branch_dom|now apply cmb_dom_ok].
    - apply (FIN cmb_cod); [now apply branch_cod|now apply cmb_cod_ok].
    - apply (FIN cmb2); [now apply branch2|now apply cmb2_ok].
  Qed.
  End Data.
End Branches.
