(** abelian -> fusion trees: the outer loop. *)
From Verif Require Import Util StableSort RowModel RowProofs GridModel GridProofs SymModel SymProofs CatSpec Sums SpaceModel SpaceSpec SpaceProofs SpaceProofs2 SpaceProofs3 SpaceProofs7
  PipeModel PipeProofs PipeProofs2 PipeProofs4 TreeModel TreeProofs TensorModel TensorSpec FormalSum TensorProofs TensorProofs2 TensorProofs3 TensorProofs4 TensorProofs5 BlockModel BlockProofs SparseModel SparseSpec SparseProofs
  SparseProofs6 SparseCharge ConvertModel ConvertSpec ConvertProofs ConvertProofs2 ConvertProofs3 ConvertProofs4.
Set Implicit Arguments. Unset Strict Implicit.
Open Scope nat_scope.

Section Loop.
  Variable S : tsymm.
  Hypothesis OK : tsymm_ok S.
  Variable fuse : sector -> sector -> sector.
  Hypothesis G : abelian_group_laws S fuse.
  Variable K : Type.
  Variable o : ops K.
  Variables P Q : tprod.
  Hypothesis HP : tp_ok S P.
  Hypothesis HQ : tp_ok S Q.
  Variable D : list (list nat * blk K).
  Hypothesis ND : NoDup (map fst D).
  Notation block := (blk K).
  Notation cod := (tp_flat_legs P).
  Notation dom := (tp_flat_legs Q).
  Notation gP := (grid cod).
  Notation gQ := (grid dom).
  Notation fusP := (fus S fuse cod).
  Notation fusQ := (fus S fuse dom).
  Notation totP := (tot S fuse cod).
  Notation totQ := (tot S fuse dom).
  Notation offP := (off S fuse cod).
  Notation offQ := (off S fuse dom).
  Notation nob := (noblk K).
  Notation sv := (sval o).
  Let cod_ok := proj1 HP.
  Let dom_ok := proj1 HQ.
  Variable cmb : block -> option block.
  Hypothesis CMB : forall a b B, In a gP -> In b gQ -> In (a ++ rev b, B) D ->
    exists V, cmb B = Some V /\ bshape V = [hgt cod a; hgt dom b] /\ bwf V /\
      forall p q, valid_idx (shp (mults cod) a) p -> valid_idx (shp (mults dom) b) q ->
        bat o V [flat_index (shp (mults cod) a) true p; flat_index (shp (mults dom) b) true q] = bat o B (p ++ rev q).
  Notation res := (ft_zero_data o P Q).
  Notation sec := (fsec Q res).

  Definition gdom_step (acc : option (cstate K)) (b : list nat) : option (cstate K) :=
    match acc with
    | None => None
    | Some st =>
      match multiple_fusion S (sectors_at S dom b) with
      | None => None
      | Some c =>
        match block_ind_from_coupled (map fst res) c Q with
        | None => None
        | Some None => Some st
        | Some (Some k) =>
          let width := prod (mults_at dom b) in
          let i2 := nth k (c_i2 st) 0 in
          match fold_left (gcod_step S o P D cmb b c k i2 width) (odo_all (map nsec cod)) (Some (c_blocks st, c_touched st, 0)) with
          | None => None
          | Some (blocks, touched, _) => Some (CState blocks touched (upd (c_i2 st) k (i2 + width)))
          end
        end
      end
    end.

  Record inv (st : cstate K) (done : list (list nat)) : Prop := {
    iv_len : length (c_blocks st) = length res /\ length (c_touched st) = length res /\ length (c_i2 st) = length res;
    iv_shape : forall k, k < length res -> bshape (nth k (c_blocks st) nob) = [totP (sec k) gP; totQ (sec k) gQ] /\ bwf (nth k (c_blocks st) nob);
    iv_i2 : forall k, k < length res -> nth k (c_i2 st) 0 = totQ (sec k) done;
    iv_zero : forall k x y, k < length res -> x < totP (sec k) gP -> totQ (sec k) done <= y < totQ (sec k) gQ -> bat o (nth k (c_blocks st) nob) [x; y] = o0 o;
  }.
  Lemma gdom_loop : forall rest done st, gQ = done ++ rest -> inv st done ->
    exists st', fold_left gdom_step rest (Some st) = Some st' /\ inv st' gQ /\
      (forall k x y, k < length res -> x < totP (sec k) gP -> y < totQ (sec k) done -> bat o (nth k (c_blocks st') nob) [x; y] = bat o (nth k (c_blocks st) nob) [x; y]) /\
      (forall k a b p q, k < length res -> In a gP -> In b rest -> fusP a = sec k -> fusQ b = sec k -> valid_idx (shp (mults cod) a) p -> valid_idx (shp (mults dom) b) q ->
         bat o (nth k (c_blocks st') nob) [offP (sec k) gP a + flat_index (shp (mults cod) a) true p; offQ (sec k) gQ b + flat_index (shp (mults dom) b) true q] = sv D (a ++ rev b) (p ++ rev q)) /\
      (forall k, k < length res -> nth k (c_touched st') false = orb (nth k (c_touched st) false) (existsb (fun b => row_eqb (fusQ b) (sec k) && existsb (fun a => row_eqb (fusP a) (sec k) && has D (a ++ rev b)) gP) rest)).
  Proof.
    induction rest as [|b rest IH]; intros done st EG IV.
    - exists st. rewrite app_nil_r in EG. rewrite <- EG in IV. split; [reflexivity|]. split; [exact IV|]. split; [reflexivity|]. split; [intros k a b p q _ _ []|]. intros k Hk. cbn [existsb]. now rewrite orb_false_r.
    - assert (Ib : In b gQ) by (rewrite EG; apply in_app_iff; right; now left). assert (EG' : gQ = (done ++ [b]) ++ rest) by (now rewrite <- app_assoc).
      cbn [fold_left]. unfold gdom_step at 2. rewrite sectors_at_row. fold (row_sectors S dom b). rewrite (mf_at G dom_ok Ib). rewrite mults_at_shp. fold (hgt dom b). cbv zeta.
      assert (TB : forall c, totQ c (done ++ [b]) = totQ c done + (if row_eqb (fusQ b) c then hgt dom b else 0)) by (intros c; rewrite tot_app, tot_cons; unfold tot at 2, wd; cbn; lia).
      destruct (coupled_spec OK HQ (fusQ b) (zero_ok o P Q)) as [[k [EK [Hk Sk]]]|[EK NK]]; rewrite EK.
      + assert (OB := off_bound S fuse (fusQ b) Ib). unfold wd in OB. rewrite (proj2 (row_eqb_eq _ _) eq_refl) in OB. rewrite (off_grid S fuse (fusQ b) EG) in OB.
        destruct (iv_len IV) as [L1 [L2 L3]]. destruct (iv_shape IV Hk) as [SB WB]. rewrite Sk in SB. assert (I2 := iv_i2 IV Hk). rewrite Sk in I2. rewrite I2.
        rewrite odo_all_eq. change (make_grid (map nsec cod) true) with gP.
        destruct (@gcod_loop S fuse G K o P Q HP D ND cmb CMB b (fusQ b) k (totQ (fusQ b) done) Ib gP [] (c_blocks st) (c_touched st) (nth k (c_blocks st) nob) (totQ (fusQ b) gQ)) as [bl [to [B1 [E1 [M1 [M2 [M3 [M4 [N1 [S1 [W1 [T1 [O1 I1]]]]]]]]]]]]];
          [reflexivity|lia|lia|reflexivity|exact SB|exact WB|exact OB|].
        change (totP (fusQ b) []) with 0 in E1. rewrite E1. set (st1 := CState bl to (upd (c_i2 st) k (totQ (fusQ b) done + hgt dom b))).
        assert (NS : forall m, m < length res -> m <> k -> row_eqb (fusQ b) (sec m) = false).
        { intros m Hm NE. destruct (row_eqb (fusQ b) (sec m)) eqn:R; [|reflexivity]. apply row_eqb_eq in R. exfalso. apply NE. apply (fsec_inj OK HQ (zero_ok o P Q) Hm Hk). congruence. }
        assert (IV1 : inv st1 (done ++ [b])).
        { constructor; cbn [st1 c_blocks c_touched c_i2].
          - rewrite upd_length. lia.
          - intros m Hm. destruct (Nat.eq_dec m k) as [-> |NE]; [rewrite N1, S1, Sk; split; [exact SB|exact W1]|]. rewrite M3 by exact NE. now apply (iv_shape IV).
          - intros m Hm. rewrite TB. destruct (Nat.eq_dec m k) as [-> |NE]; [rewrite nth_upd_eq by lia; now rewrite Sk, (proj2 (row_eqb_eq _ _) eq_refl)|]. rewrite nth_upd_neq by auto. rewrite NS by auto. rewrite Nat.add_0_r. now apply (iv_i2 IV).
          - intros m x y Hm Hx Hy. rewrite TB in Hy. destruct (Nat.eq_dec m k) as [-> |NE].
            + rewrite Sk, (proj2 (row_eqb_eq _ _) eq_refl) in Hy. rewrite Sk in Hx. rewrite N1, O1 by (lia || auto). apply (iv_zero IV Hk); rewrite Sk; lia.
            + rewrite M3 by exact NE. apply (iv_zero IV Hm); [exact Hx|lia]. }
        destruct (IH (done ++ [b]) st1 EG' IV1) as [st' [E2 [IV2 [O2 [J2 T2]]]]]. exists st'. split; [exact E2|]. split; [exact IV2|].
        assert (OUT : forall m x y, m < length res -> x < totP (sec m) gP -> y < totQ (sec m) done -> bat o (nth m bl nob) [x; y] = bat o (nth m (c_blocks st) nob) [x; y]).
        { intros m x y Hm Hx Hy. destruct (Nat.eq_dec m k) as [-> |NE]; [|now rewrite M3]. rewrite Sk in Hx, Hy. rewrite N1. apply O1; [exact Hx|lia|lia]. }
        split; [intros m x y Hm Hx Hy; rewrite O2 by (auto; rewrite TB; lia); cbn [st1 c_blocks]; now apply OUT|].
        split.
        { intros m a b' p q Hm Ia Ib' Fa Fb Vp Vq. destruct Ib' as [<- |Ib']; [|now apply J2].
          assert (m = k) by (destruct (Nat.eq_dec m k); [assumption|rewrite <- Fb in *; specialize (NS m Hm ltac:(assumption)); rewrite <- Fb, (proj2 (row_eqb_eq _ _) eq_refl) in NS; discriminate]). subst m.
          assert (FP := flat_index_lt true Vp). assert (FQ := flat_index_lt true Vq). fold (hgt cod a) in FP. fold (hgt dom b) in FQ. assert (OA := off_bound S fuse (sec k) Ia). unfold wd in OA. rewrite Fa, (proj2 (row_eqb_eq _ _) eq_refl) in OA.
          assert (OQ := off_grid S fuse (sec k) EG). rewrite OQ. rewrite O2; [|exact Hk|lia|rewrite TB, Fb, (proj2 (row_eqb_eq _ _) eq_refl); lia].
          cbn [st1 c_blocks]. rewrite N1. rewrite Sk in *. specialize (I1 a p q Ia Fa Vp Vq). cbv zeta in I1. rewrite I1. destruct (has D (a ++ rev b)) eqn:HH; [reflexivity|].
          rewrite (has_false o ND _ HH). apply (iv_zero IV Hk); rewrite Sk; lia. }
        { intros m Hm. rewrite T2 by exact Hm. cbn [st1 c_touched existsb]. destruct (Nat.eq_dec m k) as [-> |NE].
          - rewrite T1, Sk, (proj2 (row_eqb_eq _ _) eq_refl). cbn [andb]. now rewrite orb_assoc.
          - rewrite M4 by exact NE. rewrite (NS m Hm NE). reflexivity. }
      + assert (IV1 : inv st (done ++ [b])).
        { assert (TE : forall m, m < length res -> totQ (sec m) (done ++ [b]) = totQ (sec m) done).
          { intros m Hm. rewrite TB. destruct (row_eqb (fusQ b) (sec m)) eqn:R; [|lia]. apply row_eqb_eq in R. exfalso. now apply (NK m Hm). }
          constructor; [apply (iv_len IV)|apply (iv_shape IV)| |]; [intros m Hm|intros m x y Hm Hx Hy; rewrite TE in Hy by exact Hm]; [rewrite TE by exact Hm; now apply (iv_i2 IV)|now apply (iv_zero IV)]. }
        destruct (IH (done ++ [b]) st EG' IV1) as [st' [E2 [IV2 [O2 [J2 T2]]]]]. exists st'. split; [exact E2|]. split; [exact IV2|].
        split; [intros m x y Hm Hx Hy; apply O2; auto; rewrite TB; lia|]. split.
        { intros m a b' p q Hm Ia Ib' Fa Fb Vp Vq. destruct Ib' as [<- |Ib']; [exfalso; apply (NK m Hm); congruence|now apply J2]. }
        { intros m Hm. rewrite T2 by exact Hm. cbn [existsb]. destruct (row_eqb (fusQ b) (sec m)) eqn:R; [apply row_eqb_eq in R; exfalso; now apply (NK m Hm)|reflexivity]. }
  Qed.

  Definition st0 : cstate K := CState (map snd res) (repeat false (length res)) (repeat 0 (length res)).
  Lemma inv0 : inv st0 [].
  Proof.
    assert (NB : forall k, k < length res -> nth k (map snd res) nob = snd (nth k res (norow K))) by (intros k Hk; now rewrite nth_map_lt with (d := norow K)).
    assert (SH : forall k, k < length res -> bshape (snd (nth k res (norow K))) = [totP (sec k) gP; totQ (sec k) gQ]).
    { intros k Hk. rewrite (ft_shape OK HP HQ (zero_ok o P Q) Hk). now rewrite (block_size_tot OK G HP), (block_size_tot OK G HQ). }
    constructor; cbn [st0 c_blocks c_touched c_i2].
    - now rewrite map_length, !repeat_length.
    - intros k Hk. rewrite NB by exact Hk. split; [now apply SH|]. apply (ft_wf (zero_ok o P Q) Hk).
    - intros k Hk. now rewrite nth_repeat_lt.
    - intros k x y Hk Hx Hy. rewrite NB by exact Hk. apply zero_bat; [exact Hk|]. rewrite SH by exact Hk. apply valid2; lia.
  Qed.
  (** the result of the loops *)
  Lemma gdom_result : exists st, fold_left gdom_step gQ (Some st0) = Some st /\ inv st gQ /\
      (forall k a b p q, k < length res -> In a gP -> In b gQ -> fusP a = sec k -> fusQ b = sec k -> valid_idx (shp (mults cod) a) p -> valid_idx (shp (mults dom) b) q ->
         bat o (nth k (c_blocks st) nob) [offP (sec k) gP a + flat_index (shp (mults cod) a) true p; offQ (sec k) gQ b + flat_index (shp (mults dom) b) true q] = sv D (a ++ rev b) (p ++ rev q)) /\
      (forall k, k < length res -> nth k (c_touched st) false = false -> forall a b, In a gP -> In b gQ -> fusP a = sec k -> fusQ b = sec k -> has D (a ++ rev b) = false).
  Proof.
    destruct (gdom_loop (rest := gQ) (done := []) (st := st0) eq_refl inv0) as [st [E [IV [_ [J T]]]]]. exists st. split; [exact E|]. split; [exact IV|]. split; [exact J|].
    intros k Hk F a b Ia Ib Fa Fb. rewrite T in F by exact Hk. apply orb_false_iff in F. destruct F as [_ F]. destruct (has D (a ++ rev b)) eqn:HH; [|reflexivity]. exfalso.
    assert (X : existsb (fun b => row_eqb (fusQ b) (sec k) && existsb (fun a => row_eqb (fusP a) (sec k) && has D (a ++ rev b)) gP) gQ = true); [|congruence].
    apply existsb_exists. exists b. split; [exact Ib|]. rewrite Fb, (proj2 (row_eqb_eq _ _) eq_refl). cbn [andb]. apply existsb_exists. exists a. split; [exact Ia|]. now rewrite Fa, (proj2 (row_eqb_eq _ _) eq_refl).
  Qed.

  (** *** dropping the untouched blocks *)
  Lemma keep_In (st : cstate K) : inv st gQ -> forall e, In e (keep_touched o P Q (c_blocks st) (c_touched st)) <-> exists k, k < length res /\ nth k (c_touched st) false = true /\ e = (fst (nth k res (norow K)), nth k (c_blocks st) nob).
  Proof.
    intros IV e. destruct (iv_len IV) as [L1 [L2 _]]. unfold keep_touched. rewrite in_map_iff.
    assert (LC : length (combine (combine (map fst res) (c_blocks st)) (c_touched st)) = length res) by (rewrite !combine_length, map_length; lia).
    assert (NC : forall k, k < length res -> nth k (combine (combine (map fst res) (c_blocks st)) (c_touched st)) ((0, 0), nob, false) = (fst (nth k res (norow K)), nth k (c_blocks st) nob, nth k (c_touched st) false)).
    { intros k Hk. rewrite combine_nth by (rewrite combine_length, map_length; lia). rewrite combine_nth by (rewrite map_length; lia). now rewrite nth_map_lt with (d := norow K). }
    split.
    - intros [[e' t] [<- I]]. apply filter_In in I. destruct I as [I T]. cbn [snd] in T. subst t. apply In_nth with (d := ((0, 0), nob, false)) in I. destruct I as [k [Hk E]]. rewrite LC in Hk. rewrite NC in E by exact Hk. exists k. inversion E. cbn [fst]. auto.
    - intros [k [Hk [T ->]]]. exists (fst (nth k res (norow K)), nth k (c_blocks st) nob, true). split; [reflexivity|]. apply filter_In. split; [|reflexivity]. rewrite <- T, <- NC by exact Hk. apply nth_In. lia.
  Qed.
  Lemma keep_ok (st : cstate K) : inv st gQ -> ft_ok P Q (keep_touched o P Q (c_blocks st) (c_touched st)).
  Proof.
    intros IV. assert (IN := keep_In IV). assert (ZO := zero_ok o P Q). destruct (iv_len IV) as [L1 [L2 _]]. constructor.
    - unfold keep_touched. rewrite map_map. apply StronglySorted_map. assert (ST := fo_sorted ZO). apply StronglySorted_filter. apply (proj1 (StronglySorted_map lt (fun x : nat * nat * block * bool => snd (fst (fst x))) _)).
      rewrite <- (map_map fst (fun x : nat * nat * block => snd (fst x))). rewrite map_fst_combine by (rewrite combine_length, map_length; lia).
      rewrite <- (map_map fst snd). rewrite map_fst_combine by (rewrite map_length; lia). now rewrite map_map.
    - intros e I. apply IN in I. destruct I as [k [Hk [_ ->]]]. cbn [fst]. apply (fo_range ZO). now apply nth_In.
    - intros e I. apply IN in I. destruct I as [k [Hk [_ ->]]]. cbn [fst]. apply (fo_sector ZO). now apply nth_In.
    - intros e I. apply IN in I. destruct I as [k [Hk [_ ->]]]. cbn [fst snd]. rewrite (proj1 (iv_shape IV Hk)). rewrite <- (fo_shape ZO (nth_In _ (norow K) Hk)).
      rewrite (ft_shape OK HP HQ (zero_ok o P Q) Hk). now rewrite (block_size_tot OK G HP), (block_size_tot OK G HQ).
    - intros e I. apply IN in I. destruct I as [k [Hk [_ ->]]]. cbn [snd]. apply (iv_shape IV Hk).
  Qed.
  Hypothesis CH : forall e a b, In e D -> fst e = a ++ rev b -> In a gP -> In b gQ -> fusP a = fusQ b.
  (** *** the values *)
  Lemma to_ft_value st : fold_left gdom_step gQ (Some st0) = Some st ->
    let F := keep_touched o P Q (c_blocks st) (c_touched st) in
    ft_ok P Q F /\ forall a p b q, In a gP -> In b gQ -> valid_idx (shp (mults cod) a) p -> valid_idx (shp (mults dom) b) q -> ft_value S o P Q F a p b q = sv D (a ++ rev b) (p ++ rev q).
  Proof.
    intros E F. destruct gdom_result as [st' [E' [IV [J T]]]]. rewrite E in E'. injection E' as <-. assert (FO : ft_ok P Q F) by (apply keep_ok; exact IV). split; [exact FO|].
    intros a p b q Ia Ib Vp Vq. unfold ft_value. rewrite (mf_at G cod_ok Ia), (mf_at G dom_ok Ib). destruct (row_eqb (fusP a) (fusQ b)) eqn:R.
    - apply row_eqb_eq in R. destruct (forest_slice_at OK G HP (fusP a) Ia) as [e1 ->]. destruct (forest_slice_at OK G HQ (fusP a) Ib) as [e2 ->].
      assert (OA := off_bound S fuse (fusP a) Ia). unfold wd in OA. rewrite (proj2 (row_eqb_eq _ _) eq_refl) in OA. assert (OB := off_bound S fuse (fusP a) Ib). unfold wd in OB. rewrite <- R, (proj2 (row_eqb_eq _ _) eq_refl) in OB.
      assert (PA := shp_pos cod_ok Ia). assert (PB := shp_pos dom_ok Ib).
      assert (SIN : forall X (HX : tp_ok S X) x, 0 < tot S fuse (tp_flat_legs X) x (grid (tp_flat_legs X)) -> In x (tp_secs X)).
      { intros X HX x Px. rewrite <- (block_size_tot OK G HX) in Px. unfold block_size, sector_multiplicity in Px. assert (W := row_where_spec (sp_secs (tp_space X)) x). destruct (row_where _ _) as [i|]; [|lia]. destruct W as [Hi [<- _]]. now apply nth_In. }
      assert (IP := SIN P HP (fusP a) ltac:(lia)). assert (IQ := SIN Q HQ (fusP a) ltac:(lia)). clear SIN.
      destruct (zero_all o (c := fusP a) IP IQ) as [k [Hk Sk]]. assert (IN := keep_In IV). destruct (nth k (c_touched st) false) eqn:TK.
      + assert (I : In (fst (nth k res (norow K)), nth k (c_blocks st) nob) F) by (apply IN; eauto). apply In_nth with (d := norow K) in I. destruct I as [m [Hm Em]].
        assert (Sm : fsec Q F m = fusP a) by (unfold fsec; rewrite Em; exact Sk). rewrite <- Sm at 1. rewrite (ft_entry_at OK o HQ _ _ FO Hm). rewrite Em. cbn [snd]. rewrite <- Sk in *. apply J; auto; congruence.
      + rewrite (ft_entry_none o (F := F) (c := fusP a) _ _ FO).
        * symmetry. apply (has_false o ND). apply (T k Hk TK); auto; congruence.
        * intros m Hm Sm. assert (I := nth_In F (norow K) Hm). apply IN in I. destruct I as [k' [Hk' [T' E']]]. unfold fsec in Sm. rewrite E' in Sm. cbn [fst] in Sm. fold (fsec Q res k') in Sm. rewrite <- Sk in Sm. apply (fsec_inj OK HQ (zero_ok o P Q) Hk' Hk) in Sm. subst. congruence.
    - symmetry. apply sval_notin. intros I. apply in_map_iff in I. destruct I as [e [Ee Ie]]. assert (X := CH Ie Ee Ia Ib). rewrite X, (proj2 (row_eqb_eq _ _) eq_refl) in R. discriminate.
  Qed.
End Loop.
