(** fusion trees -> abelian: the loops. *)
From Verif Require Import Util StableSort RowModel RowProofs GridModel GridProofs SymModel SymProofs CatSpec Sums SpaceModel SpaceSpec SpaceProofs SpaceProofs2 SpaceProofs3 SpaceProofs7
  PipeModel PipeProofs PipeProofs2 PipeProofs4 TreeModel TreeProofs TensorModel TensorSpec FormalSum TensorProofs TensorProofs2 TensorProofs3 TensorProofs4 TensorProofs5 BlockModel BlockProofs SparseModel SparseSpec SparseProofs
  SparseProofs2 SparseProofs3 SparseProofs6 SparseCharge SparseDense ConvertModel ConvertSpec ConvertProofs ConvertProofs2 ConvertProofs3 ConvertProofs4 ConvertProofs6.
Set Implicit Arguments. Unset Strict Implicit.
Open Scope nat_scope.

Section Loop.
  Variable S : tsymm.
  Hypothesis OK : tsymm_ok S.
  Variable fuse : sector -> sector -> sector.
  Hypothesis G : abelian_group_laws S fuse.
  Variable K : Type.
  Variable o : ops K.
  Variables P Q : tprod.
  Hypothesis HP : tp_ok S P.
  Hypothesis HQ : tp_ok S Q.
  Variable F : list (nat * nat * blk K).
  Hypothesis FO : ft_ok P Q F.
  Notation block := (blk K).
  Notation adata := (list (list nat * blk K)).
  Notation cod := (tp_flat_legs P).
  Notation dom := (tp_flat_legs Q).
  Notation gP := (grid cod).
  Notation gQ := (grid dom).
  Notation fusP := (fus S fuse cod).
  Notation fusQ := (fus S fuse dom).
  Notation totP := (tot S fuse cod).
  Notation totQ := (tot S fuse dom).
  Notation offP := (off S fuse cod).
  Notation offQ := (off S fuse dom).
  Notation sec := (fsec Q F).
  Let cod_ok := proj1 HP.
  Let dom_ok := proj1 HQ.
  Variable spl : block -> list nat -> list nat -> option block.
  Hypothesis SPL : forall a b V, In a gP -> In b gQ -> bwf V -> bshape V = [hgt cod a; hgt dom b] ->
    exists B, spl V (shp (mults cod) a) (shp (mults dom) b) = Some B /\ unfolded o (shp (mults cod) a) (shp (mults dom) b) V B.

  Definition gab_cod_step (b : list nat) (c : sector) (k i2 width : nat) (acc : option (adata * nat)) (a : list nat) : option (adata * nat) :=
    match acc with
    | None => None
    | Some (out, i1) =>
      match multiple_fusion S (sectors_at S cod a) with
      | None => None
      | Some c2 =>
        let height := prod (mults_at cod a) in
        if negb (row_eqb c2 c) then acc else
        match spl (get_slice o (blk_of F k) [i1; i2] [i1 + height; i2 + width]) (mults_at cod a) (mults_at dom b) with
        | None => None
        | Some B => Some (out ++ [(a ++ rev b, B)], i1 + height)
        end
      end
    end.
  Definition gab_dom_step (acc : option (adata * list nat)) (b : list nat) : option (adata * list nat) :=
    match acc with
    | None => None
    | Some (out, i2s) =>
      match multiple_fusion S (sectors_at S dom b) with
      | None => None
      | Some c =>
        match block_ind_from_coupled (map fst F) c Q with
        | None => None
        | Some None => acc
        | Some (Some k) =>
          let width := prod (mults_at dom b) in
          let i2 := nth k i2s 0 in
          match fold_left (gab_cod_step b c k i2 width) (odo_all (map nsec cod)) (Some (out, 0)) with
          | None => None
          | Some (out, _) => Some (out, upd i2s k (i2 + width))
          end
        end
      end
    end.
  (** the block of [a], [b] cut out of matrix [k] *)
  Definition cut (k : nat) (c : sector) (a b : list nat) (B : block) : Prop :=
    bshape B = shp (mults cod) a ++ rev (shp (mults dom) b) /\ bwf B /\
    forall p q, valid_idx (shp (mults cod) a) p -> valid_idx (shp (mults dom) b) q ->
      bat o B (p ++ rev q) = bat o (snd (nth k F (norow K))) [offP c gP a + flat_index (shp (mults cod) a) true p; offQ c gQ b + flat_index (shp (mults dom) b) true q].
  Lemma blk_of_nth k : k < length F -> blk_of F k = snd (nth k F (norow K)).
  Proof. intros Hk. unfold blk_of. now rewrite nth_map_lt with (d := norow K). Qed.
  Lemma mat_shape k : k < length F -> bshape (snd (nth k F (norow K))) = [totP (sec k) gP; totQ (sec k) gQ].
  Proof. intros Hk. rewrite (ft_shape OK HP HQ FO Hk). now rewrite (block_size_tot OK G HP), (block_size_tot OK G HQ). Qed.
  Lemma slice_ok k i1 h i2 w : k < length F -> i1 + h <= totP (sec k) gP -> i2 + w <= totQ (sec k) gQ ->
    let V := get_slice o (blk_of F k) [i1; i2] [i1 + h; i2 + w] in bshape V = [h; w] /\ bwf V /\ forall x y, x < h -> y < w -> bat o V [x; y] = bat o (snd (nth k F (norow K))) [i1 + x; i2 + y].
  Proof.
    intros Hk L1 L2. unfold get_slice. rewrite blk_of_nth, mat_shape by exact Hk. cbn [combine map fst snd]. rewrite !Nat.min_l by assumption. cbv zeta. unfold bslice. cbn [combine map fst snd].
    replace (i1 + h - i1) with h by lia. replace (i2 + w - i2) with w by lia. split; [reflexivity|]. split; [apply bmk_wf|]. intros x y Hx Hy. rewrite bat_bmk by (now apply valid2). reflexivity.
  Qed.
  Lemma gab_cod_loop b k : In b gQ -> k < length F -> fusQ b = sec k -> forall rest done out, gP = done ++ rest ->
    exists new, fold_left (gab_cod_step b (sec k) k (offQ (sec k) gQ b) (hgt dom b)) rest (Some (out, totP (sec k) done)) = Some (out ++ new, totP (sec k) gP) /\
      map fst new = map (fun a => a ++ rev b) (filter (fun a => row_eqb (fusP a) (sec k)) rest) /\
      (forall e, In e new -> exists a, In a rest /\ fst e = a ++ rev b /\ fusP a = sec k /\ cut k (sec k) a b (snd e)).
  Proof.
    intros Ib Hk Fb. assert (OB := off_bound S fuse (sec k) Ib). unfold wd in OB. rewrite Fb, (proj2 (row_eqb_eq _ _) eq_refl) in OB.
    induction rest as [|a rest IH]; intros done out EG.
    - exists []. rewrite app_nil_r in *. rewrite <- EG. split; [reflexivity|]. split; [reflexivity|]. intros e [].
    - assert (Ia : In a gP) by (rewrite EG; apply in_app_iff; right; now left). assert (EG' : gP = (done ++ [a]) ++ rest) by (now rewrite <- app_assoc).
      assert (OA := off_bound S fuse (sec k) Ia). unfold wd in OA.
      assert (TA : totP (sec k) (done ++ [a]) = totP (sec k) done + (if row_eqb (fusP a) (sec k) then hgt cod a else 0)) by (rewrite tot_app, tot_cons; unfold tot at 2, wd; cbn; lia).
      cbn [fold_left]. unfold gab_cod_step at 2. rewrite sectors_at_row. fold (row_sectors S cod a). rewrite (mf_at G cod_ok Ia). rewrite !mults_at_shp. fold (hgt cod a). cbv zeta. cbn [filter].
      destruct (row_eqb (fusP a) (sec k)) eqn:R; cbn [negb].
      + assert (Ra := proj1 (row_eqb_eq _ _) R). assert (OG := off_grid S fuse (sec k) EG).
        destruct (slice_ok (i1 := totP (sec k) done) (h := hgt cod a) (i2 := offQ (sec k) gQ b) (w := hgt dom b) Hk) as [SV [WV VV]]; [lia|lia|].
        destruct (SPL Ia Ib WV SV) as [B [EB [SB [WB VB]]]]. rewrite EB. rewrite <- TA. destruct (IH (done ++ [a]) (out ++ [(a ++ rev b, B)]) EG') as [new [E1 [M1 N1]]].
        exists ((a ++ rev b, B) :: new). rewrite E1, <- app_assoc. split; [reflexivity|]. split; [cbn [map fst]; now rewrite M1|].
        intros e [<- |I]; [|destruct (N1 e I) as [a' [Ia' [E' [F' C']]]]; exists a'; split; [now right|]; auto]. exists a. split; [now left|]. split; [reflexivity|]. split; [exact Ra|]. split; [exact SB|]. split; [exact WB|].
        cbn [snd]. intros p q Vp Vq. rewrite VB by assumption. rewrite VV by (now apply flat_index_lt). now rewrite OG.
      + rewrite Nat.add_0_r in TA. rewrite <- TA. destruct (IH (done ++ [a]) out EG') as [new [E1 [M1 N1]]]. exists new. split; [exact E1|]. split; [exact M1|]. intros e I. destruct (N1 e I) as [a' [Ia' [E' [F' C']]]]. exists a'. split; [now right|]. auto.
  Qed.
  Definition hasb (c : sector) : bool := existsb (fun k => row_eqb (sec k) c) (seq 0 (length F)).
  Lemma hasb_true c : hasb c = true <-> exists k, k < length F /\ sec k = c.
  Proof.
    unfold hasb. rewrite existsb_exists. split.
    - intros [k [I R]]. apply in_seq in I. exists k. split; [lia|now apply row_eqb_eq].
    - intros [k [Hk E]]. exists k. split; [apply in_seq; lia|now apply row_eqb_eq].
  Qed.
  Definition new_rows (b : list nat) : list (list nat) := if hasb (fusQ b) then map (fun a => a ++ rev b) (filter (fun a => row_eqb (fusP a) (fusQ b)) gP) else [].
  Lemma gab_dom_loop : forall rest done out i2s, gQ = done ++ rest -> length i2s = length F -> (forall k, k < length F -> nth k i2s 0 = totQ (sec k) done) ->
    exists new i2s', fold_left gab_dom_step rest (Some (out, i2s)) = Some (out ++ new, i2s') /\ map fst new = flat_map new_rows rest /\
      (forall e, In e new -> exists k a b, k < length F /\ In a gP /\ In b rest /\ fst e = a ++ rev b /\ fusP a = sec k /\ fusQ b = sec k /\ cut k (sec k) a b (snd e)).
  Proof.
    induction rest as [|b rest IH]; intros done out i2s EG L2 I2.
    - exists [], i2s. rewrite app_nil_r. split; [reflexivity|]. split; [reflexivity|]. intros e [].
    - assert (Ib : In b gQ) by (rewrite EG; apply in_app_iff; right; now left). assert (EG' : gQ = (done ++ [b]) ++ rest) by (now rewrite <- app_assoc).
      assert (TB : forall c, totQ c (done ++ [b]) = totQ c done + (if row_eqb (fusQ b) c then hgt dom b else 0)) by (intros c; rewrite tot_app, tot_cons; unfold tot at 2, wd; cbn; lia).
      cbn [fold_left]. unfold gab_dom_step at 2. rewrite sectors_at_row. fold (row_sectors S dom b). rewrite (mf_at G dom_ok Ib). rewrite mults_at_shp. fold (hgt dom b). cbv zeta. cbn [flat_map]. unfold new_rows at 1.
      destruct (coupled_spec OK HQ (fusQ b) FO) as [[k [EK [Hk Sk]]]|[EK NK]]; rewrite EK.
      + assert (HB : hasb (fusQ b) = true) by (apply hasb_true; eauto). rewrite HB. rewrite (I2 k Hk). rewrite <- (off_grid S fuse (sec k) EG). rewrite odo_all_eq. change (make_grid (map nsec cod) true) with gP. rewrite <- Sk.
        destruct (gab_cod_loop (b := b) (k := k) Ib Hk (eq_sym Sk) (rest := gP) (done := []) out eq_refl) as [new [E1 [M1 N1]]]. change (totP (sec k) []) with 0 in E1. rewrite E1.
        destruct (IH (done ++ [b]) (out ++ new) (upd i2s k (offQ (sec k) gQ b + hgt dom b)) EG') as [new' [i2s' [E2 [M2 N2]]]]; [now rewrite upd_length| |].
        { intros m Hm. rewrite TB. destruct (Nat.eq_dec k m) as [<- |NE]; [rewrite nth_upd_eq by lia; rewrite (off_grid S fuse (sec k) EG), Sk, (proj2 (row_eqb_eq _ _) eq_refl); reflexivity|]. rewrite nth_upd_neq by exact NE. rewrite (I2 m Hm).
          destruct (row_eqb (fusQ b) (sec m)) eqn:R; [|lia]. apply row_eqb_eq in R. exfalso. apply NE. apply (fsec_inj OK HQ FO Hk Hm). congruence. }
        exists (new ++ new'), i2s'. rewrite E2, <- app_assoc. split; [reflexivity|]. split; [rewrite map_app, M1, M2; reflexivity|].
        intros e I. apply in_app_iff in I. destruct I as [I|I].
        * destruct (N1 e I) as [a [Ia [Ea [Fa Ca]]]]. exists k, a, b. repeat (split; [first [assumption|now left|congruence]|]). exact Ca.
        * destruct (N2 e I) as [k' [a [b' [Hk' [Ia [Ib' R]]]]]]. exists k', a, b'. split; [exact Hk'|]. split; [exact Ia|]. split; [now right|exact R].
      + assert (HB : hasb (fusQ b) = false) by (destruct (hasb (fusQ b)) eqn:HB; [|reflexivity]; apply hasb_true in HB; destruct HB as [k [Hk Sk]]; exfalso; now apply (NK k Hk)). rewrite HB.
        destruct (IH (done ++ [b]) out i2s EG' L2) as [new' [i2s' [E2 [M2 N2]]]].
        { intros m Hm. rewrite TB, (I2 m Hm). destruct (row_eqb (fusQ b) (sec m)) eqn:R; [|lia]. apply row_eqb_eq in R. exfalso. now apply (NK m Hm). }
        exists new', i2s'. split; [exact E2|]. split; [exact M2|]. intros e I. destruct (N2 e I) as [k' [a [b' [Hk' [Ia [Ib' R]]]]]]. exists k', a, b'. split; [exact Hk'|]. split; [exact Ia|]. split; [now right|exact R].
  Qed.
  Lemma app_rev_inj a b a' b' : In a gP -> In a' gP -> a ++ rev b = a' ++ rev b' -> a = a' /\ b = b'.
  Proof.
    intros Ia Ia' E. assert (L := grid_len Ia). assert (L' := grid_len Ia'). assert (E1 : a = a') by (apply (f_equal (firstn (length cod))) in E; rewrite <- L in E at 1; rewrite <- L' in E; rewrite !firstn_app, !firstn_all, !Nat.sub_diag in E; cbn [firstn] in E; now rewrite !app_nil_r in E).
    subst a'. split; [reflexivity|]. apply app_inv_head in E. rewrite <- (rev_involutive b), E. apply rev_involutive.
  Qed.
  Lemma new_NoDup : NoDup (flat_map new_rows gQ).
  Proof.
    apply NoDup_flat_map.
    - apply grid_NoDup.
    - intros b Ib. unfold new_rows. destruct (hasb _); [|constructor]. apply NoDup_map_inj; [|apply NoDup_filter, grid_NoDup]. intros a a' Ia Ia' E. apply filter_In in Ia, Ia'. now destruct (app_rev_inj (proj1 Ia) (proj1 Ia') E).
    - intros b b' r Ib Ib' I I'. unfold new_rows in I, I'. destruct (hasb (fusQ b)); [|destruct I]. destruct (hasb (fusQ b')); [|destruct I']. apply in_map_iff in I, I'. destruct I as [a [<- Ia]], I' as [a' [E' Ia']]. apply filter_In in Ia, Ia'. now destruct (app_rev_inj (proj1 Ia') (proj1 Ia) E').
  Qed.
  Lemma gab_result out i2s : fold_left gab_dom_step gQ (Some ([], repeat 0 (length F))) = Some (out, i2s) ->
    let D := make_data out false in
    tensor_ok S cod dom D /\ forall a p b q, In a gP -> In b gQ -> valid_idx (shp (mults cod) a) p -> valid_idx (shp (mults dom) b) q -> sval o D (a ++ rev b) (p ++ rev q) = ft_value S o P Q F a p b q.
  Proof.
    intros E D. destruct (gab_dom_loop (rest := gQ) (done := []) [] (i2s := repeat 0 (length F)) eq_refl) as [new [i2s' [E1 [M1 N1]]]]; [apply repeat_length|intros k Hk; now rewrite nth_repeat_lt|].
    rewrite E in E1. injection E1 as -> ->. cbn [app] in *. assert (ND : NoDup (map fst new)) by (rewrite M1; apply new_NoDup).
    assert (DO : data_ok (leg_order cod dom) D).
    { apply data_ok_make; [exact ND|]. intros e I. destruct (N1 e I) as [k [a [b [Hk [Ia [Ib [Ee [Fa [Fb [C1 [C2 C3]]]]]]]]]]]. rewrite Ee. split; [now apply valid_both|]. split; [rewrite C1; symmetry; now apply shp_both|exact C2]. }
    split.
    - constructor; [|exact DO|].
      + intros L I. unfold leg_order in I. apply in_app_iff in I. destruct I as [I|I]; [exact (proj1 (Forall_forall _ _) cod_ok L I)|apply in_rev in I; exact (proj1 (Forall_forall _ _) dom_ok L I)].
      + intros e I. apply make_data_In in I. destruct (N1 e I) as [k [a [b [Hk [Ia [Ib [Ee [Fa [Fb _]]]]]]]]]. unfold row_charge_ok. rewrite Ee. assert (L := grid_len Ia). rewrite firstn_app, skipn_app, <- L, firstn_all, skipn_all, Nat.sub_diag. cbn [firstn skipn app]. rewrite app_nil_r, rev_involutive.
        rewrite (mf_at G cod_ok Ia), (mf_at G dom_ok Ib). congruence.
    - intros a p b q Ia Ib Vp Vq. unfold ft_value. rewrite (mf_at G cod_ok Ia), (mf_at G dom_ok Ib).
      assert (PM := make_data_perm new false). fold D in PM. assert (NDD : NoDup (map fst D)) by (apply (data_ok_NoDup DO)).
      assert (IFF : In (a ++ rev b) (map fst D) <-> In (a ++ rev b) (flat_map new_rows gQ)).
      { rewrite <- M1. split; apply Permutation_in; [apply Permutation_map, PM|symmetry; apply Permutation_map, PM]. }
      assert (IR : In (a ++ rev b) (flat_map new_rows gQ) <-> fusP a = fusQ b /\ hasb (fusQ b) = true).
      { rewrite in_flat_map. split.
        - intros [b' [Ib' I]]. unfold new_rows in I. destruct (hasb (fusQ b')) eqn:HB; [|destruct I]. apply in_map_iff in I. destruct I as [a' [E' Ia']]. apply filter_In in Ia'. destruct Ia' as [Ia' R]. destruct (app_rev_inj Ia' Ia E') as [-> ->]. split; [now apply row_eqb_eq|exact HB].
        - intros [X HB]. exists b. split; [exact Ib|]. unfold new_rows. rewrite HB. apply in_map_iff. exists a. split; [reflexivity|]. apply filter_In. split; [exact Ia|now apply row_eqb_eq]. }
      destruct (row_eqb (fusP a) (fusQ b)) eqn:R.
      + apply row_eqb_eq in R. destruct (forest_slice_at OK G HP (fusP a) Ia) as [e1 ->]. destruct (forest_slice_at OK G HQ (fusP a) Ib) as [e2 ->]. destruct (hasb (fusQ b)) eqn:HB.
        * assert (I := proj2 IFF (proj2 IR (conj R eq_refl))). apply in_map_iff in I. destruct I as [[r B] [Er I]]. cbn [fst] in Er. subst r. rewrite (sval_in o _ NDD I). apply make_data_In in I.
          destruct (N1 _ I) as [k [a' [b' [Hk [Ia' [Ib' [Ee [Fa [Fb [C1 [C2 C3]]]]]]]]]]]. cbn [fst snd] in *. destruct (app_rev_inj Ia Ia' Ee) as [<- <-]. rewrite (C3 p q Vp Vq). rewrite Fa. symmetry. apply (ft_entry_at OK o HQ _ _ FO Hk).
        * rewrite sval_notin by (intros I; apply IFF, IR in I; destruct I; congruence). symmetry. apply (ft_entry_none o (F := F) _ _ FO). intros k Hk X. assert (Y : hasb (fusQ b) = true) by (apply hasb_true; exists k; split; [exact Hk|congruence]). congruence.
      + rewrite sval_notin; [reflexivity|]. intros I. apply IFF, IR in I. destruct I as [X _]. rewrite X, (proj2 (row_eqb_eq _ _) eq_refl) in R. discriminate.
  Qed.
  Lemma gab_succeeds : exists out i2s, fold_left gab_dom_step gQ (Some ([], repeat 0 (length F))) = Some (out, i2s).
  Proof.
    destruct (gab_dom_loop (rest := gQ) (done := []) [] (i2s := repeat 0 (length F)) eq_refl) as [new [i2s' [E1 _]]]; [apply repeat_length|intros k Hk; now rewrite nth_repeat_lt|]. eauto.
  Qed.
End Loop.
