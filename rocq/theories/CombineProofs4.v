(** combine_legs: the block-sparse data. *)
From Verif Require Import Util StableSort RowModel RowProofs GridModel GridProofs SymModel SymProofs CatSpec SpaceModel SpaceSpec SpaceProofs SpaceProofs2 SpaceProofs3 SpaceProofs5
  PipeModel PipeProofs PipeProofs2 PipeProofs3 PipeProofs4 BlockModel BlockProofs SparseModel SparseSpec SparseProofs SparseProofs2 SparseProofs3 SparseCharge SparseCompose2 SparseDense CombineModel CombineSpec CombineProofs CombineProofs2 CombineProofs3.
Set Implicit Arguments. Unset Strict Implicit.
Open Scope nat_scope.

Definition stops (s t : list nat) : list nat := map (fun p => fst p + snd p) (combine s t).
Lemma in_box_iff s : forall t x, length t = length s -> length x = length s ->
  (in_box s (stops s t) x <-> exists f, valid_idx t f /\ x = stops s f).
Proof.
  induction s as [|a s IH]; intros [|b t] [|y x] H1 H2; try discriminate.
  - cbn. split; [intros _; exists []; split; [constructor|reflexivity]|auto].
  - cbn [stops combine map fst snd in_box]. fold (stops s t). rewrite IH by (cbn in *; lia). split.
    + intros [A (f & B & ->)]. exists (y - a :: f). split; [constructor; [lia|exact B]|]. cbn. f_equal. lia.
    + intros (f & B & C). inversion B as [|u v la lb X1 X2]; subst. cbn [combine map fst snd] in C. injection C as -> ->. split; [lia|]. exists la. auto.
Qed.
Lemma stops_sub s : forall f, length f = length s -> map (fun p => snd p - fst p) (combine s (stops s f)) = f.
Proof. induction s as [|a s IH]; intros [|y f] H; try discriminate; auto. cbn. rewrite <- (IH f) at 2 by (cbn in H; lia). f_equal. lia. Qed.

Lemma fold_right_ext' X Y (f g : X -> Y -> Y) l : forall a, (forall x y, In x l -> f x y = g x y) -> fold_right f a l = fold_right g a l.
Proof. induction l as [|x l IH]; intros a H; [reflexivity|]. cbn. rewrite H by now left. f_equal. apply IH. intros; apply H; now right. Qed.

Section Data.
  Variable K : Type.
  Variable o : ops K.
  Variable S : symm.
  Variable fuse : sector -> sector -> sector.
  Hypothesis G : abelian_group_laws S fuse.
  Hypothesis HA : s_abelian S = true.
  Hypothesis HD : s_drop S = true.

  Lemma F_surj its : its_ok S its -> forall r f, valid_idx (map nsec (alegs its)) r -> valid_idx (Tmap its r) f -> exists q, okpos (alegs its) r q /\ Fmap its r q = f.
  Proof.
    induction its as [|x t IH]; intros OK r f V F.
    - assert (E := valid_length V). inversion F; subst. destruct r; [|discriminate]. exists []. split; [split; constructor|reflexivity].
    - destruct (its_ok_cons OK) as [O1 O2]. destruct (row_cons V) as [V1 V2]. cbn [Tmap] in F. inversion F as [|y n f' l' H1 H2]; subst.
      destruct (IH O2 _ _ V2 H2) as (q2 & P2 & E2).
      assert (HX : exists q1, okpos (olegs x) (firstn (width x) r) q1 /\ iF x (firstn (width x) r) q1 = y).
      { unfold iT in H1. assert (LR : length (firstn (width x) r) = length (item_legs (fst x))) by (rewrite (valid_length V1), map_length; apply olegs_length).
        destruct x as [[L|P] d]; unfold iF; cbn [fst snd].
        - rewrite olegs_keep in *. cbn [map] in V1. destruct (valid_one V1) as (i & E & Hi). rewrite E in *. cbn [mults map shp] in H1. rewrite prod_cons in H1. unfold prod in H1. cbn [fold_right] in H1.
          exists [y]. split; [|reflexivity]. split; cbn [map mults shp]; repeat constructor; lia.
        - unfold olegs in *. cbn [fst snd item_legs] in *. rewrite shp_orient, prod_orient in H1 by exact LR. destruct (flat_index_surj (p_cstyle P) H1) as (q & Q & E).
          exists (oriented d q). split; [|now rewrite oriented_invol]. assert (X := okpos_orient' d (conj (row_orient V1) Q)). rewrite oriented_invol in X. exact X. }
      destruct HX as (q1 & P1 & E1). exists (q1 ++ q2). destruct (okpos_len P1) as [L1 L2]. rewrite olegs_length in L2.
      split; [rewrite <- (firstn_skipn (width x) r); apply (okpos_app P1 P2)|]. cbn [Fmap]. destruct (firstn_at q2 L2) as [-> ->]. now rewrite E1, E2.
  Qed.

  Section Combine.
  Variable its : list (item * bool).
  Variable n : nat.
  Hypothesis OK : its_ok S its.
  Hypothesis FL : flags n 0 its.
  Hypothesis PG : pos_groups its.

  Lemma per_item_slices its' : forall pre r, its_ok S its' -> flags n (length pre) its' -> pos_groups its' -> valid_idx (map nsec (alegs its')) r ->
    per_item (fun j i => (0, nth i (es_mults (nth j (pre ++ alegs its') (ES [] [] false None))) 0)) (fun g P cols => let row := map_row n g P cols in (bim_start row, bim_stop row)) (length pre) its' r
    = combine (Smap its' r) (stops (Smap its' r) (Tmap its' r)).
  Proof.
    induction its' as [|x t IH]; intros pre r O F PG' V; [reflexivity|]. destruct F as [F1 F2]. destruct (its_ok_cons O) as [O1 O2]. destruct (row_cons V) as [V1 V2]. cbn [per_item Smap Tmap stops combine map fst snd].
    f_equal.
    - assert (W := PG' x (or_introl eq_refl)). destruct x as [[L|P] d]; unfold iS, iT; cbn [fst snd].
      + rewrite olegs_keep in *. cbn [map] in V1. change (width (Keep L, d)) with 1 in *. destruct (valid_one V1) as (i & E & Hi). rewrite E.
        assert (E' : hd 0 r = i) by (destruct r as [|a r']; [discriminate|]; cbn [firstn] in E; injection E as E; exact E). rewrite E'. rewrite alegs_cons, olegs_keep. rewrite app_nth2, Nat.sub_diag by lia. cbn [app nth mults map shp Nat.add].
        rewrite prod_cons. unfold prod. cbn [fold_right]. now rewrite Nat.mul_1_r.
      + cbv zeta. assert (LR : length (firstn (width (Group P, d)) r) = length (p_legs P)) by (rewrite (valid_length V1), map_length; apply olegs_length).
        unfold olegs in *. cbn [fst snd item_legs] in *. rewrite shp_orient, prod_orient by exact LR.
        destruct (mix_spec G HA HD O1 (row_orient V1)) as [Hm EI]. destruct (P_row G HA HD O1 Hm) as (_ & _ & A3 & _). rewrite EI in A3.
        unfold pSof. unfold map_row. rewrite hd_seq by exact W. rewrite F1. cbv zeta. unfold mix in A3 |- *. unfold oriented in A3 |- *. f_equal. exact A3.
    - assert (EL : length pre + width x = length (pre ++ olegs x)) by (rewrite app_length, olegs_length; reflexivity). rewrite alegs_cons, app_assoc. rewrite EL. fold (stops (Smap t (skipn (width x) r)) (Tmap t (skipn (width x) r))).
      apply IH; auto; [rewrite <- EL; exact F2|]. intros y Hy. apply PG'. now right.
  Qed.
  Lemma comb_slices_eq r : valid_idx (map nsec (alegs its)) r -> comb_slices n (alegs its) (groups_of 0 its) r = combine (Smap its r) (stops (Smap its r) (Tmap its r)).
  Proof.
    intros V. unfold comb_slices. destruct (row_wid V) as [L _].
    assert (H := @comb_loop_items _ (fun j i => (0, nth i (es_mults (nth j (alegs its) (ES [] [] false None))) 0)) (fun g P cols => let row := map_row n g P cols in (bim_start row, bim_stop row)) its [] 0 r PG L).
    cbn [app length map combine seq Nat.add] in H. rewrite H. apply (@per_item_slices its []); auto.
  Qed.
  Definition one_step (res : option (blk K)) (sb : list (nat * nat) * blk K) : option (blk K) :=
    match res, bcombine_legs o (snd sb) (map fst (groups_of 0 its)) (comb_cstyles n (groups_of 0 its)) with
    | Some res, Some combined => Some (bset_slice o res (map fst (fst sb)) (map snd (fst sb)) combined)
    | _, _ => None
    end.
  Definition sent (e : list nat * blk K) : list (nat * nat) * blk K := (comb_slices n (alegs its) (groups_of 0 its) (fst e), snd e).
  Definition ent_ok (e : list nat * blk K) : Prop := valid_idx (map nsec (alegs its)) (fst e) /\ bshape (snd e) = shp (mults (alegs its)) (fst e) /\ bwf (snd e).
  Lemma fold_blocks b es : forall res, Forall ent_ok es -> NoDup (map fst es) -> (forall e, In e es -> Jmap its (fst e) = b) ->
    bshape res = shp (mults (nlegs its)) b -> bwf res ->
    exists R, fold_left one_step (map sent es) (Some res) = Some R /\ bshape R = bshape res /\ bwf R /\
      forall r q, okpos (alegs its) r q -> Jmap its r = b ->
        bat o R (Qmap its r q) = if in_dec (list_eq_dec Nat.eq_dec) r (map fst es) then sval o es r q else bat o res (Qmap its r q).
  Proof.
    induction es as [|e es IH]; intros res FO ND HJ SH WF.
    - exists res. split; [reflexivity|]. split; [reflexivity|]. split; [exact WF|]. intros r q HP E. destruct (in_dec _ r (map fst [])) as [[]|]. reflexivity.
    - inversion FO as [|x l (V & SE & WE) FO']; subst x l. cbn [map] in ND. inversion ND as [|x l NI ND']; subst x l.
      destruct (@combine_block K o S its n OK FL PG (snd e) (fst e) V SE WE) as (C & EC & SC & WC & VC).
      assert (EJ := HJ e (or_introl eq_refl)). cbn [map fold_left]. unfold one_step at 2. unfold sent at 2 3 4. cbn [fst snd]. rewrite EC. rewrite (comb_slices_eq V).
      destruct (map_len its (fst e) (fst e)) as (_ & LS & LT & _). assert (LL : length (Smap its (fst e)) = length (stops (Smap its (fst e)) (Tmap its (fst e)))) by (unfold stops; rewrite map_length, combine_length; lia).
      rewrite (combine_fst LL), (combine_snd LL). set (res' := bset_slice _ _ _ _ _).
      assert (SH' : bshape res' = shp (mults (nlegs its)) b) by exact SH. assert (WF' : bwf res') by apply bmk_wf.
      destruct (IH res' FO' ND' (fun e' H => HJ e' (or_intror H)) SH' WF') as (R & ER & SR & WR & VR). exists R. split; [exact ER|]. split; [rewrite SR; reflexivity|]. split; [exact WR|].
      intros r q HP Er. rewrite (VR r q HP Er).
      assert (VQ : valid_idx (bshape res) (Qmap its r q)) by (rewrite SH, <- Er; apply (JQ_valid G HA HD OK HP)).
      destruct (map_len its r q) as (_ & LSr & LTr & LFr & LQr).
      cbn [map sval]. destruct (in_dec (list_eq_dec Nat.eq_dec) r (map fst es)) as [I|N].
      + destruct (in_dec (list_eq_dec Nat.eq_dec) r (fst e :: map fst es)) as [_|N']; [|elim N'; now right].
        destruct (row_dec (fst e) r) as [E'|_]; [|reflexivity]. subst r. elim (NI I).
      + destruct (row_dec (fst e) r) as [E'|N'].
        * subst r. destruct (in_dec (list_eq_dec Nat.eq_dec) (fst e) (fst e :: map fst es)) as [_|N']; [|elim N'; now left].
          unfold res'. rewrite bat_set_slice_in.
          -- rewrite Qmap_SF. fold (stops (Smap its (fst e)) (Fmap its (fst e) q)). rewrite stops_sub by congruence. apply (VC q HP).
          -- exact VQ.
          -- apply in_box_iff; [congruence|congruence|]. exists (Fmap its (fst e) q). split; [apply (F_valid G HA HD OK HP)|apply Qmap_SF].
        * destruct (in_dec (list_eq_dec Nat.eq_dec) r (fst e :: map fst es)) as [[I|I]|_]; [congruence|elim (N I)|]. unfold res'. apply bat_set_slice_out; [exact VQ|].
          intros IB. apply in_box_iff in IB; [|congruence|congruence]. destruct IB as (f & Vf & Ef). destruct (F_surj OK V Vf) as (q0 & P0 & E0).
          subst f. unfold stops in Ef. rewrite <- Qmap_SF in Ef. destruct (JQ_inj G HA HD OK HP P0) as [X _]; [congruence|exact Ef|]. apply N'. congruence.
  Qed.

  Variable A : list (list nat * blk K).
  Hypothesis DA : data_ok (alegs its) A.
  Lemma A_ent e : In e A -> ent_ok e.
  Proof. intros H. split; [apply (do_valid DA H)|]. split; [apply (do_shape DA H)|apply (do_full DA H)]. Qed.
  Definition ents0 : list (list nat * (list (nat * nat) * blk K)) := map (fun e => (Jmap its (fst e), sent e)) A.
  Definition perm0 := lexsort_indices (zrows (map fst ents0)).
  Definition A' : list (list nat * blk K) := take (noentry K) A perm0.
  Definition ents1 := map (fun e => (Jmap its (fst e), sent e)) A'.
  Lemma perm0_ok : is_perm (length A) perm0.
  Proof. unfold perm0. assert (H := lexsort_perm (zrows (map fst ents0))). unfold zrows, ents0 in H. rewrite !map_length in H. exact H. Qed.
  Lemma A'_perm : Permutation A' A.
  Proof. unfold A'. apply take_Permutation, perm0_ok. Qed.
  Lemma ents1_eq d : take d ents0 perm0 = ents1.
  Proof.
    unfold ents1, A', take. rewrite map_map. apply map_ext_in. intros i Hi. assert (Hl : i < length A) by (exact (proj1 (is_perm_In i perm0_ok) Hi)).
    unfold ents0. rewrite nth_map_lt with (d := noentry K) by exact Hl. reflexivity.
  Qed.
  Lemma ents1_sorted : weakly_sorted (zrows (map fst ents1)).
  Proof.
    assert (W : same_width (length its) (zrows (map fst ents0))).
    { apply Forall_forall. intros r Hr. unfold zrows, ents0 in Hr. rewrite !map_map in Hr. apply in_map_iff in Hr. destruct Hr as (e & <- & He). cbn [fst]. rewrite map_length. apply (map_len its (fst e) []). }
    assert (Q := sorted_weakly W). cbn [sorted fst] in Q. fold perm0 in Q.
    match goal with |- weakly_sorted ?X => match type of Q with weakly_sorted ?Y => replace X with Y; [exact Q|] end end.
    rewrite <- (ents1_eq ([], ([], Blk [] []))). unfold zrows, take. rewrite !map_map. apply map_ext_in. intros i Hi.
    assert (Hl : i < length ents0) by (unfold ents0; rewrite map_length; exact (proj1 (is_perm_In i perm0_ok) Hi)).
    rewrite nth_map_lt with (d := ([], ([], Blk [] []))) by exact Hl. reflexivity.
  Qed.
  Definition the_group (g : list nat * list (list (nat * nat) * blk K)) : option (blk K) := fold_left one_step (snd g) (Some (bzeros o (shp (mults (nlegs its)) (fst g)))).
  Lemma filter_map' X Y (f : X -> Y) (p : Y -> bool) l : filter p (map f l) = map f (filter (fun x => p (f x)) l).
  Proof. induction l as [|x l IH]; [reflexivity|]. cbn. destruct (p (f x)); cbn; congruence. Qed.
  Definition part (b : list nat) : list (list nat * blk K) := filter (fun e => if row_dec (Jmap its (fst e)) b then true else false) A'.
  Lemma part_In b e : In e (part b) <-> In e A /\ Jmap its (fst e) = b.
  Proof.
    unfold part. rewrite filter_In. destruct (row_dec (Jmap its (fst e)) b) as [E|N].
    - split; [intros [H _]; split; [apply (Permutation_in _ A'_perm H)|exact E]|intros [H _]; split; [apply (Permutation_in _ (Permutation_sym A'_perm) H)|reflexivity]].
    - split; [intros [_ H]; discriminate|intros [_ H]; congruence].
  Qed.
  Lemma A_NoDup : NoDup (map fst A).
  Proof. apply (data_ok_NoDup DA). Qed.
  Lemma part_NoDup b : NoDup (map fst (part b)).
  Proof.
    assert (H : NoDup (map fst A')) by (eapply Permutation_NoDup; [apply Permutation_map, Permutation_sym, A'_perm|apply A_NoDup]). unfold part. revert H. generalize A' as l.
    induction l as [|e l IH]; intros H; [constructor|]. cbn [map] in H. inversion H as [|x l' N ND]; subst. cbn [filter]. destruct (row_dec _ b); [|auto]. cbn [map]. constructor; [|auto].
    intros I. apply N. apply in_map_iff in I. destruct I as (e' & E & I). apply filter_In in I. apply in_map_iff. exists e'. tauto.
  Qed.
  Lemma part_sval b r q : Jmap its r = b -> sval o (part b) r q = sval o A r q.
  Proof.
    intros E. destruct (in_dec (list_eq_dec Nat.eq_dec) r (map fst A)) as [I|N].
    - apply in_map_iff in I. destruct I as (e & <- & I). rewrite (sval_in' o q A_NoDup I). apply sval_in'; [apply part_NoDup|]. apply part_In. auto.
    - rewrite (sval_notin o q N). apply sval_notin. intros I. apply N. apply in_map_iff in I. destruct I as (e & <- & I). apply part_In in I. apply in_map. tauto.
  Qed.
  Lemma part_rows b r : Jmap its r = b -> In r (map fst (part b)) <-> In r (map fst A).
  Proof.
    intros E. rewrite !in_map_iff. split; intros (e & E' & H); exists e; (split; [exact E'|]); apply part_In || apply part_In in H; subst; tauto.
  Qed.
  Lemma group_ok g : In g (group_entries ents1) -> exists R, the_group g = Some R /\ bshape R = shp (mults (nlegs its)) (fst g) /\ bwf R /\
    forall r q, okpos (alegs its) r q -> Jmap its r = fst g -> bat o R (Qmap its r q) = sval o A r q.
  Proof.
    intros Hg. assert (EG := group_content ents1_sorted Hg). unfold the_group. unfold ents1 in EG. rewrite filter_map', map_map in EG. cbn [fst snd] in EG. fold (part (fst g)) in EG. rewrite EG.
    set (b := fst g). assert (FO : Forall ent_ok (part b)) by (apply Forall_forall; intros e He; apply A_ent; apply part_In in He; tauto).
    destruct (@fold_blocks b (part b) (bzeros o (shp (mults (nlegs its)) b)) FO (part_NoDup b)) as (R & ER & SR & WR & VR).
    - intros e He. apply part_In in He. tauto.
    - reflexivity.
    - apply bmk_wf.
    - exists R. split; [exact ER|]. split; [exact SR|]. split; [exact WR|]. intros r q HP Er. rewrite (VR r q HP Er).
      destruct (in_dec (list_eq_dec Nat.eq_dec) r (map fst (part b))) as [I|N]; [apply (part_sval q Er)|].
      rewrite (sval_notin o q (fun H => N (proj2 (part_rows Er) H))). apply bat_zeros. rewrite <- Er. apply (JQ_valid G HA HD OK HP).
  Qed.
  Lemma fold_groups gs : (forall g, In g gs -> exists R, the_group g = Some R) ->
    exists RR, fold_right (fun g acc => match the_group g, acc with Some B, Some acc => Some ((fst g, B) :: acc) | _, _ => None end) (Some []) gs = Some RR /\
      map fst RR = map fst gs /\ forall e, In e RR -> exists g, In g gs /\ fst e = fst g /\ the_group g = Some (snd e).
  Proof.
    induction gs as [|g gs IH]; intros H; [exists []; repeat split; intros e []|]. destruct (IH (fun g' I => H g' (or_intror I))) as (RR & E & M & F). destruct (H g (or_introl eq_refl)) as (R & ER).
    exists ((fst g, R) :: RR). cbn [fold_right]. rewrite E, ER. split; [reflexivity|]. split; [cbn; now rewrite M|]. intros e [<-|I].
    - exists g. split; [now left|]. auto.
    - destruct (F e I) as (g' & I' & X). exists g'. split; [now right|exact X].
  Qed.
  Lemma shape_eq (l : list espace) b : map (fun p : espace * nat => nth (snd p) (es_mults (fst p)) 0) (combine l b) = shp (mults l) b.
  Proof. revert b; induction l as [|L l IH]; intros [|i b]; cbn; auto. f_equal. apply IH. Qed.
  Theorem combine_legs_ok : exists R, combine_legs o n (alegs its) (nlegs its) (groups_of 0 its) A = Some R /\ data_ok (nlegs its) R /\
    (forall r q, okpos (alegs its) r q -> sval o R (Jmap its r) (Qmap its r q) = sval o A r q) /\
    (forall b, In b (map fst R) -> exists e, In e A /\ b = Jmap its (fst e)).
  Proof.
    unfold combine_legs. cbv zeta.
    assert (E0 : map (fun e => (comb_row n (groups_of 0 its) (fst e), (comb_slices n (alegs its) (groups_of 0 its) (fst e), snd e))) A = ents0).
    { unfold ents0. apply map_ext_in. intros e He. destruct (row_wid (do_valid DA He)) as [L _]. rewrite (@comb_row_eq S its n OK FL PG (fst e) L). reflexivity. }
    rewrite E0. fold perm0. rewrite ents1_eq.
    assert (EX : forall g, In g (group_entries ents1) -> exists R, the_group g = Some R) by (intros g Hg; destruct (group_ok Hg) as (R & ER & _); eauto).
    destruct (fold_groups EX) as (RR & E & M & F).
    exists RR. split.
    - rewrite <- E. apply fold_right_ext'. intros g acc _. rewrite shape_eq. reflexivity.
    - assert (ND : NoDup (map fst RR)) by (rewrite M; apply sorted_NoDup, (group_sorted ents1_sorted)).
      assert (KEY : forall b, In b (map fst RR) <-> exists e, In e A /\ b = Jmap its (fst e)).
      { intros b. rewrite M, group_keys. unfold ents1. rewrite map_map. cbn [fst]. rewrite in_map_iff. split; intros (e & E1 & E2); exists e.
        - split; [apply (Permutation_in _ A'_perm E2)|auto].
        - split; [auto|apply (Permutation_in _ (Permutation_sym A'_perm) E1)]. }
      split; [|split].
      + constructor.
        * rewrite M. apply (group_sorted ents1_sorted).
        * intros e He. destruct (proj1 (KEY (fst e)) (in_map fst _ _ He)) as (a & Ia & ->). apply (J_valid G HA HD OK), (do_valid DA Ia).
        * intros e He. destruct (F e He) as (g & Ig & E1 & E2). destruct (group_ok Ig) as (R & E3 & E4 & _). rewrite E1. congruence.
        * intros e He. destruct (F e He) as (g & Ig & E1 & E2). destruct (group_ok Ig) as (R & E3 & _ & E4 & _). rewrite E2 in E3. injection E3 as E3. rewrite E3. exact E4.
      + intros r q HP. destruct (in_dec (list_eq_dec Nat.eq_dec) (Jmap its r) (map fst RR)) as [I|N].
        * apply in_map_iff in I. destruct I as (e & E1 & I). rewrite <- E1. rewrite (sval_in' o _ ND I). destruct (F e I) as (g & Ig & E2 & E3). destruct (group_ok Ig) as (R & E4 & _ & _ & E5).
          rewrite E3 in E4. injection E4 as E4. rewrite E4. apply E5; [exact HP|congruence].
        * rewrite (sval_notin o _ N). symmetry. apply sval_notin. intros I. apply N, KEY. apply in_map_iff in I. destruct I as (e & E1 & I). exists e. subst r. auto.
      + apply KEY.
  Qed.
  End Combine.
End Data.
