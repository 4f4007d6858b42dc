(** Masks: the small leg and the vector of the result of the loops. *)
From Verif Require Import Util StableSort RowModel RowProofs GridModel GridProofs SymModel SymProofs CatSpec Sums SpaceModel SpaceSpec SpaceProofs SpaceProofs2 SpaceProofs3 SpaceProofs6 TensorModel
  PipeModel PipeProofs PipeProofs2 BlockModel BlockProofs SparseModel SparseSpec SparseProofs FtOpsModel FtOpsSpec AbDecModel AbDecSpec AbDecProofs2 AbDecProofs3 AbDiagModel AbDiagProofs AbDiagProofs2 AbDiagProofs3 MaskModel MaskSpec MaskProofs.
Set Implicit Arguments. Unset Strict Implicit.
Open Scope nat_scope.

Lemma pushed_In F ns i B : In (i, B) (pushed F ns) <-> In i ns /\ B = F i /\ btrues (F i) <> 0.
Proof.
  unfold pushed. rewrite in_flat_map. split.
  - intros (j & Ij & H). destruct (Nat.eqb_spec (btrues (F j)) 0) as [E|E]; [destruct H|]. destruct H as [H|[]]. injection H as <- <-. auto.
  - intros (Ii & -> & NZ). exists i. split; [exact Ii|]. rewrite (proj2 (Nat.eqb_neq _ _) NZ). now left.
Qed.
Lemma pushed_sorted F ns : StronglySorted lt ns -> StronglySorted lt (map fst (pushed F ns)).
Proof.
  unfold pushed. induction ns as [|x ns IH]; intros SS; [constructor|]. apply StronglySorted_inv in SS. destruct SS as [SS FA]. cbn [flat_map]. rewrite map_app. destruct (btrues (F x) =? 0); cbn [map app fst]; [now apply IH|].
  constructor; [now apply IH|]. rewrite Forall_forall in *. intros y Iy. apply in_map_iff in Iy. destruct Iy as ([y' B] & <- & I). apply (proj1 (pushed_In F ns y' B)) in I. apply FA, I.
Qed.
(** sectors without a kept state contribute nothing *)
Lemma pushed_concat (A : Type) F (g : nat -> bblk -> list A) ns : (forall i, In i ns -> btrues (F i) = 0 -> g i (F i) = []) -> concat (map (fun p => g (fst p) (snd p)) (pushed F ns)) = concat (map (fun i => g i (F i)) ns).
Proof.
  unfold pushed. induction ns as [|x ns IH]; intros H; [reflexivity|]. cbn [flat_map map concat]. rewrite map_app, concat_app, IH by (intros i I; apply H; now right). f_equal.
  destruct (Nat.eqb_spec (btrues (F x)) 0) as [E|E]; cbn [map concat fst snd]; [symmetry; apply H; [now left|exact E]|apply app_nil_r].
Qed.
Lemma take_mask_concat (A : Type) : forall (segs : list (list bool)) (p : list A), length p = nsum (map (@length bool) segs) ->
  take_mask p (concat segs) = concat (map (fun n => take_mask (firstn (length (nth n segs [])) (skipn (nsum (firstn n (map (@length bool) segs))) p)) (nth n segs [])) (seq 0 (length segs))).
Proof.
  induction segs as [|s segs IH]; intros p E; [now destruct p|]. cbn [map] in E. change (nsum (length s :: ?x)) with (length s + nsum x) in E. cbn [concat length seq map]. cbn [nth firstn nsum fold_right skipn].
  rewrite <- (firstn_skipn (length s) p) at 1. rewrite take_mask_app by (rewrite firstn_length; lia). f_equal. rewrite (IH (skipn (length s) p)) by (rewrite skipn_length; lia). f_equal. rewrite <- seq_shift, map_map. apply map_ext. intros n. cbn [nth map firstn]. change (nsum (length s :: ?y)) with (length s + nsum y).
  f_equal. f_equal. generalize (nsum (firstn n (map (@length bool) segs))). generalize (length s). clear. intros a b. revert p. induction a as [|a IH]; intros p; [reflexivity|]. destruct p as [|x p]; [now rewrite skipn_nil|]. apply IH.
Qed.
Lemma take_mask_none (A : Type) : forall m (p : list A), trues m = 0 -> take_mask p m = [].
Proof. induction m as [|[|] m IH]; intros [|x p] H; try reflexivity; [discriminate|]. cbn. now apply IH. Qed.
Lemma rank_sorted (l : list nat) : StronglySorted lt l -> rank_data (map Z.of_nat l) = seq 0 (length l).
Proof.
  intros SS. apply list_eq_nth with (d := 0); [rewrite (is_perm_length (rank_data_perm _)), map_length, seq_length; reflexivity|]. intros k Hk. rewrite (is_perm_length (rank_data_perm _)), map_length in Hk.
  rewrite seq_nth by exact Hk. assert (ND : NoDup l) by (apply StronglySorted_NoDup with (R := lt); [intros x Hx; lia|exact SS]). pose proof (rank_sorted_nth SS (Permutation_refl l) Hk) as E. cbn in E.
  assert (RB : nth k (rank_data (map Z.of_nat l)) 0 < length l).
  { pose proof (rank_data_perm (map Z.of_nat l)) as P. rewrite map_length in P. apply (is_perm_nth_lt P Hk). }
  exact (proj1 (NoDup_nth l 0) ND _ _ RB Hk E).
Qed.

Section Result.
  Variable S : tsymm.
  Variable fuse : sector -> sector -> sector.
  Hypothesis G : abelian_group_laws S fuse.
  Variable L : espace.
  Hypothesis OL : es_ok S L.
  Notation ms := (es_mults L).
  Notation ns := (seq 0 (nsec L)).
  (** the vector of a mask *)
  Theorem mask_vec N M : mask_ok L N M -> mask_vector S L M = concat (map (fun k => bdata (mfill L M k)) ns).
  Proof.
    intros OM. assert (E : mask_vector S L M = vec_list Bops S L (mdiag M)) by (unfold mask_vector, mask_to_block, vec_list, ab_diag_block, mdiag; rewrite map_map; reflexivity).
    rewrite E, (vec_concat Bops G OL (mask_diag OM)). f_equal. apply map_ext. intros n. unfold mfill. symmetry. apply fills_segm.
  Qed.
  Lemma mfill_ok N M : mask_ok L N M -> forall n, n < nsec L -> bshape (mfill L M n) = [nth n ms 0] /\ length (bdata (mfill L M n)) = nth n ms 0.
  Proof. intros OM n Hn. exact (fills_ok Bops (mask_diag OM) Hn). Qed.
  Definition blocks_ok (F : nat -> bblk) : Prop := forall n, n < nsec L -> bshape (F n) = [nth n ms 0] /\ length (bdata (F n)) = nth n ms 0.
  Definition vector_of (F : nat -> bblk) : list bool := concat (map (fun k => bdata (F k)) ns).
  Lemma segs_length F : blocks_ok F -> map (@length bool) (map (fun k => bdata (F k)) ns) = ms.
  Proof.
    intros FO. apply list_eq_nth with (d := 0); [now rewrite !map_length, seq_length|]. intros i Hi. rewrite !map_length, seq_length in Hi. rewrite nth_map_lt with (d := @nil _) by (now rewrite map_length, seq_length). rewrite nth_map_lt with (d := 0) by (now rewrite seq_length). rewrite seq_nth by exact Hi. now apply FO.
  Qed.
  Lemma vector_length F : blocks_ok F -> length (vector_of F) = es_dim S L.
  Proof. intros FO. unfold vector_of. rewrite concat_length_nsum, (segs_length FO). symmetry. apply (dim_sum G OL). Qed.
  (** a slice of the vector *)
  Lemma slice_vector F i : blocks_ok F -> i < nsec L ->
    bslice Bops (Blk [es_dim S L] (vector_of F)) [fst (nth i (sp_slices S (es_space S L)) (0, 0))] [snd (nth i (sp_slices S (es_space S L)) (0, 0))] = F i.
  Proof.
    intros FO Hi. rewrite (slice_at G OL Hi). cbn [fst snd]. destruct (FO i Hi) as [SH LE]. unfold bslice, bmk. cbn [combine map fst snd]. replace (nsum (firstn i ms) + nth i ms 0 - nsum (firstn i ms)) with (nth i ms 0) by lia.
    assert (EQ : map (fun r => bat Bops (Blk [es_dim S L] (vector_of F)) (map (fun p => fst p + snd p) (combine [nsum (firstn i ms)] r))) (make_grid [nth i ms 0] true) = bdata (F i)).
    { apply list_eq_nth with (d := false); [rewrite map_length, make_grid_length; cbn; lia|]. intros c Hc. rewrite map_length, make_grid_length in Hc. cbn in Hc. rewrite Nat.mul_1_r in Hc. rewrite grid_one, map_map. rewrite nth_map_lt with (d := 0) by (now rewrite seq_length). rewrite seq_nth by exact Hc. cbn [combine map fst snd plus].
      rewrite (@bat_vec bool Bops (Blk [es_dim S L] (vector_of F)) (es_dim S L)) by reflexivity. cbn [bdata]. change (nsum (firstn i ms) + c) with (pos ms i c). unfold vector_of. rewrite <- (segs_length FO) at 1. rewrite concat_nth.
      - rewrite nth_map_lt with (d := 0) by (now rewrite seq_length). rewrite seq_nth by exact Hi. reflexivity.
      - now rewrite map_length, seq_length.
      - rewrite nth_map_lt with (d := 0) by (now rewrite seq_length). rewrite seq_nth by exact Hi. cbn [plus]. now rewrite LE. }
    cbn in EQ |- *. destruct (F i) as [sh dt]. cbn [bshape bdata] in *. rewrite SH. f_equal. exact EQ.
  Qed.
  Lemma result_from_block F : blocks_ok F -> mask_result S L (pushed F ns) = mask_from_block S L (Blk [es_dim S L] (vector_of F)).
  Proof.
    intros FO. unfold mask_from_block. f_equal. change (length (es_def L)) with (length (es_def L)). rewrite <- (ok_len OL). fold (nsec L). unfold pushed. rewrite !flat_map_concat_map. f_equal. apply map_ext_in. intros i Ii. apply in_seq in Ii. cbv zeta. now rewrite (slice_vector FO) by lia.
  Qed.
  (** every vector is the vector of its slices *)
  Definition slices (a : bblk) (i : nat) : bblk := bslice Bops a [fst (nth i (sp_slices S (es_space S L)) (0, 0))] [snd (nth i (sp_slices S (es_space S L)) (0, 0))].
  Lemma slices_ok a : blocks_ok (slices a).
  Proof.
    intros n Hn. unfold slices. rewrite (slice_at G OL Hn). unfold bslice, bmk. cbn [combine map fst snd bshape bdata]. rewrite map_length, make_grid_length. replace (nsum (firstn n ms) + nth n ms 0 - nsum (firstn n ms)) with (nth n ms 0) by lia. split; [reflexivity|]. cbn. lia.
  Qed.
  Lemma slices_vector a : bshape a = [es_dim S L] -> length (bdata a) = es_dim S L -> vector_of (slices a) = bdata a.
  Proof.
    intros SH LE. symmetry. unfold vector_of. apply concat_eq_nth with (d := false) (ms := ms); [rewrite LE; apply (dim_sum G OL)|apply (segs_length (slices_ok a))|]. intros n c Hn Hc. rewrite nth_map_lt with (d := 0) by (now rewrite seq_length). rewrite seq_nth by exact Hn. cbn [plus].
    unfold slices. rewrite (slice_at G OL Hn). cbn [fst snd]. unfold bslice. cbn [combine map fst snd]. replace (nsum (firstn n ms) + nth n ms 0 - nsum (firstn n ms)) with (nth n ms 0) by lia.
    change false with (o0 Bops). rewrite (@bmk_vec bool Bops (nth n ms 0) _ c Hc). cbn [combine map fst snd]. symmetry. apply (bat_vec Bops _ SH).
  Qed.

  Variable F : nat -> bblk.
  Hypothesis FO : blocks_ok F.
  Notation l := (pushed F ns).
  Notation M := (fst (mask_result S L l)).
  Notation N := (snd (mask_result S L l)).
  Lemma res_nsec : nsec N = length l.
  Proof. unfold nsec. cbn [mask_result snd es_mults]. now rewrite map_length. Qed.
  Lemma res_nth k : k < length l -> exists i, i < nsec L /\ nth k l (0, Blk [] []) = (i, F i) /\ btrues (F i) <> 0.
  Proof.
    intros Hk. assert (I : In (nth k l (0, Blk [] [])) l) by (now apply nth_In). destruct (nth k l (0, Blk [] [])) as [i B]. apply (proj1 (pushed_In F ns i B)) in I. destruct I as (Ii & -> & NZ). apply in_seq in Ii. exists i. split; [lia|auto].
  Qed.
  Theorem res_mask : mask_ok L N M.
  Proof.
    constructor.
    - rewrite res_nsec. change M with (mrows l). unfold mrows. rewrite map_map. cbn [fst nth]. generalize l. intros w. generalize 0. induction w as [|p q IH]; intros i; [reflexivity|]. cbn [length seq combine map fst]. f_equal. apply IH.
    - change M with (mrows l). assert (E : map (fun e : list nat * bblk => nth 1 (fst e) 0) (mrows l) = map fst l) by (rewrite <- (mrows_large l) at 2; rewrite map_map; reflexivity). rewrite E. apply pushed_sorted, seq_sorted.
    - intros e I. change M with (mrows l) in I. destruct (In_nth _ _ (noentry bool) I) as (k & Hk & <-). rewrite mrows_length in Hk. rewrite mrows_nth by exact Hk. destruct (res_nth Hk) as (i & Hi & E & NZ). rewrite E. cbn [fst snd]. exists k, i. split; [reflexivity|]. rewrite res_nsec.
      split; [exact Hk|]. split; [exact Hi|]. cbn [mask_result snd es_def es_mults]. split; [rewrite nth_map_lt with (d := (0, Blk [] [])) by exact Hk; now rewrite E|]. destruct (FO Hi) as [SH LE]. split; [exact SH|]. split; [exact LE|]. rewrite nth_map_lt with (d := (0, Blk [] [])) by exact Hk. now rewrite E.
    - reflexivity.
  Qed.
  Lemma res_fill n : n < nsec L -> mfill L M n = F n.
  Proof.
    intros Hn. unfold mfill, fills. change M with (mrows l). destruct (FO Hn) as [SH LE]. destruct (dg (mdiag (mrows l)) n) as [B|] eqn:D.
    - apply (dg_In _ _ (dd_from (mask_diag res_mask))) in D. unfold mdiag in D. apply in_map_iff in D. destruct D as (e & E & I). assert (X : In (nth 1 (fst e) 0, snd e) l) by (rewrite <- (mrows_large l); apply in_map_iff; exists e; split; [reflexivity|exact I]). injection E as E1 _ E2. rewrite E1, E2 in X. apply (proj1 (pushed_In F ns n B)) in X. apply X.
    - assert (Z : btrues (F n) = 0).
      { destruct (Nat.eq_dec (btrues (F n)) 0) as [E|E]; [exact E|]. exfalso. assert (I : In (n, F n) l) by (apply pushed_In; split; [apply in_seq; lia|auto]). rewrite <- (mrows_large l) in I. apply in_map_iff in I. destruct I as (e & E1 & I).
        apply (dg_none n (dd_from (mask_diag res_mask))) in D. apply D. unfold mdiag. rewrite map_map. apply in_map_iff. exists e. split; [|exact I]. injection E1 as E1 _. cbn [fst]. now rewrite E1. }
      apply trues_zero in Z. unfold btrues in Z. rewrite LE in Z. destruct (F n) as [sh dt]. cbn [bshape bdata] in *. subst sh. unfold bzeros. pose proof (zeros_vec Bops (nth n ms 0)) as ZV. unfold bzeros in ZV. unfold bmk in *. cbn [bdata] in ZV. now rewrite ZV, Z.
  Qed.
  Theorem res_vector : mask_vector S L M = vector_of F.
  Proof. rewrite (mask_vec res_mask). unfold vector_of. f_equal. apply map_ext_in. intros n I. apply in_seq in I. rewrite res_fill by lia. reflexivity. Qed.
  Lemma res_dim : nsum (es_mults N) = trues (vector_of F).
  Proof.
    cbn [mask_result snd es_mults]. unfold vector_of. rewrite trues_concat, map_map. change (fun x => trues (bdata (F x))) with (fun x => btrues (F x)). unfold pushed. induction ns as [|x xs IH]; [reflexivity|]. cbn [flat_map map]. rewrite map_app, nsum_app, IH. change (nsum (btrues (F x) :: ?y)) with (btrues (F x) + nsum y). f_equal. destruct (Nat.eqb_spec (btrues (F x)) 0) as [E|E]; cbn [map snd]; [symmetry; exact E|unfold nsum; cbn [fold_right]; rewrite Nat.add_0_r; reflexivity].
  Qed.
  (** the concatenated pieces of the basis_perm *)
  Lemma res_pieces (p : list nat) : length p = es_dim S L ->
    concat (map (fun q => let slc := nth (fst q) (sp_slices S (es_space S L)) (0, 0) in take_mask (firstn (snd slc - fst slc) (skipn (fst slc) p)) (bdata (snd q))) l) = take_mask p (vector_of F).
  Proof.
    intros E. rewrite (@pushed_concat nat F (fun i B => let slc := nth i (sp_slices S (es_space S L)) (0, 0) in take_mask (firstn (snd slc - fst slc) (skipn (fst slc) p)) (bdata B)) ns) by (intros i _ Z; apply take_mask_none; exact Z).
    unfold vector_of. rewrite take_mask_concat by (rewrite (segs_length FO), E; apply (dim_sum G OL)). rewrite map_length, seq_length. f_equal. apply map_ext_in. intros i Ii. apply in_seq in Ii. rewrite (slice_at G OL) by lia. cbn [fst snd]. rewrite (segs_length FO). rewrite nth_map_lt with (d := 0) by (rewrite seq_length; lia). rewrite seq_nth by lia. cbn [plus].
    replace (nsum (firstn i ms) + nth i ms 0 - nsum (firstn i ms)) with (nth i ms 0) by lia. rewrite (proj2 (FO (n := i) ltac:(lia))). reflexivity.
  Qed.
  Lemma res_legs : strictly_sorted (es_def N) /\ length (es_mults N) = length (es_def N) /\ (forall s, In s (es_def N) -> In s (es_def L)) /\ forall m, In m (es_mults N) -> 0 < m.
  Proof.
    cbn [mask_result snd es_def es_mults]. split; [|split; [now rewrite !map_length|split]].
    - pose proof (pushed_sorted F (seq_sorted 0 (nsec L))) as SS. pose proof (ok_sorted OL) as SL.
      assert (B : forall q, In q l -> fst q < length (es_def L)) by (intros [i B] I; apply (proj1 (pushed_In F ns i B)) in I; destruct I as [I _]; apply in_seq in I; cbn [fst]; rewrite <- (ok_len OL); unfold nsec in I; lia).
      clear -SS SL B. revert SS B. generalize l. intros w SS B. induction w as [|q qs IH]; [constructor|]. cbn [map] in *. apply StronglySorted_inv in SS. destruct SS as [SS FA]. constructor; [apply IH; [exact SS|intros x I; apply B; now right]|]. rewrite Forall_forall in *. intros s Is. apply in_map_iff in Is. destruct Is as (q' & <- & I).
      apply (proj1 (StronglySorted_nth lex_lt [] (es_def L)) SL). split; [exact (FA _ (in_map fst _ _ I))|apply B; now right].
    - intros s I. apply in_map_iff in I. destruct I as ([i B] & <- & I). apply (proj1 (pushed_In F ns i B)) in I. destruct I as [I _]. apply in_seq in I. apply nth_In. cbn [fst]. rewrite <- (ok_len OL). unfold nsec in I. lia.
    - intros m I. apply in_map_iff in I. destruct I as ([i B] & <- & I). apply (proj1 (pushed_In F ns i B)) in I. destruct I as (_ & -> & NZ). cbn [snd]. lia.
  Qed.
  Lemma res_dim_N : es_dim S N = trues (vector_of F).
  Proof.
    destruct res_legs as (_ & LE & _). rewrite <- res_dim. unfold es_dim, sp_dim, es_space. cbn [sp_secs sp_mults]. rewrite (num_states_one G); [reflexivity|]. rewrite LE. destruct (es_dual N); [unfold dual_sectors; now rewrite map_length|reflexivity].
  Qed.
  Lemma res_perm : es_perm N = match l, es_perm L with [], _ => None | _, None => None | _, Some p => Some (rank_data (map Z.of_nat (take_mask p (vector_of F)))) end.
  Proof.
    cbn [mask_result snd es_perm]. destruct (es_perm L) as [p|] eqn:EP; [|destruct l; reflexivity]. rewrite <- (@res_pieces p); [destruct l; reflexivity|]. exact (is_perm_length (proj2 (ok_perm OL EP))).
  Qed.
  Theorem res_ok : es_ok S N.
  Proof.
    destruct res_legs as (SS & LE & SUB & POS). constructor; [intros s I; apply (ok_valid OL), SUB, I|exact SS|exact LE|exact POS|].
    intros p EP. rewrite res_dim_N. rewrite res_perm in EP. destruct l eqn:El; [discriminate|]. destruct (es_perm L) as [q|] eqn:EQ; [|discriminate]. injection EP as <-. split; [apply (ok_perm OL EQ)|].
    pose proof (rank_data_perm (map Z.of_nat (take_mask q (vector_of F)))) as P. rewrite map_length, take_mask_length in P; [exact P|]. rewrite (vector_length FO). exact (is_perm_length (proj2 (ok_perm OL EQ))).
  Qed.
  Lemma res_basis_perm : basis_perm S N = rank_data (map Z.of_nat (take_mask (basis_perm S L) (vector_of F))).
  Proof.
    unfold basis_perm at 1. rewrite res_perm, res_dim_N. unfold basis_perm. destruct (es_perm L) as [p|] eqn:EP.
    - destruct l as [|x q] eqn:El; [|reflexivity]. assert (Z : trues (vector_of F) = 0) by (rewrite <- res_dim; cbn [mask_result snd es_mults]; now rewrite El). rewrite Z, take_mask_none by exact Z. reflexivity.
    - assert (X : rank_data (map Z.of_nat (take_mask (seq 0 (es_dim S L)) (vector_of F))) = seq 0 (trues (vector_of F))); [|rewrite X; destruct l; reflexivity].
      rewrite <- (vector_length FO), <- kept_take, (rank_sorted (kept_sorted _)), kept_length. reflexivity.
  Qed.
  Lemma slice_one : forall (segs : list (list bool)) (secs defs : list sector), length secs = length segs -> length defs = length segs ->
    slice_sectors S secs defs (map (@length bool) segs) (concat segs) = Some (flat_map (fun p => if trues (snd p) =? 0 then [] else [(fst p, trues (snd p))]) (combine defs segs)).
  Proof.
    clear -G. induction segs as [|s segs IH]; intros [|c secs] [|d defs] E1 E2; try discriminate; [reflexivity|]. cbn [map concat slice_sectors combine flat_map fst snd]. rewrite (ag_dim G), !Nat.mul_1_r. injection E1 as E1. injection E2 as E2.
    rewrite firstn_app, Nat.sub_diag, firstn_all, firstn_O, app_nil_r, skipn_app, Nat.sub_diag, skipn_all. cbn [skipn app]. rewrite (IH secs defs E1 E2).
    assert (C : forall m, count_kept (length m) 1 m = Some (trues m)).
    { clear. induction m as [|b m IH]; [reflexivity|]. cbn [length count_kept nth firstn forallb skipn]. rewrite Bool.eqb_reflx. cbn [andb]. rewrite IH. now destruct b. }
    rewrite C, Nat.div_1_r. destruct (trues s) as [|k]; reflexivity.
  Qed.
  Theorem res_slice (pm : list bool) : s_drop S = true -> length pm = es_dim S L -> take false pm (basis_perm S L) = vector_of F ->
    exists N', take_slice S L pm = Some N' /\ es_def N = es_def N' /\ es_mults N = es_mults N' /\ es_dual N = es_dual N' /\ basis_perm S N = basis_perm S N'.
  Proof.
    intros HD LP EV. unfold take_slice. rewrite HD, LP, Nat.eqb_refl. cbn [negb]. cbv zeta. rewrite EV.
    assert (SL : slice_sectors S (es_decomp S L) (es_def L) ms (vector_of F) = Some (map (fun p => (nth (fst p) (es_def L) [], btrues (snd p))) l)).
    { unfold vector_of. rewrite <- (segs_length FO) at 1. rewrite slice_one by (rewrite ?ok_decomp_len, map_length, seq_length, <- (ok_len OL); reflexivity). f_equal.
      assert (EC : combine (es_def L) (map (fun k => bdata (F k)) ns) = map (fun k => (nth k (es_def L) [], bdata (F k))) ns).
      { apply list_eq_nth with (d := (@nil Z, @nil bool)); [rewrite combine_length, !map_length, seq_length, <- (ok_len OL); unfold nsec; lia|]. intros k Hk. rewrite combine_length, map_length, seq_length in Hk. rewrite combine_nth_lt with (x := @nil Z) (y := @nil bool) by (rewrite ?map_length, ?seq_length; lia). rewrite !nth_map_lt with (d := 0) by (rewrite seq_length; lia). rewrite seq_nth by lia. reflexivity. }
      rewrite EC. unfold pushed. clear. induction ns as [|x xs IH]; [reflexivity|]. cbn [map flat_map fst snd]. rewrite map_app, IH. f_equal. unfold btrues. fold (trues (bdata (F x))). now destruct (trues (bdata (F x)) =? 0). }
    rewrite SL. eexists. split; [reflexivity|]. cbn [es_def es_mults es_dual]. rewrite !map_map. cbn [fst snd]. split; [reflexivity|]. split; [reflexivity|]. split; [reflexivity|]. unfold basis_perm at 2. cbn [es_perm]. exact res_basis_perm.
  Qed.
End Result.
