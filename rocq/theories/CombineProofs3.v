(** combine_legs / split_legs: the loops over legs and groups. *)
From Verif Require Import Util StableSort RowModel RowProofs GridModel GridProofs SymModel SymProofs CatSpec SpaceModel SpaceSpec SpaceProofs SpaceProofs2 SpaceProofs3 SpaceProofs5
  PipeModel PipeProofs PipeProofs2 PipeProofs3 PipeProofs4 BlockModel BlockProofs SparseModel SparseSpec SparseProofs SparseProofs2 SparseProofs3 SparseCharge SparseDense CombineModel CombineSpec CombineProofs CombineProofs2.
Set Implicit Arguments. Unset Strict Implicit.
Open Scope nat_scope.

Definition wid (its : list (item * bool)) : nat := nsum (map width its).
Lemma wid_cons x its : wid (x :: its) = width x + wid its.
Proof. reflexivity. Qed.
Lemma wid_alegs its : length (alegs its) = wid its.
Proof. induction its as [|x t IH]; [reflexivity|]. rewrite alegs_cons, app_length, IH, olegs_length. reflexivity. Qed.
(** a group has legs *)
Definition pos_groups (its : list (item * bool)) : Prop := forall x, In x its -> 0 < width x.
Fixpoint flags (n pos : nat) (its : list (item * bool)) : Prop :=
  match its with [] => True | x :: t => (n <=? pos) = snd x /\ flags n (pos + width x) t end.
Definition revd (x : item * bool) : bool := match fst x with Keep _ => false | Group P => negb (xorb (p_cstyle P) (snd x)) end.
Fixpoint cperm (pos : nat) (its : list (item * bool)) : list nat :=
  match its with [] => [] | x :: t => oriented (revd x) (seq pos (width x)) ++ cperm (pos + width x) t end.
Fixpoint oapply (A : Type) (its : list (item * bool)) (l : list A) : list A :=
  match its with [] => [] | x :: t => oriented (revd x) (firstn (width x) l) ++ oapply t (skipn (width x) l) end.
Fixpoint sizes (its : list (item * bool)) (s : list nat) : list nat :=
  match its with [] => [] | x :: t => prod (firstn (width x) s) :: sizes t (skipn (width x) s) end.

Lemma skipn_skipn' A (l : list A) : forall a b, skipn (a + b) l = skipn b (skipn a l).
Proof. induction l as [|x l IH]; intros [|a] b; cbn; auto. now destruct b. Qed.
Section Loops.
  Variable X : Type.
  Variable keep : nat -> nat -> X.
  Variable grp : list nat -> pipe -> list nat -> X.
  Fixpoint per_item (pos : nat) (its : list (item * bool)) (r : list nat) : list X :=
    match its with
    | [] => []
    | x :: t => match fst x with Keep _ => keep pos (hd 0 r) | Group P => grp (seq pos (width x)) P (firstn (width x) r) end
                :: per_item (pos + width x) t (skipn (width x) r)
    end.
  Lemma hd_seq a n : 0 < n -> hd 0 (seq a n) = a.
  Proof. destruct n; [lia|reflexivity]. Qed.
  Lemma comb_loop_items its : forall pend j r, pos_groups its -> length r = wid its ->
    comb_loop keep grp j (pend ++ r) (groups_of (j + length pend) its) =
    map (fun p => keep (fst p) (snd p)) (combine (seq j (length pend)) pend) ++ per_item (j + length pend) its r.
  Proof.
    induction its as [|x t IH]; intros pend j r PG Lr.
    - destruct r; [|discriminate]. cbn [groups_of comb_loop per_item]. now rewrite !app_nil_r.
    - rewrite wid_cons in Lr. assert (PG' : pos_groups t) by (intros y Hy; apply PG; now right). assert (W := PG x (or_introl eq_refl)). destruct x as [[L|P] d].
      + change (width (Keep L, d)) with 1 in *. destruct r as [|a r]; [cbn in Lr; lia|]. cbn [groups_of per_item fst hd skipn]. change (width (Keep L, d)) with 1. cbn [skipn].
        replace (pend ++ a :: r) with ((pend ++ [a]) ++ r) by (rewrite <- app_assoc; reflexivity).
        assert (E : j + length pend + 1 = j + length (pend ++ [a])) by (rewrite app_length; cbn; lia). rewrite E. cbn [length] in Lr. rewrite IH by (auto; lia).
        rewrite <- E. rewrite app_length. cbn [length]. rewrite seq_app. cbn [seq].
        assert (EC : combine (seq j (length pend) ++ [j + length pend]) (pend ++ [a]) = combine (seq j (length pend)) pend ++ [(j + length pend, a)]).
        { rewrite combine_app' by apply seq_length. reflexivity. }
        rewrite EC, map_app, <- app_assoc. reflexivity.
      + change (width (Group P, d)) with (length (p_legs P)) in *. cbn [groups_of comb_loop per_item fst]. rewrite hd_seq by exact W. replace (j + length pend - j) with (length pend) by lia.
        change (width (Group P, d)) with (length (p_legs P)). destruct (firstn_at r (eq_refl (length pend))) as [E1 E2]. rewrite E1, E2. rewrite seq_length. f_equal. f_equal.
        rewrite skipn_skipn', E2. assert (HH := IH [] (j + length pend + length (p_legs P)) (skipn (length (p_legs P)) r) PG'). cbn [app length combine map seq] in HH.
        rewrite Nat.add_0_r in HH. apply HH. rewrite skipn_length. lia.
  Qed.
End Loops.

Lemma firstn_seq' pos w n : w <= n -> firstn w (seq pos n) = seq pos w /\ skipn w (seq pos n) = seq (pos + w) (n - w).
Proof. intros H. replace n with (w + (n - w)) by lia. rewrite seq_app. destruct (firstn_at (seq (pos + w) (n - w)) (seq_length w pos)) as [-> ->]. split; [reflexivity|f_equal; lia]. Qed.
Lemma cperm_oapply its : forall pos, cperm pos its = oapply its (seq pos (wid its)).
Proof.
  induction its as [|x t IH]; intros pos; [reflexivity|]. cbn [cperm oapply]. rewrite wid_cons. destruct (@firstn_seq' pos (width x) (width x + wid t) ltac:(lia)) as [-> ->].
  rewrite IH. now replace (width x + wid t - width x) with (wid t) by lia.
Qed.
Lemma oapply_perm A its : forall l : list A, length l = wid its -> Permutation (oapply its l) l.
Proof.
  induction its as [|x t IH]; intros l H; [destruct l; [constructor|discriminate]|]. cbn [oapply]. rewrite wid_cons in H. rewrite <- (firstn_skipn (width x) l) at 3.
  apply Permutation_app; [|apply IH; rewrite skipn_length; lia]. destruct (revd x); cbn; [symmetry; apply Permutation_rev|reflexivity].
Qed.
Lemma cperm_perm its : is_perm (wid its) (cperm 0 its).
Proof. unfold is_perm. rewrite cperm_oapply. apply oapply_perm, seq_length. Qed.
Lemma oapply_length A its (l : list A) : length l = wid its -> length (oapply its l) = wid its.
Proof. intros H. rewrite (Permutation_length (oapply_perm H)). exact H. Qed.
Lemma oapply_invol A its : forall l : list A, length l = wid its -> oapply its (oapply its l) = l.
Proof.
  induction its as [|x t IH]; intros l H; [destruct l; [reflexivity|discriminate]|]. cbn [oapply]. rewrite wid_cons in H.
  assert (E : length (oriented (revd x) (firstn (width x) l)) = width x) by (rewrite oriented_length, firstn_length; lia).
  destruct (firstn_at (oapply t (skipn (width x) l)) E) as [-> ->]. rewrite oriented_invol, IH by (rewrite skipn_length; lia). apply firstn_skipn.
Qed.
Lemma oapply_map A B (f : A -> B) its : forall l, oapply its (map f l) = map f (oapply its l).
Proof. induction its as [|x t IH]; intros l; [reflexivity|]. cbn [oapply]. rewrite map_app, firstn_map, skipn_map, IH, oriented_map. reflexivity. Qed.
Lemma take_cperm A (d : A) its l : length l = wid its -> take d l (cperm 0 its) = oapply its l.
Proof. intros H. rewrite cperm_oapply. unfold take. rewrite <- oapply_map. f_equal. rewrite <- H. apply map_nth_seq. Qed.
Lemma sizes_prod its : forall s, length s = wid its -> prod (sizes its s) = prod s.
Proof.
  induction its as [|x t IH]; intros s H; [destruct s; [reflexivity|discriminate]|]. rewrite wid_cons in H. cbn [sizes]. rewrite prod_cons, IH by (rewrite skipn_length; lia). rewrite <- prod_app, firstn_skipn. reflexivity.
Qed.
Lemma oapply_prod its s : length s = wid its -> prod (oapply its s) = prod s.
Proof. intros H. rewrite <- (take_cperm 0 H). apply prod_take_perm. rewrite H. apply cperm_perm. Qed.
Lemma sizes_Tmap its : forall r, length r = wid its -> sizes its (shp (mults (alegs its)) r) = Tmap its r.
Proof.
  induction its as [|x t IH]; intros r H; [reflexivity|]. rewrite wid_cons in H. cbn [sizes Tmap]. rewrite alegs_cons, mults_app.
  assert (L1 : length (firstn (width x) r) = length (mults (olegs x))) by (unfold mults; rewrite map_length, olegs_length, firstn_length; lia).
  assert (ES : shp (mults (olegs x) ++ mults (alegs t)) r = shp (mults (olegs x)) (firstn (width x) r) ++ shp (mults (alegs t)) (skipn (width x) r)) by (rewrite <- shp_app by exact L1; now rewrite firstn_skipn).
  rewrite ES. assert (LS : length (shp (mults (olegs x)) (firstn (width x) r)) = width x) by (rewrite shp_len by exact L1; unfold mults; rewrite map_length; apply olegs_length).
  destruct (firstn_at (shp (mults (alegs t)) (skipn (width x) r)) LS) as [-> ->]. rewrite IH by (rewrite skipn_length; lia). reflexivity.
Qed.
(** position in the block before and after combining *)
Lemma item_flat S x r q : item_ok S (fst x) -> okpos (olegs x) r q ->
  flat_index (oriented (revd x) (shp (mults (olegs x)) r)) true (oriented (revd x) q) = iF x r q.
Proof.
  intros OK HP. destruct (okpos_len HP) as [L1 L2]. destruct x as [[L|P] d]; unfold iF, revd; cbn [fst snd].
  - rewrite olegs_keep in *. destruct HP as [V Q]. cbn [map] in V. destruct (valid_one V) as (i & -> & Hi). cbn [mults map shp hd] in *.
    destruct (valid_one Q) as (k & -> & Hk). cbn [hd oriented]. apply flat_index_1.
  - unfold olegs in L1, L2. cbn [fst snd item_legs] in L1, L2. rewrite oriented_length in L1, L2. unfold olegs. cbn [fst snd item_legs]. rewrite shp_orient by exact L1.
    destruct (p_cstyle P), d; cbn [xorb negb oriented].
    + now rewrite rev_involutive.
    + reflexivity.
    + rewrite <- (rev_involutive q) at 1. apply (flat_index_rev _ false).
    + apply (flat_index_rev _ false).
Qed.
Lemma items_flat S its : its_ok S its -> forall r q, okpos (alegs its) r q ->
  flat_index (Tmap its r) true (Fmap its r q) = flat_index (oapply its (shp (mults (alegs its)) r)) true (oapply its q).
Proof.
  induction its as [|x t IH]; intros OK r q HP; [reflexivity|]. destruct (its_ok_cons OK) as [O1 O2]. destruct (okpos_cons HP) as [H1 H2]. cbn [Tmap Fmap oapply].
  destruct (okpos_len HP) as [L1 L2]. rewrite wid_alegs, wid_cons in L1, L2.
  assert (L3 : length (firstn (width x) r) = length (mults (olegs x))) by (unfold mults; rewrite map_length, olegs_length, firstn_length; lia).
  assert (ES : shp (mults (alegs (x :: t))) r = shp (mults (olegs x)) (firstn (width x) r) ++ shp (mults (alegs t)) (skipn (width x) r)) by (rewrite alegs_cons, mults_app, <- shp_app by exact L3; now rewrite firstn_skipn).
  rewrite ES. assert (LS : length (shp (mults (olegs x)) (firstn (width x) r)) = width x) by (rewrite shp_len by exact L3; unfold mults; rewrite map_length; apply olegs_length).
  destruct (firstn_at (shp (mults (alegs t)) (skipn (width x) r)) LS) as [-> ->].
  assert (LS2 : length (shp (mults (alegs t)) (skipn (width x) r)) = wid t) by (rewrite shp_len; [unfold mults; rewrite map_length; apply wid_alegs|unfold mults; rewrite map_length, wid_alegs, skipn_length; lia]).
  assert (LQ2 : length (skipn (width x) q) = wid t) by (rewrite skipn_length; lia).
  rewrite flat_index_app by (first [rewrite !oriented_length, firstn_length; lia | rewrite !oapply_length by assumption; reflexivity]).
  rewrite <- (IH O2 _ _ H2), (item_flat O1 H1). rewrite (oapply_prod LS2), <- (sizes_prod LS2), sizes_Tmap by (rewrite skipn_length; lia).
  change (iT x (firstn (width x) r) :: Tmap t (skipn (width x) r)) with ([iT x (firstn (width x) r)] ++ Tmap t (skipn (width x) r)).
  change (iF x (firstn (width x) r) (firstn (width x) q) :: Fmap t (skipn (width x) r) (skipn (width x) q)) with ([iF x (firstn (width x) r) (firstn (width x) q)] ++ Fmap t (skipn (width x) r) (skipn (width x) q)).
  rewrite flat_index_app; [|reflexivity|destruct (map_len t (skipn (width x) r) (skipn (width x) q)) as (_ & _ & A & B & _); congruence]. rewrite flat_index_1. reflexivity.
Qed.
(** the groups with their cstyle flags as the block backend receives them *)
Definition gpair (n : nat) (g : list nat * pipe) : list nat * bool := (fst g, xorb (p_cstyle (snd g)) (n <=? hd 0 (fst g))).
Lemma last_seq a n : 0 < n -> last (seq a n) 0 = a + n - 1.
Proof. intros H. replace n with ((n - 1) + 1) at 1 by lia. rewrite seq_app. cbn [seq]. rewrite last_last. lia. Qed.
Lemma slice_more (l : list nat) a b n : a <= b -> b + n <= length l -> slice l a (b + n) = slice l a b ++ firstn n (skipn b l).
Proof.
  intros H1 H2. unfold slice. replace (b + n - a) with ((b - a) + n) by lia.
  rewrite <- (firstn_skipn (b - a) (skipn a l)) at 1. rewrite firstn_app. rewrite firstn_firstn, Nat.min_r by lia. f_equal.
  rewrite firstn_length, skipn_length, Nat.min_l by lia. replace (b - a + n - (b - a)) with n by lia. rewrite <- skipn_skipn'. now replace (a + (b - a)) with b by lia.
Qed.
Lemma combine_loop_items n old its : forall ls pos, pos_groups its -> flags n pos its -> ls <= pos -> length old = pos + wid its ->
  combine_loop old ls (map (gpair n) (groups_of pos its)) = Some (slice old ls pos ++ sizes its (skipn pos old), seq ls (pos - ls) ++ cperm pos its).
Proof.
  induction its as [|x t IH]; intros ls pos PG FL LE LO.
  - change (wid []) with 0 in LO. cbn [groups_of map combine_loop sizes cperm]. rewrite !app_nil_r. replace (length old) with pos by lia. do 2 f_equal.
    unfold slice. symmetry. apply firstn_all2. rewrite skipn_length. lia.
  - rewrite wid_cons in LO. assert (PG' : pos_groups t) by (intros y Hy; apply PG; now right). assert (W := PG x (or_introl eq_refl)). destruct FL as [F1 F2]. destruct x as [[L|P] d].
    + change (width (Keep L, d)) with 1 in *. cbn [groups_of sizes cperm]. change (width (Keep L, d)) with 1. rewrite IH by (auto; lia). cbn [seq oriented revd fst]. do 2 f_equal.
      * rewrite slice_more by lia. rewrite <- app_assoc. f_equal. rewrite (skipn_skipn' old pos 1). destruct (skipn pos old) as [|a l] eqn:E; [apply (f_equal (@length _)) in E; rewrite skipn_length in E; cbn in E; lia|].
        cbn [firstn skipn app]. rewrite prod_cons. unfold prod. cbn [fold_right]. f_equal. lia.
      * replace (pos + 1 - ls) with ((pos - ls) + 1) by lia. rewrite seq_app, <- app_assoc. cbn [seq app]. do 3 f_equal. lia.
    + change (width (Group P, d)) with (length (p_legs P)) in *. cbn [groups_of sizes cperm map gpair fst snd combine_loop]. change (width (Group P, d)) with (length (p_legs P)).
      cbn [snd] in F1. unfold gpair at 1. cbn [fst snd]. cbv iota. rewrite hd_seq, last_seq by exact W.
      assert (E1 : pos <? ls = false) by (apply Nat.ltb_ge; lia). rewrite E1. rewrite seq_length.
      destruct (list_eq_dec Nat.eq_dec (seq pos (length (p_legs P))) (seq pos (length (p_legs P)))) as [_|N]; [|congruence]. cbn [negb].
      replace (pos + length (p_legs P) - 1 + 1) with (pos + length (p_legs P)) by lia. rewrite IH by (auto; lia). do 2 f_equal.
      * f_equal. replace (pos + length (p_legs P)) with (pos + length (p_legs P)) by lia. f_equal.
        -- f_equal. unfold slice. f_equal. lia.
        -- unfold slice at 1. rewrite Nat.sub_diag. cbn [firstn app]. now rewrite skipn_skipn'.
      * f_equal. rewrite Nat.sub_diag. cbn [seq app]. rewrite F1. replace (pos + length (p_legs P) - pos) with (length (p_legs P)) by lia.
        unfold revd. cbn [fst snd]. destruct (xorb (p_cstyle P) d); reflexivity.
Qed.
Lemma combine_map_fst A B C (f : A -> B) (g : A -> C) l : combine (map f l) (map g l) = map (fun x => (f x, g x)) l.
Proof. induction l; cbn; congruence. Qed.

Section Block.
  Variable K : Type.
  Variable o : ops K.
  Variable S : symm.
  Variable its : list (item * bool).
  Variable n : nat.
  Hypothesis OK : its_ok S its.
  Hypothesis FL : flags n 0 its.
  Hypothesis PG : pos_groups its.
  Lemma row_wid r : valid_idx (map nsec (alegs its)) r -> length r = wid its /\ length (shp (mults (alegs its)) r) = wid its.
  Proof.
    intros V. assert (E := valid_length V). rewrite map_length, wid_alegs in E. split; [exact E|]. rewrite shp_len by (unfold mults; rewrite map_length, wid_alegs; exact E).
    unfold mults. rewrite map_length. apply wid_alegs.
  Qed.
  Lemma combine_block (B : blk K) r : valid_idx (map nsec (alegs its)) r -> bshape B = shp (mults (alegs its)) r -> bwf B ->
    exists C, bcombine_legs o B (map fst (groups_of 0 its)) (comb_cstyles n (groups_of 0 its)) = Some C /\ bshape C = Tmap its r /\ bwf C /\
      forall q, okpos (alegs its) r q -> bat o C (Fmap its r q) = bat o B q.
  Proof.
    intros V SH WF. destruct (row_wid V) as [L1 L2]. unfold bcombine_legs, comb_cstyles. rewrite combine_map_fst.
    assert (CL := @combine_loop_items n (bshape B) its 0 0 PG FL (le_n 0) ltac:(rewrite SH; exact L2)). unfold gpair in CL. rewrite CL. cbn [Nat.sub seq app]. unfold slice at 1. cbn [firstn skipn Nat.sub app].
    eexists. split; [reflexivity|]. cbn [breshape bshape]. rewrite SH, (sizes_Tmap L1). split; [reflexivity|].
    assert (EP : prod (Tmap its r) = prod (bshape (btranspose o B (cperm 0 its)))).
    { rewrite btranspose_shape, SH, take_cperm by exact L2. rewrite oapply_prod by exact L2. rewrite <- (sizes_prod L2), (sizes_Tmap L1). reflexivity. }
    split; [apply breshape_wf; [apply btranspose_wf|exact EP]|].
    intros q HP. destruct (okpos_len HP) as [L3 L4]. rewrite wid_alegs in L4. destruct HP as [V' Q].
    rewrite (@bat_reshape _ o (btranspose o B (cperm 0 its)) (Tmap its r) (take 0 q (cperm 0 its)) (Fmap its r q)).
    - apply bat_transpose_take; [unfold bndim; rewrite SH, L2; apply cperm_perm|rewrite SH; exact Q].
    - rewrite btranspose_shape, !take_length. reflexivity.
    - destruct (map_len its r q) as (_ & _ & A & C & _). congruence.
    - rewrite btranspose_shape, SH, !take_cperm by assumption. apply (@items_flat S its OK r q (conj V Q)).
  Qed.
  (** the row and the slices of a block *)
  Lemma hd_skipn (l : list nat) k : hd 0 (skipn k l) = nth k l 0.
  Proof. revert k; induction l as [|a l IH]; intros [|k]; cbn; auto. Qed.
  Lemma per_item_J its' : forall pos r, its_ok S its' -> flags n pos its' -> pos_groups its' ->
    per_item (fun _ i => i) (fun g P cols => bim_J (map_row n g P cols)) pos its' r = Jmap its' r.
  Proof.
    induction its' as [|x t IH]; intros pos r O F PG'; [reflexivity|]. destruct F as [F1 F2]. destruct (its_ok_cons O) as [O1 O2]. cbn [per_item Jmap].
    rewrite IH by (auto; intros y Hy; apply PG'; now right). f_equal. assert (W := PG' x (or_introl eq_refl)). destruct x as [[L|P] d]; unfold iJ; cbn [fst snd].
    - change (width (Keep L, d)) with 1. destruct r; reflexivity.
    - unfold pJof, map_row, mix. rewrite hd_seq by exact W. rewrite F1. reflexivity.
  Qed.
  Lemma comb_row_eq r : length r = wid its -> comb_row n (groups_of 0 its) r = Jmap its r.
  Proof.
    intros L. unfold comb_row. assert (H := @comb_loop_items nat (fun _ i => i) (fun g P cols => bim_J (map_row n g P cols)) its [] 0 r PG L). cbn [app length map combine seq Nat.add] in H.
    rewrite H. apply per_item_J; auto.
  Qed.
End Block.
