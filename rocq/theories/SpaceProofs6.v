From Verif Require Import Util StableSort RowModel RowProofs GridModel GridProofs SymModel SpaceModel SpaceSpec SpaceProofs SpaceProofs2 SpaceProofs3.
Set Implicit Arguments. Unset Strict Implicit.
Open Scope nat_scope.

Definition trues (m : list bool) : nat := length (filter (fun b => b) m).
Lemma trues_app a b : trues (a ++ b) = trues a + trues b.
Proof. unfold trues. rewrite filter_app, app_length. reflexivity. Qed.
Lemma trues_const k m : forallb (Bool.eqb k) m = true -> trues m = if k then length m else 0.
Proof.
  induction m as [|b m IH]; cbn; [destruct k; reflexivity|]. intros H. apply andb_true_iff in H as [H1 H2]. apply Bool.eqb_prop in H1. subst b.
  destruct k; cbn; unfold trues in *; cbn; rewrite (IH H2); reflexivity.
Qed.
Lemma take_mask_app A (a b : list A) ma mb : length a = length ma -> take_mask (a ++ b) (ma ++ mb) = take_mask a ma ++ take_mask b mb.
Proof. revert ma; induction a as [|x a IH]; intros [|[] ma] H; cbn in *; try discriminate; [reflexivity | |]; rewrite IH by lia; reflexivity. Qed.
Lemma take_mask_repeat A (x : A) m : take_mask (repeat x (length m)) m = repeat x (trues m).
Proof. induction m as [|[] m IH]; cbn; [reflexivity | |]; unfold trues in *; cbn; rewrite IH; reflexivity. Qed.
Lemma take_mask_map A B (f : A -> B) l m : take_mask (map f l) m = map f (take_mask l m).
Proof. revert m; induction l as [|x l IH]; intros [|[] m]; cbn; try reflexivity; rewrite IH; reflexivity. Qed.
Lemma take_mask_length A (l : list A) m : length l = length m -> length (take_mask l m) = trues m.
Proof. revert m; induction l as [|x l IH]; intros [|[] m] H; cbn in *; try discriminate; [reflexivity | |]; unfold trues in *; cbn; rewrite IH by lia; reflexivity. Qed.
Lemma take_mask_filter A (f : A -> bool) l : take_mask l (map f l) = filter f l.
Proof. induction l as [|x l IH]; cbn; [reflexivity|]. destruct (f x); rewrite IH; reflexivity. Qed.

(** * rank_data of the kept indices *)
Lemma rank_sorted_nth (L K : list nat) : StronglySorted lt K -> Permutation L K ->
  forall j, j < length L -> nth (nth j (rank_data (map Z.of_nat L)) 0) K 0 = nth j L 0.
Proof.
  intros HS HP j Hj. set (a := map Z.of_nat L). assert (La : length a = length L) by apply map_length.
  assert (P := argsort_perm a). rewrite La in P.
  assert (EK : K = take 0 L (argsort a)).
  { apply StronglySorted_unique with (R := lt); [intros; lia | intros; lia | exact HS | |].
    - pose proof (argsort_sorted a) as A. apply (proj2 (StronglySorted_nth lt 0 _)). intros x y Hxy. rewrite take_length in Hxy.
      apply (proj1 (StronglySorted_nth _ 0 _)) with (i := x) (j := y) in A; [|exact Hxy].
      unfold take. rewrite !nth_map_lt with (d := 0) by lia.
      assert (B : forall z, z < length (argsort a) -> nth z (argsort a) 0 < length L) by (intros z Hz; apply (is_perm_nth_lt P); rewrite (is_perm_length P) in Hz; exact Hz).
      assert (N : NoDup L) by (apply (Permutation_NoDup (Permutation_sym HP)); clear -HS; induction HS as [|x l H IH F]; [constructor|]; constructor; [intros Hin; rewrite Forall_forall in F; specialize (F x Hin); lia | exact IH]).
      unfold a in A. rewrite !nth_map_lt with (d := 0) in A by (apply B; lia). fold a in A.
      destruct A as [A|[A1 A2]]; [lia|]. exfalso. assert (nth x (argsort a) 0 = nth y (argsort a) 0); [|lia].
      apply (proj1 (NoDup_nth L 0) N); [apply B; lia | apply B; lia | lia].
    - intros x. rewrite (take_Permutation 0 P). split; apply Permutation_in; [symmetry; exact HP | exact HP]. }
  unfold rank_data. fold a. rewrite EK. assert (LP := is_perm_length P). rewrite <- EK.
  assert (Hr : nth j (inverse_permutation (argsort a)) 0 < length (argsort a) /\ nth (nth j (inverse_permutation (argsort a)) 0) (argsort a) 0 = j).
  { destruct (is_perm_surj P Hj) as (i & Hi & Ei). rewrite <- Ei. rewrite (inverse_permutation_l P Hi). split; [lia | reflexivity]. }
  rewrite EK. unfold take. rewrite nth_map_lt with (d := 0) by apply Hr. rewrite (proj2 Hr). reflexivity.
Qed.
Lemma filter_map' A B (f : B -> bool) (g : A -> B) l : filter f (map g l) = map g (filter (fun x => f (g x)) l).
Proof. induction l as [|x l IH]; cbn; [reflexivity|]. destruct (f (g x)); cbn; rewrite IH; reflexivity. Qed.
Lemma StronglySorted_seq n : forall s, StronglySorted lt (seq s n).
Proof. induction n; intros s; cbn; constructor; [apply IHn|]. apply Forall_forall. intros x Hx. apply in_seq in Hx. lia. Qed.
Lemma take_mask_positions A (d : A) l (m : list bool) : length m = length l ->
  take_mask l m = map (fun i => nth i l d) (filter (fun i => nth i m false) (seq 0 (length l))).
Proof.
  revert m; induction l as [|x l IH]; intros [|b m] H; cbn in H; try discriminate; [reflexivity|].
  cbn [length seq]. rewrite <- seq_shift.
  assert (Q : map (fun i => nth i (x :: l) d) (filter (fun i => nth i (b :: m) false) (map Datatypes.S (seq 0 (length l)))) = take_mask l m).
  { rewrite (IH m) by lia. rewrite filter_map', map_map. reflexivity. }
  change (filter ?f (0 :: ?t)) with (if f 0 then 0 :: filter f t else filter f t).
  destruct b; cbn [map take_mask]; cbv beta; change (nth 0 (true :: m) false) with true; change (nth 0 (false :: m) false) with false; cbv iota; [|symmetry; exact Q].
  change (map ?f (0 :: ?t)) with (f 0 :: map f t). rewrite Q. reflexivity.
Qed.
Lemma arranged_mask A p (internal public : list A) pm : arranged p internal public -> length pm = length public ->
  let mask := take false pm p in
  arranged (rank_data (map Z.of_nat (take_mask p mask))) (take_mask internal mask) (take_mask public pm).
Proof.
  intros (P & L & H) HM mask. assert (LP := is_perm_length P).
  set (K := filter (fun i => nth i pm false) (seq 0 (length internal))).
  assert (KP : Permutation (take_mask p mask) K).
  { unfold mask, take. rewrite take_mask_filter. apply Permutation_filter'. exact P. }
  assert (KS : StronglySorted lt K).
  { apply StronglySorted_filter. apply StronglySorted_seq. }
  assert (Lm : length mask = length p) by apply take_length.
  assert (LI : length (take_mask internal mask) = length (take_mask p mask)) by (rewrite !take_mask_length; congruence).
  assert (EK : forall d, take_mask public pm = map (fun i => nth i public d) K).
  { intros d. rewrite (take_mask_positions d) by exact HM. rewrite L. reflexivity. }
  split; [|split].
  - rewrite LI. rewrite <- (map_length Z.of_nat). apply rank_data_perm.
  - rewrite LI. rewrite (Permutation_length KP). destruct public as [|d t] eqn:EP; [|rewrite (EK d); apply map_length].
    unfold K. rewrite <- L. reflexivity.
  - intros k d Hk. rewrite LI in Hk. assert (HR := rank_sorted_nth KS KP Hk).
    assert (RB : nth k (rank_data (map Z.of_nat (take_mask p mask))) 0 < length K).
    { rewrite <- (Permutation_length KP). rewrite <- (map_length Z.of_nat). apply (is_perm_nth_lt (rank_data_perm _)). rewrite map_length. exact Hk. }
    rewrite (EK d). rewrite nth_map_lt with (d := 0) by exact RB. rewrite HR.
    (* position of the k-th kept element *)
    assert (X : nth k (take_mask internal mask) d = nth (nth k (take_mask p mask) 0) public d).
    { assert (EI : internal = map (fun i => nth i public d) p).
      { apply list_eq_nth with (d := d); [rewrite map_length; congruence|]. intros i Hi. rewrite nth_map_lt with (d := 0) by lia. symmetry. apply H. exact Hi. }
      rewrite EI, take_mask_map. rewrite nth_map_lt with (d := 0) by exact Hk. reflexivity. }
    rewrite X. reflexivity.
Qed.

(** * slice_sectors *)
Lemma count_kept_spec d : 0 < d -> forall n mask k, length mask = n * d -> count_kept n d mask = Some k -> k = trues mask /\ k mod d = 0.
Proof.
  intros Hd. induction n as [|n IH]; intros mask k L H; cbn in H.
  - injection H as <-. destruct mask; [|discriminate]. split; [reflexivity | apply Nat.mod_0_l; lia].
  - destruct (forallb (Bool.eqb (nth 0 mask false)) (firstn d mask)) eqn:F; [|discriminate].
    destruct (count_kept n d (skipn d mask)) as [k'|] eqn:C; [|discriminate]. injection H as <-.
    destruct (IH (skipn d mask) k') as [E1 E2]; [rewrite skipn_length, L; cbn; lia | exact C|].
    assert (LF : length (firstn d mask) = d) by (rewrite firstn_length, L; cbn; lia).
    assert (T : trues mask = (if nth 0 mask false then d else 0) + k').
    { rewrite <- (firstn_skipn d mask) at 1. rewrite trues_app, <- E1, (trues_const F), LF. reflexivity. }
    destruct (nth 0 mask false); split; try lia. rewrite Nat.add_mod, E2, Nat.mod_same by lia. cbn. apply Nat.mod_0_l. lia.
Qed.
Lemma slice_sectors_spec (S : symm) (dd : sector -> sector) : forall defs mults mask l,
  (forall s, In s defs -> 0 < sym_dim S (dd s)) -> length mults = length defs ->
  length mask = nsum (map (nstate S) (combine (map dd defs) mults)) ->
  slice_sectors S (map dd defs) defs mults mask = Some l ->
  map fst (states S (map dd (map fst l)) (map snd l)) = take_mask (map fst (states S (map dd defs) mults)) mask /\
  (forall s, In s (map fst l) -> In s defs) /\ (forall m, In m (map snd l) -> 0 < m) /\ (strictly_sorted defs -> strictly_sorted (map fst l)).
Proof.
  induction defs as [|t defs IH]; intros [|m mults] mask l HP L LM H; cbn in L; try discriminate.
  - cbn in H. injection H as <-. cbn. split; [reflexivity|]. split; [intros s []|]. split; [intros s []|]. auto.
  - cbn [map slice_sectors] in H. set (d := sym_dim S (dd t)) in *.
    assert (Hd : 0 < d) by (apply HP; left; reflexivity).
    change (length mask = nstate S (dd t, m) + nsum (map (nstate S) (combine (map dd defs) mults))) in LM.
    assert (LN : nstate S (dd t, m) = m * d) by (unfold nstate, d; cbn; lia). rewrite LN in LM.
    destruct (count_kept m d (firstn (m * d) mask)) as [kept|] eqn:C; [|discriminate].
    destruct (slice_sectors S (map dd defs) defs mults (skipn (m * d) mask)) as [r|] eqn:R; [|discriminate].
    assert (LFM : length (firstn (m * d) mask) = m * d) by (rewrite firstn_length; lia).
    destruct (@count_kept_spec d Hd m _ _ LFM C) as [K1 K2].
    destruct (IH mults (skipn (m * d) mask) r) as (I1 & I2 & I3 & I4); [intros; apply HP; right; assumption | lia | rewrite skipn_length; lia | exact R|].
    assert (EK : d * (kept / d) = kept) by (symmetry; apply (proj2 (Nat.div_exact kept d ltac:(lia)) K2)).
    assert (TM : take_mask (map fst (states S (map dd (t :: defs)) (m :: mults))) mask = repeat (dd t) kept ++ map fst (states S (map dd (map fst r)) (map snd r))).
    { rewrite I1. rewrite !states_labels. cbn [map combine flat_map]. rewrite map_app, map_fst_labels. cbn [fst]. rewrite LN.
      rewrite <- (firstn_skipn (m * d) mask) at 1. rewrite take_mask_app by (rewrite repeat_length, firstn_length; lia). f_equal.
      rewrite K1. rewrite <- take_mask_repeat. f_equal. f_equal. rewrite firstn_length. lia. }
    destruct (Nat.ltb_spec 0 (kept / d)) as [HK|HK]; injection H as <-.
    + split; [|split; [|split]].
      * rewrite TM. cbn [map fst snd]. rewrite !states_labels. cbn [combine flat_map]. rewrite map_app, map_fst_labels. unfold nstate at 1. cbn [fst snd]. fold d. rewrite EK. reflexivity.
      * cbn. intros s [ <- |Hs]; [left; reflexivity | right; apply I2; exact Hs].
      * cbn. intros s [ <- |Hs]; [exact HK | apply I3; exact Hs].
      * intros HS. unfold strictly_sorted in *. inversion HS as [|? ? HS1 HS2]; subst. cbn. constructor; [apply I4; exact HS1|].
        apply Forall_forall. intros s Hs. rewrite Forall_forall in HS2. apply HS2, I2, Hs.
    + assert (kept = 0) by nia. rewrite TM. rewrite H. cbn [repeat app]. split; [reflexivity|]. split; [intros; right; apply I2; assumption|]. split; [exact I3|].
      intros HS. apply I4. unfold strictly_sorted in *. inversion HS; assumption.
Qed.

Section Slice.
  Variable S : symm.
  Hypothesis SO : symm_ok S.
  Variable E : espace.
  Hypothesis OK : es_ok S E.
  Variable pm : list bool.
  Variable E' : espace.
  Hypothesis HT : take_slice S E pm = Some E'.
  Let dd s := if es_dual E then sym_dual S s else s.
  Lemma ts_decomp l : (if es_dual E then dual_sectors S l else l) = map dd l.
  Proof. unfold dd. destruct (es_dual E); [reflexivity | symmetry; apply map_id]. Qed.
  Lemma ts_data : s_drop S = true /\ length pm = es_dim S E /\ es_dual E' = es_dual E /\
    es_perm E' = Some (rank_data (map Z.of_nat (take_mask (basis_perm S E) (take false pm (basis_perm S E))))) /\
    map fst (states S (es_decomp S E') (es_mults E')) = take_mask (map fst (states S (es_decomp S E) (es_mults E))) (take false pm (basis_perm S E)) /\
    (forall s, In s (es_def E') -> In s (es_def E)) /\ (forall m, In m (es_mults E') -> 0 < m) /\ strictly_sorted (es_def E') /\ length (es_mults E') = length (es_def E').
  Proof.
    assert (H := HT). unfold take_slice in H. destruct (s_drop S) eqn:HD; [|discriminate]. cbn [negb] in H.
    destruct (Nat.eqb_spec (length pm) (es_dim S E)) as [LE|LE]; [|discriminate]. cbn [negb] in H. cbv zeta in H.
    destruct (slice_sectors _ _ _ _ _) as [l|] eqn:SL; [|discriminate]. injection H as H.
    assert (DE : es_decomp S E = map dd (es_def E)) by (unfold es_decomp, es_space; cbn [sp_secs]; apply ts_decomp).
    rewrite DE in SL.
    destruct (fun a b c => @slice_sectors_spec S dd _ _ _ _ a b c SL) as (R1 & R2 & R3 & R4).
    - intros s Hs. apply (so_dim_pos SO). unfold dd. destruct (es_dual E); [apply (so_dual_valid SO)|]; apply (ok_valid OK); exact Hs.
    - apply (ok_len OK).
    - rewrite take_length. rewrite (is_perm_length (ok_bperm OK)). rewrite <- (ok_states OK). rewrite DE. rewrite states_labels, length_flat_map. f_equal. apply map_ext. intros; apply labels_length.
    - rewrite DE. rewrite <- H. unfold es_decomp, es_space. cbn [es_def es_mults es_dual es_perm sp_secs].
      split; [reflexivity|]. split; [exact LE|]. split; [reflexivity|]. split; [reflexivity|].
      split; [rewrite ts_decomp; exact R1|]. split; [exact R2|]. split; [exact R3|]. split; [apply R4, (ok_sorted OK) | rewrite !map_length; reflexivity].
  Qed.
  Lemma ts_arranged_fst : arranged (rank_data (map Z.of_nat (take_mask (basis_perm S E) (take false pm (basis_perm S E)))))
      (map fst (states S (es_decomp S E') (es_mults E'))) (take_mask (sectors_of_basis S E) pm).
  Proof.
    destruct ts_data as (HD & LP & _ & _ & ST & _). rewrite ST. rewrite (sectors_of_basis_public OK). apply arranged_mask.
    - apply arranged_map, (ok_public OK).
    - rewrite map_length, (ok_public_len OK). exact LP.
  Qed.
  Lemma ts_ok : es_ok S E'.
  Proof.
    destruct ts_data as (HD & LP & DU & PE & ST & I1 & I2 & I3 & I4). constructor.
    - intros s Hs. apply (ok_valid OK), I1, Hs.
    - exact I3.
    - exact I4.
    - exact I2.
    - intros p Ep. split; [exact HD|]. rewrite PE in Ep. injection Ep as <-. destruct ts_arranged_fst as (P & _). rewrite map_length in P.
      rewrite es_dim_states by exact I4. exact P.
  Qed.
  Lemma ts_sectors : sectors_of_basis S E' = take_mask (sectors_of_basis S E) pm.
  Proof.
    destruct ts_data as (HD & LP & DU & PE & _). rewrite (sectors_of_basis_public ts_ok).
    apply (arranged_unique (arranged_map fst (ok_public ts_ok))). unfold basis_perm at 1. rewrite PE. apply ts_arranged_fst.
  Qed.
  (** the internal projection is the plain mask public_mask[basis_perm]: it keeps the internal order *)
  Lemma ts_internal : let mask := take false pm (basis_perm S E) in
    length (basis_perm S E') = length (take_mask (basis_perm S E) mask) /\
    forall k, k < length (basis_perm S E') ->
      (* kept internal state k of the result is the k-th kept internal state of E: their public positions agree *)
      nth (nth k (basis_perm S E') 0) (filter (fun i => nth i pm false) (seq 0 (length pm))) 0 = nth k (take_mask (basis_perm S E) mask) 0.
  Proof.
    destruct ts_data as (HD & LP & DU & PE & _). intros mask. unfold basis_perm at 1 3 4. rewrite PE. fold mask.
    assert (LL : length (rank_data (map Z.of_nat (take_mask (basis_perm S E) mask))) = length (take_mask (basis_perm S E) mask)).
    { rewrite (is_perm_length (rank_data_perm _)), map_length. reflexivity. }
    split; [exact LL|]. intros k Hk. rewrite LL in Hk. apply rank_sorted_nth.
    - apply StronglySorted_filter, StronglySorted_seq.
    - unfold mask, take. rewrite take_mask_filter. apply Permutation_filter'. rewrite LP. apply (ok_bperm OK).
    - exact Hk.
  Qed.
  (** if every sector is one dimensional, the labelled basis states are selected *)
  Lemma ts_public : (forall s, In s (es_decomp S E) -> sym_dim S s = 1) -> public_states S E' = take_mask (public_states S E) pm.
  Proof.
    intros D1. destruct ts_data as (HD & LP & DU & PE & ST & I1 & I2 & I3 & I4).
    assert (Z0 : forall secs mults, (forall s, In s secs -> sym_dim S s = 1) -> states S secs mults = map (fun s => (s, 0)) (map fst (states S secs mults))).
    { intros secs mults H1. unfold states. rewrite flat_map_map_out, flat_map_map_out. apply flat_map_ext_in. intros [s m] Hp. cbn [fst snd].
      rewrite H1 by (apply in_combine_l in Hp; exact Hp). cbn. rewrite app_nil_r, !map_repeat'. reflexivity. }
    assert (D1' : forall s, In s (es_decomp S E') -> sym_dim S s = 1).
    { intros s Hs. apply D1. unfold es_decomp, es_space in *. cbn [sp_secs] in *. rewrite DU in Hs. destruct (es_dual E); [|apply I1; exact Hs].
      apply in_map_iff in Hs as (x & <- & Hx). apply in_map, I1, Hx. }
    apply (arranged_unique (ok_public ts_ok)). unfold basis_perm. rewrite PE. fold (basis_perm S E).
    rewrite (Z0 _ _ D1'), ST.
    replace (map (fun s => (s, 0)) (take_mask (map fst (states S (es_decomp S E) (es_mults E))) (take false pm (basis_perm S E))))
      with (take_mask (states S (es_decomp S E) (es_mults E)) (take false pm (basis_perm S E))).
    - apply arranged_mask; [apply (ok_public OK)|]. rewrite (ok_public_len OK). exact LP.
    - rewrite (Z0 _ _ D1) at 1. rewrite take_mask_map. reflexivity.
  Qed.
End Slice.
