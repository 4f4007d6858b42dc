From Verif Require Import Util StableSort RowModel RowProofs GridModel GridProofs SymModel SpaceModel SpaceSpec SpaceProofs SpaceProofs2.
Set Implicit Arguments. Unset Strict Implicit.
Open Scope nat_scope.

(** * arranged *)
Lemma arranged_seq A (l : list A) : arranged (seq 0 (length l)) l l.
Proof. split; [apply Permutation_refl|]. split; [reflexivity|]. intros k d Hk. rewrite seq_nth by exact Hk. reflexivity. Qed.
Lemma arranged_app A p1 p2 (i1 i2 pub1 pub2 : list A) : arranged p1 i1 pub1 -> arranged p2 i2 pub2 ->
  arranged (p1 ++ map (fun i => i + length i1) p2) (i1 ++ i2) (pub1 ++ pub2).
Proof.
  intros (P1 & L1 & H1) (P2 & L2 & H2). split; [|split].
  - unfold is_perm in *. rewrite app_length, seq_app. apply Permutation_app; [exact P1|].
    rewrite (Permutation_map (fun i => i + length i1) P2). cbn [Nat.add].
    replace (map (fun i => i + length i1) (seq 0 (length i2))) with (seq (length i1) (length i2)); [reflexivity|].
    generalize (length i2). intros n. rewrite <- (Nat.add_0_r (length i1)) at 1. generalize 0. induction n as [|n IH]; intros s; cbn; [reflexivity|]. rewrite <- Nat.add_succ_r, IH. f_equal. lia.
  - rewrite !app_length. lia.
  - intros k d Hk. rewrite app_length in Hk. assert (LP1 := is_perm_length P1). destruct (Nat.lt_ge_cases k (length i1)) as [C|C].
    + rewrite (app_nth1 p1) by lia. rewrite (app_nth1 i1) by lia. rewrite app_nth1; [apply H1; exact C|]. rewrite L1. apply (is_perm_nth_lt P1). exact C.
    + rewrite (app_nth2 p1) by lia. rewrite (app_nth2 i1) by lia. rewrite LP1.
      assert (LP2 := is_perm_length P2). rewrite nth_map_lt with (d := 0) by lia. rewrite app_nth2 by lia. rewrite <- L1, Nat.add_sub. rewrite L1. apply H2. lia.
Qed.
Lemma arranged_map A B (f : A -> B) p i pub : arranged p i pub -> arranged p (map f i) (map f pub).
Proof.
  intros (P & L & H). split; [rewrite map_length; exact P|]. split; [rewrite !map_length; exact L|]. intros k d Hk. rewrite map_length in Hk.
  destruct i as [|a t] eqn:EI; [cbn in Hk; lia|]. rewrite <- EI in *.
  rewrite !nth_map_lt with (d := a); try exact Hk; [f_equal; apply H; exact Hk|]. rewrite L. apply (is_perm_nth_lt P). exact Hk.
Qed.

(** * the public basis of any space *)
Section One.
  Variable S : symm.
  Hypothesis SO : symm_ok S.
  Variable E : espace.
  Hypothesis OK : es_ok S E.
  Let n := es_dim S E.
  Lemma ok_decomp_len : length (es_decomp S E) = length (es_def E).
  Proof. unfold es_decomp, es_space. cbn. destruct (es_dual E); [apply map_length | reflexivity]. Qed.
  Lemma ok_decomp_valid s : In s (es_decomp S E) -> sym_valid S s = true.
  Proof.
    unfold es_decomp, es_space. cbn. destruct (es_dual E); [|apply (ok_valid OK)]. intros H. apply in_map_iff in H as (x & <- & Hx). apply (so_dual_valid SO), (ok_valid OK), Hx.
  Qed.
  Lemma ok_states : length (states S (es_decomp S E) (es_mults E)) = n.
  Proof. unfold n. rewrite es_dim_states; [reflexivity | apply (ok_len OK)]. Qed.
  Lemma ok_bperm : is_perm n (basis_perm S E).
  Proof. unfold basis_perm. destruct (es_perm E) as [p|] eqn:EP; [apply (ok_perm OK EP) | apply Permutation_refl]. Qed.
  Lemma ok_public : arranged (basis_perm S E) (states S (es_decomp S E) (es_mults E)) (public_states S E).
  Proof. apply arranged_take. rewrite ok_states. apply ok_bperm. Qed.
  Lemma ok_public_len : length (public_states S E) = n.
  Proof. destruct ok_public as (_ & L & _). rewrite L. apply ok_states. Qed.
  Lemma inv_bperm : inverse_basis_perm S E = inverse_permutation (basis_perm S E).
  Proof.
    unfold inverse_basis_perm, basis_perm. destruct (es_perm E); [reflexivity|]. fold n. symmetry. apply list_eq_nth with (d := 0).
    - rewrite inverse_permutation_length. reflexivity.
    - intros i Hi. rewrite inverse_permutation_length, seq_length in Hi. rewrite seq_nth by exact Hi. cbn.
      assert (P : is_perm n (seq 0 n)) by apply Permutation_refl. pose proof (inverse_permutation_l P Hi) as Q. rewrite seq_nth in Q by exact Hi. exact Q.
  Qed.
  Lemma map_fst_labels p : map fst (labels S p) = repeat (fst p) (nstate S p).
  Proof.
    unfold labels. rewrite flat_map_map_out. unfold nstate. generalize 0. induction (sym_dim S (fst p)) as [|d IH]; intros s; cbn; [reflexivity|].
    rewrite IH, map_repeat', repeat_app. reflexivity.
  Qed.
  Lemma internal_states V : length (sp_mults V) = length (sp_secs V) -> internal_sectors S V = map fst (states S (sp_secs V) (sp_mults V)).
  Proof.
    intros L. unfold internal_sectors. rewrite states_labels, flat_map_map_out.
    rewrite (@flat_map_ext_in _ _ _ (fun p => repeat (fst p) (nstate S p)) (combine (sp_secs V) (sp_mults V))) by (intros; apply map_fst_labels).
    rewrite <- (flat_map_seq_nth (fun p => repeat (fst p) (nstate S p)) ([], 0)). rewrite combine_length, L, Nat.min_id.
    apply flat_map_ext_in. intros i Hi. apply in_seq in Hi. unfold sp_slices. cbv zeta. rewrite nth_map_lt with (d := 0) by (rewrite seq_length; lia).
    rewrite seq_nth by lia. cbn [Nat.add]. rewrite combine_nth by lia. cbn [fst]. f_equal. rewrite Nat.add_1_r.
    rewrite !boundaries_nth by (rewrite num_states_length; lia). rewrite nsum_firstn_S by (rewrite num_states_length; lia).
    rewrite num_states_eq by exact L. rewrite nth_map_lt with (d := ([], 0)) by (rewrite combine_length; lia). rewrite combine_nth by lia. lia.
  Qed.
  Lemma sectors_of_basis_public : sectors_of_basis S E = map fst (public_states S E).
  Proof.
    assert (L : length (sp_mults (es_space S E)) = length (sp_secs (es_space S E))).
    { change (length (es_mults E) = length (es_decomp S E)). rewrite ok_decomp_len. apply (ok_len OK). }
    pose proof (arranged_map fst ok_public) as A. apply (arranged_unique (p := basis_perm S E) (internal := map fst (states S (es_decomp S E) (es_mults E)))); [|exact A].
    unfold sectors_of_basis. rewrite internal_states by exact L. change (sp_secs (es_space S E)) with (es_decomp S E). change (sp_mults (es_space S E)) with (es_mults E).
    unfold basis_perm. destruct (es_perm E) as [p|] eqn:EP.
    - apply arranged_take. rewrite map_length, ok_states. apply (ok_perm OK EP).
    - fold n. rewrite <- ok_states, <- (map_length fst). apply arranged_seq.
  Qed.
End One.

(** * multiplicities under relabelling *)
Definition psum (P : sector -> bool) (secs : list sector) (mults : list nat) : nat := nsum (map snd (filter (fun p => P (fst p)) (combine secs mults))).
Lemma psum_groups P (g : list (sector * list nat)) :
  psum P (map fst g) (map (fun q => nsum (snd q)) g) = nsum (map snd (filter (fun p => P (fst p)) (ungroup g))).
Proof.
  unfold psum, ungroup. induction g as [|[k xs] g IH]; [reflexivity|]. cbn [map combine filter fst snd flat_map].
  rewrite filter_app, map_app, nsum_app, <- IH.
  assert (F : map snd (filter (fun p : sector * nat => P (fst p)) (map (fun x => (k, x)) xs)) = if P k then xs else []).
  { clear. induction xs as [|x xs IH]; cbn; [destruct (P k); reflexivity|]. destruct (P k); cbn; rewrite IH; reflexivity. }
  rewrite F. destruct (P k); reflexivity.
Qed.
Lemma psum_fds P (S : symm) sectors mults dual perm u : length mults = length sectors -> let E := from_defining_sectors S sectors mults dual perm u in
  psum P (es_def E) (es_mults E) = psum P sectors mults.
Proof.
  intros L E. unfold E. destruct u.
  - cbn [from_defining_sectors]. unfold from_defining_sectors, sort_sectors, sorted. cbn [es_def es_mults]. unfold psum. apply nsum_perm, Permutation_map, Permutation_filter'. apply (@fds_comb sectors mults L).
  - rewrite fds_eq by exact L. cbn [es_def es_mults]. rewrite psum_groups, (groups_ungroup row_eqb_eq). apply nsum_perm, Permutation_map, Permutation_filter', (@fds_comb sectors mults L).
Qed.
Lemma mult_of_map (f : sector -> sector) secs mults s : mult_of (map f secs) mults s = psum (fun x => row_eqb (f x) s) secs mults.
Proof.
  unfold mult_of, psum. revert mults. induction secs as [|x secs IH]; intros [|m mults]; cbn [map combine filter]; try reflexivity. cbn [fst]. destruct (row_eqb (f x) s); cbn; rewrite IH; reflexivity.
Qed.
Lemma fds_es_mult (S : symm) sectors mults dual perm u s : length mults = length sectors ->
  es_mult S (from_defining_sectors S sectors mults dual perm u) s = mult_of (if dual then dual_sectors S sectors else sectors) mults s.
Proof.
  intros L. unfold es_mult, es_decomp, es_space. cbn [sp_secs]. rewrite fds_dual. destruct dual.
  - unfold dual_sectors. rewrite !mult_of_map. apply psum_fds. exact L.
  - apply (psum_fds (fun x => row_eqb x s)). exact L.
Qed.
Lemma mult_of_app a m b k s : length m = length a -> mult_of (a ++ b) (m ++ k) s = mult_of a m s + mult_of b k s.
Proof. intros L. unfold mult_of. rewrite combine_app' by lia. rewrite filter_app, map_app, nsum_app. reflexivity. Qed.
Lemma states_app S a m b k : length m = length a -> states S (a ++ b) (m ++ k) = states S a m ++ states S b k.
Proof. intros L. unfold states. rewrite combine_app' by lia. apply flat_map_app. Qed.

(** * direct sum *)
Section Direct.
  Variable S : symm.
  Hypothesis SO : symm_ok S.
  Variable E : espace.
  Variable others : list espace.
  Hypothesis OKE : es_ok S E.
  Hypothesis OKO : forall o, In o others -> es_ok S o.
  Hypothesis DU : forall o, In o others -> es_dual o = es_dual E.
  Let dual := es_dual E.
  Let dd l := if dual then dual_sectors S l else l.
  Lemma dd_app a b : dd (a ++ b) = dd a ++ dd b.
  Proof. unfold dd. destruct dual; [apply map_app | reflexivity]. Qed.
  Lemma dd_decomp o : es_dual o = es_dual E -> es_decomp S o = dd (es_def o).
  Proof. intros H. unfold es_decomp, es_space, dd, dual. cbn [sp_secs]. rewrite H. reflexivity. Qed.

  Let secs := fold_left (fun l o => l ++ es_def o) others (es_def E).
  Let ms := fold_left (fun l o => l ++ es_mults o) others (es_mults E).
  Let pf := fold_left (fun '(perm, off) o => (perm ++ map (fun i => i + off) (basis_perm S o), off + es_dim S o)) others (basis_perm S E, es_dim S E).

  Lemma ds_fold : forall l secs0 ms0 perm0 pub0,
    (forall o, In o l -> es_ok S o) -> (forall o, In o l -> es_dual o = es_dual E) ->
    length ms0 = length secs0 -> (forall s, In s secs0 -> sym_valid S s = true) -> (forall m, In m ms0 -> 0 < m) ->
    arranged perm0 (states S (dd secs0) ms0) pub0 ->
    let secs' := fold_left (fun l o => l ++ es_def o) l secs0 in
    let ms' := fold_left (fun l o => l ++ es_mults o) l ms0 in
    let pf' := fold_left (fun '(perm, off) o => (perm ++ map (fun i => i + off) (basis_perm S o), off + es_dim S o)) l (perm0, length (states S (dd secs0) ms0)) in
    length ms' = length secs' /\ (forall s, In s secs' -> sym_valid S s = true) /\ (forall m, In m ms' -> 0 < m) /\
    arranged (fst pf') (states S (dd secs') ms') (pub0 ++ flat_map (public_states S) l) /\
    (forall s, mult_of (dd secs') ms' s = mult_of (dd secs0) ms0 s + nsum (map (fun o => es_mult S o s) l)).
  Proof.
    induction l as [|o l IH]; intros secs0 ms0 perm0 pub0 HO HDu L V P A; cbn [fold_left flat_map map].
    - rewrite app_nil_r. split; [exact L|]. split; [exact V|]. split; [exact P|]. split; [exact A|]. intros s. cbn. lia.
    - assert (OKo : es_ok S o) by (apply HO; left; reflexivity). assert (Do : es_dual o = es_dual E) by (apply HDu; left; reflexivity).
      assert (Ldd : forall l, length (dd l) = length l) by (intros; unfold dd; destruct dual; [apply map_length | reflexivity]).
      assert (ES : states S (dd (secs0 ++ es_def o)) (ms0 ++ es_mults o) = states S (dd secs0) ms0 ++ states S (es_decomp S o) (es_mults o)).
      { rewrite dd_app, states_app by (rewrite Ldd; exact L). rewrite <- dd_decomp by exact Do. reflexivity. }
      assert (EL : length (states S (dd secs0) ms0) + es_dim S o = length (states S (dd (secs0 ++ es_def o)) (ms0 ++ es_mults o))).
      { rewrite ES, app_length, (ok_states OKo). reflexivity. }
      rewrite EL.
      destruct (IH (secs0 ++ es_def o) (ms0 ++ es_mults o) (perm0 ++ map (fun i => i + length (states S (dd secs0) ms0)) (basis_perm S o)) (pub0 ++ public_states S o))
        as (R1 & R2 & R3 & R4 & R5).
      + intros; apply HO; right; assumption.
      + intros; apply HDu; right; assumption.
      + rewrite !app_length. rewrite (ok_len OKo). lia.
      + intros s H. apply in_app_or in H as [H|H]; [apply V; exact H | apply (ok_valid OKo); exact H].
      + intros m H. apply in_app_or in H as [H|H]; [apply P; exact H | apply (ok_pos OKo); exact H].
      + rewrite ES. apply arranged_app; [exact A | apply (ok_public OKo)].
      + split; [exact R1|]. split; [exact R2|]. split; [exact R3|]. split; [rewrite app_assoc; exact R4|].
        intros s. rewrite R5. rewrite dd_app, mult_of_app by (rewrite Ldd; exact L). change (nsum (es_mult S o s :: ?r)) with (es_mult S o s + nsum r).
        unfold es_mult. rewrite dd_decomp by exact Do. lia.
  Qed.
  Lemma ds_all : length ms = length secs /\ (forall s, In s secs -> sym_valid S s = true) /\ (forall m, In m ms -> 0 < m) /\
    arranged (fst pf) (states S (dd secs) ms) (public_states S E ++ flat_map (public_states S) others) /\
    (forall s, mult_of (dd secs) ms s = es_mult S E s + nsum (map (fun o => es_mult S o s) others)).
  Proof.
    assert (A := ok_public OKE). rewrite dd_decomp in A by reflexivity.
    pose proof (@ds_fold others (es_def E) (es_mults E) (basis_perm S E) (public_states S E) OKO DU (ok_len OKE) (ok_valid OKE) (ok_pos OKE) A) as H.
    cbv zeta in H. rewrite <- dd_decomp in H by reflexivity. rewrite (ok_states OKE) in H. exact H.
  Qed.
  Lemma direct_sum_eq : others = [] \/
    direct_sum S E others = from_defining_sectors S secs ms (es_dual E) (if s_drop S then Some (fst pf) else None) false.
  Proof. unfold secs, ms, pf, direct_sum. destruct others; [left; reflexivity | right; reflexivity]. Qed.
  Lemma direct_sum_dual : es_dual (direct_sum S E others) = es_dual E.
  Proof. unfold direct_sum. destruct others; [reflexivity | apply fds_dual]. Qed.
  Lemma direct_sum_mult s : es_mult S (direct_sum S E others) s = es_mult S E s + nsum (map (fun o => es_mult S o s) others).
  Proof.
    destruct ds_all as (L & V & P & A & M). destruct direct_sum_eq as [EO|EO]; [rewrite EO; cbn; lia|]. rewrite EO.
    rewrite fds_es_mult by exact L. fold dual. fold (dd secs). apply M.
  Qed.
  Lemma direct_sum_public : s_drop S = true -> public_states S (direct_sum S E others) = public_states S E ++ flat_map (public_states S) others.
  Proof.
    intros HD. destruct ds_all as (L & V & P & A & M). destruct direct_sum_eq as [EO|EO]; [rewrite EO; cbn; rewrite app_nil_r; reflexivity|]. rewrite EO, HD.
    assert (Q : is_perm (length (states S secs ms)) (fst pf)).
    { destruct A as (Q & _). unfold dd in Q. rewrite states_dual_length in Q by assumption. exact Q. }
    destruct (@fds_public S SO secs ms (es_dual E) (Some (fst pf)) false V L HD Q) as (_ & _ & _ & AR).
    apply (arranged_unique AR). exact A.
  Qed.
  Lemma direct_sum_ok : es_ok S (direct_sum S E others).
  Proof.
    destruct ds_all as (L & V & P & A & M). destruct direct_sum_eq as [EO|EO]; [rewrite EO; exact OKE|]. rewrite EO.
    apply fds_ok; try assumption; try discriminate.
    - intros HD. rewrite HD. destruct A as (Q & _). unfold dd in Q. rewrite states_dual_length in Q by assumption. exact Q.
    - intros HD. rewrite HD. reflexivity.
  Qed.
End Direct.

(** * opposite duality *)
Section Opposite.
  Variable S : symm.
  Hypothesis SO : symm_ok S.
  Variable E : espace.
  Hypothesis OK : es_ok S E.
  Let D := if es_dual E then es_decomp S E else dual_sectors S (es_def E).
  Lemma opp_D : D = dual_sectors S (es_def E).
  Proof. unfold D, es_decomp, es_space. cbn [sp_secs]. destruct (es_dual E); reflexivity. Qed.
  Lemma opp_D_valid s : In s D -> sym_valid S s = true.
  Proof. rewrite opp_D. intros H. apply in_map_iff in H as (x & <- & Hx). apply (so_dual_valid SO), (ok_valid OK), Hx. Qed.
  Lemma opp_D_len : length (es_mults E) = length D.
  Proof. rewrite opp_D. unfold dual_sectors. rewrite map_length. apply (ok_len OK). Qed.
  Lemma opp_D_dual : (if negb (es_dual E) then dual_sectors S D else D) = es_decomp S E.
  Proof.
    rewrite opp_D. unfold es_decomp, es_space. cbn [sp_secs]. destruct (es_dual E); cbn [negb]; [reflexivity|].
    unfold dual_sectors. rewrite map_map. rewrite <- map_id. apply map_ext_in. intros s Hs. apply (so_dual_invol SO), (ok_valid OK), Hs.
  Qed.
  Lemma strictly_sorted_NoDup l : strictly_sorted l -> NoDup l.
  Proof.
    unfold strictly_sorted. induction 1 as [|x l H IH F]; [constructor|]. constructor; [|exact IH]. intros Hin. rewrite Forall_forall in F.
    specialize (F x Hin). exact (lex_lt_irrefl F).
  Qed.
  Lemma opp_D_NoDup : NoDup D.
  Proof.
    rewrite opp_D. apply NoDup_map_inj; [|apply strictly_sorted_NoDup, (ok_sorted OK)].
    intros a b Ha Hb H. rewrite <- (so_dual_invol SO (ok_valid OK Ha)), <- (so_dual_invol SO (ok_valid OK Hb)). congruence.
  Qed.
  Lemma opp_dual : es_dual (with_opposite_duality S E) = negb (es_dual E).
  Proof. apply fds_dual. Qed.
  Lemma opp_mult s : es_mult S (with_opposite_duality S E) s = es_mult S E s.
  Proof. unfold with_opposite_duality. fold D. rewrite fds_es_mult by apply opp_D_len. rewrite opp_D_dual. reflexivity. Qed.
  Lemma opp_states_len : length (states S D (es_mults E)) = es_dim S E.
  Proof. rewrite <- (@states_dual_length S (negb (es_dual E)) D (es_mults E) SO opp_D_valid). rewrite opp_D_dual. apply (ok_states OK). Qed.
  Lemma opp_perm : is_perm (length (states S D (es_mults E))) (match es_perm E with None => seq 0 (length (states S D (es_mults E))) | Some p => p end).
  Proof.
    rewrite opp_states_len. apply (ok_bperm OK).
  Qed.
  Lemma opp_public : s_drop S = true -> public_states S (with_opposite_duality S E) = public_states S E.
  Proof.
    intros HD. destruct (@fds_public S SO D (es_mults E) (negb (es_dual E)) (es_perm E) true opp_D_valid opp_D_len HD opp_perm) as (_ & _ & _ & AR).
    rewrite opp_D_dual in AR. apply (arranged_unique AR). pose proof (ok_public OK) as A. unfold basis_perm in A. rewrite <- opp_states_len in A. exact A.
  Qed.
  Lemma opp_ok : es_ok S (with_opposite_duality S E).
  Proof.
    unfold with_opposite_duality. fold D. apply fds_ok; [exact SO | exact opp_D_valid | exact opp_D_len | apply (ok_pos OK) | intros; apply opp_D_NoDup | intros; apply opp_perm |].
    intros HD. destruct (es_perm E) as [p|] eqn:EP; [|reflexivity]. destruct (ok_perm OK EP). congruence.
  Qed.
End Opposite.
