(** Entries of a block-sparse tensor; the dense array; sorted data. *)
From Coq Require Import Ring.
From Verif Require Import Util StableSort RowModel RowProofs GridModel GridProofs SymModel SymProofs CatSpec Sums SpaceModel SpaceSpec SpaceProofs SpaceProofs2 SpaceProofs3
  PipeModel PipeProofs PipeProofs2 PipeProofs4 BlockModel BlockProofs SparseModel SparseSpec.
Set Implicit Arguments. Unset Strict Implicit.
Open Scope nat_scope.

Lemma zrow_inj r r' : map Z.of_nat r = map Z.of_nat r' -> r = r'.
Proof. intros H. apply (f_equal (map Z.to_nat)) in H. rewrite !map_map in H. rewrite !(map_ext _ (fun x => x) Nat2Z.id), !map_id in H. exact H. Qed.
Lemma zrows_In r rs : In (map Z.of_nat r) (zrows rs) <-> In r rs.
Proof.
  unfold zrows. rewrite in_map_iff. split; [intros (x & E & H); apply zrow_inj in E; now subst|intros H; exists r; auto].
Qed.
Lemma zrows_nth rs i : nth i (zrows rs) [] = map Z.of_nat (nth i rs []).
Proof. unfold zrows. change (@nil Z) with (map Z.of_nat []). apply map_nth. Qed.
Lemma zrows_length rs : length (zrows rs) = length rs.
Proof. apply map_length. Qed.
Lemma zrows_NoDup rs : NoDup (zrows rs) <-> NoDup rs.
Proof.
  unfold zrows. split; [apply NoDup_map_inv|]. intros H. apply NoDup_map_inj; auto. intros x y _ _. apply zrow_inj.
Qed.
Lemma sorted_NoDup rs : strictly_sorted (zrows rs) -> NoDup rs.
Proof. intros H. apply zrows_NoDup. eapply StronglySorted_NoDup; [|exact H]. intros x. apply lex_lt_irrefl. Qed.
Lemma zrows_take rs p : Forall (fun i => i < length rs) p -> zrows (take [] rs p) = take [] (zrows rs) p.
Proof. intros _. unfold zrows, take. rewrite map_map. apply map_ext. intros i. symmetry. apply zrows_nth. Qed.

Section Data.
  Variable K : Type.
  Variable o : ops K.
  Hypothesis SR : semi_ring_theory (o0 o) (o1 o) (oadd o) (omul o) (@eq K).
  Add Ring Kring : SR.
  Notation block := (blk K).
  Notation adata := (list (list nat * blk K)).
  Implicit Types D : adata.

  Definition row_dec : forall x y : list nat, {x = y} + {x <> y} := list_eq_dec Nat.eq_dec.
  (** entry [q] of block [b] *)
  Fixpoint sval D (b q : list nat) : K :=
    match D with
    | [] => o0 o
    | e :: D' => if row_dec (fst e) b then bat o (snd e) q else sval D' b q
    end.
  Lemma sval_notin D b q : ~ In b (map fst D) -> sval D b q = o0 o.
  Proof. induction D as [|e D IH]; auto. cbn [map sval]. intros H. destruct (row_dec (fst e) b) as [E|E]; [exfalso; apply H; left; auto|]. apply IH. intros H'. apply H. now right. Qed.
  Lemma sval_in D b B q : NoDup (map fst D) -> In (b, B) D -> sval D b q = bat o B q.
  Proof.
    induction D as [|e D IH]; intros ND H; [contradiction|]. cbn [map sval] in *. inversion ND as [|? ? NI ND']; subst.
    destruct H as [->|H]; cbn [fst snd].
    - destruct (row_dec b b); congruence.
    - destruct (row_dec (fst e) b) as [E|E]; auto. exfalso. apply NI. rewrite E. change b with (fst (b, B)). now apply in_map.
  Qed.
  Lemma sval_in' D e q : NoDup (map fst D) -> In e D -> sval D (fst e) q = bat o (snd e) q.
  Proof. intros ND H. destruct e as [b B]. now apply sval_in. Qed.
  Lemma in_rows D b : In b (map fst D) -> exists B, In (b, B) D.
  Proof. rewrite in_map_iff. intros ([b' B] & E & H). cbn in E. subst. eauto. Qed.
  (** the value as a sum over all entries *)
  Lemma sval_sum D b q : NoDup (map fst D) -> sval D b q = osum o (map (fun e => if row_dec (fst e) b then bat o (snd e) q else o0 o) D).
  Proof.
    intros ND. destruct (in_dec row_dec b (map fst D)) as [H|H].
    - destruct (in_rows H) as [B HB]. rewrite (sval_in q ND HB). symmetry.
      etransitivity; [apply (sum_single SR (f := fun e => if row_dec (fst e) b then bat o (snd e) q else o0 o) (x := (b, B)))|].
      + now apply NoDup_map_inv in ND.
      + exact HB.
      + intros [b' B'] H' NE. cbn [fst snd]. destruct (row_dec b' b) as [->|]; auto. exfalso. apply NE. f_equal.
        revert HB H'. clear - ND. induction D as [|e D IH]; cbn; [tauto|]. cbn in ND. inversion ND as [|? ? NI ND']; subst. intros [->|H1] [E|H2].
        * congruence.
        * exfalso. apply NI. cbn. change b with (fst (b, B')). now apply in_map.
        * subst e. exfalso. apply NI. cbn. change b with (fst (b, B)). now apply in_map.
        * auto.
      + cbn [fst snd]. destruct (row_dec b b); congruence.
    - rewrite sval_notin by auto. symmetry. apply (sum_zero SR). intros e He. destruct (row_dec (fst e) b) as [<-|]; auto. exfalso. apply H. now apply in_map.
  Qed.
  Lemma sval_perm D D' b q : NoDup (map fst D) -> Permutation D D' -> sval D b q = sval D' b q.
  Proof.
    intros ND P. rewrite !sval_sum; auto.
    - apply (sum_perm SR). now apply Permutation_map.
    - apply (Permutation_NoDup (l := map fst D)); auto. now apply Permutation_map.
  Qed.

  (** ** sorting *)
  Lemma make_data_perm D s : Permutation (make_data D s) D.
  Proof.
    unfold make_data. destruct s; [reflexivity|]. apply take_Permutation. rewrite <- (map_length fst), <- zrows_length. apply lexsort_perm.
  Qed.
  Lemma make_data_In D s e : In e (make_data D s) <-> In e D.
  Proof. split; apply Permutation_in; [|symmetry]; apply make_data_perm. Qed.
  Lemma map_fst_take D p : map fst (take (noentry K) D p) = take [] (map fst D) p.
  Proof. unfold take. rewrite map_map. apply map_ext. intros i. change (@nil nat) with (fst (noentry K)). symmetry. apply map_nth. Qed.
  Lemma make_data_sorted D w : (forall e, In e D -> length (fst e) = w) -> NoDup (map fst D) -> strictly_sorted (zrows (map fst (make_data D false))).
  Proof.
    intros W ND. unfold make_data. rewrite map_fst_take.
    assert (W' : same_width w (zrows (map fst D))).
    { apply Forall_forall. intros r Hr. unfold zrows in Hr. rewrite map_map in Hr. apply in_map_iff in Hr. destruct Hr as (e & <- & He). rewrite map_length. auto. }
    assert (P := lexsort_perm (zrows (map fst D))).
    rewrite zrows_take by (rewrite <- zrows_length; exact (is_perm_Forall P)).
    assert (Q := sorted_weakly W'). cbn [sorted fst] in Q. unfold strictly_sorted, weakly_sorted in *.
    assert (N : NoDup (take [] (zrows (map fst D)) (lexsort_indices (zrows (map fst D))))).
    { eapply Permutation_NoDup; [symmetry; apply take_Permutation; exact P|]. now apply zrows_NoDup. }
    revert Q N. generalize (take [] (zrows (map fst D)) (lexsort_indices (zrows (map fst D)))). intros l Q N.
    induction Q as [|x l Q IH F]; constructor.
    - apply IH. now inversion N.
    - inversion N as [|? ? NI _]; subst. rewrite Forall_forall in *. intros y Hy. destruct (F y Hy) as [L| ->]; auto. contradiction.
  Qed.
  Lemma data_ok_NoDup legs D : data_ok legs D -> NoDup (map fst D).
  Proof. intros H. apply sorted_NoDup, (do_sorted H). Qed.
  Lemma data_ok_make legs D : NoDup (map fst D) -> (forall e, In e D -> valid_idx (map nsec legs) (fst e) /\ bshape (snd e) = shp (mults legs) (fst e) /\ bwf (snd e)) ->
    data_ok legs (make_data D false).
  Proof.
    intros ND H. constructor.
    - apply (make_data_sorted (w := length legs)); auto. intros e He. rewrite (valid_length (proj1 (H e He))). apply map_length.
    - intros e He. apply make_data_In in He. now apply H.
    - intros e He. apply make_data_In in He. now apply H.
    - intros e He. apply make_data_In in He. now apply H.
  Qed.
  Lemma do_wf legs D e : data_ok legs D -> In e D -> bwf (snd e).
  Proof. intros H He. exact (do_full H He). Qed.

  (** ** lookup *)
  Lemma get_block_spec D b : NoDup (map fst D) -> match get_block D b with Some B => In (b, B) D | None => ~ In b (map fst D) end.
  Proof.
    intros ND. unfold get_block. assert (H := row_where_spec (zrows (map fst D)) (map Z.of_nat b)).
    destruct (row_where _ _) as [i|].
    - destruct H as (Hi & E & _). rewrite zrows_length, map_length in Hi. rewrite zrows_nth in E. apply zrow_inj in E.
      assert (In (nth i D (noentry K)) D) by now apply nth_In. replace (b, snd (nth i D (noentry K))) with (nth i D (noentry K)); auto.
      rewrite <- E. change (@nil nat) with (fst (noentry K)). rewrite map_nth. apply surjective_pairing.
    - now rewrite zrows_In in H.
  Qed.

  (** ** the dense array *)
  Section Dense.
    Variable S : symm.
    Variable fuse : sector -> sector -> sector.
    Hypothesis G : abelian_group_laws S fuse.
    Variable legs : list espace.
    Hypothesis OK : forall L, In L legs -> es_ok S L.
    Lemma dims_eq : map (es_dim S) legs = map nsum (mults legs).
    Proof. unfold mults. rewrite map_map. apply map_ext_in. intros L HL. apply (p_dim_one G). auto. Qed.
    Lemma nsecs_eq : map nsec legs = map (@length nat) (mults legs).
    Proof. unfold mults. now rewrite map_map. Qed.
    Lemma slice_at L i : es_ok S L -> i < nsec L -> nth i (sp_slices S (es_space S L)) (0, 0) = (nsum (firstn i (es_mults L)), nsum (firstn i (es_mults L)) + nth i (es_mults L) 0).
    Proof.
      intros O H. unfold nsec in H. unfold sp_slices. assert (LL : length (es_mults L) = length (sp_secs (es_space S L))) by (rewrite (ok_len O); symmetry; apply ok_decomp_len).
      rewrite nth_map_lt with (d := 0) by (rewrite seq_length; lia). rewrite seq_nth by lia. cbn [Nat.add].
      replace (sp_mults (es_space S L)) with (es_mults L) by reflexivity. rewrite (num_states_one G) by exact LL. rewrite !boundaries_nth by lia.
      replace (i + 1) with (Datatypes.S i) by lia. now rewrite nsum_firstn_S.
    Qed.
  End Dense.
  Lemma row_box (S : symm) fuse (G : abelian_group_laws S fuse) legs : (forall L, In L legs -> es_ok S L) -> forall b b' q, valid_idx (map nsec legs) b -> valid_idx (map nsec legs) b' ->
    valid_idx (shp (mults legs) b) q ->
    (in_box (map fst (row_slices S legs b')) (map snd (row_slices S legs b')) (locs (mults legs) b q) <-> b = b') /\
    (b = b' -> map (fun p => snd p - fst p) (combine (map fst (row_slices S legs b')) (locs (mults legs) b q)) = q).
  Proof.
    induction legs as [|L legs IH]; intros OK b b' q V V' W.
    - inversion V; inversion V'; subst. cbn in W. inversion W; subst. cbn. split; [tauto|auto].
    - inversion V as [|i n r s Hi Hr]; inversion V' as [|i' n' r' s' Hi' Hr']; subst. cbn [mults map shp] in W. inversion W as [|x m q' t Hx Hq]; subst.
      assert (OL : es_ok S L) by (apply OK; now left).
      destruct (IH ltac:(intros; apply OK; now right) r r' q' Hr Hr' Hq) as [A B].
      unfold row_slices. cbn [combine map fst snd]. rewrite (slice_at G OL Hi'). cbn [fst snd mults map locs].
      fold (mults legs). fold (row_slices S legs r'). cbn [in_box combine map fst snd].
      assert (Q : nsum (firstn i' (es_mults L)) <= nsum (firstn i (es_mults L)) + x < nsum (firstn i' (es_mults L)) + nth i' (es_mults L) 0 <-> i = i').
      { split; [|intros ->; lia]. intros [H1 H2].
        assert (E := @loc_inj (es_mults L) i x i' (nsum (firstn i (es_mults L)) + x - nsum (firstn i' (es_mults L))) Hi Hx Hi').
        destruct E; lia. }
      split.
      + rewrite A, Q. split; [intros [-> ->]; reflexivity|intros E; injection E; auto].
      + intros E. assert (E1 : i = i') by congruence. assert (E2 : r = r') by congruence. rewrite (B E2). f_equal. subst. lia.
  Qed.
  Section Dense2.
    Variable S : symm.
    Variable fuse : sector -> sector -> sector.
    Hypothesis G : abelian_group_laws S fuse.
    Variable legs : list espace.
    Hypothesis OK : forall L, In L legs -> es_ok S L.
    Lemma set_slices_shape D : forall acc, bshape (fold_left (fun res e => let sl := row_slices S legs (fst e) in bset_slice o res (map fst sl) (map snd sl) (snd e)) D acc) = bshape acc.
    Proof. induction D as [|e D IH]; intros acc; cbn [fold_left]; auto. now rewrite IH. Qed.
    Lemma to_dense_shape D : bshape (to_dense o S legs D) = map (es_dim S) legs.
    Proof. unfold to_dense. now rewrite set_slices_shape. Qed.
    Lemma dense_at D b q : NoDup (map fst D) -> (forall e, In e D -> valid_idx (map nsec legs) (fst e)) ->
      valid_idx (map nsec legs) b -> valid_idx (shp (mults legs) b) q ->
      bat o (to_dense o S legs D) (locs (mults legs) b q) = sval D b q.
    Proof.
      intros ND H V W. unfold to_dense.
      assert (VL : valid_idx (map (es_dim S) legs) (locs (mults legs) b q)).
      { rewrite (dims_eq G OK). apply locs_valid; auto. now rewrite <- nsecs_eq. }
      assert (Gen : forall acc, bshape acc = map (es_dim S) legs -> bat o (fold_left (fun res e => let sl := row_slices S legs (fst e) in bset_slice o res (map fst sl) (map snd sl) (snd e)) D acc) (locs (mults legs) b q) =
         if in_dec row_dec b (map fst D) then sval D b q else bat o acc (locs (mults legs) b q)).
      { clear - H V W ND VL G OK. induction D as [|e D IH]; intros acc SA; cbn [fold_left map].
        - destruct (in_dec row_dec b []) as [[]|]; auto.
        - cbn [map] in ND. inversion ND as [|? ? NI ND']; subst. rewrite IH; auto; [|intros; apply H; now right].
          destruct (@row_box S fuse G legs OK b (fst e) q V (H e (or_introl eq_refl)) W) as [BX BO].
          destruct (in_dec row_dec b (map fst D)) as [I|I]; destruct (in_dec row_dec b (fst e :: map fst D)) as [I'|I']; cbn [sval].
          + destruct (row_dec (fst e) b) as [<-|]; [contradiction|reflexivity].
          + exfalso. apply I'. now right.
          + destruct I' as [E|]; [|contradiction]. rewrite bat_set_slice_in by (rewrite ?SA; auto; now apply BX). rewrite BO by auto.
            destruct (row_dec (fst e) b); congruence.
          + rewrite bat_set_slice_out; [reflexivity|rewrite SA; exact VL|]. intros B. apply BX in B. apply I'. now left. }
      rewrite Gen by reflexivity. destruct (in_dec row_dec b (map fst D)) as [I|I]; auto.
      rewrite sval_notin by auto. apply bat_zeros. exact VL.
    Qed.
    Lemma dense_locate g : dense_idx S legs g -> exists b q, valid_idx (map nsec legs) b /\ valid_idx (shp (mults legs) b) q /\ g = locs (mults legs) b q.
    Proof.
      unfold dense_idx. rewrite (dims_eq G OK), nsecs_eq. apply locs_surj.
    Qed.
    (** sums over the dense grid, block by block *)
    Lemma dense_sum (f : list nat -> K) : osum o (map f (make_grid (map (es_dim S) legs) true)) =
      osum o (map (fun b => osum o (map (fun q => f (locs (mults legs) b q)) (make_grid (shp (mults legs) b) true))) (make_grid (map nsec legs) true)).
    Proof.
      rewrite (dims_eq G OK), nsecs_eq. rewrite <- (sum_perm SR (Permutation_map f (block_locs_perm true (mults legs)))).
      rewrite (sum_flat_map SR). apply (sum_ext o). intros b _. unfold block_locs. now rewrite map_map.
    Qed.
    Lemma sval_ok D b q : data_ok legs D -> valid_idx (map nsec legs) b -> valid_idx (shp (mults legs) b) q ->
      bat o (to_dense o S legs D) (locs (mults legs) b q) = sval D b q.
    Proof. intros H. apply dense_at; [apply (data_ok_NoDup H)|apply (do_valid H)]. Qed.
  End Dense2.
End Data.
