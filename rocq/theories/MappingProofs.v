From Coq Require Import List Arith Lia Bool Permutation Ring.
From Verif Require Import Util RowModel SymModel CatSpec Sums MappingModel.
Import ListNotations.
Set Implicit Arguments.
Unset Strict Implicit.

Section Mapping.
  Variable KT : Type.
  Variable kdec : forall x y : KT, {x = y} + {x <> y}.
  Variable A : Type.
  Variable o : ops A.
  Hypothesis SR : semi_ring_theory (o0 o) (o1 o) (oadd o) (omul o) (@eq A).
  Add Ring Aring : SR.
  Notation "0" := (o0 o).
  Infix "+" := (oadd o).
  Infix "*" := (omul o).
  Notation sum := (osum o).
  Notation smap := (list (KT * list (KT * A))).
  Notation find := (find kdec).
  Notation entry := (entry kdec o).
  Notation pre_compose := (pre_compose kdec o).
  Notation wf := (@well_formed KT A).

  Definition get (col : list (KT * A)) (i : KT) : A := match find col i with None => 0 | Some a => a end.

  Lemma find_In : forall (V : Type) (m : list (KT * V)) k v, find m k = Some v -> In (k, v) m.
  Proof.
    induction m as [|[k' v'] m IH]; intros k v H; [discriminate|]. cbn [MappingModel.find] in H.
    destruct (kdec k' k) as [ -> |]; [left; congruence | right; apply IH; exact H].
  Qed.
  Lemma find_None : forall (V : Type) (m : list (KT * V)) k, find m k = None <-> ~ In k (map fst m).
  Proof.
    induction m as [|[k' v'] m IH]; intros k; cbn [MappingModel.find map fst].
    - split; [intros _ [] | reflexivity].
    - destruct (kdec k' k) as [ -> | N ].
      + split; [discriminate | intros H; exfalso; apply H; left; reflexivity].
      + rewrite IH. split; [intros H [E|E]; [contradiction | exact (H E)] | intros H E; apply H; right; exact E].
  Qed.
  Lemma find_NoDup : forall (V : Type) (m : list (KT * V)) k v, NoDup (map fst m) -> In (k, v) m -> find m k = Some v.
  Proof.
    induction m as [|[k' v'] m IH]; intros k v ND I; [contradiction|]. cbn [map fst] in ND. inversion ND as [|? ? NI ND']; subst.
    cbn [MappingModel.find]. destruct I as [E|I].
    - injection E as -> ->. destruct (kdec k k); [reflexivity | contradiction].
    - destruct (kdec k' k) as [ -> |]; [|apply IH; assumption].
      exfalso. apply NI. exact (in_map fst _ _ I).
  Qed.
  Lemma find_map : forall (V W : Type) (g : KT * V -> W) (m : list (KT * V)) k,
    find (map (fun e => (fst e, g e)) m) k = option_map (fun v => g (k, v)) (find m k).
  Proof.
    induction m as [|[k' v'] m IH]; intros k; [reflexivity|]. cbn [map MappingModel.find fst].
    destruct (kdec k' k) as [ -> |]; [reflexivity | apply IH].
  Qed.

  Lemma get_add_to : forall m i v j, get (add_to kdec o m i v) j = get m j + (if kdec i j then v else 0).
  Proof.
    unfold get. induction m as [|[k a] m IH]; intros i v j; cbn [add_to MappingModel.find].
    - destruct (kdec i j); ring.
    - destruct (kdec k i) as [ -> | N ]; cbn [MappingModel.find].
      + destruct (kdec i j); [ring|]. destruct (find m j); ring.
      + destruct (kdec k j) as [ -> |].
        * destruct (kdec i j) as [E|]; [congruence | ring].
        * apply IH.
  Qed.

  Lemma add_to_keys : forall m i v k, In k (map fst (add_to kdec o m i v)) <-> k = i \/ In k (map fst m).
  Proof.
    induction m as [|[k' a] m IH]; intros i v k; cbn [add_to map fst].
    - cbn. firstorder congruence.
    - destruct (kdec k' i) as [ -> | N ]; cbn [map fst In].
      + firstorder congruence.
      + rewrite IH. firstorder congruence.
  Qed.
  Lemma add_to_NoDup : forall m i v, NoDup (map fst m) -> NoDup (map fst (add_to kdec o m i v)).
  Proof.
    induction m as [|[k' a] m IH]; intros i v ND; cbn [add_to map fst].
    - constructor; [intros [] | constructor].
    - cbn [map fst] in ND. inversion ND as [|? ? NI ND']; subst.
      destruct (kdec k' i) as [ -> | N ]; cbn [map fst]; [constructor; assumption|].
      constructor; [|apply IH; exact ND']. rewrite add_to_keys. intros [E|E]; [congruence | contradiction].
  Qed.

  Lemma get_sum : forall col i, NoDup (map fst col) ->
    sum (map (fun e => if kdec (fst e) i then snd e else 0) col) = get col i.
  Proof.
    unfold get. induction col as [|[k a] col IH]; intros i ND; [reflexivity|].
    cbn [map fst snd MappingModel.find] in *. inversion ND as [|? ? NI ND']; subst. rewrite sum_cons.
    destruct (kdec k i) as [ -> |].
    - rewrite sum_zero; [ring | exact SR |]. intros [k2 a2] I. cbn [fst snd]. destruct (kdec k2 i) as [ -> |]; [|reflexivity].
      exfalso. apply NI. exact (in_map fst _ _ I).
    - rewrite IH by exact ND'. destruct (find col i); ring.
  Qed.

  Lemma fold_entry_get : forall c col acc i, NoDup (map fst col) ->
    get (fold_left (compose_entry kdec o c) col acc) i = get acc i + get col i * c.
  Proof.
    intros c col acc i ND. rewrite <- (get_sum i ND). clear ND. revert acc.
    induction col as [|[k a] col IH]; intros acc; cbn [fold_left map fst snd].
    - rewrite sum_nil. ring.
    - rewrite IH. unfold compose_entry at 1. rewrite get_add_to, sum_cons. cbn [fst snd].
      destruct (kdec k i); ring.
  Qed.
  Lemma fold_entry_NoDup : forall c col acc, NoDup (map fst acc) -> NoDup (map fst (fold_left (compose_entry kdec o c) col acc)).
  Proof. intros c col. induction col as [|e col IH]; intros acc ND; [exact ND|]. cbn [fold_left]. apply IH. apply add_to_NoDup. exact ND. Qed.

  Lemma fold_column_get : forall other col acc i, wf other ->
    get (fold_left (compose_column kdec o other) col acc) i
    = get acc i + sum (map (fun e => entry other (fst e) i * snd e) col).
  Proof.
    intros other col. induction col as [|[j c] col IH]; intros acc i W; cbn [fold_left map].
    - rewrite sum_nil. ring.
    - rewrite IH by exact W. rewrite sum_cons. cbn [fst snd].
      assert (E : get (compose_column kdec o other acc (j, c)) i = get acc i + entry other j i * c).
      { unfold compose_column, MappingModel.entry. cbn [fst snd]. destruct (find other j) as [oj|] eqn:F.
        - rewrite fold_entry_get; [reflexivity|]. apply (proj2 W) with (k := j). apply find_In. exact F.
        - ring. }
      rewrite E. ring.
  Qed.
  Lemma fold_column_NoDup : forall other col acc, NoDup (map fst acc) -> NoDup (map fst (fold_left (compose_column kdec o other) col acc)).
  Proof.
    intros other col. induction col as [|[j c] col IH]; intros acc ND; [exact ND|]. cbn [fold_left]. apply IH.
    unfold compose_column. destruct (find other _); [apply fold_entry_NoDup|]; exact ND.
  Qed.

  Lemma pre_compose_wf : forall self other, wf self -> wf (pre_compose self other).
  Proof.
    intros self other [W1 W2]. split.
    - unfold MappingModel.pre_compose. rewrite map_map. exact W1.
    - intros k col I. unfold MappingModel.pre_compose in I. apply in_map_iff in I as [[k' c'] [E I]].
      injection E as <- <-. apply fold_column_NoDup. constructor.
  Qed.

  Lemma pre_compose_cols : forall self other, nonzero_cols (pre_compose self other) = nonzero_cols self.
  Proof. intros self other. unfold nonzero_cols, MappingModel.pre_compose. rewrite map_map. reflexivity. Qed.

  (* the entry as a sum over the stored column *)
  Lemma pre_compose_stored : forall self other k i, wf other ->
    entry (pre_compose self other) k i =
    match find self k with None => 0 | Some col => sum (map (fun e => entry other (fst e) i * snd e) col) end.
  Proof.
    intros self other k i W. unfold MappingModel.entry at 1, MappingModel.pre_compose.
    rewrite (find_map (fun ks => fold_left (compose_column kdec o other) (snd ks) []) self k).
    destruct (find self k) as [col|]; [|reflexivity]. cbn [option_map snd].
    assert (E := fold_column_get (other := other) col [] i W). unfold get in E at 1. rewrite E.
    unfold get. cbn [MappingModel.find]. ring.
  Qed.

  Lemma entry_get : forall m k i, entry m k i = match find m k with None => 0 | Some col => get col i end.
  Proof. reflexivity. Qed.

  Lemma column_sum : forall col (f : KT -> A) J, NoDup (map fst col) -> NoDup J -> incl (map fst col) J ->
    sum (map (fun e => f (fst e) * snd e) col) = sum (map (fun j => f j * get col j) J).
  Proof.
    intros col f J ND NJ I.
    rewrite <- (sum_incl SR kdec (f := fun j => f j * get col j) ND NJ I).
    - rewrite map_map. apply sum_ext. intros [j c] Hj. cbn [fst snd]. f_equal.
      unfold get. rewrite (find_NoDup ND Hj). reflexivity.
    - intros j _ Nj. unfold get. apply find_None in Nj. rewrite Nj. ring.
  Qed.

  (* matrix product: the sum over any duplicate-free list of keys that contains the rows of self *)
  Lemma pre_compose_entry : forall self other k i J, wf self -> wf other -> NoDup J -> incl (nonzero_rows self) J ->
    entry (pre_compose self other) k i = sum (map (fun j => entry other j i * entry self k j) J).
  Proof.
    intros self other k i J Ws Wo NJ I. rewrite pre_compose_stored by exact Wo.
    destruct (find self k) as [col|] eqn:F.
    - rewrite (column_sum (col := col) (fun j => entry other j i) (J := J)).
      + apply sum_ext. intros j _. rewrite (entry_get self k j), F. reflexivity.
      + apply (proj2 Ws k). apply find_In. exact F.
      + exact NJ.
      + intros j Hj. apply I. unfold nonzero_rows. apply in_flat_map. exists (k, col). split; [apply find_In; exact F | exact Hj].
    - symmetry. apply sum_zero; [exact SR|]. intros j _. rewrite (entry_get self k j), F. ring.
  Qed.

  Lemma pre_compose_assoc : forall a b c k i, wf a -> wf b -> wf c ->
    entry (pre_compose (pre_compose a b) c) k i = entry (pre_compose a (pre_compose b c)) k i.
  Proof.
    intros a b c k i Wa Wb Wc.
    set (J := nodup kdec (nonzero_rows a ++ nonzero_rows b ++ nonzero_rows (pre_compose a b))).
    assert (NJ : NoDup J) by apply NoDup_nodup.
    assert (IJ : forall x, In x (nonzero_rows a ++ nonzero_rows b ++ nonzero_rows (pre_compose a b)) -> In x J).
    { intros x Hx. unfold J. apply nodup_In. exact Hx. }
    rewrite (pre_compose_entry k i (J := J) (pre_compose_wf b Wa) Wc NJ); [|intros x Hx; apply IJ, in_or_app; right; apply in_or_app; right; exact Hx].
    rewrite (pre_compose_entry k i (J := J) Wa (pre_compose_wf c Wb) NJ); [|intros x Hx; apply IJ, in_or_app; left; exact Hx].
    transitivity (sum (map (fun j => sum (map (fun l => entry c j i * (entry b l j * entry a k l)) J)) J)).
    - apply sum_ext. intros j _. rewrite (pre_compose_entry k j (J := J) Wa Wb NJ); [|intros x Hx; apply IJ, in_or_app; left; exact Hx].
      rewrite <- sum_mul_l by exact SR. reflexivity.
    - rewrite (sum_swap SR (fun j l => entry c j i * (entry b l j * entry a k l))). apply sum_ext. intros l _.
      rewrite (pre_compose_entry l i (J := J) Wb Wc NJ); [|intros x Hx; apply IJ, in_or_app; right; apply in_or_app; left; exact Hx].
      rewrite <- sum_mul_r by exact SR. apply sum_ext. intros j _. ring.
  Qed.

  (* ---- identities ---- *)
  Lemma from_identity_find : forall keys k, find (from_identity kdec o keys) k =
    if in_dec kdec k keys then Some [(k, o1 o)] else None.
  Proof.
    induction keys as [|k0 keys IH]; intros k; cbn [from_identity]; [reflexivity|].
    assert (E := IH k0). destruct (find (from_identity kdec o keys) k0) as [c|] eqn:F.
    - rewrite IH. destruct (in_dec kdec k0 keys) as [I|]; [|discriminate].
      destruct (in_dec kdec k keys), (in_dec kdec k (k0 :: keys)) as [J|J]; try reflexivity.
      + exfalso. apply J. right. assumption.
      + destruct J as [ -> | J ]; contradiction.
    - cbn [MappingModel.find]. destruct (kdec k0 k) as [ -> | N ].
      + destruct (in_dec kdec k (k :: keys)) as [J|J]; [reflexivity | exfalso; apply J; left; reflexivity].
      + rewrite IH. destruct (in_dec kdec k keys), (in_dec kdec k (k0 :: keys)) as [J|J]; try reflexivity.
        * exfalso. apply J. right. assumption.
        * destruct J as [ -> | J ]; contradiction.
  Qed.
  Lemma from_identity_wf : forall keys, wf (from_identity kdec o keys).
  Proof.
    induction keys as [|k0 keys [IH1 IH2]]; cbn [from_identity]; [split; [constructor | intros k col []]|].
    destruct (find (from_identity kdec o keys) k0) as [c|] eqn:F; [split; assumption|].
    apply find_None in F. split; cbn [map fst].
    - constructor; assumption.
    - intros k col [E|I]; [|exact (IH2 k col I)]. injection E as <- <-. constructor; [intros [] | constructor].
  Qed.
  Lemma from_identity_entry : forall keys k i,
    entry (from_identity kdec o keys) k i = if in_dec kdec k keys then (if kdec k i then o1 o else 0) else 0.
  Proof.
    intros keys k i. rewrite entry_get, from_identity_find. destruct (in_dec kdec k keys); [|reflexivity].
    unfold get. cbn [MappingModel.find]. destruct (kdec k i); reflexivity.
  Qed.
  Lemma from_identity_cols : forall keys k, In k (nonzero_cols (from_identity kdec o keys)) <-> In k keys.
  Proof.
    intros keys k. unfold nonzero_cols. assert (E := find_None (from_identity kdec o keys) k).
    rewrite from_identity_find in E. destruct (in_dec kdec k keys) as [I|N].
    - split; [intros _; exact I|]. intros _. destruct (in_dec kdec k (map fst (from_identity kdec o keys))) as [J|J]; [exact J|].
      apply E in J. discriminate.
    - split; [|contradiction]. intros J. exfalso. apply (proj1 E eq_refl J).
  Qed.

  Lemma entry_not_col : forall m k i, ~ In k (nonzero_cols m) -> entry m k i = 0.
  Proof. intros m k i H. apply find_None in H. rewrite entry_get, H. reflexivity. Qed.
  Lemma entry_not_row : forall m k i, ~ In i (nonzero_rows m) -> entry m k i = 0.
  Proof.
    intros m k i H. rewrite entry_get. destruct (find m k) as [col|] eqn:F; [|reflexivity]. unfold get.
    destruct (find col i) as [a|] eqn:G; [|reflexivity]. exfalso. apply H. unfold nonzero_rows. apply in_flat_map.
    exists (k, col). split; [apply find_In; exact F|]. exact (in_map fst _ _ (find_In G)).
  Qed.

  Lemma identity_left : forall keys m k i, wf m -> incl (nonzero_cols m) keys ->
    entry (pre_compose (from_identity kdec o keys) m) k i = entry m k i.
  Proof.
    intros keys m k i W I. rewrite pre_compose_stored by exact W. rewrite from_identity_find.
    destruct (in_dec kdec k keys) as [J|J].
    - cbn [map fst snd]. rewrite sum_cons, sum_nil. ring.
    - symmetry. apply entry_not_col. intros H. exact (J (I k H)).
  Qed.
  Lemma identity_right : forall keys m k i, wf m -> incl (nonzero_rows m) keys ->
    entry (pre_compose m (from_identity kdec o keys)) k i = entry m k i.
  Proof.
    intros keys m k i W I.
    set (J := nodup kdec (i :: nonzero_rows m)). assert (NJ : NoDup J) by apply NoDup_nodup.
    rewrite (pre_compose_entry k i (J := J) W (from_identity_wf keys) (NoDup_nodup _ _)); [|intros x Hx; apply nodup_In; right; exact Hx].
    rewrite (sum_single SR (x := i) NJ); [| apply nodup_In; left; reflexivity |].
    - rewrite from_identity_entry. destruct (in_dec kdec i keys) as [Ki|Ki].
      + destruct (kdec i i); [ring | contradiction].
      + rewrite (entry_not_row k (i := i) (m := m)); [ring|]. intros H. exact (Ki (I i H)).
    - intros y _ Ny. rewrite from_identity_entry. destruct (in_dec kdec y keys); [|ring]. destruct (kdec y i); [contradiction | ring].
  Qed.

  Lemma identity_pre_compose_entry : forall keys m k i,
    entry (identity_pre_compose kdec keys m) k i = if in_dec kdec k keys then entry m k i else 0.
  Proof.
    intros keys m k i. rewrite !entry_get.
    assert (F : find (identity_pre_compose kdec keys m) k = if in_dec kdec k keys then find m k else None).
    { unfold identity_pre_compose. induction keys as [|k0 keys IH]; cbn [flat_map]; [reflexivity|].
      destruct (find m k0) as [c|] eqn:E; cbn [app MappingModel.find].
      - destruct (kdec k0 k) as [ -> | N ].
        + destruct (in_dec kdec k (k :: keys)) as [J|J]; [symmetry; exact E | exfalso; apply J; left; reflexivity].
        + rewrite IH. destruct (in_dec kdec k keys), (in_dec kdec k (k0 :: keys)) as [J|J]; try reflexivity.
          * exfalso. apply J. right. assumption.
          * destruct J as [ -> | J ]; contradiction.
      - rewrite IH. destruct (in_dec kdec k keys), (in_dec kdec k (k0 :: keys)) as [J|J]; try reflexivity.
        * exfalso. apply J. right. assumption.
        * destruct J as [ -> | J ]; [symmetry; exact E | contradiction]. }
    rewrite F. destruct (in_dec kdec k keys); reflexivity.
  Qed.

  (* ---- prune ---- *)
  Lemma prune_entry : forall big m k i, wf m ->
    entry (prune big m) k i = if big (entry m k i) then entry m k i else 0.
  Proof.
    intros big m k i W. rewrite !entry_get. unfold prune.
    rewrite (find_map (fun ks => filter (fun e => big (snd e)) (snd ks)) m k).
    destruct (find m k) as [col|] eqn:F; cbn [option_map snd].
    - assert (ND : NoDup (map fst col)) by (apply (proj2 W k), find_In; exact F).
      clear F W. unfold get. induction col as [|[i0 a] col IH]; cbn [filter MappingModel.find snd].
      + destruct (big 0); reflexivity.
      + cbn [map fst] in ND. inversion ND as [|? ? NI ND']; subst. specialize (IH ND').
        destruct (big a) eqn:B; cbn [MappingModel.find].
        * destruct (kdec i0 i); [rewrite B; reflexivity | exact IH].
        * destruct (kdec i0 i) as [ -> |]; [|exact IH]. rewrite B.
          apply find_None in NI. rewrite NI in IH. rewrite IH. destruct (big 0); reflexivity.
    - destruct (big 0); reflexivity.
  Qed.

  Lemma prune_stored : forall big m k i a, wf m ->
    (exists col, find (prune big m) k = Some col /\ find col i = Some a) <->
    (exists col, find m k = Some col /\ find col i = Some a) /\ big a = true.
  Proof.
    intros big m k i a W. unfold prune.
    rewrite (find_map (fun ks => filter (fun e => big (snd e)) (snd ks)) m k).
    destruct (find m k) as [col|] eqn:F; cbn [option_map snd].
    - assert (ND : NoDup (map fst col)) by (apply (proj2 W k), find_In; exact F).
      assert (NDf : NoDup (map fst (filter (fun e : KT * A => big (snd e)) col))).
      { clear -ND. induction col as [|[j c] col IH]; [constructor|]. cbn [map fst] in ND. inversion ND as [|? ? NI ND']; subst.
        cbn [filter snd]. destruct (big c); cbn [map fst]; [|apply IH; exact ND'].
        constructor; [|apply IH; exact ND']. intros H. apply NI. apply in_map_iff in H as [e [ <- H]].
        apply filter_In in H as [H _]. exact (in_map fst _ _ H). }
      split.
      + intros (c & E & G). injection E as <-. apply find_In in G. apply filter_In in G as [G B]. split; [|exact B].
        exists col. split; [reflexivity | apply find_NoDup; assumption].
      + intros [(c & E & G) B]. injection E as <-. eexists. split; [reflexivity|]. apply find_NoDup; [exact NDf|].
        apply filter_In. split; [apply find_In; exact G | exact B].
    - split; [intros (c & E & _); discriminate | intros [(c & E & _) _]; discriminate].
  Qed.
End Mapping.
