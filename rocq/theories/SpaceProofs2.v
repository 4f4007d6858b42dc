From Verif Require Import Util StableSort RowModel RowProofs GridModel GridProofs SymModel SpaceModel SpaceSpec SpaceProofs.
Set Implicit Arguments. Unset Strict Implicit.
Open Scope nat_scope.

Lemma flat_map_swap A B C (f : A -> B -> list C) l m :
  Permutation (flat_map (fun a => flat_map (f a) m) l) (flat_map (fun b => flat_map (fun a => f a b) l) m).
Proof.
  revert m. induction l as [|a l IH]; intros m; cbn; [induction m; cbn; auto|].
  rewrite (IH m). clear IH. induction m as [|b m IH]; cbn; [constructor|]. rewrite <- IH, <- !app_assoc. apply Permutation_app_head.
  rewrite !app_assoc. apply Permutation_app_tail. apply Permutation_app_comm.
Qed.
Lemma combine_flat_map2 A B C (f : A -> list B) (h : A -> list C) l : (forall x, In x l -> length (f x) = length (h x)) ->
  combine (flat_map f l) (flat_map h l) = flat_map (fun x => combine (f x) (h x)) l.
Proof.
  intros H. induction l as [|x l IH]; [reflexivity|]. cbn. rewrite combine_app' by (apply H; cbn; auto). rewrite IH by (intros; apply H; cbn; auto). reflexivity.
Qed.
Lemma length_concat A (l : list (list A)) : length (concat l) = nsum (map (@length A) l).
Proof. induction l as [|x l IH]; [reflexivity|]. cbn. rewrite app_length, IH. reflexivity. Qed.
Lemma repeat_nsum A (a : A) l : repeat a (nsum l) = flat_map (fun m => repeat a m) l.
Proof. induction l as [|m l IH]; [reflexivity|]. change (nsum (m :: l)) with (m + nsum l). cbn. rewrite repeat_app, IH. reflexivity. Qed.
Lemma flat_map_map' A B C (f : B -> list C) (g : A -> B) l : flat_map f (map g l) = flat_map (fun x => f (g x)) l.
Proof. rewrite !flat_map_concat_map, map_map. reflexivity. Qed.
Lemma pieces_concat A d : forall m (c : list A), length c = d * m -> flat_map (fun k => firstn m (skipn (k * m) c)) (seq 0 d) = c.
Proof.
  induction d as [|d IH]; intros m c H; [destruct c; [reflexivity | discriminate]|].
  cbn [seq flat_map Nat.mul skipn]. rewrite <- (firstn_skipn m c) at 2. f_equal.
  rewrite <- (IH m (skipn m c)) by (rewrite skipn_length; lia). rewrite <- seq_shift, flat_map_map'.
  apply flat_map_ext_in. intros k _. rewrite skipn_skipn'. reflexivity.
Qed.
Lemma Permutation_flat_map_ext A B (f g : A -> list B) l : (forall x, In x l -> Permutation (f x) (g x)) -> Permutation (flat_map f l) (flat_map g l).
Proof. intros H. induction l as [|x l IH]; cbn; [constructor|]. apply Permutation_app; [apply H; cbn; auto | apply IH; intros; apply H; cbn; auto]. Qed.

Lemma group_pairs S s (xs : list (nat * list nat)) : (forall x, In x xs -> length (snd x) = sym_dim S s * fst x) ->
  Permutation (combine (labels S (s, nsum (map fst xs))) (regrouped (sym_dim S s) xs))
              (flat_map (fun x => combine (labels S (s, fst x)) (snd x)) xs).
Proof.
  intros H. unfold labels. cbn [fst snd]. unfold regrouped.
  rewrite (@flat_map_ext_in _ _ (fun k => repeat (s, k) (nsum (map fst xs))) (fun k => flat_map (fun x : nat * list nat => repeat (s, k) (fst x)) xs))
    by (intros; rewrite repeat_nsum, flat_map_map'; reflexivity).
  assert (LK : forall k x, In k (seq 0 (sym_dim S s)) -> In x xs -> length (repeat (s, k) (fst x)) = length (firstn (fst x) (skipn (k * fst x) (snd x)))).
  { intros k x Hk Hx. apply in_seq in Hk. rewrite repeat_length, firstn_length, skipn_length, (H x Hx). nia. }
  rewrite combine_flat_map2.
  - rewrite (@flat_map_ext_in _ _ _ (fun k => flat_map (fun x : nat * list nat => combine (repeat (s, k) (fst x)) (firstn (fst x) (skipn (k * fst x) (snd x)))) xs)).
    + rewrite flat_map_swap. apply Permutation_flat_map_ext. intros x Hx. rewrite <- combine_flat_map2 by (intros; apply LK; assumption).
      rewrite pieces_concat by (apply H; exact Hx). reflexivity.
    + intros k Hk. apply combine_flat_map2. intros x Hx. apply LK; assumption.
  - intros k Hk. rewrite !length_flat_map. f_equal. apply map_ext_in. intros x Hx. apply LK; assumption.
Qed.

Lemma ungroup_map K A B (f : A -> B) (g : list (K * list A)) :
  ungroup (map (fun p => (fst p, map f (snd p))) g) = map (fun q => (fst q, f (snd q))) (ungroup g).
Proof.
  unfold ungroup. induction g as [|[k xs] g IH]; [reflexivity|]. cbn. rewrite map_app, IH, !map_map. reflexivity.
Qed.
Lemma groups_map_snd A (secs : list sector) (ms : list A) B (f : B -> A) (l : list B) :
  length l = length secs -> ms = map f l ->
  groups row_eqb (combine secs ms) = map (fun p => (fst p, map f (snd p))) (groups row_eqb (combine secs l)).
Proof.
  intros L ->. rewrite <- !(@frd_groups _ _ row_eqb_eq _ []) by (rewrite ?map_length; exact L). rewrite map_map. apply map_ext.
  intros p. cbn. rewrite slice_map. reflexivity.
Qed.

(** total multiplicity *)
Lemma mult_of_perm secs mults secs' mults' s : Permutation (combine secs mults) (combine secs' mults') -> mult_of secs mults s = mult_of secs' mults' s.
Proof. intros P. unfold mult_of. apply nsum_perm, Permutation_map, Permutation_filter', P. Qed.
Lemma mult_of_groups (g : list (sector * list nat)) s :
  mult_of (map fst g) (map (fun q => nsum (snd q)) g) s = nsum (map snd (filter (fun p => row_eqb (fst p) s) (ungroup g))).
Proof.
  unfold mult_of, ungroup. induction g as [|[k xs] g IH]; [reflexivity|]. cbn [map combine filter fst snd flat_map].
  rewrite filter_app, map_app, nsum_app, <- IH.
  assert (F : map snd (filter (fun p : sector * nat => row_eqb (fst p) s) (map (fun x => (k, x)) xs)) = if row_eqb k s then xs else []).
  { clear. induction xs as [|x xs IH]; cbn; [destruct (row_eqb k s); reflexivity|]. destruct (row_eqb k s); cbn; rewrite IH; reflexivity. }
  rewrite F. destruct (row_eqb k s); reflexivity.
Qed.

Section FDS.
  Variable S : symm.
  Hypothesis SO : symm_ok S.
  Variables (sectors : list sector) (mults : list nat).
  Hypothesis HV : forall s, In s sectors -> sym_valid S s = true.
  Hypothesis HL : length mults = length sectors.
  Let sort := lexsort_indices sectors.
  Let secs := take [] sectors sort.
  Let ms := take 0 mults sort.

  Lemma fds_width : same_width (sym_len S) sectors.
  Proof. apply Forall_forall. intros s H. apply (so_len SO), HV, H. Qed.
  Lemma fds_perm : is_perm (length sectors) sort.
  Proof. apply lexsort_perm. Qed.
  Lemma fds_len : length secs = length sectors /\ length ms = length sectors.
  Proof. unfold secs, ms. rewrite !take_length. assert (H := is_perm_length fds_perm). fold sort in H. auto. Qed.
  Lemma fds_In s : In s secs <-> In s sectors.
  Proof. split; apply Permutation_in; [apply (sorted_Permutation sectors) | symmetry; apply (sorted_Permutation sectors)]. Qed.
  Lemma fds_sorted : weakly_sorted secs.
  Proof. apply (sorted_weakly fds_width). Qed.
  Lemma fds_comb : Permutation (combine secs ms) (combine sectors mults).
  Proof. apply combine_take_perm; [lia | apply fds_perm]. Qed.

  Lemma removelast_take D : take [] secs (removelast D) = map (fun p => nth (fst p) secs []) (adj D).
  Proof.
    unfold take, adj. destruct D as [|d D]; [reflexivity|]. revert d. induction D as [|e D IH]; intros d; [reflexivity|].
    change (removelast (d :: e :: D)) with (d :: removelast (e :: D)). cbn [map tl combine fst]. f_equal. apply (IH e).
  Qed.
  Lemma fds_eq_unique dual perm : from_defining_sectors S sectors mults dual perm true = ES secs ms dual (sort_basis_perm S sectors mults perm sort).
  Proof. reflexivity. Qed.
  Lemma fds_eq dual perm :
    from_defining_sectors S sectors mults dual perm false =
    ES (map fst (groups row_eqb (combine secs ms))) (map (fun q => nsum (snd q)) (groups row_eqb (combine secs ms))) dual
       (match sort_basis_perm S sectors mults perm sort with
        | Some q => if negb (s_abelian S) then Some (regroup S secs ms (find_row_differences true secs) q) else Some q
        | None => None end).
  Proof.
    unfold from_defining_sectors, sort_sectors, sorted. cbv zeta. fold sort secs ms. f_equal.
    - rewrite removelast_take. rewrite <- (@frd_groups _ _ row_eqb_eq _ []) by (destruct fds_len; lia). rewrite map_map. reflexivity.
    - rewrite <- (@frd_groups _ _ row_eqb_eq _ []) by (destruct fds_len; lia). rewrite map_map.
      unfold find_row_differences. set (D := frd row_eqb true secs). cbn [snd].
      rewrite <- (adj_seq (fun a b => nsum (slice ms a b))). apply map_ext_in. intros i Hi. apply in_seq in Hi. rewrite Nat.add_1_r.
      assert (B : forall j, j < length D -> nth j D 0 <= length ms).
      { intros j Hj. destruct fds_len as [E1 E2]. rewrite E2, <- E1. apply (frd_le (eqb := row_eqb)). apply nth_In. exact Hj. }
      assert (LT : nth i D 0 < nth (Datatypes.S i) D 0).
      { apply (proj1 (StronglySorted_nth lt 0 D) (frd_sorted row_eqb secs)); lia. }
      rewrite !boundaries_nth by (apply B; lia).
      assert (E : firstn (nth (Datatypes.S i) D 0) ms = firstn (nth i D 0) ms ++ slice ms (nth i D 0) (nth (Datatypes.S i) D 0)).
      { unfold slice. rewrite <- (firstn_skipn (nth i D 0) (firstn (nth (Datatypes.S i) D 0) ms)) at 1. rewrite firstn_firstn, Nat.min_l by lia. f_equal. rewrite skipn_firstn_comm. reflexivity. }
      rewrite E, nsum_app. lia.
  Qed.

  (** sector level facts *)
  Lemma fds_def_sorted dual perm u : (u = true -> NoDup sectors) -> strictly_sorted (es_def (from_defining_sectors S sectors mults dual perm u)).
  Proof.
    intros HU. destruct u.
    - rewrite fds_eq_unique. cbn [es_def]. assert (N : NoDup secs).
      { apply (Permutation_NoDup (Permutation_sym (sorted_Permutation sectors))). apply HU. reflexivity. }
      pose proof fds_sorted as W. revert N W. generalize secs. clear. intros l N W. unfold strictly_sorted, weakly_sorted in *.
      induction W as [|x l W IH F]; [constructor|]. inversion N as [|? ? N1 N2]; subst. constructor; [apply IH; exact N2|].
      apply Forall_forall. intros y Hy. rewrite Forall_forall in F. destruct (F y Hy) as [Q|Q]; [exact Q|]. subst. contradiction.
    - rewrite fds_eq. cbn [es_def]. apply (groups_sorted row_eqb_eq lex_lt_trans). rewrite combine_fst by (destruct fds_len; lia). apply fds_sorted.
  Qed.
  Lemma fds_def_In dual perm u s : In s (es_def (from_defining_sectors S sectors mults dual perm u)) <-> In s sectors.
  Proof.
    destruct u; [rewrite fds_eq_unique; apply fds_In|]. rewrite fds_eq. cbn [es_def].
    rewrite (groups_keys_In row_eqb_eq), combine_fst by (destruct fds_len; lia). apply fds_In.
  Qed.
  Lemma fds_mults_len dual perm u : let E := from_defining_sectors S sectors mults dual perm u in length (es_mults E) = length (es_def E).
  Proof. destruct u; [rewrite fds_eq_unique; cbn; destruct fds_len; lia | rewrite fds_eq; cbn; rewrite !map_length; reflexivity]. Qed.
  Lemma fds_mult_of dual perm u s : let E := from_defining_sectors S sectors mults dual perm u in mult_of (es_def E) (es_mults E) s = mult_of sectors mults s.
  Proof.
    destruct u; [rewrite fds_eq_unique; cbn; apply mult_of_perm, fds_comb|]. rewrite fds_eq. cbn [es_def es_mults].
    rewrite mult_of_groups, (groups_ungroup row_eqb_eq). apply (mult_of_perm s fds_comb).
  Qed.
  Lemma fds_pos dual perm u : (forall m, In m mults -> 0 < m) -> forall m, In m (es_mults (from_defining_sectors S sectors mults dual perm u)) -> 0 < m.
  Proof.
    intros HP m. assert (HP' : forall m, In m ms -> 0 < m).
    { intros x Hx. apply HP. unfold ms, take in Hx. apply in_map_iff in Hx as (i & <- & Hi). apply nth_In. rewrite HL. apply (is_perm_In i fds_perm). exact Hi. }
    destruct u; [rewrite fds_eq_unique; apply HP'|]. rewrite fds_eq. cbn [es_mults]. intros Hm.
    apply in_map_iff in Hm as ([k xs] & <- & Hin). cbn [snd].
    pose proof (groups_nonempty row_eqb (combine secs ms)) as NE. rewrite Forall_forall in NE. specialize (NE _ Hin). cbn in NE.
    destruct xs as [|x xs]; [congruence|]. change (nsum (x :: xs)) with (x + nsum xs).
    assert (0 < x); [|lia]. apply HP'.
    assert (Hu : In (k, x) (ungroup (groups row_eqb (combine secs ms)))).
    { unfold ungroup. apply in_flat_map. eexists. split; [exact Hin|]. cbn. auto. }
    rewrite (groups_ungroup row_eqb_eq) in Hu. apply in_combine_r in Hu. exact Hu.
  Qed.

  (** basis facts *)
  Variable perm : option (list nat).
  Hypothesis HD : s_drop S = true.
  Let v := num_states S sectors mults.
  Let p := match perm with None => seq 0 (nsum v) | Some p => p end.
  Hypothesis HP : is_perm (nsum v) p.
  Let cs := take [] (chunks v p) sort.

  Lemma fds_cs_len : length cs = length secs.
  Proof. unfold cs, secs. rewrite !take_length. reflexivity. Qed.
  Lemma fds_cs : map (@length nat) cs = num_states S secs ms.
  Proof.
    destruct fds_len as [L1 L2]. rewrite num_states_eq by lia.
    unfold secs, ms. rewrite combine_take by (lia || (apply is_perm_Forall; apply fds_perm)).
    unfold cs, take. rewrite !map_map. apply map_ext_in. intros i Hi. apply (is_perm_In i fds_perm) in Hi.
    transitivity (nth i (map (@length nat) (chunks v p)) 0).
    - rewrite nth_map_lt with (d := []) by (rewrite chunks_length; unfold v; rewrite num_states_length; exact Hi). reflexivity.
    - rewrite chunks_lens by (apply (is_perm_length HP)). unfold v. rewrite num_states_eq by exact HL.
      rewrite nth_map_lt with (d := ([], 0)) by (rewrite combine_length; lia). reflexivity.
  Qed.
  Lemma fds_sort_perm : sort_basis_perm S sectors mults perm sort = Some (concat cs).
  Proof.
    destruct (Nat.eq_dec (length sectors) 0) as [E0|E0].
    - unfold sort_basis_perm. rewrite HD, E0. cbn [Nat.eqb]. f_equal. unfold cs.
      assert (LS := is_perm_length fds_perm). rewrite E0 in LS. destruct sort; [reflexivity | discriminate].
    - unfold cs, p, v, sort. apply sort_perm_eq; [exact HD | exact HL | apply (is_perm_length HP) |]. intros E. rewrite E in E0. apply E0. reflexivity.
  Qed.
  Lemma fds_pairs_sorted : Permutation (combine (states S secs ms) (concat cs)) (combine (states S sectors mults) p).
  Proof.
    destruct fds_len as [L1 L2]. rewrite !states_labels.
    assert (E1 : p = concat (chunks v p)) by (symmetry; apply chunks_concat, (is_perm_length HP)).
    rewrite E1 at 1. rewrite !combine_flat_map.
    - apply Permutation_flat_map. unfold cs, secs, ms. rewrite combine_take by (lia || (apply is_perm_Forall; apply fds_perm)).
      rewrite combine_take. 
      + apply take_Permutation. rewrite !combine_length, chunks_length. unfold v. rewrite num_states_length, HL, !Nat.min_id. apply fds_perm.
      + rewrite combine_length, chunks_length. unfold v. rewrite num_states_length, HL. lia.
      + rewrite combine_length, HL, Nat.min_id. apply is_perm_Forall, fds_perm.
    - rewrite chunks_lens by (apply (is_perm_length HP)). unfold v. rewrite num_states_eq by exact HL. apply map_ext. intros; apply labels_length.
    - rewrite fds_cs, num_states_eq by lia. apply map_ext. intros; apply labels_length.
  Qed.

  Definition fds_groups := groups row_eqb (combine secs (combine ms cs)).
  Lemma fds_groups_lens g : In g fds_groups -> forall x, In x (snd g) -> length (snd x) = sym_dim S (fst g) * fst x /\ In (fst g) sectors.
  Proof.
    destruct fds_len as [L1 L2]. intros Hg x Hx.
    assert (Hu : In (fst g, x) (ungroup fds_groups)) by (unfold ungroup; apply in_flat_map; exists g; split; [exact Hg | apply in_map; exact Hx]).
    unfold fds_groups in Hu. rewrite (groups_ungroup row_eqb_eq) in Hu.
    apply In_nth with (d := ([], (0, []))) in Hu as (j & Hj & E). rewrite !combine_length, fds_cs_len in Hj.
    rewrite combine_nth in E by (rewrite combine_length, fds_cs_len; lia). rewrite combine_nth in E by (rewrite fds_cs_len; lia).
    injection E as E1 E2. rewrite <- E2. cbn [fst snd]. rewrite (@cs_len S secs ms cs ltac:(lia) fds_cs_len fds_cs) by lia. split; [f_equal; congruence|].
    rewrite <- E1. apply fds_In, nth_In. lia.
  Qed.
  Lemma flat_map_map_snd (g : list (sector * list (nat * list nat))) :
    flat_map snd (map snd (flat_map (fun p => map (fun x => (fst p, x)) (snd p)) g)) = flat_map (fun p => flat_map snd (snd p)) g.
  Proof.
    induction g as [|[k xs] g IH]; [reflexivity|]. cbn. rewrite map_app, flat_map_app, IH, map_map. cbn. rewrite map_id. reflexivity.
  Qed.
  Lemma fds_final_perm dual u :
    es_perm (from_defining_sectors S sectors mults dual perm u) =
    Some (if u then concat cs else flat_map (fun g => regrouped (sym_dim S (fst g)) (snd g)) fds_groups).
  Proof.
    destruct fds_len as [L1 L2]. destruct u; [rewrite fds_eq_unique; cbn; apply fds_sort_perm|]. rewrite fds_eq. cbn [es_perm]. rewrite fds_sort_perm.
    assert (R := @regroup_eq S secs ms cs ltac:(lia) fds_cs_len fds_cs). fold fds_groups in R.
    destruct (s_abelian S) eqn:EA; cbn [negb]; [|rewrite R; reflexivity].
    f_equal. transitivity (concat (map snd (map snd (ungroup fds_groups)))).
    - unfold fds_groups. rewrite (groups_ungroup row_eqb_eq), combine_snd by (rewrite combine_length, fds_cs_len; lia).
      rewrite combine_snd by (rewrite fds_cs_len; lia). reflexivity.
    - rewrite <- flat_map_concat_map. unfold ungroup. rewrite flat_map_map_snd. apply flat_map_ext_in. intros g Hg.
      unfold regrouped.
      assert (DX : snd g = [] \/ sym_dim S (fst g) = 1).
      { destruct (snd g) as [|x0 xs] eqn:EX; [left; reflexivity | right].
        apply (so_abelian SO EA), HV. apply (fds_groups_lens Hg (x := x0)). rewrite EX. left; reflexivity. }
      destruct DX as [EX|D1].
      + rewrite EX. cbn. induction (seq 0 (sym_dim S (fst g))); cbn; auto.
      + rewrite D1. change (seq 0 1) with [0]. rewrite <- (app_nil_r (flat_map snd (snd g))).
        change (flat_map ?f [0]) with (f 0 ++ []). f_equal. apply flat_map_ext_in. intros x Hx.
        cbn [Nat.mul skipn]. rewrite firstn_all2; [reflexivity|]. rewrite (proj1 (fds_groups_lens Hg Hx)), D1. lia.
  Qed.

  Lemma fds_pairs dual u : let E := from_defining_sectors S sectors mults dual perm u in
    exists q, es_perm E = Some q /\ Permutation (combine (states S (es_def E) (es_mults E)) q) (combine (states S sectors mults) p)
      /\ length (states S (es_def E) (es_mults E)) = length q.
  Proof.
    destruct fds_len as [L1 L2]. intros E. eexists. split; [apply fds_final_perm|]. unfold E. destruct u.
    - rewrite fds_eq_unique. cbn [es_def es_mults]. split; [apply fds_pairs_sorted|]. rewrite states_length by lia. rewrite <- fds_cs. symmetry. apply length_concat.
    - rewrite fds_eq. cbn [es_def es_mults]. rewrite <- fds_pairs_sorted.
      assert (EG : groups row_eqb (combine secs ms) = map (fun p => (fst p, map fst (snd p))) fds_groups).
      { apply groups_map_snd; [rewrite combine_length, fds_cs_len; lia|]. symmetry. apply combine_fst. rewrite fds_cs_len. lia. }
      rewrite EG, !map_map. cbn [fst snd].
      assert (CC : forall l : list (sector * list (nat * list nat)), combine (map fst l) (map (fun x => nsum (map fst (snd x))) l) = map (fun x => (fst x, nsum (map fst (snd x)))) l).
      { induction l as [|a l IH]; cbn; congruence. }
      rewrite states_labels, CC, flat_map_map'.
      assert (LG : forall x, In x fds_groups -> length (labels S (fst x, nsum (map fst (snd x)))) = length (regrouped (sym_dim S (fst x)) (snd x))).
      { intros g Hg. rewrite labels_length, regrouped_length by (intros x Hx; apply (fds_groups_lens Hg Hx)). unfold nstate. cbn [fst snd].
        assert (HG := fds_groups_lens Hg). revert HG. generalize (snd g). induction l as [|x l IH]; intros HG; [cbn; lia|]. cbn [map].
        change (nsum (fst x :: map fst l)) with (fst x + nsum (map fst l)).
        change (nsum (length (snd x) :: ?r)) with (length (snd x) + nsum r). rewrite <- IH by (intros y Hy; apply HG; right; exact Hy).
        rewrite (proj1 (HG x (or_introl eq_refl))). lia. }
      split.
      + rewrite combine_flat_map2 by exact LG. rewrite Permutation_flat_map_ext with (g := fun g => flat_map (fun x => combine (labels S (fst g, fst x)) (snd x)) (snd g)).
        * rewrite states_labels, combine_flat_map. 
          -- assert (EU := groups_ungroup row_eqb_eq (combine secs (combine ms cs))). fold fds_groups in EU.
             transitivity (flat_map (fun q => combine (labels S (fst q, fst (snd q))) (snd (snd q))) (ungroup fds_groups)).
             ++ unfold ungroup. clear. induction fds_groups as [|g l IH]; cbn; [constructor|]. rewrite flat_map_app, <- IH. apply Permutation_app_tail. rewrite flat_map_map'. reflexivity.
             ++ rewrite EU. clear EU. assert (L3 := fds_cs_len). revert L1 L2 L3. generalize (length sectors). generalize secs ms cs. clear.
                induction secs as [|s l IH]; intros [|m ms] [|c cs] n L1 L2 L3; cbn in *; try lia; [constructor|]. apply Permutation_app_head. apply (IH ms cs (length l)); lia.
          -- rewrite fds_cs, num_states_eq by lia. apply map_ext. intros; apply labels_length.
        * intros g Hg. apply group_pairs. intros x Hx. apply (fds_groups_lens Hg Hx).
      + rewrite !length_flat_map. f_equal. apply map_ext_in. exact LG.
  Qed.
End FDS.

(** * Labelled public basis of the result *)
Definition relabel (S : symmetry) (dual : bool) (p : sector * nat) : sector * nat := (if dual then sym_dual S (fst p) else fst p, snd p).
Lemma flat_map_map_out A B C (f : A -> list B) (g : B -> C) l : map g (flat_map f l) = flat_map (fun x => map g (f x)) l.
Proof. induction l as [|x l IH]; [reflexivity|]. cbn. rewrite map_app, IH. reflexivity. Qed.
Lemma map_repeat' A B (f : A -> B) x n : map f (repeat x n) = repeat (f x) n.
Proof. induction n; cbn; congruence. Qed.
Lemma states_relabel (S : symm) (dual : bool) secs mults : symm_ok S -> (forall s, In s secs -> sym_valid S s = true) ->
  states S (if dual then dual_sectors S secs else secs) mults = map (relabel S dual) (states S secs mults).
Proof.
  intros SO V. destruct dual; cbn [relabel].
  - unfold states, dual_sectors. revert mults. induction secs as [|s secs IH]; intros [|m mults]; cbn [map combine flat_map]; try reflexivity.
    rewrite map_app, <- IH by (intros; apply V; right; assumption). f_equal. cbn [fst snd]. rewrite flat_map_map_out, (so_dim_dual SO) by (apply V; left; reflexivity).
    apply flat_map_ext_in. intros k _. rewrite map_repeat'. reflexivity.
  - symmetry. rewrite <- map_id. apply map_ext. intros [s k]. reflexivity.
Qed.
Lemma combine_map_l A B C (f : A -> B) (l : list A) (m : list C) : combine (map f l) m = map (fun p => (f (fst p), snd p)) (combine l m).
Proof. revert m; induction l; intros [|y m]; cbn; congruence. Qed.
Lemma states_dual_length (S : symm) (dual : bool) secs mults : symm_ok S -> (forall s, In s secs -> sym_valid S s = true) ->
  length (states S (if dual then dual_sectors S secs else secs) mults) = length (states S secs mults).
Proof. intros. rewrite states_relabel by assumption. apply map_length. Qed.
Lemma es_dim_states (S : symm) E : length (es_mults E) = length (es_def E) -> es_dim S E = length (states S (es_decomp S E) (es_mults E)).
Proof.
  intros L. unfold es_dim, sp_dim. cbn [sp_mults es_space]. rewrite states_length; [reflexivity|].
  rewrite L. unfold es_decomp, es_space. cbn [sp_secs]. destruct (es_dual E); [unfold dual_sectors; rewrite map_length|]; reflexivity.
Qed.
Lemma perm_of_pairs A n p q (i1 i2 : list A) : is_perm n p -> length i1 = n -> length i2 = length q -> Permutation (combine i2 q) (combine i1 p) -> is_perm n q.
Proof.
  intros P L1 L2 PM. assert (LP := is_perm_length P). apply (Permutation_map snd) in PM. rewrite !combine_snd in PM by congruence.
  unfold is_perm in *. rewrite PM. exact P.
Qed.

Section Public.
  Variable S : symm.
  Hypothesis SO : symm_ok S.
  Variables (sectors : list sector) (mults : list nat) (dual : bool) (perm : option (list nat)) (u : bool).
  Hypothesis HV : forall s, In s sectors -> sym_valid S s = true.
  Hypothesis HL : length mults = length sectors.
  Let E := from_defining_sectors S sectors mults dual perm u.
  Let n := length (states S sectors mults).
  Let p := match perm with None => seq 0 n | Some p => p end.
  Lemma fds_dual : es_dual E = dual.
  Proof. unfold E, from_defining_sectors. destruct (sort_sectors sectors mults) as [[a b] c]. destruct u; reflexivity. Qed.
  Lemma fds_public : s_drop S = true -> is_perm n p ->
    is_perm (es_dim S E) (basis_perm S E) /\ es_dim S E = n /\ (exists q, es_perm E = Some q) /\
    arranged p (states S (if dual then dual_sectors S sectors else sectors) mults) (public_states S E).
  Proof.
    intros HD HP. assert (En : n = nsum (num_states S sectors mults)) by (apply states_length; exact HL).
    assert (HP' := HP). unfold p in HP'. rewrite En in HP'.
    destruct (@fds_pairs S SO sectors mults HV HL perm HD HP' dual u) as (q & Eq & PM & LQ).
    fold E in Eq, PM, LQ.
    assert (HVE : forall s, In s (es_def E) -> sym_valid S s = true).
    { intros s Hs. apply HV. apply (@fds_def_In S sectors mults HL dual perm u s). exact Hs. }
    assert (LE : length (es_mults E) = length (es_def E)) by (apply (@fds_mults_len S sectors mults HL)).
    rewrite <- En in PM. fold p in PM.
    assert (Pq : is_perm n q) by (apply (perm_of_pairs HP eq_refl LQ PM)).
    assert (Ldec : length (states S (es_decomp S E) (es_mults E)) = n).
    { unfold es_decomp, es_space. cbn [sp_secs]. rewrite states_dual_length by assumption. rewrite LQ. apply (is_perm_length Pq). }
    assert (ED : es_dim S E = n) by (rewrite es_dim_states by exact LE; exact Ldec).
    assert (EB : basis_perm S E = q) by (unfold basis_perm; rewrite Eq; reflexivity).
    rewrite ED, EB. split; [exact Pq|]. split; [reflexivity|]. split; [exists q; exact Eq|].
    unfold public_states. rewrite EB.
    apply (arranged_pairs (p := q) (i1 := states S (es_decomp S E) (es_mults E))).
    - apply arranged_take. rewrite Ldec. exact Pq.
    - rewrite states_dual_length by assumption. exact HP.
    - rewrite states_dual_length by assumption. symmetry. exact Ldec.
    - unfold es_decomp, es_space. cbn [sp_secs]. rewrite fds_dual. rewrite !states_relabel by assumption.
      rewrite !combine_map_l. apply Permutation_map. exact PM.
  Qed.
  Lemma fds_ok : (forall m, In m mults -> 0 < m) -> (u = true -> NoDup sectors) -> (s_drop S = true -> is_perm n p) ->
    (s_drop S = false -> perm = None) -> es_ok S E.
  Proof.
    intros HPos HU HP HN.
    constructor.
    - intros s Hs. apply HV. apply (@fds_def_In S sectors mults HL dual perm u s). exact Hs.
    - apply (@fds_def_sorted S SO sectors mults HV HL). exact HU.
    - apply (@fds_mults_len S sectors mults HL).
    - apply (@fds_pos S sectors mults HL). exact HPos.
    - intros q Eq. destruct (s_drop S) eqn:HD.
      + split; [reflexivity|]. destruct (fds_public HD (HP eq_refl)) as (A & _). unfold basis_perm in A. rewrite Eq in A. exact A.
      + exfalso. unfold E, from_defining_sectors, sort_sectors, sorted, sort_basis_perm in Eq. rewrite HD, (HN eq_refl) in Eq. destruct u; discriminate.
  Qed.
End Public.
