(** TensorProduct: counting states; products derived from products. *)
From Verif Require Import Util StableSort RowModel RowProofs GridModel GridProofs SymModel SymProofs SpaceModel SpaceSpec SpaceProofs SpaceProofs2 SpaceProofs7
  PipeModel PipeProofs PipeProofs4 TreeModel TreeProofs TreeProofs2 TreeProofs4 FormalSum TensorModel TensorSpec TensorProofs TensorProofs2 TensorProofs3 TensorProofs4 TensorProofs5.
Set Implicit Arguments. Unset Strict Implicit.
Open Scope nat_scope.

Lemma NoDup_app_l' A (a b : list A) : NoDup (a ++ b) -> NoDup a.
Proof. induction a as [|x a IH]; intros N; [constructor|]. inversion N as [|? ? NI N']; subst. constructor; auto. intros I. apply NI, in_or_app. now left. Qed.
Lemma NoDup_app_r' A (a b : list A) : NoDup (a ++ b) -> NoDup b.
Proof. induction a as [|x a IH]; intros N; auto. inversion N; subst. auto. Qed.


Section Count.
  Variable S : tsymm.
  Hypothesis OK : tsymm_ok S.
  Let RING := to_ring OK.

  Definition all_states (P : tprod) (c : sector) : list (tree * list nat) :=
    flat_map (fun it => flat_map (fun t => map (pair t) (make_grid (u_mults it) true)) (all_trees S (u_secs it) c (map es_dual (tp_flat_legs P)))) (iter_uncoupled S P).
  Lemma all_states_length P c : tp_ok S P -> length (all_states P c) = block_size P c.
  Proof.
    intros H. rewrite (block_size_width OK c H). unfold all_states. rewrite length_flat_map. f_equal. apply map_ext. intros it.
    rewrite length_flat_map. unfold width. rewrite <- (all_trees_length S (u_secs it) c (map es_dual (tp_flat_legs P))).
    rewrite (map_ext _ (fun _ => product (u_mults it))) by (intros t; rewrite map_length, make_grid_length, product_prod; reflexivity).
    induction (all_trees S (u_secs it) c (map es_dual (tp_flat_legs P))) as [|t l IH]; [easy|]. cbn [map length]. rewrite nsum_cons, IH. lia.
  Qed.
  Lemma all_states_In P c x : tp_ok S P -> (In x (all_states P c) <-> product_state S (tp_flat_legs P) c x).
  Proof.
    intros H. unfold all_states, product_state. rewrite in_flat_map. split.
    - intros (it & Ii & I). apply in_flat_map in I. destruct I as (t & It & I). apply in_map_iff in I. destruct I as (r & <- & Ir). cbn [fst snd].
      destruct (item_valid OK H Ii) as [VI LI]. apply all_trees_In in It; [|now rewrite map_length]. rewrite (proj1 (valid_tree_fields It)).
      apply make_grid_In in Ir. apply (item_spec OK it H) in Ii. destruct Ii as [F M]. rewrite M in Ir. auto.
    - destruct x as [t r]. cbn [fst snd]. intros (V & F & I). exists (Unc (t_unc t) (map (fun p => es_mult S (fst p) (snd p)) (combine (tp_flat_legs P) (t_unc t)))). split; [apply (item_spec OK _ H); split; [exact F|reflexivity]|]. cbn [u_secs u_mults].
      apply in_flat_map. exists t. split; [|apply in_map, make_grid_In, I]. apply all_trees_In; [|exact V]. rewrite map_length. symmetry. eapply Forall2_len; eauto.
  Qed.
  Lemma all_states_NoDup P c : tp_ok S P -> NoDup (all_states P c).
  Proof.
    intros H. unfold all_states.
    assert (N := tree_blocks_NoDup OK c 0 H). rewrite unc_loop_trees in N.
    assert (G : forall items, NoDup (flat_map (fun it => all_trees S (u_secs it) c (map es_dual (tp_flat_legs P))) items) ->
      NoDup (flat_map (fun it => flat_map (fun t => map (pair t) (make_grid (u_mults it) true)) (all_trees S (u_secs it) c (map es_dual (tp_flat_legs P)))) items)).
    { clear. induction items as [|it r IH]; intros N; [constructor|]. cbn [flat_map] in *.
      assert (N1 : NoDup (all_trees S (u_secs it) c (map es_dual (tp_flat_legs P)))) by (eapply NoDup_app_l'; exact N).
      assert (N2 := NoDup_app_r' N). apply NoDup_app_intro; auto.
      - apply NoDup_flat_map; auto.
        + intros t _. apply NoDup_map_inj; [congruence|apply make_grid_NoDup].
        + intros x y z _ _ I1 I2. apply in_map_iff in I1, I2. destruct I1 as (? & <- & _), I2 as (? & E & _). congruence.
      - intros z I1 I2. apply in_flat_map in I1. destruct I1 as (t & It & I1). apply in_map_iff in I1. destruct I1 as (g & <- & _).
        apply in_flat_map in I2. destruct I2 as (it' & Ii & I2). apply in_flat_map in I2. destruct I2 as (t' & It' & I2). apply in_map_iff in I2. destruct I2 as (g' & E & _).
        assert (t' = t) by congruence. subst t'. clear -N It It' Ii.
        assert (I : In t (flat_map (fun it => all_trees S (u_secs it) c (map es_dual (tp_flat_legs P))) r)) by (apply in_flat_map; eauto).
        induction (all_trees S (u_secs it) c (map es_dual (tp_flat_legs P))) as [|a l IHl]; [easy|]. cbn [app] in N. inversion N as [|? ? NI N']; subst.
        destruct It as [->|It]; [apply NI, in_or_app; now right|auto]. }
    now apply G.
  Qed.
  Lemma block_size_counts P c L : tp_ok S P -> NoDup L -> (forall x, In x L <-> product_state S (tp_flat_legs P) c x) -> length L = block_size P c.
  Proof.
    intros H N I. rewrite <- (all_states_length c H). apply Permutation_length. apply NoDup_Permutation; auto using all_states_NoDup.
    intros x. rewrite I. symmetry. now apply all_states_In.
  Qed.

  (** ** derived products *)
  Lemma flats_app a b : flats (a ++ b) = flats a ++ flats b. Proof. unfold flats. apply flat_map_app. Qed.
  Lemma fsum_app a b : Forall (es_ok S) a -> Forall (es_ok S) b -> feq (fsum_of S (a ++ b)) (conv S (fsum_of S a) (fsum_of S b)).
  Proof. intros Ha Hb. unfold fsum_of. rewrite map_app. apply (convs_app RING); now apply (pairs_valid OK). Qed.
  Lemma fsum_valid legs : Forall (es_ok S) legs -> valids S (fsum_of S legs).
  Proof. intros H. apply (valids_convs RING). now apply (pairs_valid OK). Qed.
  Lemma fsum_perm a b : Forall (es_ok S) a -> Permutation a b -> feq (fsum_of S a) (fsum_of S b).
  Proof. intros H P. apply (convs_perm RING); [now apply (pairs_valid OK)|now apply Permutation_map]. Qed.

  (** as_space of a leg *)
  Lemma as_space_spec L V : Forall (es_ok S) (flat_legs L) -> as_space S L = Some V -> space_ok S V /\ feq (sp_pairs V) (fsum_of S (flat_legs L)).
  Proof.
    intros H E. destruct L as [E0|legs d c]; cbn [as_space flat_legs] in *.
    - injection E as <-. inversion H; subst. assert (O := es_space_ok' OK ltac:(eassumption)). split; [exact O|]. apply feq_sym. unfold fsum_of. cbn [map].
      apply (convs_one RING). now apply space_ok_valids.
    - destruct (forallb is_elementary legs); [|discriminate]. unfold calc_sectors_of_factors in E.
      destruct (calc_spec OK (spaces_ok OK H)) as (u & m & EC & O & F). rewrite EC in E. injection E as <-. split; [exact O|]. rewrite map_map in F. exact F.
  Qed.
  Lemma as_space_None L : as_space S L = None -> Forall (es_ok S) (flat_legs L) -> exists legs d c, L = LPipe legs d c /\ forallb is_elementary legs = false.
  Proof.
    destruct L as [E0|legs d c]; cbn [as_space flat_legs]; [discriminate|]. destruct (forallb is_elementary legs) eqn:E; [|eauto].
    unfold calc_sectors_of_factors. intros X H. destruct (calc_spec OK (spaces_ok OK H)) as (u & m & EC & _). rewrite EC in X. discriminate.
  Qed.
  Lemma tp_build factors u m : Forall (es_ok S) (flats factors) -> space_ok S (Sp u m (Some Sorted)) -> feq (combine u m) (fsum_of S (flats factors)) -> tp_ok S (TP factors u m).
  Proof. intros H O F. split; [exact H|]. cbn [tp_factors]. apply (tp_unique OK); auto. now apply spaces_ok. Qed.

  Lemma insert_spec P other pos : tp_ok S P -> Forall (es_ok S) (flat_legs other) -> as_space S other <> None ->
    exists Q, insert_multiply S P other pos = Some Q /\ tp_ok S Q /\
      tp_factors Q = firstn (insert_pos pos (length (tp_factors P))) (tp_factors P) ++ [other] ++ skipn (insert_pos pos (length (tp_factors P))) (tp_factors P).
  Proof.
    intros H HO NN. unfold insert_multiply. destruct (as_space S other) as [V|] eqn:EV; [|easy]. destruct (as_space_spec HO EV) as [OV FV].
    destruct (tp_ok_spec OK H) as [OP FP].
    assert (HC : Forall (space_ok S) [tp_space P; V]) by (constructor; [exact OP|constructor; [exact OV|constructor]]). destruct (calc_spec OK HC) as (u & m & E & O & F). rewrite E. eexists. split; [reflexivity|]. split; [|reflexivity].
    set (k := insert_pos pos (length (tp_factors P))).
    assert (PM : Permutation (tp_flat_legs P ++ flat_legs other) (flats (firstn k (tp_factors P) ++ [other] ++ skipn k (tp_factors P)))).
    { unfold tp_flat_legs. fold (flats (tp_factors P)). rewrite <- (firstn_skipn k (tp_factors P)) at 1. rewrite !flats_app. unfold flats at 4. cbn [flat_map]. rewrite app_nil_r.
      rewrite <- app_assoc. apply Permutation_app_head. apply Permutation_app_comm. }
    assert (HF : Forall (es_ok S) (tp_flat_legs P ++ flat_legs other)) by (apply Forall_app; split; [apply H|exact HO]).
    apply tp_build; [eapply Permutation_Forall; eauto|exact O|].
    eapply feq_trans; [exact F|]. eapply feq_trans; [|apply (fsum_perm HF PM)].
    eapply feq_trans; [|apply feq_sym, fsum_app; [apply H|exact HO]].
    cbn [map convs fold_right]. assert (V1 := space_ok_valids OP). assert (V2 := space_ok_valids OV).
    apply (conv_feq RING); auto using fsum_valid, (valids_conv RING), (valids_unit RING); [apply fsum_valid, H|].
    eapply feq_trans; [|exact FV]. apply (convs_one RING V2).
  Qed.
  Lemma partial_spec Ps : Ps <> [] -> Forall (tp_ok S) Ps -> exists Q, from_partial_products S Ps = Some Q /\ tp_ok S Q /\ tp_factors Q = flat_map tp_factors Ps.
  Proof.
    intros NE H. unfold from_partial_products. destruct Ps as [|P0 Ps0] eqn:EP; [easy|]. rewrite <- EP in *. clear EP NE.
    assert (HC : Forall (space_ok S) (map tp_space Ps)).
    { apply Forall_map. eapply Forall_impl; [|exact H]. intros P HP. apply (tp_ok_spec OK HP). }
    destruct (calc_spec OK HC) as (u & m & E & O & F). rewrite E. eexists. split; [reflexivity|]. split; [|reflexivity].
    assert (EF : flats (flat_map tp_factors Ps) = concat (map tp_flat_legs Ps)).
    { clear. induction Ps as [|P Ps IH]; [easy|]. cbn [flat_map map concat]. rewrite flats_app, IH. reflexivity. }
    assert (HH : Forall (es_ok S) (flats (flat_map tp_factors Ps))).
    { rewrite EF. apply Forall_concat, Forall_map. eapply Forall_impl; [|exact H]. intros P HP. apply HP. }
    apply tp_build; [exact HH|exact O|].
    eapply feq_trans; [exact F|]. rewrite EF. unfold fsum_of. rewrite concat_map, (map_map tp_flat_legs (map (leg_pairs S))).
    assert (HV : Forall (Forall (valids S)) (map (fun P => map (leg_pairs S) (tp_flat_legs P)) Ps)).
    { apply Forall_map. eapply Forall_impl; [|exact H]. intros P HP. apply (pairs_valid OK), HP. }
    eapply feq_trans; [|apply feq_sym, (convs_concat RING HV)]. rewrite !map_map.
    clear -H OK. assert (RING := to_ring OK). induction H as [|P Ps HP H IH]; [apply feq_refl|]. cbn [map convs fold_right].
    destruct (tp_ok_spec OK HP) as [OP FP]. apply (conv_feq RING); auto.
    - now apply space_ok_valids.
    - apply (valids_convs RING), (pairs_valid OK), HP.
    - apply (valids_convs RING), Forall_map. eapply Forall_impl; [|exact H]. intros Q HQ. apply space_ok_valids. apply (tp_ok_spec OK HQ).
    - apply (valids_convs RING), Forall_map. eapply Forall_impl; [|exact H]. intros Q HQ. apply (valids_convs RING), (pairs_valid OK), HQ.
  Qed.

  (** permuted *)
  Lemma permute_loop_spec factors perm : forall seen l, permute_loop factors perm seen = Some l ->
    exists p, perm_of (length factors) perm p /\ l = take (LPipe [] false false) factors p /\ NoDup p /\ (forall k, In k p -> ~ In k seen) /\ Forall (fun k => k < length factors) p.
  Proof.
    induction perm as [|i r IH]; intros seen l H; cbn [permute_loop] in H.
    - injection H as <-. exists []. repeat split; auto; constructor.
    - destruct (to_valid_idx i (length factors)) as [k|] eqn:EK; [|discriminate]. destruct (existsb (Nat.eqb k) seen) eqn:EX; [discriminate|].
      destruct (permute_loop factors r (k :: seen)) as [l'|] eqn:EL; [|discriminate]. injection H as <-. destruct (IH _ _ EL) as (p & P1 & -> & P3 & P4 & P5).
      exists (k :: p). split; [unfold perm_of in *; cbn [map]; rewrite EK, P1; reflexivity|]. split; [reflexivity|].
      split; [constructor; auto; intros X; apply (P4 k X); now left|]. split.
      + intros j [<-|Ij] Is.
        * assert (X : existsb (Nat.eqb k) seen = true) by (apply existsb_exists; exists k; split; [exact Is|apply Nat.eqb_refl]). congruence.
        * apply (P4 j Ij). now right.
      + constructor; auto. unfold to_valid_idx in EK. revert EK.
        set (b := (_ || _)%bool). destruct b eqn:EB; [discriminate|]. intros X. injection X as <-. unfold b in EB. apply Bool.orb_false_iff in EB. destruct EB as [A B].
        apply Z.ltb_ge in A. apply Z.leb_gt in B. destruct (Z.ltb_spec i 0); lia.
  Qed.
  Lemma permuted_spec P perm Q : tp_ok S P -> permuted P perm = Some Q ->
    tp_ok S Q /\ exists p, is_perm (length (tp_factors P)) p /\ perm_of (length (tp_factors P)) perm p /\ tp_factors Q = take (LPipe [] false false) (tp_factors P) p.
  Proof.
    intros H. unfold permuted. destruct (Nat.eqb_spec (length perm) (length (tp_factors P))) as [L|L]; [|discriminate].
    destruct (permute_loop (tp_factors P) perm []) as [l|] eqn:EL; [|discriminate]. intros X. injection X as <-.
    destruct (permute_loop_spec EL) as (p & P1 & -> & P3 & _ & P5).
    assert (LP : length p = length (tp_factors P)).
    { rewrite <- L. unfold perm_of in P1. apply (f_equal (@length _)) in P1. rewrite !map_length in P1. congruence. }
    assert (IP : is_perm (length (tp_factors P)) p).
    { apply is_perm_intro; auto; now rewrite Forall_forall in P5. }
    split; [|exists p; auto]. destruct (tp_ok_spec OK H) as [O F].
    assert (PM : Permutation (tp_flat_legs P) (flats (take (LPipe [] false false) (tp_factors P) p))).
    { unfold tp_flat_legs, flats. apply Permutation_flat_map. symmetry. now apply take_Permutation. }
    apply tp_build; [eapply Permutation_Forall; [exact PM|apply H]|exact O|]. eapply feq_trans; [exact F|]. apply fsum_perm; [apply H|exact PM].
  Qed.

  (** dual *)
  Lemma leg_pairs_dual E : es_ok S E -> leg_pairs S (dual_es E) = dual_sum S (leg_pairs S E).
  Proof.
    intros O. unfold leg_pairs, sp_pairs, dual_sum. cbn [es_space dual_es sp_secs sp_mults es_dual es_def es_mults].
    destruct (es_dual E); cbn [negb].
    - assert (DD : map (sym_dual S) (dual_sectors S (es_def E)) = es_def E).
      { unfold dual_sectors. rewrite map_map, <- map_id. apply map_ext_in. intros s Hs. apply (fr_dual_invol RING), (ok_valid O), Hs. }
      rewrite <- DD at 1. apply combine_map_l.
    - apply combine_map_l.
  Qed.
  Lemma dual_space_ok E : es_ok S E -> space_ok S (es_space S (dual_es E)).
  Proof.
    intros O. set (E' := ES (es_def E) (es_mults E) (negb (es_dual E)) None).
    change (space_ok S (es_space S E')). apply (es_space_ok' OK). constructor; cbn [es_def es_mults es_perm]; [apply (ok_valid O)|apply (ok_sorted O)|apply (ok_len O)|apply (ok_pos O)|discriminate].
  Qed.
  Lemma flats_dual factors : flats (map dual_leg (rev factors)) = rev (map dual_es (flats factors)).
  Proof.
    induction factors as [|f r IH]; [easy|]. cbn [rev]. rewrite map_app, flats_app, IH. cbn [map]. unfold flats at 2. cbn [flat_map]. rewrite app_nil_r.
    unfold flats at 2. cbn [flat_map]. fold (flats r). rewrite map_app, rev_app_distr. f_equal. apply flat_legs_dual.
  Qed.
  Lemma tp_dual_spec P : tp_ok S P -> new_tprod S (tp_factors (tp_dual S P)) = Some (tp_dual S P) /\ tp_factors (tp_dual S P) = map dual_leg (rev (tp_factors P)) /\
    space_ok S (tp_space (tp_dual S P)) /\ (forall c, sym_valid S c = true -> block_size (tp_dual S P) c = block_size P (sym_dual S c)).
  Proof.
    intros H. destruct (tp_ok_spec OK H) as [O F]. unfold tp_dual, sort_sectors. cbn [sorted]. set (D := dual_sectors S (tp_secs P)). set (p := lexsort_indices D).
    assert (VD : forall s, In s D -> sym_valid S s = true).
    { intros s Is. apply in_map_iff in Is. destruct Is as (a & <- & Ia). apply (fr_dual_valid RING). apply (sk_valid O Ia). }
    assert (LD : length D = length (tp_secs P)) by (unfold D, dual_sectors; apply map_length).
    assert (LM := sk_len O). cbn [tp_space sp_secs sp_mults] in LM.
    assert (ND : NoDup D).
    { apply NoDup_map_inj; [|apply (sk_nodup O)]. intros a b Ha Hb X. rewrite <- (fr_dual_invol RING (sk_valid O Ha)), <- (fr_dual_invol RING (sk_valid O Hb)). congruence. }
    assert (W : same_width (sym_len S) D) by (apply Forall_forall; intros r Ir; apply (fr_len RING), VD, Ir).
    assert (IP : is_perm (length D) p) by apply lexsort_perm.
    assert (PT : Permutation (take [] D p) D) by (now apply take_Permutation).
    assert (OD : space_ok S (Sp (take [] D p) (take 0 (tp_mults P) p) (Some Sorted))).
    { constructor; cbn [sp_secs sp_mults sp_order].
      - intros s Is. apply VD. eapply Permutation_in; [exact PT|exact Is].
      - eapply Permutation_NoDup; [symmetry; exact PT|exact ND].
      - unfold take. now rewrite !map_length.
      - intros m Im. apply (sk_pos O). cbn [tp_space sp_mults]. eapply Permutation_in; [|exact Im]. apply take_Permutation. now rewrite LM, <- LD.
      - apply weakly_strictly; [exact (sorted_weakly W)|]. eapply Permutation_NoDup; [symmetry; exact PT|exact ND]. }
    assert (FD : feq (combine (take [] D p) (take 0 (tp_mults P) p)) (dual_sum S (sp_pairs (tp_space P)))).
    { assert (CT : combine (take [] D p) (take 0 (tp_mults P) p) = take ([], 0) (combine D (tp_mults P)) p).
      { unfold take. assert (LL : length D = length (tp_mults P)) by congruence. clear -LL. induction p as [|i p IH]; [easy|]. cbn [map combine]. rewrite IH. f_equal. now rewrite combine_nth. }
      rewrite CT. unfold dual_sum, sp_pairs. cbn [tp_space sp_secs sp_mults]. rewrite <- combine_map_l. apply feq_perm, take_Permutation.
      rewrite combine_length. rewrite LM, <- LD, Nat.min_id. exact IP. }
    assert (VP := space_ok_valids O).
    split; [|split; [reflexivity|split; [exact OD|]]].
    - cbn [tp_factors]. apply (tp_unique OK); [|exact OD|].
      + rewrite flats_dual. apply Forall_map, Forall_rev, Forall_map. eapply Forall_impl; [|apply H]. intros E OE. now apply dual_space_ok.
      + eapply feq_trans; [exact FD|]. eapply feq_trans; [apply (dual_feq RING); [exact VP|apply fsum_valid, H|exact F]|].
        eapply feq_trans; [apply (convs_dual RING), (pairs_valid OK), H|]. rewrite flats_dual. unfold fsum_of. rewrite map_rev, !map_map.
        rewrite (map_ext_in (fun E => leg_pairs S (dual_es E)) (fun E => dual_sum S (leg_pairs S E))).
        2:{ intros E IE. apply leg_pairs_dual. exact (proj1 (Forall_forall _ _) (proj1 H) E IE). }
        apply (convs_perm RING); [|apply Permutation_rev].
        apply Forall_map. eapply Forall_impl; [|apply H]. intros E OE. apply (valids_dual RING), space_ok_valids, (es_space_ok' OK), OE.
    - intros c Vc. unfold block_size.
      etransitivity; [exact (sector_multiplicity_spec c (sk_nodup OD) (sk_len OD))|]. etransitivity; [|symmetry; exact (sector_multiplicity_spec (sym_dual S c) (sk_nodup O) (sk_len O))].
      unfold sp_mult. rewrite <- !fmult_mult_of. etransitivity; [apply FD|]. exact (fmult_dual RING VP Vc).
  Qed.
End Count.
