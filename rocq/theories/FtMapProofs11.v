(** apply_instructions with a TreePairMapping. *)
From Verif Require Import Util StableSort RowModel RowProofs GridModel GridProofs SymModel SymProofs CatSpec Sums StarMat SpaceModel SpaceSpec SpaceProofs SpaceProofs2 SpaceProofs3 SpaceProofs7
  PipeModel PipeProofs PipeProofs4 TreeModel TreeProofs TreeProofs5 TensorModel TensorSpec FormalSum TensorProofs TensorProofs2 TensorProofs3 TensorProofs4 TensorProofs5 TensorProofs6 BlockModel BlockProofs
  SparseModel ConvertModel ConvertSpec ConvertProofs3 FtOpsModel FtOpsSpec FtOpsProofs2 FtOpsProofs3 FtOpsProofs4 MappingModel MappingProofs PermLegsModel PermLegsSpec MoveModel FtMapModel FtMapSpec FtMapProofs FtMapProofs2 FtMapProofs3 FtMapProofs4 FtMapProofs5 FtMapProofs6 FtMapProofs7 FtMapProofs8 FtMapProofs9 FtMapProofs10.
Set Implicit Arguments. Unset Strict Implicit.
Open Scope nat_scope.

(** instructions only move the legs *)
Lemma exchange_perm l i a b l' : exchange l i = Some (a, b, l') -> Permutation l' l.
Proof.
  unfold exchange. intros E. destruct (skipn i l) as [|x [|y t]] eqn:SK; try discriminate. injection E as <- <- <-. rewrite <- (firstn_skipn i l) at 2. rewrite SK. apply Permutation_app_head. apply perm_swap.
Qed.
Lemma exec1_perm st i st' ev : exec1 st i = Some (st', ev) -> Permutation (leg_order (fst st') (snd st')) (leg_order (fst st) (snd st)).
Proof.
  destruct st as [cod dom]. unfold leg_order. destruct i as [[] idx over|[]|[] idcs over]; cbn [exec1 fst snd].
  - destruct (exchange cod idx) as [[[a b] cod']|] eqn:E; [|discriminate]. intros [= <- _]. cbn [fst snd]. apply Permutation_app_tail. exact (exchange_perm E).
  - destruct (exchange dom idx) as [[[a b] dom']|] eqn:E; [|discriminate]. intros [= <- _]. cbn [fst snd]. apply Permutation_app_head. rewrite <- !Permutation_rev. exact (exchange_perm E).
  - destruct (rev dom) as [|l r] eqn:E; [discriminate|]. intros [= <- _]. cbn [fst snd]. rewrite rev_involutive. rewrite <- app_assoc. reflexivity.
  - destruct (rev cod) as [|l r] eqn:E; [discriminate|]. intros [= <- _]. cbn [fst snd]. rewrite rev_app_distr. cbn [rev app]. rewrite <- (rev_involutive cod), E. cbn [rev]. rewrite <- app_assoc. reflexivity.
  - destruct idcs; [discriminate|]. destruct (forallb _ _); [|discriminate]. intros [= <- _]. reflexivity.
  - destruct idcs; [discriminate|]. destruct (forallb _ _); [|discriminate]. intros [= <- _]. reflexivity.
Qed.
Lemma exec_perm l : forall st st' ev, exec st l = Some (st', ev) -> Permutation (leg_order (fst st') (snd st')) (leg_order (fst st) (snd st)).
Proof.
  induction l as [|i l IH]; intros st st' ev; cbn [exec]; [intros [= <- _]; reflexivity|]. destruct (exec1 st i) as [[st1 ev1]|] eqn:E1; [|discriminate]. destruct (exec st1 l) as [[st2 ev2]|] eqn:E2; [|discriminate].
  intros [= <- _]. rewrite (IH _ _ _ E2). exact (exec1_perm E1).
Qed.
Lemma exec_is_perm J Kn l ci di ev : exec (legs0 J Kn) l = Some ((ci, di), ev) -> is_perm (J + Kn) (leg_order ci di).
Proof.
  intros E. assert (P := exec_perm E). cbn [fst snd legs0] in P. unfold is_perm. rewrite P. unfold leg_order. rewrite rev_involutive, <- seq_app. reflexivity.
Qed.

Section Keys.
  Variable S : tsymm.
  Hypothesis OK : tsymm_ok S.
  Variable K : Type.
  Variable o : ops K.
  Notation fdata := (list (nat * nat * blk K)).
  Variables P Q : tprod.
  Hypothesis HP : tp_ok S P.
  Hypothesis HQ : tp_ok S Q.
  Variable F : fdata.
  Hypothesis FO : ft_ok P Q F.

  Lemma pair_keys_In X Y : In (X, Y) (pair_keys S P Q (map fst F)) <-> exists e, In e F /\ let c := nth (fst (fst e)) (tp_secs P) [] in tree_of S P c X /\ tree_of S Q c Y.
  Proof.
    unfold pair_keys. rewrite in_flat_map. split.
    - intros [r [Ir I]]. apply in_map_iff in Ir. destruct Ir as [e [ <- Ie]]. exists e. split; [exact Ie|]. cbv zeta in *. set (c := nth (fst (fst e)) (tp_secs P) []) in *. apply in_flat_map in I. destruct I as [x [Ix I]]. apply in_map_iff in I. destruct I as [y [E Iy]]. injection E as <- <-.
      split; [apply (items_trees OK c HP); apply in_map; exact Ix|apply (items_trees OK c HQ); apply in_map; exact Iy].
    - intros (e & Ie & TX & TY). exists (fst e). split; [now apply in_map|]. cbv zeta. set (c := nth (fst (fst e)) (tp_secs P) []) in *. apply (items_trees OK c HP) in TX. apply (items_trees OK c HQ) in TY. apply in_map_iff in TX, TY. destruct TX as [x [ <- Ix]], TY as [y [ <- Iy]].
      apply in_flat_map. exists x. split; [exact Ix|]. apply in_map_iff. exists y. split; [reflexivity|exact Iy].
  Qed.
  Lemma not_stored_zero c x y : (forall e, In e F -> nth (fst (fst e)) (tp_secs P) [] <> c) -> ft_entry o Q F c x y = o0 o.
  Proof.
    intros H. unfold ft_entry. destruct (List.find _ F) as [e|] eqn:FD; [|reflexivity]. apply find_some in FD. destruct FD as [I E]. apply row_eqb_eq in E. exfalso. apply (H e I). rewrite (fo_sector FO I). exact E.
  Qed.
  Lemma not_key_zero c X Y p q : tree_of S P c X -> tree_of S Q c Y -> ~ In (X, Y) (pair_keys S P Q (map fst F)) -> tree_value S o P Q F X p Y q = o0 o.
  Proof.
    intros TX TY N. unfold tree_value. destruct (tree_block_slice S P X) as [[x x']|]; [|reflexivity]. destruct (tree_block_slice S Q Y) as [[y y']|]; [|reflexivity]. rewrite (tree_of_coup TX). apply not_stored_zero.
    intros e Ie E. apply N. apply pair_keys_In. exists e. cbv zeta. rewrite E. auto.
  Qed.
End Keys.

Section Real.
  Variable S : symmetry.
  Variable K : Type.
  Variable o : ops K.
  Variable re : K -> K.
  Hypothesis RP : real_part o re.
  Variables (R : Rsym K) (C : Fsym K) (B : Bsym K) (sqrt_qdim inv_sqrt_qdim fs theta : sector -> K).
  Hypothesis RS : real_symbols re R C B sqrt_qdim inv_sqrt_qdim fs theta.
  Variable small : K -> bool.
  Variable trivial_braid : bool.
  Notation braid_tree := (braid_tree S o R C small).
  Notation twist_tree := (twist o theta trivial_braid).
  Notation bend_pair := (fun X Y down => bend_leg S o B sqrt_qdim inv_sqrt_qdim fs X Y down false).
  Lemma braid_real t j over dc r u x : braid_tree t j over dc = Some r -> In (u, x) r -> re x = x.
  Proof.
    unfold MoveModel.braid_tree. destruct (j + 1 <? num_uncoupled t); [|discriminate]. intros [= <-]. unfold braid. destruct (j =? 0).
    - destruct (vertex_labels t 0) as [[[a b] mu] c]. intros [E|[]]. injection E as _ <-. destruct dc, over; repeat apply (rl_conj RP); apply (rs_R RS).
    - destruct (vertex_labels t (j - 1)) as [[[a b] mu] e], (vertex_labels t j) as [[[? c] nu] d]. intros I. apply in_flat_map in I. destruct I as [f [_ I]]. destruct (negb (can_fuse_to S f b d)); [destruct I|].
      unfold for_each2d in I. apply in_flat_map in I. destruct I as [k [_ I]]. apply in_flat_map in I. destruct I as [lam [_ I]]. cbv zeta in I. destruct (small _); [destruct I|]. destruct I as [E|[]]. injection E as _ <-.
      destruct dc, over; repeat apply (rl_conj RP); apply (rs_C RS).
  Qed.
  Lemma twist_real t idcs over r u x : twist_tree t idcs over = Some r -> In (u, x) r -> re x = x.
  Proof.
    assert (ONE : forall y z, In (u, x) [(y, z)] -> re z = z -> re x = x) by (intros y z [E|[]] H; injection E as _ <-; exact H).
    assert (PH : forall a, re (if over then theta a else oconj o (theta a)) = (if over then theta a else oconj o (theta a))) by (intros a; destruct over; [|apply (rl_conj RP)]; apply (rs_theta RS)).
    unfold twist. cbv zeta. intros H I. destruct trivial_braid; [injection H as <-; apply (ONE _ _ I), (rl_1 RP)|]. destruct idcs as [|i [|j l]]; [injection H as <-; apply (ONE _ _ I), (rl_1 RP)| |].
    - destruct (i <? _); [|discriminate]. injection H as <-. apply (ONE _ _ I), PH.
    - destruct (negb (forallb _ _)); [discriminate|]. destruct (negb (strictly_up _)); [discriminate|]. destruct (_ =? _); [injection H as <-; apply (ONE _ _ I), PH|]. destruct (forallb _ _); [|discriminate]. injection H as <-. apply (ONE _ _ I), PH.
  Qed.
  Lemma bend_down_real X Y dc r u x : bend_down S o B sqrt_qdim inv_sqrt_qdim fs X Y dc = Some r -> In (u, x) r -> re x = x.
  Proof.
    unfold bend_down. cbv zeta. intros H I. destruct (num_uncoupled Y =? 0); [discriminate|]. destruct (num_uncoupled Y =? 1).
    - destruct (extended X _ _ _ _); [|discriminate]. injection H as <-. destruct I as [E|[]]. injection E as _ <-. destruct (last _ _); [apply (rl_mul RP)|]; auto using (rs_qdim RS), (rs_fs RS).
    - destruct (split_bottom_vertex S Y) as [[[[X_i w] mu] z]|]; [|discriminate]. destruct (num_uncoupled X =? 0).
      + injection H as <-. destruct I as [E|[]]. injection E as _ <-. destruct (negb _); [apply (rl_mul RP)|]; auto using (rs_inv RS), (rs_fs RS).
      + apply all_some_spec in H. assert (EX : exists nu, In nu (seq 0 (n_symbol S (t_coup Y) (sym_dual S z) (t_coup X_i))) /\ match extended X (sym_dual S z) nu (t_coup X_i) (negb (last (t_dual Y) false)) with Some Y_i => Some (Y_i, X_i, if dc then oconj o (if last (t_dual Y) false then omul o (B (t_coup X_i) z (t_coup Y) mu nu) (fs z) else B (t_coup X_i) z (t_coup Y) mu nu) else if last (t_dual Y) false then omul o (B (t_coup X_i) z (t_coup Y) mu nu) (fs z) else B (t_coup X_i) z (t_coup Y) mu nu) | None => None end = Some (u, x)).
        { revert I. induction H as [|a e l0 r0 Ea H IH]; [easy|]. intros [ -> |I]; [exists a; split; [now left|exact Ea]|]. destruct (IH I) as [nu [I' E']]. exists nu. split; [now right|exact E']. }
        destruct EX as [nu [_ E]]. destruct (extended X _ _ _ _); [|discriminate]. injection E as _ <-.
        assert (G : forall b : bool, re (B (t_coup X_i) z (t_coup Y) mu nu) = B (t_coup X_i) z (t_coup Y) mu nu -> re (if b then omul o (B (t_coup X_i) z (t_coup Y) mu nu) (fs z) else B (t_coup X_i) z (t_coup Y) mu nu) = (if b then omul o (B (t_coup X_i) z (t_coup Y) mu nu) (fs z) else B (t_coup X_i) z (t_coup Y) mu nu)).
        { intros b' Hb. destruct b'; [apply (rl_mul RP); [exact Hb|apply (rs_fs RS)]|exact Hb]. }
        destruct dc; [apply (rl_conj RP)|]; apply G, (rs_B RS).
  Qed.
  Lemma move_real i XY r XY' x : move braid_tree twist_tree bend_pair i XY = Some r -> In (XY', x) r -> re x = x.
  Proof.
    destruct i as [[] idx over|[]|[] idcs over]; cbn [move]; unfold left_map, right_map, bend_leg; intros H I.
    - destruct (braid_tree (fst XY) idx (negb over) true) eqn:E; [|discriminate]. injection H as <-. apply in_map_iff in I. destruct I as [[u y] [E' I]]. injection E' as _ <-. exact (braid_real E I).
    - destruct (braid_tree (snd XY) idx over false) eqn:E; [|discriminate]. injection H as <-. apply in_map_iff in I. destruct I as [[u y] [E' I]]. injection E' as _ <-. exact (braid_real E I).
    - exact (bend_down_real H I).
    - destruct (bend_down _ _ _ _ _ _ _ _ _) eqn:E; [|discriminate]. injection H as <-. apply in_map_iff in I. destruct I as [[u y] [E' I]]. injection E' as _ <-. exact (bend_down_real E I).
    - destruct (twist_tree (fst XY) idcs over) eqn:E; [|discriminate]. injection H as <-. apply in_map_iff in I. destruct I as [[u y] [E' I]]. injection E' as _ <-. exact (twist_real E I).
    - destruct (twist_tree (snd XY) idcs over) eqn:E; [|discriminate]. injection H as <-. apply in_map_iff in I. destruct I as [[u y] [E' I]]. injection E' as _ <-. exact (twist_real E I).
  Qed.
End Real.

Section Mixed.
  Variable S : tsymm.
  Hypothesis OK : tsymm_ok S.
  Variable K : Type.
  Variable o : ops K.
  Hypothesis SR : semi_ring_theory (o0 o) (o1 o) (oadd o) (omul o) (@eq K).
  Variable re : K -> K.
  Hypothesis RP : real_part o re.
  Notation fdata := (list (nat * nat * blk K)).
  Variables (R : Rsym K) (C : Fsym K) (B : Bsym K) (sqrt_qdim inv_sqrt_qdim fs theta : sector -> K).
  Variables small big : K -> bool.
  Hypothesis BIG : forall c, big c = false -> c = o0 o.
  Variable trivial_braid : bool.
  Notation braid_tree := (braid_tree S o R C small).
  Notation twist_tree := (twist o theta trivial_braid).
  Notation bend_pair := (fun X Y down => bend_leg S o B sqrt_qdim inv_sqrt_qdim fs X Y down false).
  Notation move := (move braid_tree twist_tree bend_pair).
  Notation moved := (moved o braid_tree twist_tree bend_pair).
  Variables P Q P' Q' : tprod.
  Hypothesis HP : tp_ok S P.
  Hypothesis HQ : tp_ok S Q.
  Hypothesis HP' : tp_ok S P'.
  Hypothesis HQ' : tp_ok S Q'.
  Variable F : fdata.
  Hypothesis FO : ft_ok P Q F.
  Notation J := (length (tp_flat_legs P)).
  Notation Kn := (length (tp_flat_legs Q)).
  Variables ci di : list nat.
  Hypothesis PP : permuted_products ci di P Q P' Q'.
  Variable l : list instruction.
  Variable ev : list event.
  Hypothesis EX : exec (legs0 J Kn) l = Some ((ci, di), ev).
  Hypothesis SUP : Forall supported l.
  Variables topo_real data_real : bool.
  Hypothesis TR : topo_real = true -> real_symbols re R C B sqrt_qdim inv_sqrt_qdim fs theta.
  Variable small_block : blk K -> bool.
  (** only blocks that are zero are discarded *)
  Hypothesis SB : forall b, small_block b = true -> forall i, bat o b i = o0 o.

  Notation is_real := (match l with [] => true | _ => topo_real end).
  Lemma discard_value (G : fdata) X p Y q : ft_ok P' Q' G -> tree_value S o P' Q' (ft_discard small_block G) X p Y q = tree_value S o P' Q' G X p Y q.
  Proof.
    intros GO. unfold tree_value. destruct (tree_block_slice S P' X) as [[x x']|]; [|reflexivity]. destruct (tree_block_slice S Q' Y) as [[y y']|]; [|reflexivity].
    rewrite !ft_entry_get, (discard_get OK HQ' GO). destruct (ft_get Q' G (t_coup X)) as [b|]; [|reflexivity]. destruct (small_block b) eqn:Eb; [|reflexivity]. symmetry. now apply SB.
  Qed.
  Lemma mixed_spec : exists F', apply_instructions S o re braid_tree twist_tree bend_pair big topo_real data_real small_block l F P Q P' Q' ci di true = Some F' /\ ft_ok P' Q' F' /\
    forall c X Y p q p' q' L, tree_of S P' c X -> tree_of S Q' c Y -> length p = J -> length q = Kn -> permuted_legs 0 ci di p q p' q' -> valid_idx (tree_mults S P' X) p' -> valid_idx (tree_mults S Q' Y) q' ->
      all_pairs S P Q L ->
      tree_value S o P' Q' F' X p' Y q' = osum o (map (fun k => omul o (amount pair_dec o (moved l k) (X, Y)) (tree_value S o P Q F (fst k) p (snd k) q)) L).
  Proof.
    assert (PM := exec_is_perm EX). set (real := data_real && is_real).
    set (Inv := fun (st : list nat * list nat) k XY => (exists c, tree_of S P c (fst k) /\ tree_of S Q c (snd k)) /\ pair_at S (sec_at S k) (dual_at P Q) st XY).
    set (good := fun i => supported i /\ is_real = topo_real). set (Pk := fun c => real = true -> re c = c).
    assert (STEP : forall st i st' ev0 k XY, exec1 st i = Some (st', ev0) -> good i -> Inv st k XY -> exists r, move i XY = Some r /\ NoDup (map fst r) /\ forall XY', In XY' (map fst r) -> Inv st' k XY').
    { intros st i st' ev0 [X Y] XY E [G _] [(c & TX & TY) AT]. cbn [fst snd] in *.
      destruct (@step_at S (to_ring OK) K o B sqrt_qdim inv_sqrt_qdim fs theta trivial_braid R C small (sec_at S (X, Y)) (dual_at P Q) (sec_valid OK HP HQ TX TY) st i st' ev0 XY E) as (r & E' & ND & H); [|exact AT|].
      - intros c0 idcs over ->. exact G.
      - exists r. split; [exact E'|]. split; [exact ND|]. intros XY' I. split; [exists c; auto|now apply H]. }
    destruct (@pair_mapping_spec K o SR braid_tree twist_tree bend_pair big BIG Inv good STEP Pk (fun _ => rl_0 RP) (fun _ => rl_1 RP)) with (S := S) (P := P) (Q := Q) (rows := map fst F) (l := l) (st := legs0 J Kn) (st' := (ci, di)) (ev := ev) as (m & EM & RPm & CI & CP).
    - intros a b Ha Hb E. apply (rl_add RP); auto.
    - intros a b Ha Hb E. apply (rl_mul RP); auto.
    - intros st i st' ev0 k XY r XY' c E [_ G] _ EM I ER. unfold real in ER. rewrite G in ER. apply andb_true_iff in ER. exact (move_real RP (TR (proj2 ER)) EM I).
    - exact EX.
    - destruct l as [|i0 l0]; [constructor|]. rewrite Forall_forall in *. intros i I. split; [now apply SUP|reflexivity].
    - intros [X Y] I. apply (pair_keys_In OK HP HQ F) in I. destruct I as (e & Ie & TX & TY). split; [eexists; eauto|]. exact (key_at OK HP HQ TX TY).
    - unfold apply_instructions. rewrite EM.
      assert (MP : maps_pairs S P Q P' Q' ci di m).
      { intros X Y col X' Y' c' I J1 _ _. destruct (CI _ _ _ I J1) as [(c & TX & TY) AT]. exists c. split; [exact TX|]. split; [exact TY|]. exact (mults_permuted OK HP HQ PM PP TX TY AT). }
      assert (LD : length di = length (tp_flat_legs Q')). { destruct PP as [LC EQ]. unfold permuted_legs in EQ. apply (f_equal (@length _)) in EQ. rewrite take_length in EQ. unfold leg_order in EQ. rewrite !app_length, !rev_length, map_length in EQ. lia. }
      destruct (@pair_transform_spec S OK K o SR re P Q P' Q' F HP HQ HP' HQ' FO ci di PM (proj1 PP) LD real m MP) with (data_real := data_real) (is_real := is_real) as (F' & EF & FO' & V).
      + intros k col i c I J1. unfold as_scalar. destruct real eqn:ER; [|reflexivity]. exact (CP _ _ _ _ I J1 eq_refl).
      + reflexivity.
      + rewrite EF. eexists. split; [reflexivity|]. split; [exact (discard_ok FO' small_block)|]. intros c X Y p q p' q' L TX TY Lp Lq PL V1 V2 [NDL AL]. rewrite discard_value by exact FO'. rewrite (V c X Y p q p' q' TX TY Lp Lq PL V1 V2).
        unfold new_value. assert (RPn : represents pair_dec o m (nodup pair_dec (pair_keys S P Q (map fst F))) (moved l)).
        { constructor; [apply (rp_wf RPm)|intros k; rewrite nodup_In; apply (rp_keys RPm)|intros k i I; apply nodup_In in I; apply (rp_entry RPm i I)]. }
        rewrite (represents_sum SR (fun k => tree_value S o P Q F (fst k) p (snd k) q) (X, Y) RPn (NoDup_nodup _ _)).
        apply (sum_incl SR pair_dec); [apply NoDup_nodup|exact NDL| |].
        * intros [X0 Y0] I. apply nodup_In in I. apply (pair_keys_In OK HP HQ F) in I. destruct I as (e & Ie & T1 & T2). apply AL. eexists. split; eauto.
        * intros [X0 Y0] I NI. apply AL in I. destruct I as (c0 & T1 & T2). cbn [fst snd]. rewrite (not_key_zero OK o HP HQ FO p q T1 T2); [apply (mul_0_r SR)|]. intros I. apply NI. now apply nodup_In.
  Qed.
End Mixed.
