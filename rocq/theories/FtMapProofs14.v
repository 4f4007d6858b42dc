(** apply_instructions with a FactorizedTreeMapping: the theorem. *)
From Verif Require Import Util StableSort RowModel RowProofs GridModel GridProofs SymModel SymProofs CatSpec Sums StarMat SpaceModel SpaceSpec SpaceProofs SpaceProofs2 SpaceProofs3 SpaceProofs7
  PipeModel PipeProofs PipeProofs4 TreeModel TreeProofs TreeProofs5 TensorModel TensorSpec FormalSum TensorProofs TensorProofs2 TensorProofs3 TensorProofs4 TensorProofs5 TensorProofs6 BlockModel BlockProofs
  SparseModel ConvertModel ConvertSpec ConvertProofs3 FtOpsModel FtOpsSpec FtOpsProofs2 FtOpsProofs3 FtOpsProofs4 MappingModel MappingProofs PermLegsModel PermLegsSpec MoveModel FtMapModel FtMapSpec FtMapProofs FtMapProofs2 FtMapProofs3 FtMapProofs4 FtMapProofs5 FtMapProofs6 FtMapProofs7 FtMapProofs8 FtMapProofs9 FtMapProofs10 FtMapProofs11 FtMapProofs12 FtMapProofs13.
Set Implicit Arguments. Unset Strict Implicit.
Open Scope nat_scope.

(** without bends the legs stay on their sides *)
Lemma exec_sides l : forall cod dom cod' dom' ev, Forall no_bend l -> exec (cod, dom) l = Some ((cod', dom'), ev) -> Permutation cod' cod /\ Permutation dom' dom.
Proof.
  induction l as [|i l IH]; intros cod dom cod' dom' ev NB; cbn [exec]; [intros [= <- <- _]; auto|]. inversion NB as [|? ? N1 N2]; subst.
  destruct (exec1 (cod, dom) i) as [[[cod1 dom1] ev1]|] eqn:E1; [|discriminate]. destruct (exec (cod1, dom1) l) as [[[cod2 dom2] ev2]|] eqn:E2; [|discriminate]. intros [= <- <- _].
  destruct (IH _ _ _ _ _ N2 E2) as [H1 H2]. assert (G : Permutation cod1 cod /\ Permutation dom1 dom); [|destruct G as [G1 G2]; rewrite H1, H2; auto].
  destruct i as [[] idx over|d|[] idcs over]; cbn [exec1] in E1; [| |destruct N1| |].
  - destruct (exchange cod idx) as [[[a b] c]|] eqn:E; [|discriminate]. injection E1 as <- <- _. split; [exact (exchange_perm E)|reflexivity].
  - destruct (exchange dom idx) as [[[a b] c]|] eqn:E; [|discriminate]. injection E1 as <- <- _. split; [reflexivity|exact (exchange_perm E)].
  - destruct idcs; [discriminate|]. destruct (forallb _ _); [|discriminate]. injection E1 as <- <- _. auto.
  - destruct idcs; [discriminate|]. destruct (forallb _ _); [|discriminate]. injection E1 as <- <- _. auto.
Qed.
Lemma map_sub_seq J Kn : map (fun i => J + Kn - 1 - i) (rev (seq J Kn)) = seq 0 Kn.
Proof.
  apply list_eq_nth with (d := 0); rewrite ?map_length, ?rev_length, ?seq_length; [reflexivity|]. intros i Hi. rewrite nth_map_lt with (d := 0) by (rewrite rev_length, seq_length; exact Hi).
  rewrite rev_nth by (rewrite seq_length; exact Hi). rewrite !seq_length, !seq_nth by lia. lia.
Qed.
Lemma NoDup_list_prod (A B : Type) (l : list A) (l' : list B) : NoDup l -> NoDup l' -> NoDup (list_prod l l').
Proof.
  induction 1 as [|a l N H IH]; intros H'; [constructor|]. cbn [list_prod]. apply NoDup_app_intro; [|now apply IH|].
  - apply NoDup_map_inj; [|exact H']. intros x y _ _ E. congruence.
  - intros [x y] I1 I2. apply in_map_iff in I1. destruct I1 as [z [E _]]. injection E as <- <-. apply in_prod_iff in I2. now destruct I2.
Qed.

Section Factorized.
  Variable S : tsymm.
  Hypothesis OK : tsymm_ok S.
  Variable K : Type.
  Variable o : ops K.
  Hypothesis SR : semi_ring_theory (o0 o) (o1 o) (oadd o) (omul o) (@eq K).
  Add Ring Kr : SR.
  Variable re : K -> K.
  Hypothesis RP : real_part o re.
  Notation fdata := (list (nat * nat * blk K)).
  Variables (R : Rsym K) (C : Fsym K) (B : Bsym K) (sqrt_qdim inv_sqrt_qdim fs theta : sector -> K).
  Variables small big : K -> bool.
  Hypothesis BIG : forall c, big c = false -> c = o0 o.
  Variable trivial_braid : bool.
  Notation braid_tree := (braid_tree S o R C small).
  Notation twist_tree := (twist o theta trivial_braid).
  Notation bend_pair := (fun X Y down => bend_leg S o B sqrt_qdim inv_sqrt_qdim fs X Y down false).
  Notation moved := (moved o braid_tree twist_tree bend_pair).
  Variables P Q P' Q' : tprod.
  Hypothesis HP : tp_ok S P.
  Hypothesis HQ : tp_ok S Q.
  Hypothesis HP' : tp_ok S P'.
  Hypothesis HQ' : tp_ok S Q'.
  Variable F : fdata.
  Hypothesis FO : ft_ok P Q F.
  Notation J := (length (tp_flat_legs P)).
  Notation Kn := (length (tp_flat_legs Q)).
  Variables ci di : list nat.
  Hypothesis PP : permuted_products ci di P Q P' Q'.
  Variable l : list instruction.
  Variable ev : list event.
  Hypothesis EX : exec (legs0 J Kn) l = Some ((ci, di), ev).
  Hypothesis SUP : Forall supported l.
  Hypothesis NB : Forall no_bend l.
  Variables topo_real data_real : bool.
  Hypothesis TR : topo_real = true -> real_symbols re R C B sqrt_qdim inv_sqrt_qdim fs theta.
  Hypothesis DR : data_real = true -> topo_real = true.
  Variable small_block : blk K -> bool.
  Hypothesis SB : forall b, small_block b = true -> forall i, bat o b i = o0 o.
  Notation is_real := (match l with [] => true | _ => topo_real end).
  Notation nospace := (ES [] [] false None).
  Notation posQ := (fun i => J + Kn - 1 - i).
  Notation di' := (map (fun i => (J + Kn - 1) - i) di).

  Lemma side_perms : is_perm J ci /\ Permutation di (rev (seq J Kn)) /\ is_perm Kn di'.
  Proof.
    destruct (exec_sides NB EX) as [H1 H2]. split; [exact H1|]. split; [exact H2|]. unfold is_perm. rewrite H2. rewrite map_sub_seq. reflexivity.
  Qed.
  Lemma ci_lt i : In i ci -> i < J.
  Proof. intros I. exact (proj1 (is_perm_In i (proj1 side_perms)) I). Qed.
  Lemma di_range i : In i di -> J <= i < J + Kn.
  Proof. intros I. assert (H := Permutation_in i (proj1 (proj2 side_perms)) I). apply in_rev, in_seq in H. lia. Qed.
  Lemma legs_P' : tp_flat_legs P' = map (fun i => nth i (tp_flat_legs P) nospace) ci.
  Proof.
    destruct (parts PP) as [E _]. rewrite E. apply map_ext_in. intros i I. unfold leg_at, legs. apply app_nth1. now apply ci_lt.
  Qed.
  Lemma legs_Q' : tp_flat_legs Q' = map (fun i => nth (posQ i) (tp_flat_legs Q) nospace) di.
  Proof.
    destruct (parts PP) as [_ E]. rewrite <- (map_id (tp_flat_legs Q')). rewrite (map_ext (fun x => x) (fun x => dual_es (dual_es x))) by (intros; symmetry; apply dual_es_invol). rewrite <- (map_map dual_es dual_es), E, map_map.
    apply map_ext_in. intros i I. destruct (di_range I). unfold leg_at, legs. rewrite app_nth2 by lia. rewrite rev_nth by (rewrite map_length; lia). rewrite map_length. rewrite nth_map_lt with (d := nospace) by lia. rewrite dual_es_invol. f_equal. lia.
  Qed.
  Lemma legs_perm : Permutation (tp_flat_legs Q') (tp_flat_legs Q).
  Proof.
    rewrite legs_Q', <- (map_map posQ (fun i => nth i (tp_flat_legs Q) nospace)). exact (take_Permutation nospace (proj2 (proj2 side_perms))).
  Qed.

  Notation keysL := (side_keys S P P (map fst F)).
  Notation keysR := (side_keys S P Q (map fst F)).
  Lemma side_keys_In A X : tp_ok S A -> (In X (side_keys S P A (map fst F)) <-> exists e, In e F /\ tree_of S A (nth (fst (fst e)) (tp_secs P) []) X).
  Proof.
    intros HA. unfold side_keys. rewrite in_flat_map. split.
    - intros [r [Ir I]]. apply in_map_iff in Ir. destruct Ir as [e [ <- Ie]]. exists e. split; [exact Ie|]. now apply (items_trees OK _ HA).
    - intros (e & Ie & T). exists (fst e). split; [now apply in_map|]. now apply (items_trees OK _ HA).
  Qed.
  Notation InvL := (side_inv S P (fun i => i)).
  Notation InvR := (side_inv S Q posQ).
  Notation Pk := (fun c => data_real = true -> re c = c).
  Notation LL := (fun k => fold_left (lstep o braid_tree twist_tree) l [(k, o1 o)]).
  Notation LR := (fun k => fold_left (rstep o braid_tree twist_tree) l [(k, o1 o)]).
  Lemma factorized_mapping_spec : exists s f, factorized_mapping S o braid_tree twist_tree big P Q (map fst F) l = Some (s, f) /\
    vstate o Pk InvL (seq 0 J) ci s keysL LL /\ vstate o Pk InvR (rev (seq J Kn)) di f keysR LR.
  Proof.
    unfold factorized_mapping. refine (@fact_steps K o SR braid_tree twist_tree big BIG Pk _ _ _ _ _ InvL InvR _ _ _ _ l (seq 0 J) (rev (seq J Kn)) ci di ev _ _ _ _ _ _ (fun k => [(k, o1 o)]) (fun k => [(k, o1 o)]) EX NB SUP _ _).
    - intros _. apply (rl_0 RP).
    - intros a b Ha Hb E. apply (rl_add RP); auto.
    - intros a b Ha Hb E. apply (rl_mul RP); auto.
    - intros X idx over dc r y c E I D. exact (braid_real RP (TR (DR D)) E I).
    - intros X idcs over r y c E I D. exact (twist_real RP (TR (DR D)) E I).
    - intros. eapply side_braid; eauto.
    - intros. eapply side_braid; eauto.
    - intros. eapply side_twist; eauto.
    - intros. eapply side_twist; eauto.
    - constructor; cbn [vrep vall vcoefs]; auto.
      + split; [intros k; apply nodup_In|]. split; [apply NoDup_nodup|]. intros k i _. apply (amount_one tree_dec SR).
      + intros k I. apply nodup_In in I. apply (side_keys_In k HP) in I. destruct I as (e & _ & T). apply (side_start OK HP (c := nth (fst (fst e)) (tp_secs P) [])); [apply map_id|exact T].
    - constructor; cbn [vrep vall vcoefs]; auto.
      + split; [intros k; apply nodup_In|]. split; [apply NoDup_nodup|]. intros k i _. apply (amount_one tree_dec SR).
      + intros k I. apply nodup_In in I. apply (side_keys_In k HQ) in I. destruct I as (e & _ & T). apply (side_start OK HQ (c := nth (fst (fst e)) (tp_secs P) [])); [apply map_sub_seq|exact T].
  Qed.
  Lemma permuted_sides (p q p' q' : list nat) : length p = J -> length q = Kn -> length p' = length ci -> permuted_legs 0 ci di p q p' q' -> p' = take 0 p ci /\ q' = take 0 q di'.
  Proof.
    intros Lp Lq Lp' H. unfold permuted_legs, leg_order in H. rewrite take_app_idx in H. apply app_inj_length in H; [|now rewrite take_length]. destruct H as [E1 E2]. split.
    - rewrite E1. apply map_ext_in. intros i I. apply app_nth1. rewrite Lp. now apply ci_lt.
    - apply (f_equal (@rev nat)) in E2. rewrite rev_involutive in E2. rewrite E2. unfold take. rewrite map_rev, rev_involutive, map_map. apply map_ext_in. intros i I. destruct (di_range I). rewrite app_nth2 by lia. rewrite rev_nth by lia. f_equal. lia.
  Qed.
  Lemma side_real v Inv l0 legs keys L real : vstate o Pk Inv l0 legs v keys L -> (real = true -> data_real = true) -> match v with inl _ => True | inr m => real_entries re real m end.
  Proof.
    intros [_ _ H _] D. destruct v as [ks|m]; [exact Logic.I|]. intros k col i c I1 I2. unfold as_scalar. destruct real; [|reflexivity]. apply (H _ _ _ _ I1 I2). now apply D.
  Qed.
  Definition sector_dec : forall a b : sector, {a = b} + {a <> b} := list_eq_dec Z.eq_dec.

  Lemma factorized_spec : exists F', apply_instructions S o re braid_tree twist_tree bend_pair big topo_real data_real small_block l F P Q P' Q' ci di false = Some F' /\ ft_ok P' Q' F' /\
    forall c X Y p q p' q' L, tree_of S P' c X -> tree_of S Q' c Y -> length p = J -> length q = Kn -> permuted_legs 0 ci di p q p' q' -> valid_idx (tree_mults S P' X) p' -> valid_idx (tree_mults S Q' Y) q' ->
      all_pairs S P Q L ->
      tree_value S o P' Q' F' X p' Y q' = osum o (map (fun k => omul o (amount pair_dec o (moved l k) (X, Y)) (tree_value S o P Q F (fst k) p (snd k) q)) L).
  Proof.
    destruct factorized_mapping_spec as (s & f & EM & VL & VR). unfold apply_instructions. rewrite EM. destruct side_perms as (PC & _ & PD).
    assert (SO : side_ok S re data_real s P P' ci).
    { unfold side_ok. destruct s as [ks|m].
      - assert (E := vs_id VL). cbn in E. split; [|exact E]. rewrite legs_P', E. apply (take_seq nospace).
      - split; [|exact (side_real VL (fun e => e))]. intros X col X' c I I' T. assert (IN := vs_all VL X col X' I I'). split.
        + destruct IN as ((c0 & T0 & E) & _). rewrite (tree_of_coup T) in E. subst c0. exact T0.
        + rewrite (side_mults (A' := P') (fun i Hi => ci_lt Hi) legs_P' IN). now rewrite map_id. }
    assert (FS : side_ok S re (match s with inl _ => data_real | inr _ => data_real && is_real end) f Q Q' di').
    { unfold side_ok. destruct f as [ks|m].
      - assert (E := vs_id VR). cbn in E. assert (E' : di' = seq 0 Kn) by (rewrite E; apply map_sub_seq). split; [|exact E']. rewrite legs_Q', <- (map_map posQ (fun i => nth i (tp_flat_legs Q) nospace)), E'. apply (take_seq nospace).
      - split; [|apply (side_real VR); destruct s; [auto|]; intros E; apply andb_true_iff in E; apply E]. intros X col X' c I I' T. assert (IN := vs_all VR X col X' I I'). split.
        + destruct IN as ((c0 & T0 & E) & _). rewrite (tree_of_coup T) in E. subst c0. exact T0.
        + refine (side_mults (A' := Q') (fun i Hi => _) legs_Q' IN). destruct (di_range Hi). cbv beta. lia. }
    destruct (@factorized_transform_spec S OK K o SR re P Q P' Q' HP HQ HP' HQ' F FO ci di PC PD legs_perm data_real is_real s f SO FS) as (F' & EF & FO' & V).
    rewrite EF. eexists. split; [reflexivity|]. split; [exact (discard_ok FO' small_block)|]. intros c X Y p q p' q' L TX TY Lp Lq PL V1 V2 [NDL AL]. rewrite (discard_value OK HQ' SB _ _ _ _ FO').
    assert (Lp' : length p' = length ci) by (rewrite (valid_length V1), (tree_mults_len TX); symmetry; apply PP).
    destruct (permuted_sides Lp Lq Lp' PL) as [E1 E2]. rewrite E1 in *. rewrite E2 in *. rewrite (V c X Y p q TX TY Lp Lq V1 V2). unfold factorized_value.
    set (tv := fun X0 Y0 => tree_value S o P Q F X0 p Y0 q).
    assert (ZT : forall X0 Y0, (forall e, In e F -> nth (fst (fst e)) (tp_secs P) [] <> t_coup X0) -> tv X0 Y0 = o0 o).
    { intros X0 Y0 N. unfold tv, tree_value. destruct (tree_block_slice S P X0) as [[x x']|]; [|reflexivity]. destruct (tree_block_slice S Q Y0) as [[y y']|]; [|reflexivity]. now apply (not_stored_zero o FO). }
    assert (CL : forall X0, In X0 keysL -> t_coup X0 <> c -> amount tree_dec o (LL X0) X = o0 o).
    { intros X0 I N. apply (@vamount K o s keysL LL (InvL ci) X0 X (vs_rep VL) (vs_all VL) I). intros ((c0 & T0 & E) & _). apply N. rewrite (tree_of_coup T0), <- E. apply (tree_of_coup TX). }
    assert (CR : forall Y0, In Y0 keysR -> t_coup Y0 <> c -> amount tree_dec o (LR Y0) Y = o0 o).
    { intros Y0 I N. apply (@vamount K o f keysR LR (InvR di) Y0 Y (vs_rep VR) (vs_all VR) I). intros ((c0 & T0 & E) & _). apply N. rewrite (tree_of_coup T0), <- E. apply (tree_of_coup TY). }
    assert (INNER : forall Y0, side_sum o s X (fun X0 => tv X0 Y0) = osum o (map (fun X0 => omul o (amount tree_dec o (LL X0) X) (tv X0 Y0)) (nodup tree_dec keysL))).
    { intros Y0. unfold side_sum, coef. apply (@vsum K o SR s keysL LL (fun X0 => tv X0 Y0) X (vs_rep VL)). destruct s as [ks|m]; [|exact Logic.I]. intros N. apply ZT. intros e Ie E. apply N. apply (side_keys_In X HP). exists e. split; [exact Ie|].
      rewrite E, (tree_of_coup TX). apply (same_tree_of S (proj1 SO)). exact TX. }
    transitivity (osum o (map (fun Y0 => omul o (amount tree_dec o (LR Y0) Y) (side_sum o s X (fun X0 => tv X0 Y0))) (nodup tree_dec keysR))).
    { unfold side_sum at 1, coef. apply (@vsum K o SR f keysR LR (fun Y0 => side_sum o s X (fun X0 => tv X0 Y0)) Y (vs_rep VR)). destruct f as [ks|m]; [|exact Logic.I]. intros N. rewrite INNER. apply (sum_zero SR). intros X0 I. apply nodup_In in I.
      destruct (sector_dec (t_coup X0) c) as [Ec|Nc]; [|rewrite (CL X0 I Nc); ring]. rewrite ZT; [ring|]. intros e Ie E. apply N. apply (side_keys_In Y HQ). exists e. split; [exact Ie|]. rewrite E, Ec. apply (same_tree_of S (proj1 FS)). exact TY. }
    set (g := fun k : tree * tree => omul o (omul o (amount tree_dec o (LL (fst k)) X) (amount tree_dec o (LR (snd k)) Y)) (tv (fst k) (snd k))).
    transitivity (osum o (map g (list_prod (nodup tree_dec keysL) (nodup tree_dec keysR)))).
    { rewrite (map_ext (fun Y0 => omul o (amount tree_dec o (LR Y0) Y) (side_sum o s X (fun X0 => tv X0 Y0))) (fun Y0 => osum o (map (fun X0 => g (X0, Y0)) (nodup tree_dec keysL)))).
      - rewrite (sum_swap SR). generalize (nodup tree_dec keysL), (nodup tree_dec keysR). intros a b. induction a as [|x a IH]; [reflexivity|]. cbn [map list_prod]. rewrite map_app, (sum_app SR), <- IH, sum_cons, map_map. reflexivity.
      - intros Y0. rewrite INNER, <- (sum_mul_l SR). f_equal. apply map_ext. intros X0. unfold g. cbn [fst snd]. ring. }
    transitivity (osum o (map g L)).
    2:{ f_equal. apply map_ext. intros [X0 Y0]. unfold g. cbn [fst snd]. now rewrite (moved_product SR). }
    set (U := nodup pair_dec (list_prod (nodup tree_dec keysL) (nodup tree_dec keysR) ++ L)).
    transitivity (osum o (map g U)); [|symmetry].
    - apply (sum_incl SR pair_dec); [apply NoDup_list_prod; apply NoDup_nodup|apply NoDup_nodup|intros k I; apply nodup_In, in_app_iff; now left|].
      intros [X0 Y0] I N. apply nodup_In, in_app_iff in I. destruct I as [I|I]; [easy|]. apply AL in I. destruct I as (c0 & T1 & T2). unfold g. cbn [fst snd]. rewrite ZT; [ring|]. intros e Ie E. rewrite (tree_of_coup T1) in E. apply N. apply in_prod; apply nodup_In.
      + apply (side_keys_In X0 HP). exists e. split; [exact Ie|now rewrite E].
      + apply (side_keys_In Y0 HQ). exists e. split; [exact Ie|now rewrite E].
    - apply (sum_incl SR pair_dec); [exact NDL|apply NoDup_nodup|intros k I; apply nodup_In, in_app_iff; now right|].
      intros [X0 Y0] I N. apply nodup_In, in_app_iff in I. destruct I as [I|I]; [|easy]. apply in_prod_iff in I. destruct I as [I1 I2]. apply nodup_In in I1, I2. unfold g. cbn [fst snd].
      destruct (sector_dec (t_coup X0) c) as [Ec|Nc]; [|rewrite (CL X0 I1 Nc); ring]. destruct (sector_dec (t_coup Y0) c) as [Ed|Nd]; [|rewrite (CR Y0 I2 Nd); ring]. exfalso. apply N. apply AL. exists c.
      apply (side_keys_In X0 HP) in I1. apply (side_keys_In Y0 HQ) in I2. destruct I1 as (e1 & _ & T1), I2 as (e2 & _ & T2). assert (G1 := tree_of_coup T1). assert (G2 := tree_of_coup T2). rewrite <- G1, Ec in T1. rewrite <- G2, Ed in T2. auto.
  Qed.
End Factorized.
