(** The pairs of trees of a tensor; tensors of symmetries with one-dimensional sectors. *)
From Verif Require Import Util StableSort RowModel RowProofs GridModel GridProofs SymModel SymProofs CatSpec Sums StarMat SpaceModel SpaceSpec SpaceProofs SpaceProofs2 SpaceProofs3 SpaceProofs7
  PipeModel PipeProofs PipeProofs4 TreeModel TreeProofs TreeProofs5 TensorModel TensorSpec FormalSum TensorProofs TensorProofs2 TensorProofs3 TensorProofs4 TensorProofs5 TensorProofs6 BlockModel BlockProofs
  SparseModel ConvertModel ConvertSpec ConvertProofs3 FtOpsModel FtOpsSpec FtOpsProofs2 FtOpsProofs3 FtOpsProofs4 MappingModel MappingProofs PermLegsModel PermLegsSpec MoveModel FtMapModel FtMapSpec FtMapProofs FtMapProofs2 FtMapProofs3 FtMapProofs4 FtMapProofs5 FtMapProofs6 FtMapProofs7 FtMapProofs8 FtMapProofs9 FtMapProofs10 FtMapProofs11 FtMapProofs16.
Set Implicit Arguments. Unset Strict Implicit.
Open Scope nat_scope.

Lemma all_pairs_exist S P Q : tsymm_ok S -> tp_ok S P -> tp_ok S Q -> exists L, all_pairs S P Q L.
Proof.
  intros OK HP HQ. exists (nodup pair_dec (flat_map (fun c => list_prod (map tb_tree (items S P c)) (map tb_tree (items S Q c))) (tp_secs P))). split; [apply NoDup_nodup|].
  intros X Y. rewrite nodup_In, in_flat_map. split.
  - intros (c & _ & I). apply in_prod_iff in I. destruct I as [I1 I2]. exists c. split; [now apply (items_trees OK c HP)|now apply (items_trees OK c HQ)].
  - intros (c & TX & TY). exists c. split; [exact (tree_of_sec OK HP TX)|]. apply in_prod_iff. split; [now apply (items_trees OK c HP)|now apply (items_trees OK c HQ)].
Qed.
Lemma permuted_exists n J ci di p' q' : is_perm n (leg_order ci di) -> J <= n -> length p' = length ci -> length q' = length di -> exists p q : list nat, length p = J /\ length q = n - J /\ permuted_legs 0 ci di p q p' q'.
Proof.
  intros PM HJ L1 L2. assert (LN := is_perm_length PM). unfold leg_order in LN. rewrite app_length, rev_length in LN. set (z := p' ++ rev q'). assert (LZ : length z = n) by (unfold z; rewrite app_length, rev_length; lia).
  set (w := take 0 z (inverse_permutation (leg_order ci di))). assert (LW : length w = n) by (unfold w; rewrite take_length, inverse_permutation_length; apply (is_perm_length PM)).
  exists (firstn J w), (rev (skipn J w)). split; [rewrite firstn_length; lia|]. split; [rewrite rev_length, skipn_length; lia|]. unfold permuted_legs. rewrite rev_involutive, firstn_skipn.
  fold z. apply list_eq_nth with (d := 0); [rewrite take_length, (is_perm_length PM); exact LZ|]. intros k Hk. rewrite LZ in Hk. assert (LP := is_perm_length PM). rewrite nth_take by lia. unfold w.
  assert (HK := is_perm_nth_lt PM Hk). rewrite nth_take by (rewrite inverse_permutation_length; lia). now rewrite (inverse_permutation_l PM Hk).
Qed.

Section Pointed.
  Variable S : tsymm.
  Hypothesis OK : tsymm_ok S.
  Variable fuse : sector -> sector -> sector.
  Hypothesis GL : abelian_group_laws S fuse.
  Variable K : Type.
  Variable o : ops K.
  Hypothesis ST : star_laws o.
  Notation SR := (st_semi ST).
  Variable r : sector -> sector -> K.
  Variables (R : Rsym K) (C : Fsym K) (B : Bsym K) (sqrt_qdim inv_sqrt_qdim fs theta : sector -> K) (small : K -> bool) (trivial_braid : bool).
  Hypothesis PD : pointed_data S o r R C B sqrt_qdim inv_sqrt_qdim fs theta small trivial_braid.
  Notation braid_tree := (braid_tree S o R C small).
  Notation twist_tree := (twist o theta trivial_braid).
  Notation bend_pair := (fun X Y down => bend_leg S o B sqrt_qdim inv_sqrt_qdim fs X Y down false).
  Notation moved := (moved o braid_tree twist_tree bend_pair).
  Variables P Q P' Q' : tprod.
  Hypothesis HP : tp_ok S P.
  Hypothesis HQ : tp_ok S Q.
  Hypothesis HP' : tp_ok S P'.
  Hypothesis HQ' : tp_ok S Q'.
  Variables ci di : list nat.
  Hypothesis PP : permuted_products ci di P Q P' Q'.
  Variable l : list instruction.
  Variable ev : list event.
  Notation J := (length (tp_flat_legs P)).
  Notation Kn := (length (tp_flat_legs Q)).
  Hypothesis EX : exec (legs0 J Kn) l = Some ((ci, di), ev).
  Hypothesis SUP : Forall supported l.
  Notation phase q := (phase (sym_trivial S) fuse (o1 o) (omul o) (oconj o) (fun x y => r y x) q ev).

  Lemma key_moved c X Y : tree_of S P c X -> tree_of S Q c Y -> exists XY', moved l (X, Y) = [(XY', phase (sec_at S (X, Y)))] /\ pair_at S (sec_at S (X, Y)) (dual_at P Q) (ci, di) XY'.
  Proof.
    intros TX TY. destruct (@moved_pointed S fuse GL K o ST B sqrt_qdim inv_sqrt_qdim fs theta trivial_braid R C small r (pd_R PD) (pd_C PD) (pd_B PD) (pd_qdim PD) (pd_theta PD) (pd_trivial PD) (pd_dual PD) (pd_cutoff PD) (sec_at S (X, Y)) (dual_at P Q) (sec_valid OK HP HQ TX TY) l (legs0 J Kn) (ci, di) ev (X, Y) (o1 o)) as (XY' & E & AT); auto.
    - exact (key_at OK HP HQ TX TY).
    - exists XY'. split; [|exact AT]. unfold FtMapSpec.moved. rewrite E. do 2 f_equal. apply (SRmul_1_l SR).
  Qed.
  Section Entry.
    Variables (c c' : sector) (X Y X' Y' : tree).
    Hypothesis TX : tree_of S P c X.
    Hypothesis TY : tree_of S Q c Y.
    Hypothesis TX' : tree_of S P' c' X'.
    Hypothesis TY' : tree_of S Q' c' Y'.
    Hypothesis CH : permuted_legs (sym_trivial S) ci di (t_unc X) (map (sym_dual S) (t_unc Y)) (t_unc X') (map (sym_dual S) (t_unc Y')).
    Lemma new_at : pair_at S (sec_at S (X, Y)) (dual_at P Q) (ci, di) (X', Y').
    Proof.
      assert (PM := exec_is_perm EX). destruct (parts PP) as [E1 E2]. destruct PP as [LC _].
      assert (LX : length (t_unc X') = length ci) by (rewrite (tree_of_len TX'); symmetry; exact LC).
      unfold permuted_legs, leg_order, take in CH. rewrite map_app, map_rev in CH. apply app_inj_length in CH; [|now rewrite map_length]. destruct CH as [C1 C2]. apply (f_equal (@rev _)) in C2. rewrite !rev_involutive in C2.
      assert (VY := unc_valid OK HQ' TY'). assert (FX := valid_tree_fields (proj1 TX')). assert (FY := valid_tree_fields (proj1 TY')). destruct FX as (_ & FC & FX), FY as (_ & FC' & FY).
      unfold pair_at, tree_at, tree_at'. cbn [fst snd]. split; [|split].
      - split; [exact (tree_of_ok OK HP' TX')|]. split; [exact C1|]. rewrite FX, E1, map_map. reflexivity.
      - split; [exact (tree_of_ok OK HQ' TY')|]. split.
        + rewrite <- (map_map (sec_at S (X, Y)) (sym_dual S)). change (map (sec_at S (X, Y)) di) with (map (fun i => nth i (t_unc X ++ rev (map (sym_dual S) (t_unc Y))) (sym_trivial S)) di). rewrite <- C2, map_map. rewrite <- (map_id (t_unc Y')) at 1. apply map_ext_in. intros a Ia. symmetry. apply (fr_dual_invol (to_ring OK)). exact (proj1 (Forall_forall _ _) VY _ Ia).
        + rewrite FY. unfold dual_at. rewrite <- (map_map (leg_at P Q) (fun E => negb (es_dual E))), <- E2, map_map. apply map_ext. intros E. cbn [dual_es es_dual]. now rewrite negb_involutive.
      - congruence.
    Qed.
    Lemma pair_eq sec XY XY' : pair_at S sec (dual_at P Q) (ci, di) XY -> pair_at S sec (dual_at P Q) (ci, di) XY' -> XY = XY'.
    Proof.
      intros ((A1 & A2 & A3) & (A4 & A5 & A6) & _) ((B1 & B2 & B3) & (B4 & B5 & B6) & _). apply injective_projections; apply (pointed_unique GL); congruence.
    Qed.
    Lemma amount_other k : (exists e, tree_of S P e (fst k) /\ tree_of S Q e (snd k)) -> amount pair_dec o (moved l k) (X', Y') = if pair_dec k (X, Y) then phase (sec_at S (X, Y)) else o0 o.
    Proof.
      destruct k as [U V]. cbn [fst snd]. intros (e & TU & TV). destruct (key_moved TU TV) as (XY' & E & AT). rewrite E. unfold amount. cbn [map fst snd]. unfold osum. cbn [fold_right].
      assert (A0 : forall x, oadd o x (o0 o) = x) by (intros x; rewrite (SRadd_comm SR); apply (SRadd_0_l SR)). rewrite A0.
      destruct (pair_dec (U, V) (X, Y)) as [E1|N].
      - injection E1 as -> ->. rewrite (pair_eq AT new_at). destruct (pair_dec (X', Y') (X', Y')); [reflexivity|congruence].
      - destruct (pair_dec XY' (X', Y')) as [E1|_]; [|reflexivity]. exfalso. apply N. subst XY'. assert (NA := new_at). destruct AT as ((_ & A1 & _) & (_ & A2 & _) & _), NA as ((_ & B1 & _) & (_ & B2 & _) & _). cbn [fst snd] in *. assert (PM := exec_is_perm EX).
        assert (SEC : forall i, i < J + Kn -> sec_at S (U, V) i = sec_at S (X, Y) i).
        { intros i Hi. assert (I := proj2 (is_perm_In i PM) Hi). unfold leg_order in I. apply in_app_iff in I. destruct I as [I|I].
          - rewrite B1 in A1. clear -A1 I. induction ci as [|x t IH]; [easy|]. cbn [map] in A1. injection A1 as H A1. destruct I as [ -> |I]; [now symmetry|now apply IH].
          - apply in_rev in I. rewrite B2 in A2. assert (E3 : sym_dual S (sec_at S (X, Y) i) = sym_dual S (sec_at S (U, V) i)). { clear -A2 I. induction di as [|x t IH]; [easy|]. cbn [map] in A2. injection A2 as H A2. destruct I as [ -> |I]; [exact H|now apply IH]. }
            rewrite <- (fr_dual_invol (to_ring OK) (sec_valid OK HP HQ TU TV i)), <- E3. apply (fr_dual_invol (to_ring OK)). exact (sec_valid OK HP HQ TX TY i). }
        assert (K1 := key_at OK HP HQ TU TV). assert (K2 := key_at OK HP HQ TX TY).
        assert (K3 : pair_at S (sec_at S (X, Y)) (dual_at P Q) (legs0 J Kn) (U, V)).
        { destruct K1 as ((D1 & D2 & D3) & (D4 & D5 & D6) & D7). cbn [fst snd legs0] in *. split; [split; [exact D1|split; [|exact D3]]|split; [split; [exact D4|split; [|exact D6]]|exact D7]]; cbn [fst snd legs0].
          - rewrite D2. apply map_ext_in. intros i I. apply in_seq in I. apply SEC. lia.
          - rewrite D5. apply map_ext_in. intros i I. apply in_rev in I. apply in_seq in I. now rewrite SEC by lia. }
        destruct K2 as ((D1 & D2 & D3) & (D4 & D5 & D6) & _), K3 as ((F1 & F2 & F3) & (F4 & F5 & F6) & _). cbn [fst snd] in *. f_equal; apply (pointed_unique GL); congruence.
    Qed.
    Lemma pointed_sum L (tv : tree * tree -> K) : all_pairs S P Q L -> osum o (map (fun k => omul o (amount pair_dec o (moved l k) (X', Y')) (tv k)) L) = omul o (phase (sec_at S (X, Y))) (tv (X, Y)).
    Proof.
      intros [ND AL]. assert (E : map (fun k => omul o (amount pair_dec o (moved l k) (X', Y')) (tv k)) L = map (fun k => if pair_dec k (X, Y) then omul o (phase (sec_at S (X, Y))) (tv (X, Y)) else o0 o) L).
      { apply map_ext_in. intros [U V] I. rewrite amount_other by (apply AL; exact I). destruct (pair_dec (U, V) (X, Y)) as [E|_]; [now rewrite E|]. apply (SRmul_0_l SR). }
      rewrite E. rewrite (sum_single SR (x := (X, Y))); [|exact ND|apply AL; exists c; auto|].
      - destruct (pair_dec (X, Y) (X, Y)); [reflexivity|congruence].
      - intros k _ N. destruct (pair_dec k (X, Y)); [congruence|reflexivity].
    Qed.
  End Entry.
End Pointed.
