(** Bending a leg and bending it back. *)
From Verif Require Import Util RowModel RowProofs GridModel GridProofs SymModel SymProofs CatSpec Sums StarMat SpaceModel SpaceSpec PipeModel TreeModel TreeProofs TreeProofs3 TreeProofs4 TreeProofs5 TensorModel TensorSpec BlockModel
  SparseModel ConvertModel FtOpsModel MappingModel MappingProofs PermLegsModel PermLegsSpec MoveModel FtMapModel FtMapSpec FtMapProofs7 FtMapProofs9 BendSpec.
Set Implicit Arguments. Unset Strict Implicit.
Open Scope nat_scope.

Section Bend.
  Variable S : symmetry.
  Hypothesis RING : fusion_ring S.
  Variable K : Type.
  Variable o : ops K.
  Hypothesis ST : star_laws o.
  Variable B : Bsym K.
  Variables sqrt_qdim inv_sqrt_qdim fs : sector -> K.
  Hypothesis BD : bend_data S o B sqrt_qdim inv_sqrt_qdim fs.
  Notation SR := (st_semi ST).
  Add Ring Kr : SR.
  Notation bend_down := (bend_down S o B sqrt_qdim inv_sqrt_qdim fs).
  Notation sum := (osum o).
  Notation "x ** y" := (omul o x y) (at level 40, left associativity).

  Definition ext (t : tree) (u : sector) (mu : nat) (c : sector) (d : bool) : tree := match extended t u mu c d with Some r => r | None => t end.
  Lemma ext_some t u mu c d : num_uncoupled t <> 0 -> extended t u mu c d = Some (ext t u mu c d).
  Proof. intros N. unfold ext, extended. rewrite (proj2 (Nat.eqb_neq _ _) N). reflexivity. Qed.
  Lemma all_some_map (X : Type) (f : nat -> option X) (g : nat -> X) l : (forall n, In n l -> f n = Some (g n)) -> all_some (map f l) = Some (map g l).
  Proof. induction l as [|x l IH]; intros H; [reflexivity|]. cbn [map all_some]. rewrite (H x) by now left. rewrite IH; [reflexivity|]. intros n I. apply H. now right. Qed.
  Definition bcoef (e z c : sector) (d dc : bool) (mu nu : nat) : K :=
    let b := B e z c mu nu in let b := if d then b ** fs z else b in if dc then oconj o b else b.
  (** the general case *)
  Lemma bend_down_general X Y dc Xi c mu z : split_bottom_vertex S Y = Some (Xi, c, mu, z) -> 2 <= num_uncoupled Y -> num_uncoupled X <> 0 ->
    bend_down X Y dc = Some (map (fun nu => ((ext X (sym_dual S z) nu (t_coup Xi) (negb (last (t_dual Y) false)), Xi), bcoef (t_coup Xi) z (t_coup Y) (last (t_dual Y) false) dc mu nu)) (seq 0 (n_symbol S (t_coup Y) (sym_dual S z) (t_coup Xi)))).
  Proof.
    intros SB NY NX. unfold MoveModel.bend_down. destruct (Nat.eqb_spec (num_uncoupled Y) 0) as [E|_]; [lia|]. destruct (Nat.eqb_spec (num_uncoupled Y) 1) as [E|_]; [lia|]. rewrite SB, (proj2 (Nat.eqb_neq _ _) NX).
    apply all_some_map. intros nu _. rewrite (ext_some _ _ _ _ NX). reflexivity.
  Qed.

  (** the way back: the roles of the trees are exchanged *)
  Definition back (dc : bool) (XY : tree * tree) : option (list ((tree * tree) * K)) := bend_down (snd XY) (fst XY) (negb dc).
  Lemma conj_bd a z c : sym_valid S a = true -> sym_valid S z = true -> In c (sym_outcomes S a z) -> forall mu mu', mu < n_symbol S a z c -> mu' < n_symbol S a z c ->
    sumn o (n_symbol S c (sym_dual S z) a) (fun nu => oconj o (B a z c mu nu) ** B c (sym_dual S z) a nu mu') ** fs z = if mu =? mu' then o1 o else o0 o.
  Proof.
    intros Va Vz I mu mu' Hm Hm'. assert (E := bd_inverse BD Va Vz I Hm Hm'). apply (f_equal (oconj o)) in E. rewrite (st_mul ST) in E. unfold sumn in E. rewrite (conj_sum ST) in E. destruct (bd_fs BD Vz) as (_ & FC & _). rewrite FC in E.
    transitivity (oconj o (if mu =? mu' then o1 o else o0 o)); [rewrite <- E; f_equal; unfold sumn; apply sum_ext; intros nu _; now rewrite (st_mul ST), (st_invol ST)|]. destruct (mu =? mu'); [apply (conj_1 ST)|apply (conj_0 ST)].
  Qed.
  Lemma coefs_inverse a z c d dc mu mu' : sym_valid S a = true -> sym_valid S z = true -> In c (sym_outcomes S a z) -> mu < n_symbol S a z c -> mu' < n_symbol S a z c ->
    sumn o (n_symbol S c (sym_dual S z) a) (fun nu => bcoef a z c d dc mu nu ** bcoef c (sym_dual S z) a (negb d) (negb dc) nu mu') = if mu =? mu' then o1 o else o0 o.
  Proof.
    intros Va Vz I Hm Hm'. assert (E1 := bd_inverse BD Va Vz I Hm Hm'). assert (E2 := conj_bd Va Vz I Hm Hm'). destruct (bd_fs BD Vz) as (_ & FC & FD).
    destruct dc.
    - rewrite <- E2. unfold sumn. rewrite <- (sum_mul_r SR). apply sum_ext. intros nu _. unfold bcoef. cbn [negb]. rewrite FD. destruct d; cbn [negb]; rewrite ?(st_mul ST), ?FC; ring.
    - rewrite <- E1. unfold sumn. rewrite <- (sum_mul_r SR). apply sum_ext. intros nu _. unfold bcoef. cbn [negb]. rewrite FD. destruct d; cbn [negb]; rewrite ?(st_mul ST), ?FC; ring.
  Qed.
  Lemma amount_single (XY k : tree * tree) c : amount pair_dec o [(XY, c)] k = if pair_dec XY k then c else o0 o.
  Proof. unfold amount. cbn [map fst snd]. rewrite sum_cons, sum_nil. destruct (pair_dec XY k); ring. Qed.
  Lemma apply_single f (XY : tree * tree) c XY' c' : f XY = Some [(XY', c')] -> apply_linear o f [(XY, c)] = [(XY', c' ** c)].
  Proof. intros E. unfold apply_linear, image. cbn [flat_map fst snd]. rewrite E. reflexivity. Qed.
  Lemma last_app1 (A : Type) (l : list A) x d : last (l ++ [x]) d = x. Proof. apply last_last. Qed.

  Lemma bend_back X Y dc : tree_ok S X -> tree_ok S Y -> t_coup X = t_coup Y -> num_uncoupled Y <> 0 ->
    exists r, bend_down X Y dc = Some r /\ forall k, amount pair_dec o (apply_linear o (back dc) r) k = if pair_dec (Y, X) k then o1 o else o0 o.
  Proof.
    intros TX TY EC NY. assert (VX := coup_valid RING TX). assert (VY := coup_valid RING TY). destruct (Nat.eq_dec (num_uncoupled Y) 1) as [N1|N1].
    - destruct (tree_cases TY) as [ET|[(a & d & ET)|(a & us & c & du & inn & mus & ET & L & P)]]; subst Y; cbn [num_uncoupled t_unc length] in *; [congruence| |exfalso; destruct us; [now apply (path_nil (S := S)) in P|cbn [length] in N1; lia]]. clear NY N1.
      cbn [t_coup] in *. unfold MoveModel.bend_down. cbn [num_uncoupled t_unc length Nat.eqb t_coup t_dual last].
      assert (EX : extended X (sym_dual S a) 0 (sym_trivial S) (negb d) = Some (ext X (sym_dual S a) 0 (sym_trivial S) (negb d))). { unfold ext, extended. cbn [Nat.eqb negb]. now rewrite andb_false_r. }
      rewrite EX. eexists. split; [reflexivity|]. intros k. destruct (Nat.eq_dec (num_uncoupled X) 0) as [N0|N0].
      + destruct (tree_cases TX) as [ET|[(a' & d' & ET)|(a' & us & c & du & inn & mus & ET & L & P)]]; subst X; try discriminate N0. cbn [t_coup] in EC. subst a. destruct (bd_trivial BD) as [Q1 Q2].
        rewrite (@apply_single _ _ _ ((Tree [sym_trivial S] (sym_trivial S) [d] [] [], from_empty S)) (if negb d then sqrt_qdim (sym_trivial S) ** fs (sym_trivial S) else sqrt_qdim (sym_trivial S))).
        2:{ unfold back, MoveModel.bend_down, ext, extended. cbn -[sym_dual sym_trivial]. rewrite !(fr_dual_trivial RING), negb_involutive. reflexivity. }
        rewrite amount_single. unfold from_empty. rewrite Q1, Q2. destruct (pair_dec _ k); [|reflexivity]. destruct d; cbn [negb]; ring.
      + destruct (extended_split_bottom TX (ltac:(lia)) EX) as (SB & LD & _).
        assert (NU : num_uncoupled (ext X (sym_dual S a) 0 (sym_trivial S) (negb d)) = num_uncoupled X + 1) by (unfold ext, extended; cbn [Nat.eqb negb]; rewrite andb_false_r; unfold num_uncoupled; cbn [t_unc]; rewrite app_length; reflexivity).
        assert (LF : last (t_dual (ext X (sym_dual S a) 0 (sym_trivial S) (negb d))) false = negb d) by (unfold ext, extended; cbn [Nat.eqb negb]; rewrite andb_false_r; cbn [t_dual]; apply last_last).
        rewrite (@apply_single _ _ _ ((Tree [a] a [d] [] [], X)) (if d then inv_sqrt_qdim a ** fs a else inv_sqrt_qdim a)).
        2:{ unfold back, MoveModel.bend_down. cbn [fst snd]. rewrite NU. destruct (Nat.eqb_spec (num_uncoupled X + 1) 0) as [E|_]; [lia|]. destruct (Nat.eqb_spec (num_uncoupled X + 1) 1) as [E|_]; [lia|]. rewrite SB, LF. cbn [num_uncoupled from_empty t_unc length Nat.eqb]. rewrite negb_involutive, EC. unfold from_sector. reflexivity. }
        rewrite amount_single. destruct (pair_dec _ k); [|reflexivity]. assert (Q := bd_qdim BD VY). destruct (bd_fs BD VY) as (F2 & _). destruct d.
        * transitivity (sqrt_qdim a ** inv_sqrt_qdim a ** (fs a ** fs a)); [ring|]. rewrite Q, F2. ring.
        * rewrite <- Q. ring.
    - assert (N2 : 2 <= num_uncoupled Y) by lia. clear N1 NY.
      assert (SB : exists v, split_bottom_vertex S Y = Some v). { unfold split_bottom_vertex. destruct (num_uncoupled Y) as [|[|[|n]]]; [lia|lia|eauto|eauto]. }
      destruct SB as [[[[Xi c] mu] z] SB]. destruct (split_bottom_extended TY SB) as (TXi & NXi & -> & EXi). assert (NX1 : 1 <= num_uncoupled Xi) by lia.
      destruct (bottom_vertex TXi NX1 TY EXi) as [BV1 BV2]. assert (Ve := coup_valid RING TXi). set (d := last (t_dual Y) false) in *.
      assert (EYU : t_unc Y = t_unc Xi ++ [z]). { unfold extended in EXi. destruct ((num_uncoupled Xi =? 0) && negb (mu =? 0)); [discriminate|]. now injection EXi as <-. }
      assert (Vz : sym_valid S z = true). { destruct TY as [V _]. rewrite EYU in V. apply Forall_app in V. destruct V as [_ V]. now inversion V. }
      assert (Vzb := fr_dual_valid RING Vz). destruct (Nat.eq_dec (num_uncoupled X) 0) as [N0|N0].
      + destruct (tree_cases TX) as [ET|[(a' & d' & ET)|(a' & us & c & du & inn & mus & ET & L & P)]]; subst X; try discriminate N0. cbn [t_coup] in EC. rewrite <- EC in BV1, BV2.
        assert (EE := fuse_trivial RING Ve Vz BV1). assert (EZ : z = sym_dual S (t_coup Xi)) by (rewrite EE; symmetry; apply (fr_dual_invol RING Vz)).
        assert (MU : mu = 0). { assert (ND := fr_dual RING Ve Vz). rewrite (n_symbol_In BV1) in ND. destruct (row_eqb z (sym_dual S (t_coup Xi))); lia. } subst mu.
        exists [((from_sector (t_coup Xi) (negb d), Xi), if negb d then inv_sqrt_qdim (t_coup Xi) ** fs (t_coup Xi) else inv_sqrt_qdim (t_coup Xi))]. split.
        { unfold MoveModel.bend_down. destruct (Nat.eqb_spec (num_uncoupled Y) 0) as [E|_]; [lia|]. destruct (Nat.eqb_spec (num_uncoupled Y) 1) as [E|_]; [lia|]. rewrite SB. cbn [num_uncoupled t_unc length Nat.eqb]. reflexivity. }
        intros k. rewrite (@apply_single _ _ _ ((Y, from_empty S)) (if negb d then sqrt_qdim (t_coup Xi) ** fs (t_coup Xi) else sqrt_qdim (t_coup Xi))).
        2:{ unfold back, MoveModel.bend_down. cbn [fst snd from_sector num_uncoupled t_unc length Nat.eqb t_coup t_dual last]. rewrite negb_involutive, <- EZ, EC, EXi. reflexivity. }
        rewrite amount_single. unfold from_empty. destruct (pair_dec _ k); [|reflexivity]. assert (Q := bd_qdim BD Ve). destruct (bd_fs BD Ve) as (F2 & _). destruct (negb d).
        * transitivity (sqrt_qdim (t_coup Xi) ** inv_sqrt_qdim (t_coup Xi) ** (fs (t_coup Xi) ** fs (t_coup Xi))); [ring|]. rewrite Q, F2. ring.
        * rewrite <- Q. ring.
      + rewrite (@bend_down_general X Y dc Xi (t_coup Y) mu z SB N2 N0). eexists. split; [reflexivity|]. intros k. rewrite (amount_apply pair_dec SR). rewrite map_map. cbn [fst snd].
        set (e := t_coup Xi) in *. set (Nn := n_symbol S (t_coup Y) (sym_dual S z) e). fold d.
        assert (IM : forall nu, nu < Nn -> amount pair_dec o (image (back dc) (ext X (sym_dual S z) nu e (negb d), Xi)) k =
          sumn o (n_symbol S e z (t_coup Y)) (fun mu' => if pair_dec (ext Xi z mu' (t_coup Y) d, X) k then bcoef (t_coup Y) (sym_dual S z) e (negb d) (negb dc) nu mu' else o0 o)).
        { intros nu Hnu. assert (EX := @ext_some X (sym_dual S z) nu e (negb d) N0). destruct (extended_split_bottom TX (ltac:(lia)) EX) as (SB' & _ & _).
          assert (NU : num_uncoupled (ext X (sym_dual S z) nu e (negb d)) = num_uncoupled X + 1) by (unfold ext, extended; rewrite (proj2 (Nat.eqb_neq _ _) N0); unfold num_uncoupled; cbn [andb t_unc]; rewrite app_length; reflexivity).
          assert (LF : last (t_dual (ext X (sym_dual S z) nu e (negb d))) false = negb d) by (unfold ext, extended; rewrite (proj2 (Nat.eqb_neq _ _) N0); cbn [andb t_dual]; apply last_last).
          assert (CF : t_coup (ext X (sym_dual S z) nu e (negb d)) = e) by (unfold ext, extended; rewrite (proj2 (Nat.eqb_neq _ _) N0); reflexivity).
          unfold image, back. cbn [fst snd]. rewrite (@bend_down_general Xi _ (negb dc) X e nu (sym_dual S z) SB' ltac:(lia) ltac:(lia)). rewrite LF, CF, (fr_dual_invol RING Vz), negb_involutive, EC.
          unfold amount. rewrite map_map. cbn [fst snd]. reflexivity. }
        transitivity (sum (map (fun nu => sumn o (n_symbol S e z (t_coup Y)) (fun mu' => if pair_dec (ext Xi z mu' (t_coup Y) d, X) k then bcoef e z (t_coup Y) d dc mu nu ** bcoef (t_coup Y) (sym_dual S z) e (negb d) (negb dc) nu mu' else o0 o)) (seq 0 Nn))).
        { apply sum_ext. intros nu Hn. apply in_seq in Hn. rewrite IM by lia. unfold sumn. rewrite <- (sum_mul_r SR). apply sum_ext. intros mu' _. destruct (pair_dec _ k); ring. }
        unfold sumn at 1. rewrite (sum_swap SR).
        assert (HM : mu < n_symbol S e z (t_coup Y)) by (rewrite (n_symbol_In BV1); exact BV2).
        rewrite (sum_single SR (x := mu)); [|apply seq_NoDup|apply in_seq; lia|].
        * assert (EY : ext Xi z mu (t_coup Y) d = Y) by (unfold ext; now rewrite EXi). rewrite EY. destruct (pair_dec (Y, X) k); [|apply (sum_zero SR); reflexivity].
          assert (CI := @coefs_inverse e z (t_coup Y) d dc mu mu Ve Vz BV1 HM HM). rewrite Nat.eqb_refl in CI. exact CI.
        * intros mu' Hm NE. apply in_seq in Hm. destruct (pair_dec (ext Xi z mu' (t_coup Y) d, X) k); [|apply (sum_zero SR); reflexivity].
          assert (CI := @coefs_inverse e z (t_coup Y) d dc mu mu' Ve Vz BV1 HM ltac:(lia)). destruct (mu =? mu') eqn:E; [apply Nat.eqb_eq in E; congruence|]. exact CI.
  Qed.
End Bend.
