(** Matrix elements of a move and of the opposite move are adjoint. *)
From Verif Require Import Util RowModel RowProofs GridModel GridProofs SymModel SymProofs CatSpec Sums StarMat SpaceModel SpaceSpec SpaceProofs PipeModel TreeModel TreeProofs TreeProofs3 TreeProofs4 TreeProofs5 TreeProofs6 TreeProofs7 TreeProofs8 TensorModel TensorSpec BlockModel
  SparseModel ConvertModel FtOpsModel MappingModel MappingProofs PermLegsModel PermLegsSpec MoveModel FtMapModel FtMapSpec FtMapProofs7 FtMapProofs9 BendSpec BendProofs BendProofs2 BendProofs3 CatBend InnerSpec.
Set Implicit Arguments. Unset Strict Implicit.
Open Scope nat_scope.

Section Adjoint.
  Variable S : symmetry.
  Hypothesis RING : fusion_ring S.
  Variable K : Type.
  Variable o : ops K.
  Hypothesis ST : star_laws o.
  Variable B : Bsym K.
  Variables qdim sqrt_qdim inv_sqrt_qdim fs theta : sector -> K.
  Variable trivial_braid : bool.
  Variable R : Rsym K.
  Variable C : Fsym K.
  Variable small : K -> bool.
  Hypothesis BD : bend_data S o B sqrt_qdim inv_sqrt_qdim fs.
  Hypothesis BM : bend_metric S o B qdim sqrt_qdim fs.
  Hypothesis SM : forall x, small x = true -> x = o0 o.
  Notation SR := (st_semi ST).
  Add Ring Kr : SR.
  Notation bend_down := (bend_down S o B sqrt_qdim inv_sqrt_qdim fs).
  Notation conj := (oconj o).
  Notation "x ** y" := (omul o x y) (at level 40, left associativity).
  Notation amount := (amount pair_dec o).
  Notation one := (sym_trivial S).
  Notation bcoef := (BendProofs.bcoef o B fs).

  Lemma qdim_real a : sym_valid S a = true -> conj (qdim a) = qdim a.
  Proof. intros V. destruct (bm_sqrt BM V) as [H1 H2]. rewrite <- H1, (st_mul ST), H2. reflexivity. Qed.
  Lemma inv_real a : sym_valid S a = true -> conj (inv_sqrt_qdim a) = inv_sqrt_qdim a.
  Proof.
    intros V. destruct (bm_sqrt BM V) as [_ H2]. assert (Q := bd_qdim BD V). assert (Q' := f_equal conj Q). rewrite (st_mul ST), H2, (conj_1 ST) in Q'.
    transitivity (conj (inv_sqrt_qdim a) ** (sqrt_qdim a ** inv_sqrt_qdim a)); [rewrite Q; ring|]. transitivity (sqrt_qdim a ** conj (inv_sqrt_qdim a) ** inv_sqrt_qdim a); [ring|]. rewrite Q'. ring.
  Qed.
  Lemma qdim_inv a : sym_valid S a = true -> qdim a ** inv_sqrt_qdim a = sqrt_qdim a.
  Proof. intros V. destruct (bm_sqrt BM V) as [H1 _]. rewrite <- H1. transitivity (sqrt_qdim a ** (sqrt_qdim a ** inv_sqrt_qdim a)); [ring|]. rewrite (bd_qdim BD V). ring. Qed.
  Lemma qdim_trivial : qdim one = o1 o.
  Proof. destruct (bm_sqrt BM (fr_trivial_valid RING)) as [H1 _]. rewrite <- H1, (proj1 (bd_trivial BD)). ring. Qed.

  Lemma coef_flip a z c d dc mu nu : sym_valid S a = true -> sym_valid S z = true -> In c (sym_outcomes S a z) -> mu < n_symbol S a z c -> nu < n_symbol S a z c ->
    qdim a ** bcoef a z c d dc mu nu = qdim c ** conj (bcoef c (sym_dual S z) a (negb d) (negb dc) nu mu).
  Proof.
    intros Va Vz I Hm Hn. assert (E := bm_flip BM Va Vz I Hm Hn). destruct (bd_fs BD Vz) as (F2 & FC & FD). assert (Vc := fr_closed RING Va Vz I). assert (Qa := qdim_real Va). assert (Qc := qdim_real Vc).
    unfold BendProofs.bcoef. rewrite FD. set (x := B a z c mu nu) in *. set (y := B c (sym_dual S z) a nu mu) in *.
    assert (E' : qdim a ** conj x = fs z ** (qdim c ** conj y)). { assert (H := f_equal conj E). rewrite !(st_mul ST), Qa, Qc, FC in H. exact H. }
    destruct d, dc; cbn [negb]; rewrite ?(st_mul ST), ?(st_invol ST), ?FC.
    - transitivity (qdim a ** conj x ** fs z); [ring|]. rewrite E'. transitivity (fs z ** fs z ** qdim c ** conj y); [ring|]. rewrite F2. ring.
    - transitivity (qdim a ** x ** fs z); [ring|]. rewrite E. transitivity (fs z ** fs z ** qdim c ** y); [ring|]. rewrite F2. ring.
    - rewrite E'. ring.
    - rewrite E. ring.
  Qed.
  Lemma ext_inj X z nu nu' e d : num_uncoupled X <> 0 -> ext X z nu e d = ext X z nu' e d -> nu = nu'.
  Proof.
    intros N0. unfold ext, extended. rewrite (proj2 (Nat.eqb_neq _ _) N0). cbn [andb]. intros [= E]. apply app_inj_tail in E. now destruct E.
  Qed.
  Lemma amount_family (f : nat -> tree * tree) (g : nat -> K) n nu : nu < n -> (forall i, i < n -> f i = f nu -> i = nu) -> amount (map (fun i => (f i, g i)) (seq 0 n)) (f nu) = g nu.
  Proof.
    intros H INJ. unfold FtMapSpec.amount. rewrite map_map. cbn [fst snd]. rewrite (sum_single SR (x := nu)); [|apply seq_NoDup|apply in_seq; lia|].
    - destruct (pair_dec (f nu) (f nu)); [reflexivity|congruence].
    - intros i I NE. apply in_seq in I. destruct (pair_dec (f i) (f nu)) as [E|]; [|reflexivity]. exfalso. apply NE, INJ; [lia|exact E].
  Qed.

  Lemma bend_adjoint_key X Y dc r X' Y' : tree_ok S X -> tree_ok S Y -> t_coup X = t_coup Y -> bend_down X Y dc = Some r -> In (X', Y') (map fst r) ->
    exists r', bend_down Y' X' (negb dc) = Some r' /\ In (Y, X) (map fst r') /\ qdim (t_coup X') ** amount r (X', Y') = qdim (t_coup X) ** conj (amount r' (Y, X)).
  Proof.
    intros TX TY EC EB IN. assert (VX := coup_valid RING TX). assert (VY := coup_valid RING TY).
    assert (NY : num_uncoupled Y <> 0). { unfold MoveModel.bend_down in EB. destruct (num_uncoupled Y =? 0) eqn:N0; [discriminate|]. now apply Nat.eqb_neq. }
    destruct (Nat.eq_dec (num_uncoupled Y) 1) as [N1|N1].
    - destruct (tree_cases TY) as [ET|[(a & d & ET)|(a & us & c & du & inn & mus & ET & L & P)]]; subst Y; cbn [num_uncoupled t_unc length] in *; [congruence| |exfalso; destruct us; [now apply (path_nil (S := S)) in P|cbn [length] in N1; lia]]. clear NY N1.
      cbn [t_coup] in *. unfold MoveModel.bend_down in EB. cbn [num_uncoupled t_unc length Nat.eqb t_coup t_dual last] in EB.
      assert (EX : extended X (sym_dual S a) 0 one (negb d) = Some (ext X (sym_dual S a) 0 one (negb d))). { unfold ext, extended. cbn [Nat.eqb negb]. now rewrite andb_false_r. }
      rewrite EX in EB. injection EB as <-. destruct IN as [E|[]]. cbn [fst] in E. injection E as <- <-.
      assert (CX : t_coup (ext X (sym_dual S a) 0 one (negb d)) = one) by (unfold ext, extended; cbn [Nat.eqb negb]; rewrite andb_false_r; reflexivity). rewrite CX.
      rewrite (amount_single ST). destruct (pair_dec _ _) as [_|N]; [|exfalso; now apply N].
      destruct (Nat.eq_dec (num_uncoupled X) 0) as [N0|N0].
      + destruct (tree_cases TX) as [ET|[(a' & d' & ET)|(a' & us & c & du & inn & mus & ET & L & P)]]; subst X; try discriminate N0. cbn [t_coup] in EC. subst a. destruct (bd_trivial BD) as [Q1 Q2].
        exists [((Tree [one] one [d] [] [], from_empty S), if negb d then sqrt_qdim one ** fs one else sqrt_qdim one)]. split.
        { unfold MoveModel.bend_down, ext, extended. cbn -[sym_dual sym_trivial]. rewrite !(fr_dual_trivial RING), negb_involutive. reflexivity. }
        split; [left; reflexivity|]. rewrite (amount_single ST). unfold from_empty. destruct (pair_dec _ _) as [_|N]; [|exfalso; now apply N]. cbn [t_coup]. rewrite Q1, Q2. destruct d; cbn [negb]; rewrite ?(st_mul ST), ?(conj_1 ST); ring.
      + destruct (extended_split_bottom TX (ltac:(lia)) EX) as (SB & LD & _).
        assert (NU : num_uncoupled (ext X (sym_dual S a) 0 one (negb d)) = num_uncoupled X + 1) by (unfold ext, extended; cbn [Nat.eqb negb]; rewrite andb_false_r; unfold num_uncoupled; cbn [t_unc]; rewrite app_length; reflexivity).
        assert (LF : last (t_dual (ext X (sym_dual S a) 0 one (negb d))) false = negb d) by (unfold ext, extended; cbn [Nat.eqb negb]; rewrite andb_false_r; cbn [t_dual]; apply last_last).
        exists [((Tree [a] a [d] [] [], X), if d then inv_sqrt_qdim a ** fs a else inv_sqrt_qdim a)]. split.
        { unfold MoveModel.bend_down. rewrite NU. destruct (Nat.eqb_spec (num_uncoupled X + 1) 0) as [E|_]; [lia|]. destruct (Nat.eqb_spec (num_uncoupled X + 1) 1) as [E|_]; [lia|]. rewrite SB, LF. cbn [num_uncoupled from_empty t_unc length Nat.eqb]. rewrite negb_involutive, EC. unfold from_sector. reflexivity. }
        split; [left; reflexivity|]. rewrite (amount_single ST). destruct (pair_dec _ _) as [_|N]; [|exfalso; now apply N]. rewrite EC, qdim_trivial. destruct (bd_fs BD VY) as (_ & FC & _). assert (QI := qdim_inv VY). assert (IR := inv_real VY).
        destruct d; rewrite ?(st_mul ST), ?FC, IR; rewrite <- QI; ring.
    - assert (N2 : 2 <= num_uncoupled Y) by lia. clear N1 NY.
      assert (SB : exists v, split_bottom_vertex S Y = Some v). { unfold split_bottom_vertex. destruct (num_uncoupled Y) as [|[|[|n]]]; [lia|lia|eauto|eauto]. }
      destruct SB as [[[[Xi c] mu] z] SB]. destruct (split_bottom_extended TY SB) as (TXi & NXi & -> & EXi). assert (NX1 : 1 <= num_uncoupled Xi) by lia.
      destruct (bottom_vertex TXi NX1 TY EXi) as [BV1 BV2]. assert (Ve := coup_valid RING TXi). set (d := last (t_dual Y) false) in *.
      assert (EYU : t_unc Y = t_unc Xi ++ [z]). { unfold extended in EXi. destruct ((num_uncoupled Xi =? 0) && negb (mu =? 0)); [discriminate|]. now injection EXi as <-. }
      assert (Vz : sym_valid S z = true). { destruct TY as [V _]. rewrite EYU in V. apply Forall_app in V. destruct V as [_ V]. now inversion V. }
      assert (Vzb := fr_dual_valid RING Vz). destruct (Nat.eq_dec (num_uncoupled X) 0) as [N0|N0].
      + destruct (tree_cases TX) as [ET|[(a' & d' & ET)|(a' & us & c & du & inn & mus & ET & L & P)]]; subst X; try discriminate N0. cbn [t_coup] in EC. rewrite <- EC in BV1, BV2.
        assert (EE := fuse_trivial RING Ve Vz BV1). assert (EZ : z = sym_dual S (t_coup Xi)) by (rewrite EE; symmetry; apply (fr_dual_invol RING Vz)).
        assert (MU : mu = 0). { assert (ND := fr_dual RING Ve Vz). rewrite (n_symbol_In BV1) in ND. destruct (row_eqb z (sym_dual S (t_coup Xi))); lia. } subst mu.
        unfold MoveModel.bend_down in EB. destruct (Nat.eqb_spec (num_uncoupled Y) 0) as [E|_]; [lia|]. destruct (Nat.eqb_spec (num_uncoupled Y) 1) as [E|_]; [lia|]. rewrite SB in EB. cbn [num_uncoupled t_unc length Nat.eqb] in EB. injection EB as <-. fold d in IN |- *. destruct IN as [E|[]]. cbn [fst] in E. injection E as <- <-.
        rewrite (amount_single ST). destruct (pair_dec _ _) as [_|N]; [|exfalso; now apply N].
        exists [((Y, from_empty S), if negb d then sqrt_qdim (t_coup Xi) ** fs (t_coup Xi) else sqrt_qdim (t_coup Xi))]. split.
        { unfold MoveModel.bend_down. cbn [fst snd from_sector num_uncoupled t_unc length Nat.eqb t_coup t_dual last]. rewrite negb_involutive, <- EZ, EC, EXi. reflexivity. }
        split; [left; reflexivity|]. rewrite (amount_single ST). unfold from_empty. destruct (pair_dec _ _) as [_|N]; [|exfalso; now apply N]. cbn [from_sector t_coup]. rewrite qdim_trivial. destruct (bd_fs BD Ve) as (_ & FC & _). assert (QI := qdim_inv Ve). destruct (bm_sqrt BM Ve) as [_ SC].
        destruct (negb d); rewrite ?(st_mul ST), ?FC, SC; rewrite <- QI; ring.
      + rewrite (@bend_down_general S K o B sqrt_qdim inv_sqrt_qdim fs X Y dc Xi (t_coup Y) mu z SB N2 N0) in EB. injection EB as <-. fold d in IN |- *. set (e := t_coup Xi) in *. set (Nn := n_symbol S (t_coup Y) (sym_dual S z) e) in *.
        rewrite map_map in IN. cbn [fst] in IN. apply in_map_iff in IN. destruct IN as (nu & E & Hn). injection E as <- <-. apply in_seq in Hn.
        rewrite (amount_family (f := fun nu0 => (ext X (sym_dual S z) nu0 e (negb d), Xi)) (fun nu0 => bcoef e z (t_coup Y) d dc mu nu0)); [|lia|intros i _ [= E]; exact (ext_inj N0 E)].
        assert (EX := @ext_some X (sym_dual S z) nu e (negb d) N0). destruct (extended_split_bottom TX (ltac:(lia)) EX) as (SB' & _ & _).
        assert (NU : num_uncoupled (ext X (sym_dual S z) nu e (negb d)) = num_uncoupled X + 1) by (unfold ext, extended; rewrite (proj2 (Nat.eqb_neq _ _) N0); unfold num_uncoupled; cbn [andb t_unc]; rewrite app_length; reflexivity).
        assert (LF : last (t_dual (ext X (sym_dual S z) nu e (negb d))) false = negb d) by (unfold ext, extended; rewrite (proj2 (Nat.eqb_neq _ _) N0); cbn [andb t_dual]; apply last_last).
        assert (CF : t_coup (ext X (sym_dual S z) nu e (negb d)) = e) by (unfold ext, extended; rewrite (proj2 (Nat.eqb_neq _ _) N0); reflexivity).
        rewrite (@bend_down_general S K o B sqrt_qdim inv_sqrt_qdim fs Xi _ (negb dc) X e nu (sym_dual S z) SB' ltac:(lia) ltac:(lia)). rewrite LF, CF, (fr_dual_invol RING Vz), negb_involutive, EC. eexists. split; [reflexivity|].
        assert (HM : mu < n_symbol S e z (t_coup Y)) by (rewrite (n_symbol_In BV1); exact BV2).
        assert (EY : ext Xi z mu (t_coup Y) d = Y) by (unfold ext; now rewrite EXi).
        split; [rewrite map_map; cbn [fst]; apply in_map_iff; exists mu; split; [now rewrite EY|apply in_seq; lia]|].
        rewrite <- EY at 4. rewrite (amount_family (f := fun mu0 => (ext Xi z mu0 (t_coup Y) d, X)) (fun mu0 => bcoef (t_coup Y) (sym_dual S z) e (negb d) (negb dc) nu mu0)); [|lia|intros i _ [= E]; assert (NXi0 : num_uncoupled Xi <> 0) by lia; exact (ext_inj NXi0 E)].
        apply coef_flip; auto. assert (NR := N_rotate RING Ve Vz VY). unfold Nn in Hn. fold e in NR. lia.
  Qed.

  Lemma not_key (r : list ((tree * tree) * K)) k : ~ In k (map fst r) -> amount r k = o0 o.
  Proof. apply (amount_none pair_dec SR). Qed.
  Lemma bend_adjoint X Y dc r X' Y' r' : pair_ok S (X, Y) -> pair_ok S (X', Y') -> bend_down X Y dc = Some r -> bend_down Y' X' (negb dc) = Some r' ->
    qdim (t_coup X') ** amount r (X', Y') = qdim (t_coup X) ** conj (amount r' (Y, X)).
  Proof.
    intros (TX & TY & EC) (TX' & TY' & EC') E E'. cbn [fst snd] in *. destruct (in_dec pair_dec (X', Y') (map fst r)) as [IN|NI].
    - destruct (bend_adjoint_key TX TY EC E IN) as (r2 & E2 & _ & H). rewrite E' in E2. injection E2 as <-. exact H.
    - rewrite (not_key NI). destruct (in_dec pair_dec (Y, X) (map fst r')) as [IN'|NI'].
      + exfalso. destruct (bend_adjoint_key TY' TX' (eq_sym EC') E' IN') as (r2 & E2 & IN2 & _). rewrite negb_involutive, E in E2. injection E2 as <-. now apply NI.
      + rewrite (not_key NI'), (conj_0 ST). ring.
  Qed.

  Notation braid_tree := (braid_tree S o R C small).
  Notation twist_tree := (twist o theta trivial_braid).
  Notation bend_pair := (fun X Y down => bend_leg S o B sqrt_qdim inv_sqrt_qdim fs X Y down false).
  Notation move := (move braid_tree twist_tree bend_pair).
  Notation moved := (moved o braid_tree twist_tree bend_pair).
  Notation tamount := (FtMapSpec.amount tree_dec o).

  Lemma twist_adjoint t idcs over r : twist_tree t idcs over = Some r -> exists c, r = [(t, c)] /\ twist_tree t idcs (negb over) = Some [(t, conj c)].
  Proof.
    assert (PH : forall a, (if negb over then theta a else conj (theta a)) = conj (if over then theta a else conj (theta a))) by (intros a; destruct over; cbn [negb]; now rewrite ?(st_invol ST)).
    unfold twist. destruct trivial_braid; [intros [= <-]; eexists; split; [reflexivity|]; now rewrite (conj_1 ST)|].
    destruct idcs as [|i [|j idcs]]; [intros [= <-]; eexists; split; [reflexivity|]; now rewrite (conj_1 ST)| |].
    - destruct (i <? num_uncoupled t); [|discriminate]. intros [= <-]. eexists. split; [reflexivity|]. now rewrite PH.
    - set (l := i :: j :: idcs). destruct (negb (forallb (fun i0 => i0 <? num_uncoupled t) l)); [discriminate|]. destruct (negb (strictly_up (sort_nat l))); [discriminate|].
      destruct (length (sort_nat l) =? num_uncoupled t); [intros [= <-]; eexists; split; [reflexivity|]; now rewrite PH|].
      destruct (forallb (fun p => fst p =? snd p) (combine (sort_nat l) (seq 0 (length (sort_nat l))))); [|discriminate]. intros [= <-]. eexists. split; [reflexivity|]. now rewrite PH.
  Qed.
  Lemma cj_conj dc x : conj (cj o dc x) = cj o dc (conj x).
  Proof. destruct dc; reflexivity. Qed.
  (** one braid: the entries for the first vertex *)
  Lemma braid_adjoint_key t u j over dc : tree_ok S t -> tree_ok S u -> j + 1 < num_uncoupled t -> In u (map fst (braid S o R C (fun _ => false) t j over dc)) ->
    In t (map fst (braid S o R C (fun _ => false) u j (negb over) dc)) /\ coef o (braid S o R C (fun _ => false) t j over dc) u = conj (coef o (braid S o R C (fun _ => false) u j (negb over) dc) t).
  Proof.
    intros TT TU LT IN. destruct (Nat.eq_dec j 0) as [->|NZ].
    - assert (B0 := fun t0 ov => braid_0 S o R C (fun _ => false) t0 ov dc). rewrite (B0 t) in IN. rewrite (B0 t), (B0 u). destruct (vertex_labels t 0) as [[[a b] mu] c] eqn:VL. destruct IN as [E|[]]. cbn [fst] in E. subst u.
      assert (H2' : 2 <= num_uncoupled t) by lia.
      assert (VL' : vertex_labels (swap0 t) 0 = (b, a, mu, c)).
      { unfold vertex_labels, swap0, num_vertices, num_uncoupled in *. cbn [t_unc t_coup t_inner t_mult Nat.eqb]. rewrite swap2_length. 
        destruct (t_unc t) as [|x [|y l]]; cbn [length] in H2'; try lia. cbn [swap2 nth upd Nat.add Nat.eqb] in *. inversion VL; subst. reflexivity. }
      rewrite VL', (swap0_swap0 TT H2'). split; [left; reflexivity|]. unfold coef. cbn [map fst snd osum fold_right]. rewrite !(proj2 (tree_eqb_eq _ _) eq_refl). rewrite (st_add ST), (conj_0 ST), cj_conj.
      f_equal. destruct over; cbn [negb]; now rewrite ?(st_invol ST).
    - assert (H1 : 1 <= j) by lia. assert (SH := tree_ok_bshape TT H1 LT). destruct (tree_ok_labels RING TT H1 LT) as (Va & Vb & Vc & Vd & HL).
      rewrite (braid_eq S o R C (fun _ => false) over dc SH) in IN |- *. set (a := alab t j) in *. set (b := nth j (t_unc t) []) in *. set (c := nth (j + 1) (t_unc t) []) in *. set (d := dlab t j) in *. set (i0 := llab t j) in *.
      assert (BI : btree (btree t j i0) j i0 = t) by apply (btree_id SH).
      assert (FT : forall l : list (tree * K), filter (fun y => negb ((fun _ => false) (snd y))) l = l) by (intros l; apply filter_all; reflexivity). rewrite FT in IN |- *.
      rewrite map_map in IN. cbn [fst] in IN. apply in_map_iff in IN. destruct IN as (p & <- & Hp).
      rewrite (braid_eq S o R C (fun _ => false) (negb over) dc (btree_shape SH p)), FT. rewrite (btree_a SH), (btree_d SH), (btree_l SH), btree_unc, (swap_nth_j SH), (swap_nth_j1 SH). fold a b c d.
      assert (EB : forall i, btree (btree t j p) j i = btree (btree t j i0) j i) by (intros i; apply (btree_btree SH)).
      split.
      + rewrite map_map. cbn [fst]. apply in_map_iff. exists i0. split; [now rewrite EB|exact HL].
      + rewrite (coef_family ST (T := fun p => btree t j p) (fun p0 => TreeProofs8.bcoef o C over dc a b c d i0 p0) (vidx_NoDup RING b d Va Vc) Hp) by (intros k k' _ _ E; exact (btree_inj SH E)).
        assert (TE : btree (btree t j p) j i0 = t) by (now rewrite EB). match goal with |- _ = conj (coef o ?L t) => replace (coef o L t) with (coef o L (btree (btree t j p) j i0)) by now rewrite TE end. rewrite (coef_family ST (T := fun i => btree (btree t j p) j i) (fun i => TreeProofs8.bcoef o C (negb over) dc a c b d p i) (vidx_NoDup RING c d Va Vb) HL) by (intros k k' _ _ E; exact (btree_inj (btree_shape SH p) E)).
        unfold TreeProofs8.bcoef. rewrite cj_conj. f_equal. destruct over; cbn [negb]; now rewrite ?(st_invol ST).
  Qed.

  (** the cutoff removes only zeros *)
  Lemma braid_cutoff t j over dc u : coef o (braid S o R C small t j over dc) u = coef o (braid S o R C (fun _ => false) t j over dc) u.
  Proof.
    destruct (Nat.eq_dec j 0) as [ -> |NZ]; [rewrite !braid_0; reflexivity|]. unfold braid. rewrite (proj2 (Nat.eqb_neq _ _) NZ). destruct (vertex_labels t j) as [[[x1 x2] x3] x4], (vertex_labels t (j - 1)) as [[[y1 y2] y3] y4].
    match goal with |- coef o (flat_map ?f ?l) u = coef o (flat_map ?g ?l) u => assert (H : forall x, coef o (f x) u = coef o (g x) u) end.
    - intros x. destruct (negb _); [reflexivity|]. unfold for_each2d. unfold coef.
      match goal with |- osum o (map ?h (flat_map ?f ?l)) = osum o (map ?h (flat_map ?g ?l)) => assert (H : forall x, osum o (map h (f x)) = osum o (map h (g x))) end.
      + intros k. match goal with |- osum o (map ?h (flat_map ?f ?l)) = osum o (map ?h (flat_map ?g ?l)) => assert (H : forall x, osum o (map h (f x)) = osum o (map h (g x))) end.
        * intros l. cbv beta. match goal with |- context [small ?z] => destruct (small z) eqn:E end; [|reflexivity]. apply SM in E. cbn [map fst snd]. rewrite E, sum_cons, !sum_nil. destruct (tree_eqb _ u); ring.
        * rewrite !(sum_flat_map SR). f_equal. apply map_ext. exact H.
      + rewrite !(sum_flat_map SR). f_equal. apply map_ext. exact H.
    - unfold coef in *. rewrite !(sum_flat_map SR). f_equal. apply map_ext. exact H.
  Qed.

  Lemma braid_adjoint t u j over dc r r' : tree_ok S t -> tree_ok S u -> braid_tree t j over dc = Some r -> braid_tree u j (negb over) dc = Some r' -> tamount r u = conj (tamount r' t).
  Proof.
    intros TT TU. unfold MoveModel.braid_tree. destruct (Nat.ltb_spec (j + 1) (num_uncoupled t)) as [LT|]; [|discriminate]. intros [= <-]. destruct (Nat.ltb_spec (j + 1) (num_uncoupled u)) as [LU|]; [|discriminate]. intros [= <-].
    rewrite <- !coef_amount, !braid_cutoff. destruct (in_dec tree_dec u (map fst (braid S o R C (fun _ => false) t j over dc))) as [IN|NI]; [apply (braid_adjoint_key TT TU LT IN)|].
    rewrite (coef_notin ST NI). destruct (in_dec tree_dec t (map fst (braid S o R C (fun _ => false) u j (negb over) dc))) as [IN'|NI'].
    - exfalso. destruct (braid_adjoint_key TU TT LU IN') as [IN _]. rewrite negb_involutive in IN. now apply NI.
    - now rewrite (coef_notin ST NI'), (conj_0 ST).
  Qed.
  Lemma left_amount (r : list (tree * K)) Y k : amount (map (fun q => ((fst q, Y), snd q)) r) k = if tree_dec Y (snd k) then tamount r (fst k) else o0 o.
  Proof.
    destruct k as [X' Y']. cbn [fst snd]. unfold FtMapSpec.amount. rewrite map_map. cbn [fst snd]. destruct (tree_dec Y Y') as [ <- |N].
    - f_equal. apply map_ext. intros p. destruct (pair_dec (fst p, Y) (X', Y)) as [E|NE], (tree_dec (fst p) X') as [E'|NE']; try reflexivity; exfalso; congruence.
    - apply (sum_zero SR). intros p _. destruct (pair_dec (fst p, Y) (X', Y')); [congruence|reflexivity].
  Qed.
  Lemma right_amount (r : list (tree * K)) X k : amount (map (fun q => ((X, fst q), snd q)) r) k = if tree_dec X (fst k) then tamount r (snd k) else o0 o.
  Proof.
    assert (L := left_amount r X (swapped k)). rewrite <- amount_swapped, map_map in L. exact L.
  Qed.
  (** one move *)
  Lemma move_adjoint i k k' r r' : pair_ok S k -> pair_ok S k' -> move i k = Some r -> move (invert i) k' = Some r' -> qdim (t_coup (fst k')) ** amount r k' = qdim (t_coup (fst k)) ** conj (amount r' k).
  Proof.
    destruct k as [X Y], k' as [X' Y']. intros OK OK' E E'. assert (OK1 := OK). assert (OK2 := OK'). destruct OK as (TX & TY & EC). destruct OK' as (TX' & TY' & EC'). cbn [fst snd] in *.
    destruct i as [[] idx over|[]|[] idcs over]; cbn [FtMapSpec.move invert] in *.
    - unfold left_map in E, E'. cbn [fst snd] in E, E'. destruct (braid_tree X idx (negb over) true) as [r0|] eqn:EB; [|discriminate]. destruct (braid_tree X' idx (negb (negb over)) true) as [r0'|] eqn:EB'; [|discriminate].
      injection E as <-. injection E' as <-. rewrite !left_amount. cbn [fst snd]. destruct (tree_dec Y Y') as [ <- |N].
      + destruct (tree_dec Y Y) as [_|N]; [|congruence]. rewrite (braid_adjoint TX TX' EB EB'). now rewrite EC, EC'.
      + destruct (tree_dec Y' Y) as [ <- |_]; [congruence|]. rewrite (conj_0 ST). ring.
    - unfold right_map in E, E'. cbn [fst snd] in E, E'. destruct (braid_tree Y idx over false) as [r0|] eqn:EB; [|discriminate]. destruct (braid_tree Y' idx (negb over) false) as [r0'|] eqn:EB'; [|discriminate].
      injection E as <-. injection E' as <-. rewrite !right_amount. cbn [fst snd]. destruct (tree_dec X X') as [ <- |N].
      + destruct (tree_dec X X) as [_|N]; [|congruence]. now rewrite (braid_adjoint TY TY' EB EB').
      + destruct (tree_dec X' X) as [ <- |_]; [congruence|]. rewrite (conj_0 ST). ring.
    - cbn [negb] in E'. unfold bend_leg in E, E'. cbn [fst snd negb] in E, E'. destruct (bend_down Y' X' true) as [r0|] eqn:E0; [|discriminate]. injection E' as <-. rewrite (bend_adjoint OK1 OK2 E E0). f_equal. f_equal. symmetry. exact (amount_swapped o r0 (X, Y)).
    - cbn [negb] in E'. unfold bend_leg in E, E'. cbn [fst snd negb] in E, E'. destruct (bend_down Y X true) as [r0|] eqn:E0; [|discriminate]. injection E as <-.
      assert (OK1' : pair_ok S (Y, X)) by (split; [exact TY|]; split; [exact TX|]; cbn [fst snd]; congruence). assert (OK2' : pair_ok S (Y', X')) by (split; [exact TY'|]; split; [exact TX'|]; cbn [fst snd]; congruence).
      rewrite EC, EC'. rewrite <- (bend_adjoint OK1' OK2' E0 E'). f_equal. exact (amount_swapped o r0 (X', Y')).
    - unfold left_map in E, E'. cbn [fst snd] in E, E'. destruct (twist_tree X idcs over) as [r0|] eqn:EB; [|discriminate]. destruct (twist_tree X' idcs (negb over)) as [r0'|] eqn:EB'; [|discriminate].
      injection E as <-. injection E' as <-. rewrite !left_amount. cbn [fst snd]. destruct (twist_adjoint EB) as (c & -> & EB2). destruct (twist_adjoint EB') as (c' & -> & _). destruct (tree_dec Y Y') as [ <- |N].
      + destruct (tree_dec Y Y) as [_|N]; [|congruence]. unfold FtMapSpec.amount. cbn [map fst snd]. rewrite !sum_cons, !sum_nil. destruct (tree_dec X X') as [ <- |N].
        * destruct (tree_dec X X) as [_|N]; [|congruence]. rewrite EB2 in EB'. injection EB' as <-. rewrite (st_add ST), (st_invol ST), (conj_0 ST). ring.
        * destruct (tree_dec X' X) as [ <- |_]; [congruence|]. rewrite (st_add ST), (conj_0 ST). ring.
      + destruct (tree_dec Y' Y) as [ <- |_]; [congruence|]. rewrite (conj_0 ST). ring.
    - unfold right_map in E, E'. cbn [fst snd] in E, E'. destruct (twist_tree Y idcs over) as [r0|] eqn:EB; [|discriminate]. destruct (twist_tree Y' idcs (negb over)) as [r0'|] eqn:EB'; [|discriminate].
      injection E as <-. injection E' as <-. rewrite !right_amount. cbn [fst snd]. destruct (twist_adjoint EB) as (c & -> & EB2). destruct (twist_adjoint EB') as (c' & -> & _). destruct (tree_dec X X') as [ <- |N].
      + destruct (tree_dec X X) as [_|N]; [|congruence]. unfold FtMapSpec.amount. cbn [map fst snd]. rewrite !sum_cons, !sum_nil. destruct (tree_dec Y Y') as [ <- |N].
        * destruct (tree_dec Y Y) as [_|N]; [|congruence]. rewrite EB2 in EB'. injection EB' as <-. rewrite (st_add ST), (st_invol ST), (conj_0 ST). ring.
        * destruct (tree_dec Y' Y) as [ <- |_]; [congruence|]. rewrite (st_add ST), (conj_0 ST). ring.
      + destruct (tree_dec X' X) as [ <- |_]; [congruence|]. rewrite (conj_0 ST). ring.
  Qed.

  (** sequences of moves *)
  Section Named.
    Variables (sec : nat -> sector) (dual : nat -> bool).
    Hypothesis VAL : forall l, sym_valid S (sec l) = true.
    Notation pair_at := (pair_at S sec dual).
    Notation w := (fun k : tree * tree => qdim (t_coup (fst k))).
    Lemma moved_keys l st st' ev k : exec st l = Some (st', ev) -> Forall supported l -> pair_at st k -> forall u, In u (map fst (moved l k)) -> pair_at st' u.
    Proof.
      intros EX SUP AT u IN. apply in_map_iff in IN. destruct IN as (p & <- & I). refine (run_keys RING VAL EX SUP _ I). intros p0 [ <- |[]]. exact AT.
    Qed.
    Lemma moved_cons i l k r : move i k = Some r -> forall u, amount (moved (i :: l) k) u = osum o (map (fun p => amount (moved l (fst p)) u ** snd p) r).
    Proof.
      intros E u. unfold FtMapSpec.moved at 1. cbn [fold_left]. unfold apply_linear at 2, image. cbn [flat_map fst snd]. rewrite E, app_nil_r.
      rewrite (run_linear S ST B sqrt_qdim inv_sqrt_qdim fs theta trivial_braid R C small l), map_map. cbn [fst snd]. f_equal. apply map_ext. intros p. ring.
    Qed.
    Lemma moved_snoc i l k u : amount (moved (l ++ [i]) k) u = osum o (map (fun p => amount (image (move i) (fst p)) u ** snd p) (moved l k)).
    Proof. unfold FtMapSpec.moved. rewrite fold_left_app. cbn [fold_left]. apply (amount_apply pair_dec SR). Qed.
    Lemma run_adjoint l : forall st st' ev k k', exec st l = Some (st', ev) -> Forall supported l -> pair_at st k -> pair_at st' k' ->
      w k' ** amount (moved l k) k' = w k ** conj (amount (moved (map invert (rev l)) k') k).
    Proof.
      induction l as [|i l IH]; intros st st' ev k k' EX SUP AT AT'; cbn [exec] in EX.
      - cbn [rev map]. unfold FtMapSpec.moved. cbn [fold_left]. rewrite !(amount_single ST). destruct (pair_dec k k') as [ <- |N].
        + destruct (pair_dec k k) as [_|N]; [|congruence]. rewrite (conj_1 ST). reflexivity.
        + destruct (pair_dec k' k) as [ <- |_]; [congruence|]. rewrite (conj_0 ST). ring.
      - destruct (exec1 st i) as [[st1 e1]|] eqn:E1; [|discriminate]. destruct (exec st1 l) as [[st2 e2]|] eqn:E2; [|discriminate]. injection EX as -> _.
        apply Forall_cons_iff in SUP. destruct SUP as [S1 S2].
        assert (ATk : forall p, In p [(k, o1 o)] -> pair_at st (fst p)) by (intros p [ <- |[]]; exact AT). destruct (step_keys RING o B sqrt_qdim inv_sqrt_qdim fs theta trivial_braid R C small VAL E1 S1 ATk) as [H1 H2].
        destruct (H1 _ (or_introl eq_refl)) as [r Er]. cbn [fst] in Er.
        assert (KR : forall u, In u (map fst r) -> pair_at st1 u).
        { intros u Iu. apply in_map_iff in Iu. destruct Iu as (p & <- & Ip). apply (H2 (fst p, snd p ** o1 o)). unfold apply_linear, image. cbn [flat_map fst snd]. rewrite Er, app_nil_r. apply in_map_iff. exists p. auto. }
        cbn [rev]. rewrite map_app. cbn [map]. rewrite (moved_cons l Er), moved_snoc.
        destruct (exec_back E2) as [ev' EB]. set (m := moved (map invert (rev l)) k'). assert (KM : forall u, In u (map fst m) -> pair_at st1 u) by (apply (moved_keys EB (invert_supported S2) AT')).
        set (U := nodup pair_dec (map fst r ++ map fst m)). assert (ND : NoDup U) by apply NoDup_nodup.
        assert (KU : forall u, In u U -> pair_at st1 u). { intros u Iu. apply nodup_In, in_app_iff in Iu. destruct Iu as [Iu|Iu]; auto. }
        rewrite (pairing_amount pair_dec SR (l := r) (fun u => amount (moved l u) k') ND) by (intros u Iu; apply nodup_In, in_app_iff; now left).
        rewrite (pairing_amount pair_dec SR (l := m) (fun u => amount (image (move (invert i)) u) k) ND) by (intros u Iu; apply nodup_In, in_app_iff; now right).
        rewrite (conj_sum ST), <- !(sum_mul_l SR). apply sum_ext. intros u Iu. specialize (KU u Iu). rewrite (st_mul ST).
        assert (A1 := IH _ _ _ u k' E2 S2 KU AT'). fold m in A1.
        destruct (exec1_back E1) as [eb EB1]. assert (SI : supported (invert i)) by (destruct i; exact S1).
        destruct (step_keys RING o B sqrt_qdim inv_sqrt_qdim fs theta trivial_braid R C small VAL EB1 SI (acc := [(u, o1 o)]) ltac:(intros p [ <- |[]]; exact KU)) as [H3 _]. destruct (H3 _ (or_introl eq_refl)) as [r' Er']. cbn [fst] in Er'.
        unfold image. rewrite Er'. assert (A2 := move_adjoint (at_ok AT) (at_ok KU) Er Er').
        transitivity (w k' ** amount (moved l u) k' ** amount r u); [ring|]. rewrite A1. transitivity (w u ** amount r u ** conj (amount m u)); [ring|]. rewrite A2. ring.
    Qed.
  End Named.
End Adjoint.
