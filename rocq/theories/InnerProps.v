(** C62: permute_legs, and every sequence of braids, bends and twists, preserves the inner product and the norm of tensors of the fusion tree backend.
    [unitary_moves]: what the topological data has to satisfy; it holds for every unitary braided category with finitely many sectors, with the numbers that the code computes (C62_category, C62_instances), and
    for the groups with a phase as braid (C62_pointed), also infinite ones.
    [ft_inner], [ft_norm_sq]: inner and norm of the backend (FtOpsModel.v; C58 says that they are sums over the entries, weighted by the quantum dimension of the coupled sector). *)
From Coq Require Import Reals Lra.
From Verif Require Import Util RowModel RowProofs GridModel GridProofs SymModel SymProofs CatSpec Sums StarMat SpaceModel SpaceSpec PipeModel PipeProofs4 TreeModel TreeProofs TreeProofs3 TreeProofs4 TreeProofs5 TreeProofs7 TreeProofs8 TensorModel TensorSpec TensorProofs5 BlockModel BlockProofs
  SparseModel ConvertModel ConvertSpec FtOpsModel MappingModel MappingProofs PermLegsModel PermLegsSpec MoveModel FtMapModel FtMapSpec FtMapProofs FtMapProofs3 FtMapProofs7 FtMapProofs9 FtMapProofs10 FtMapProofs11 FtMapProofs15 FtMapProofs16 FtMapProofs17 FtMapProps BendSpec BendProofs BendProofs2 BendProofs3 BendProofs4
  PermLegsProofs7 InnerSpec InnerProofs InnerProofs2 InnerProofs3.
From Verif Require Import Cplx Tower StarCplx TwistModel CatBend CatBend2 CatBend3 AbelianModel AbelianProofs AnyonModel AnyonProofs ProductModel ProductProofs ProductCat.
From Verif Require Import BendProps.
From Verif Require AnyonProps ProductProps TreeProps ZNAnyonProofs FtOpsProps PermLegsProps.
Open Scope nat_scope.

Record unitary_moves (S : symmetry) (K : Type) (o : ops K) (R : Rsym K) (C : Fsym K) (B : Bsym K) (qdim sqrt_qdim inv_sqrt_qdim fs theta : sector -> K) : Prop := {
  um_bend : bend_data S o B sqrt_qdim inv_sqrt_qdim fs;
  um_metric : bend_metric S o B qdim sqrt_qdim fs;
  um_twist : twist_unitary S o theta;
  um_R : R_unitary S o R;
  um_C : C_unitary S o C;
}.

(** ** Single trees: the matrix elements of a move and of the opposite move are adjoint, in the inner product in which a pair of trees has weight qdim (coupled sector) *)
Theorem C62_move_adjoint : forall (S : symmetry) (K : Type) (o : ops K) R C B qdim sqrt_qdim inv_sqrt_qdim fs theta small trivial_braid (XY XY' : tree * tree) i r r',
  fusion_ring S -> star_laws o -> unitary_moves S K o R C B qdim sqrt_qdim inv_sqrt_qdim fs theta -> (forall x, small x = true -> x = o0 o) ->
  let mv := move (braid_tree S o R C small) (twist o theta trivial_braid) (fun X Y down => bend_leg S o B sqrt_qdim inv_sqrt_qdim fs X Y down false) in
  legal_pair S XY -> legal_pair S XY' -> mv i XY = Some r -> mv (invert i) XY' = Some r' ->
  omul o (qdim (t_coup (fst XY'))) (amount pair_dec o r XY') = omul o (qdim (t_coup (fst XY))) (oconj o (amount pair_dec o r' XY)).
Proof.
  intros S K o R C B qd sq isq fs theta small tb XY XY' i r r' RING ST UM SM mv L1 L2 E1 E2.
  exact (@move_adjoint S RING K o ST B qd sq isq fs theta tb R C small (um_bend _ _ _ _ _ _ _ _ _ _ _ UM) (um_metric _ _ _ _ _ _ _ _ _ _ _ UM) SM i XY XY' r r' L1 L2 E1 E2).
Qed.
Print Assumptions C62_move_adjoint.

(** ** Tensors *)
(** any sequence of instructions, with one mapping of pairs of trees or (without bends) with separate mappings for the splitting and the fusion trees *)
Theorem C62_apply_instructions : forall (S : tsymm) (K : Type) (o : ops K) re R C B qdim sqrt_qdim inv_sqrt_qdim fs theta small big trivial_braid P Q P' Q' T1 T2 ci di instrs events mixes topo_real data_real small_block,
  tsymm_ok S -> star_laws o -> real_part o re -> thresholds K o big small_block -> tp_ok S P -> tp_ok S Q -> tp_ok S P' -> tp_ok S Q' -> ft_ok P Q T1 -> ft_ok P Q T2 ->
  (topo_real = true -> real_symbols re R C B sqrt_qdim inv_sqrt_qdim fs theta) -> (data_real = true -> topo_real = true) ->
  unitary_moves S K o R C B qdim sqrt_qdim inv_sqrt_qdim fs theta -> (forall x, small x = true -> x = o0 o) ->
  exec (legs0 (length (tp_flat_legs P)) (length (tp_flat_legs Q))) instrs = Some ((ci, di), events) -> Forall supported instrs -> permuted_products ci di P Q P' Q' ->
  (mixes = false -> Forall (fun i => match i with Bend _ => False | _ => True end) instrs) ->
  let apply := apply_ins S K o re R C B sqrt_qdim inv_sqrt_qdim fs theta small big trivial_braid topo_real data_real small_block in
  exists T1' T2', apply instrs T1 P Q P' Q' ci di mixes = Some T1' /\ apply instrs T2 P Q P' Q' ci di mixes = Some T2' /\ ft_ok P' Q' T1' /\ ft_ok P' Q' T2' /\
    ft_inner o (fun x => x) (map qdim (tp_secs P')) T1' T2' true = ft_inner o (fun x => x) (map qdim (tp_secs P)) T1 T2 true.
Proof.
  intros S K o re R C B qd sq isq fs theta small big tb P Q P' Q' T1 T2 ci di l ev mixes tr dr sb OK ST RP TH HP HQ HP' HQ' O1 O2 TR DR UM SM EX SUP PP NB apply0. assert (SR := st_semi ST).
  assert (W : forall T, ft_ok P Q T -> exists T', apply0 l T P Q P' Q' ci di mixes = Some T' /\ ft_ok P' Q' T' /\ image_of S K o P Q P' Q' ci di (moves S K o R C B sq isq fs theta small tb l) T T').
  { intros T OT. destruct mixes.
    - exact (C60_apply_instructions S K o re R C B sq isq fs theta small big tb P Q P' Q' T ci di l ev tr dr sb OK SR RP TH HP HQ HP' HQ' OT TR EX SUP PP).
    - exact (C60_apply_instructions_factorized S K o re R C B sq isq fs theta small big tb P Q P' Q' T ci di l ev tr dr sb OK SR RP TH HP HQ HP' HQ' OT TR DR EX SUP (NB eq_refl) PP). }
  destruct (W T1 O1) as (T1' & A1 & O1' & I1). destruct (W T2 O2) as (T2' & A2 & O2' & I2). exists T1', T2'. do 4 (split; [assumption|]).
  destruct (all_pairs_exist OK HP HQ) as [L AL]. destruct (all_pairs_exist OK HP' HQ') as [L' AL']. destruct UM as [BD BM TU RU CU].
  exact (inner_preserved OK ST BD BM TU RU CU SM HP HQ HP' HQ' PP EX SUP AL AL' I1 I2 O1 O2 O1' O2').
Qed.
Print Assumptions C62_apply_instructions.

(** permute_legs, with pipes *)
Theorem C62_permute_legs : forall (S : tsymm) (K : Type) (o : ops K) re R C B qdim sqrt_qdim inv_sqrt_qdim fs theta small big trivial_braid P Q P' Q' T1 T2 pipes r mixes topo_real data_real small_block,
  tsymm_ok S -> star_laws o -> real_part o re -> thresholds K o big small_block -> tp_ok S P -> tp_ok S Q -> tp_ok S P' -> tp_ok S Q' -> ft_ok P Q T1 -> ft_ok P Q T2 ->
  (topo_real = true -> real_symbols re R C B sqrt_qdim inv_sqrt_qdim fs theta) -> (data_real = true -> topo_real = true) ->
  unitary_moves S K o R C B qdim sqrt_qdim inv_sqrt_qdim fs theta -> (forall x, small x = true -> x = o0 o) ->
  valid_request r -> length pipes = r_nc r + r_nd r -> nsum (firstn (r_nc r) pipes) = length (tp_flat_legs P) -> nsum (skipn (r_nc r) pipes) = length (tp_flat_legs Q) ->
  mixes = existsb (changes_side r) (seq 0 (r_nc r + r_nd r)) ->
  (exists instrs, run r = Ok instrs) ->
  permuted_products (flat_codomain_idcs pipes (r_cod r)) (flat_domain_idcs pipes (r_dom r)) P Q P' Q' ->
  let perm T := permute S K o re R C B sqrt_qdim inv_sqrt_qdim fs theta small big trivial_braid topo_real data_real small_block pipes (r_cod r) (r_dom r) (r_levels r) (r_bend r) (r_sym r) T P Q P' Q' mixes in
  exists T1' T2', perm T1 = Some T1' /\ perm T2 = Some T2' /\ ft_ok P' Q' T1' /\ ft_ok P' Q' T2' /\
    ft_inner o (fun x => x) (map qdim (tp_secs P')) T1' T2' true = ft_inner o (fun x => x) (map qdim (tp_secs P)) T1 T2 true.
Proof.
  intros S K o re R C B qd sq isq fs theta small big tb P Q P' Q' T1 T2 pipes r mixes tr dr sb OK ST RP TH HP HQ HP' HQ' O1 O2 TR DR UM SM V LP N1 N2 MX EX PP perm. assert (SR := st_semi ST).
  destruct (C60_permute_legs S K o re R C B sq isq fs theta small big tb P Q P' Q' T1 pipes r mixes tr dr sb OK SR RP TH HP HQ HP' HQ' O1 TR DR V LP N1 N2 MX EX PP) as (l1 & T1' & E1 & A1 & O1' & I1).
  destruct (C60_permute_legs S K o re R C B sq isq fs theta small big tb P Q P' Q' T2 pipes r mixes tr dr sb OK SR RP TH HP HQ HP' HQ' O2 TR DR V LP N1 N2 MX EX PP) as (l2 & T2' & E2 & A2 & O2' & I2).
  assert (l2 = l1) as -> by congruence. exists T1', T2'. do 4 (split; [assumption|]).
  destruct (all_pairs_exist OK HP HQ) as [L AL]. destruct (all_pairs_exist OK HP' HQ') as [L' AL']. destruct UM as [BD BM TU RU CU].
  destruct EX as [l0 E0]. destruct (PermLegsProps.C22_pipes pipes r V LP) as (V' & _ & FR). destruct (FR l0 E0) as (l & ev & E & EX). rewrite N1, N2 in EX. assert (l = l1) as -> by congruence. assert (SUP := run_supported E).
  exact (inner_preserved OK ST BD BM TU RU CU SM HP HQ HP' HQ' PP EX SUP AL AL' I1 I2 O1 O2 O1' O2').
Qed.
Print Assumptions C62_permute_legs.

(** ... so the norm does not change; [nrm]: the Frobenius norm of a block *)
Theorem C62_norm : forall (S : tsymm) (K : Type) (o : ops K) re R C B qdim sqrt_qdim inv_sqrt_qdim fs theta small big trivial_braid P Q P' Q' T pipes r mixes topo_real data_real small_block nrm,
  tsymm_ok S -> star_laws o -> real_part o re -> thresholds K o big small_block -> tp_ok S P -> tp_ok S Q -> tp_ok S P' -> tp_ok S Q' -> ft_ok P Q T ->
  (topo_real = true -> real_symbols re R C B sqrt_qdim inv_sqrt_qdim fs theta) -> (data_real = true -> topo_real = true) ->
  unitary_moves S K o R C B qdim sqrt_qdim inv_sqrt_qdim fs theta -> (forall x, small x = true -> x = o0 o) ->
  valid_request r -> length pipes = r_nc r + r_nd r -> nsum (firstn (r_nc r) pipes) = length (tp_flat_legs P) -> nsum (skipn (r_nc r) pipes) = length (tp_flat_legs Q) ->
  mixes = existsb (changes_side r) (seq 0 (r_nc r + r_nd r)) ->
  (exists instrs, run r = Ok instrs) ->
  permuted_products (flat_codomain_idcs pipes (r_cod r)) (flat_domain_idcs pipes (r_dom r)) P Q P' Q' ->
  (forall b, omul o (nrm b) (nrm b) = binner o b b true) ->
  exists T', permute S K o re R C B sqrt_qdim inv_sqrt_qdim fs theta small big trivial_braid topo_real data_real small_block pipes (r_cod r) (r_dom r) (r_levels r) (r_bend r) (r_sym r) T P Q P' Q' mixes = Some T' /\
    ft_norm_sq o nrm (map qdim (tp_secs P')) T' = ft_norm_sq o nrm (map qdim (tp_secs P)) T.
Proof.
  intros S K o re R C B qd sq isq fs theta small big tb P Q P' Q' T pipes r mixes tr dr sb nrm OK ST RP TH HP HQ HP' HQ' O1 TR DR UM SM V LP N1 N2 MX EX PP HN. assert (SR := st_semi ST).
  destruct (C62_permute_legs S K o re R C B qd sq isq fs theta small big tb P Q P' Q' T T pipes r mixes tr dr sb OK ST RP TH HP HQ HP' HQ' O1 O1 TR DR UM SM V LP N1 N2 MX EX PP) as (T1 & T2 & E1 & E2 & O1' & O2' & EQ).
  assert (T2 = T1) as -> by congruence. exists T1. split; [exact E1|].
  rewrite (FtOpsProps.C58_norm K o S P' Q' T1 qd nrm SR (conj_0 ST) OK HP' HQ' O1' HN), (FtOpsProps.C58_norm K o S P Q T qd nrm SR (conj_0 ST) OK HP HQ O1 HN). exact EQ.
Qed.
Print Assumptions C62_norm.

(** ** The hypothesis: categories, with the numbers that the code computes from the F and R symbols (TwistModel.v) *)
Theorem C62_category : forall S F R C fs qd trivial_braid symmetric_braid, fusion_ring S -> braided_category S Cops F R fs qd -> C_is_RFR S Cops F R C -> positive_qdim S qd -> finitely_many S ->
  unitary_moves S Cplx.C Cops R C (b_symbol S F) (fun a => RtoC (qdim S F a)) (sqrt_qdim S F) (inv_sqrt_qdim S F) (frobenius_schur S F) (twist_number S F R trivial_braid symmetric_braid).
Proof.
  intros S F R C fs qd tb sb RING BC CR POS FIN. constructor.
  - exact (C61_bend_data S F R fs qd RING BC POS).
  - destruct FIN as (A & ND & ALL). constructor.
    + intros a z c Va Vz Ic mu nu Hm Hn. cbn [omul Cops]. rewrite (proj2 (proj2 (code_numbers BC POS Vz))). assert (Vc : sym_valid S c = true) by (now apply (fr_closed RING Va Vz)). exact (b_flip RING BC POS ND ALL Va Vz Vc Hm Hn).
    + intros a Va. destruct (code_numbers BC POS Va) as (P & _ & _). unfold sqrt_qdim. cbn [omul oconj Cops]. split; [rewrite <- RtoC_mul, sqrt_sqrt by lra; reflexivity|]. unfold RtoC, Cconj. cbn [fst snd]. f_equal. lra.
  - exact (proj2 (C61_topological_twist S F R fs qd RING BC POS FIN) tb sb).
  - exact (bc_R_unitary BC).
  - eapply TreeProps.C20_C_unitary; try eassumption; [exact Cops_star|apply (bc_F_unitary BC)|apply (bc_R_unitary BC)].
Qed.
Print Assumptions C62_category.

(** groups whose braid is a phase r(a, b): bosons, fermions, anyons without F symbols; finitely or infinitely many sectors (U(1), fermion number) *)
Theorem C62_pointed : forall (S : symmetry) fuse (K : Type) (o : ops K) (r : sector -> sector -> K) R C B sqrt_qdim inv_sqrt_qdim fs theta small trivial_braid,
  abelian_group_laws S fuse -> star_laws o -> pointed_data S o r R C B sqrt_qdim inv_sqrt_qdim fs theta small trivial_braid ->
  (forall a b, sym_valid S a = true -> sym_valid S b = true -> omul o (r a b) (oconj o (r a b)) = o1 o) ->
  unitary_moves S K o R C B (fun _ => o1 o) sqrt_qdim inv_sqrt_qdim fs theta.
Proof.
  intros S fuse K o r R C B sq isq fs theta small tb G ST PD UN. assert (SR := st_semi ST). assert (RING := ag_fusion_ring G).
  assert (M1 : forall x, omul o (o1 o) x = x) by (intros; apply (SRmul_1_l SR)).
  assert (N1 : forall a b c, sym_valid S a = true -> sym_valid S b = true -> In c (sym_outcomes S a b) -> c = fuse a b /\ n_symbol S a b c = 1).
  { intros a b c Va Vb I. assert (E := outcome G Va Vb I). split; [exact E|]. rewrite E. exact (n_one G Va Vb). }
  assert (S1 : forall f, sumn o 1 f = f 0) by (intros f; unfold sumn; cbn [seq map]; rewrite sum_cons, sum_nil, (SRadd_comm SR); apply (SRadd_0_l SR)).
  assert (LT : forall n, n < 1 -> n = 0) by lia.
  constructor.
  - constructor.
    + intros a z c Va Vz Ic mu mu' Hm Hm'. destruct (N1 a z c Va Vz Ic) as [-> N]. rewrite N in Hm, Hm'. apply LT in Hm, Hm'. subst mu mu'. cbn [Nat.eqb].
      assert (Vc := ag_closed G Va Vz). assert (Vd := ag_dual_valid G Vz). assert (E : fuse (fuse a z) (sym_dual S z) = a).
      { rewrite (ag_assoc G Va Vz Vd), (ag_inv G Vz). now apply (fuse_unit G). }
      assert (N2 : n_symbol S (fuse a z) (sym_dual S z) a = 1) by (rewrite <- E at 2; now apply (n_one G)).
      rewrite N2, S1, (pd_B PD), (pd_B PD), (proj2 (proj2 (pd_qdim PD Vz))) by assumption. rewrite (StarMat.conj_1 ST), !M1. reflexivity.
    + intros a Va. destruct (pd_qdim PD Va) as (E1 & E2 & _). rewrite E1, E2. apply M1.
    + destruct (pd_qdim PD (ag_trivial_valid G)) as (E1 & _ & E2). now split.
    + intros a Va. destruct (pd_qdim PD Va) as (_ & _ & E). destruct (pd_qdim PD (ag_dual_valid G Va)) as (_ & _ & E'). rewrite E, E'. split; [apply M1|]. split; [apply (StarMat.conj_1 ST)|reflexivity].
  - constructor.
    + intros a z c Va Vz Ic mu nu _ _. destruct (N1 a z c Va Vz Ic) as [-> _]. rewrite (pd_B PD), (pd_B PD), (proj2 (proj2 (pd_qdim PD Vz))); [now rewrite !M1| | | |]; auto using (ag_dual_valid G), (ag_closed G).
    + intros a Va. destruct (pd_qdim PD Va) as (E & _). rewrite E. split; [apply M1|apply (StarMat.conj_1 ST)].
  - intros a Va. rewrite (pd_theta PD Va). now apply UN.
  - intros a b Va Vb c _ mu _. rewrite (pd_R PD) by assumption. now apply UN.
  - intros a b c d Va Vb Vc Vd e e' mu nu mu' nu' Ie Ie' Hmu Hnu Hmu' Hnu'. destruct (N1 a b e Va Vb Ie) as [-> N]. destruct (N1 a b e' Va Vb Ie') as [-> _]. rewrite N in Hmu, Hmu'. apply LT in Hmu, Hmu'. subst mu mu'.
    assert (Vab := ag_closed G Va Vb). assert (ID : In d (sym_outcomes S (fuse a b) c)) by (apply (proj1 (@n_symbol_pos S _ _ d RING Vab Vc)); lia). destruct (N1 _ _ d Vab Vc ID) as [-> N2]. rewrite N2 in Hnu, Hnu'. apply LT in Hnu, Hnu'. subst nu nu'.
    rewrite row_eqb_refl. cbn [Nat.eqb andb]. rewrite (ag_outcomes G Va Vc). cbn [map]. rewrite sum_cons, sum_nil, (SRadd_comm SR), (SRadd_0_l SR), (n_one G Va Vc), S1.
    assert (E : fuse (fuse a b) c = fuse (fuse a c) b) by (rewrite !(ag_assoc G) by assumption; now rewrite (ag_comm G Vb Vc)).
    rewrite E, (n_one G (ag_closed G Va Vc) Vb), S1, !(pd_C PD) by assumption. now apply UN.
Qed.
Print Assumptions C62_pointed.

(** the categories of cyten (Ising with the C symbols of its code, which are unitary although they are not those of the braid, C10) *)
Definition unitary_category (S : symmetry) (F : Fsym Cplx.C) (R : Rsym Cplx.C) (C : Fsym Cplx.C) : Prop := forall trivial_braid symmetric_braid,
  unitary_moves S Cplx.C Cops R C (b_symbol S F) (fun a => RtoC (qdim S F a)) (sqrt_qdim S F) (inv_sqrt_qdim S F) (frobenius_schur S F) (twist_number S F R trivial_braid symmetric_braid).
Theorem C62_instances :
  (forall rh, unitary_category Fibonacci (fib_F Cops fib_ftab) (fib_R Cops (fib_rtab rh)) (fib_C Cops fib_ftab (fib_rtab rh))) /\
  (forall nu, Z.odd nu = true -> let v := ising_nu nu in unitary_category Ising (ising_F Cops (ising_ftab v)) (ising_R Cops (ising_rtab v)) (ising_C Cops (ising_ftab v) (ising_rtab v) (ising_phase v))) /\
  unitary_category SU3_3 su33_Fc su33_Rc su33_Cc /\
  (forall N n, (1 < N <= 32768)%Z -> unitary_category (ZNAnyon N) zna_F (zna_R N n) (zna_C N n)) /\
  (forall N n, (1 < N <= 32768)%Z -> Z.even N = true -> unitary_category (ZNAnyon N) (zna2_F N) (zna2_R N n) (zna2_C N n)) /\
  (forall N, (1 < N <= 32768)%Z -> unitary_category (QuantumDouble N) zna_F (qd_R N) (qd_C N)) /\
  (forall fs, fs <> [] -> Forall (honest Cops) fs -> Forall is_cat fs -> Forall (fun f => positive_qdim (fac_sym f) (fac_qd f)) fs ->
     Forall (fun f => exists l, fac_all f = Some l /\ NoDup l /\ forall a, In a l <-> sym_valid (fac_sym f) a = true) fs ->
     unitary_category (product_sym Cops fs) (product_F Cops fs) (product_R Cops fs) (default_c_symbol Cops (product_F Cops fs) (product_R Cops fs))).
Proof.
  split; [|split; [|split; [|split; [|split; [|split]]]]].
  - intros rh tb sb. destruct (AnyonProps.C09_Fibonacci_category rh) as (RING & BC & CR). refine (C62_category _ _ _ _ _ _ tb sb RING BC CR _ _).
    + intros a _. exists (fib_qdim a). split; [|reflexivity]. unfold fib_qdim, phi. destruct (q0 a =? 0)%Z; [lra|]. assert (H := sqrt_pos 5). lra.
    + exists [[0%Z]; [1%Z]]. split; [repeat constructor; cbn; intuition congruence|]. intros a. split; [apply fib_secs|]. intros [ <- |[ <- |[]]]; reflexivity.
  - intros nu O v tb sb. destruct (AnyonProps.C10_Ising_category nu O) as (_ & RING & BC). fold v in BC.
    assert (CR : C_is_RFR Ising Cops (ising_F Cops (ising_ftab v)) (ising_R Cops (ising_rtab v)) (default_c_symbol Cops (ising_F Cops (ising_ftab v)) (ising_R Cops (ising_rtab v)))).
    { intros a b c _ _ _ e _ d _ f _ _ mu nu' kap lam _ _ _ _. unfold default_c_symbol. cbn [Cops omul oconj]. ring. }
    assert (U := C62_category _ _ _ _ _ _ tb sb RING BC CR). destruct U as [U1 U2 U3 U4 _].
    + intros a _. exists (ising_qdim a). split; [|reflexivity]. unfold ising_qdim. destruct (q0 a =? 1)%Z; [apply sqrt_lt_R0; lra|lra].
    + exists AnyonProofs2.isecs. split; [repeat constructor; cbn; intuition congruence|]. intros a. split; [apply AnyonProofs2.ising_secs|]. intros [ <- |[ <- |[ <- |[]]]]; reflexivity.
    + constructor; try assumption. apply TreeProps.ising_C_unitary; [apply AnyonProofs2.ising_nu_range|now apply AnyonProofs2.ising_nu_odd].
  - intros tb sb. destruct AnyonProps.C16_SU3_3_category as (RING & BC & CR). refine (C62_category _ _ _ _ _ _ tb sb RING BC CR _ _).
    + intros a _. exists (su33_qdim a). split; [|reflexivity]. unfold su33_qdim. destruct (q0 a =? 1)%Z; lra.
    + exists AnyonProofs2.s3secs. split; [repeat constructor; cbn; intuition congruence|]. intros a. split; [apply AnyonProofs2.su33_secs|]. intros [ <- |[ <- |[ <- |[ <- |[]]]]]; reflexivity.
  - intros N n HN tb sb. destruct (AnyonProps.C08_ZN_anyon_category N n HN) as (RING & BC & CR). exact (C62_category _ _ _ _ _ _ tb sb RING BC CR (one_positive _) (ZNA_finite N HN)).
  - intros N n HN EV tb sb. destruct (AnyonProps.C08_ZN_anyon_category N n HN) as (RING & _). destruct (AnyonProps.C08_ZN_anyon_category2 N n HN EV) as (BC & CR). exact (C62_category _ _ _ _ _ _ tb sb RING BC CR (one_positive _) (ZNA_finite N HN)).
  - intros N HN tb sb. destruct (AnyonProps.C08_quantum_double N HN) as (RING & BC & CR & ND & ALL). refine (C62_category _ _ _ _ _ _ tb sb RING BC CR (one_positive _) _). exists (qd_all_sectors N). split; [exact ND|]. intros a. symmetry. apply ALL.
  - intros fs NE H D PQ FA tb sb. destruct (ProductProps.C14_category_laws fs NE H D) as [BC CR]. refine (C62_category _ _ _ _ _ _ tb sb (ProductProps.C14_ring_laws fs NE H) BC CR _ _).
    + intros a V. unfold product_qd. destruct (max_fusion_style fs =? style_single); [exists 1%R; split; [lra|reflexivity]|].
      assert (W : forall l x, (forall i, In i l -> i < length fs) -> (exists d, (0 < d)%R /\ x = RtoC d) -> exists d, (0 < d)%R /\ fold_left (fun r i => omul Cops r (fac_qd (nth i fs (nofac Cops)) (factor_sector fs a i))) l x = RtoC d).
      { induction l as [|i l IH]; intros x HL HX; [exact HX|]. cbn [fold_left]. apply IH; [intros; apply HL; now right|]. destruct HX as (d & P & ->). assert (Hi := HL i (or_introl eq_refl)).
        destruct (proj1 (Forall_forall _ _) PQ _ (nth_In fs (nofac Cops) Hi) _ (@valid_parts _ Cops fs a i V Hi)) as (d' & P' & ->). exists (d * d')%R. split; [now apply Rmult_lt_0_compat|]. symmetry. apply RtoC_mul. }
      apply W; [intros i I; apply in_seq in I; lia|]. exists 1%R. split; [lra|reflexivity].
    + destruct (ProductProps.C14_all_sectors fs NE H FA) as (l & _ & ND & ALL). exists l. split; [exact ND|]. intros a. symmetry. apply ALL.
Qed.
Print Assumptions C62_instances.

(** ** Examples *)
(** Z_4 anyons over the Gaussian integers: two tensors with blocks in two sectors, permute_legs with a twist, two bends and braids *)
Definition zG : list (nat * nat * blk (Z * Z)) := [((0, 0), Blk [2; 1] [(0, 1); (2, -1)]%Z); ((1, 1), Blk [2; 1] [(1, 1); (4, 0)]%Z)].
Example C62_ex_permute_legs : tsymm_ok z4 /\ star_laws FtOpsProps.Gops /\ real_part FtOpsProps.Gops FtOpsProps.np_real /\ thresholds (Z * Z) FtOpsProps.Gops gbig gzero /\ tp_ok z4 zP /\ tp_ok z4 zQ /\ tp_ok z4 zP' /\ tp_ok z4 zQ' /\
  ft_ok zP zQ zF /\ ft_ok zP zQ zG /\ unitary_moves z4 (Z * Z) FtOpsProps.Gops z4_R z4_C z4_B (fun _ => o1 FtOpsProps.Gops) gone gone gone (fun a => z4_r a a) /\ (forall x, gsmall x = true -> x = o0 FtOpsProps.Gops) /\
  valid_request zrq /\ existsb (changes_side zrq) (seq 0 3) = true /\ (exists l, run zrq = Ok l /\ length l = 6) /\ permuted_products (flat_codomain_idcs [1; 1; 1] [2; 1]) (flat_domain_idcs [1; 1; 1] [0]) zP zQ zP' zQ' /\
  let perm T := zperm false false gzero [1; 1; 1] [2; 1] [0] (r_levels zrq) (r_bend zrq) false T zP zQ zP' zQ' true in
  perm zF = Some [((0, 0), Blk [2; 1] [(0, -3); (0, -5)]%Z); ((1, 1), Blk [2; 1] [(-1, 0); (-2, 0)]%Z)] /\
  perm zG = Some [((0, 0), Blk [2; 1] [(1, -1); (0, -4)]%Z); ((1, 1), Blk [2; 1] [(0, -1); (-2, 1)]%Z)] /\
  ft_inner FtOpsProps.Gops (fun x => x) [(1, 0); (1, 0)]%Z zF zG true = (27, 2)%Z /\
  ft_inner FtOpsProps.Gops (fun x => x) [(1, 0); (1, 0)]%Z [((0, 0), Blk [2; 1] [(0, -3); (0, -5)]%Z); ((1, 1), Blk [2; 1] [(-1, 0); (-2, 0)]%Z)] [((0, 0), Blk [2; 1] [(1, -1); (0, -4)]%Z); ((1, 1), Blk [2; 1] [(0, -1); (-2, 1)]%Z)] true = (27, 2)%Z.
Proof.
  destruct C60_ex_permute_legs as (O1 & O2 & ST & RP & PD & TH & H1 & H2 & H3 & H4 & HF & V & PP & MX & RN & AF). repeat (split; [assumption|]).
  split; [constructor; [repeat constructor; left; cbn; lia | | | |]; intros e [ <- |[ <- |[]]]; cbn; (lia || reflexivity || (split; lia))|].
  split; [refine (C62_pointed z4 _ _ _ z4_r z4_R z4_C z4_B gone gone gone _ gsmall false O2 ST PD _); intros a b Va Vb; apply z4_valid in Va; apply z4_valid in Vb; destruct Va as [ -> |[ -> |[ -> | -> ]]], Vb as [ -> |[ -> |[ -> | -> ]]]; reflexivity|].
  split; [intros [x y] H; unfold gsmall in H; cbn in H; cbn; f_equal; lia|]. split; [exact V|]. split; [exact MX|]. split; [eexists; split; [exact RN|reflexivity]|]. split; [exact PP|]. cbv zeta. split; [exact AF|]. split; [vm_compute; reflexivity|]. split; vm_compute; reflexivity.
Qed.
