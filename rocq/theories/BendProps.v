(** C61: bends, braids and twists can be undone; the numbers they use.
    [bend_data]: what the B symbols, the roots of the quantum dimensions and the Frobenius-Schur indicators have to satisfy (BendSpec.v); it follows from pentagon, unitarity and triangle equations
    (C61_bend_data), and the topological twists have unit modulus in every category with finitely many sectors (C61_topological_twist).
    [invert]: the opposite instruction; [amount]: the coefficient in a linear combination of trees; [tree_value], [moves], [apply_ins]: as in C60. *)
From Coq Require Import Reals Lra.
From Verif Require Import Util RowModel RowProofs GridModel GridProofs SymModel SymProofs CatSpec Sums StarMat SpaceModel SpaceSpec PipeModel PipeProofs4 TreeModel TreeProofs TreeProofs3 TreeProofs4 TreeProofs5 TreeProofs7 TreeProofs8 TensorModel TensorSpec TensorProofs5 BlockModel BlockProofs
  SparseModel ConvertModel ConvertSpec FtOpsModel MappingModel MappingProofs PermLegsModel PermLegsSpec MoveModel FtMapModel FtMapSpec FtMapProofs FtMapProofs3 FtMapProofs7 FtMapProofs9 FtMapProofs10 FtMapProofs11 FtMapProofs17 FtMapProps BendSpec BendProofs BendProofs2 BendProofs3 BendProofs4.
From Verif Require Import Cplx Tower StarCplx TwistModel CatBend CatBend2 CatBend3 AbelianModel AbelianProofs AnyonModel AnyonProofs ProductModel ProductProofs ProductCat.
From Verif Require AnyonProps ProductProps TreeProps ZNAnyonProofs.
Open Scope nat_scope.

(** a pair of trees as in a tensor: legal trees with the same coupled sector *)
Definition legal_pair (S : symmetry) (XY : tree * tree) : Prop := tree_ok S (fst XY) /\ tree_ok S (snd XY) /\ t_coup (fst XY) = t_coup (snd XY).

(** ** Single trees *)
(** bending a leg and bending it back, for both directions and both values of do_conj (a bend down is undone by a bend up with the same flag, since bend_leg conjugates for one of them) *)
Theorem C61_bend_back : forall (S : symmetry) (K : Type) (o : ops K) B sqrt_qdim inv_sqrt_qdim fs (X Y : tree) (down do_conj : bool),
  fusion_ring S -> star_laws o -> bend_data S o B sqrt_qdim inv_sqrt_qdim fs -> legal_pair S (X, Y) -> num_uncoupled (if down then Y else X) <> 0 ->
  let bend := bend_leg S o B sqrt_qdim inv_sqrt_qdim fs in
  exists r, bend X Y down do_conj = Some r /\
    forall k, amount pair_dec o (apply_linear o (fun XY => bend (fst XY) (snd XY) (negb down) do_conj) r) k = if pair_dec (X, Y) k then o1 o else o0 o.
Proof.
  intros S K o B sq isq fs X Y down dc RING ST BD (TX & TY & EC) N0 bend. cbn [fst snd] in TX, TY, EC. destruct down.
  - destruct (@bend_back S RING K o ST B sq isq fs BD X Y dc TX TY EC N0) as (r & E & H). exists r. split; [exact E|]. intros k. specialize (H (swapped k)). rewrite <- (swap_delta o) in H. change (swapped (Y, X)) with (X, Y) in H. rewrite <- H.
    rewrite !(amount_apply pair_dec (st_semi ST)). f_equal. apply map_ext. intros q. f_equal. unfold image, bend, bend_leg, back. cbn [negb]. destruct (bend_down S o B sq isq fs (snd (fst q)) (fst (fst q)) (negb dc)) as [l|]; [|reflexivity]. rewrite <- amount_swapped. reflexivity.
  - destruct (@bend_back S RING K o ST B sq isq fs BD Y X (negb dc) TY TX (eq_sym EC) N0) as (r & E & H). unfold bend, bend_leg at 1. rewrite E. eexists. split; [reflexivity|]. intros k. rewrite <- (H k).
    rewrite !(amount_apply pair_dec (st_semi ST)), map_map. f_equal. apply map_ext. intros q. f_equal. unfold image, bend_leg, back. cbn [negb fst snd]. rewrite negb_involutive. reflexivity.
Qed.
Print Assumptions C61_bend_back.

(** a twist multiplies a tree by the twist of one sector: the leg, or the sector that the first n legs fuse to ([coupled_of_first]); by its conjugate for the opposite twist; and the two cancel *)
Definition coupled_of_first (t : tree) (n : nat) : sector :=
  if n =? num_uncoupled t then t_coup t else if n =? 1 then nth 0 (t_unc t) [] else nth (n - 2) (t_inner t) [].
Theorem C61_twist : forall (S : symmetry) (K : Type) (o : ops K) theta t idcs over, tree_ok S t -> idcs <> [] -> Forall (fun i => i < num_uncoupled t) idcs ->
  (forall i, idcs = [i] -> twist o theta false t idcs over = Some [(t, if over then theta (nth i (t_unc t) []) else oconj o (theta (nth i (t_unc t) [])))]) /\
  (is_perm (length idcs) idcs -> twist o theta false t idcs over = Some [(t, if over then theta (coupled_of_first t (length idcs)) else oconj o (theta (coupled_of_first t (length idcs))))]) /\
  twist o theta true t idcs over = Some [(t, o1 o)].
Proof.
  intros S K o theta t idcs over TO NE LT. split; [|split; [|reflexivity]].
  - intros i ->. cbn [twist]. apply Forall_cons_iff in LT. rewrite (proj2 (Nat.ltb_lt _ _) (proj1 LT)). reflexivity.
  - intros PM. assert (FB : forallb (fun i => i <? num_uncoupled t) idcs = true) by (apply forallb_forall; intros i I; apply Nat.ltb_lt; exact (proj1 (Forall_forall _ _) LT i I)).
    destruct idcs as [|i [|j l]]; [congruence| |].
    + assert (i = 0) as -> by (assert (H := proj1 (is_perm_In i PM) (or_introl eq_refl)); cbn [length] in H; lia). cbn [twist]. apply Forall_cons_iff in LT. rewrite (proj2 (Nat.ltb_lt _ _) (proj1 LT)). unfold coupled_of_first. cbn [length].
      destruct (Nat.eqb_spec 1 (num_uncoupled t)) as [E|_]; [|reflexivity]. destruct (tree_cases TO) as [ET|[(a & d & ET)|(a & us & c & du & inn & mus & ET & L & P)]]; subst t; cbn [num_uncoupled t_unc length] in E; [discriminate|reflexivity|].
      exfalso. destruct us; [now apply (path_nil (S := S)) in P|cbn [length] in E; lia].
    + unfold twist. set (idcs := i :: j :: l) in *. rewrite FB. cbn [negb]. rewrite (sort_nat_seq PM), strictly_up_seq. cbn [negb]. rewrite seq_length, seq_eqb_seq. unfold coupled_of_first. assert (L2 : length idcs = Datatypes.S (Datatypes.S (length l))) by reflexivity.
      destruct (length idcs =? num_uncoupled t); [reflexivity|]. rewrite L2. change (Datatypes.S (Datatypes.S (length l)) =? 1) with false. cbv iota. replace (last (seq 0 (Datatypes.S (Datatypes.S (length l)))) 0 - 1) with (Datatypes.S (Datatypes.S (length l)) - 2); [reflexivity|].
      rewrite (seq_S (Datatypes.S (length l))), last_last. lia.
Qed.
Print Assumptions C61_twist.

(** any instruction on any pair of trees, followed by the opposite instruction *)
Theorem C61_move_back : forall (S : symmetry) (K : Type) (o : ops K) R C B sqrt_qdim inv_sqrt_qdim fs theta small trivial_braid XY i r,
  fusion_ring S -> star_laws o -> bend_data S o B sqrt_qdim inv_sqrt_qdim fs -> twist_unitary S o theta -> R_unitary S o R -> C_unitary S o C -> (forall x, small x = true -> x = o0 o) ->
  let mv := move (braid_tree S o R C small) (twist o theta trivial_braid) (fun X Y down => bend_leg S o B sqrt_qdim inv_sqrt_qdim fs X Y down false) in
  legal_pair S XY -> mv i XY = Some r -> forall k, amount pair_dec o (apply_linear o (mv (invert i)) r) k = if pair_dec XY k then o1 o else o0 o.
Proof.
  intros S K o R C B sq isq fs theta small tb XY i r RING ST BD TU RU CU SM mv LP E k. exact (@move_back S RING K o ST B sq isq fs theta tb R C small BD TU RU CU SM i XY r LP E k).
Qed.
Print Assumptions C61_move_back.

(** ** Tensors *)
(** Two calls of apply_instructions act like one call with all instructions.  (The legs of the second call are numbered by their positions after the first one.) *)
Theorem C61_composition : forall (S : tsymm) (K : Type) (o : ops K) re R C B sqrt_qdim inv_sqrt_qdim fs theta small big trivial_braid P Q P1 Q1 P2 Q2 F ci di ci2 di2 l1 l2 ev1 ev2 topo_real data_real small_block,
  tsymm_ok S -> star_laws o -> real_part o re -> thresholds K o big small_block -> tp_ok S P -> tp_ok S Q -> tp_ok S P1 -> tp_ok S Q1 -> tp_ok S P2 -> tp_ok S Q2 -> ft_ok P Q F ->
  (topo_real = true -> real_symbols re R C B sqrt_qdim inv_sqrt_qdim fs theta) ->
  exec (legs0 (length (tp_flat_legs P)) (length (tp_flat_legs Q))) l1 = Some ((ci, di), ev1) -> Forall supported l1 -> permuted_products ci di P Q P1 Q1 ->
  exec (legs0 (length ci) (length di)) l2 = Some ((ci2, di2), ev2) -> Forall supported l2 -> permuted_products ci2 di2 P1 Q1 P2 Q2 ->
  let apply := apply_ins S K o re R C B sqrt_qdim inv_sqrt_qdim fs theta small big trivial_braid topo_real data_real small_block in
  exists ci' di' ev F1 F2 F', exec (legs0 (length (tp_flat_legs P)) (length (tp_flat_legs Q))) (l1 ++ l2) = Some ((ci', di'), ev) /\ permuted_products ci' di' P Q P2 Q2 /\
    apply l1 F P Q P1 Q1 ci di true = Some F1 /\ apply l2 F1 P1 Q1 P2 Q2 ci2 di2 true = Some F2 /\ apply (l1 ++ l2) F P Q P2 Q2 ci' di' true = Some F' /\
    forall c X Y p q, tree_of S P2 c X -> tree_of S Q2 c Y -> valid_idx (tree_mults S P2 X) p -> valid_idx (tree_mults S Q2 Y) q -> tree_value S o P2 Q2 F2 X p Y q = tree_value S o P2 Q2 F' X p Y q.
Proof.
  intros S K o re R C B sq isq fs theta small big tb P Q P1 Q1 P2 Q2 F ci di ci2 di2 l1 l2 ev1 ev2 tr dr sb OK ST RP TH HP HQ HP1 HQ1 HP2 HQ2 FO TR E1 S1 PP1 E2 S2 PP2 apply0. assert (SR := st_semi ST).
  destruct (product_lengths PP1) as [L1 L2]. rewrite L1, L2 in E2.
  destruct (C60_apply_instructions S K o re R C B sq isq fs theta small big tb P Q P1 Q1 F ci di l1 ev1 tr dr sb OK SR RP TH HP HQ HP1 HQ1 FO TR E1 S1 PP1) as (F1 & A1 & FO1 & I1).
  destruct (C60_apply_instructions S K o re R C B sq isq fs theta small big tb P1 Q1 P2 Q2 F1 ci2 di2 l2 ev2 tr dr sb OK SR RP TH HP1 HQ1 HP2 HQ2 FO1 TR E2 S2 PP2) as (F2 & A2 & FO2 & I2).
  destruct (@compose_exec P Q P1 Q1 ci di ci2 di2 ev1 ev2 l1 l2 PP1 E1 E2) as (ev & E3). assert (PP3 := @compose_products P Q P1 Q1 P2 Q2 ci di ci2 di2 ev2 l2 PP1 PP2 E2).
  assert (S3 : Forall supported (l1 ++ l2)) by (apply Forall_app; split; assumption).
  destruct (C60_apply_instructions S K o re R C B sq isq fs theta small big tb P Q P2 Q2 F _ _ (l1 ++ l2) ev tr dr sb OK SR RP TH HP HQ HP2 HQ2 FO TR E3 S3 PP3) as (F' & A3 & FO3 & I3).
  exists (map (renamed ci di) ci2), (map (renamed ci di) di2), ev, F1, F2, F'. do 5 (split; [assumption|]).
  intros c X Y p q TX TY Vp Vq. assert (I2' := @image_compose S OK K o ST B sq isq fs theta tb R C small P Q P1 Q1 P2 Q2 HP HQ HP1 HQ1 ci di ci2 di2 ev1 ev2 l1 l2 PP1 PP2 E1 E2 S1 S2 F F1 F2 I1 I2).
  destruct (all_pairs_exist OK HP HQ) as [L AL].
  assert (PM := exec_is_perm E3). destruct (product_lengths PP3) as [L3 L4]. destruct (@permuted_exists _ (length (tp_flat_legs P)) _ _ p q PM) as (p0 & q0 & Lp & Lq & PL); [lia|rewrite (valid_length Vp), L3; exact (tree_mults_len TX)|rewrite (valid_length Vq), L4; exact (tree_mults_len TY)|].
  replace (length (tp_flat_legs P) + length (tp_flat_legs Q) - length (tp_flat_legs P)) with (length (tp_flat_legs Q)) in Lq by lia.
  rewrite (I2' c X Y p0 q0 p q L TX TY Lp Lq PL Vp Vq AL), (I3 c X Y p0 q0 p q L TX TY Lp Lq PL Vp Vq AL). reflexivity.
Qed.
Print Assumptions C61_composition.

(** Any instructions, and then the opposite instructions in the opposite order, give back the tensor. *)
Theorem C61_undo : forall (S : tsymm) (K : Type) (o : ops K) re R C B sqrt_qdim inv_sqrt_qdim fs theta small big trivial_braid P Q P' Q' F ci di instrs events topo_real data_real small_block,
  tsymm_ok S -> star_laws o -> real_part o re -> thresholds K o big small_block -> tp_ok S P -> tp_ok S Q -> tp_ok S P' -> tp_ok S Q' -> ft_ok P Q F ->
  (topo_real = true -> real_symbols re R C B sqrt_qdim inv_sqrt_qdim fs theta) ->
  bend_data S o B sqrt_qdim inv_sqrt_qdim fs -> twist_unitary S o theta -> R_unitary S o R -> C_unitary S o C -> (forall x, small x = true -> x = o0 o) ->
  exec (legs0 (length (tp_flat_legs P)) (length (tp_flat_legs Q))) instrs = Some ((ci, di), events) -> Forall supported instrs -> permuted_products ci di P Q P' Q' ->
  let apply := apply_ins S K o re R C B sqrt_qdim inv_sqrt_qdim fs theta small big trivial_braid topo_real data_real small_block in
  exists ci' di' events' F1 F2, exec (legs0 (length ci) (length di)) (map invert (rev instrs)) = Some ((ci', di'), events') /\
    apply instrs F P Q P' Q' ci di true = Some F1 /\ apply (map invert (rev instrs)) F1 P' Q' P Q ci' di' true = Some F2 /\ ft_ok P Q F2 /\
    forall c X Y p q, tree_of S P c X -> tree_of S Q c Y -> valid_idx (tree_mults S P X) p -> valid_idx (tree_mults S Q Y) q -> tree_value S o P Q F2 X p Y q = tree_value S o P Q F X p Y q.
Proof.
  intros S K o re R C B sq isq fs theta small big tb P Q P' Q' F ci di l ev tr dr sb OK ST RP TH HP HQ HP' HQ' FO TR BD TU RU CU SM EX SUP PP apply0. assert (SR := st_semi ST).
  assert (PM := exec_is_perm EX). destruct (back_exec PM EX) as [ev' E2]. destruct (product_lengths PP) as [L1 L2]. assert (PP2 := back_products PM eq_refl eq_refl PP). assert (S2 := invert_supported SUP).
  assert (E2' := E2). rewrite L1, L2 in E2'.
  destruct (C60_apply_instructions S K o re R C B sq isq fs theta small big tb P Q P' Q' F ci di l ev tr dr sb OK SR RP TH HP HQ HP' HQ' FO TR EX SUP PP) as (F1 & A1 & FO1 & I1).
  destruct (C60_apply_instructions S K o re R C B sq isq fs theta small big tb P' Q' P Q F1 _ _ _ ev' tr dr sb OK SR RP TH HP' HQ' HP HQ FO1 TR E2' S2 PP2) as (F2 & A2 & FO2 & I2).
  eexists _, _, ev', F1, F2. split; [exact E2|]. split; [exact A1|]. split; [exact A2|]. split; [exact FO2|].
  assert (I3 := @image_compose S OK K o ST B sq isq fs theta tb R C small P Q P' Q' P Q HP HQ HP' HQ' ci di _ _ ev ev' l _ PP PP2 EX E2' SUP S2 F F1 F2 I1 I2).
  destruct (back_names PM) as [N1 N2]. rewrite N1, N2 in I3. refine (@image_identity S OK K o ST P Q HP HQ F F2 _ _ I3).
  intros X Y c TX TY k. unfold moves, moved. rewrite (@run_back S (to_ring OK) K o ST B sq isq fs theta tb R C small BD TU RU CU SM (sec_at S (X, Y)) (dual_at P Q) (sec_valid OK HP HQ TX TY) l _ _ _ [((X, Y), o1 o)] EX SUP).
  - unfold amount. cbn [map fst snd]. rewrite sum_cons, sum_nil. destruct (pair_dec (X, Y) k); [rewrite (SRadd_comm SR); apply (SRadd_0_l SR)|apply (SRadd_0_l SR)].
  - intros p0 [ <- |[]]. exact (key_at OK HP HQ TX TY).
Qed.
Print Assumptions C61_undo.

(** ** Categories: over the complex numbers, with the numbers that the code computes from the F and R symbols (TwistModel.v) *)
Definition positive_qdim (S : symmetry) (qd : sector -> Cplx.C) : Prop := forall a, sym_valid S a = true -> exists d, (0 < d)%R /\ qd a = RtoC d.
Definition finitely_many (S : symmetry) : Prop := exists A, NoDup A /\ forall a, sym_valid S a = true <-> In a A.
(** frobenius_schur, qdim, sqrt_qdim and inv_sqrt_qdim: they are the indicator and the quantum dimension of the category, the trivial sector has dimension 1, dual sectors have the same numbers *)
Theorem C61_qdim : forall S F R fs qd, fusion_ring S -> braided_category S Cops F R fs qd -> positive_qdim S qd ->
  qdim S F (sym_trivial S) = 1%R /\
  forall a, sym_valid S a = true -> (0 < qdim S F a)%R /\ RtoC (qdim S F a) = qd a /\ frobenius_schur S F a = fs a /\ qdim S F (sym_dual S a) = qdim S F a /\ fs (sym_dual S a) = fs a /\
    Cmul (sqrt_qdim S F a) (sqrt_qdim S F a) = RtoC (qdim S F a) /\ Cmul (sqrt_qdim S F a) (inv_sqrt_qdim S F a) = C1.
Proof.
  intros S F R fs qd RING BC POS. split; [exact (qdim_one RING BC)|]. intros a V. destruct (code_numbers BC POS V) as (P & E1 & E2). split; [exact P|]. split; [exact E1|]. split; [exact E2|]. split; [exact (qdim_dual RING BC POS V)|].
  assert (BD := bend_data_code RING BC POS). split; [|split].
  - rewrite <- E2, <- (proj2 (proj2 (code_numbers BC POS (fr_dual_valid RING V)))). exact (proj2 (proj2 (bd_fs BD V))).
  - unfold sqrt_qdim. rewrite <- RtoC_mul, sqrt_sqrt by lra. reflexivity.
  - exact (bd_qdim BD V).
Qed.
Print Assumptions C61_qdim.
(** the laws of the bends, for finitely or infinitely many sectors *)
Theorem C61_bend_data : forall S F R fs qd, fusion_ring S -> braided_category S Cops F R fs qd -> positive_qdim S qd ->
  bend_data S Cops (b_symbol S F) (sqrt_qdim S F) (inv_sqrt_qdim S F) (frobenius_schur S F).
Proof. intros S F R fs qd RING BC POS. exact (bend_data_code RING BC POS). Qed.
Print Assumptions C61_bend_data.
(** topological twists: theta_a R(a, abar; 1) = chi_a, and unit modulus *)
Theorem C61_topological_twist : forall S F R fs qd, fusion_ring S -> braided_category S Cops F R fs qd -> positive_qdim S qd -> finitely_many S ->
  (forall a, sym_valid S a = true -> Cmul (twist_number S F R false false a) (R a (sym_dual S a) (sym_trivial S) 0) = fs a) /\
  (forall trivial_braid symmetric_braid, twist_unitary S Cops (twist_number S F R trivial_braid symmetric_braid)).
Proof.
  intros S F R fs qd RING BC POS (A & ND & ALL). split; [|intros tb sb; exact (twist_code RING BC POS ND ALL tb sb)]. intros a V. exact (twist_R_code RING BC POS ND ALL V).
Qed.
Print Assumptions C61_topological_twist.
(** the B symbol B(a, b, c) is sqrt(d_c / d_a) times a unitary matrix, and its transpose up to dimensions and the indicator is the B symbol of the bend back *)
Theorem C61_b_symbol : forall S F R fs qd a b c k n, fusion_ring S -> braided_category S Cops F R fs qd -> positive_qdim S qd -> finitely_many S ->
  sym_valid S a = true -> sym_valid S b = true -> sym_valid S c = true -> k < n_symbol S a b c -> n < n_symbol S a b c ->
  sumn Cops (n_symbol S a b c) (fun j => Cmul (b_symbol S F a b c k j) (Cconj (b_symbol S F a b c n j))) = (if k =? n then RtoC (qdim S F c / qdim S F a) else C0) /\
  Cmul (RtoC (qdim S F a)) (b_symbol S F a b c k n) = Cmul (fs b) (Cmul (RtoC (qdim S F c)) (b_symbol S F c (sym_dual S b) a n k)).
Proof.
  intros S F R fs qd a b c k n RING BC POS (A & ND & ALL) Va Vb Vc Hk Hn. split; [exact (b_unitary RING BC POS ND ALL Va Vb Vc Hk Hn)|exact (b_flip RING BC POS ND ALL Va Vb Vc Hk Hn)].
Qed.
Print Assumptions C61_b_symbol.

(** the categories of cyten *)
Definition bends_and_twists (S : symmetry) (F : Fsym Cplx.C) (R : Rsym Cplx.C) : Prop :=
  bend_data S Cops (b_symbol S F) (sqrt_qdim S F) (inv_sqrt_qdim S F) (frobenius_schur S F) /\
  (forall a, sym_valid S a = true -> Cmul (twist_number S F R false false a) (R a (sym_dual S a) (sym_trivial S) 0) = frobenius_schur S F a) /\
  (forall trivial_braid symmetric_braid, twist_unitary S Cops (twist_number S F R trivial_braid symmetric_braid)).
Lemma bends_and_twists_of S F R fs qd : fusion_ring S -> braided_category S Cops F R fs qd -> positive_qdim S qd -> finitely_many S -> bends_and_twists S F R.
Proof.
  intros RING BC POS FIN. split; [exact (C61_bend_data S F R fs qd RING BC POS)|]. destruct (C61_topological_twist S F R fs qd RING BC POS FIN) as [H1 H2]. split; [|exact H2].
  intros a V. rewrite (H1 a V). symmetry. apply (C61_qdim S F R fs qd RING BC POS). exact V.
Qed.
Lemma one_positive S : positive_qdim S (fun _ => C1).
Proof. intros a _. exists 1%R. split; [lra|reflexivity]. Qed.
Lemma ZNA_finite N : (1 < N <= 32768)%Z -> finitely_many (ZNAnyon N).
Proof. intros HN. destruct (ZN_all_sectors_spec HN) as [ND ALL]. exists (ZN_all_sectors N). split; [exact ND|]. intros a. rewrite (ALL a). reflexivity. Qed.
Theorem C61_instances :
  (forall rh, bends_and_twists Fibonacci (fib_F Cops fib_ftab) (fib_R Cops (fib_rtab rh))) /\
  (forall nu, Z.odd nu = true -> bends_and_twists Ising (ising_F Cops (ising_ftab (ising_nu nu))) (ising_R Cops (ising_rtab (ising_nu nu)))) /\
  bends_and_twists SU3_3 su33_Fc su33_Rc /\
  (forall N n, (1 < N <= 32768)%Z -> bends_and_twists (ZNAnyon N) zna_F (zna_R N n)) /\
  (forall N n, (1 < N <= 32768)%Z -> Z.even N = true -> bends_and_twists (ZNAnyon N) (zna2_F N) (zna2_R N n)) /\
  (forall N, (1 < N <= 32768)%Z -> bends_and_twists (QuantumDouble N) zna_F (qd_R N)) /\
  (forall fs, fs <> [] -> Forall (honest Cops) fs -> Forall is_cat fs -> Forall (fun f => positive_qdim (fac_sym f) (fac_qd f)) fs ->
     Forall (fun f => exists l, fac_all f = Some l /\ NoDup l /\ forall a, In a l <-> sym_valid (fac_sym f) a = true) fs ->
     bends_and_twists (product_sym Cops fs) (product_F Cops fs) (product_R Cops fs)).
Proof.
  split; [|split; [|split; [|split; [|split; [|split]]]]].
  - intros rh. destruct (AnyonProps.C09_Fibonacci_category rh) as (RING & BC & _). refine (bends_and_twists_of _ _ _ _ _ RING BC _ _).
    + intros a _. exists (fib_qdim a). split; [|reflexivity]. unfold fib_qdim, phi. destruct (q0 a =? 0)%Z; [lra|]. assert (H := sqrt_pos 5). lra.
    + exists [[0%Z]; [1%Z]]. split; [repeat constructor; cbn; intuition congruence|]. intros a. split; [apply fib_secs|]. intros [ <- |[ <- |[]]]; reflexivity.
  - intros nu O. destruct (AnyonProps.C10_Ising_category nu O) as (_ & RING & BC). refine (bends_and_twists_of _ _ _ _ _ RING BC _ _).
    + intros a _. exists (ising_qdim a). split; [|reflexivity]. unfold ising_qdim. destruct (q0 a =? 1)%Z; [apply sqrt_lt_R0; lra|lra].
    + exists AnyonProofs2.isecs. split; [repeat constructor; cbn; intuition congruence|]. intros a. split; [apply AnyonProofs2.ising_secs|]. intros [ <- |[ <- |[ <- |[]]]]; reflexivity.
  - destruct AnyonProps.C16_SU3_3_category as (RING & BC & _). refine (bends_and_twists_of _ _ _ _ _ RING BC _ _).
    + intros a _. exists (su33_qdim a). split; [|reflexivity]. unfold su33_qdim. destruct (q0 a =? 1)%Z; lra.
    + exists AnyonProofs2.s3secs. split; [repeat constructor; cbn; intuition congruence|]. intros a. split; [apply AnyonProofs2.su33_secs|]. intros [ <- |[ <- |[ <- |[ <- |[]]]]]; reflexivity.
  - intros N n HN. destruct (AnyonProps.C08_ZN_anyon_category N n HN) as (RING & BC & _). exact (bends_and_twists_of _ _ _ _ _ RING BC (one_positive _) (ZNA_finite N HN)).
  - intros N n HN EV. destruct (AnyonProps.C08_ZN_anyon_category N n HN) as (RING & _). destruct (AnyonProps.C08_ZN_anyon_category2 N n HN EV) as (BC & _). exact (bends_and_twists_of _ _ _ _ _ RING BC (one_positive _) (ZNA_finite N HN)).
  - intros N HN. destruct (AnyonProps.C08_quantum_double N HN) as (RING & BC & _ & ND & ALL). refine (bends_and_twists_of _ _ _ _ _ RING BC (one_positive _) _). exists (qd_all_sectors N). split; [exact ND|]. intros a. symmetry. apply ALL.
  - intros fs NE H D PQ FA. destruct (ProductProps.C14_category_laws fs NE H D) as [BC _]. refine (bends_and_twists_of _ _ _ _ _ (ProductProps.C14_ring_laws fs NE H) BC _ _).
    + intros a V. unfold product_qd. destruct (max_fusion_style fs =? style_single); [exists 1%R; split; [lra|reflexivity]|].
      assert (W : forall l x, (forall i, In i l -> i < length fs) -> (exists d, (0 < d)%R /\ x = RtoC d) -> exists d, (0 < d)%R /\ fold_left (fun r i => omul Cops r (fac_qd (nth i fs (nofac Cops)) (factor_sector fs a i))) l x = RtoC d).
      { induction l as [|i l IH]; intros x HL HX; [exact HX|]. cbn [fold_left]. apply IH; [intros; apply HL; now right|]. destruct HX as (d & P & ->). assert (Hi := HL i (or_introl eq_refl)).
        destruct (proj1 (Forall_forall _ _) PQ _ (nth_In fs (nofac Cops) Hi) _ (@valid_parts _ Cops fs a i V Hi)) as (d' & P' & ->). exists (d * d')%R. split; [now apply Rmult_lt_0_compat|]. symmetry. apply RtoC_mul. }
      apply W; [intros i I; apply in_seq in I; lia|]. exists 1%R. split; [lra|reflexivity].
    + destruct (ProductProps.C14_all_sectors fs NE H FA) as (l & _ & ND & ALL). exists l. split; [exact ND|]. intros a. symmetry. apply ALL.
Qed.
Print Assumptions C61_instances.

(** ... and so tensors with the symmetry of a category can be moved back, with the numbers of the code *)
Theorem C61_undo_category : forall (S : tsymm) F R C fs qd (re : Cplx.C -> Cplx.C) small big trivial_braid symmetric_braid P Q P' Q' D ci di instrs events topo_real data_real small_block,
  tsymm_ok S -> braided_category S Cops F R fs qd -> C_is_RFR S Cops F R C -> positive_qdim S qd -> finitely_many S ->
  real_part Cops re -> thresholds Cplx.C Cops big small_block -> (forall x, small x = true -> x = C0) -> tp_ok S P -> tp_ok S Q -> tp_ok S P' -> tp_ok S Q' -> ft_ok P Q D ->
  let theta := twist_number S F R trivial_braid symmetric_braid in
  (topo_real = true -> real_symbols re R C (b_symbol S F) (sqrt_qdim S F) (inv_sqrt_qdim S F) (frobenius_schur S F) theta) ->
  exec (legs0 (length (tp_flat_legs P)) (length (tp_flat_legs Q))) instrs = Some ((ci, di), events) -> Forall supported instrs -> permuted_products ci di P Q P' Q' ->
  let apply := apply_ins S Cplx.C Cops re R C (b_symbol S F) (sqrt_qdim S F) (inv_sqrt_qdim S F) (frobenius_schur S F) theta small big trivial_braid topo_real data_real small_block in
  exists ci' di' events' D1 D2, exec (legs0 (length ci) (length di)) (map invert (rev instrs)) = Some ((ci', di'), events') /\
    apply instrs D P Q P' Q' ci di true = Some D1 /\ apply (map invert (rev instrs)) D1 P' Q' P Q ci' di' true = Some D2 /\ ft_ok P Q D2 /\
    forall c X Y p q, tree_of S P c X -> tree_of S Q c Y -> valid_idx (tree_mults S P X) p -> valid_idx (tree_mults S Q Y) q -> tree_value S Cops P Q D2 X p Y q = tree_value S Cops P Q D X p Y q.
Proof.
  intros S F R C fs qd re small big tb sb P Q P' Q' D ci di l ev tr dr sbl OK BC CR POS FIN RP TH SM HP HQ HP' HQ' FO theta TR EX SUP PP.
  assert (RING := to_ring OK). assert (CU : C_unitary S Cops C) by (eapply TreeProps.C20_C_unitary; try eassumption; [exact Cops_star|apply (bc_F_unitary BC)|apply (bc_R_unitary BC)]).
  exact (C61_undo S Cplx.C Cops re R C _ _ _ _ theta small big tb P Q P' Q' D ci di l ev tr dr sbl OK Cops_star RP TH HP HQ HP' HQ' FO TR (C61_bend_data S F R fs qd RING BC POS) (proj2 (C61_topological_twist S F R fs qd RING BC POS FIN) tb sb) (bc_R_unitary BC) CU SM EX SUP PP).
Qed.
Print Assumptions C61_undo_category.

(** ** Examples *)
(** Z_4 anyons over the Gaussian integers: the hypotheses of C61_undo for the six instructions of C60_ex_permute_legs, and the tensor before, between and after *)
Definition z4_instrs : list instruction := [Twist true [0] true; Braid true 0 true; Bend false; Braid false 0 true; Bend true; Braid true 0 false].
Definition z4_apply := apply_ins z4 (Z * Z) FtOpsProps.Gops FtOpsProps.np_real z4_R z4_C z4_B gone gone gone (fun a => z4_r a a) gsmall gbig false false false gzero.
Lemma z4_laws : bend_data z4 FtOpsProps.Gops z4_B gone gone gone /\ twist_unitary z4 FtOpsProps.Gops (fun a => z4_r a a) /\ R_unitary z4 FtOpsProps.Gops z4_R /\ C_unitary z4 FtOpsProps.Gops z4_C.
Proof.
  assert (LT : forall n m, n < m -> m <= 1 -> n = 0) by lia. assert (N1 : forall a b c, n_symbol z4 a b c <= 1) by (intros a b c; unfold n_symbol; destruct (can_fuse_to _ _ _ _); cbn; lia).
  split; [constructor|split; [|split]].
  - intros a z c Va Vz Ic mu mu' Hm Hm'. rewrite (LT _ _ Hm (N1 _ _ _)), (LT _ _ Hm' (N1 _ _ _)). clear Hm Hm'. apply z4_valid in Va. apply z4_valid in Vz. destruct Va as [ -> |[ -> |[ -> | -> ]]], Vz as [ -> |[ -> |[ -> | -> ]]]; destruct Ic as [ <- |[]]; reflexivity.
  - reflexivity.
  - split; reflexivity.
  - intros a _. split; [|split]; reflexivity.
  - intros a Va. apply z4_valid in Va. destruct Va as [ -> |[ -> |[ -> | -> ]]]; reflexivity.
  - intros a b Va Vb c _ mu _. apply z4_valid in Va. apply z4_valid in Vb. destruct Va as [ -> |[ -> |[ -> | -> ]]], Vb as [ -> |[ -> |[ -> | -> ]]]; reflexivity.
  - intros a b c d Va Vb Vc Vd e e' mu nu mu' nu' Ie Ie' Hmu Hnu Hmu' Hnu'. rewrite (LT _ _ Hmu (N1 _ _ _)), (LT _ _ Hmu' (N1 _ _ _)), (LT _ _ Hnu' (N1 _ _ _)). rewrite (LT _ _ Hnu (N1 _ _ _)). apply (Nat.le_lt_trans 0) in Hnu; [|lia]. clear Hmu Hmu' Hnu'.
    apply z4_valid in Va. apply z4_valid in Vb. apply z4_valid in Vc. apply z4_valid in Vd.
    destruct Va as [ -> |[ -> |[ -> | -> ]]], Vb as [ -> |[ -> |[ -> | -> ]]], Vc as [ -> |[ -> |[ -> | -> ]]]; destruct Ie as [ <- |[]]; destruct Ie' as [ <- |[]]; destruct Vd as [ -> |[ -> |[ -> | -> ]]]; try (exfalso; vm_compute in Hnu; lia); reflexivity.
Qed.
Example C61_ex_undo : tsymm_ok z4 /\ star_laws FtOpsProps.Gops /\ real_part FtOpsProps.Gops FtOpsProps.np_real /\ thresholds (Z * Z) FtOpsProps.Gops gbig gzero /\ tp_ok z4 zP /\ tp_ok z4 zQ /\ tp_ok z4 zP' /\ tp_ok z4 zQ' /\ ft_ok zP zQ zF /\
  bend_data z4 FtOpsProps.Gops z4_B gone gone gone /\ twist_unitary z4 FtOpsProps.Gops (fun a => z4_r a a) /\ R_unitary z4 FtOpsProps.Gops z4_R /\ C_unitary z4 FtOpsProps.Gops z4_C /\ (forall x, gsmall x = true -> x = o0 FtOpsProps.Gops) /\
  (exists events, exec (legs0 2 1) z4_instrs = Some (([2; 1], [0]), events)) /\ Forall supported z4_instrs /\ permuted_products [2; 1] [0] zP zQ zP' zQ' /\
  map invert (rev z4_instrs) = [Braid true 0 true; Bend false; Braid false 0 false; Bend true; Braid true 0 false; Twist true [0] false] /\
  z4_apply z4_instrs zF zP zQ zP' zQ' [2; 1] [0] true = Some [((0, 0), Blk [2; 1] [(0, -3); (0, -5)]%Z); ((1, 1), Blk [2; 1] [(-1, 0); (-2, 0)]%Z)] /\
  z4_apply (map invert (rev z4_instrs)) [((0, 0), Blk [2; 1] [(0, -3); (0, -5)]%Z); ((1, 1), Blk [2; 1] [(-1, 0); (-2, 0)]%Z)] zP' zQ' zP zQ [2; 1] [0] true = Some zF.
Proof.
  destruct z4_ok as [O1 O2]. destruct z_products as (H1 & H2 & H3 & H4 & _). destruct z4_laws as (L1 & L2 & L3 & L4). repeat (split; [first [assumption|exact Gops_star|exact np_real_part|exact g_thresholds|exact z_data]|]).
  split; [intros [x y] H; unfold gsmall in H; cbn in H; cbn; f_equal; lia|]. split; [eexists; vm_compute; reflexivity|]. split; [repeat constructor|]. split; [split; reflexivity|]. split; [reflexivity|]. split; vm_compute; reflexivity.
Qed.
(** Fibonacci anyons: a pair of trees with two legs each *)
Example C61_ex_bend :
  let t := Tree [[1]; [1]]%Z [1%Z] [false; true] [] [0] in
  legal_pair Fibonacci (t, t) /\
  option_map (map fst) (bend_leg Fibonacci Cops (b_symbol Fibonacci (fib_F Cops fib_ftab)) (sqrt_qdim Fibonacci (fib_F Cops fib_ftab)) (inv_sqrt_qdim Fibonacci (fib_F Cops fib_ftab)) (frobenius_schur Fibonacci (fib_F Cops fib_ftab)) t t true false) =
    Some [(Tree [[1]; [1]; [1]]%Z [1%Z] [false; true; false] [[1]]%Z [0; 0], Tree [[1]]%Z [1%Z] [false] [] [])].
Proof.
  split; [|reflexivity]. assert (H : tree_ok Fibonacci (Tree [[1]; [1]]%Z [1%Z] [false; true] [] [0])). { apply (test_sanity_iff Fibonacci_ring). reflexivity. }
  split; [exact H|]. split; [exact H|reflexivity].
Qed.
(** twist of a Fibonacci tree: one leg, the first two legs, all legs *)
Example C61_ex_twist :
  let t := Tree [[1]; [1]; [1]]%Z [0%Z] [false; true; false] [[1]]%Z [0; 0] in let theta (a : sector) : Z * Z := if Z.eqb (nth 0 a 0%Z) 1 then (0, 1)%Z else (1, 0)%Z in
  test_sanity Fibonacci t = true /\ is_perm 2 [1; 0] /\ is_perm 3 [2; 0; 1] /\
  twist FtOpsProps.Gops theta false t [2] true = Some [(t, (0, 1)%Z)] /\ twist FtOpsProps.Gops theta false t [1; 0] false = Some [(t, (0, -1)%Z)] /\ twist FtOpsProps.Gops theta false t [2; 0; 1] true = Some [(t, (1, 0)%Z)].
Proof. split; [reflexivity|]. split; [apply is_perm_intro; [reflexivity|repeat constructor; cbn; lia|repeat constructor; lia]|]. split; [apply is_perm_intro; [reflexivity|repeat constructor; cbn; lia|repeat constructor; lia]|]. repeat split; reflexivity. Qed.
(** a product of Fibonacci and Z_3 anyons meets the hypotheses of the last part of C61_instances *)
Example C61_ex_product : let fs := [ProductProps.facFib; ProductProps.facZ3] in fs <> [] /\ Forall (honest Cops) fs /\ Forall is_cat fs /\ Forall (fun f => positive_qdim (fac_sym f) (fac_qd f)) fs.
Proof.
  split; [easy|]. split; [constructor; [apply ProductProps.honest_Fib|constructor; [apply ProductProps.honest_Z3|constructor]]|]. split.
  - constructor; [apply fib_category|constructor; [apply ZNAnyonProofs.zna_category; lia|constructor]].
  - constructor; [|constructor; [apply one_positive|constructor]]. intros a _. exists (fib_qdim a). split; [|reflexivity]. unfold fib_qdim, phi. destruct (q0 a =? 0)%Z; [lra|]. assert (H := sqrt_pos 5). lra.
Qed.
