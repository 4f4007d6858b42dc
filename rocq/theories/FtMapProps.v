(** C60: braids, bends and twists of the fusion tree backend (apply_instructions, permute_legs, the tree mappings), for every symmetry that satisfies the laws of a
    fusion ring, any numbers for its topological data, and tensors of any size.
    [tree_value o P Q F X p Y q]: the entry of the tensor for the splitting tree X with multiplicity indices p and the fusion tree Y with indices q (FtMapSpec.v).
    [moved instrs (X, Y)]: the linear combination of pairs of trees that results from X, Y when the instructions act one after the other, each by the braid, twist or
    bend of single trees (FusionTree::braid, twist, bend_leg, MoveModel.v; C20 and C61 are about those); [amount]: the coefficient in a linear combination.
    [permuted_products ci di P Q P' Q']: P', Q' have the legs ci, di of the tensor, dual spaces for the legs that change sides. *)
From Verif Require Import Util RowModel RowProofs GridModel GridProofs SymModel SymProofs CatSpec Sums SpaceModel SpaceSpec PipeModel TreeModel TreeProofs5 TensorModel TensorSpec TensorProofs5 BlockModel SparseModel
  ConvertModel ConvertSpec FtOpsModel MappingModel PermLegsModel PermLegsSpec MoveModel FtMapModel FtMapSpec PermLegsProofs7 FtMapProofs11 FtMapProofs13 FtMapProofs14 FtMapProofs15 StarMat FtMapProofs FtMapProofs10 FtMapProofs16 FtMapProofs17.
From Verif Require Import AbelianModel AbelianProofs.
From Verif Require AnyonModel ZNAnyonProofs TensorProps FtOpsProps PermLegsProps.
Open Scope nat_scope.

(** [F'] is the image of [F] under the linear map that sends a pair of trees k to the combination [f k]; the multiplicity indices travel with the legs *)
Definition image_of (S : tsymm) (K : Type) (o : ops K) (P Q P' Q' : tprod) (ci di : list nat) (f : tree * tree -> list ((tree * tree) * K)) (F F' : list (nat * nat * blk K)) : Prop :=
  forall c X Y p q p' q' L, tree_of S P' c X -> tree_of S Q' c Y ->
    length p = length (tp_flat_legs P) -> length q = length (tp_flat_legs Q) -> permuted_legs 0 ci di p q p' q' -> valid_idx (tree_mults S P' X) p' -> valid_idx (tree_mults S Q' Y) q' ->
    all_pairs S P Q L ->
    tree_value S o P' Q' F' X p' Y q' = osum o (map (fun k => omul o (amount pair_dec o (f k) (X, Y)) (tree_value S o P Q F (fst k) p (snd k) q)) L).

(** the parameters of the code: the topological data of the symmetry, the cutoff of braid, the tolerance of prune and the test of discard_zero_blocks (exact zeros), real dtypes *)
Definition thresholds (K : Type) (o : ops K) (big : K -> bool) (small_block : blk K -> bool) : Prop :=
  (forall c, big c = false -> c = o0 o) /\ (forall b, small_block b = true -> forall i, bat o b i = o0 o).
Definition apply_ins (S : tsymm) (K : Type) (o : ops K) (re : K -> K) (R : Rsym K) (C : Fsym K) (B : Bsym K) (sqrt_qdim inv_sqrt_qdim fs theta : sector -> K) (small big : K -> bool) (trivial_braid : bool) :=
  apply_instructions S o re (braid_tree S o R C small) (twist o theta trivial_braid) (fun X Y down => bend_leg S o B sqrt_qdim inv_sqrt_qdim fs X Y down false) big.
Definition permute (S : tsymm) (K : Type) (o : ops K) (re : K -> K) (R : Rsym K) (C : Fsym K) (B : Bsym K) (sqrt_qdim inv_sqrt_qdim fs theta : sector -> K) (small big : K -> bool) (trivial_braid : bool) :=
  permute_legs S o re (braid_tree S o R C small) (twist o theta trivial_braid) (fun X Y down => bend_leg S o B sqrt_qdim inv_sqrt_qdim fs X Y down false) big.
Definition moves (S : tsymm) (K : Type) (o : ops K) (R : Rsym K) (C : Fsym K) (B : Bsym K) (sqrt_qdim inv_sqrt_qdim fs theta : sector -> K) (small : K -> bool) (trivial_braid : bool) (l : list instruction) :=
  moved o (braid_tree S o R C small) (twist o theta trivial_braid) (fun X Y down => bend_leg S o B sqrt_qdim inv_sqrt_qdim fs X Y down false) l.

(** apply_instructions with the mapping of pairs of trees (mixes_codomain_domain = true): any sequence of instructions that can be executed on the legs. *)
Theorem C60_apply_instructions : forall (S : tsymm) (K : Type) (o : ops K) re R C B sqrt_qdim inv_sqrt_qdim fs theta small big trivial_braid P Q P' Q' F ci di instrs events topo_real data_real small_block,
  tsymm_ok S -> is_semiring o -> real_part o re -> thresholds K o big small_block -> tp_ok S P -> tp_ok S Q -> tp_ok S P' -> tp_ok S Q' -> ft_ok P Q F ->
  (topo_real = true -> real_symbols re R C B sqrt_qdim inv_sqrt_qdim fs theta) ->
  exec (legs0 (length (tp_flat_legs P)) (length (tp_flat_legs Q))) instrs = Some ((ci, di), events) -> Forall supported instrs -> permuted_products ci di P Q P' Q' ->
  exists F', apply_ins S K o re R C B sqrt_qdim inv_sqrt_qdim fs theta small big trivial_braid topo_real data_real small_block instrs F P Q P' Q' ci di true = Some F' /\ ft_ok P' Q' F' /\
    image_of S K o P Q P' Q' ci di (moves S K o R C B sqrt_qdim inv_sqrt_qdim fs theta small trivial_braid instrs) F F'.
Proof.
  intros S K o re R C B sq isq fs theta small big tb P Q P' Q' F ci di l ev tr dr sb OK SR RP [BIG SB] HP HQ HP' HQ' FO TR EX SUP PP.
  exact (@mixed_spec S OK K o SR re RP R C B sq isq fs theta small big BIG tb P Q P' Q' HP HQ HP' HQ' F FO ci di PP l ev EX SUP tr dr TR sb SB).
Qed.
Print Assumptions C60_apply_instructions.

(** ... and with separate mappings for the splitting and the fusion trees (mixes_codomain_domain = false): instructions without bends.  A tensor of real dtype requires
    real topological data (SymmetricTensor::verify_dtype, symmetric_tensor.cpp:82-88). *)
Theorem C60_apply_instructions_factorized : forall (S : tsymm) (K : Type) (o : ops K) re R C B sqrt_qdim inv_sqrt_qdim fs theta small big trivial_braid P Q P' Q' F ci di instrs events topo_real data_real small_block,
  tsymm_ok S -> is_semiring o -> real_part o re -> thresholds K o big small_block -> tp_ok S P -> tp_ok S Q -> tp_ok S P' -> tp_ok S Q' -> ft_ok P Q F ->
  (topo_real = true -> real_symbols re R C B sqrt_qdim inv_sqrt_qdim fs theta) -> (data_real = true -> topo_real = true) ->
  exec (legs0 (length (tp_flat_legs P)) (length (tp_flat_legs Q))) instrs = Some ((ci, di), events) -> Forall supported instrs -> Forall (fun i => match i with Bend _ => False | _ => True end) instrs ->
  permuted_products ci di P Q P' Q' ->
  exists F', apply_ins S K o re R C B sqrt_qdim inv_sqrt_qdim fs theta small big trivial_braid topo_real data_real small_block instrs F P Q P' Q' ci di false = Some F' /\ ft_ok P' Q' F' /\
    image_of S K o P Q P' Q' ci di (moves S K o R C B sqrt_qdim inv_sqrt_qdim fs theta small trivial_braid instrs) F F'.
Proof.
  intros S K o re R C B sq isq fs theta small big tb P Q P' Q' F ci di l ev tr dr sb OK SR RP [BIG SB] HP HQ HP' HQ' FO TR DR EX SUP NB PP.
  exact (@factorized_spec S OK K o SR re RP R C B sq isq fs theta small big BIG tb P Q P' Q' HP HQ HP' HQ' F FO ci di PP l ev EX SUP NB tr dr TR DR sb SB).
Qed.
Print Assumptions C60_apply_instructions_factorized.

(** permute_legs: legs may be pipes ([pipes]: the number of flat legs of each leg).  [r]: codomain_idcs, domain_idcs, levels, bend_right of the call.
    Whenever the engine accepts the request, permute_legs succeeds and gives the image of the tensor under the instructions (C22 says which these are). *)
Theorem C60_permute_legs : forall (S : tsymm) (K : Type) (o : ops K) re R C B sqrt_qdim inv_sqrt_qdim fs theta small big trivial_braid P Q P' Q' F pipes r mixes topo_real data_real small_block,
  tsymm_ok S -> is_semiring o -> real_part o re -> thresholds K o big small_block -> tp_ok S P -> tp_ok S Q -> tp_ok S P' -> tp_ok S Q' -> ft_ok P Q F ->
  (topo_real = true -> real_symbols re R C B sqrt_qdim inv_sqrt_qdim fs theta) -> (data_real = true -> topo_real = true) ->
  valid_request r -> length pipes = r_nc r + r_nd r -> nsum (firstn (r_nc r) pipes) = length (tp_flat_legs P) -> nsum (skipn (r_nc r) pipes) = length (tp_flat_legs Q) ->
  mixes = existsb (changes_side r) (seq 0 (r_nc r + r_nd r)) ->
  (exists instrs, run r = Ok instrs) ->
  permuted_products (flat_codomain_idcs pipes (r_cod r)) (flat_domain_idcs pipes (r_dom r)) P Q P' Q' ->
  exists instrs F', run (flat_request pipes r) = Ok instrs /\
    permute S K o re R C B sqrt_qdim inv_sqrt_qdim fs theta small big trivial_braid topo_real data_real small_block pipes (r_cod r) (r_dom r) (r_levels r) (r_bend r) (r_sym r) F P Q P' Q' mixes = Some F' /\
    ft_ok P' Q' F' /\
    image_of S K o P Q P' Q' (flat_codomain_idcs pipes (r_cod r)) (flat_domain_idcs pipes (r_dom r)) (moves S K o R C B sqrt_qdim inv_sqrt_qdim fs theta small trivial_braid instrs) F F'.
Proof.
  intros S K o re R C B sq isq fs theta small big tb P Q P' Q' F pipes r mixes tr dr sb OK SR RP TH HP HQ HP' HQ' FO TR DR V LP N1 N2 MX [l0 E0] PP.
  destruct (PermLegsProps.C22_pipes pipes r V LP) as (V' & _ & FR). destruct (FR l0 E0) as (l & ev & E & EX). rewrite N1, N2 in EX. exists l.
  assert (SUP := run_supported E).
  assert (X : exists F', apply_ins S K o re R C B sq isq fs theta small big tb tr dr sb l F P Q P' Q' (flat_codomain_idcs pipes (r_cod r)) (flat_domain_idcs pipes (r_dom r)) mixes = Some F' /\ ft_ok P' Q' F' /\
    image_of S K o P Q P' Q' (flat_codomain_idcs pipes (r_cod r)) (flat_domain_idcs pipes (r_dom r)) (moves S K o R C B sq isq fs theta small tb l) F F').
  { destruct mixes.
    - eapply C60_apply_instructions; eauto.
    - eapply C60_apply_instructions_factorized; eauto. symmetry in MX.
      assert (NC : forall i, i < r_nc r + r_nd r -> changes_side r i = false).
      { intros i Hi. destruct (changes_side r i) eqn:CS; [|reflexivity]. assert (T : existsb (changes_side r) (seq 0 (r_nc r + r_nd r)) = true) by (apply existsb_exists; exists i; split; [apply in_seq; lia|exact CS]). congruence. }
      assert (V0 := V). destruct V as (PM & _). refine (run_no_bend (r := flat_request pipes r) _ _ E); cbn [r_cod r_dom r_nc flat_request].
      + intros x Ix. unfold flat_codomain_idcs in Ix. apply in_flat_map in Ix. destruct Ix as (i & Ii & Ix).
        assert (Hi : i < r_nc r + r_nd r) by (apply (is_perm_In i PM), in_or_app; now left).
        assert (CS := NC i Hi). unfold changes_side in CS. apply In_grp in Ix. assert (SD := part_side LP Ix).
        destruct (Nat.ltb_spec i (r_nc r)) as [Lt|Ge]; [now apply Nat.ltb_lt in SD|]. exfalso. unfold memb in CS. assert (T := proj2 (existsb_exists (Nat.eqb i) (r_cod r)) (ex_intro _ i (conj Ii (Nat.eqb_refl i)))). congruence.
      + intros x Ix. unfold flat_domain_idcs in Ix. apply in_flat_map in Ix. destruct Ix as (i & Ii & Ix). apply in_rev in Ix.
        assert (Hi : i < r_nc r + r_nd r) by (apply (is_perm_In i PM), in_or_app; right; now apply in_rev in Ii).
        assert (CS := NC i Hi). unfold changes_side in CS. apply In_grp in Ix. assert (SD := part_side LP Ix).
        destruct (Nat.ltb_spec i (r_nc r)) as [Lt|Ge]; [|now apply Nat.ltb_ge in SD]. exfalso. unfold memb in CS. assert (T := proj2 (existsb_exists (Nat.eqb i) (r_dom r)) (ex_intro _ i (conj Ii (Nat.eqb_refl i)))). congruence. }
  destruct X as (F' & EF & FO' & IM). exists F'. split; [exact E|]. split; [|now split].
  unfold permute, permute_legs. unfold run in E. cbn [r_nc r_nd r_cod r_dom r_levels r_bend r_sym flat_request] in E. rewrite N1, N2 in E. rewrite E. exact EF.
Qed.
Print Assumptions C60_permute_legs.

(** Both mappings give the same tensor: where both can be used, mixes_codomain_domain has no influence on the result. *)
Theorem C60_mappings_agree : forall (S : tsymm) (K : Type) (o : ops K) re R C B sqrt_qdim inv_sqrt_qdim fs theta small big trivial_braid P Q P' Q' F ci di instrs events topo_real data_real small_block,
  tsymm_ok S -> is_semiring o -> real_part o re -> thresholds K o big small_block -> tp_ok S P -> tp_ok S Q -> tp_ok S P' -> tp_ok S Q' -> ft_ok P Q F ->
  (topo_real = true -> real_symbols re R C B sqrt_qdim inv_sqrt_qdim fs theta) -> (data_real = true -> topo_real = true) ->
  exec (legs0 (length (tp_flat_legs P)) (length (tp_flat_legs Q))) instrs = Some ((ci, di), events) -> Forall supported instrs -> Forall (fun i => match i with Bend _ => False | _ => True end) instrs ->
  permuted_products ci di P Q P' Q' ->
  exists F1 F2,
    apply_ins S K o re R C B sqrt_qdim inv_sqrt_qdim fs theta small big trivial_braid topo_real data_real small_block instrs F P Q P' Q' ci di true = Some F1 /\
    apply_ins S K o re R C B sqrt_qdim inv_sqrt_qdim fs theta small big trivial_braid topo_real data_real small_block instrs F P Q P' Q' ci di false = Some F2 /\
    forall c X Y p' q', tree_of S P' c X -> tree_of S Q' c Y -> valid_idx (tree_mults S P' X) p' -> valid_idx (tree_mults S Q' Y) q' ->
      tree_value S o P' Q' F1 X p' Y q' = tree_value S o P' Q' F2 X p' Y q'.
Proof.
  intros S K o re R C B sq isq fs theta small big tb P Q P' Q' F ci di l ev tr dr sb OK SR RP TH HP HQ HP' HQ' FO TR DR EX SUP NB PP.
  destruct (C60_apply_instructions S K o re R C B sq isq fs theta small big tb P Q P' Q' F ci di l ev tr dr sb OK SR RP TH HP HQ HP' HQ' FO TR EX SUP PP) as (F1 & E1 & _ & I1).
  destruct (C60_apply_instructions_factorized S K o re R C B sq isq fs theta small big tb P Q P' Q' F ci di l ev tr dr sb OK SR RP TH HP HQ HP' HQ' FO TR DR EX SUP NB PP) as (F2 & E2 & _ & I2).
  exists F1, F2. split; [exact E1|]. split; [exact E2|]. intros c X Y p' q' TX TY VP VQ. destruct (all_pairs_exist OK HP HQ) as [L AL].
  assert (PM := exec_is_perm EX). assert (LEN := PP). destruct LEN as [LC LP].
  assert (LD : length di = length (tp_flat_legs Q')).
  { unfold permuted_legs in LP. apply (f_equal (@length _)) in LP. rewrite app_length, rev_length, map_length, take_length in LP. unfold leg_order in LP. rewrite app_length, rev_length in LP. lia. }
  assert (L1 : length p' = length ci). { rewrite (valid_length VP). unfold tree_mults. rewrite map_length, combine_length, (tree_of_len TX). lia. }
  assert (L2 : length q' = length di). { rewrite (valid_length VQ). unfold tree_mults. rewrite map_length, combine_length, (tree_of_len TY). lia. }
  destruct (@permuted_exists _ (length (tp_flat_legs P)) ci di p' q' PM ltac:(lia) L1 L2) as (p & q & Lp & Lq & PL).
  rewrite (I1 c X Y p q p' q' L), (I2 c X Y p q p' q' L); auto; lia.
Qed.
Print Assumptions C60_mappings_agree.

(** Symmetries with one-dimensional sectors and trivial associator (group symmetries, fermions, many anyons; FtMapSpec.pointed_data, the R symbol is r(a, b)): every entry of
    the result is one entry of the tensor - same charges and indices on the legs, wherever they are now - times the product of the exchange phases of the braids
    and twists ([phase], the formula of C22; leg number l carries charge [sec_at S (X, Y) l]). *)
Theorem C60_pointed_phases : forall (S : tsymm) fuse (K : Type) (o : ops K) (r : sector -> sector -> K) re R C B sqrt_qdim inv_sqrt_qdim fs theta small big trivial_braid P Q P' Q' F pipes rq mixes topo_real data_real small_block,
  tsymm_ok S -> abelian_group_laws S fuse -> star_laws o -> real_part o re -> pointed_data S o r R C B sqrt_qdim inv_sqrt_qdim fs theta small trivial_braid ->
  thresholds K o big small_block -> tp_ok S P -> tp_ok S Q -> tp_ok S P' -> tp_ok S Q' -> ft_ok P Q F ->
  (topo_real = true -> real_symbols re R C B sqrt_qdim inv_sqrt_qdim fs theta) -> (data_real = true -> topo_real = true) ->
  valid_request rq -> length pipes = r_nc rq + r_nd rq -> nsum (firstn (r_nc rq) pipes) = length (tp_flat_legs P) -> nsum (skipn (r_nc rq) pipes) = length (tp_flat_legs Q) ->
  mixes = existsb (changes_side rq) (seq 0 (r_nc rq + r_nd rq)) ->
  (exists instrs, run rq = Ok instrs) ->
  let ci := flat_codomain_idcs pipes (r_cod rq) in let di := flat_domain_idcs pipes (r_dom rq) in
  permuted_products ci di P Q P' Q' ->
  exists instrs events F', run (flat_request pipes rq) = Ok instrs /\ exec (legs0 (length (tp_flat_legs P)) (length (tp_flat_legs Q))) instrs = Some ((ci, di), events) /\
    permute S K o re R C B sqrt_qdim inv_sqrt_qdim fs theta small big trivial_braid topo_real data_real small_block pipes (r_cod rq) (r_dom rq) (r_levels rq) (r_bend rq) (r_sym rq) F P Q P' Q' mixes = Some F' /\
    ft_ok P' Q' F' /\
    forall c c' X Y X' Y' p q p' q', tree_of S P c X -> tree_of S Q c Y -> tree_of S P' c' X' -> tree_of S Q' c' Y' ->
      permuted_legs (sym_trivial S) ci di (t_unc X) (map (sym_dual S) (t_unc Y)) (t_unc X') (map (sym_dual S) (t_unc Y')) ->
      length p = length (tp_flat_legs P) -> length q = length (tp_flat_legs Q) -> permuted_legs 0 ci di p q p' q' -> valid_idx (tree_mults S P' X') p' -> valid_idx (tree_mults S Q' Y') q' ->
      tree_value S o P' Q' F' X' p' Y' q' =
        omul o (phase (sym_trivial S) fuse (o1 o) (omul o) (oconj o) (fun x y => r y x) (sec_at S (X, Y)) events) (tree_value S o P Q F X p Y q).
Proof.
  intros S fuse K o r re R C B sq isq fs theta small big tb P Q P' Q' F pipes rq mixes tr dr sb OK GL ST RP PD TH HP HQ HP' HQ' FO TR DR V LP N1 N2 MX RUN ci di PP.
  destruct (C60_permute_legs S K o re R C B sq isq fs theta small big tb P Q P' Q' F pipes rq mixes tr dr sb OK (st_semi ST) RP TH HP HQ HP' HQ' FO TR DR V LP N1 N2 MX RUN PP) as (l & F' & E & EF & FO' & IM).
  destruct RUN as [l0 E0]. destruct (PermLegsProps.C22_pipes pipes rq V LP) as (_ & _ & FR). destruct (FR l0 E0) as (l' & ev & E' & EX). assert (l' = l) by congruence. subst l'. rewrite N1, N2 in EX.
  exists l, ev, F'. split; [exact E|]. split; [exact EX|]. split; [exact EF|]. split; [exact FO'|].
  intros c c' X Y X' Y' p q p' q' TX TY TX' TY' CH Lp Lq PL VP VQ. destruct (all_pairs_exist OK HP HQ) as [L AL].
  rewrite (IM c' X' Y' p q p' q' L TX' TY' Lp Lq PL VP VQ AL).
  exact (@pointed_sum S OK fuse GL K o ST r R C B sq isq fs theta small tb PD P Q P' Q' HP HQ HP' HQ' ci di PP l ev EX (run_supported E) c c' X Y X' Y' TX TY TX' TY' CH L (fun k => tree_value S o P Q F (fst k) p (snd k) q) AL).
Qed.
Print Assumptions C60_pointed_phases.

(** ... in particular for bosonic group symmetries (r = 1) permute_legs permutes the entries. *)
Theorem C60_bosonic_permutation : forall (S : tsymm) fuse (K : Type) (o : ops K) re R C B sqrt_qdim inv_sqrt_qdim fs theta small big trivial_braid P Q P' Q' F pipes rq mixes topo_real data_real small_block,
  tsymm_ok S -> abelian_group_laws S fuse -> star_laws o -> real_part o re -> pointed_data S o (fun _ _ => o1 o) R C B sqrt_qdim inv_sqrt_qdim fs theta small trivial_braid ->
  thresholds K o big small_block -> tp_ok S P -> tp_ok S Q -> tp_ok S P' -> tp_ok S Q' -> ft_ok P Q F ->
  (topo_real = true -> real_symbols re R C B sqrt_qdim inv_sqrt_qdim fs theta) -> (data_real = true -> topo_real = true) ->
  valid_request rq -> length pipes = r_nc rq + r_nd rq -> nsum (firstn (r_nc rq) pipes) = length (tp_flat_legs P) -> nsum (skipn (r_nc rq) pipes) = length (tp_flat_legs Q) ->
  mixes = existsb (changes_side rq) (seq 0 (r_nc rq + r_nd rq)) ->
  (exists instrs, run rq = Ok instrs) ->
  let ci := flat_codomain_idcs pipes (r_cod rq) in let di := flat_domain_idcs pipes (r_dom rq) in
  permuted_products ci di P Q P' Q' ->
  exists F', 
    permute S K o re R C B sqrt_qdim inv_sqrt_qdim fs theta small big trivial_braid topo_real data_real small_block pipes (r_cod rq) (r_dom rq) (r_levels rq) (r_bend rq) (r_sym rq) F P Q P' Q' mixes = Some F' /\
    ft_ok P' Q' F' /\
    forall c c' X Y X' Y' p q p' q', tree_of S P c X -> tree_of S Q c Y -> tree_of S P' c' X' -> tree_of S Q' c' Y' ->
      permuted_legs (sym_trivial S) ci di (t_unc X) (map (sym_dual S) (t_unc Y)) (t_unc X') (map (sym_dual S) (t_unc Y')) ->
      length p = length (tp_flat_legs P) -> length q = length (tp_flat_legs Q) -> permuted_legs 0 ci di p q p' q' -> valid_idx (tree_mults S P' X') p' -> valid_idx (tree_mults S Q' Y') q' ->
      tree_value S o P' Q' F' X' p' Y' q' = tree_value S o P Q F X p Y q.
Proof.
  intros S fuse K o re R C B sq isq fs theta small big tb P Q P' Q' F pipes rq mixes tr dr sb OK GL ST RP PD TH HP HQ HP' HQ' FO TR DR V LP N1 N2 MX RUN ci di PP.
  destruct (C60_pointed_phases S fuse K o (fun _ _ => o1 o) re R C B sq isq fs theta small big tb P Q P' Q' F pipes rq mixes tr dr sb OK GL ST RP PD TH HP HQ HP' HQ' FO TR DR V LP N1 N2 MX RUN PP) as (l & ev & F' & _ & _ & EF & FO' & IM).
  exists F'. split; [exact EF|]. split; [exact FO'|]. intros c c' X Y X' Y' p q p' q' TX TY TX' TY' CH Lp Lq PL VP VQ. rewrite (IM c c' X Y X' Y' p q p' q' TX TY TX' TY' CH Lp Lq PL VP VQ).
  assert (C1 : oconj o (o1 o) = o1 o). { assert (E := st_mul ST (o1 o) (oconj o (o1 o))). rewrite (st_invol ST), !(SRmul_1_l (st_semi ST)), (st_invol ST) in E. rewrite (SRmul_comm (st_semi ST)), (SRmul_1_l (st_semi ST)) in E. now symmetry. }
  transitivity (omul o (o1 o) (tree_value S o P Q F X p Y q)); [|apply (SRmul_1_l (st_semi ST))]. f_equal. unfold phase. clear IM. induction ev as [|e t IH]; [reflexivity|]. cbn [map gsum fold_right]. unfold gsum in IH. rewrite IH.
  rewrite (SRmul_comm (st_semi ST)), (SRmul_1_l (st_semi ST)). destruct e as [a b []|ls []]; cbn [event_phase]; (reflexivity || exact C1).
Qed.
Print Assumptions C60_bosonic_permutation.

(** ** Example: Z_4 anyons (R(a, b) = i^(ab)) over the Gaussian integers *)
Import FtOpsProps.
Definition z4 : tsymm := TSymm (Symm (AnyonModel.ZNAnyon 4) false true) true.
Definition ipow (k : Z) : Z * Z := match (k mod 4)%Z with 0%Z => (1, 0) | 1%Z => (0, 1) | 2%Z => (-1, 0) | _ => (0, -1) end%Z.
Definition z4_r (a b : sector) : Z * Z := ipow (nth 0 a 0 * nth 0 b 0)%Z.
Definition z4_R : Rsym (Z * Z) := fun a b _ _ => z4_r a b.
Definition z4_C : Fsym (Z * Z) := fun _ b c _ _ _ _ _ _ _ => z4_r b c.
Definition z4_B : Bsym (Z * Z) := fun _ _ _ _ _ => (1, 0)%Z.
Definition gone (_ : sector) : Z * Z := (1, 0)%Z.
Definition gsmall (c : Z * Z) : bool := (fst c =? 0)%Z && (snd c =? 0)%Z.
Definition gbig (c : Z * Z) : bool := negb (gsmall c).
Definition gzero (b : blk (Z * Z)) : bool := forallb gsmall (bdata b).
Lemma Gops_star : star_laws Gops.
Proof.
  assert (EQ : forall x y : Z * Z, fst x = fst y -> snd x = snd y -> x = y) by (intros [? ?] [? ?]; cbn; congruence).
  constructor.
  - constructor; intros; repeat match goal with x : (Z * Z)%type |- _ => destruct x end; apply EQ; cbn [oadd omul oopp oconj o0 o1 Gops fst snd]; ring.
  - intros [? ?] [? ?]; apply EQ; cbn [oadd omul oopp oconj o0 o1 Gops fst snd]; ring.
  - intros [? ?] [? ?]; apply EQ; cbn [oadd omul oopp oconj o0 o1 Gops fst snd]; ring.
  - intros [? ?]; apply EQ; cbn [oadd omul oopp oconj o0 o1 Gops fst snd]; ring.
  - intros l H x Ix.
    assert (POS : forall l', (0 <= fst (osum Gops (map (fun x => omul Gops x (oconj Gops x)) l')))%Z). { induction l' as [|[a b] t IH]; cbn in *; [lia|]. unfold osum in IH. cbn in IH. nia. }
    induction l as [|y t IH]; [easy|]. apply (f_equal fst) in H. assert (PT := POS t). cbn [map osum fold_right oadd Gops fst o0] in H. unfold osum in PT. destruct y as [a b]. cbn [omul oconj Gops fst snd] in H.
    assert (a = 0 /\ b = 0 /\ fst (osum Gops (map (fun x => omul Gops x (oconj Gops x)) t)) = 0)%Z as (A0 & B0 & T0). { unfold osum. set (s := fst (fold_right _ _ _)) in *. clearbody s. assert (0 <= a * a)%Z by nia. assert (0 <= b * b)%Z by nia. split; [nia|]. split; [nia|]. nia. }
    destruct Ix as [ <- |Ix]; [subst; reflexivity|]. apply IH; [|exact Ix]. apply EQ; [exact T0|].
    clear. unfold osum. induction t as [|[a b] t IH]; [reflexivity|]. cbn [map fold_right]. assert (SA : forall u v, snd (oadd Gops u v) = (snd u + snd v)%Z) by reflexivity. rewrite SA, IH. cbn [oadd omul oopp oconj o0 o1 Gops fst snd]. ring.
Qed.
Lemma np_real_part : real_part Gops np_real.
Proof. constructor; try reflexivity; intros [a b]; [intros [c d]|intros [c d]|]; unfold np_real; cbn; intros; repeat match goal with H : (_, _) = (_, _) |- _ => injection H as <- end; f_equal; ring. Qed.
Lemma z4_ok : tsymm_ok z4 /\ abelian_group_laws z4 (lift2 (zn_fuse 4)).
Proof.
  assert (G := ZNAnyonProofs.ZNAnyon_group (N := 4) ltac:(lia)). split; [|exact G]. constructor; [exact (ag_fusion_ring G)| |]; intros _; [exists (lift2 (zn_fuse 4)); exact G|]. intros a b c _ _ _. reflexivity.
Qed.
Lemma z4_valid a : sym_valid z4 a = true -> a = [0]%Z \/ a = [1]%Z \/ a = [2]%Z \/ a = [3]%Z.
Proof.
  cbn. intros H. destruct a as [|x [|]]; try discriminate. cbn in H. assert (0 <= x < 4)%Z as HX. { repeat (apply andb_prop in H; destruct H as [H ?]); repeat match goal with X : (_ && _)%bool = true |- _ => apply andb_prop in X; destruct X end. lia. }
  assert (x = 0 \/ x = 1 \/ x = 2 \/ x = 3)%Z as [ -> |[ -> |[ -> | -> ]]] by lia; auto.
Qed.
Lemma z4_pointed : pointed_data z4 Gops z4_r z4_R z4_C z4_B gone gone gone (fun a => z4_r a a) gsmall false.
Proof.
  constructor; try reflexivity; try discriminate; try (split; [|split]; reflexivity).
  - intros a b Ha Hb. apply z4_valid in Ha. apply z4_valid in Hb. destruct Ha as [ -> |[ -> |[ -> | -> ]]], Hb as [ -> |[ -> |[ -> | -> ]]]; reflexivity.
  - intros a b Ha Hb. apply z4_valid in Ha. apply z4_valid in Hb. destruct Ha as [ -> |[ -> |[ -> | -> ]]], Hb as [ -> |[ -> |[ -> | -> ]]]; split; reflexivity.
Qed.
Lemma g_thresholds : thresholds (Z * Z) Gops gbig gzero.
Proof.
  split.
  - intros [a b] H. unfold gbig, gsmall in H. cbn in H. cbn. f_equal; lia.
  - intros b H i. unfold gzero in H. rewrite forallb_forall in H. unfold bat. match goal with |- nth ?k ?l ?d = _ => destruct (nth_in_or_default k l d) as [J|J]; [|exact J]; apply H in J; revert J; generalize (nth k l d) end. intros [x y] J. unfold gsmall in J. cbn in J. cbn. f_equal; lia.
Qed.
Definition zE1 : espace := ES [[1]; [2]]%Z [1; 1] false None.
Definition zE2 : espace := ES [[1]]%Z [2] false None.
Definition zE3 : espace := ES [[2]; [3]]%Z [1; 1] false None.
Definition zP : tprod := TP [LSpace zE1; LSpace zE2] [[2]; [3]]%Z [2; 2].
Definition zQ : tprod := TP [LSpace zE3] [[2]; [3]]%Z [1; 1].
(** legs 2, 1 in the codomain, leg 0 in the domain: legs 0 and 2 change sides *)
Definition zP' : tprod := TP [LSpace (dual_es zE3); LSpace zE2] [[2]; [3]]%Z [2; 2].
Definition zQ' : tprod := TP [LSpace (dual_es zE1)] [[2]; [3]]%Z [1; 1].
Definition zP2 : tprod := TP [LSpace zE2; LSpace zE1] [[2]; [3]]%Z [2; 2].
Definition zF : list (nat * nat * blk (Z * Z)) := [((0, 0), Blk [2; 1] [(1, 0); (2, 0)]%Z); ((1, 1), Blk [2; 1] [(3, 0); (5, 0)]%Z)].
Definition zrq : request := Request 2 1 [2; 1] [0] [Some 0; Some 1; Some 2]%Z [Some false; None; Some true] false.
Definition zperm := permute z4 (Z * Z) Gops np_real z4_R z4_C z4_B gone gone gone (fun a => z4_r a a) gsmall gbig false.
Lemma z_legs : es_ok z4 zE1 /\ es_ok z4 zE2 /\ es_ok z4 zE3 /\ es_ok z4 (dual_es zE1) /\ es_ok z4 (dual_es zE3).
Proof.
  repeat split; cbn [zE1 zE2 zE3 dual_es es_def es_mults es_perm es_dual]; try discriminate; try reflexivity;
    try (intros s [ <- |[ <- |[]]]; reflexivity); try (intros s [ <- |[]]; reflexivity); try (intros m [ <- |[ <- |[]]]; lia); try (intros m [ <- |[]]; lia); repeat constructor; apply TensorProps.lt1; lia.
Qed.
Lemma z_products : tp_ok z4 zP /\ tp_ok z4 zQ /\ tp_ok z4 zP' /\ tp_ok z4 zQ' /\ tp_ok z4 zP2.
Proof. destruct z_legs as (L1 & L2 & L3 & L4 & L5). repeat (split; [split; [repeat (constructor; try assumption)|vm_compute; reflexivity]|]). split; [repeat (constructor; try assumption)|vm_compute; reflexivity]. Qed.
Lemma z_data : ft_ok zP zQ zF.
Proof. constructor; [repeat constructor; left; cbn; lia | | | |]; intros e [ <- |[ <- |[]]]; cbn; (lia || reflexivity || (split; lia)). Qed.
(** the hypotheses of C60_pointed_phases (and so those of C60_permute_legs) hold, and the result; leg 0 is twisted, all pairs of legs cross *)
Example C60_ex_permute_legs : tsymm_ok z4 /\ abelian_group_laws z4 (lift2 (zn_fuse 4)) /\ star_laws Gops /\ real_part Gops np_real /\ pointed_data z4 Gops z4_r z4_R z4_C z4_B gone gone gone (fun a => z4_r a a) gsmall false /\
  thresholds (Z * Z) Gops gbig gzero /\ tp_ok z4 zP /\ tp_ok z4 zQ /\ tp_ok z4 zP' /\ tp_ok z4 zQ' /\ ft_ok zP zQ zF /\ valid_request zrq /\
  permuted_products (flat_codomain_idcs [1; 1; 1] [2; 1]) (flat_domain_idcs [1; 1; 1] [0]) zP zQ zP' zQ' /\ existsb (changes_side zrq) (seq 0 3) = true /\
  run zrq = Ok [Twist true [0] true; Braid true 0 true; Bend false; Braid false 0 true; Bend true; Braid true 0 false] /\
  zperm false false gzero [1; 1; 1] [2; 1] [0] (r_levels zrq) (r_bend zrq) false zF zP zQ zP' zQ' true =
    Some [((0, 0), Blk [2; 1] [(0, -3); (0, -5)]%Z); ((1, 1), Blk [2; 1] [(-1, 0); (-2, 0)]%Z)].
Proof.
  destruct z4_ok as [O1 O2]. destruct z_products as (H1 & H2 & H3 & H4 & _). repeat (split; [first [assumption|exact Gops_star|exact np_real_part|exact z4_pointed|exact g_thresholds|exact z_data]|]).
  split; [|split; [|split; [|split]]]; [|split; reflexivity| | |]; try (vm_compute; reflexivity).
  split; [|split; [reflexivity|split; [reflexivity|]]].
  - apply is_perm_intro; [reflexivity| |]; cbn [r_cod r_dom r_nc r_nd zrq rev app Nat.add]; [|repeat constructor; lia]. repeat constructor; cbn; lia.
  - intros i Hi H. cbn in Hi. destruct i as [|[|[|i]]]; [discriminate|discriminate H|discriminate|lia].
Qed.
(** Without SymmetricTensor::verify_dtype the two mappings would differ: a tensor of real dtype, for a symmetry with complex topological data.  FactorizedTreeMapping converts
    the coefficients to the dtype of the old blocks and so drops their imaginary parts (fusion_tree_mapping.cpp:651, 702); TreePairMapping converts to the dtype of the result (470). *)
Theorem C60_real_dtype_refuted : exists (S : tsymm) (K : Type) (o : ops K) re R C B sqrt_qdim inv_sqrt_qdim fs theta small big trivial_braid P Q P' F ci di instrs events small_block,
  tsymm_ok S /\ is_semiring o /\ real_part o re /\ thresholds K o big small_block /\ tp_ok S P /\ tp_ok S Q /\ tp_ok S P' /\ ft_ok P Q F /\
  (forall c x y, x < block_size P c -> y < block_size Q c -> re (ft_entry o Q F c x y) = ft_entry o Q F c x y) /\
  exec (legs0 (length (tp_flat_legs P)) (length (tp_flat_legs Q))) instrs = Some ((ci, di), events) /\ Forall supported instrs /\ Forall (fun i => match i with Bend _ => False | _ => True end) instrs /\
  permuted_products ci di P Q P' Q /\
  exists F1 F2 c x y, x < block_size P' c /\ y < block_size Q c /\
    apply_ins S K o re R C B sqrt_qdim inv_sqrt_qdim fs theta small big trivial_braid false true small_block instrs F P Q P' Q ci di true = Some F1 /\
    apply_ins S K o re R C B sqrt_qdim inv_sqrt_qdim fs theta small big trivial_braid false true small_block instrs F P Q P' Q ci di false = Some F2 /\
    ft_entry o Q F1 c x y <> ft_entry o Q F2 c x y.
Proof.
  exists z4, (Z * Z)%type, Gops, np_real, z4_R, z4_C, z4_B, gone, gone, gone, (fun a => z4_r a a), gsmall, gbig, false, zP, zQ, zP2, zF, [1; 0], [2], [Braid true 0 false].
  eexists. exists gzero. destruct z_products as (H1 & H2 & _ & _ & H5).
  split; [exact (proj1 z4_ok)|]. split; [exact (st_semi Gops_star)|]. split; [exact np_real_part|]. split; [exact g_thresholds|]. repeat (split; [assumption|]). split; [exact z_data|]. split; [|split; [vm_compute; reflexivity|split; [repeat constructor|split; [repeat constructor|split; [split; reflexivity|]]]]].
  - intros c x y _ _. unfold ft_entry, zF, zQ. cbn [List.find fst snd tp_secs nth]. destruct (row_eqb [2%Z] c); [|destruct (row_eqb [3%Z] c); [|reflexivity]];
      unfold bat; (match goal with |- np_real (nth ?k ?l ?d) = _ => destruct (nth_in_or_default k l d) as [J|J]; [|rewrite J; reflexivity]; revert J; generalize (nth k l d) end); intros z [ <- |[ <- |[]]]; reflexivity.
  - eexists. eexists. exists [2%Z], 0, 0. split; [cbn; lia|]. split; [cbn; lia|]. split; [vm_compute; reflexivity|]. split; [vm_compute; reflexivity|]. vm_compute. intros X. discriminate X.
Qed.
Print Assumptions C60_real_dtype_refuted.
