(** C31 (TensorProduct: multiplicities and tree blocks) and C33 (left_multiply, right_multiply, insert_multiply).
    [tp_ok S P] (TensorProofs5.v): the flat legs of P pass test_sanity and P is what the constructor builds from its factors.
    [tiles], [product_state], [tsymm_ok]: TensorSpec.v.  [valid_idx dims r]: r is a multi-index below dims. *)
From Coq Require Import Reals.
From Verif Require Import Util StableSort RowModel RowProofs GridModel GridProofs SymModel SymProofs AbelianModel AbelianProofs Su2Model Su2Proofs
  CatSpec Cplx Tower AnyonModel AnyonProofs AnyonProofs2 ProductModel ProductProofs SpaceModel SpaceSpec SpaceProofs SpaceProofs2 SpaceProofs3 SpaceProofs7 DropModel
  PipeModel PipeProofs PipeProofs4 PipeProofs5 TreeModel TreeProofs TreeProofs2 TreeProofs4 FormalSum TensorModel TensorSpec TensorProofs TensorProofs2 TensorProofs3
  TensorProofs4 TensorProofs5 TensorProofs6.
From Verif Require ProductProps PipeProps AnyonProps Su2Props.
Open Scope nat_scope.

(** ** C31 *)
(** every product symmetry qualifies *)
Definition prod_tsymm (fs : list (factor C)) : tsymm := TSymm (prod_symm Cops fs) (max_fusion_style fs <=? style_multiple_unique).
Theorem C31_symmetries_qualify : forall fs, fs <> [] -> Forall (honest Cops) fs ->
  (s_abelian (prod_symm Cops fs) = true -> Forall (@single_outcome C) fs) -> tsymm_ok (prod_tsymm fs).
Proof.
  intros fs NE H SO. constructor.
  - apply ProductProps.C14_ring_laws; auto.
  - intros A. apply PipeProps.C30_symmetries_qualify; auto.
  - cbn [prod_tsymm ts_unique ts_symm prod_symm s_sym sym_n product_sym]. intros U a b c _ _ _. unfold product_n. now rewrite U.
Qed.
Print Assumptions C31_symmetries_qualify.

(** the constructor: defined for all factors with sane legs; the coupled sectors are valid, sorted and without duplicates,
    the multiplicities positive *)
Theorem C31_constructor : forall S factors, tsymm_ok S -> Forall (es_ok S) (flat_map flat_legs factors) ->
  exists P, new_tprod S factors = Some P /\ tp_factors P = factors /\ tp_ok S P /\ space_ok S (tp_space P) /\ strictly_sorted (tp_secs P).
Proof.
  intros S factors OK H. destruct (new_tprod_spec OK H) as (P & E & EF & O & F). exists P. split; [exact E|]. split; [exact EF|].
  split; [split; [unfold tp_flat_legs; now rewrite EF|now rewrite EF]|]. split; [exact O|]. exact (sk_order O).
Qed.
Print Assumptions C31_constructor.

(** block_size(c) is the number of basis states of the sector c: the length of any duplicate free list of all pairs of a
    fusion tree to c of sectors of the legs and of one multiplicity index for each leg; such a list exists *)
Theorem C31_block_size_counts : forall S P c, tsymm_ok S -> tp_ok S P ->
  (exists L, NoDup L /\ forall x, In x L <-> product_state S (tp_flat_legs P) c x) /\
  (forall L, NoDup L -> (forall x, In x L <-> product_state S (tp_flat_legs P) c x) -> block_size P c = length L) /\
  block_size P c = mult_of (tp_secs P) (tp_mults P) c.
Proof.
  intros S P c OK H. split; [|split].
  - exists (all_states S P c). split; [now apply all_states_NoDup|]. intros x. now apply all_states_In.
  - intros L N I. symmetry. now apply (block_size_counts OK H).
  - destruct (tp_ok_spec OK H) as [O _]. exact (sector_multiplicity_spec c (sk_nodup O) (sk_len O)).
Qed.
Print Assumptions C31_block_size_counts.
Theorem C31_block_size_idx : forall P i, length (tp_mults P) = length (tp_secs P) -> NoDup (tp_secs P) ->
  (- Z.of_nat (length (tp_secs P)) <= i < Z.of_nat (length (tp_secs P)))%Z ->
  block_size_idx P i = Some (block_size P (nth (Z.to_nat (if i <? 0 then i + Z.of_nat (length (tp_secs P)) else i)%Z) (tp_secs P) [])).
Proof.
  intros P i L N B. unfold block_size_idx, to_valid_idx. set (k := Z.to_nat _).
  destruct ((i <? - Z.of_nat (length (tp_secs P)))%Z || (Z.of_nat (length (tp_secs P)) <=? i)%Z) eqn:EB.
  { apply Bool.orb_true_iff in EB. destruct EB as [X|X]; [apply Z.ltb_lt in X|apply Z.leb_le in X]; lia. }
  assert (HK : k < length (tp_secs P)) by (unfold k; destruct (Z.ltb_spec i 0); lia).
  f_equal. unfold block_size. etransitivity; [|symmetry; exact (@sector_multiplicity_spec (tp_space P) _ N L)].
  unfold sp_mult, mult_of. cbn [tp_space sp_secs sp_mults]. symmetry.
  exact (mult_of_nth N L HK).
Qed.
Print Assumptions C31_block_size_idx.

Lemma filter_blocks : forall A (ind : A -> nat) (f : nat -> list A) n k i, (forall j x, In x (f j) -> ind x = j) ->
  filter (fun x => ind x =? i) (flat_map f (seq k n)) = if (k <=? i) && (i <? k + n) then f i else [].
Proof.
  intros A ind f n. induction n as [|n IH]; intros k i H; cbn [seq flat_map].
  - destruct (Nat.leb_spec k i), (Nat.ltb_spec i (k + 0)); cbn [andb]; auto; lia.
  - rewrite filter_app, IH by auto. destruct (Nat.eq_dec k i) as [->|NE].
    + rewrite filter_all by (intros x Hx; rewrite (H _ _ Hx); apply Nat.eqb_refl). rewrite Nat.leb_refl.
      replace (i <? i + S n) with true by (symmetry; apply Nat.ltb_lt; lia).
      destruct (Nat.leb_spec (S i) i); [lia|]. cbn [andb]. apply app_nil_r.
    + rewrite filter_none by (intros x Hx; rewrite (H _ _ Hx); now apply Nat.eqb_neq). cbn [app].
      destruct (Nat.leb_spec (S k) i), (Nat.leb_spec k i), (Nat.ltb_spec i (S k + n)), (Nat.ltb_spec i (k + S n)); cbn [andb]; auto; lia.
Qed.

(** iter_tree_blocks: the items of the i-th requested sector c (marked by tb_ind; the items come in the order of i) *)
Theorem C31_iter_tree_blocks : forall S P coupled i, tsymm_ok S -> tp_ok S P -> i < length coupled ->
  let c := nth i coupled [] in
  let items := filter (fun x => tb_ind x =? i) (iter_tree_blocks S P coupled) in
  tiles 0 (map (fun x => (tb_start x, tb_stop x)) items) (block_size P c) /\
  NoDup (map tb_tree items) /\
  (forall t, In t (map tb_tree items) <-> valid_tree S (t_unc t) c (map es_dual (tp_flat_legs P)) t /\ Forall2 (fun a E => In a (es_decomp S E)) (t_unc t) (tp_flat_legs P)) /\
  (forall x, In x items ->
     tb_mults x = map (fun p => es_mult S (fst p) (snd p)) (combine (tp_flat_legs P) (t_unc (tb_tree x))) /\
     tb_stop x - tb_start x = prod (tb_mults x) /\
     tree_block_size S P (t_unc (tb_tree x)) = prod (tb_mults x) /\
     tree_block_slice S P (tb_tree x) = Some (tb_start x, tb_stop x)).
Proof.
  intros S P coupled i OK H HI c items.
  assert (EI : items = unc_loop S (iter_uncoupled S P) c (map es_dual (tp_flat_legs P)) 0 i).
  { unfold items, iter_tree_blocks. rewrite (@filter_blocks _ tb_ind (fun j => unc_loop S (iter_uncoupled S P) (nth j coupled []) (map es_dual (tp_flat_legs P)) 0 j)).
    - destruct (Nat.leb_spec 0 i), (Nat.ltb_spec i (0 + length coupled)); cbn [andb]; auto; lia.
    - intros j x. apply unc_loop_ind. }
  rewrite EI. clear EI items. split; [|split; [now apply tree_blocks_NoDup|split; [intros t; now apply tree_blocks_trees|]]].
  - rewrite (block_size_width OK c H). apply (unc_loop_tiles S (iter_uncoupled S P) c _ i 0).
  - intros x Ix. assert (SL := tree_block_slice_spec OK H Ix). destruct (unc_loop_In Ix) as (it & k & Ii & NE & M & ST & _).
    assert (LD : length (map es_dual (tp_flat_legs P)) = length (u_secs it)) by (rewrite map_length; symmetry; apply (item_valid OK H Ii)).
    assert (V : valid_tree S (u_secs it) c (map es_dual (tp_flat_legs P)) (tb_tree x)) by (apply all_trees_In; [exact LD|]; eapply nth_error_In; exact NE).
    rewrite (proj1 (valid_tree_fields V)). rewrite (tree_block_size_spec OK H Ii). rewrite <- product_prod, M.
    split; [apply (item_spec OK it H); exact Ii|]. split; [lia|]. split; [reflexivity|exact SL].
Qed.
Print Assumptions C31_iter_tree_blocks.
Theorem C31_iter_tree_blocks_order : forall S P coupled,
  exists f, iter_tree_blocks S P coupled = flat_map f (seq 0 (length coupled)) /\ forall i x, In x (f i) -> tb_ind x = i.
Proof. intros. eexists. split; [reflexivity|]. intros i x. apply unc_loop_ind. Qed.
Print Assumptions C31_iter_tree_blocks_order.

(** iter_forest_blocks: one block for each list of uncoupled sectors that can fuse to c *)
Theorem C31_iter_forest_blocks : forall S P coupled i, tsymm_ok S -> tp_ok S P -> i < length coupled ->
  let c := nth i coupled [] in
  let items := filter (fun x => fb_ind x =? i) (iter_forest_blocks S P coupled) in
  tiles 0 (map (fun x => (fb_start x, fb_stop x)) items) (block_size P c) /\
  (forall us, In us (map fb_unc items) <-> Forall2 (fun a E => In a (es_decomp S E)) us (tp_flat_legs P) /\ exists t, valid_tree S us c (map es_dual (tp_flat_legs P)) t) /\
  (forall x, In x items ->
     fb_stop x - fb_start x = num_trees S (fb_unc x) c * prod (map (fun p => es_mult S (fst p) (snd p)) (combine (tp_flat_legs P) (fb_unc x))) /\
     forest_block_size S P (fb_unc x) c = fb_stop x - fb_start x /\
     forest_block_slice S P (fb_unc x) c = Some (fb_start x, fb_stop x)).
Proof.
  intros S P coupled i OK H HI c items.
  assert (EI : items = forest_loop S (iter_uncoupled S P) c 0 i).
  { unfold items, iter_forest_blocks. rewrite (@filter_blocks _ fb_ind (fun j => forest_loop S (iter_uncoupled S P) (nth j coupled []) 0 j)).
    - destruct (Nat.leb_spec 0 i), (Nat.ltb_spec i (0 + length coupled)); cbn [andb]; auto; lia.
    - intros j x Ix. apply (forest_loop_In Ix). }
  rewrite EI. clear EI items. split; [|split].
  - rewrite (block_size_width OK c H). apply (forest_loop_tiles S (iter_uncoupled S P) c i 0).
  - intros us. split.
    + intros Iu. apply in_map_iff in Iu. destruct Iu as (x & <- & Ix). destruct (forest_loop_In Ix) as (_ & it & Ii & E1 & _ & W & _). rewrite E1.
      split; [now apply (item_spec OK it H)|]. unfold width in W.
      assert (N : 0 < length (all_trees S (u_secs it) c (map es_dual (tp_flat_legs P)))) by (rewrite all_trees_length; lia).
      destruct (all_trees S (u_secs it) c (map es_dual (tp_flat_legs P))) as [|t l] eqn:ET; [cbn in N; lia|]. exists t. apply all_trees_In; [rewrite map_length; symmetry; apply (item_valid OK H Ii)|].
      rewrite ET. now left.
    + intros (F & t & V). set (it := Unc us (map (fun p => es_mult S (fst p) (snd p)) (combine (tp_flat_legs P) us))).
      assert (Ii : In it (iter_uncoupled S P)) by (apply (item_spec OK it H); auto). change us with (u_secs it). apply forest_loop_all; auto.
      unfold width. cbn [it u_secs u_mults]. apply Nat.mul_pos_pos.
      * rewrite <- (all_trees_length S us c (map es_dual (tp_flat_legs P))). apply all_trees_In in V; [|rewrite map_length; symmetry; eapply Forall2_len; eauto].
        destruct (all_trees S us c (map es_dual (tp_flat_legs P))); [easy|cbn; lia].
      * rewrite product_prod. assert (HP := proj1 H). clear -F HP OK. revert HP. induction F as [|a E us' l HA F IH]; intros HP; [cbn; lia|]. inversion HP as [|? ? O HP']; subst.
        cbn [combine map fst snd]. change (0 < es_mult S E a * prod (map (fun p => es_mult S (fst p) (snd p)) (combine l us'))). apply Nat.mul_pos_pos; auto.
        assert (SO := es_space_ok' OK O). exact (proj1 (mult_of_pos a (sk_nodup SO) (sk_len SO) (sk_pos SO)) HA).
  - intros x Ix. assert (SL := forest_block_slice_spec OK H Ix). destruct (forest_loop_In Ix) as (_ & it & Ii & E1 & E2 & _ & _).
    rewrite <- product_prod. assert (IS := proj1 (item_spec OK it H) Ii). rewrite E1, <- (proj2 IS). rewrite <- E1. split; [|split; [|exact SL]].
    + rewrite E1. unfold width in E2. lia.
    + unfold forest_block_size. rewrite E1, (tree_block_size_spec OK H Ii). unfold width in E2. lia.
Qed.
Print Assumptions C31_iter_forest_blocks.

(** flat_legs_nesting and flat_leg_idcs: the flat legs of factor i sit at the listed positions of flat_legs *)
Lemma nesting_nth : forall factors i k, k < length factors -> nth k (nesting_from i factors) [] =
  seq (i + nsum (map num_flat_legs (firstn k factors))) (num_flat_legs (nth k factors (LPipe [] false false))).
Proof.
  induction factors as [|f r IH]; intros i k H; [cbn in H; lia|]. destruct k as [|k]; cbn [nesting_from nth firstn map].
  - now rewrite Nat.add_0_r.
  - rewrite IH by (cbn in H; lia). rewrite nsum_cons. f_equal. lia.
Qed.
Lemma nesting_length : forall factors i, length (nesting_from i factors) = length factors.
Proof. induction factors as [|f r IH]; intros i; [reflexivity|]. cbn. now rewrite IH. Qed.
Lemma nesting_take : forall (d : espace) factors pre, map (take d (pre ++ flat_map flat_legs factors)) (nesting_from (length pre) factors) = map flat_legs factors.
Proof.
  intros d. induction factors as [|f r IH]; intros pre; [reflexivity|]. cbn [nesting_from map flat_map]. f_equal.
  - rewrite num_flat_length. unfold take. rewrite app_assoc. apply (list_eq_nth (d := d)); [now rewrite map_length, seq_length|].
    intros k Hk. rewrite map_length, seq_length in Hk. rewrite nth_map_lt with (d := 0) by (now rewrite seq_length). rewrite seq_nth by exact Hk.
    rewrite app_nth1 by (rewrite app_length; lia). rewrite app_nth2 by lia. f_equal. lia.
  - rewrite app_assoc. rewrite num_flat_length. rewrite <- app_length. apply IH.
Qed.
Theorem C31_flat_legs_nesting : forall P d, map (take d (tp_flat_legs P)) (flat_legs_nesting P) = map flat_legs (tp_factors P) /\
  concat (flat_legs_nesting P) = seq 0 (length (tp_flat_legs P)) /\ tp_num_flat_legs P = length (tp_flat_legs P) /\
  forall i, (- Z.of_nat (length (tp_factors P)) <= i < Z.of_nat (length (tp_factors P)))%Z ->
    flat_leg_idcs P i = Some (nth (Z.to_nat (if i <? 0 then i + Z.of_nat (length (tp_factors P)) else i)%Z) (flat_legs_nesting P) []).
Proof.
  intros P d. split; [apply (nesting_take d (tp_factors P) [])|]. split; [|split].
  - unfold flat_legs_nesting, tp_flat_legs. generalize 0. induction (tp_factors P) as [|f r IH]; intros k; [reflexivity|]. cbn [nesting_from concat flat_map].
    rewrite IH, app_length, seq_app, num_flat_length. reflexivity.
  - unfold tp_num_flat_legs, tp_flat_legs. rewrite length_flat_map. f_equal. apply map_ext. apply num_flat_length.
  - intros i B. unfold flat_leg_idcs, to_valid_idx.
    destruct ((i <? - Z.of_nat (length (tp_factors P)))%Z || (Z.of_nat (length (tp_factors P)) <=? i)%Z) eqn:EB.
    { apply Bool.orb_true_iff in EB. destruct EB as [X|X]; [apply Z.ltb_lt in X|apply Z.leb_le in X]; lia. }
    unfold flat_legs_nesting. rewrite nesting_nth by (destruct (Z.ltb_spec i 0); lia). reflexivity.
Qed.
Print Assumptions C31_flat_legs_nesting.

(** products made from products are consistent: they equal the product the constructor builds from their factors *)
Theorem C31_from_partial_products : forall S Ps, tsymm_ok S -> Ps <> [] -> Forall (tp_ok S) Ps ->
  from_partial_products S Ps = new_tprod S (flat_map tp_factors Ps) /\ exists Q, from_partial_products S Ps = Some Q /\ tp_ok S Q.
Proof.
  intros S Ps OK NE H. destruct (partial_spec OK NE H) as (Q & E & O & F). split; [|eauto]. rewrite E, <- F. symmetry. apply O.
Qed.
Print Assumptions C31_from_partial_products.
Theorem C31_permuted : forall S P perm Q, tsymm_ok S -> tp_ok S P -> permuted P perm = Some Q ->
  new_tprod S (tp_factors Q) = Some Q /\
  exists p, is_perm (length (tp_factors P)) p /\ perm_of (length (tp_factors P)) perm p /\ tp_factors Q = take (LPipe [] false false) (tp_factors P) p.
Proof. intros S P perm Q OK H E. destruct (permuted_spec OK H E) as [O X]. split; [apply O|exact X]. Qed.
Print Assumptions C31_permuted.
Theorem C31_dual_space : forall S P, tsymm_ok S -> tp_ok S P ->
  new_tprod S (tp_factors (tp_dual S P)) = Some (tp_dual S P) /\ tp_factors (tp_dual S P) = map dual_leg (rev (tp_factors P)) /\
  strictly_sorted (tp_secs (tp_dual S P)) /\
  forall c, sym_valid S c = true -> block_size (tp_dual S P) c = block_size P (sym_dual S c).
Proof. intros S P OK H. destruct (tp_dual_spec OK H) as (A & B & C0 & D). repeat (split; [assumption|]). split; [exact (sk_order C0)|exact D]. Qed.
Print Assumptions C31_dual_space.

(** ** C33 *)
(** insert_multiply(other, pos) has the factors factors[:pos] + [other] + factors[pos:] and is the product of these factors;
    [other] is an elementary space or a pipe of elementary spaces *)
Definition flat_leg (L : leg) : Prop := match L with LSpace _ => True | LPipe legs _ _ => Forall (fun l => exists E, l = LSpace E) legs end.
Lemma flat_leg_space : forall S other, tsymm_ok S -> Forall (es_ok S) (flat_legs other) -> flat_leg other -> as_space S other <> None.
Proof.
  intros S other OK HO F E. destruct (as_space_None OK E HO) as (legs & d & c & -> & X). cbn [flat_leg] in F.
  assert (T : forallb is_elementary legs = true) by (apply forallb_forall; intros l Hl; rewrite Forall_forall in F; destruct (F l Hl) as [E0 ->]; reflexivity). congruence.
Qed.
Theorem C33_insert_multiply : forall S P other pos, tsymm_ok S -> tp_ok S P -> Forall (es_ok S) (flat_legs other) -> flat_leg other ->
  let n := length (tp_factors P) in let at_ := if (pos <? 0)%Z then n - Z.to_nat (- pos) else Nat.min (Z.to_nat pos) n in
  let factors := firstn at_ (tp_factors P) ++ other :: skipn at_ (tp_factors P) in
  insert_multiply S P other pos = new_tprod S factors /\ exists Q, insert_multiply S P other pos = Some Q /\ tp_ok S Q /\ tp_factors Q = factors.
Proof.
  intros S P other pos OK H HO F n at_ factors. destruct (insert_spec OK pos H HO (flat_leg_space S other OK HO F)) as (Q & E & O & EF).
  assert (EA : insert_pos pos (length (tp_factors P)) = at_) by (unfold insert_pos, at_, n; destruct (Z.ltb_spec pos 0); lia).
  rewrite EA in EF. split; [|exists Q; auto]. unfold factors. rewrite E. cbn [app] in EF. rewrite <- EF. symmetry. apply O.
Qed.
Print Assumptions C33_insert_multiply.
Theorem C33_left_multiply : forall S P other, tsymm_ok S -> tp_ok S P -> Forall (es_ok S) (flat_legs other) -> flat_leg other ->
  left_multiply S P other = new_tprod S (other :: tp_factors P) /\ left_multiply S P other <> None.
Proof.
  intros S P other OK H HO F. destruct (C33_insert_multiply S P other 0 OK H HO F) as [E (Q & EQ & _)]. cbn [Z.ltb Z.compare] in E. cbn in E. split; [exact E|].
  unfold left_multiply. congruence.
Qed.
Print Assumptions C33_left_multiply.
(** right_multiply: what the code does - before the last factor, if there is one *)
Theorem C33_right_multiply_partial : forall S P other, tsymm_ok S -> tp_ok S P -> Forall (es_ok S) (flat_legs other) -> flat_leg other ->
  (tp_factors P = [] -> right_multiply S P other = new_tprod S [other]) /\
  (forall fs last, tp_factors P = fs ++ [last] -> right_multiply S P other = new_tprod S (fs ++ [other; last])).
Proof.
  intros S P other OK H HO F. destruct (C33_insert_multiply S P other (-1) OK H HO F) as [E _]. unfold right_multiply. cbn [Z.ltb Z.compare] in E. split.
  - intros E0. rewrite E, E0. reflexivity.
  - intros fs last_ E0. rewrite E, E0. rewrite app_length. cbn [length Z.opp Z.to_nat Pos.to_nat Pos.iter_op]. rewrite Nat.add_sub.
    rewrite firstn_app, firstn_all, Nat.sub_diag, skipn_app, skipn_all, Nat.sub_diag. cbn [firstn skipn app]. rewrite app_nil_r. reflexivity.
Qed.
Print Assumptions C33_right_multiply_partial.

(** ** Examples *)
Definition tu1 : tsymm := TSymm (Symm U1 true true) true.
Definition tsu2 : tsymm := TSymm (Symm SU2 true false) true.
Definition tfib : tsymm := TSymm (Symm Fibonacci false false) true.
Definition tsu3 : tsymm := TSymm (Symm SU3_3 false false) false.
Example C31_ex_symmetries : tsymm_ok tu1 /\ tsymm_ok tsu2 /\ tsymm_ok tfib /\ tsymm_ok tsu3.
Proof.
  split; [|split; [|split]]; constructor.
  - exact (ag_fusion_ring U1_group).
  - intros _. exists (lift2 u1_fuse). exact U1_group.
  - intros _ a b c _ _ _. exact (ag_n U1_group a b c).
  - exact (proj1 Su2Props.C11_SU2_fusion_ring_and_dimensions).
  - discriminate.
  - intros _ a b c _ _ _. reflexivity.
  - exact Fibonacci_ring.
  - discriminate.
  - intros _ a b c _ _ _. reflexivity.
  - exact SU3_3_ring.
  - discriminate.
  - discriminate.
Qed.

Definition su2A : espace := ES [[0]; [1]]%Z [2; 3] false None.
Definition su2B : espace := ES [[1]; [2]]%Z [1; 2] true None.
Definition fibE : espace := ES [[0]; [1]]%Z [1; 2] false None.
Definition su3E : espace := ES [[0]; [1]]%Z [1; 2] true None.
Lemma lt1 : forall a b, (a < b)%Z -> lex_lt [a] [b].
Proof. intros a b H. split; [reflexivity|]. exists 0. cbn. split; [lia|]. split; [exact H|]. intros j Hj. lia. Qed.
Example C31_ex_legs : es_ok tsu2 su2A /\ es_ok tsu2 su2B /\ es_ok tfib fibE /\ es_ok tsu3 su3E.
Proof.
  split; [|split; [|split]]; constructor; cbn [su2A su2B fibE su3E es_def es_mults es_perm]; try discriminate; try reflexivity;
    try (intros s [<-|[<-|[]]]; reflexivity); try (intros m [<-|[<-|[]]]; lia); repeat constructor; apply lt1; lia.
Qed.
(** three SU(2) legs, two of them in a pipe *)
Definition ex_su2 : list leg := [LPipe [LSpace su2A; LSpace su2B] false true; LSpace su2A].
Definition ex_fib : list leg := [LSpace fibE; LSpace fibE; LSpace fibE].
Example C31_ex_products : exists P Q R,
  new_tprod tsu2 ex_su2 = Some P /\ tp_ok tsu2 P /\ new_tprod tfib ex_fib = Some Q /\ tp_ok tfib Q /\
  new_tprod tsu3 [LSpace su3E; LSpace su3E] = Some R /\ tp_ok tsu3 R /\
  block_size P [1%Z] = 46 /\ block_size P [4%Z] = 18 /\ map (fun x => (tb_start x, tb_stop x)) (iter_tree_blocks tsu2 P [[4]; [1]]%Z) =
    [(0, 18); (0, 4); (4, 16); (16, 25); (25, 34); (34, 46)] /\
  map (fun x => (fb_unc x, fb_start x, fb_stop x)) (iter_forest_blocks tsu2 P [[1]]%Z) =
    [([[0]; [1]; [0]]%Z, 0, 4); ([[0]; [2]; [1]]%Z, 4, 16); ([[1]; [1]; [1]]%Z, 16, 34); ([[1]; [2]; [0]]%Z, 34, 46)] /\
  tp_mults Q = [21; 34] /\ tp_mults R = [5; 12; 4; 4].
Proof.
  destruct C31_ex_symmetries as (O1 & O2 & O3 & O4). destruct C31_ex_legs as (L1 & L2 & L3 & L4).
  destruct (C31_constructor tsu2 ex_su2 O2 ltac:(repeat (constructor; try assumption))) as (P & EP & _ & TP_ & _).
  destruct (C31_constructor tfib ex_fib O3 ltac:(repeat (constructor; try assumption))) as (Q & EQ & _ & TQ & _).
  destruct (C31_constructor tsu3 [LSpace su3E; LSpace su3E] O4 ltac:(repeat (constructor; try assumption))) as (R & ER & _ & TR & _).
  exists P, Q, R. repeat (split; [assumption|]).
  assert (X : Some P = new_tprod tsu2 ex_su2) by (symmetry; exact EP). vm_compute in X. injection X as ->.
  assert (X : Some Q = new_tprod tfib ex_fib) by (symmetry; exact EQ). vm_compute in X. injection X as ->.
  assert (X : Some R = new_tprod tsu3 [LSpace su3E; LSpace su3E]) by (symmetry; exact ER). vm_compute in X. injection X as ->.
  repeat split; vm_compute; reflexivity.
Qed.
(** the documented behaviour of right_multiply - the new factor comes last - is false for the code *)
Theorem C33_right_multiply_refuted : exists S P other Q, tsymm_ok S /\ tp_ok S P /\ Forall (es_ok S) (flat_legs other) /\ flat_leg other /\
  right_multiply S P other = Some Q /\ tp_factors Q <> tp_factors P ++ [other].
Proof.
  destruct C31_ex_symmetries as (O1 & O2 & O3 & O4). destruct C31_ex_legs as (L1 & L2 & L3 & L4).
  destruct (C31_constructor tsu2 [LSpace su2A] O2 ltac:(repeat (constructor; try assumption))) as (P & EP & FP & TP_ & _).
  assert (HO : Forall (es_ok tsu2) (flat_legs (LSpace su2B))) by (repeat (constructor; try assumption)).
  destruct (C33_insert_multiply tsu2 P (LSpace su2B) (-1) O2 TP_ HO I) as [_ (Q & EQ & _ & FQ)].
  exists tsu2, P, (LSpace su2B), Q. repeat (split; [assumption || exact I|]). rewrite FQ, FP. cbn. intros X. discriminate X.
Qed.
Print Assumptions C33_right_multiply_refuted.
(** a pipe inside a pipe is a legal leg, but cannot be multiplied: LegPipe::as_Space raises *)
Theorem C33_nested_pipe_refuted : exists S P other, tsymm_ok S /\ tp_ok S P /\ leg_wf S other /\ new_tprod S (other :: tp_factors P) <> None /\
  left_multiply S P other = None.
Proof.
  destruct C31_ex_symmetries as (O1 & O2 & O3 & O4). destruct C31_ex_legs as (L1 & L2 & L3 & L4).
  destruct (C31_constructor tsu2 [] O2 ltac:(constructor)) as (P & EP & FP & TP_ & _).
  exists tsu2, P, (LPipe [LPipe [LSpace su2A] false false; LSpace su2B] false false). split; [exact O2|]. split; [exact TP_|]. split; [|split].
  - apply leg_wf_pipe. split; [discriminate|]. constructor; [|constructor; [exact L2|constructor]].
    apply leg_wf_pipe. split; [discriminate|]. constructor; [exact L1|constructor].
  - rewrite FP. vm_compute. discriminate.
  - reflexivity.
Qed.
Print Assumptions C33_nested_pipe_refuted.
Example C33_ex : exists P Q, new_tprod tsu2 ex_su2 = Some P /\ flat_leg (LPipe [LSpace su2A; LSpace su2B] true false) /\
  insert_multiply tsu2 P (LPipe [LSpace su2A; LSpace su2B] true false) 1 = Some Q /\ tp_secs Q = [[0]; [1]; [2]; [3]; [4]; [5]; [6]; [7]]%Z /\
  left_multiply tsu2 P (LSpace su2A) <> None.
Proof.
  assert (X : exists P, new_tprod tsu2 ex_su2 = Some P) by (vm_compute; eauto). destruct X as [P EP].
  assert (X : Some P = new_tprod tsu2 ex_su2) by (symmetry; exact EP). vm_compute in X. injection X as ->.
  eexists. eexists. split; [vm_compute; reflexivity|]. split; [|split; [vm_compute; reflexivity|split; [reflexivity|vm_compute; discriminate]]].
  cbn. constructor; [eauto|constructor; [eauto|constructor]].
Qed.
