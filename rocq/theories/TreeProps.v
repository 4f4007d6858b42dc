(** C17 (enumeration of fusion trees), C18 (splitting and inserting), C19 (order), C20 (braiding).
    [tree_ok S t] (TreeModel.v, Specification): t is a fusion tree of S, i.e. a left-to-right fusion path through its
    uncoupled sectors. *)
From Coq Require Import Reals Lra.
From Verif Require Import Util RowModel RowProofs SymModel SymProofs AbelianModel AbelianProofs Su2Model Su2Proofs CatSpec Cplx Tower
  AnyonModel AnyonProofs AnyonProofs2 ProductModel ProductProofs ProductCat Sums StarMat StarCplx LexOrder SpaceModel SpaceSpec SpaceProofs7
  TreeModel TreeProofs TreeProofs2 TreeProofs3 TreeProofs4 TreeProofs5 TreeProofs6 TreeProofs7 TreeProofs8 TreeProofs9.
From Verif Require Su2Props AnyonProps ProductProps.
Open Scope nat_scope.

(** ** C17 *)
Theorem C17_enumeration_complete : forall S unc c dual, length dual = length unc ->
  forall t, In t (all_trees S unc c dual) <-> valid_tree S unc c dual t.
Proof. intros. now apply all_trees_In. Qed.
Print Assumptions C17_enumeration_complete.
Theorem C17_enumeration_no_duplicates : forall S unc c dual, fusion_ring S -> Forall (fun a => sym_valid S a = true) unc ->
  length dual = length unc -> NoDup (all_trees S unc c dual).
Proof. intros. now apply all_trees_NoDup. Qed.
Print Assumptions C17_enumeration_no_duplicates.
Theorem C17_len : forall S unc c dual, length (all_trees S unc c dual) = num_trees S unc c.
Proof. intros. apply all_trees_length. Qed.
Print Assumptions C17_len.
(** index(t): the position of t; [None] (an exception) for all other trees.  [ab] is the flag is_abelian of the symmetry. *)
Theorem C17_index : forall S ab unc c dual t, fusion_ring S -> (ab = true -> forall a b c, sym_n S a b c <= 1) ->
  Forall (fun a => sym_valid S a = true) unc -> length dual = length unc ->
  length (t_inner t) = length unc - 2 -> length (t_mult t) = length unc - 1 ->
  forall k, index S ab unc c dual t = Some k <-> nth_error (all_trees S unc c dual) k = Some t.
Proof. intros. now apply index_iff. Qed.
Print Assumptions C17_index.
(** test_sanity accepts exactly the trees that occur in an enumeration *)
Theorem C17_test_sanity : forall S t, fusion_ring S ->
  (test_sanity S t = true <->
   Forall (fun a => sym_valid S a = true) (t_unc t) /\ length (t_dual t) = length (t_unc t) /\
   In t (all_trees S (t_unc t) (t_coup t) (t_dual t))).
Proof.
  intros S t RING. rewrite (test_sanity_iff RING). unfold tree_ok. split.
  - intros [H1 H2]. assert (LD := valid_tree_dual H2). split; [exact H1|]. split; [exact LD|]. now apply all_trees_In.
  - intros (H1 & LD & H2). split; [exact H1|]. now apply all_trees_In.
Qed.
Print Assumptions C17_test_sanity.
(** abelian symmetries: from_abelian_symmetry builds the only tree *)
Theorem C17_abelian_single_tree : forall S fuse, abelian_group_laws S fuse -> forall unc dual,
  Forall (fun a => sym_valid S a = true) unc -> length dual = length unc ->
  exists t, from_abelian S unc dual = Some t /\ tree_ok S t /\ t_unc t = unc /\ t_dual t = dual /\
    forall c t', valid_tree S unc c dual t' -> t' = t.
Proof.
  intros S fuse G unc dual VU LD. destruct (from_abelian_valid G VU LD) as (t & E & V). destruct (valid_tree_fields V) as (F1 & F2 & F3).
  exists t. split; [exact E|]. split; [split; [now rewrite F1|now rewrite F1, F2, F3]|]. split; [exact F1|]. split; [exact F3|].
  intros c t' V'. now apply (abelian_unique G VU V').
Qed.
Print Assumptions C17_abelian_single_tree.
Example C17_example :
  let unc := [[1]; [1]; [1]; [1]]%Z in let dual := [false; true; false; false] in
  fusion_ring Fibonacci /\ forallb (sym_valid Fibonacci) unc = true /\
  num_trees Fibonacci unc [1%Z] = 3 /\ length (all_trees Fibonacci unc [1%Z] dual) = 3 /\
  index Fibonacci false unc [1%Z] dual (Tree unc [1%Z] dual [[1]; [0]]%Z [0; 0; 0]) = Some 1 /\
  num_trees SU2 [[2]; [2]; [2]; [2]]%Z [0%Z] = 3 /\
  num_trees SU3_3 [[1]; [1]; [1]]%Z [1%Z] = 7 /\
  index SU3_3 false [[1]; [1]; [1]]%Z [1%Z] [false; false; false] (Tree [[1]; [1]; [1]]%Z [1%Z] [false; false; false] [[1%Z]] [1; 0]) = Some 2.
Proof. split; [exact Fibonacci_ring|]. vm_compute. auto 10. Qed.

(** ** C18 *)
Theorem C18_split_then_insert : forall S t n, fusion_ring S -> tree_ok S t -> 2 <= n < num_uncoupled t ->
  exists t1 t2, split t n = Some (t1, t2) /\ tree_ok S t1 /\ tree_ok S t2 /\
    num_uncoupled t1 = n /\ num_uncoupled t2 = num_uncoupled t - n + 1 /\ insert t2 t1 = t.
Proof.
  intros S t n RING OK Hn. destruct (proj1 (split_defined t n) Hn) as ([t1 t2] & E). exists t1, t2.
  destruct (split_ok RING OK E) as (A1 & A2 & A3 & A4 & _). split; [exact E|]. split; [exact A1|]. split; [exact A2|]. split; [exact A3|]. split; [lia|].
  apply (split_insert (n := n)); [exact (tree_ok_shape OK)|exact E].
Qed.
Print Assumptions C18_split_then_insert.
Theorem C18_split_outside_range : forall t n, ~ 2 <= n < num_uncoupled t -> split t n = None.
Proof. intros t n H. destruct (split t n) as [p|] eqn:E; [|reflexivity]. exfalso. apply H. apply split_defined. now exists p. Qed.
Print Assumptions C18_split_outside_range.
Theorem C18_insert_then_split : forall S t1 t2, tree_ok S t1 -> tree_ok S t2 -> 2 <= num_uncoupled t1 -> 2 <= num_uncoupled t2 ->
  nth 0 (t_unc t2) [] = t_coup t1 -> nth 0 (t_dual t2) true = false ->
  tree_ok S (insert t2 t1) /\ split (insert t2 t1) (num_uncoupled t1) = Some (t1, t2).
Proof.
  intros S t1 t2 K1 K2 N1 N2 EC ED. split; [now apply insert_ok|]. apply insert_split; auto; eapply tree_ok_shape; eassumption.
Qed.
Print Assumptions C18_insert_then_split.
Theorem C18_bottom_vertex_then_extend : forall S t, tree_ok S t -> 1 <= num_uncoupled t ->
  exists r mu z, split_bottom_vertex S t = Some (r, t_coup t, mu, z) /\ tree_ok S r /\ num_uncoupled r + 1 = num_uncoupled t /\
    extended r z mu (t_coup t) (last (t_dual t) false) = Some t.
Proof.
  intros S t OK Hn. destruct (split_bottom_vertex S t) as [[[[r c] mu] z]|] eqn:E.
  - destruct (split_bottom_extended OK E) as (A1 & A2 & -> & A4). exists r, mu, z. auto.
  - unfold split_bottom_vertex in E. destruct (num_uncoupled t) as [|[|[|n]]]; [lia|discriminate..].
Qed.
Print Assumptions C18_bottom_vertex_then_extend.
Theorem C18_extend_then_bottom_vertex : forall S t u mu c d, tree_ok S t -> 1 <= num_uncoupled t ->
  sym_valid S u = true -> In c (sym_outcomes S (t_coup t) u) -> mu < sym_n S (t_coup t) u c ->
  exists t', extended t u mu c d = Some t' /\ tree_ok S t' /\ t_coup t' = c /\ t_unc t' = t_unc t ++ [u] /\ t_dual t' = t_dual t ++ [d] /\
    split_bottom_vertex S t' = Some (t, c, mu, u).
Proof.
  intros S t u mu c d OK Hn Vu Hc Hmu. destruct (extended t u mu c d) as [t'|] eqn:E.
  - exists t'. split; [reflexivity|]. destruct (extended_split_bottom OK Hn E) as (A1 & A2 & A3). split; [now apply A3|].
    unfold extended in E. destruct ((num_uncoupled t =? 0) && negb (mu =? 0)); [discriminate|]. injection E as <-. cbn [t_coup t_unc t_dual]. auto.
  - unfold extended in E. replace (num_uncoupled t =? 0) with false in E by (symmetry; apply Nat.eqb_neq; lia). discriminate.
Qed.
Print Assumptions C18_extend_then_bottom_vertex.
(** insert_at(n, empty tree) removes a trivial leg.  Missing: the last of three or more legs, where the result is not a tree
    (next theorem). *)
Theorem C18_insert_at_empty_partial : forall S t n, fusion_ring S -> tree_ok S t -> n < num_uncoupled t ->
  nth n (t_unc t) [] = sym_trivial S -> n + 1 < num_uncoupled t \/ num_uncoupled t <= 2 ->
  tree_ok S (insert_at_empty t n) /\ t_unc (insert_at_empty t n) = firstn n (t_unc t) ++ skipn (n + 1) (t_unc t) /\
  t_coup (insert_at_empty t n) = t_coup t.
Proof.
  intros S t n RING OK Hn HT HC. split; [now apply insert_at_empty_ok|]. split; [|reflexivity]. unfold insert_at_empty. cbn [t_unc]. rewrite slice_0. f_equal.
  now rewrite slice_full by reflexivity.
Qed.
Print Assumptions C18_insert_at_empty_partial.
Theorem C18_insert_at_empty_last_leg_refuted : forall S, fusion_ring S -> forall t, tree_ok S t -> 3 <= num_uncoupled t ->
  nth (num_uncoupled t - 1) (t_unc t) [] = sym_trivial S ->
  test_sanity S (insert_at_empty t (num_uncoupled t - 1)) = false.
Proof.
  intros S RING t OK H3 HT. destruct (test_sanity S (insert_at_empty t (num_uncoupled t - 1))) eqn:E; [|reflexivity]. exfalso.
  apply (test_sanity_iff RING) in E. apply tree_ok_shape in E. apply tree_ok_shape in OK. destruct OK as (A1 & A2 & A3), E as (B1 & B2 & B3).
  unfold insert_at_empty, num_inner, num_uncoupled in *. cbn [t_unc t_inner t_dual] in *. rewrite slice_0 in B1, B2.
  rewrite app_length, slice_0 in B2. rewrite app_length, !firstn_length, (slice_full _ (eq_refl (length (t_unc t)))), (slice_full _ (eq_sym A2)), !skipn_length in B2. lia.
Qed.
Print Assumptions C18_insert_at_empty_last_leg_refuted.
Example C18_example :
  let t := Tree [[2]; [2]; [0]; [2]]%Z [2%Z] [false; true; false; true] [[4]; [4]]%Z [0; 0; 0] in
  fusion_ring SU2 /\ test_sanity SU2 t = true /\
  split t 3 = Some (Tree [[2]; [2]; [0]]%Z [4%Z] [false; true; false] [[4]]%Z [0; 0], Tree [[4]; [2]]%Z [2%Z] [false; true] [] [0]) /\
  insert_at_empty t 2 = Tree [[2]; [2]; [2]]%Z [2%Z] [false; true; true] [[4]]%Z [0; 0] /\
  (* the tree 1/2 x 1/2 x 0 -> 0 *)
  let u := Tree [[1]; [1]; [0]]%Z [0%Z] [false; false; false] [[0]]%Z [0; 0] in
  test_sanity SU2 u = true /\ t_inner (insert_at_empty u 2) = [[0%Z]] /\ num_uncoupled (insert_at_empty u 2) = 2.
Proof. split; [exact (proj1 Su2Props.C11_SU2_fusion_ring_and_dimensions)|]. vm_compute. auto 10. Qed.

(** ** C19 *)
Theorem C19_tree_order : 
  (forall t, tree_lt t t = false) /\
  (forall t u v, tree_lt t u = true -> tree_lt u v = true -> tree_lt t v = true) /\
  (forall t u, tree_lt t u = true -> tree_lt u t = false) /\
  (forall t u, tree_lt t u = false -> tree_lt u t = false -> t = u) /\
  (forall t u, tree_eqb t u = true <-> t = u).
Proof.
  assert (L := tree_cmp_laws).
  assert (Q : forall t u, tree_lt t u = false <-> tree_cmp t u <> Lt).
  { intros t u. rewrite <- tree_lt_cmp. destruct (tree_lt t u); intuition congruence. }
  split; [|split; [|split; [|split]]].
  - intros t. apply Q. rewrite (cmp_refl L). discriminate.
  - intros t u v. rewrite !tree_lt_cmp. apply (cmp_trans L).
  - intros t u. rewrite tree_lt_cmp, Q. intros H H'. rewrite (cmp_sym L), H in H'. discriminate.
  - intros t u. rewrite !Q. intros H1 H2. apply (cmp_eq L). destruct (tree_cmp t u) eqn:E; [reflexivity|congruence|]. exfalso. apply H2. now apply (cmp_gt L).
  - apply tree_eqb_eq.
Qed.
Print Assumptions C19_tree_order.
(** sorted containers: inserting trees one by one into an ordered set keeps exactly the inserted trees, each once *)
Fixpoint set_insert (t : tree) (l : list tree) : list tree :=
  match l with
  | [] => [t]
  | u :: r => if tree_lt t u then t :: l else if tree_lt u t then u :: set_insert t r else l
  end.
Theorem C19_ordered_set : forall ts, let l := fold_right set_insert [] ts in
  NoDup l /\ (forall t, In t l <-> In t ts) /\ StronglySorted (fun t u => tree_lt t u = true) l.
Proof.
  destruct C19_tree_order as (IRR & TR & AS & TOT & _).
  assert (II : forall t l u, In u (set_insert t l) <-> u = t \/ In u l).
  { intros t l u. induction l as [|v l IH]; cbn [set_insert]; [cbn; intuition congruence|]. destruct (tree_lt t v) eqn:E1; [cbn; intuition congruence|].
    destruct (tree_lt v t) eqn:E2; [cbn; rewrite IH; intuition congruence|]. assert (t = v) by now apply TOT. subst. cbn. intuition congruence. }
  assert (SI : forall t l, StronglySorted (fun t u => tree_lt t u = true) l -> StronglySorted (fun t u => tree_lt t u = true) (set_insert t l)).
  { intros t l H. induction H as [|v l H IH F]; cbn [set_insert]; [constructor; constructor|]. destruct (tree_lt t v) eqn:E1.
    - constructor; [now constructor|]. constructor; [exact E1|]. rewrite Forall_forall in *. intros x Hx. apply (TR t v x E1). now apply F.
    - destruct (tree_lt v t) eqn:E2; [|now constructor]. constructor; [exact IH|]. rewrite Forall_forall in *. intros x Hx. apply II in Hx. destruct Hx as [-> |Hx]; auto. }
  intros ts l. assert (ST : StronglySorted (fun t u => tree_lt t u = true) l).
  { unfold l. clear l. induction ts as [|t ts IH]; cbn [fold_right]; [constructor|]. now apply SI. }
  split; [|split; [|exact ST]].
  - clear -ST IRR. induction ST as [|t l S IH F]; constructor; [|exact IH]. intros H. rewrite Forall_forall in F. specialize (F t H). rewrite IRR in F. discriminate.
  - intros t. unfold l. clear l ST. induction ts as [|u ts IH]; cbn [fold_right]; [reflexivity|]. rewrite II, IH. cbn. intuition congruence.
Qed.
Print Assumptions C19_ordered_set.
Example C19_example :
  let t := Tree [[1]; [1]]%Z [0%Z] [false; false] [] [0] in let u := Tree [[1]; [1]]%Z [1%Z] [false; false] [] [0] in
  tree_lt t u = true /\ tree_lt u t = false /\ fold_right set_insert [] [u; t; u; t] = [t; u].
Proof. vm_compute. auto. Qed.

(** ** C20 *)
(** [coef o l u] is the coefficient of the tree u in the linear combination l, [extend_linear] applies a map of trees to a
    linear combination.  [small] is the test |x| < cutoff; here it may only drop exact zeros. *)
Theorem C20_braid_inverse : forall S K (o : ops K) (R : Rsym K) (C : Fsym K), fusion_ring S -> star_laws o ->
  R_unitary S o R -> C_unitary S o C -> forall small, (forall x, small x = true -> x = o0 o) ->
  forall t j over do_conj, tree_ok S t -> j + 1 < num_uncoupled t -> forall u,
    coef o (extend_linear o (fun v => braid S o R C small v j (negb over) do_conj) (braid S o R C small t j over do_conj)) u =
    if tree_eqb t u then o1 o else o0 o.
Proof. intros. now apply braid_inverse. Qed.
Print Assumptions C20_braid_inverse.
(** the trees of the result are valid trees with the two legs exchanged, and no tree occurs twice (the assertion in the code) *)
Theorem C20_braid_result : forall S K (o : ops K) (R : Rsym K) (C : Fsym K) small t j over do_conj, fusion_ring S -> star_laws o ->
  tree_ok S t -> j + 1 < num_uncoupled t ->
  NoDup (map fst (braid S o R C small t j over do_conj)) /\
  forall u x, In (u, x) (braid S o R C small t j over do_conj) -> tree_ok S u /\ t_coup u = t_coup t /\
    forall n, nth n (t_unc u) [] = nth (if n =? j then j + 1 else if n =? j + 1 then j else n) (t_unc t) [] /\
              nth n (t_dual u) false = nth (if n =? j then j + 1 else if n =? j + 1 then j else n) (t_dual t) false.
Proof.
  intros S K o R C small t j over dc RING ST OK Hj. destruct (braid_valid o RING R C small over dc OK Hj) as [H1 H2]. split; [exact H1|].
  intros u x H. destruct (H2 u x H) as (A1 & A2 & A3 & A4). split; [exact A1|]. split; [exact A4|]. intros n. rewrite A2, A3.
  destruct OK as [_ V]. apply valid_tree_dual in V. unfold num_uncoupled in Hj. split; apply swap2_nth; lia.
Qed.
Print Assumptions C20_braid_result.
(** the hypothesis on C follows from the consistency equations of the category *)
Theorem C20_C_unitary : forall S K (o : ops K) (F : Fsym K) (R : Rsym K) (C : Fsym K), fusion_ring S -> star_laws o ->
  F_unitary S o F -> R_unitary S o R -> C_is_RFR S o F R C -> C_unitary S o C.
Proof. intros. eapply C_unitary_RFR; eassumption. Qed.
Print Assumptions C20_C_unitary.
(** the C symbol of the Ising code is not R F R* (C10), but it is unitary *)
Lemma ising_C_unitary v : (0 <= v < 16)%Z -> Z.odd v = true -> C_unitary Ising Cops (ising_C Cops (ising_ftab v) (ising_rtab v) (ising_phase v)).
Proof.
  intros HB HO. set (F := ising_F Cops (ising_ftab v)). set (R := ising_R Cops (ising_rtab v)). set (Cc := ising_C Cops (ising_ftab v) (ising_rtab v) (ising_phase v)).
  assert (BC := ising_category HB HO). assert (U := C20_C_unitary Ising Cplx.C Cops F R _ Ising_ring Cops_star (bc_F_unitary BC) (bc_R_unitary BC) (ising_C_covered HB HO)).
  intros a b c d Va Vb Vc Vd e e' mu nu mu' nu' Ie Ie' Hmu Hnu Hmu' Hnu'. destruct (ising_covered b c) eqn:CV.
  - rewrite <- (U a b c d Va Vb Vc Vd e e' mu nu mu' nu' Ie Ie' Hmu Hnu Hmu' Hnu'). unfold patched. rewrite CV. reflexivity.
  - assert (LT : forall n m, n < m -> m <= 1 -> n = 0) by lia. assert (N1 : forall a b c, n_symbol Ising a b c <= 1) by (intros x y z; unfold n_symbol; destruct (can_fuse_to _ _ _ _); cbn; lia).
    rewrite (LT _ _ Hmu (N1 _ _ _)), (LT _ _ Hmu' (N1 _ _ _)), (LT _ _ Hnu' (N1 _ _ _)), (LT _ _ Hnu (N1 _ _ _)). cbn [Nat.eqb]. rewrite !andb_true_r.
    assert (E1 : forall f, Cc a b c d e f 0 0 0 0 = C1 /\ Cc a b c d e' f 0 0 0 0 = C1).
    { unfold Cc, ising_C. unfold ising_covered in CV. apply ising_secs in Vb, Vc.
      destruct ((q0 b =? 1)%Z && (q0 c =? 1)%Z) eqn:E; [discriminate CV|]. intros f. split; reflexivity. }
    assert (Hn := Nat.le_lt_trans 0 _ _ (Nat.le_0_l _) Hnu). assert (Hn' := Nat.le_lt_trans 0 _ _ (Nat.le_0_l _) Hnu'). clear Hmu Hmu' Hnu Hnu' U mu nu mu' nu'.
    transitivity (osum Cops (map (fun f => sumn Cops (n_symbol Ising a c f) (fun k => sumn Cops (n_symbol Ising f b d) (fun l => C1))) (sym_outcomes Ising a c))).
    + f_equal. apply map_ext. intros f. unfold sumn. f_equal. apply map_ext_in. intros k Ik. f_equal. apply map_ext_in. intros l Il. apply in_seq in Ik, Il.
      rewrite (LT k _ (proj2 Ik) (N1 _ _ _)), (LT l _ (proj2 Il) (N1 _ _ _)), (proj1 (E1 f)), (proj2 (E1 f)). apply C_eq; cbn; lra.
    + clear E1. apply ising_secs in Va, Vb, Vc, Vd. cbn [isecs In] in Va, Vb, Vc, Vd.
      destruct Vb as [ <- |[ <- |[ <- |[]]]], Vc as [ <- |[ <- |[ <- |[]]]]; try discriminate CV; destruct Va as [ <- |[ <- |[ <- |[]]]]; cbn in Ie, Ie';
        repeat match goal with H : _ \/ _ |- _ => destruct H | H : False |- _ => destruct H end; subst; try (exfalso; vm_compute in Hn; lia); try (exfalso; vm_compute in Hn'; lia); (apply C_eq; cbn; lra).
Qed.
(** instances *)
Definition braid_invertible (S : symmetry) (R : Rsym Cplx.C) (Cs : Fsym Cplx.C) : Prop :=
  forall small, (forall x, small x = true -> x = C0) -> forall t j over do_conj, tree_ok S t -> j + 1 < num_uncoupled t -> forall u,
    coef Cops (extend_linear Cops (fun v => braid S Cops R Cs small v j (negb over) do_conj) (braid S Cops R Cs small t j over do_conj)) u =
    if tree_eqb t u then C1 else C0.
Theorem C20_instances :
  (forall rh, braid_invertible Fibonacci (fib_R Cops (fib_rtab rh)) (fib_C Cops fib_ftab (fib_rtab rh))) /\
  braid_invertible SU3_3 su33_Rc su33_Cc /\
  (forall N n, (1 < N <= 32768)%Z -> braid_invertible (ZNAnyon N) (zna_R N n) (zna_C N n)) /\
  (forall N, (1 < N <= 32768)%Z -> braid_invertible (QuantumDouble N) (qd_R N) (qd_C N)) /\
  (forall fs, fs <> [] -> Forall (honest Cops) fs -> Forall is_cat fs ->
     braid_invertible (product_sym Cops fs) (product_R Cops fs) (default_c_symbol Cops (product_F Cops fs) (product_R Cops fs))).
Proof.
  assert (G : forall S F R Cs fs qd, fusion_ring S /\ braided_category S Cops F R fs qd /\ C_is_RFR S Cops F R Cs -> braid_invertible S R Cs).
  { intros S F R Cs fs qd (RING & BC & CR) small SM t j over dc OK Hj u.
    apply (@C20_braid_inverse S Cplx.C Cops R Cs RING Cops_star (bc_R_unitary BC)); auto. eapply C20_C_unitary; try eassumption; [exact Cops_star|apply (bc_F_unitary BC)|apply (bc_R_unitary BC)]. }
  split; [|split; [|split; [|split]]].
  - intros rh. eapply G. apply AnyonProps.C09_Fibonacci_category.
  - eapply G. apply AnyonProps.C16_SU3_3_category.
  - intros N n HN. eapply G. apply AnyonProps.C08_ZN_anyon_category. exact HN.
  - intros N HN. destruct (AnyonProps.C08_quantum_double N HN) as (A & B & D & _). eapply G. eauto.
  - intros fs NE H D. destruct (ProductProps.C14_category_laws fs NE H D) as [A B]. eapply G. split; [now apply ProductProps.C14_ring_laws|]. eauto.
Qed.
Print Assumptions C20_instances.
(** Ising anyons with the C symbols of the code: not the braid of the category (C10), but braiding back undoes it *)
Theorem C20_Ising_inverse : forall nu, Z.odd nu = true -> let v := ising_nu nu in
  braid_invertible Ising (ising_R Cops (ising_rtab v)) (ising_C Cops (ising_ftab v) (ising_rtab v) (ising_phase v)).
Proof.
  intros nu O v small SM t j over dc OK Hj u. destruct (AnyonProps.C10_Ising_category nu O) as (_ & RING & BC). fold v in BC.
  apply (@C20_braid_inverse Ising Cplx.C Cops _ _ RING Cops_star (bc_R_unitary BC)); auto. apply ising_C_unitary; [apply ising_nu_range|now apply ising_nu_odd].
Qed.
Print Assumptions C20_Ising_inverse.
Example C20_example :
  let t := Tree [[1]; [1]; [1]; [1]]%Z [1%Z] [false; true; false; false] [[0]; [1]]%Z [0; 0; 0] in
  test_sanity Fibonacci t = true /\
  map fst (braid Fibonacci Cops (fib_R Cops (fib_rtab true)) (fib_C Cops fib_ftab (fib_rtab true)) (fun _ => false) t 1 true false) =
  [Tree [[1]; [1]; [1]; [1]]%Z [1%Z] [false; false; true; false] [[0]; [1]]%Z [0; 0; 0];
   Tree [[1]; [1]; [1]; [1]]%Z [1%Z] [false; false; true; false] [[1]; [1]]%Z [0; 0; 0]].
Proof. split; reflexivity. Qed.
