(** C35, C36, C37, C39: tensors of the abelian backend.
    [tensor_ok S cod dom D] (SparseSpec.v): the data [D] is a well-formed block-sparse tensor from [dom] to [cod]: legs satisfy the
    invariants of C23/C24, block rows strictly sorted and in range, block shapes given by the multiplicities, charge rule.
    [entry o S cod dom D g]: the number at position [g] of the array that to_dense_block returns (internal basis order),
    axes in the order codomain, reversed domain; [dense_idx S legs g]: [g] is a position of an array with these legs.
    Scalars: any commutative semiring [o] (real, complex numbers, ...). *)
From Coq Require Import String.
From Verif Require Import Util StableSort RowModel RowProofs GridModel GridProofs SymModel SymProofs AbelianModel AbelianProofs CatSpec Sums SpaceModel SpaceSpec SpaceProofs SpaceProofs2 SpaceProofs3 SpaceProofs5
  PipeModel PipeProofs BlockModel BlockProofs SparseModel SparseSpec SparseProofs SparseProofs2 SparseProofs6 SparseDense SparseDense2.
From Verif Require PipeProps.
Open Scope nat_scope.

(** the array has the dimensions of the legs *)
Theorem C35_dense_shape : forall K (o : ops K) (S : symm) cod dom D, bshape (to_dense o S (leg_order cod dom) D) = map (es_dim S) (leg_order cod dom).
Proof. intros. apply to_dense_shape. Qed.
Print Assumptions C35_dense_shape.
(** every entry outside of the stored blocks is zero: a tensor without blocks is the zero array *)
Theorem C35_zero : forall K (o : ops K) (S : symm) fuse, abelian_group_laws S fuse -> forall cod dom, (forall L, In L (leg_order cod dom) -> es_ok S L) ->
  tensor_ok S cod dom (zero_data K) /\ forall g, dense_idx S (leg_order cod dom) g -> entry o S cod dom (zero_data K) g = o0 o.
Proof.
  intros K o S fuse G cod dom OK. assert (T : tensor_ok S cod dom (zero_data K)). { constructor; auto; [|intros e []]. constructor; try (intros e []). constructor. }
  split; auto. intros g Hg. destruct (locate G OK Hg) as (b & q & Vb & Vq & ->). now rewrite (entry_locs o G T Vb Vq).
Qed.
Print Assumptions C35_zero.
Theorem C35_linear_combination : forall K (o : ops K), is_semiring o -> forall (S : symm) fuse, abelian_group_laws S fuse ->
  forall cod dom a V b W, tensor_ok S cod dom V -> tensor_ok S cod dom W ->
  tensor_ok S cod dom (linear_combination o a V b W) /\
  forall g, dense_idx S (leg_order cod dom) g ->
    entry o S cod dom (linear_combination o a V b W) g = oadd o (omul o a (entry o S cod dom V g)) (omul o b (entry o S cod dom W g)).
Proof. intros K o SR S fuse G cod dom a V b W. apply (dense_lincomb SR G). Qed.
Print Assumptions C35_linear_combination.
(** [is_zero]: the test [a == 0.] of the code, any test that only accepts zero *)
Theorem C35_scalar_multiple : forall K (o : ops K), is_semiring o -> forall (S : symm) fuse, abelian_group_laws S fuse ->
  forall cod dom is_zero a B, (forall x, is_zero x = true -> x = o0 o) -> tensor_ok S cod dom B ->
  tensor_ok S cod dom (mul_data o is_zero a B) /\
  forall g, dense_idx S (leg_order cod dom) g -> entry o S cod dom (mul_data o is_zero a B) g = omul o a (entry o S cod dom B g).
Proof. intros K o SR S fuse G cod dom z a B. apply (dense_mul SR G). Qed.
Print Assumptions C35_scalar_multiple.

(** ** C36: entry (ga, gb) of the product is the sum over all positions gc of the contracted legs; in the array of the first factor
    the domain legs appear in reversed order. *)
Theorem C36_compose : forall K (o : ops K), is_semiring o -> forall (S : symm) fuse, abelian_group_laws S fuse ->
  forall cod mid dom A B, cod ++ mid ++ dom <> [] -> tensor_ok S cod mid A -> tensor_ok S mid dom B ->
  exists R, compose o S cod mid dom A B = Some R /\ tensor_ok S cod dom R /\
  forall ga gb, dense_idx S cod ga -> dense_idx S (rev dom) gb ->
    entry o S cod dom R (ga ++ gb) =
    osum o (map (fun gc => omul o (entry o S cod mid A (ga ++ rev gc)) (entry o S mid dom B (gc ++ gb))) (positions S mid)).
Proof. intros K o SR S fuse G cod mid dom A B. apply (dense_compose SR G). Qed.
Print Assumptions C36_compose.
(** without any legs (two scalars) the call raises instead of multiplying: the property is false there *)
Theorem C36_compose_of_scalars_refuted : forall K (o : ops K) (S : symm) A B, compose o S [] [] [] A B = None.
Proof. reflexivity. Qed.
Print Assumptions C36_compose_of_scalars_refuted.

(** ** C37 *)
(** [ci], [di]: codomain_idcs, domain_idcs of permute_legs; axis n of the new array is axis p_n of the old one.
    The new legs are those of tensor.cpp:706-724 (dualised when bent). *)
Theorem C37_permute_legs : forall K (o : ops K) (S : symm) fuse, abelian_group_laws S fuse ->
  forall cod dom A ci di, let legs := leg_order cod dom in let p := ci ++ rev di in
  tensor_ok S cod dom A -> is_perm (length legs) p ->
  let cod' := map (as_codomain_leg (length cod) legs) ci in let dom' := map (as_domain_leg (length cod) legs) di in
  tensor_ok S cod' dom' (permute_data o A p) /\
  forall g, dense_idx S legs g ->
    dense_idx S (leg_order cod' dom') (take 0 g p) /\ entry o S cod' dom' (permute_data o A p) (take 0 g p) = entry o S cod dom A g.
Proof. intros K o S fuse G cod dom A ci di. apply (dense_permute o G). Qed.
Print Assumptions C37_permute_legs.
Theorem C37_dagger : forall K (o : ops K) (S : symm) fuse, abelian_group_laws S fuse -> oconj o (o0 o) = o0 o ->
  forall cod dom A, tensor_ok S cod dom A -> tensor_ok S dom cod (dagger_data o A) /\
  forall g, dense_idx S (leg_order cod dom) g -> entry o S dom cod (dagger_data o A) (rev g) = oconj o (entry o S cod dom A g).
Proof. intros K o S fuse G C0 cod dom A. apply (dense_dagger G C0). Qed.
Print Assumptions C37_dagger.
Theorem C37_outer : forall K (o : ops K), is_semiring o -> forall (S : symm) fuse, abelian_group_laws S fuse ->
  forall codA domA codB domB A B, tensor_ok S codA domA A -> tensor_ok S codB domB B ->
  tensor_ok S (codA ++ codB) (domA ++ domB) (outer_data o (length codA) A B) /\
  forall g1 g2 g, dense_idx S codA g1 -> dense_idx S (rev domA) g2 -> dense_idx S (leg_order codB domB) g ->
    entry o S (codA ++ codB) (domA ++ domB) (outer_data o (length codA) A B) (g1 ++ g ++ g2) =
    omul o (entry o S codA domA A (g1 ++ g2)) (entry o S codB domB B g).
Proof. intros K o SR S fuse G codA domA codB domB A B. apply (dense_outer SR G). Qed.
Print Assumptions C37_outer.
Theorem C37_inner_dagger : forall K (o : ops K), is_semiring o -> oconj o (o0 o) = o0 o -> forall (S : symm) fuse, abelian_group_laws S fuse ->
  forall cod dom A B, leg_order cod dom <> [] -> tensor_ok S cod dom A -> tensor_ok S cod dom B ->
  inner_data o (map nsec (leg_order cod dom)) A B true =
  Some (osum o (map (fun g => omul o (oconj o (entry o S cod dom A g)) (entry o S cod dom B g)) (positions S (leg_order cod dom)))).
Proof. intros K o SR C0 S fuse G cod dom A B NE HA HB. apply (dense_inner SR G (dg := true) NE HA HB). auto. Qed.
Print Assumptions C37_inner_dagger.
Theorem C37_inner_no_dagger : forall K (o : ops K), is_semiring o -> forall (S : symm) fuse, abelian_group_laws S fuse ->
  forall cod dom A B, leg_order cod dom <> [] -> tensor_ok S cod dom A -> tensor_ok S dom cod B ->
  inner_data o (map nsec (leg_order cod dom)) A B false =
  Some (osum o (map (fun g => omul o (entry o S cod dom A g) (entry o S dom cod B (rev g))) (positions S (leg_order cod dom)))).
Proof. intros K o SR S fuse G cod dom A B NE HA HB. apply (dense_inner SR G (dg := false) NE HA HB). discriminate. Qed.
Print Assumptions C37_inner_no_dagger.
(** two scalars: the call raises an IndexError (misc.py:256-279 with an empty shape) *)
Theorem C37_inner_of_scalars_refuted : forall K (o : ops K) A B dg, inner_data o [] A B dg = None.
Proof. reflexivity. Qed.
Print Assumptions C37_inner_of_scalars_refuted.
Theorem C37_trace_full : forall K (o : ops K), is_semiring o -> forall (S : symm) fuse, abelian_group_laws S fuse ->
  forall cod A, tensor_ok S cod cod A ->
  trace_full_data o (length cod) A = osum o (map (fun g => entry o S cod cod A (g ++ rev g)) (positions S cod)).
Proof. intros K o SR S fuse G cod A. apply (dense_trace SR G). Qed.
Print Assumptions C37_trace_full.
(** [pairs]: the traced pairs of legs; [pair_ok]: the check of ops_algebra.cpp that the two legs of a pair are dual to each other.
    [untraced n pairs]: the other positions, ascending.  The entry at [g] is the sum of all entries at positions [h] that agree with [g] on
    the remaining legs and have equal indices on the two legs of every pair. *)
Theorem C37_partial_trace : forall K (o : ops K), is_semiring o -> forall (S : symm) fuse, abelian_group_laws S fuse ->
  forall cod dom pairs A, let legs := leg_order cod dom in let rem := untraced (length legs) pairs in
  tensor_ok S cod dom A -> NoDup (map fst pairs ++ map snd pairs) -> Forall (fun i => i < length legs) (map fst pairs ++ map snd pairs) ->
  (forall ij, In ij pairs -> as_codomain_leg (length cod) legs (fst ij) = as_domain_leg (length cod) legs (snd ij)) ->
  let cod' := map (fun i => nth i legs noleg) (filter (fun n => n <? length cod) rem) in
  let dom' := rev (map (fun i => nth i legs noleg) (filter (fun n => negb (n <? length cod)) rem)) in
  exists R, partial_trace o S cod dom pairs A = Some R /\ tensor_ok S cod' dom' R /\
  forall g, dense_idx S (leg_order cod' dom') g ->
    entry o S cod' dom' R g =
    osum o (map (entry o S cod dom A)
      (filter (fun h => (if list_eq_dec Nat.eq_dec (map (fun i => nth i h 0) rem) g then true else false) &&
                        forallb (fun ij => nth (fst ij) h 0 =? nth (snd ij) h 0) pairs) (positions S legs))).
Proof.
  intros K o SR S fuse G cod dom pairs A legs rem HA ND RNG PO cod' dom'.
  destruct (dense_partial_trace SR G (to_legs HA) ND RNG PO HA) as (R & ER & T & EN). exists R. split; [exact ER|]. split; [exact T|].
  intros g Hg. etransitivity; [exact (EN g Hg)|]. f_equal. f_equal. apply filter_ext. intros h. unfold on_pairs. f_equal.
  unfold take. rewrite !map_map. destruct (list_eq_dec _ _ _) as [Q|Q]; symmetry.
  - apply forallb_forall. intros ij Hij. apply Nat.eqb_eq. exact (ext_in_map Q ij Hij).
  - apply not_true_is_false. intros F. rewrite forallb_forall in F. apply Q. apply map_ext_in. intros ij Hij. now apply Nat.eqb_eq, F.
Qed.
Print Assumptions C37_partial_trace.

(** ** C39.  [internal_position S L idx j]: [idx] is in range (negative indices count from the end) and the basis permutation of the leg maps
    internal position [j] to it. *)
Theorem C39_get_element : forall K (o : ops K) (S : symm) fuse, abelian_group_laws S fuse -> s_drop S = true ->
  forall cod dom A, tensor_ok S cod dom A -> forall idcs g, length idcs = length (leg_order cod dom) ->
  Forall2 (fun Li j => internal_position S (fst Li) (snd Li) j) (combine (leg_order cod dom) idcs) g ->
  get_element o S (leg_order cod dom) A idcs = Some (entry o S cod dom A g).
Proof. intros K o S fuse G HD cod dom A HA idcs g LE HG. apply (get_element_ok o G HD (to_legs HA) (to_data HA) HG LE). Qed.
Print Assumptions C39_get_element.
(** every index in range has exactly one internal position *)
Theorem C39_position_exists : forall (S : symm) L, es_ok S L -> forall idx, (- Z.of_nat (es_dim S L) <= idx < Z.of_nat (es_dim S L))%Z ->
  exists j, internal_position S L idx j /\ forall j', internal_position S L idx j' -> j' = j.
Proof.
  intros S L OK idx HR. assert (P := ok_bperm OK).
  assert (HI : Z.to_nat (if idx <? 0 then idx + Z.of_nat (es_dim S L) else idx)%Z < es_dim S L) by (destruct (Z.ltb_spec idx 0); lia).
  destruct (is_perm_surj P HI) as (j & Hj & E). exists j. split; [split; auto|]. intros j' (_ & Hj' & E'). apply (is_perm_nth_inj P); auto. congruence.
Qed.
Print Assumptions C39_position_exists.
Theorem C39_out_of_range : forall K (o : ops K) (S : symm), s_drop S = true -> forall legs A idcs, length idcs = length legs ->
  Exists (fun Li => (snd Li < - Z.of_nat (es_dim S (fst Li)) \/ Z.of_nat (es_dim S (fst Li)) <= snd Li)%Z) (combine legs idcs) ->
  get_element o S legs A idcs = None.
Proof. intros K o S HD legs A idcs LE HX. now apply get_element_out. Qed.
Print Assumptions C39_out_of_range.

(** ** examples: U(1), codomain [legA; legB], domain [legA] *)
Definition u1 := PipeProps.u1.
Definition legA := PipeProps.legA.
Definition legB := PipeProps.legB.
Definition exT : list (list nat * blk Z) := [([0; 0; 0], Blk [2; 1; 2] [1; 2; 3; 4]%Z); ([1; 0; 1], Blk [1; 1; 1] [5]%Z)].
Lemma ex_legs L : In L [legA; legB; legA] -> es_ok u1 L.
Proof. destruct PipeProps.C30_ex_ok as [A B]. intros [<-|[<-|[<-|[]]]]; assumption. Qed.
Lemma ex_tensor : tensor_ok u1 [legA; legB] [legA] exT.
Proof.
  constructor.
  - exact ex_legs.
  - constructor.
    + cbn [exT map fst zrows]. constructor; [constructor; constructor|]. constructor; [|constructor]. split; [reflexivity|]. exists 2. split; [cbn; lia|]. split; [cbn; lia|]. intros j Hj. cbn in Hj. lia.
    + intros e [<-|[<-|[]]]; repeat constructor.
    + intros e [<-|[<-|[]]]; reflexivity.
    + intros e [<-|[<-|[]]]; reflexivity.
  - intros e [<-|[<-|[]]]; vm_compute; reflexivity.
Qed.
Example C36_ex : exists R, compose Zops u1 [legA] [legA; legB] [legA] (dagger_data Zops exT) exT = Some R /\
  R = [([0; 0], Blk [2; 2] [10; 14; 14; 20]%Z); ([1; 1], Blk [1; 1] [25]%Z)] /\
  bdata (to_dense Zops u1 [legA; legA] R) = [10; 14; 0; 14; 20; 0; 0; 0; 25]%Z.
Proof. eexists. split; [vm_compute; reflexivity|]. split; reflexivity. Qed.
Example C35_ex : linear_combination Zops 2%Z exT 1%Z [nth 1 exT (noentry Z)] = [([0; 0; 0], Blk [2; 1; 2] [2; 4; 6; 8]%Z); ([1; 0; 1], Blk [1; 1; 1] [15]%Z)].
Proof. reflexivity. Qed.
Example C37_ex : permute_data Zops exT ([1] ++ rev [0; 2]) = [([0; 0; 0], Blk [1; 2; 2] [1; 3; 2; 4]%Z); ([0; 1; 1], Blk [1; 1; 1] [5]%Z)] /\
  is_perm 3 ([1] ++ rev [0; 2]) /\ inner_data Zops (map nsec [legA; legB; legA]) exT exT true = Some 55%Z /\
  as_codomain_leg 2 [legA; legB; legA] 0 = as_domain_leg 2 [legA; legB; legA] 2 /\
  partial_trace Zops u1 [legA; legB] [legA] [(0, 2)] exT = Some [([0], Blk [1] [10]%Z)] /\
  trace_full_data Zops 1 [([0; 0], Blk [2; 2] [1; 2; 3; 4]%Z)] = 5%Z /\ length (outer_data Zops 2 exT exT) = 4.
Proof.
  split; [vm_compute; reflexivity|]. split; [apply NoDup_Permutation; [repeat constructor; cbn; lia|apply seq_NoDup|cbn; lia]|].
  split; [vm_compute; reflexivity|]. split; [reflexivity|]. split; [vm_compute; reflexivity|]. split; vm_compute; reflexivity.
Qed.
(** leg A stores public state 0 at internal position 1, and public state 1 (= -2) at internal position 0 *)
Example C39_ex : get_element Zops u1 [legA; legB; legA] exT [0; 0; -2]%Z = Some 3%Z /\ get_element Zops u1 [legA; legB; legA] exT [0; 0; 2]%Z = Some 0%Z /\ get_element Zops u1 [legA; legB; legA] exT [3; 0; 0]%Z = None /\ internal_position u1 legA (-2)%Z 0 /\ internal_position u1 legA 0%Z 1.
Proof. repeat split; try (vm_compute; reflexivity); cbn; lia. Qed.
