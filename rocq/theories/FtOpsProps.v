(** C58 (linear algebra on the matrices of the fusion tree backend) and C59 (its decompositions), for every symmetry that satisfies the laws of a fusion ring.
    [P], [Q], [M]: codomain and domain; [tp_ok]: built by the constructor of TensorProduct.  [ft_ok P Q A]: the data of a tensor from Q to P;
    [ft_entry o Q A c x y]: its entry x, y in the coupled sector c (zero if the matrix is not stored) (ConvertSpec.v).  [diag_ok], [diag_entry]: diagonal tensors;
    [qr_contract] etc.: what the block backend promises for the blocks of A (FtOpsSpec.v).  [block_size P c]: the number of states of P in the sector c (C31). *)
From Coq Require Import Reals.
From Verif Require Import Util StableSort RowModel RowProofs GridModel GridProofs SymModel SymProofs CatSpec Sums Cplx Tower StarMat StarCplx SpaceModel SpaceSpec SpaceProofs SpaceProofs2 SpaceProofs3 SpaceProofs7
  PipeModel PipeProofs PipeProofs2 PipeProofs4 TreeModel TreeProofs TensorModel TensorSpec FormalSum TensorProofs TensorProofs2 TensorProofs3 TensorProofs4 TensorProofs5 BlockModel BlockProofs SparseModel SparseSpec SparseProofs
  ConvertModel ConvertSpec ConvertProofs3 FtOpsModel FtOpsSpec FtOpsProofs FtOpsProofs2 FtOpsProofs3 FtOpsProofs4 FtOpsProofs5 FtOpsProofs6 FtOpsProofs7 FtOpsProofs8 FtOpsProofs9 FtOpsProofs10.
From Verif Require TensorProps Su2Props.
Open Scope nat_scope.

(** ** C58 *)
(** composition: the matrix product in every coupled sector *)
Theorem C58_compose : forall K (o : ops K) S P M Q (A B : list (nat * nat * blk K)), is_semiring o -> tsymm_ok S -> tp_ok S P -> tp_ok S M -> tp_ok S Q -> ft_ok P M A -> ft_ok M Q B ->
  ft_ok P Q (ft_compose o A B) /\
  forall c x y, x < block_size P c -> y < block_size Q c -> ft_entry o Q (ft_compose o A B) c x y = sumn o (block_size M c) (fun z => omul o (ft_entry o M A c x z) (ft_entry o Q B c z y)).
Proof. intros K o S P M Q A B SR OK HP HM HQ OA OB. split; [exact (compose_ok o OK HM HQ OA OB)|]. exact (compose_entry OK HP HM HQ OA OB SR). Qed.
Print Assumptions C58_compose.
Theorem C58_dagger : forall K (o : ops K) S P Q (A : list (nat * nat * blk K)), oconj o (o0 o) = o0 o -> tsymm_ok S -> tp_ok S P -> tp_ok S Q -> ft_ok P Q A ->
  ft_ok Q P (ft_dagger o A) /\ forall c x y, x < block_size P c -> y < block_size Q c -> ft_entry o P (ft_dagger o A) c y x = oconj o (ft_entry o Q A c x y).
Proof. intros K o S P Q A Z OK HP HQ OA. split; [exact (dagger_ok o OK HP HQ OA)|]. intros c x y. now apply (dagger_entry OK HP HQ OA). Qed.
Print Assumptions C58_dagger.
Theorem C58_mul : forall K (o : ops K) S P Q (A : list (nat * nat * blk K)) is_zero a, is_semiring o -> (is_zero a = true -> a = o0 o) -> tsymm_ok S -> tp_ok S P -> tp_ok S Q -> ft_ok P Q A ->
  ft_ok P Q (ft_mul o is_zero a A) /\ forall c x y, x < block_size P c -> y < block_size Q c -> ft_entry o Q (ft_mul o is_zero a A) c x y = omul o a (ft_entry o Q A c x y).
Proof. intros K o S P Q A iz a SR Z OK HP HQ OA. split; [exact (mul_ok o OA iz a)|]. intros c x y. now apply (mul_entry OK HP HQ OA). Qed.
Print Assumptions C58_mul.
Theorem C58_linear_combination : forall K (o : ops K) S P Q (V W : list (nat * nat * blk K)) a b, is_semiring o -> tsymm_ok S -> tp_ok S P -> tp_ok S Q -> ft_ok P Q V -> ft_ok P Q W ->
  ft_ok P Q (ft_lincomb o a V b W) /\
  forall c x y, x < block_size P c -> y < block_size Q c -> ft_entry o Q (ft_lincomb o a V b W) c x y = oadd o (omul o a (ft_entry o Q V c x y)) (omul o b (ft_entry o Q W c x y)).
Proof. intros K o S P Q V W a b SR OK HP HQ OV OW. split; [exact (lin_ok o OK HP HQ OV OW a b)|]. intros c x y. now apply (lin_entry OK HP HQ OV OW). Qed.
Print Assumptions C58_linear_combination.
Theorem C58_eye : forall K (o : ops K) S P, tsymm_ok S -> tp_ok S P ->
  ft_ok P P (ft_eye o P) /\ forall c x y, x < block_size P c -> y < block_size P c -> ft_entry o P (ft_eye o P) c x y = if x =? y then o1 o else o0 o.
Proof. intros K o S P OK HP. split; [now apply (eye_ok o (S := S))|]. intros c x y. now apply (eye_entry o OK). Qed.
Print Assumptions C58_eye.
(** from_sector_block_func: the block of the sector c is func([rows, columns], c), for every sector that occurs on both sides *)
Theorem C58_from_sector_block_func : forall K (o : ops K) S P Q func, tsymm_ok S -> tp_ok S P -> tp_ok S Q -> (forall m n c, is_matrix m n (func m n c)) ->
  ft_ok P Q (ft_from_func P Q func) /\ (forall e, In e (ft_from_func P Q func) -> exists c, c = nth (snd (fst e)) (tp_secs Q) [] /\ snd e = func (block_size P c) (block_size Q c) c) /\
  forall c x y, x < block_size P c -> y < block_size Q c -> ft_entry o Q (ft_from_func P Q func) c x y = bat o (func (block_size P c) (block_size Q c) c) [x; y].
Proof.
  intros K o S P Q func OK HP HQ FM. pose proof (@func_ok K S OK P Q HP HQ func FM) as FO. split; [exact FO|]. split.
  - intros e I. exists (nth (snd (fst e)) (tp_secs Q) []). split; [reflexivity|].
    pose proof (row_shape OK HP HQ FO I) as _. set (c := nth (snd (fst e)) (tp_secs Q) []).
    assert (G : ft_get Q (ft_from_func P Q func) c = Some (snd e)) by (apply (get_ok OK c (snd e) HQ FO); exists e; auto).
    destruct (fo_range FO I) as [R1 R2].
    assert (IQ : In c (tp_secs Q)) by (unfold c; now apply nth_In). assert (IP : In c (tp_secs P)) by (unfold c; rewrite <- (fo_sector FO I); now apply nth_In).
    apply (In_secs OK _ HP) in IP. apply (In_secs OK _ HQ) in IQ. rewrite (func_get OK HP HQ FM IP IQ) in G. now injection G.
  - intros c x y. now apply (func_entry o OK HP HQ).
Qed.
Print Assumptions C58_from_sector_block_func.
(** inner product: the sum over the coupled sectors, weighted with their quantum dimensions.  Here both tensors have dtypes that can hold the result *)
Theorem C58_inner : forall K (o : ops K) S P Q (A B : list (nat * nat * blk K)) qdim, is_semiring o -> oconj o (o0 o) = o0 o -> tsymm_ok S -> tp_ok S P -> tp_ok S Q -> ft_ok P Q A -> ft_ok P Q B ->
  ft_inner o (fun x => x) (map qdim (tp_secs P)) A B true =
  osum o (map (fun c => omul o (qdim c) (sumn o (block_size P c) (fun x => sumn o (block_size Q c) (fun y => omul o (oconj o (ft_entry o Q A c x y)) (ft_entry o Q B c x y))))) (tp_secs P)).
Proof. intros K o S P Q A B qdim SR Z OK HP HQ OA OB. now apply (inner_true SR OK HP HQ). Qed.
Print Assumptions C58_inner.
Theorem C58_inner_no_dagger : forall K (o : ops K) S P Q (A B : list (nat * nat * blk K)) qdim, is_semiring o -> tsymm_ok S -> tp_ok S P -> tp_ok S Q -> ft_ok P Q A -> ft_ok Q P B ->
  ft_inner o (fun x => x) (map qdim (tp_secs P)) A B false =
  osum o (map (fun c => omul o (qdim c) (sumn o (block_size P c) (fun x => sumn o (block_size Q c) (fun y => omul o (ft_entry o Q A c x y) (ft_entry o P B c y x))))) (tp_secs P)).
Proof. intros K o S P Q A B qdim SR OK HP HQ OA OB. now apply (inner_false SR OK HP HQ). Qed.
Print Assumptions C58_inner_no_dagger.
Theorem C58_trace : forall K (o : ops K) S P (A : list (nat * nat * blk K)) qdim, is_semiring o -> tsymm_ok S -> tp_ok S P -> ft_ok P P A ->
  ft_trace o (map qdim (tp_secs P)) A = osum o (map (fun c => omul o (qdim c) (sumn o (block_size P c) (fun x => ft_entry o P A c x x))) (tp_secs P)).
Proof. intros K o S P A qdim SR OK HP OA. now apply (trace_entry SR OK HP). Qed.
Print Assumptions C58_trace.
(** inner(A, B) is the trace of dagger(A) after B: the two functions of the API agree *)
Theorem C58_inner_is_trace : forall K (o : ops K) S P Q (A B : list (nat * nat * blk K)) qdim, is_semiring o -> oconj o (o0 o) = o0 o -> tsymm_ok S -> tp_ok S P -> tp_ok S Q -> ft_ok P Q A -> ft_ok P Q B ->
  ft_inner o (fun x => x) (map qdim (tp_secs P)) A B true = ft_trace o (map qdim (tp_secs Q)) (ft_compose o (ft_dagger o A) B).
Proof.
  intros K o S P Q A B qdim SR Z OK HP HQ OA OB. pose proof (dagger_ok o OK HP HQ OA) as OD.
  rewrite (C58_trace K o S Q _ qdim SR OK HQ (compose_ok o OK HP HQ OD OB)). rewrite (C58_inner K o S P Q A B qdim SR Z OK HP HQ OA OB).
  set (g := fun c => omul o (qdim c) (sumn o (block_size P c) (fun x => sumn o (block_size Q c) (fun y => omul o (oconj o (ft_entry o Q A c x y)) (ft_entry o Q B c x y))))).
  transitivity (osum o (map g (tp_secs Q))).
  - assert (ND : forall R, tp_ok S R -> NoDup (tp_secs R)) by (intros R HR; exact (secs_NoDup OK HR)).
    assert (GZ : forall c, block_size P c = 0 \/ block_size Q c = 0 -> g c = o0 o).
    { intros c [E|E]; unfold g; rewrite E; [cbn; apply (mul_0_r SR)|]. cbn. unfold sumn. rewrite (sum_zero SR) by reflexivity. apply (mul_0_r SR). }
    set (both := filter (fun c => 0 <? block_size P c) (tp_secs Q)).
    assert (E1 : osum o (map g (tp_secs Q)) = osum o (map g both)).
    { symmetry. apply (sum_incl SR (list_eq_dec Z.eq_dec)); [apply NoDup_filter; auto|auto|intros c I; now apply filter_In in I|]. intros c IQ NI. apply GZ. left. destruct (block_size P c) eqn:E; [reflexivity|].
      exfalso. apply NI. apply filter_In. split; [exact IQ|]. rewrite E. reflexivity. }
    rewrite E1. symmetry. apply (sum_incl SR (list_eq_dec Z.eq_dec)); [apply NoDup_filter; auto|auto| |].
    + intros c I. apply filter_In in I. destruct I as [_ I]. apply Nat.ltb_lt in I. now apply (In_secs OK _ HP).
    + intros c IP NI. apply GZ. right. destruct (block_size Q c) eqn:E; [reflexivity|]. exfalso. apply NI. apply filter_In. split; [apply (In_secs OK _ HQ); lia|]. apply Nat.ltb_lt. now apply (In_secs OK _ HP).
  - f_equal. apply map_ext_in. intros c Ic. unfold g. f_equal. unfold sumn. rewrite (sum_swap SR). apply sum_ext. intros y Hy. apply in_seq in Hy.
    rewrite (compose_entry OK HQ HP HQ OD OB SR) by lia. unfold sumn. apply sum_ext. intros x Hx. apply in_seq in Hx. rewrite (dagger_entry OK HP HQ OA) by (auto; lia). reflexivity.
Qed.
Print Assumptions C58_inner_is_trace.

(** norm: the number under the square root is inner(A, A); [nrm]: the Frobenius norm of a block *)
Theorem C58_norm : forall K (o : ops K) S P Q (A : list (nat * nat * blk K)) qdim nrm, is_semiring o -> oconj o (o0 o) = o0 o -> tsymm_ok S -> tp_ok S P -> tp_ok S Q -> ft_ok P Q A ->
  (forall B, omul o (nrm B) (nrm B) = binner o B B true) ->
  ft_norm_sq o nrm (map qdim (tp_secs P)) A = ft_inner o (fun x => x) (map qdim (tp_secs P)) A A true.
Proof.
  intros K o S P Q A qdim nrm SR Z OK HP HQ OA HN. rewrite (C58_inner K o S P Q A A qdim SR Z OK HP HQ OA OA). unfold ft_norm_sq. rewrite (fold_sum SR), (SRadd_0_l SR). apply (rows_sum SR OK HP HQ OA).
  - intros e I. destruct (fo_range OA I) as [R1 R2]. rewrite qdims_nth by exact R1. rewrite <- (SRmul_assoc SR), HN. f_equal.
    assert (GA : ft_get Q A (nth (fst (fst e)) (tp_secs P) []) = Some (snd e)) by (apply (get_ok OK _ _ HQ OA); exists e; split; [exact I|]; split; [symmetry; apply (fo_sector OA I)|reflexivity]).
    rewrite (inner_block SR _ (get_matrix OK HP HQ OA GA)). unfold sumn. apply sum_ext. intros x _. apply sum_ext. intros y _. now rewrite ft_entry_get, GA.
  - intros c _ N. replace (sumn o _ _) with (o0 o); [apply (mul_0_r SR)|]. symmetry. apply (sum_zero SR). intros x _. apply (sum_zero SR). intros y _. rewrite ft_entry_get, N. apply (mul_0_r SR).
Qed.
Print Assumptions C58_norm.
(** discarding small blocks: exactly the entries of the discarded blocks become zero *)
Theorem C58_discard : forall K (o : ops K) S P Q (A : list (nat * nat * blk K)) small, tsymm_ok S -> tp_ok S P -> tp_ok S Q -> ft_ok P Q A ->
  ft_ok P Q (ft_discard small A) /\ forall c, 0 < block_size P c -> 0 < block_size Q c ->
    (forall x y, ft_entry o Q (ft_discard small A) c x y = ft_entry o Q A c x y) \/
    (exists B, is_matrix (block_size P c) (block_size Q c) B /\ small B = true /\ forall x y, ft_entry o Q A c x y = bat o B [x; y] /\ ft_entry o Q (ft_discard small A) c x y = o0 o).
Proof.
  intros K o S P Q A small OK HP HQ OA. split; [exact (discard_ok OA small)|]. intros c Hp Hq. pose proof (discard_get OK HQ OA small c) as G.
  destruct (ft_get Q A c) as [B|] eqn:E.
  - pose proof (get_matrix OK HP HQ OA E) as MB. destruct (small B) eqn:SB; [right|left].
    + exists B. split; [exact MB|]. split; [exact SB|]. intros x y. rewrite !ft_entry_get, E, G. split; reflexivity.
    + intros x y. rewrite !ft_entry_get, E, G. reflexivity.
  - left. intros x y. rewrite !ft_entry_get, E, G. reflexivity.
Qed.
Print Assumptions C58_discard.

(** *** diagonal tensors *)
Theorem C58_diagonal_to_full : forall K (o : ops K) S P (D : list (nat * nat * blk K)), tsymm_ok S -> tp_ok S P -> diag_ok P D ->
  ft_ok P P (diag_to_full o D) /\ forall c x y, x < block_size P c -> y < block_size P c -> ft_entry o P (diag_to_full o D) c x y = if x =? y then diag_entry o P D c x else o0 o.
Proof. intros K o S P D OK HP OD. split; [now apply to_full_ok|]. intros c x y. now apply (to_full_entry o OK HP). Qed.
Print Assumptions C58_diagonal_to_full.
(** the conversion succeeds if all stored blocks pass the test, and then it reads off the diagonals; a diagonal tensor survives the round trip *)
Theorem C58_diagonal_from_full : forall K (o : ops K) S P (A : list (nat * nat * blk K)) ok, tsymm_ok S -> tp_ok S P -> ft_ok P P A ->
  (diag_from_full o ok A = None <-> exists e, In e A /\ ok (snd e) = false) /\
  forall D, diag_from_full o ok A = Some D -> diag_ok P D /\ forall c x, x < block_size P c -> diag_entry o P D c x = ft_entry o P A c x x.
Proof.
  intros K o S P A okf OK HP OA. split; [apply from_full_none|]. intros D E. split; [apply (from_full_some OK HP OA E)|]. intros c x. now apply (from_full_entry OK HP OA E).
Qed.
Print Assumptions C58_diagonal_from_full.
Theorem C58_diagonal_elementwise_unary : forall K (o : ops K) S P (A : list (nat * nat * blk K)) f maps_zero_to_zero, tsymm_ok S -> tp_ok S P -> diag_ok P A ->
  (maps_zero_to_zero = true -> f (o0 o) = o0 o) ->
  diag_ok P (diag_unary o f maps_zero_to_zero P A) /\ forall c x, x < block_size P c -> diag_entry o P (diag_unary o f maps_zero_to_zero P A) c x = f (diag_entry o P A c x).
Proof. intros. now apply (@diag_unary_spec K o S). Qed.
Print Assumptions C58_diagonal_elementwise_unary.
Theorem C58_diagonal_elementwise_binary : forall K (o : ops K) S P (A B : list (nat * nat * blk K)) f partial_zero_is_zero, tsymm_ok S -> tp_ok S P -> diag_ok P A -> diag_ok P B ->
  (partial_zero_is_zero = true -> forall x, f (o0 o) x = o0 o /\ f x (o0 o) = o0 o) ->
  diag_ok P (diag_binary o f partial_zero_is_zero P A B) /\
  forall c x, x < block_size P c -> diag_entry o P (diag_binary o f partial_zero_is_zero P A B) c x = f (diag_entry o P A c x) (diag_entry o P B c x).
Proof. intros. now apply (@diag_binary_spec K o S). Qed.
Print Assumptions C58_diagonal_elementwise_binary.
(** all and any, for boolean blocks; zero counts as false *)
Theorem C58_diagonal_all_any : forall K (o : ops K) S P (A : list (nat * nat * blk K)) test, tsymm_ok S -> tp_ok S P -> diag_ok P A -> test (o0 o) = false ->
  (diag_all test P A = true <-> forall c x, x < block_size P c -> test (diag_entry o P A c x) = true) /\
  (diag_any test A = true <-> exists c x, x < block_size P c /\ test (diag_entry o P A c x) = true).
Proof. intros K o S P A test OK HP OA Z. split; [now apply (diag_all_spec OK HP)|now apply (diag_any_spec OK HP)]. Qed.
Print Assumptions C58_diagonal_all_any.
Theorem C58_diagonal_trace : forall K (o : ops K) S P (A : list (nat * nat * blk K)) qdim, is_semiring o -> tsymm_ok S -> tp_ok S P -> diag_ok P A ->
  diag_trace o (map qdim (tp_secs P)) A = osum o (map (fun c => omul o (qdim c) (sumn o (block_size P c) (fun x => diag_entry o P A c x))) (tp_secs P)) /\
  diag_trace o (map qdim (tp_secs P)) A = ft_trace o (map qdim (tp_secs P)) (diag_to_full o A).
Proof.
  intros K o S P A qdim SR OK HP OA. assert (E := diag_trace_entry OK HP SR qdim OA). split; [exact E|]. rewrite E. rewrite (trace_entry SR OK HP qdim (to_full_ok o OA)).
  f_equal. apply map_ext. intros c. f_equal. unfold sumn. apply sum_ext. intros x Hx. apply in_seq in Hx. rewrite (to_full_entry o OK HP OA) by lia. now rewrite Nat.eqb_refl.
Qed.
Print Assumptions C58_diagonal_trace.
(** functions of a block (matrix exponential and logarithm): the function is applied to the matrix of every coupled sector, stored or not *)
Theorem C58_act_block_diagonal_square_matrix : forall K (o : ops K) S P f (A : list (nat * nat * blk K)), tsymm_ok S -> tp_ok S P -> ft_ok P P A -> (forall n B, is_matrix n n B -> is_matrix n n (f B)) ->
  ft_ok P P (act_square o f P A) /\
  forall c, 0 < block_size P c -> exists B, is_matrix (block_size P c) (block_size P c) B /\
    (forall x y, x < block_size P c -> y < block_size P c -> bat o B [x; y] = ft_entry o P A c x y) /\
    forall x y, x < block_size P c -> y < block_size P c -> ft_entry o P (act_square o f P A) c x y = bat o (f B) [x; y].
Proof. intros K o S P f A OK HP OA HF. exact (act_square_spec o OK HP OA HF). Qed.
Print Assumptions C58_act_block_diagonal_square_matrix.
(** scale_axis on the only leg of the domain or of the codomain: the product with the diagonal tensor on that side *)
Theorem C58_scale_axis_single : forall K (o : ops K) S P Q (A D : list (nat * nat * blk K)) (in_domain : bool), is_semiring o -> tsymm_ok S -> tp_ok S P -> tp_ok S Q -> ft_ok P Q A ->
  let L := if in_domain then Q else P in diag_ok L D ->
  ft_ok P Q (ft_scale_single o in_domain A D) /\
  forall c x y, x < block_size P c -> y < block_size Q c -> ft_entry o Q (ft_scale_single o in_domain A D) c x y = omul o (ft_entry o Q A c x y) (diag_entry o L D c (if in_domain then y else x)).
Proof. intros K o S P Q A D ind SR OK HP HQ OA L OD. split; [exact (scale_ok o OK HP HQ OA OD)|]. exact (scale_entry OK HP HQ OA SR OD). Qed.
Print Assumptions C58_scale_axis_single.

(** ** C59: the new leg is what helpers.cpp passes (from_largest_common_subspace of codomain and domain, with the duality the caller asks for) *)
(** what "the data A, B describe the same tensor" means *)
Definition same_tensor {K} (o : ops K) (P Q : tprod) (A B : list (nat * nat * blk K)) : Prop :=
  forall c x y, x < block_size P c -> y < block_size Q c -> ft_entry o Q A c x y = ft_entry o Q B c x y.

Lemma iso_dagger K (o : ops K) S P N q : is_semiring o -> oconj o (o0 o) = o0 o -> tsymm_ok S -> tp_ok S P -> tp_ok S N -> ft_ok P N q ->
  (forall c, iso_cols o (block_size P c) (block_size N c) (ft_entry o N q c)) -> same_tensor o N N (ft_compose o (ft_dagger o q) q) (ft_eye o N).
Proof.
  intros SR Z OK HP HN Oq I c z w Hz Hw. rewrite (eye_entry o OK HN Hz Hw). rewrite <- (I c z w Hz Hw).
  rewrite (compose_entry OK HN HP HN (dagger_ok o OK HP HN Oq) Oq SR Hz Hw). unfold sumn. apply sum_ext. intros x Hx. apply in_seq in Hx. rewrite (dagger_entry OK HP HN Oq) by (auto; lia). reflexivity.
Qed.
Lemma iso_dagger' K (o : ops K) S Q N q : is_semiring o -> oconj o (o0 o) = o0 o -> tsymm_ok S -> tp_ok S Q -> tp_ok S N -> ft_ok N Q q ->
  (forall c, iso_rows o (block_size N c) (block_size Q c) (ft_entry o Q q c)) -> same_tensor o N N (ft_compose o q (ft_dagger o q)) (ft_eye o N).
Proof.
  intros SR Z OK HQ HN Oq I c z w Hz Hw. rewrite (eye_entry o OK HN Hz Hw). rewrite <- (I c z w Hz Hw).
  rewrite (compose_entry OK HN HQ HN Oq (dagger_ok o OK HN HQ Oq) SR Hz Hw). unfold sumn. apply sum_ext. intros x Hx. apply in_seq in Hx. rewrite (dagger_entry OK HN HQ Oq) by (auto; lia). reflexivity.
Qed.
(** qr: A = Q R, dagger(Q) Q = eye *)
Theorem C59_qr : forall K (o : ops K) S P Q (A : list (nat * nat * blk K)) d matrix_qr, is_semiring o -> oconj o (o0 o) = o0 o -> oconj o (o1 o) = o1 o -> tsymm_ok S -> tp_ok S P -> tp_ok S Q -> ft_ok P Q A -> qr_contract o (map snd A) matrix_qr ->
  exists L N, from_largest_common_subspace S [tp_space P; tp_space Q] d = Some L /\ es_dual L = d /\ new_tprod S [LSpace L] = Some N /\ tp_ok S N /\
  forall q r, ft_qr o P Q N matrix_qr A = (q, r) ->
    ft_ok P N q /\ ft_ok N Q r /\ same_tensor o P Q (ft_compose o q r) A /\ same_tensor o N N (ft_compose o (ft_dagger o q) q) (ft_eye o N).
Proof.
  intros K o S P Q A d f SR Z0 Z1 OK HP HQ OA HF. destruct (new_leg_min OK d HP HQ) as (L & N & E1 & _ & E2 & E3 & HN & M). exists L, N. split; [exact E1|]. split; [exact E2|]. split; [exact E3|]. split; [exact HN|].
  intros q r E. destruct (qr_spec SR Z0 Z1 OK HP HQ HN M OA HF E) as (Oq & Or & I & R). split; [exact Oq|]. split; [exact Or|]. split.
  - intros c x y Hx Hy. rewrite (compose_entry OK HP HN HQ Oq Or SR Hx Hy). symmetry. now apply R.
  - now apply (iso_dagger K o S P N q).
Qed.
Print Assumptions C59_qr.
Theorem C59_lq : forall K (o : ops K) S P Q (A : list (nat * nat * blk K)) d matrix_lq, is_semiring o -> oconj o (o0 o) = o0 o -> oconj o (o1 o) = o1 o -> tsymm_ok S -> tp_ok S P -> tp_ok S Q -> ft_ok P Q A -> lq_contract o (map snd A) matrix_lq ->
  exists L N, from_largest_common_subspace S [tp_space P; tp_space Q] d = Some L /\ es_dual L = d /\ new_tprod S [LSpace L] = Some N /\ tp_ok S N /\
  forall l q, ft_lq o P Q N matrix_lq A = (l, q) ->
    ft_ok P N l /\ ft_ok N Q q /\ same_tensor o P Q (ft_compose o l q) A /\ same_tensor o N N (ft_compose o q (ft_dagger o q)) (ft_eye o N).
Proof.
  intros K o S P Q A d f SR Z0 Z1 OK HP HQ OA HF. destruct (new_leg_min OK d HP HQ) as (L & N & E1 & _ & E2 & E3 & HN & M). exists L, N. split; [exact E1|]. split; [exact E2|]. split; [exact E3|]. split; [exact HN|].
  intros l q E. destruct (lq_spec SR Z0 Z1 OK HP HQ HN M OA HF E) as (Ol & Oq & I & R). split; [exact Ol|]. split; [exact Oq|]. split.
  - intros c x y Hx Hy. rewrite (compose_entry OK HP HN HQ Ol Oq SR Hx Hy). symmetry. now apply R.
  - now apply (iso_dagger' K o S Q N q).
Qed.
Print Assumptions C59_lq.
(** svd: A = U S V with isometries U, V; [good]: what the block backend promises for singular values, e.g. to be real and non negative *)
Theorem C59_svd : forall K (o : ops K) S P Q (A : list (nat * nat * blk K)) d good matrix_svd, is_semiring o -> oconj o (o0 o) = o0 o -> oconj o (o1 o) = o1 o -> tsymm_ok S -> tp_ok S P -> tp_ok S Q -> ft_ok P Q A ->
  svd_contract o (map snd A) good matrix_svd -> good (o0 o) ->
  exists L N, from_largest_common_subspace S [tp_space P; tp_space Q] d = Some L /\ es_dual L = d /\ new_tprod S [LSpace L] = Some N /\ tp_ok S N /\
  forall u s v, ft_svd o P Q N matrix_svd A = (u, s, v) ->
    ft_ok P N u /\ diag_ok N s /\ ft_ok N Q v /\ same_tensor o P Q (ft_compose o (ft_scale_single o true u s) v) A /\
    same_tensor o P Q (ft_compose o (ft_compose o u (diag_to_full o s)) v) A /\
    same_tensor o N N (ft_compose o (ft_dagger o u) u) (ft_eye o N) /\ same_tensor o N N (ft_compose o v (ft_dagger o v)) (ft_eye o N) /\
    forall c z, z < block_size N c -> good (diag_entry o N s c z).
Proof.
  intros K o S P Q A d good f SR Z0 Z1 OK HP HQ OA HF G0. destruct (new_leg_min OK d HP HQ) as (L & N & E1 & _ & E2 & E3 & HN & M). exists L, N. split; [exact E1|]. split; [exact E2|]. split; [exact E3|]. split; [exact HN|].
  intros u s v E. destruct (svd_spec SR Z0 Z1 OK HP HQ HN M OA HF G0 E) as (Ou & Os & Ov & Iu & Iv & G & R). split; [exact Ou|]. split; [exact Os|]. split; [exact Ov|].
  assert (OD : diag_ok (if true then N else P) s) by exact Os. pose proof (@scale_ok K o S OK P N HP HN u s Ou true OD) as Osc. split; [|split; [|split; [|split; [|exact G]]]].
  - intros c x y Hx Hy. rewrite (compose_entry OK HP HN HQ Osc Ov SR Hx Hy), (R c x y Hx Hy). unfold sumn. apply sum_ext. intros z Hz. apply in_seq in Hz.
    rewrite (@scale_entry K o S OK P N HP HN u s Ou SR true OD) by lia. reflexivity.
  - pose proof (to_full_ok o Os) as Of. pose proof (compose_ok o OK HN HN Ou Of) as Oc.
    intros c x y Hx Hy. rewrite (compose_entry OK HP HN HQ Oc Ov SR Hx Hy), (R c x y Hx Hy). unfold sumn at 1 2. apply sum_ext. intros z Hz. apply in_seq in Hz. f_equal.
    rewrite (compose_entry OK HP HN HN Ou Of SR) by lia. transitivity (sumn o (block_size N c) (fun w => omul o (delta o w z) (omul o (ft_entry o N u c x w) (diag_entry o N s c w)))).
    + unfold sumn. apply sum_ext. intros w Hw. apply in_seq in Hw. rewrite (to_full_entry o OK HN Os) by lia. unfold delta. destruct (w =? z); [symmetry; apply (SRmul_1_l SR)|]. rewrite (mul_0_r SR). symmetry. apply (SRmul_0_l SR).
    + rewrite (sum_delta SR) by lia. reflexivity.
  - now apply (iso_dagger K o S P N u).
  - now apply (iso_dagger' K o S Q N v).
Qed.
Print Assumptions C59_svd.
(** eigh of a hermitian tensor: A = V W dagger(V), dagger(V) V = eye; the leg is that of as_ElementarySpace.  A symmetry that can be dropped has to have positive dimensions *)
Theorem C59_eigh : forall K (o : ops K) S P (A : list (nat * nat * blk K)) d good matrix_eigh, is_semiring o -> oconj o (o0 o) = o0 o -> oconj o (o1 o) = o1 o -> tsymm_ok S -> (s_drop S = true -> symm_ok S) -> tp_ok S P -> ft_ok P P A ->
  eigh_contract o (map snd A) good matrix_eigh -> good (o0 o) -> same_tensor o P P (ft_dagger o A) A ->
  exists N, es_dual (as_elementary S (tp_space P) d) = d /\ new_tprod S [LSpace (as_elementary S (tp_space P) d)] = Some N /\ tp_ok S N /\
  forall w v, ft_eigh o P matrix_eigh A = (w, v) ->
    diag_ok N w /\ ft_ok P N v /\ same_tensor o P P (ft_compose o (ft_scale_single o true v w) (ft_dagger o v)) A /\
    same_tensor o N N (ft_compose o (ft_dagger o v) v) (ft_eye o N) /\ forall c z, z < block_size N c -> good (diag_entry o N w c z).
Proof.
  intros K o S P A d good f SR Z0 Z1 OK SD HP OA HF G0 HA. destruct (new_leg_all OK d SD HP) as (N & _ & E2 & E3 & HN & M). exists N. split; [exact E2|]. split; [exact E3|]. split; [exact HN|].
  intros w v E. assert (HA' : forall c x y, x < block_size P c -> y < block_size P c -> ft_entry o P A c x y = oconj o (ft_entry o P A c y x)).
  { intros c x y Hx Hy. rewrite <- (HA c x y Hx Hy). now apply (dagger_entry OK HP HP OA). }
  destruct (eigh_spec SR Z0 Z1 OK HP HN M OA HF G0 HA' E) as (Ow & Ov & I & G & R). split; [exact Ow|]. split; [exact Ov|].
  assert (OD : diag_ok (if true then N else P) w) by exact Ow. pose proof (@scale_ok K o S OK P N HP HN v w Ov true OD) as Osc. split; [|split; [|exact G]].
  - intros c x y Hx Hy. rewrite (compose_entry OK HP HN HP Osc (dagger_ok o OK HP HN Ov) SR Hx Hy), (R c x y Hx Hy). unfold sumn. apply sum_ext. intros z Hz. apply in_seq in Hz.
    rewrite (@scale_entry K o S OK P N HP HN v w Ov SR true OD) by lia. rewrite (dagger_entry OK HP HN Ov) by (auto; lia). reflexivity.
  - now apply (iso_dagger K o S P N v).
Qed.
Print Assumptions C59_eigh.

(** ** two findings *)
(** FusionTreeBackend.inner rounds every term to the dtype of the first tensor: if that is real and the second tensor complex, the imaginary part is lost
    (np_real: numpy.cpp:338-348).  Numbers: Gaussian integers *)
Definition Gops : ops (Z * Z) := Ops (0, 0)%Z (1, 0)%Z (fun x y => (fst x + fst y, snd x + snd y)%Z) (fun x y => (fst x * fst y - snd x * snd y, fst x * snd y + snd x * fst y)%Z)
  (fun x => (- fst x, - snd x)%Z) (fun x => (fst x, - snd x)%Z).
Definition np_real (x : Z * Z) : Z * Z := (fst x, 0%Z).
Definition exQ : tprod := TP [LSpace TensorProps.su2A] [[0]; [1]]%Z [2; 3].
Definition exP : tprod := TP [LSpace TensorProps.su2A; LSpace TensorProps.su2B] [[0]; [1]; [2]; [3]]%Z [3; 8; 7; 6].
Lemma ex_spaces : tsymm_ok TensorProps.tsu2 /\ tp_ok TensorProps.tsu2 exP /\ tp_ok TensorProps.tsu2 exQ.
Proof.
  destruct TensorProps.C31_ex_legs as (L1 & L2 & _). split; [apply TensorProps.C31_ex_symmetries|]. split; split; try (vm_compute; reflexivity); repeat (constructor; try assumption).
Qed.
Ltac one_block := constructor; [repeat constructor| | | |]; intros e [ <- |[]]; cbn; (lia || reflexivity || (split; lia)).
Definition exR : list (nat * nat * blk (Z * Z)) := [((0, 0), Blk [2; 2] [(1, 0); (0, 0); (0, 0); (1, 0)]%Z)].
Definition exI : list (nat * nat * blk (Z * Z)) := [((0, 0), Blk [2; 2] [(3, 5); (0, 0); (0, 0); (0, 2)]%Z)].
Theorem C58_inner_refuted : exists S P (A B : list (nat * nat * blk (Z * Z))) qdim, tsymm_ok S /\ tp_ok S P /\ ft_ok P P A /\ ft_ok P P B /\
  (forall c x y, x < block_size P c -> y < block_size P c -> np_real (ft_entry Gops P A c x y) = ft_entry Gops P A c x y) /\
  ft_inner Gops np_real (map qdim (tp_secs P)) A B true = (3, 0)%Z /\
  osum Gops (map (fun c => omul Gops (qdim c) (sumn Gops (block_size P c) (fun x => sumn Gops (block_size P c) (fun y => omul Gops (oconj Gops (ft_entry Gops P A c x y)) (ft_entry Gops P B c x y))))) (tp_secs P)) = (3, 7)%Z.
Proof.
  destruct ex_spaces as (O & HP & HQ). exists TensorProps.tsu2, exQ, exR, exI, (fun c => (nth 0 c 0 + 1, 0)%Z). split; [exact O|]. split; [exact HQ|].
  split; [one_block|]. split; [one_block|]. split; [|split; vm_compute; reflexivity].
  intros c x y _ _. unfold ft_entry, exR, exQ. cbn [find fst snd tp_secs nth]. destruct (row_eqb [0%Z] c); [|reflexivity].
  unfold bat. match goal with |- np_real (nth ?k ?l ?d) = _ => destruct (nth_in_or_default k l d) as [J|J]; [|rewrite J; reflexivity]; revert J; generalize (nth k l d) end.
  intros z [ <- |[ <- |[ <- |[ <- |[]]]]]; reflexivity.
Qed.
Print Assumptions C58_inner_refuted.
(** scale_axis of a tensor with pipes: the position of the leg among the flat legs is computed by a loop whose bound grows while it runs.  Wrong position, or an error.
    [sizes]: the number of flat legs of each factor *)
Theorem C58_scale_axis_pipes_refuted : exists sizes idx, idx < length sizes /\ (forall n, In n sizes -> 0 < n) /\ flat_pos sizes idx = Some 4 /\ nsum (firstn idx sizes) = 3.
Proof. exists [3; 1; 2; 1; 1], 1. split; [cbn; lia|]. split; [intros n; cbn; lia|]. split; reflexivity. Qed.
Print Assumptions C58_scale_axis_pipes_refuted.
Theorem C58_scale_axis_pipes_error_refuted : exists sizes idx, idx < length sizes /\ (forall n, In n sizes -> 0 < n) /\ flat_pos sizes idx = None.
Proof. exists [3; 1], 1. split; [cbn; lia|]. split; [intros n; cbn; lia|]. reflexivity. Qed.
Print Assumptions C58_scale_axis_pipes_error_refuted.
(** it is right when there is no pipe before the leg *)
Theorem C58_scale_axis_position : forall sizes idx, idx < length sizes -> (forall i, i < idx -> nth i sizes 0 = 1) -> flat_pos sizes idx = Some (nsum (firstn idx sizes)).
Proof.
  intros sizes idx H H1. assert (EN : nsum (firstn idx sizes) = idx).
  { clear - H H1. revert sizes H H1. induction idx as [|idx IH]; intros [|n sizes] H H1; try reflexivity; cbn in H; [lia|]. cbn [firstn nsum fold_right].
    assert (n = 1) by exact (H1 0 ltac:(lia)). rewrite <- (IH sizes ltac:(lia) (fun i Hi => H1 (S i) ltac:(lia))) at 2. subst. unfold nsum. cbn. lia. }
  rewrite EN. unfold flat_pos. assert (G : forall fuel i, idx < fuel + i -> i <= idx -> flat_pos_loop fuel sizes i idx = Some idx).
  { induction fuel as [|fuel IH]; intros i F L; [lia|]. cbn [flat_pos_loop]. destruct (Nat.ltb_spec i idx) as [X|X]; [|reflexivity].
    rewrite (nth_error_nth' sizes 0) by lia. rewrite (H1 i X). replace (idx + 1 - 1) with idx by lia. apply IH; lia. }
  apply G; lia.
Qed.
Print Assumptions C58_scale_axis_position.

(** ** SU(2) examples: codomain su2A (x) su2B, domain su2A; one matrix stored *)
Definition exA : list (nat * nat * blk Z) := [((0, 0), Blk [3; 2] [0; 0; 2; 0; 0; -3]%Z)].
Definition exB : list (nat * nat * blk Z) := [((1, 1), Blk [3; 3] [1; 2; 3; 4; 5; 6; 7; 8; 9]%Z)].
Definition exH : list (nat * nat * blk Z) := [((0, 0), Blk [2; 2] [3; 0; 0; -1]%Z)].
Definition exD : list (nat * nat * blk Z) := [((1, 1), Blk [3] [4; 5; 6]%Z)].
Definition ex_qr (B : blk Z) : blk Z * blk Z := (Blk [3; 2] [0; 0; 1; 0; 0; -1]%Z, Blk [2; 2] [2; 0; 0; 3]%Z).
Definition ex_lq (B : blk Z) : blk Z * blk Z := (Blk [2; 2] [2; 0; 0; 3]%Z, Blk [2; 3] [0; 1; 0; 0; 0; -1]%Z).
Definition ex_svd (B : blk Z) : blk Z * blk Z * blk Z := (Blk [3; 2] [0; 0; 1; 0; 0; -1]%Z, Blk [2] [2; 3]%Z, Blk [2; 2] [1; 0; 0; 1]%Z).
Definition ex_eigh (B : blk Z) : blk Z * blk Z := (Blk [2] [-1; 3]%Z, Blk [2; 2] [0; 1; 1; 0]%Z).
Ltac cases z := destruct z as [|[|[|z]]]; try (exfalso; cbn in *; lia).
Ltac all_cases := intros x y Hx Hy; cases x; cases y; reflexivity.
Example C58_ex_data : ft_ok exP exQ exA /\ ft_ok exQ exQ exB /\ ft_ok exQ exQ exH /\ diag_ok exQ exD /\
  ft_compose Zops exB exB = [((1, 1), Blk [3; 3] [30; 36; 42; 66; 81; 96; 102; 126; 150]%Z)] /\ ft_compose Zops exA exB = [] /\
  ft_lincomb Zops 2%Z exB 5%Z exH = [((0, 0), Blk [2; 2] [15; 0; 0; -5]%Z); ((1, 1), Blk [3; 3] [2; 4; 6; 8; 10; 12; 14; 16; 18]%Z)] /\
  ft_dagger Zops exA = [((0, 0), Blk [2; 3] [0; 2; 0; 0; 0; -3]%Z)] /\
  ft_inner Zops (fun x => x) [1; 2]%Z exB exB true = 570%Z /\ ft_trace Zops [1; 2]%Z exB = 30%Z /\ diag_to_full Zops exD = [((1, 1), Blk [3; 3] [4; 0; 0; 0; 5; 0; 0; 0; 6]%Z)] /\
  ft_scale_single Zops true exB exD = [((1, 1), Blk [3; 3] [4; 10; 18; 16; 25; 36; 28; 40; 54]%Z)] /\
  diag_unary Zops (fun x => x + 1)%Z false exQ exD = [((0, 0), Blk [2] [1; 1]%Z); ((1, 1), Blk [3] [5; 6; 7]%Z)].
Proof. split; [one_block|]. split; [one_block|]. split; [one_block|]. split; [one_block|]. repeat split; vm_compute; reflexivity. Qed.
Example C59_ex_contracts : qr_contract Zops (map snd exA) ex_qr /\ lq_contract Zops (map snd (ft_dagger Zops exA)) ex_lq /\ svd_contract Zops (map snd exA) (fun z => 0 <= z)%Z ex_svd /\ eigh_contract Zops (map snd exH) (fun _ => True) ex_eigh /\
  ft_ok exQ exP (ft_dagger Zops exA) /\ same_tensor Zops exQ exQ (ft_dagger Zops exH) exH.
Proof.
  split; [|split; [|split; [|split; [|split]]]].
  - intros m n B q r [ <- |[]] [E _] [= <- <-]. injection E as <- <-. split; [split; reflexivity|]. split; [split; reflexivity|]. split.
    + all_cases.
    + all_cases.
  - intros m n B q r [ <- |[]] [E _] [= <- <-]. injection E as <- <-. split; [split; reflexivity|]. split; [split; reflexivity|]. split.
    + all_cases.
    + all_cases.
  - intros m n B u s v [ <- |[]] [E _] [= <- <- <-]. injection E as <- <-. split; [split; reflexivity|]. split; [split; reflexivity|]. split; [split; reflexivity|]. split; [|split; [|split]].
    + all_cases.
    + all_cases.
    + intros z Hz. cases z; vm_compute; discriminate.
    + all_cases.
  - intros n B w v [ <- |[]] [E _] _ [= <- <-]. injection E as <-. split; [split; reflexivity|]. split; [split; reflexivity|]. split; [|split; [exact (fun _ _ => I)|]].
    + all_cases.
    + all_cases.
  - destruct ex_spaces as (O & HP & HQ). destruct C58_ex_data as (D & _). exact (dagger_ok Zops O HP HQ D).
  - intros c x y Hx Hy. replace (ft_entry Zops exQ exH c x y) with (ft_entry Zops exQ (ft_dagger Zops exH) c x y); reflexivity.
Qed.
Example C59_ex_results : exists N, new_tprod TensorProps.tsu2 [LSpace (common_two TensorProps.tsu2 (tp_space exP) (tp_space exQ) true)] = Some N /\
  ft_qr Zops exP exQ N ex_qr exA = ([((0, 0), Blk [3; 2] [0; 0; 1; 0; 0; -1]%Z); ((1, 1), eye_cols Zops 8 3)], [((0, 0), Blk [2; 2] [2; 0; 0; 3]%Z)]) /\
  fst (ft_eigh Zops exQ ex_eigh exH) = [((0, 0), Blk [2] [-1; 3]%Z)] /\ snd (ft_eigh Zops exQ ex_eigh exH) = [((0, 0), Blk [2; 2] [0; 1; 1; 0]%Z); ((1, 1), beye Zops 3)].
Proof. eexists. split; [vm_compute; reflexivity|]. split; [vm_compute; reflexivity|]. split; vm_compute; reflexivity. Qed.
(** the symmetry of the eigh theorem: SU(2) has positive dimensions, the anyons cannot be dropped *)
Example C59_ex_dims : symm_ok TensorProps.tsu2 /\ s_drop TensorProps.tfib = false /\ tsymm_ok TensorProps.tfib.
Proof.
  split; [|split; [reflexivity|apply TensorProps.C31_ex_symmetries]]. destruct TensorProps.C31_ex_symmetries as (_ & T & _). pose proof (to_ring T) as R.
  constructor; [apply (fr_len R)|apply (fr_dual_valid R)|apply (fr_dual_invol R)| | |discriminate].
  - intros a V. apply (proj1 (proj2 Su2Props.C11_SU2_fusion_ring_and_dimensions) a V).
  - intros a V. reflexivity.
Qed.
