(** C54: masks of the abelian backend.
    A mask on the leg [L] is a vector of booleans with one entry per basis state of [L] (in the order of the internal basis); [mask_vector S L M] is the vector that mask_to_block returns for the projection with data [M].
    [mask_ok L N M]: the data [M] is that of a projection from [L] to the small leg [N] (MaskSpec.v).  [orient p M]: the data of the projection if p, of its adjoint (the inclusion of [N] into [L]) otherwise.
    [kept v]: the positions of [true] in v.  [entry o S cod dom T g]: dense entries (SparseSpec.v). *)
From Verif Require Import Util StableSort RowModel RowProofs GridModel GridProofs SymModel SymProofs CatSpec Sums SpaceModel SpaceSpec SpaceProofs SpaceProofs2 SpaceProofs3 SpaceProofs6
  PipeModel TreeModel TensorModel TensorSpec TensorProofs5 BlockModel BlockProofs SparseModel SparseSpec SparseProofs SparseDense2 FtOpsModel FtOpsSpec AbDecModel AbDecSpec AbDecProofs2 AbDiagModel AbDiagProofs AbDiagProofs2
  MaskModel MaskSpec MaskProofs MaskProofs2 MaskProofs3 MaskProofs4 MaskProofs5 MaskProofs6.
From Verif Require AbelianModel TensorProps AbDecProps AbelianProps AbDiagProps.
Open Scope nat_scope.
Notation diagonal o S L W := (bdata (ab_diag_block S o L W)).
Definition is_vector_of (n : nat) (a : blk bool) : Prop := bshape a = [n] /\ length (bdata a) = n.
Definition number_of_true (v : list bool) : nat := length (filter (fun x : bool => x) v).

Section Statements.
  Variable S : tsymm.
  Variable fuse : sector -> sector -> sector.
  Hypothesis G : abelian_group_laws S fuse.
  Variable L : espace.
  Hypothesis OL : es_ok S L.

  Lemma from_block_result (a : blk bool) : is_vector_of (es_dim S L) a -> mask_from_block S L a = mask_result S L (pushed (slices S L a) (seq 0 (nsec L))) /\ vector_of L (slices S L a) = bdata a.
  Proof.
    intros [SH LE]. split; [|exact (slices_vector G OL SH LE)]. rewrite (result_from_block G OL (slices_ok G OL a)), (slices_vector G OL SH LE). f_equal. destruct a as [s d]. cbn in *. now subst.
  Qed.
  Lemma fill_vector (F : nat -> bblk) N M : mask_ok L N M -> blocks_ok L F -> (forall n, n < nsec L -> F n = mfill L M n) -> vector_of L F = mask_vector S L M.
  Proof. intros OM FO E. rewrite (mask_vec G OL OM). unfold vector_of. f_equal. apply map_ext_in. intros n I. apply in_seq in I. now rewrite E by lia. Qed.
  Lemma mask_vector_length N M : mask_ok L N M -> length (mask_vector S L M) = es_dim S L.
  Proof. intros OM. rewrite (mask_vec G OL OM). exact (vector_length G OL (mfill_ok OM)). Qed.
End Statements.

Lemma leg_nth cod dom (d : bool) idx X : nth_error (if d then dom else cod) idx = Some X -> idx_ok cod dom d idx /\ nth_error (leg_order cod dom) (leg_of cod dom d idx) = Some X.
Proof.
  intros E. assert (HI : idx_ok cod dom d idx) by (unfold idx_ok; destruct d; apply nth_error_Some; congruence). split; [exact HI|]. unfold idx_ok in HI. unfold leg_order, leg_of. destruct d.
  - rewrite nth_error_app2 by lia. rewrite (nth_error_nth' (rev dom) X) by (rewrite rev_length; lia). f_equal. rewrite rev_nth by lia. replace (length dom - Datatypes.S (length cod + (length dom - 1 - idx) - length cod)) with idx by lia. now apply nth_error_nth.
  - now rewrite nth_error_app1 by exact HI.
Qed.
Lemma contract_legs_nth cod dom (d : bool) idx X Y : nth_error (if d then dom else cod) idx = Some X ->
  let (cod', dom') := mask_contract_legs cod dom d idx Y in nth_error (if d then dom' else cod') idx = Some Y /\ leg_of cod' dom' d idx = leg_of cod dom d idx /\ mask_contract_legs cod' dom' d idx X = (cod, dom) /\ length (leg_order cod' dom') = length (leg_order cod dom).
Proof.
  assert (U : forall l : list espace, nth_error l idx = Some X -> nth_error (upd l idx Y) idx = Some Y /\ upd (upd l idx Y) idx X = l).
  { intros l E. assert (H : idx < length l) by (apply nth_error_Some; congruence). split; [rewrite (nth_error_nth' _ X) by (now rewrite upd_length); f_equal; now apply nth_upd_eq|].
    apply list_eq_nth with (d := X); [now rewrite !upd_length|]. intros i Hi. rewrite !upd_length in Hi. destruct (Nat.eq_dec idx i) as [ <- |NE]; [rewrite nth_upd_eq by (now rewrite upd_length); symmetry; now apply nth_error_nth|rewrite !nth_upd_neq by auto; reflexivity]. }
  intros E. unfold mask_contract_legs, leg_of, leg_order. destruct d; destruct (U _ E) as [U1 U2]; rewrite ?U2, ?app_length, ?rev_length, ?upd_length; auto.
Qed.
Lemma upd_twice (l : list nat) i x y : i < length l -> upd (upd l i x) i y = upd l i y.
Proof. intros H. apply list_eq_nth with (d := 0); [now rewrite !upd_length|]. intros j Hj. rewrite !upd_length in Hj. destruct (Nat.eq_dec i j) as [ <- |NE]; [rewrite !nth_upd_eq by (rewrite ?upd_length; auto); reflexivity|rewrite !nth_upd_neq by auto; reflexivity]. Qed.
Lemma upd_same (l : list nat) i : upd l i (nth i l 0) = l.
Proof. apply list_eq_nth with (d := 0); [now rewrite !upd_length|]. intros j Hj. rewrite upd_length in Hj. destruct (Nat.eq_dec i j) as [ <- |NE]; [now rewrite nth_upd_eq|now rewrite nth_upd_neq by auto]. Qed.
(** the two composites in terms of entries *)
Lemma dense_upd S (legs : list espace) g i X c : dense_idx S legs g -> i < length legs -> c < es_dim S X -> dense_idx S (upd legs i X) (upd g i c).
Proof.
  unfold dense_idx. intros V Hi Hc. rewrite (upd_map (es_dim S)). now apply valid_upd.
Qed.

(** ** making masks *)
(** mask_from_block: the small leg is a valid leg with one state per [true], in the same orientation, and mask_to_block gives back the vector; nothing else is needed to be a mask *)
Theorem C54_from_block : forall (S : tsymm) fuse L (a : blk bool), abelian_group_laws S fuse -> es_ok S L -> is_vector_of (es_dim S L) a ->
  let (M, N) := mask_from_block S L a in
  mask_ok L N M /\ es_ok S N /\ mask_to_block S L true M = a /\ es_dim S N = number_of_true (bdata a) /\ es_dual N = es_dual L.
Proof.
  intros S fuse L a G OL HA. destruct (from_block_result S fuse G L OL a HA) as [E EV]. rewrite E. destruct (mask_result S L _) as [M N] eqn:ER.
  pose proof (res_mask S (slices_ok G OL a)) as RM. pose proof (res_vector G OL (slices_ok G OL a)) as RV. pose proof (res_dim_N G OL (slices S L a)) as RD. pose proof (res_ok G OL (slices_ok G OL a)) as RO. rewrite ER in RM, RV, RD, RO. cbn [fst snd] in *.
  split; [exact RM|]. split; [exact RO|]. split; [|split; [rewrite RD, EV; reflexivity|exact (mk_dual RM)]].
  rewrite EV in RV. unfold mask_vector in RV. destruct HA as [SH _].
  assert (SB : bshape (mask_to_block S L true M) = [es_dim S L]) by (unfold mask_to_block; apply (dense_shape Bops S L)).
  destruct (mask_to_block S L true M) as [s d]. destruct a as [s' d']. cbn in *. now subst.
Qed.
Print Assumptions C54_from_block.
(** the small leg is the leg that ElementarySpace.take_slice (C26) computes for the mask in the public order of the basis, with the same basis permutation *)
Theorem C54_small_leg_is_slice : forall (S : tsymm) fuse L (a : blk bool) public_mask, abelian_group_laws S fuse -> es_ok S L -> is_vector_of (es_dim S L) a -> s_drop S = true ->
  length public_mask = es_dim S L -> (forall i, i < es_dim S L -> nth i (bdata a) false = nth (nth i (basis_perm S L) 0) public_mask false) ->
  exists N', take_slice S L public_mask = Some N' /\ let N := snd (mask_from_block S L a) in es_def N = es_def N' /\ es_mults N = es_mults N' /\ es_dual N = es_dual N' /\ basis_perm S N = basis_perm S N'.
Proof.
  intros S fuse L a pm G OL HA HD LP EP. destruct (from_block_result S fuse G L OL a HA) as [E EV]. rewrite E. cbv zeta.
  refine (res_slice G OL (slices_ok G OL a) HD LP _). rewrite EV. symmetry. pose proof (is_perm_length (ok_bperm OL)) as LB.
  apply list_eq_nth with (d := false); [rewrite take_length; destruct HA as [_ ->]; congruence|]. intros i Hi. destruct HA as [_ LE]. rewrite LE in Hi. rewrite EP by exact Hi. rewrite nth_take; [reflexivity|]. congruence.
Qed.
Print Assumptions C54_small_leg_is_slice.
(** a mask is determined by its vector: the data and the sectors of the small leg are those that mask_from_block computes *)
Theorem C54_canonical : forall (S : tsymm) fuse L N M, abelian_group_laws S fuse -> es_ok S L -> es_ok S N -> mask_ok L N M ->
  let (M', N') := mask_from_block S L (mask_to_block S L true M) in M = M' /\ es_def N = es_def N' /\ es_mults N = es_mults N' /\ es_dual N = es_dual N'.
Proof.
  intros S fuse L N M G OL ON OM. pose proof (mfill_ok OM) as FO.
  assert (EB : mask_to_block S L true M = Blk [es_dim S L] (vector_of L (mfill L M))).
  { assert (SB : bshape (mask_to_block S L true M) = [es_dim S L]) by (unfold mask_to_block; apply (dense_shape Bops S L)).
    pose proof (fill_vector S fuse G L OL (mfill L M) N M OM FO (fun n _ => eq_refl)) as EV. unfold mask_vector in EV. rewrite EV. destruct (mask_to_block S L true M) as [s d]. cbn in *. now subst. }
  rewrite EB, <- (result_from_block G OL FO). unfold mask_result. destruct (mask_legs ON OM) as [E1 E2]. cbn [es_def es_mults es_dual]. split; [exact (mask_rows ON OM)|]. split; [exact E1|]. split; [exact E2|]. exact (mk_dual OM).
Qed.
Print Assumptions C54_canonical.
(** mask_to_block of an inclusion is the vector of the projection *)
Theorem C54_to_block : forall (S : tsymm) L N M p, mask_ok L N M -> mask_to_block S L p (orient p M) = mask_to_block S L true M.
Proof. intros S L N M p OM. exact (to_block_orient S OM p). Qed.
Print Assumptions C54_to_block.

(** ** the logic of masks *)
(** mask_binary_operand (and, or, xor, ==, ...) on two masks of the leg is the mask of the elementwise result *)
Theorem C54_binary : forall (S : tsymm) fuse L N1 N2 A B f, abelian_group_laws S fuse -> es_ok S L -> mask_ok L N1 A -> mask_ok L N2 B ->
  mask_binary S f L A B = mask_from_block S L (Blk [es_dim S L] (map (fun xy => f (fst xy) (snd xy)) (combine (mask_vector S L A) (mask_vector S L B)))).
Proof.
  intros S fuse L N1 N2 A B f G OL OA OB. unfold mask_binary. change (mask_binary_loop f (es_mults L) 0 A B) with (mask_binary_loop f (skipn 0 (es_mults L)) 0 A B).
  rewrite (binary_pushed f (n := nsec L) (i := 0) eq_refl (dd_from (mask_diag OA)) (dd_from (mask_diag OB))).
  assert (FO : blocks_ok L (fun k => bbinary f (mfill L A k) (mfill L B k))).
  { intros n Hn. destruct (mfill_ok OA Hn) as [SA LA]. destruct (mfill_ok OB Hn) as [SB LB]. exact (bbinary_ok f SA LA LB). }
  rewrite (result_from_block G OL FO). f_equal. f_equal. rewrite (mask_vec G OL OA), (mask_vec G OL OB). unfold vector_of.
  rewrite concat_map2 by (exact (eq_trans (segs_length (mfill_ok OA)) (eq_sym (segs_length (mfill_ok OB))))). f_equal. rewrite combine_map2, map_map. apply map_ext. intros n. reflexivity.
Qed.
Print Assumptions C54_binary.

(** mask_unary_operand (not) *)
Theorem C54_unary : forall (S : tsymm) fuse L N A f, abelian_group_laws S fuse -> es_ok S L -> mask_ok L N A ->
  mask_unary S f L A = mask_from_block S L (Blk [es_dim S L] (map f (mask_vector S L A))).
Proof.
  intros S fuse L N A f G OL OA. unfold mask_unary. change (mask_unary_loop f (es_mults L) 0 A) with (mask_unary_loop f (skipn 0 (es_mults L)) 0 A).
  rewrite (unary_pushed f (n := nsec L) (i := 0) eq_refl (dd_from (mask_diag OA))).
  assert (FO : blocks_ok L (fun k => bunary f (mfill L A k))).
  { intros n Hn. destruct (mfill_ok OA Hn) as [SA LA]. unfold bunary. cbn [bshape bdata]. rewrite map_length. auto. }
  rewrite (result_from_block G OL FO). f_equal. f_equal. rewrite (mask_vec G OL OA). unfold vector_of. rewrite concat_map, map_map. reflexivity.
Qed.
Print Assumptions C54_unary.
(** a diagonal tensor with boolean entries becomes the mask with its diagonal *)
Theorem C54_from_diagonal : forall (S : tsymm) fuse L A, abelian_group_laws S fuse -> es_ok S L -> diag_data_ok L A ->
  diagonal_to_mask S L A = mask_from_block S L (Blk [es_dim S L] (diagonal Bops S L A)).
Proof.
  intros S fuse L A G OL OA. unfold diagonal_to_mask. rewrite (to_mask_pushed OA).
  assert (FO : blocks_ok L (fun k => fills Bops [nth k (es_mults L) 0] A k)) by (intros n Hn; exact (fills_ok Bops OA Hn)).
  rewrite (result_from_block G OL FO). f_equal. f_equal. change (diagonal Bops S L A) with (vec_list Bops S L A). rewrite (vec_concat Bops G OL OA). unfold vector_of. f_equal. apply map_ext. intros n. apply fills_segm.
Qed.
Print Assumptions C54_from_diagonal.
(** and back, for projections and for inclusions; [to_dtype]: the number for a boolean *)
Theorem C54_to_diagonal : forall K (o : ops K) (S : tsymm) fuse L N M p to_dtype, abelian_group_laws S fuse -> es_ok S L -> mask_ok L N M -> to_dtype false = o0 o ->
  diag_data_ok L (mask_to_diagonal p to_dtype (orient p M)) /\ diagonal o S L (mask_to_diagonal p to_dtype (orient p M)) = map to_dtype (mask_vector S L M).
Proof. intros K o S fuse L N M p td G OL OM E. exact (to_diagonal_ok G OL OM p E). Qed.
Print Assumptions C54_to_diagonal.

(** ** masks as matrices *)
(** full_data_from_mask: the row of small state x has its one at the x-th kept state of the large leg *)
Theorem C54_full : forall K (o : ops K) (S : tsymm) fuse L N M, abelian_group_laws S fuse -> es_ok S L -> es_ok S N -> mask_ok L N M ->
  tensor_ok S [N] [L] (mask_full o M) /\
  forall x y, x < es_dim S N -> y < es_dim S L -> entry o S [N] [L] (mask_full o M) [x; y] = if nth x (kept (mask_vector S L M)) 0 =? y then o1 o else o0 o.
Proof. intros K o S fuse L N M G OL ON OM. exact (full_mask_ok o G OL ON OM). Qed.
Print Assumptions C54_full.
(** get_element_mask with public indices i of the small and j of the large leg, negative ones counted from the end; [internal_position]: the position in the internal basis (SparseDense2.v) *)
Theorem C54_get_element : forall (S : tsymm) fuse L N M p i j x y, abelian_group_laws S fuse -> es_ok S L -> es_ok S N -> mask_ok L N M -> s_drop S = true -> internal_position S N i x -> internal_position S L j y ->
  get_element_mask S p (if p then N else L) (if p then L else N) (orient p M) (if p then i else j) (if p then j else i) = Some (nth x (kept (mask_vector S L M)) 0 =? y).
Proof. intros S fuse L N M p i j x y G OL ON OM HD HX HY. exact (element_ok G OL ON OM p HD HX HY). Qed.
Print Assumptions C54_get_element.
(** the adjoint of the adjoint; the transpose of a projection is the inclusion between the dual legs *)
Theorem C54_dagger : forall M p, mask_dagger (orient p M) = orient (negb p) M.
Proof. intros M p. apply dagger_orient. Qed.
Print Assumptions C54_dagger.
Theorem C54_transpose : forall L N M p, mask_ok L N M -> mask_transpose (orient p M) = orient (negb p) M /\ mask_ok (dual_es L) (dual_es N) M.
Proof. intros L N M p OM. split; [exact (transpose_orient OM p)|exact (dual_mask OM)]. Qed.
Print Assumptions C54_transpose.

(** ** masks act on tensors *)
(** leg number [idx] of the codomain (or of the domain) is [L]; contracted with the large leg of the mask.  [leg_of]: position among all legs. *)
Theorem C54_contract_large : forall K (o : ops K) (S : tsymm) fuse L N M cod dom in_domain idx T, abelian_group_laws S fuse -> es_ok S L -> es_ok S N -> mask_ok L N M -> tensor_ok S cod dom T ->
  nth_error (if in_domain : bool then dom else cod) idx = Some L ->
  let leg := leg_of cod dom in_domain idx in let legs := leg_order cod dom in
  let R := mask_contract o true in_domain (length legs) leg T (orient (negb in_domain) M) in
  let (cod', dom') := mask_contract_legs cod dom in_domain idx N in
  tensor_ok S cod' dom' R /\
  forall g, dense_idx S (leg_order cod' dom') g -> entry o S cod' dom' R g = entry o S cod dom T (upd g leg (nth (nth leg g 0) (kept (mask_vector S L M)) 0)).
Proof.
  intros K o S fuse L N M cod dom d idx T G OL ON OM TT E. cbv zeta. destruct (leg_nth _ _ _ _ _ E) as [HI EL].
  pose proof (large_ok o G OL ON OM HI TT EL) as H. pose proof (replaced_legs N HI) as RL. destruct (mask_contract_legs cod dom d idx N) as [c' d']. cbn [fst snd] in *. now rewrite RL.
Qed.
Print Assumptions C54_contract_large.
(** contracted with the small leg: the leg is enlarged, the new states get zeros *)
Theorem C54_contract_small : forall K (o : ops K) (S : tsymm) fuse L N M cod dom in_domain idx T, abelian_group_laws S fuse -> es_ok S L -> es_ok S N -> mask_ok L N M -> tensor_ok S cod dom T ->
  nth_error (if in_domain : bool then dom else cod) idx = Some N ->
  let leg := leg_of cod dom in_domain idx in let legs := leg_order cod dom in let v := mask_vector S L M in
  let R := mask_contract o false in_domain (length legs) leg T (orient in_domain M) in
  let (cod', dom') := mask_contract_legs cod dom in_domain idx L in
  tensor_ok S cod' dom' R /\
  forall g, dense_idx S (leg_order cod' dom') g -> entry o S cod' dom' R g = if nth (nth leg g 0) v false then entry o S cod dom T (upd g leg (number_of_true (firstn (nth leg g 0) v))) else o0 o.
Proof.
  intros K o S fuse L N M cod dom d idx T G OL ON OM TT E. cbv zeta. destruct (leg_nth _ _ _ _ _ E) as [HI EL].
  pose proof (small_ok o G OL ON OM HI TT EL) as H. pose proof (replaced_legs L HI) as RL. destruct (mask_contract_legs cod dom d idx L) as [c' d']. cbn [fst snd] in *. now rewrite RL.
Qed.
Print Assumptions C54_contract_small.

(** enlarging a leg and then applying the same mask gives back the tensor *)
Theorem C54_enlarge_then_apply : forall K (o : ops K) (S : tsymm) fuse L N M cod dom in_domain idx T, abelian_group_laws S fuse -> es_ok S L -> es_ok S N -> mask_ok L N M -> tensor_ok S cod dom T ->
  nth_error (if in_domain : bool then dom else cod) idx = Some N ->
  let leg := leg_of cod dom in_domain idx in let n := length (leg_order cod dom) in
  let R := mask_contract o true in_domain n leg (mask_contract o false in_domain n leg T (orient in_domain M)) (orient (negb in_domain) M) in
  tensor_ok S cod dom R /\ forall g, dense_idx S (leg_order cod dom) g -> entry o S cod dom R g = entry o S cod dom T g.
Proof.
  intros K o S fuse L N M cod dom d idx T G OL ON OM TT E. cbv zeta. pose proof (C54_contract_small K o S fuse L N M cod dom d idx T G OL ON OM TT E) as H1. cbv zeta in H1.
  pose proof (contract_legs_nth cod dom d idx N L E) as H2. destruct (leg_nth _ _ _ _ _ E) as [HI EL]. pose proof (replaced_legs L HI) as RL. destruct (mask_contract_legs cod dom d idx L) as [c' d'] eqn:EM. cbn [fst snd] in RL. destruct H2 as (E2 & Eleg & Eback & Elen). destruct H1 as [T1 V1].
  set (R1 := mask_contract o false d (length (leg_order cod dom)) (leg_of cod dom d idx) T (orient d M)) in *. pose proof (C54_contract_large K o S fuse L N M c' d' d idx R1 G OL ON OM T1 E2) as H3. cbv zeta in H3. rewrite Eback, Elen, Eleg in H3. destruct H3 as [T2 V2]. split; [exact T2|].
  intros g Hg. rewrite V2 by exact Hg. set (leg := leg_of cod dom d idx) in *. set (v := mask_vector S L M) in *. assert (HL : leg < length (leg_order cod dom)) by (now apply leg_of_lt).
  assert (LG : length g = length (leg_order cod dom)) by (rewrite (valid_length Hg), map_length; reflexivity).
  assert (Hx : nth leg g 0 < trues v).
  { assert (W : nth leg g 0 < es_dim S N).
    { pose proof (proj1 (valid_nth _ _) Hg) as [_ VN]. specialize (VN leg). rewrite map_length in VN. specialize (VN HL). rewrite nth_map_lt with (d := N) in VN by exact HL. now rewrite (nth_error_nth _ _ N EL) in VN. }
    rewrite (dim_sum G ON) in W. unfold v. now rewrite (mask_trues G OL ON OM). }
  assert (Hk : nth (nth leg g 0) (kept v) 0 < es_dim S L).
  { unfold v. rewrite <- (mask_vector_length S fuse G L OL N M OM). apply kept_lt. exact Hx. }
  rewrite V1 by (rewrite RL; now apply dense_upd). rewrite nth_upd_eq by (rewrite LG; exact HL). rewrite kept_nth by exact Hx. rewrite upd_twice by (rewrite LG; exact HL). unfold number_of_true. fold (trues (firstn (nth (nth leg g 0) (kept v) 0) v)). rewrite kept_before_nth by exact Hx. now rewrite upd_same.
Qed.
Print Assumptions C54_enlarge_then_apply.
(** applying the mask and then enlarging with it sets the states that are not kept to zero and changes nothing else *)
Theorem C54_apply_then_enlarge : forall K (o : ops K) (S : tsymm) fuse L N M cod dom in_domain idx T, abelian_group_laws S fuse -> es_ok S L -> es_ok S N -> mask_ok L N M -> tensor_ok S cod dom T ->
  nth_error (if in_domain : bool then dom else cod) idx = Some L ->
  let leg := leg_of cod dom in_domain idx in let n := length (leg_order cod dom) in
  let R := mask_contract o false in_domain n leg (mask_contract o true in_domain n leg T (orient (negb in_domain) M)) (orient in_domain M) in
  tensor_ok S cod dom R /\ forall g, dense_idx S (leg_order cod dom) g -> entry o S cod dom R g = if nth (nth leg g 0) (mask_vector S L M) false then entry o S cod dom T g else o0 o.
Proof.
  intros K o S fuse L N M cod dom d idx T G OL ON OM TT E. cbv zeta. pose proof (C54_contract_large K o S fuse L N M cod dom d idx T G OL ON OM TT E) as H1. cbv zeta in H1.
  pose proof (contract_legs_nth cod dom d idx L N E) as H2. destruct (leg_nth _ _ _ _ _ E) as [HI EL]. pose proof (replaced_legs N HI) as RL. destruct (mask_contract_legs cod dom d idx N) as [c' d'] eqn:EM. cbn [fst snd] in RL. destruct H2 as (E2 & Eleg & Eback & Elen). destruct H1 as [T1 V1].
  set (R1 := mask_contract o true d (length (leg_order cod dom)) (leg_of cod dom d idx) T (orient (negb d) M)) in *. pose proof (C54_contract_small K o S fuse L N M c' d' d idx R1 G OL ON OM T1 E2) as H3. cbv zeta in H3. rewrite Eback, Elen, Eleg in H3. destruct H3 as [T2 V2]. split; [exact T2|].
  intros g Hg. rewrite V2 by exact Hg. set (leg := leg_of cod dom d idx) in *. set (v := mask_vector S L M) in *. assert (HL : leg < length (leg_order cod dom)) by (now apply leg_of_lt).
  assert (LG : length g = length (leg_order cod dom)) by (rewrite (valid_length Hg), map_length; reflexivity).
  destruct (nth (nth leg g 0) v false) eqn:EV; [|reflexivity]. unfold number_of_true. fold (trues (firstn (nth leg g 0) v)). destruct (kept_before EV) as [K1 K2].
  rewrite V1.
  - rewrite nth_upd_eq by (rewrite LG; exact HL). rewrite K2, upd_twice by (rewrite LG; exact HL). now rewrite upd_same.
  - rewrite RL. apply dense_upd; [exact Hg|exact HL|]. rewrite (dim_sum G ON). rewrite <- (mask_trues G OL ON OM). exact K1.
Qed.
Print Assumptions C54_apply_then_enlarge.
(** apply_mask_to_diagonal: the diagonal of the result is the diagonal at the kept states *)
Theorem C54_apply_diagonal : forall K (o : ops K) (S : tsymm) fuse L N M (W : list (list nat * blk K)), abelian_group_laws S fuse -> es_ok S L -> es_ok S N -> mask_ok L N M -> diag_data_ok L W ->
  diag_data_ok N (apply_mask_diagonal o W M) /\ diagonal o S N (apply_mask_diagonal o W M) = map (fun i => nth i (diagonal o S L W) (o0 o)) (kept (mask_vector S L M)).
Proof.
  intros K o S fuse L N M W G OL ON OM OW. destruct (apply_diag_ok o G OL ON OM OW) as [A B]. split; [exact A|]. change (vec_list o S N (apply_mask_diagonal o W M) = map (fun i => nth i (vec_list o S L W) (o0 o)) (kept (mask_vector S L M))). rewrite B, kept_take.
  assert (LV : length (vec_list o S L W) = length (mask_vector S L M)) by (rewrite (mask_vector_length S fuse G L OL N M OM), (dim_sum G OL); exact (vec_length o G OL W)). revert LV. generalize (mask_vector S L M). generalize (vec_list o S L W). clear. intros l. 
  assert (X : forall (l : list K) m i (f : nat -> K), length l = length m -> (forall j, j < length l -> nth j l (o0 o) = f (i + j)) -> take_mask l m = map f (take_mask (seq i (length m)) m)).
  { induction l0 as [|x l' IH]; intros [|b m] i f LE H; try discriminate; [reflexivity|]. cbn in LE. injection LE as LE. assert (IH' : take_mask l' m = map f (take_mask (seq (Datatypes.S i) (length m)) m)) by (apply IH; [exact LE|]; intros j Hj; specialize (H (Datatypes.S j)); cbn in H; rewrite H by lia; f_equal; lia).
    assert (H0 : x = f i) by (specialize (H 0); cbn in H; rewrite H by lia; f_equal; lia). destruct b; cbn; rewrite <- IH'; [now rewrite <- H0|reflexivity]. }
  intros m LE. apply X; [exact LE|]. intros j _. reflexivity.
Qed.
Print Assumptions C54_apply_diagonal.

(** ** examples: the leg of charges 0 (twice) and 1; the second state of charge 0 is kept *)
Notation tu1 := TensorProps.tu1.
Notation exC := AbDecProps.exC.
Definition ex_vec : blk bool := Blk [3] [false; true; false].
Definition ex_mask := mask_from_block tu1 exC ex_vec.
Example C54_ex_vector : is_vector_of (es_dim tu1 exC) ex_vec /\ s_drop tu1 = true /\ ex_mask = ([([0; 0], Blk [2] [false; true])], ES [[0%Z]] [1] false None).
Proof. repeat split. Qed.
Example C54_ex_mask : abelian_group_laws tu1 (fun a b => [AbelianModel.u1_fuse (AbelianModel.q0 a) (AbelianModel.q0 b)]) /\ es_ok tu1 exC /\ es_ok tu1 (snd ex_mask) /\ mask_ok exC (snd ex_mask) (fst ex_mask) /\ mask_vector tu1 exC (fst ex_mask) = [false; true; false].
Proof.
  split; [exact AbelianProps.C06_U1_group|]. split; [exact (proj1 AbDecProps.C63_ex_legs)|].
  pose proof (C54_from_block tu1 _ exC ex_vec AbelianProps.C06_U1_group (proj1 AbDecProps.C63_ex_legs) (proj1 C54_ex_vector)) as H. fold ex_mask in H. destruct ex_mask as [M N]. destruct H as (A & B & C & _). split; [exact B|]. split; [exact A|]. unfold mask_vector. cbn [fst]. now rewrite C.
Qed.
(** with a basis permutation; the public order of the mask is true, true, false *)
Definition exP : espace := ES [[0]; [1]]%Z [2; 1] false (Some [2; 0; 1]).
Example C54_ex_perm : mask_from_block tu1 exP (Blk [3] [false; true; true]) = ([([0; 0], Blk [2] [false; true]); ([1; 1], Blk [1] [true])], ES [[0%Z]; [1%Z]] [1; 1] false (Some [0; 1])) /\
  take_slice tu1 exP [true; true; false] = Some (ES [[0%Z]; [1%Z]] [1; 1] false (Some [0; 1])).
Proof. split; vm_compute; reflexivity. Qed.
Example C54_ex_logic : mask_unary tu1 negb exC (fst ex_mask) = mask_from_block tu1 exC (Blk [3] [true; false; true]) /\
  mask_binary tu1 xorb exC (fst ex_mask) (fst ex_mask) = ([], ES [] [] false None) /\ diagonal_to_mask tu1 exC [([1; 1], Blk [1] [true])] = ([([0; 1], Blk [1] [true])], ES [[1%Z]] [1] false None) /\
  mask_to_diagonal false (fun b : bool => if b then 1%Z else 0%Z) (orient false (fst ex_mask)) = [([0; 0], Blk [2] [0; 1]%Z)].
Proof. repeat split; vm_compute; reflexivity. Qed.
(** on the matrix of AbDecProps *)
Example C54_ex_contract : tensor_ok tu1 [exC] [AbDecProps.exD] AbDecProps.exA /\ nth_error [exC] 0 = Some exC /\
  mask_contract Zops true false 2 0 AbDecProps.exA (fst ex_mask) = [([0; 1], Blk [1; 2] [3; 0]%Z)] /\
  mask_contract Zops false false 2 0 [([0; 1], Blk [1; 2] [3; 0]%Z)] (orient false (fst ex_mask)) = [([0; 1], Blk [2; 2] [0; 0; 3; 0]%Z)].
Proof. split; [exact (proj1 AbDecProps.C63_ex_tensors)|]. split; [reflexivity|]. split; vm_compute; reflexivity. Qed.
Example C54_ex_apply : diag_data_ok exC AbDiagProps.exY /\ apply_mask_diagonal Zops AbDiagProps.exY (fst ex_mask) = [([0; 0], Blk [1] [2]%Z)] /\
  get_element_mask tu1 true (snd ex_mask) exC (fst ex_mask) 0 1 = Some true /\ get_element_mask tu1 true (snd ex_mask) exC (fst ex_mask) 0 (-1) = Some false /\ internal_position tu1 exC (-1) 2.
Proof. split; [exact (proj1 (proj2 (proj2 AbDiagProps.C64_ex_data)))|]. repeat split; try (vm_compute; reflexivity); cbn; lia. Qed.
