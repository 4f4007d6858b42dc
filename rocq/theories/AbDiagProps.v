(** C64: diagonal tensors of the abelian backend.
    [diagonal o S L W]: the list of all diagonal entries of the diagonal tensor with data [W] on the leg [L] (diagonal_tensor_to_block, in the order of the internal basis of the leg, AbDecModel.v).
    [diag_data_ok L W]: data of a diagonal tensor (AbDecSpec.v); only some sectors need to be stored.  [entry o S [L] [L] A [x; y]]: dense entries of a matrix (SparseSpec.v). *)
From Verif Require Import Util StableSort RowModel RowProofs GridModel GridProofs SymModel SymProofs CatSpec Sums SpaceModel SpaceSpec SpaceProofs SpaceProofs2
  PipeModel TreeModel TensorModel TensorSpec TensorProofs5 BlockModel BlockProofs SparseModel SparseSpec SparseProofs SparseDense2 FtOpsModel FtOpsSpec AbDecModel AbDecSpec AbDecProofs2 AbDiagModel AbDiagProofs AbDiagProofs2 AbDiagProofs3 AbDiagProofs4.
From Verif Require AbelianModel TensorProps AbDecProps AbelianProps.
Open Scope nat_scope.
Notation diagonal o S L W := (bdata (ab_diag_block S o L W)).

(** every leg has one entry per basis state *)
Theorem C64_dim : forall K (o : ops K) (S : tsymm) fuse L (A : list (list nat * blk K)), abelian_group_laws S fuse -> es_ok S L -> length (diagonal o S L A) = es_dim S L.
Proof. intros K o S fuse L A G OL. rewrite (dim_sum G OL). exact (vec_length o G OL A). Qed.
Print Assumptions C64_dim.
(** elementwise functions; with maps_zero_to_zero the caller promises f 0 = 0 *)
Theorem C64_unary : forall K (o : ops K) (S : tsymm) fuse L (A : list (list nat * blk K)) f maps_zero, abelian_group_laws S fuse -> es_ok S L -> diag_data_ok L A -> (maps_zero = true -> f (o0 o) = o0 o) ->
  diag_data_ok L (ab_unary o f maps_zero L A) /\ diagonal o S L (ab_unary o f maps_zero L A) = map f (diagonal o S L A).
Proof. intros K o S fuse L A f mz G OL OA HZ. exact (unary_ok G OL OA HZ). Qed.
Print Assumptions C64_unary.
(** elementwise binary functions, as all operators call it (partial_zero_is_zero = false, diagonal_tensor.cpp:453,459) *)
Theorem C64_binary : forall K (o : ops K) (S : tsymm) fuse L (A B : list (list nat * blk K)) f, abelian_group_laws S fuse -> es_ok S L -> diag_data_ok L A -> diag_data_ok L B ->
  diag_data_ok L (ab_binary o f false L A B) /\ diagonal o S L (ab_binary o f false L A B) = map (fun xy => f (fst xy) (snd xy)) (combine (diagonal o S L A) (diagonal o S L B)).
Proof. intros K o S fuse L A B f G OL OA OB. exact (binary_ok o G OL f OA OB). Qed.
Print Assumptions C64_binary.
(** from a vector *)
Theorem C64_from_block : forall K (o : ops K) (S : tsymm) fuse L (a : blk K), abelian_group_laws S fuse -> es_ok S L -> bshape a = [es_dim S L] -> length (bdata a) = es_dim S L ->
  diag_data_ok L (ab_diag_from_block o S L a) /\ diagonal o S L (ab_diag_from_block o S L a) = bdata a.
Proof. intros K o S fuse L a G OL SH LE. exact (from_block_ok o G OL SH LE). Qed.
Print Assumptions C64_from_block.
(** from a function of the multiplicity and the sector *)
Theorem C64_from_func : forall K (o : ops K) (S : tsymm) fuse L (func : nat -> sector -> blk K), abelian_group_laws S fuse -> es_ok S L -> (forall m c, bshape (func m c) = [m] /\ length (bdata (func m c)) = m) ->
  diag_data_ok L (ab_diag_from_func S func L) /\ diagonal o S L (ab_diag_from_func S func L) = concat (map (fun mc => bdata (func (fst mc) (snd mc))) (combine (es_mults L) (es_decomp S L))).
Proof. intros K o S fuse L func G OL FS. exact (from_func_ok o G OL FS). Qed.
Print Assumptions C64_from_func.
(** as a matrix *)
Theorem C64_full : forall K (o : ops K) (S : tsymm) fuse L (A : list (list nat * blk K)), abelian_group_laws S fuse -> es_ok S L -> diag_data_ok L A ->
  tensor_ok S [L] [L] (ab_diag_full o A) /\
  forall x y, x < es_dim S L -> y < es_dim S L -> entry o S [L] [L] (ab_diag_full o A) [x; y] = if x =? y then nth x (diagonal o S L A) (o0 o) else o0 o.
Proof. intros K o S fuse L A G OL OA. exact (full_ok o G OL OA). Qed.
Print Assumptions C64_full.
(** the diagonal of a matrix; [ok]: the test for entries off the diagonal *)
Theorem C64_from_full : forall K (o : ops K) (S : tsymm) fuse L (A W : list (list nat * blk K)) ok, abelian_group_laws S fuse -> es_ok S L -> tensor_ok S [L] [L] A -> ab_full_diag o ok A = Some W ->
  diag_data_ok L W /\ (forall x, x < es_dim S L -> nth x (diagonal o S L W) (o0 o) = entry o S [L] [L] A [x; x]) /\
  ((forall B m, bshape B = [m; m] -> ok B = true -> forall a c, a < m -> c < m -> a <> c -> bat o B [a; c] = o0 o) -> forall x y, x < es_dim S L -> y < es_dim S L -> x <> y -> entry o S [L] [L] A [x; y] = o0 o).
Proof.
  intros K o S fuse L A W ok G OL TA E. destruct (full_diag_ok G OL TA E) as (OW & _ & EN). split; [exact OW|]. split; [exact EN|]. intros HO x y Hx Hy NE. rewrite (full_diag_zero G OL TA HO E Hx Hy). now rewrite (proj2 (Nat.eqb_neq x y) NE).
Qed.
Print Assumptions C64_from_full.
(** it does not fail on a diagonal matrix *)
Theorem C64_full_round_trip : forall K (o : ops K) (S : tsymm) fuse L (A : list (list nat * blk K)) ok, abelian_group_laws S fuse -> es_ok S L -> diag_data_ok L A -> (forall B, ok (bdiag o B) = true) ->
  exists W, ab_full_diag o ok (ab_diag_full o A) = Some W /\ diag_data_ok L W /\ diagonal o S L W = diagonal o S L A.
Proof.
  intros K o S fuse L A ok G OL OA HO. destruct (full_ok o G OL OA) as [TF EF]. destruct (ab_full_diag o ok (ab_diag_full o A)) as [W|] eqn:E.
  - exists W. split; [reflexivity|]. destruct (full_diag_ok G OL TF E) as (OW & _ & EN). split; [exact OW|]. apply list_eq_nth with (d := o0 o).
    + exact (eq_trans (vec_length o G OL W) (eq_sym (vec_length o G OL A))).
    + intros x Hx. assert (Hx' : x < es_dim S L) by (rewrite (dim_sum G OL); rewrite <- (vec_length o G OL W); exact Hx). refine (eq_trans (EN x Hx') _). rewrite (EF x x Hx' Hx'), Nat.eqb_refl. reflexivity.
  - exfalso. unfold ab_full_diag in E. destruct (forallb _ _) eqn:F; [discriminate|]. assert (T : forallb (fun e : list nat * blk K => ok (snd e)) (ab_diag_full o A) = true); [|congruence].
    apply forallb_forall. intros e I. apply in_map_iff in I. destruct I as (e0 & <- & _). apply HO.
Qed.
Print Assumptions C64_full_round_trip.
(** trace *)
Theorem C64_trace : forall K (o : ops K) (S : tsymm) fuse L (A : list (list nat * blk K)), is_semiring o -> abelian_group_laws S fuse -> es_ok S L -> diag_data_ok L A -> ab_diag_trace o A = osum o (diagonal o S L A).
Proof. intros K o S fuse L A SR G OL OA. exact (trace_ok G OL SR OA). Qed.
Print Assumptions C64_trace.
(** reductions: func of the results for the vectors of the sectors, including the sectors that are not stored *)
Theorem C64_reduce : forall K (o : ops K) (S : tsymm) fuse L (A : list (list nat * blk K)) R (block_func : blk K -> R) (func : list R -> R), abelian_group_laws S fuse -> es_ok S L -> diag_data_ok L A ->
  exists parts, concat parts = diagonal o S L A /\ map (@length K) parts = es_mults L /\ ab_reduce o block_func func L A = func (map (fun p => block_func (Blk [length p] p)) parts).
Proof. intros K o S fuse L A R bf func G OL OA. exact (reduce_ok o G OL bf func OA). Qed.
Print Assumptions C64_reduce.
(** max and min: a reduction that may be done in groups gives the reduction of all entries *)
Theorem C64_reduce_all : forall K (o : ops K) (S : tsymm) fuse L (A : list (list nat * blk K)) (red : list K -> K), abelian_group_laws S fuse -> es_ok S L -> diag_data_ok L A ->
  (forall parts : list (list K), (forall p, In p parts -> p <> []) -> red (map red parts) = red (concat parts)) -> ab_reduce o (fun B => red (bdata B)) red L A = red (diagonal o S L A).
Proof.
  intros K o S fuse L A red G OL OA HR. destruct (reduce_ok o G OL (fun B => red (bdata B)) red OA) as (parts & EC & EM & E). rewrite E. cbn [bdata]. refine (eq_trans (HR parts _) (f_equal red EC)). intros p Ip ->. assert (X : In 0 (es_mults L)) by (rewrite <- EM; change 0 with (length (@nil K)); now apply in_map). apply (ok_pos OL) in X. lia.
Qed.
Print Assumptions C64_reduce_all.
(** all and any; [test 0 = false]: a zero entry is not true *)
Theorem C64_all : forall K (o : ops K) (S : tsymm) fuse L (A : list (list nat * blk K)) test, abelian_group_laws S fuse -> es_ok S L -> diag_data_ok L A -> test (o0 o) = false -> ab_all test L A = forallb test (diagonal o S L A).
Proof. intros K o S fuse L A test G OL OA T0. exact (all_test G OL OA T0). Qed.
Print Assumptions C64_all.
Theorem C64_any : forall K (o : ops K) (S : tsymm) fuse L (A : list (list nat * blk K)) test, abelian_group_laws S fuse -> es_ok S L -> diag_data_ok L A -> test (o0 o) = false -> ab_any test A = existsb test (diagonal o S L A).
Proof. intros K o S fuse L A test G OL OA T0. exact (any_test G OL OA T0). Qed.
Print Assumptions C64_any.
(** one entry by its public index [idx] (which may be negative); [internal_position S L idx j]: the basis permutation of the leg maps the internal index j to it *)
Theorem C64_get_element : forall K (o : ops K) (S : tsymm) fuse L (A : list (list nat * blk K)) idx j, abelian_group_laws S fuse -> s_drop S = true -> es_ok S L -> diag_data_ok L A ->
  internal_position S L idx j -> ab_get_diag o S L A idx = Some (nth j (diagonal o S L A) (o0 o)).
Proof. intros K o S fuse L A idx j G HD OL OA HP. exact (get_diag_ok o G OL HD OA HP). Qed.
Print Assumptions C64_get_element.
(** scale_axis: multiplying the leg number [leg] of a tensor with a diagonal tensor *)
Theorem C64_scale_axis : forall K (o : ops K) (S : tsymm) fuse cod dom leg L (A B : list (list nat * blk K)), is_semiring o -> abelian_group_laws S fuse -> tensor_ok S cod dom A ->
  nth_error (leg_order cod dom) leg = Some L -> diag_data_ok L B ->
  tensor_ok S cod dom (scale_axis o A B leg (length (leg_order cod dom))) /\
  forall g, dense_idx S (leg_order cod dom) g -> entry o S cod dom (scale_axis o A B leg (length (leg_order cod dom))) g = omul o (entry o S cod dom A g) (nth (nth leg g 0) (diagonal o S L B) (o0 o)).
Proof.
  intros K o S fuse cod dom leg L A B SR G TA EL OB. assert (HL : leg < length (leg_order cod dom)) by (apply nth_error_Some; congruence). exact (scale_axis_ok SR G HL EL TA OB).
Qed.
Print Assumptions C64_scale_axis.
(** functions of the square blocks (exp, log, ...) act on the square of every sector, also of those that are not stored, and the matrix stays block diagonal;
    [pos ms n a]: the position of the state a of the sector n *)
Theorem C64_act : forall K (o : ops K) (S : tsymm) fuse L (A : list (list nat * blk K)) f, abelian_group_laws S fuse -> es_ok S L -> tensor_ok S [L] [L] A ->
  (forall B m, bshape B = [m; m] -> length (bdata B) = prod (bshape B) -> bshape (f B) = [m; m] /\ length (bdata (f B)) = prod (bshape (f B))) ->
  tensor_ok S [L] [L] (ab_act o f L A) /\
  forall n k a c, n < nsec L -> k < nsec L -> a < nth n (es_mults L) 0 -> c < nth k (es_mults L) 0 ->
    let x := nsum (firstn n (es_mults L)) + a in let y := nsum (firstn k (es_mults L)) + c in
    entry o S [L] [L] (ab_act o f L A) [x; y] =
    if n =? k then bat o (f (bmk [nth n (es_mults L) 0; nth n (es_mults L) 0] (fun r => entry o S [L] [L] A [nsum (firstn n (es_mults L)) + nth 0 r 0; nsum (firstn n (es_mults L)) + nth 1 r 0]))) [a; c] else o0 o.
Proof. intros K o S fuse L A f G OL TA FS. exact (act_ok o G OL TA FS). Qed.
Print Assumptions C64_act.

(** ** partial_zero_is_zero = true (the caller promises f x 0 = f 0 y = 0): the loop loses blocks of the second tensor once it has met a sector that only the second has (abelian.cpp:1600-1622 leaves ib where it is) *)
Notation tu1 := TensorProps.tu1.
Notation exC := AbDecProps.exC.
Definition exX : list (list nat * blk Z) := [([1; 1], Blk [1] [3]%Z)].
Definition exY : list (list nat * blk Z) := [([0; 0], Blk [2] [1; 2]%Z); ([1; 1], Blk [1] [5]%Z)].
Example C64_ex_data : es_ok tu1 exC /\ diag_data_ok exC exX /\ diag_data_ok exC exY /\ diagonal Zops tu1 exC exX = [0; 0; 3]%Z /\ diagonal Zops tu1 exC exY = [1; 2; 5]%Z.
Proof.
  split; [exact (proj1 AbDecProps.C63_ex_legs)|]. split; [|split; [|split; vm_compute; reflexivity]].
  - constructor; [repeat constructor| |]; intros e [ <- |[]]; [exists 1; cbn; repeat split; lia|reflexivity].
  - constructor.
    + repeat constructor. exists 1. cbn. split; [lia|]. split; [lia|]. intros k' Hk. lia.
    + intros e [ <- |[ <- |[]]]; [exists 0|exists 1]; cbn; repeat split; lia.
    + intros e [ <- |[ <- |[]]]; reflexivity.
Qed.
Theorem C64_binary_partial_zero_refuted : exists (S : tsymm) fuse L (A B : list (list nat * blk Z)), abelian_group_laws S fuse /\ es_ok S L /\ diag_data_ok L A /\ diag_data_ok L B /\ (forall x, Z.mul x 0 = 0 /\ Z.mul 0 x = 0)%Z /\
  diagonal Zops S L (ab_binary Zops Z.mul true L A B) <> map (fun xy => Z.mul (fst xy) (snd xy)) (combine (diagonal Zops S L A) (diagonal Zops S L B)).
Proof.
  exists tu1, (fun a b => [AbelianModel.u1_fuse (AbelianModel.q0 a) (AbelianModel.q0 b)]), exC, exX, exY. split; [exact AbelianProps.C06_U1_group|]. destruct C64_ex_data as (OC & OX & OY & _). split; [exact OC|]. split; [exact OX|]. split; [exact OY|]. split; [intros x; lia|]. vm_compute. discriminate.
Qed.
Print Assumptions C64_binary_partial_zero_refuted.
(** it is right if every sector stored by the second tensor is stored by the first.  Missing: the other data, where the code is wrong. *)
Theorem C64_binary_partial_zero_partial : forall K (o : ops K) (S : tsymm) fuse L (A B : list (list nat * blk K)) f, abelian_group_laws S fuse -> es_ok S L -> diag_data_ok L A -> diag_data_ok L B ->
  (forall e, In e B -> In (fst e) (map fst A)) -> (forall x, f x (o0 o) = o0 o) ->
  diag_data_ok L (ab_binary o f true L A B) /\ diagonal o S L (ab_binary o f true L A B) = map (fun xy => f (fst xy) (snd xy)) (combine (diagonal o S L A) (diagonal o S L B)).
Proof. intros K o S fuse L A B f G OL OA OB SUB F0. exact (binary_true_ok G OL OA OB SUB F0). Qed.
Print Assumptions C64_binary_partial_zero_partial.

(** ** examples *)
Example C64_ex_group : abelian_group_laws tu1 (fun a b => [AbelianModel.u1_fuse (AbelianModel.q0 a) (AbelianModel.q0 b)]).
Proof. exact AbelianProps.C06_U1_group. Qed.
Example C64_ex : ab_binary Zops Z.add false exC exX exY = [([0; 0], Blk [2] [1; 2]%Z); ([1; 1], Blk [1] [8]%Z)] /\ ab_unary Zops (fun x => x + 1)%Z false exC exX = [([0; 0], Blk [2] [1; 1]%Z); ([1; 1], Blk [1] [4]%Z)] /\
  ab_diag_trace Zops exY = 8%Z /\ ab_all (fun x => negb (Z.eqb x 0)) exC exX = false /\ ab_all (fun x => negb (Z.eqb x 0)) exC exY = true /\ ab_any (fun x => negb (Z.eqb x 0)) exX = true /\
  ab_reduce Zops (fun B => fold_right Z.min 10 (bdata B))%Z (fold_right Z.min 10)%Z exC exX = 0%Z /\ ab_get_diag Zops tu1 exC exY (-1)%Z = Some 5%Z /\ internal_position tu1 exC (-1)%Z 2 /\
  ab_diag_from_block Zops tu1 exC (Blk [3] [1; 2; 5]%Z) = exY /\ ab_binary Zops Z.mul true exC exY exX = [([1; 1], Blk [1] [15]%Z)] /\ ab_binary Zops Z.mul true exC exX exY = [].
Proof. repeat split; try (vm_compute; reflexivity); cbn; lia. Qed.
(** a reduction with the law asked for in C64_reduce_all, on lists of numbers *)
Example C64_ex_reduction : forall parts : list (list Z), (forall p, In p parts -> p <> []) -> let red l := match l with [] => 0%Z | x :: l' => fold_left Z.max l' x end in red (map red parts) = red (concat parts).
Proof.
  intros parts NE red. assert (FM : forall l x y, fold_left Z.max l (Z.max x y) = Z.max x (fold_left Z.max l y)) by (induction l as [|z l IH]; intros x y; cbn; [reflexivity|]; rewrite <- Z.max_assoc; apply IH).
  assert (RA : forall l1 l2, l1 <> [] -> l2 <> [] -> red (l1 ++ l2) = Z.max (red l1) (red l2)).
  { intros [|x l1] [|y l2] N1 N2; try contradiction. cbn. rewrite fold_left_app. cbn. now rewrite FM. }
  assert (CE : forall ps : list (list Z), (forall p, In p ps -> p <> []) -> concat ps = [] -> ps = []) by (intros [|p ps] H E; [reflexivity|]; exfalso; apply (H p); [now left|]; cbn in E; now apply app_eq_nil in E).
  induction parts as [|p parts IH]; [reflexivity|]. assert (Hp : p <> []) by (apply NE; now left). assert (IH' : red (map red parts) = red (concat parts)) by (apply IH; intros q Iq; apply NE; now right). destruct parts as [|q parts]; [cbn [map concat]; rewrite app_nil_r; reflexivity|].
  change (concat (p :: q :: parts)) with (p ++ concat (q :: parts)). rewrite RA; [|exact Hp|intros E; apply CE in E; [discriminate|intros r Ir; apply NE; now right]]. rewrite <- IH'. change (map red (p :: q :: parts)) with ([red p] ++ map red (q :: parts)). rewrite RA; [reflexivity|discriminate|discriminate].
Qed.
(** scale_axis on the matrix of AbDecProps *)
Example C64_ex_scale : tensor_ok tu1 [exC] [AbDecProps.exD] AbDecProps.exA /\ nth_error (leg_order [exC] [AbDecProps.exD]) 0 = Some exC /\ scale_axis Zops AbDecProps.exA exY 0 2 = [([0; 1], Blk [2; 2] [0; 2; 6; 0]%Z)].
Proof. split; [exact (proj1 AbDecProps.C63_ex_tensors)|]. split; vm_compute; reflexivity. Qed.
