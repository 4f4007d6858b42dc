(** C50: linear operators, projected operators, direct sums, Gram-Schmidt. *)
From Coq Require Import Reals Lra List Arith Lia.
From Verif Require Import Cplx Hilbert LinOpModel LinOpSpec LinOpProofs LinOpMat.
Import ListNotations.
Open Scope nat_scope.

(** Every operator built from linear user-defined operators acts linearly, whatever the vectors of the projected operators. *)
Theorem C50_linear : forall V T (h : hspace V) (to : tensor_ops V T), hlaws h -> tensor_laws h to ->
  forall A, all_custom (fun f _ => linear h f) A -> linear h (matvec h to A).
Proof. intros. now apply matvec_linear. Qed.
Print Assumptions C50_linear.

(** If to_tensor returns a tensor, contracting it with v gives matvec(v); to_tensor raises exactly for trees containing projected or user-defined operators. *)
Theorem C50_to_tensor : forall V T (h : hspace V) (to : tensor_ops V T), hlaws h -> tensor_laws h to ->
  forall A, all_custom (fun _ _ => True) A ->
  (forall t, to_tensor to A = Some t -> forall v, t_dot to 1 t v = matvec h to A v) /\ ((exists t, to_tensor to A = Some t) <-> has_tensor A).
Proof. intros V T h to L TL A HA. split; [now apply to_tensor_correct|apply to_tensor_defined]. Qed.
Print Assumptions C50_to_tensor.

(** What the composite operators do. *)
Theorem C50_sum_and_shift : forall V T (h : hspace V) (to : tensor_ops V T), hlaws h ->
  (forall A more v, matvec h to (OSum A more) v = sum_ops h (map (matvec h to) (A :: more)) v) /\
  (forall A s v, matvec h to (OShift A s) v = hadd h (matvec h to A v) (hscale h s v)).
Proof.
  intros V T h to L. split.
  - intros. cbn [matvec]. rewrite (fold_sum _ L). reflexivity.
  - intros. cbn [matvec]. unfold axpy. apply (hl_comm L).
Qed.
Print Assumptions C50_sum_and_shift.

(** <w, A v> = <adjoint(A) w, v>, if the vectors of each projected operator (with project_operator=True) are pairwise orthogonal. *)
Theorem C50_adjoint : forall V T (h : hspace V) (to : tensor_ops V T), hlaws h -> tensor_laws h to ->
  forall A, all_custom (fun f g => adjoint_pair h f g) A -> all_orthogonal h A ->
  adjoint_pair h (matvec h to A) (matvec h to (adjoint to A)).
Proof. intros. now apply adjoint_correct. Qed.
Print Assumptions C50_adjoint.

(** Projected operator with orthonormal vectors: P H P + penalty (1 - P); the vectors are eigenvectors with eigenvalue penalty; on their orthogonal
    complement it acts as P H and stays inside the complement. *)
Theorem C50_projected : forall V T (h : hspace V) (to : tensor_ops V T), hlaws h -> tensor_laws h to ->
  forall A os penalty, all_custom (fun f _ => linear h f) A -> orthonormal h os ->
  let P := projector h os in
  let p := match penalty with Some p => p | None => C0 end in
  let M := matvec h to (OProj A os true penalty) in
  (forall v, M v = hadd h (P (matvec h to A (P v))) (hscale h p (hsub h v (P v)))) /\
  (forall v, matvec h to (OProj A os false penalty) v = hadd h (matvec h to A v) (hscale h p (hsub h v (P v)))) /\
  (forall o, In o os -> M o = hscale h p o) /\
  (forall v, (forall o, In o os -> hinner h o v = C0) -> M v = P (matvec h to A v) /\ forall o, In o os -> hinner h o (M v) = C0) /\
  (forall v e, (forall o, In o os -> hinner h o v = C0) -> matvec h to A v = hscale h e v -> M v = hscale h e v).
Proof.
  intros V T h to L TL A os penalty HA HO P p M.
  assert (E1 : forall v, hsub h v (P v) = span_part h os v) by (intros v; unfold P, projector; hvec L).
  assert (E : forall v, M v = hadd h (P (matvec h to A (P v))) (hscale h p (hsub h v (P v)))).
  { intros v. rewrite E1. unfold M. cbn [matvec]. rewrite (proj_matvec_orth L) by apply HO. reflexivity. }
  assert (HA' := matvec_linear L TL HA).
  assert (E4 : forall v, (forall o, In o os -> hinner h o v = C0) -> M v = P (matvec h to A v)).
  { intros v Hv. rewrite E, E1, (span_part_zero L) by assumption. rewrite (scale_0 L), (add_0_r L). unfold P at 2. now rewrite (projector_fix L). }
  split; [exact E|]. split; [|split; [|split]].
  - intros v. rewrite E1. cbn [matvec]. now rewrite (proj_matvec_unprojected L).
  - intros o Ho. rewrite E, E1, (span_part_In L HO Ho). unfold P. rewrite (projector_kill L HO Ho), (linear_0 L HA'), (linear_0 L (projector_linear L os)). apply (hl_zero L).
  - intros v Hv. split; [now apply E4|]. intros o Ho. rewrite E4 by assumption. now apply (projector_perp L).
  - intros v e Hv Ev. rewrite E4 by assumption. rewrite Ev. unfold P. rewrite (proj2 (projector_linear L os)). now rewrite (projector_fix L).
Qed.
Print Assumptions C50_projected.

(** The documentation says the ortho_vecs "need not be orthonormal, as Gram-Schmidt is performed on them explicitly": it is not performed.
    A single vector of norm 2 is not an eigenvector with eigenvalue penalty, and with two non-orthogonal vectors adjoint() is wrong. *)
Theorem C50_projected_needs_orthonormal_refuted :
  (exists (o : vecC 1) (p : C), exists A : linop (vecC 1) mat, all_custom (fun f _ => linear (Cn 1) f) A /\ o <> hzero (Cn 1) /\
     matvec (Cn 1) (mat_ops 1) (OProj A [o] true (Some p)) o <> hscale (Cn 1) p o) /\
  (exists (o1 o2 : vecC 2) (A : linop (vecC 2) mat), all_custom (fun f g => adjoint_pair (Cn 2) f g) A /\
     hinner (Cn 2) o1 o1 = C1 /\ hinner (Cn 2) o2 o2 = C1 /\
     ~ adjoint_pair (Cn 2) (matvec (Cn 2) (mat_ops 2) (OProj A [o1; o2] true None)) (matvec (Cn 2) (mat_ops 2) (adjoint (mat_ops 2) (OProj A [o1; o2] true None)))).
Proof.
  split.
  - exists ((2, 0)%R, tt), C0, (OTensor (t_eye (mat_ops 1)) 1). split; [now right|]. split.
    + intros E. apply (f_equal fst) in E. apply (f_equal fst) in E. cbn in E. lra.
    + intros E. apply (f_equal fst) in E. apply (f_equal fst) in E. cbn in E. lra.
  - exists ((1, 0)%R, ((0, 0)%R, tt)), ((3 / 5, 0)%R, ((4 / 5, 0)%R, tt)), (OTensor (fun i j => if i =? S j then C1 else C0) 1). split; [now right|].
    split; [apply C_eq; cbn; field|]. split; [apply C_eq; cbn; field|].
    intros H. specialize (H ((1, 0)%R, ((0, 0)%R, tt)) ((0, 0)%R, ((1, 0)%R, tt))).
    apply (f_equal fst) in H. cbn in H. lra.
Qed.
Print Assumptions C50_projected_needs_orthonormal_refuted.

(** gram_schmidt: the result is orthonormal, not longer than the input, each result is a linear combination of the inputs, and each input is a combination
    of the results up to a remainder of norm at most rcond; with rcond = 0 the spans are equal. *)
Theorem C50_gram_schmidt : forall V (h : hspace V), hlaws h -> forall vecs rcond, (0 <= rcond)%R ->
  let q := gram_schmidt h vecs rcond in
  orthonormal h q /\ length q <= length vecs /\ (forall x, In x q -> in_span h vecs x) /\
  (forall v, In v vecs -> exists u, in_span h q u /\ (hnorm h (hsub h v u) <= rcond)%R) /\
  (rcond = 0%R -> forall v, In v vecs -> in_span h q v).
Proof.
  intros V h L vecs rcond R0 q. assert (HQ : orthonormal h q) by (apply (gs_orthonormal L R0), orthonormal_nil).
  assert (HR : forall v, In v vecs -> exists u, in_span h q u /\ (hnorm h (hsub h v u) <= rcond)%R).
  { intros v Hv. exists (span_part h q v). split; [apply (span_part_in_span L); intros; now apply (span_In L)|]. apply (gs_residual L R0 (orthonormal_nil h) Hv). }
  split; [exact HQ|]. split; [|split; [|split]].
  - exact (gs_length h rcond vecs []).
  - intros x Hx. eapply (gs_span L R0 (all := vecs) (vecs := vecs) (res := [])); [apply orthonormal_nil|intros y []|auto|exact Hx].
  - exact HR.
  - intros E v Hv. destruct (HR v Hv) as [u [Hu Hn]]. assert (Z : hnorm h (hsub h v u) = 0%R) by (assert (X := sqrt_pos (hnorm2 h (hsub h v u))); unfold hnorm in *; lra).
    apply (norm_0_iff L) in Z. replace v with u; [exact Hu|]. apply (inner_ext L). intros x. apply (f_equal (hinner h x)) in Z. rewrite (inner_sub_r L), (inner_0_r L) in Z.
    apply (f_equal (Cadd (hinner h x u))) in Z. transitivity (Cadd (hinner h x u) C0); [ring|]. rewrite <- Z. ring.
Qed.
Print Assumptions C50_gram_schmidt.

(** ... and it leaves orthonormal lists unchanged. *)
Theorem C50_gram_schmidt_idempotent : forall V (h : hspace V), hlaws h -> forall vecs rcond, (0 <= rcond < 1)%R ->
  orthonormal h vecs -> gram_schmidt h vecs rcond = vecs.
Proof. intros V h L vecs rcond HR HO. apply (gs_fixed L HR (vecs := vecs) (res := [])). exact HO. Qed.
Print Assumptions C50_gram_schmidt_idempotent.

(** unwrapped(recursive=True) reaches the innermost operator, unless there are more than kMaxUnwrapDepth = 10000 nested wrappers. *)
Theorem C50_unwrapped : forall V T (A : linop V T), depth A <> 0 ->
  unwrapped A true = if depth A <=? kMaxUnwrapDepth then Some (core A) else None.
Proof.
  intros V T A HA. unfold unwrapped. destruct A; cbn [original]; cbn [depth] in HA; try lia; rewrite unwrap_loop_spec; cbn [depth core]; generalize kMaxUnwrapDepth; intros n;
    destruct (depth A <? n) eqn:E1; destruct (S (depth A) <=? n) eqn:E2; try reflexivity;
    [apply Nat.ltb_lt in E1; apply Nat.leb_gt in E2; lia|apply Nat.ltb_ge in E1; apply Nat.leb_le in E2; lia| | | | | |];
    first [apply Nat.ltb_lt in E1; apply Nat.leb_gt in E2; lia|apply Nat.ltb_ge in E1; apply Nat.leb_le in E2; lia].
Qed.
Print Assumptions C50_unwrapped.

(** Direct sums: the inner product is the sum of the inner products, the norm is its square root, operators act per component and adjoint() is the adjoint
    for this inner product. *)
Theorem C50_direct_sum : forall V T (h : hspace V) (to : tensor_ops V T), hlaws h -> tensor_laws h to ->
  (forall x y, length y = length x -> ds_inner h x y = Some (sum_inner h x y)) /\
  (forall x y, length y <> length x -> ds_inner h x y = None /\ forall a, ds_axpy h a x y = None) /\
  (forall x, x <> [] -> ds_norm h x = sqrt (fst (sum_inner h x x))) /\
  (forall a x y z, ds_axpy h a x y = Some z -> forall k, k < length x ->
     nth k z (hzero h) = hadd h (hscale h a (nth k x (hzero h))) (nth k y (hzero h))) /\
  (forall ops x y, Forall (fun A => all_custom (fun f g => adjoint_pair h f g) A /\ all_orthogonal h A) ops -> length x = length ops -> length y = length ops ->
     exists Ay Bx, ds_matvec h to ops y = Some Ay /\ ds_matvec h to (ds_adjoint to ops) x = Some Bx /\ ds_inner h x Ay = ds_inner h Bx y /\
     (forall k A, nth_error ops k = Some A -> nth k Ay (hzero h) = matvec h to A (nth k y (hzero h)))).
Proof.
  intros V T h to L TL. split; [intros x y E; now apply ds_inner_sum|]. split; [|split; [|split]].
  - intros x y N. unfold ds_inner, ds_axpy. destruct (length y =? length x) eqn:E; [apply Nat.eqb_eq in E; lia|]. split; [reflexivity|]. intros; reflexivity.
  - intros x Hx. now apply ds_norm_inner.
  - intros a x y z E k Hk. unfold ds_axpy in E. destruct (length y =? length x) eqn:Hl; [|discriminate]. injection E as E. subst z. apply Nat.eqb_eq in Hl.
    set (f := fun p : V * V => hadd h (hscale h a (fst p)) (hscale h C1 (snd p))).
    rewrite (nth_indep _ (hzero h) (f (hzero h, hzero h))) by (rewrite map_length, combine_length; lia). rewrite map_nth, combine_nth by auto.
    unfold f. cbn [fst snd]. now rewrite (hl_one L).
  - intros ops x y HF Hx Hy. unfold ds_matvec. assert (Hl : length (ds_adjoint to ops) = length ops) by apply map_length. rewrite Hl, Hx, Hy, Nat.eqb_refl.
    eexists. eexists. split; [reflexivity|]. split; [reflexivity|]. split.
    + rewrite !ds_inner_sum by (rewrite map_length, combine_length; lia). f_equal. now apply (ds_matvec_inner L TL HF).
    + intros k A HA. assert (Hk : k < length ops) by (apply nth_error_Some; congruence).
      set (f := fun p : linop V T * V => matvec h to (fst p) (snd p)). rewrite (nth_indep _ (hzero h) (f (A, hzero h))) by (rewrite map_length, combine_length; lia).
      rewrite map_nth, combine_nth by auto. unfold f. cbn [fst snd]. f_equal. f_equal. apply nth_error_nth. exact HA.
Qed.
Print Assumptions C50_direct_sum.

(** Non-vacuity: matrices of every size are tensors obeying the laws, and a tree using every kind of operator meets the hypotheses. *)
Example C50_instance : forall n, hlaws (Cn n) /\ tensor_laws (Cn n) (mat_ops n).
Proof. intros n. split; [apply Cn_laws|apply mat_laws]. Qed.
Definition e1 : vecC 2 := (C1, (C0, tt)).
Definition e2 : vecC 2 := (C0, (C1, tt)).
Definition example_op : linop (vecC 2) mat :=
  OProj (OSum (OShift (OTensor (fun i j => if i =? j then C0 else RtoC 1) 1) (0, 1)%R) [OWrap (OTensor (fun i j => if i <? j then (0, 1)%R else C1) 0); OCustom (fun v => v) (fun v => v)])
    [e1] true (Some (3, 1)%R).
Example C50_example_hyps : all_custom (fun f g => adjoint_pair (Cn 2) f g) example_op /\ all_custom (fun f _ => linear (Cn 2) f) example_op /\ all_orthogonal (Cn 2) example_op /\
  orthonormal (Cn 2) [e1] /\ orthonormal (Cn 2) [e2; e1].
Proof.
  split; [cbn; repeat (split; auto); intros x y; reflexivity|]. split; [cbn; repeat (split; auto)|].
  split; [cbn; split; [repeat (split; auto)|intros _ i j H; cbn in H; lia]|]. split.
  - split; [intros i j H; cbn in H; lia|]. intros x [E|[]]. subst x. apply C_eq; cbn; ring.
  - split; [intros i j H; cbn in H; assert (i = 0) by lia; assert (j = 1) by lia; subst; apply C_eq; cbn; ring|]. intros x [E|[E|[]]]; subst x; apply C_eq; cbn; ring.
Qed.
