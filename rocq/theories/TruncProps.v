(** C41: selection of singular values; C53: truncated_svd with normalize_to. *)
From Verif Require Import Util RowProofs TruncModel TruncSpec TruncProofs TruncProofs2 TruncProofs3.
From Coq Require Import Reals Lra.
Open Scope nat_scope.

(** [S]: the singular values, [qdims]: their quantum dimensions (None: all one), [piv]: any permutation sorting the weights. *)
Definition valid_input (S : list R) (qdims : option (list R)) (piv : list nat) (p : trunc_params) : Prop :=
  S <> [] /\ (forall l, qdims = Some l -> length l = length S) /\ sorts S qdims piv /\ (forall m, chi_max p = Some m -> (0 <= m)%Z).

Lemma valid_pos S q piv p : valid_input S q piv p -> 0 < length S.
Proof. intros [H _]. destruct S; [easy|cbn; lia]. Qed.

(** A selection always exists, at least one value is kept, no kept value has smaller weight than a discarded one, and the reported
    error and norm are the total weights of the discarded and of the kept values. *)
Theorem C41_selection S qdims piv p : valid_input S qdims piv p ->
  exists mask err new_norm, truncate_selection S qdims piv p = Some (mask, err, new_norm) /\ length mask = length S /\ 0 < length (kept mask) /\
    (forall i j, i < length S -> j < length S -> nth i mask false = true -> nth j mask false = false -> (weight S qdims j <= weight S qdims i)%R) /\
    err = rsum (map (weight S qdims) (discarded mask)) /\ new_norm = rsum (map (weight S qdims) (kept mask)).
Proof.
  intros V. pose proof (valid_pos _ _ _ _ V) as Hn. destruct V as [_ [Hq [HP Hm]]].
  destruct (selection_ok Hn Hq HP Hm) as [mask [err [w [cut [H [E X]]]]]]. exists mask, err, w. split; [easy|].
  destruct X as [Lm [_ [_ [_ [_ [_ [_ [_ [E1 E2]]]]]]]]]. split; [easy|]. split.
  { destruct (num_kept Hn Hq HP Hm E) as [c [Hc ->]]. lia. }
  split; [|easy]. exact (kept_lighter Hn Hq HP Hm E).
Qed.

(** Which cut is taken: the values are sorted by weight and the heaviest n - cut are kept; the constraints chi_max, chi_min,
    degeneracy_tol, svd_min, trunc_cut are imposed in this order, one that cannot be met with the earlier ones is ignored, and the cut is
    the smallest (minimize_error) or the largest possible. *)
Theorem C41_constraints_in_order S qdims piv p : valid_input S qdims piv p ->
  exists mask err new_norm cut allowed, truncate_selection S qdims piv p = Some (mask, err, new_norm) /\ cut < length S /\
    Permutation (kept mask) (skipn cut piv) /\
    respect (length S) (fun _ => True) (constraints (length S) (fun i => nth (nth i piv 0) S 0%R) (fun i => weight S qdims (nth i piv 0)) p) allowed /\
    allowed cut /\ (forall c, c < length S -> allowed c -> if minimize_error p then cut <= c else c <= cut).
Proof.
  intros V. pose proof (valid_pos _ _ _ _ V) as Hn. destruct V as [_ [Hq [HP Hm]]].
  destruct (selection_ok Hn Hq HP Hm) as [mask [err [w [cut [H [E [_ [Hc [RS [HC [M1 [M2 [K1 _]]]]]]]]]]]]].
  exists mask, err, w, cut, H. split; [easy|]. split; [easy|]. split; [easy|]. split; [easy|]. split; [easy|].
  intros c Hc' Hh. destruct (minimize_error p); auto.
Qed.

(** Numbers of kept values. *)
Theorem C41_chi_bounds S qdims piv p mask err new_norm : valid_input S qdims piv p ->
  truncate_selection S qdims piv p = Some (mask, err, new_norm) ->
  (forall m, chi_max p = Some m -> (1 <= m)%Z -> (Z.of_nat (length (kept mask)) <= m)%Z) /\
  ((chi_min p <= Z.of_nat (length S))%Z -> (forall m, chi_max p = Some m -> (chi_min p <= m)%Z) -> (chi_min p <= Z.of_nat (length (kept mask)))%Z).
Proof. intros V. pose proof (valid_pos _ _ _ _ V) as Hn. destruct V as [_ [Hq [HP Hm]]]. apply chi_bounds; auto. Qed.

(** Without quantum dimensions: only values >= svd_min are kept, provided there is one. *)
Theorem C41_svd_min S piv p mask err new_norm m : valid_input S None piv p -> Forall (fun s => 0 <= s)%R S ->
  truncate_selection S None piv p = Some (mask, err, new_norm) -> svd_min p = Some m -> (chi_min p <= 1)%Z -> (degeneracy_tol p <= 0)%R ->
  (exists s, In s S /\ (m <= s)%R) -> forall i, i < length S -> nth i mask false = true -> (m <= nth i S 0)%R.
Proof.
  intros V HS E. pose proof (valid_pos _ _ _ _ V) as Hn. destruct V as [_ [Hq [HP Hm]]].
  intros. exact (svd_min_ok Hn Hq HP Hm E eq_refl HS H H0 H1 H2 H3 H4).
Qed.

(** The discarded weight is at most trunc_cut^2 if no other constraint forces more. *)
Theorem C41_trunc_cut S qdims piv p mask err new_norm : valid_input S qdims piv p ->
  truncate_selection S qdims piv p = Some (mask, err, new_norm) -> chi_max p = None -> (chi_min p <= 1)%Z -> (degeneracy_tol p <= 0)%R ->
  (forall m, svd_min p = Some m -> Forall (fun s => m <= s)%R S) -> minimize_error p = true -> (err <= trunc_cut p * trunc_cut p)%R.
Proof.
  intros V E. pose proof (valid_pos _ _ _ _ V) as Hn. destruct V as [_ [Hq [HP Hm]]].
  intros. exact (trunc_cut_ok Hn Hq HP Hm E H H0 H1 H2 H3).
Qed.

Ltac rdec := repeat (match goal with
  | |- context [Rle_dec ?a ?b] => destruct (Rle_dec a b); [try (exfalso; cbn in *; lra)|try (exfalso; cbn in *; lra)]
  | |- context [Rlt_dec ?a ?b] => destruct (Rlt_dec a b); [try (exfalso; cbn in *; lra)|try (exfalso; cbn in *; lra)]
  end).

(** With quantum dimensions a value below svd_min can be kept although larger values exist: values 1/2 (dimension 1) and 2/5
    (dimension 10) with svd_min = 9/20. *)
Definition qd_p : trunc_params := TruncParams None 1 0%R 0%R (Some (9 / 20)%R) true.
Theorem C41_svd_min_with_qdims_refuted : exists S qdims piv p mask err new_norm m, valid_input S qdims piv p /\
  Forall (fun s => 0 <= s)%R S /\ truncate_selection S qdims piv p = Some (mask, err, new_norm) /\ svd_min p = Some m /\ (chi_min p <= 1)%Z /\
  (degeneracy_tol p <= 0)%R /\ (exists s, In s S /\ (m <= s)%R) /\ exists i, i < length S /\ nth i mask false = true /\ (nth i S 0 < m)%R.
Proof.
  exists [(1 / 2)%R; (2 / 5)%R], (Some [1%R; 10%R]), [0; 1], qd_p.
  assert (E : exists e w, truncate_selection [(1 / 2)%R; (2 / 5)%R] (Some [1%R; 10%R]) [0; 1] qd_p = Some ([true; true], e, w)).
  { unfold truncate_selection, good_cuts, marginal_errs, take, qd_p, cumsum, combine_constraints, nonzero_idcs, Rltb, Rleb.
    cbn [length combine map fst snd nth chi_max chi_min degeneracy_tol svd_min trunc_cut minimize_error Z.ltb Z.compare Pos.compare Pos.compare_cont seq firstn rsum fold_right repeat existsb andb orb].
    rdec. cbn. eexists; eexists; reflexivity. }
  destruct E as [e [w E]]. exists [true; true], e, w, (9 / 20)%R. split.
  { split; [discriminate|]. split; [intros l El; injection El as <-; easy|]. split; [|discriminate]. split; [apply Permutation_refl|].
    intros i j H. cbn [length] in H. replace i with 0 by lia. replace j with 1 by lia. cbn. lra. }
  split; [repeat constructor; lra|]. split; [easy|]. split; [easy|]. split; [cbn; lia|]. split; [cbn; lra|]. split; [exists (1 / 2)%R; split; [now left|lra]|].
  exists 1. cbn. split; [lia|]. split; [easy|lra].
Qed.

(** C53.  truncated_svd(.., normalize_to = v) rescales the kept singular values by v / norm / w with w the weight that was kept, although
    the norm of the kept values is norm * sqrt(w): the result has norm^2 = v^2 / w, so it has norm v only if nothing was discarded. *)
Theorem C53_norm_after_truncation S N piv p v T : S <> [] -> N <> 0%R -> sorts (map (fun s => s / N)%R S) None piv -> (forall m, chi_max p = Some m -> (0 <= m)%Z) ->
  truncated_values S N piv p v = Some T ->
  exists mask err w, truncate_selection (map (fun s => s / N)%R S) None piv p = Some (mask, err, w) /\
    (w <> 0 -> rsum (map (fun s => s ^ 2) T) * w = v ^ 2)%R.
Proof. intros HS HN HP Hm E. apply (truncated_norm (S := S) (N := N)) with (v := v) (T := T); auto. destruct S; [easy|cbn; lia]. Qed.

(** Without truncation the norm is right. *)
Theorem C53_normalize_to_partial S N piv p v T mask err : S <> [] -> N <> 0%R -> sorts (map (fun s => s / N)%R S) None piv -> (forall m, chi_max p = Some m -> (0 <= m)%Z) ->
  truncated_values S N piv p v = Some T -> truncate_selection (map (fun s => s / N)%R S) None piv p = Some (mask, err, 1%R) ->
  (rsum (map (fun s => s ^ 2) T) = v ^ 2)%R.
Proof.
  intros HS HN HP Hm E E2. destruct (C53_norm_after_truncation S N piv p v T HS HN HP Hm E) as [m [e [w [E3 X]]]]. rewrite E2 in E3. injection E3 as <- <- <-.
  rewrite <- X by lra. lra.
Qed.

(** singular values 3 and 4 (norm 5), chi_max = 1, normalize_to = 1: the remaining singular value is 5/4 *)
Theorem C53_normalize_to_refuted : exists S N piv p v T, (N ^ 2 = rsum (map (fun s => s ^ 2) S))%R /\ (0 < N)%R /\
  sorts (map (fun s => s / N)%R S) None piv /\ chi_max p = Some 1%Z /\ truncated_values S N piv p v = Some T /\ (rsum (map (fun s => s ^ 2) T) <> v ^ 2)%R.
Proof.
  exists [3%R; 4%R], 5%R, [0; 1], (TruncParams (Some 1%Z) 1 0%R 0%R (Some 0%R) true), 1%R.
  assert (E : exists T, truncated_values [3%R; 4%R] 5%R [0; 1] (TruncParams (Some 1%Z) 1 0%R 0%R (Some 0%R) true) 1%R = Some [T] /\ (T = 5 / 4)%R).
  { unfold truncated_values, truncate_selection, good_cuts, marginal_errs, take, cumsum, combine_constraints, nonzero_idcs, Rltb, Rleb.
    cbn [length combine map fst snd nth chi_max chi_min degeneracy_tol svd_min trunc_cut minimize_error Z.ltb Z.compare Pos.compare Pos.compare_cont seq firstn rsum fold_right repeat existsb andb orb].
    rdec. cbn. eexists. split; [reflexivity|]. unfold rsum. cbn [skipn fold_right fst]. field. }
  destruct E as [T [E ET]]. exists [T]. split; [cbn; lra|]. split; [lra|]. split.
  { split; [apply Permutation_refl|]. intros i j H. cbn [length map] in H. replace i with 0 by lia. replace j with 1 by lia. cbn. lra. }
  split; [easy|]. split; [easy|]. cbn. rewrite ET. lra.
Qed.

(** concrete case: values 1/2, 4/5, 1/10 with chi_max = 2 *)
Example C41_ex_valid : valid_input [(1 / 2)%R; (4 / 5)%R; (1 / 10)%R] None [2; 0; 1] (TruncParams (Some 2%Z) 1 0%R 0%R (Some 0%R) true).
Proof.
  split; [discriminate|]. split; [discriminate|]. split; [|intros m E; injection E as <-; lia].
  split. { change (seq 0 3) with [0; 1; 2]. apply is_perm_intro; [easy| |repeat constructor]. repeat constructor; cbn; intuition lia. }
  intros i j H. cbn [length] in H. assert (C : (i = 0 /\ j = 1) \/ (i = 0 /\ j = 2) \/ (i = 1 /\ j = 2)) by lia. destruct C as [[-> ->]|[[-> ->]|[-> ->]]]; cbn; lra.
Qed.
Example C41_ex_result : exists e w, truncate_selection [(1 / 2)%R; (4 / 5)%R; (1 / 10)%R] None [2; 0; 1] (TruncParams (Some 2%Z) 1 0%R 0%R (Some 0%R) true) = Some ([true; true; false], e, w).
Proof.
  unfold truncate_selection, good_cuts, marginal_errs, take, cumsum, combine_constraints, nonzero_idcs, Rltb, Rleb.
    cbn [length combine map fst snd nth chi_max chi_min degeneracy_tol svd_min trunc_cut minimize_error Z.ltb Z.compare Pos.compare Pos.compare_cont seq firstn rsum fold_right repeat existsb andb orb].
  rdec. cbn. eexists; eexists; reflexivity.
Qed.

Print Assumptions C41_selection.
Print Assumptions C41_constraints_in_order.
Print Assumptions C41_chi_bounds.
Print Assumptions C41_svd_min.
Print Assumptions C41_trunc_cut.
Print Assumptions C41_svd_min_with_qdims_refuted.
Print Assumptions C53_norm_after_truncation.
Print Assumptions C53_normalize_to_partial.
Print Assumptions C53_normalize_to_refuted.
