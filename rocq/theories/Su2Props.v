(** C11, C12: SU(2) and SU(2)_k fusion rules. *)
From Verif Require Import Util RowModel RowProofs SymModel SymProofs AbelianModel AbelianProofs Su2Model Su2Proofs.
From Coq Require Import Reals Lra.
Open Scope Z_scope.

(** ** C11 *)
Theorem C11_SU2_outcomes_clebsch_gordan :
  forall a b, 0 <= a -> 0 <= b ->
    (forall c, In c (sym_outcomes SU2 [a] [b]) <->
       exists x, c = [x] /\ Z.abs (a - b) <= x <= a + b /\ Z.even (a + b + x) = true) /\
    NoDup (sym_outcomes SU2 [a] [b]) /\
    (forall i j, (i < j < length (sym_outcomes SU2 [a] [b]))%nat ->
       q0 (nth i (sym_outcomes SU2 [a] [b]) []) < q0 (nth j (sym_outcomes SU2 [a] [b]) [])).
Proof.
  intros a b Ha Hb. split; [|split].
  - intros c. rewrite SU2_In by auto. unfold tri.
    split; intros (x & E & H); exists x; (split; [exact E|]); tauto.
  - apply ap_NoDup.
  - intros i j H. cbn [sym_outcomes SU2] in *. unfold ap_list in *.
    rewrite map_length, seq_length in H.
    rewrite !nth_map_lt with (d := 0%nat) by (rewrite seq_length; lia).
    rewrite !seq_nth by lia. cbn [q0 nth]. lia.
Qed.
Print Assumptions C11_SU2_outcomes_clebsch_gordan.

Theorem C11_SU2_can_fuse_to_agrees :
  forall a b c, 0 <= a -> 0 <= b -> 0 <= c ->
    (su2_can_fuse_to [a] [b] [c] = true <-> In [c] (sym_outcomes SU2 [a] [b])).
Proof.
  intros a b c Ha Hb Hc. rewrite SU2_In by auto.
  unfold su2_can_fuse_to. cbn [q0 nth]. rewrite !andb_true_iff, !Z.leb_le, Z.eqb_eq.
  assert (E : Z.rem (a + b + c) 2 = 0 <-> Z.even (a + b + c) = true).
  { rewrite Z.rem_mod_nonneg by lia. rewrite Zeven_mod. rewrite Zeq_is_eq_bool. tauto. }
  rewrite E. unfold tri. split.
  - intros H. exists c. split; auto. intuition lia.
  - intros (x & F & H). injection F as <-. intuition lia.
Qed.
Print Assumptions C11_SU2_can_fuse_to_agrees.

Theorem C11_SU2_fusion_ring_and_dimensions : fusion_ring SU2 /\ dim_law SU2.
Proof. split; [exact SU2_ring|exact SU2_dims]. Qed.
Print Assumptions C11_SU2_fusion_ring_and_dimensions.

(** The int16 arithmetic of the code computes exactly these outcomes as long as a + b fits. *)
Theorem C11_SU2_machine_outcomes :
  forall a b, 0 <= a -> 0 <= b -> a + b <= 32767 ->
    su2_outcomes_machine [a] [b] = Some (sym_outcomes SU2 [a] [b]).
Proof.
  intros a b Ha Hb H. unfold su2_outcomes_machine. cbn [q0 nth sym_outcomes SU2].
  rewrite (to_i16_id (x := a + b)) by (unfold int16; lia).
  rewrite (to_i16_id (x := Z.abs (a - b))) by (unfold int16; lia).
  rewrite quot2 by lia.
  destruct (Z.ltb_spec ((a + b - Z.abs (a - b)) / 2 + 1) 0) as [C|C].
  - assert (0 <= (a + b - Z.abs (a - b)) / 2) by (apply Z.div_pos; lia). lia.
  - f_equal. unfold ap_list. rewrite quot2 by lia. apply map_ext_in. intros i Hi. apply in_seq in Hi.
    replace (a + b - Z.abs (a - b)) with (Z.min a b * 2) in Hi by lia.
    rewrite Z.div_mul in Hi by lia.
    rewrite (to_i16_id (x := 2 * _)) by (unfold int16; lia). rewrite to_i16_id by (unfold int16; lia). reflexivity.
Qed.
Print Assumptions C11_SU2_machine_outcomes.

Theorem C11_SU2_machine_overflow_refuted :
  exists a b, sym_valid SU2 [a] = true /\ int16 a /\ sym_valid SU2 [b] = true /\ int16 b /\
    su2_outcomes_machine [a] [b] = None.
Proof. exists 20000, 20000. unfold int16. repeat split; lia. Qed.
Print Assumptions C11_SU2_machine_overflow_refuted.

(** R = (-1)^{(a+b-c)/2} is a sign, symmetric, and R(a,a,0) is the Frobenius-Schur indicator *)
Theorem C11_SU2_R_and_frobenius_schur :
  (forall a b c, 0 <= a -> 0 <= b -> In [c] (sym_outcomes SU2 [a] [b]) ->
     su2_R [a] [b] [c] = (if Z.even ((a + b - c) / 2) then 1 else -1) /\
     su2_R [b] [a] [c] = su2_R [a] [b] [c]) /\
  (forall a, 0 <= a -> su2_frobenius_schur [a] = su2_R [a] [a] [0]).
Proof.
  split.
  - intros a b c Ha Hb Hin. rewrite SU2_In in Hin by auto.
    destruct Hin as (x & F & H & E & _). injection F as <-.
    unfold su2_R. cbn [q0 nth]. split; [|now rewrite (Z.add_comm b a)].
    assert (E' : Z.even (a + b - c) = true).
    { revert E. rewrite Z.even_add, Z.even_sub. auto. }
    apply Z.even_spec in E'. destruct E' as [h Eh]. rewrite Eh.
    replace (2 * h / 2) with h by (rewrite Z.mul_comm, Z.div_mul; lia).
    rewrite Z.rem_mod_nonneg by lia.
    destruct (Z.even h) eqn:Ev.
    + apply Z.even_spec in Ev. destruct Ev as [m ->].
      replace (2 * (2 * m)) with (m * 4) by lia. now rewrite Z.mod_mul by lia.
    + assert (O : Z.odd h = true) by (rewrite <- Z.negb_even, Ev; reflexivity).
      apply Z.odd_spec in O. destruct O as [m ->].
      replace (2 * (2 * m + 1)) with (2 + m * 4) by lia. rewrite Z_mod_plus_full. reflexivity.
  - intros a Ha. unfold su2_frobenius_schur, su2_R. cbn [q0 nth].
    rewrite !Z.rem_mod_nonneg by lia.
    assert (D := Z.div_mod a 2 ltac:(lia)). assert (B := Z.mod_pos_bound a 2 ltac:(lia)).
    replace (a + a - 0) with (2 * (a mod 2) + a / 2 * 4) by lia. rewrite Z_mod_plus_full.
    rewrite (Z.mod_small (2 * (a mod 2))) by lia. lia.
Qed.
Print Assumptions C11_SU2_R_and_frobenius_schur.

Example C11_example :
  sym_outcomes SU2 [3] [2] = [[1]; [3]; [5]] /\ left_count SU2 [3] [2] [2] [3] = 3%nat /\
  right_count SU2 [3] [2] [2] [3] = 3%nat /\ sym_valid SU2 [3] = true.
Proof. repeat split. Qed.

(** ** C12 *)
Theorem C12_SU2k_outcomes_truncated :
  forall k a b, 1 <= k <= 32767 -> 0 <= a <= k -> 0 <= b <= k ->
    (forall c, In c (sym_outcomes (SU2_k k) [a] [b]) <->
       exists x, c = [x] /\ Z.abs (a - b) <= x <= a + b /\ Z.even (a + b + x) = true /\
                 a + b + x <= 2 * k) /\
    (forall c, In c (sym_outcomes (SU2_k k) [a] [b]) -> sym_valid (SU2_k k) c = true).
Proof.
  intros k a b Hk Ha Hb. split; intros c.
  - rewrite SU2k_In by lia. reflexivity.
  - apply (fr_closed (SU2k_ring (k := k) ltac:(lia))); apply SU2k_valid; try lia;
      eexists; (split; [reflexivity|now split]).
Qed.
Print Assumptions C12_SU2k_outcomes_truncated.

Theorem C12_SU2k_fusion_ring : forall k, 1 <= k <= 32767 -> fusion_ring (SU2_k k).
Proof. intros. apply SU2k_ring. lia. Qed.
Print Assumptions C12_SU2k_fusion_ring.

Theorem C12_SU2k_all_sectors :
  forall k, 1 <= k <= 32767 ->
    NoDup (su2k_all_sectors k) /\
    forall a, In a (su2k_all_sectors k) <-> sym_valid (SU2_k k) a = true.
Proof.
  intros k Hk. unfold su2k_all_sectors. split.
  - apply NoDup_map_inj; [|apply seq_NoDup]. intros x y Hx Hy E.
    assert (E2 := f_equal (fun l => nth 0 l 0) E). cbn [nth] in E2. apply in_seq in Hx, Hy.
    rewrite !to_i16_id in E2 by (unfold int16; lia). lia.
  - intros a. rewrite in_map_iff, SU2k_valid by lia. split.
    + intros (i & <- & Hi). apply in_seq in Hi. rewrite to_i16_id by (unfold int16; lia).
      eexists; split; [reflexivity|unfold okK; lia].
    + intros (x & -> & V). unfold okK in V. exists (Z.to_nat x). rewrite Z2Nat.id by lia.
      rewrite to_i16_id by (unfold int16; lia). split; auto. apply in_seq. lia.
Qed.
Print Assumptions C12_SU2k_all_sectors.

(** Quantum dimensions (su2_k_anyon_category.cpp:323-330), as exact real numbers: they form a
    character of the fusion ring, d_a d_b = sum over outcomes of d_c, and are positive. *)
Open Scope R_scope.
Definition su2k_qdim (k : Z) (a : list Z) : R :=
  sin (IZR (q0 a + 1) * PI / IZR (k + 2)) / sin (PI / IZR (k + 2)).
Definition rsum (l : list R) : R := fold_right Rplus 0 l.

Lemma sin_sin x y : sin x * sin y = (cos (x - y) - cos (x + y)) / 2.
Proof. rewrite cos_minus, cos_plus. lra. Qed.

Lemma telescope t lo n :
  rsum (map (fun i => sin (IZR (lo + 2 * Z.of_nat i + 1) * t) * sin t) (seq 0 n)) =
  (cos (IZR lo * t) - cos (IZR (lo + 2 * Z.of_nat n) * t)) / 2.
Proof.
  induction n.
  - cbn [seq map rsum fold_right]. replace (lo + 2 * Z.of_nat 0)%Z with lo by lia. lra.
  - rewrite seq_S, map_app. cbn [map Nat.add].
    assert (A : forall l x, rsum (l ++ [x]) = rsum l + x).
    { unfold rsum. induction l; intros; cbn [app fold_right]; [lra|]. rewrite IHl. lra. }
    rewrite A, IHn, sin_sin.
    replace (IZR (lo + 2 * Z.of_nat n + 1) * t - t) with (IZR (lo + 2 * Z.of_nat n) * t)
      by (rewrite (plus_IZR (lo + _) 1); lra).
    replace (IZR (lo + 2 * Z.of_nat n + 1) * t + t) with (IZR (lo + 2 * Z.of_nat (S n)) * t)
      by (rewrite (plus_IZR (lo + _) 1); replace (lo + 2 * Z.of_nat (S n))%Z with (lo + 2 * Z.of_nat n + 2)%Z by lia;
          rewrite (plus_IZR (lo + 2 * Z.of_nat n) 2); lra).
    lra.
Qed.

Lemma rsum_scale l c : rsum (map (fun x => x * c) l) = rsum l * c.
Proof. unfold rsum. induction l; cbn [map fold_right]; [lra|]. rewrite IHl. lra. Qed.

Lemma sin_pos k x : (1 <= k)%Z -> (1 <= x <= k + 1)%Z -> 0 < sin (IZR x * PI / IZR (k + 2)).
Proof.
  intros Hk Hx. assert (P := PI_RGT_0). assert (K : 0 < IZR (k + 2)) by (apply IZR_lt; lia).
  assert (X : 0 < IZR x) by (apply IZR_lt; lia).
  assert (X2 : IZR x < IZR (k + 2)) by (apply IZR_lt; lia).
  apply sin_gt_0.
  - apply Rdiv_lt_0_compat; auto. now apply Rmult_lt_0_compat.
  - apply Rmult_lt_reg_r with (IZR (k + 2)); auto. unfold Rdiv.
    rewrite Rmult_assoc, Rinv_l by lra. rewrite Rmult_1_r, Rmult_comm. now apply Rmult_lt_compat_l.
Qed.

Theorem C12_SU2k_quantum_dimensions :
  forall k a b, (1 <= k <= 32767)%Z -> (0 <= a <= k)%Z -> (0 <= b <= k)%Z ->
    0 < su2k_qdim k [a] /\ su2k_qdim k [0%Z] = 1 /\
    su2k_qdim k [a] * su2k_qdim k [b] =
    rsum (map (su2k_qdim k) (sym_outcomes (SU2_k k) [a] [b])).
Proof.
  intros k a b Hk Ha Hb.
  assert (S1 : 0 < sin (PI / IZR (k + 2))).
  { replace (PI / IZR (k + 2)) with (IZR 1 * PI / IZR (k + 2)) by (unfold Rdiv; lra).
    apply sin_pos; lia. }
  split; [|split].
  - unfold su2k_qdim. cbn [q0 nth]. apply Rdiv_lt_0_compat; auto. apply sin_pos; lia.
  - unfold su2k_qdim. cbn [q0 nth]. replace (IZR (0 + 1) * PI / IZR (k + 2)) with (PI / IZR (k + 2)).
    + field. lra.
    + cbn [Z.add]. unfold Rdiv. lra.
  - assert (K0 : IZR (k + 2) <> 0) by (apply not_0_IZR; lia).
    set (t := PI / IZR (k + 2)) in *.
    assert (T : forall c, su2k_qdim k c = sin (IZR (q0 c + 1) * t) * / sin t).
    { intros c. unfold su2k_qdim, Rdiv. fold t. f_equal. f_equal. unfold t, Rdiv. lra. }
    rewrite SU2k_out by (try lia; now split).
    rewrite map_ext with (g := fun c => sin (IZR (q0 c + 1) * t) * / sin t) by (exact T).
    unfold ap_list. rewrite map_map. cbn [q0 nth].
    assert (G : (Z.abs (a - b) <= hiK (Some k) a b)%Z) by (apply hi_ge; now split).
    assert (E := hi_even (Some k) a b). apply Z.even_spec in E. destruct E as [h Eh].
    rewrite quot2 by lia. rewrite Eh, Z.mul_comm, Z.div_mul by lia.
    set (n := Z.to_nat (h + 1)).
    apply Rmult_eq_reg_r with (sin t); [|lra]. apply Rmult_eq_reg_r with (sin t); [|lra].
    rewrite !T. cbn [q0 nth].
    transitivity (sin (IZR (a + 1) * t) * sin (IZR (b + 1) * t)); [field; lra|].
    rewrite <- !rsum_scale, !map_map.
    rewrite map_ext with (g := fun i => sin (IZR (Z.abs (a - b) + 2 * Z.of_nat i + 1) * t) * sin t)
      by (intros; field; lra).
    rewrite telescope, sin_sin. f_equal.
    assert (En : (Z.abs (a - b) + 2 * Z.of_nat n)%Z = (hiK (Some k) a b + 2)%Z).
    { unfold n. lia. }
    rewrite En. f_equal.
    + replace (IZR (a + 1) * t - IZR (b + 1) * t) with (IZR (a - b) * t)
        by (rewrite !plus_IZR, minus_IZR; lra).
      destruct (Z.abs_spec (a - b)) as [[_ ->]|[_ ->]]; [reflexivity|].
      rewrite opp_IZR, <- cos_neg. f_equal. lra.
    + replace (IZR (a + 1) * t + IZR (b + 1) * t) with (IZR (a + b + 2) * t)
        by (rewrite !plus_IZR; lra).
      unfold hiK. destruct (Z.min_spec (a + b) (2 * k - a - b)) as [[_ ->]|[_ ->]]; [reflexivity|].
      replace (2 * k - a - b + 2)%Z with (2 * (k + 2) - (a + b + 2))%Z by lia.
      rewrite minus_IZR, mult_IZR.
      replace ((2 * IZR (k + 2) - IZR (a + b + 2)) * t) with (- (IZR (a + b + 2) * t) + 2 * INR 1 * PI).
      * rewrite cos_period, cos_neg. reflexivity.
      * unfold t. simpl INR. field. auto.
Qed.
Print Assumptions C12_SU2k_quantum_dimensions.
Close Scope R_scope.

Example C12_example :
  sym_outcomes (SU2_k 3) [2] [3] = [[1]] /\ sym_outcomes (SU2_k 4) [2] [3] = [[1]; [3]] /\
  left_count (SU2_k 3) [2] [2] [2] [2] = right_count (SU2_k 3) [2] [2] [2] [2] /\
  left_count (SU2_k 3) [2] [2] [2] [2] = 2%nat.
Proof. repeat split. Qed.
