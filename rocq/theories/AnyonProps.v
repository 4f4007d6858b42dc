(** C08, C09, C10, C16: the anyon categories are unitary braided fusion categories: their F, R
    and C symbols, as exact complex numbers, satisfy pentagon, hexagon, unitarity, triangle and
    Frobenius-Schur equations of CatSpec.v for all sectors. *)
From Coq Require Import Reals Lra.
From Verif Require Import Util RowModel RowProofs SymModel SymProofs AbelianModel AbelianProofs
  CatSpec CatProofs Cplx Tower FinRing AnyonModel AnyonProofs AnyonProofs2 ZNAnyonProofs.
Open Scope Z_scope.

(** ** C08 *)
Theorem C08_ZN_anyon_category :
  forall N n, 1 < N <= 32768 ->
    fusion_ring (ZNAnyon N) /\
    braided_category (ZNAnyon N) Cops zna_F (zna_R N n) (fun _ => C1) (fun _ => C1) /\
    C_is_RFR (ZNAnyon N) Cops zna_F (zna_R N n) (zna_C N n).
Proof.
  intros N n HN. split; [|split].
  - exact (ag_fusion_ring (ZNAnyon_group HN)).
  - now apply zna_category.
  - now apply zna_C_ok.
Qed.
Print Assumptions C08_ZN_anyon_category.

Theorem C08_ZN_anyon_category2 :
  forall N n, 1 < N <= 32768 -> Z.even N = true ->
    braided_category (ZNAnyon N) Cops (zna2_F N) (zna2_R N n)
      (fun a => RtoC (IZR (zna2_fs a))) (fun _ => C1) /\
    C_is_RFR (ZNAnyon N) Cops (zna2_F N) (zna2_R N n) (zna2_C N n).
Proof. intros. split; [now apply zna2_category|now apply zna2_C_ok]. Qed.
Print Assumptions C08_ZN_anyon_category2.

Theorem C08_quantum_double :
  forall N, 1 < N <= 32768 ->
    fusion_ring (QuantumDouble N) /\
    braided_category (QuantumDouble N) Cops zna_F (qd_R N) (fun _ => C1) (fun _ => C1) /\
    C_is_RFR (QuantumDouble N) Cops zna_F (qd_R N) (qd_C N) /\
    NoDup (qd_all_sectors N) /\
    (forall a, In a (qd_all_sectors N) <-> sym_valid (QuantumDouble N) a = true).
Proof.
  intros N HN. split; [|split; [|split]].
  - exact (ag_fusion_ring (QD_group HN)).
  - now apply qd_category.
  - now apply qd_C_ok.
  - now apply qd_all_sectors_spec.
Qed.
Print Assumptions C08_quantum_double.

(** has_complex_topological_data is false for some categories whose R symbol is not real: the
    flag of ZNAnyonCategory(N, n) tests (n % N) > 0, which a negative n fails. *)
Theorem C08_complex_flag_negative_n_refuted :
  exists N n, 1 < N /\ zna_has_complex N n = false /\ snd (zna_R N n [1] [1] [2] 0%nat) <> 0%R.
Proof.
  exists 4, (-1). split; [lia|]. split; [reflexivity|].
  unfold zna_R, phase_pow, zna_angle, cis. cbn [snd q0 nth].
  replace (IZR (1 * 1) * (2 * PI * IZR (Z.rem (-1) 4) / IZR 4))%R with (- (PI / 2))%R.
  - rewrite sin_neg, sin_PI2. lra.
  - change (Z.rem (-1) 4) with (-1). change (1 * 1) with 1. lra.
Qed.
Print Assumptions C08_complex_flag_negative_n_refuted.

Theorem C08_complex_flag_nonnegative_n :
  forall N n, 1 < N -> 0 <= n ->
    zna_has_complex N n = false -> forall a b c m, zna_R N n a b c m = C1.
Proof.
  intros N n HN Hn H a b c m. unfold zna_has_complex in H. apply Z.ltb_ge in H.
  assert (B := Z.rem_bound_pos n N Hn ltac:(lia)).
  unfold zna_R, phase_pow, zna_angle. replace (Z.rem n N) with 0 by lia.
  replace (IZR (q0 a * q0 b) * (2 * PI * 0 / IZR N))%R with 0%R by (unfold Rdiv; lra). apply cis_0.
Qed.
Print Assumptions C08_complex_flag_nonnegative_n.

Example C08_example :
  sym_valid (ZNAnyon 6) [4] = true /\ sym_outcomes (ZNAnyon 6) [4] [5] = [[3]] /\
  zna2_F 6 [3] [4] [5] [0] [3] [1] 0%nat 0%nat 0%nat 0%nat = RtoC (-1) /\
  sym_outcomes (QuantumDouble 3) [1; 2] [2; 2] = [[0; 1]].
Proof. repeat split; reflexivity. Qed.

(** ** C09 *)
Theorem C09_Fibonacci_category :
  forall right_handed,
    fusion_ring Fibonacci /\
    braided_category Fibonacci Cops (fib_F Cops fib_ftab) (fib_R Cops (fib_rtab right_handed))
      (fun a => RtoC (IZR (fib_fs a))) (fun a => RtoC (fib_qdim a)) /\
    C_is_RFR Fibonacci Cops (fib_F Cops fib_ftab) (fib_R Cops (fib_rtab right_handed))
      (fib_C Cops fib_ftab (fib_rtab right_handed)).
Proof.
  intros rh. split; [exact Fibonacci_ring|]. split; [apply fib_category|apply fib_C_ok].
Qed.
Print Assumptions C09_Fibonacci_category.

(** the two chiralities are mirror images, and they differ *)
Theorem C09_Fibonacci_handedness :
  (forall a b c m, fib_R Cops (fib_rtab true) a b c m = Cconj (fib_R Cops (fib_rtab false) a b c m)) /\
  fib_R Cops (fib_rtab true) [1] [1] [1] 0%nat <> fib_R Cops (fib_rtab false) [1] [1] [1] 0%nat.
Proof.
  split.
  - intros a b c m. unfold fib_R. destruct (all_tau a b).
    + unfold fib_rtab. set (l := [cis (-4 * PI / 5); cis (3 * PI / 5)]).
      change (o0 Cops) with C0. replace C0 with (Cconj C0) at 1 by (apply C_eq; cbn; lra).
      apply map_nth.
    + cbn [Cops o1]. apply C_eq; cbn; lra.
  - cbn [fib_R all_tau q0 nth Z.eqb Pos.eqb andb fib_rtab map Z.to_nat Pos.to_nat Pos.iter_op Nat.add].
    change (Pos.to_nat 1) with 1%nat. cbn [nth]. unfold Cconj, cis. cbn [fst snd]. intros E.
    injection E as E2. assert (P := PI_RGT_0).
    assert (S : (0 < sin (3 * PI / 5))%R) by (apply sin_gt_0; lra). lra.
Qed.
Print Assumptions C09_Fibonacci_handedness.

Example C09_example :
  sym_valid Fibonacci [1] = true /\ sym_outcomes Fibonacci [1] [1] = [[0]; [1]] /\
  fib_F Cops fib_ftab [1] [1] [1] [1] [1] [1] 0%nat 0%nat 0%nat 0%nat = RtoC (- / phi)%R.
Proof. repeat split; reflexivity. Qed.

(** ** C10.  [nu] is the constructor argument; the stored value is [ising_nu nu]. *)
Theorem C10_Ising_category :
  forall nu, Z.odd nu = true ->
    let v := ising_nu nu in
    v = nu mod 16 /\
    fusion_ring Ising /\
    braided_category Ising Cops (ising_F Cops (ising_ftab v)) (ising_R Cops (ising_rtab v))
      (fun a => RtoC (IZR (ising_fs v a))) (fun a => RtoC (ising_qdim a)).
Proof.
  intros nu O v. split; [apply ising_nu_mod|]. split; [exact Ising_ring|].
  apply ising_category; [apply ising_nu_range|now apply ising_nu_odd].
Qed.
Print Assumptions C10_Ising_category.

(** C symbols: correct if b and c are both sigma, or one of them is the vacuum.  Missing: the
    other cases, where the code is wrong (next theorem). *)
Theorem C10_Ising_C_symbol_partial :
  forall nu, Z.odd nu = true ->
    let v := ising_nu nu in
    let F := ising_F Cops (ising_ftab v) in
    let R := ising_R Cops (ising_rtab v) in
    forall a b c, sym_valid Ising a = true -> sym_valid Ising b = true -> sym_valid Ising c = true ->
    (b = [1] /\ c = [1]) \/ b = [0] \/ c = [0] ->
    forall d e f, can_fuse_to Ising a b e = true -> can_fuse_to Ising e c d = true ->
      can_fuse_to Ising a c f = true -> can_fuse_to Ising f b d = true ->
      ising_C Cops (ising_ftab v) (ising_rtab v) (ising_phase v) a b c d e f 0%nat 0%nat 0%nat 0%nat =
      Cmul (R e c d 0%nat) (Cmul (F c a b d e f 0%nat 0%nat 0%nat 0%nat) (Cconj (R a c f 0%nat))).
Proof.
  intros nu O v F R a b c A B D Cov d e f H1 H2 H3 H4.
  assert (H := ising_C_covered (nu := v) (ising_nu_range nu) (ising_nu_odd O)).
  assert (P : forall a b c, can_fuse_to Ising a b c = true -> (0 < n_symbol Ising a b c)%nat).
  { intros x y z E. unfold n_symbol. rewrite E. cbn. lia. }
  specialize (H a b c A B D e). rewrite <- can_fuse_to_In in H. specialize (H H1 d).
  rewrite <- can_fuse_to_In in H. specialize (H H2 f). rewrite <- can_fuse_to_In in H.
  specialize (H H3 H4 0%nat 0%nat 0%nat 0%nat (P _ _ _ H1) (P _ _ _ H2) (P _ _ _ H3) (P _ _ _ H4)).
  unfold patched in H at 1.
  replace (ising_covered b c) with true in H; [exact H|].
  symmetry. unfold ising_covered. rewrite !orb_true_iff, andb_true_iff, !Z.eqb_eq.
  destruct Cov as [ [ -> -> ] | [ -> | -> ] ]; cbn [q0 nth]; auto.
Qed.
Print Assumptions C10_Ising_C_symbol_partial.

(** exchanging two psi particles on a vacuum line: the code's C symbol is +1, the braid is -1 *)
Theorem C10_Ising_C_symbol_psi_psi_refuted :
  forall nu, Z.odd nu = true ->
    let v := ising_nu nu in
    let F := ising_F Cops (ising_ftab v) in
    let R := ising_R Cops (ising_rtab v) in
    let C := ising_C Cops (ising_ftab v) (ising_rtab v) (ising_phase v) in
    can_fuse_to Ising [0] [2] [2] = true /\ can_fuse_to Ising [2] [2] [0] = true /\
    C [0] [2] [2] [0] [2] [2] 0%nat 0%nat 0%nat 0%nat = C1 /\
    Cmul (R [2] [2] [0] 0%nat)
      (Cmul (F [2] [0] [2] [0] [2] [2] 0%nat 0%nat 0%nat 0%nat) (Cconj (R [0] [2] [2] 0%nat))) = Copp C1 /\
    ~ C_is_RFR Ising Cops F R C.
Proof.
  intros nu O v F R C.
  assert (E : Cmul (R [2] [2] [0] 0%nat)
      (Cmul (F [2] [0] [2] [0] [2] [2] 0%nat 0%nat 0%nat 0%nat) (Cconj (R [0] [2] [2] 0%nat))) = Copp C1).
  { change (R [2] [2] [0] 0%nat) with (RtoC (-1)). change (R [0] [2] [2] 0%nat) with C1.
    change (F [2] [0] [2] [0] [2] [2] 0%nat 0%nat 0%nat 0%nat) with C1.
    apply C_eq; unfold Cmul, Cconj, RtoC, Copp, C1; cbn [fst snd]; lra. }
  split; [reflexivity|]. split; [reflexivity|]. split; [reflexivity|]. split; [exact E|].
  intros H.
  specialize (H [0] [2] [2] eq_refl eq_refl eq_refl [2] ltac:(cbn; auto) [0] ltac:(cbn; auto)
    [2] ltac:(cbn; auto) eq_refl 0%nat 0%nat 0%nat 0%nat ltac:(cbn; lia) ltac:(cbn; lia)
    ltac:(cbn; lia) ltac:(cbn; lia)).
  change (C1 = Cmul (R [2] [2] [0] 0%nat)
      (Cmul (F [2] [0] [2] [0] [2] [2] 0%nat 0%nat 0%nat 0%nat) (Cconj (R [0] [2] [2] 0%nat)))) in H.
  rewrite E in H. assert (H0 := f_equal fst H). cbn in H0. lra.
Qed.
Print Assumptions C10_Ising_C_symbol_psi_psi_refuted.

Example C10_example :
  Z.odd (-3) = true /\ ising_nu (-3) = 13 /\ ising_fs (ising_nu (-3)) [1] = -1 /\
  sym_outcomes Ising [1] [1] = [[0]; [2]].
Proof. repeat split; reflexivity. Qed.

(** ** C16 *)
Theorem C16_SU3_3_category :
  fusion_ring SU3_3 /\
  braided_category SU3_3 Cops su33_Fc su33_Rc (fun a => RtoC (IZR (su33_fs a))) (fun a => RtoC (su33_qdim a)) /\
  C_is_RFR SU3_3 Cops su33_Fc su33_Rc su33_Cc.
Proof. split; [exact SU3_3_ring|]. split; [exact su33_category|exact su33_C_ok]. Qed.
Print Assumptions C16_SU3_3_category.

Theorem C16_SU3_3_dual_sectors_agree :
  forall l, Forall (fun a => sym_valid SU3_3 a = true) l ->
    su33_dual_sectors l = map (sym_dual SU3_3) l.
Proof.
  intros l H. unfold su33_dual_sectors. apply map_ext_in. intros a Ha. rewrite Forall_forall in H.
  specialize (H a Ha). apply su33_secs in H. cbn in H. intuition subst; reflexivity.
Qed.
Print Assumptions C16_SU3_3_dual_sectors_agree.

(** the values of the R symbol (they fix the order of the two multiplicity labels of 1 x 1 -> 1): -i and i for 1 x 1 -> 1,
    -1 for 1 x 1 -> an invertible sector, 1 if a leg is invertible *)
Theorem C16_SU3_3_R_values :
  (su33_Rc [1] [1] [1] 0%nat = (0, -1)%R /\ su33_Rc [1] [1] [1] 1%nat = (0, 1)%R) /\
  (forall c, In c [[0]; [2]; [3]] -> su33_Rc [1] [1] c 0%nat = Copp C1) /\
  (forall a b c, In a [[0]; [2]; [3]] \/ In b [[0]; [2]; [3]] -> su33_Rc a b c 0%nat = C1).
Proof.
  split; [split; unfold su33_Rc, su33_R; cbn; apply C_eq; cbn; lra|]. split.
  - intros c H. cbn in H. intuition subst; reflexivity.
  - intros a b c H. unfold su33_Rc, su33_R. replace ((q0 a =? 1) && (q0 b =? 1))%bool with false; [reflexivity|]. symmetry. apply andb_false_iff.
    cbn in H. intuition subst; auto.
Qed.
Print Assumptions C16_SU3_3_R_values.

Example C16_example :
  sym_outcomes SU3_3 [1] [1] = [[0]; [1]; [2]; [3]] /\ n_symbol SU3_3 [1] [1] [1] = 2%nat /\
  n_symbol SU3_3 [1] [1] [3] = 1%nat /\ sym_dual SU3_3 [2] = [3] /\
  left_count SU3_3 [1] [1] [1] [1] = 7%nat.
Proof. repeat split; reflexivity. Qed.
