From Coq Require Import Reals Lra Permutation.
From Flocq Require Import Core BinarySingleNaN.
From Verif Require Import Util RowModel SymModel SunModel.
Set Implicit Arguments. Unset Strict Implicit.
Open Scope Z_scope.

(** * Validity *)
Definition weight (N : nat) (a : list Z) : Prop :=
  length a = N /\ (forall i j, (i <= j < N)%nat -> nth j a 0 <= nth i a 0) /\ nth (N - 1) a 0 = 0 /\ nth 0 a 0 < 32768.

Lemma non_increasing_spec : forall a, non_increasing a = true <->
  (forall i, (S i < length a)%nat -> nth (S i) a 0 <= nth i a 0).
Proof.
  induction a as [|x a IH]; [cbn; split; [intros; lia | reflexivity]|].
  destruct a as [|y t]; [cbn; split; [intros; lia | reflexivity]|].
  change (non_increasing (x :: y :: t)) with (negb (x <? y) && non_increasing (y :: t)).
  rewrite andb_true_iff, IH. split.
  - intros [H1 H2] [|i] L; [cbn; apply negb_true_iff in H1; apply Z.ltb_ge in H1; lia|].
    apply (H2 i). cbn in *. lia.
  - intros H. split; [specialize (H 0%nat); cbn in H; apply negb_true_iff; apply Z.ltb_ge; apply H; lia|].
    intros i L. apply (H (S i)). cbn in *. lia.
Qed.

Lemma steps_mono (a : list Z) : (forall i, (S i < length a)%nat -> nth (S i) a 0 <= nth i a 0) ->
  forall i j, (i <= j < length a)%nat -> nth j a 0 <= nth i a 0.
Proof.
  intros H i j [L1 L2]. induction j as [|j IH]; [replace i with 0%nat by lia; lia|].
  destruct (Nat.eq_dec i (S j)) as [ -> |NE]; [lia|]. specialize (H j L2). assert (nth j a 0 <= nth i a 0) by (apply IH; lia). lia.
Qed.

Lemma sun_valid_weight : forall N a, (1 <= N)%nat -> (sun_valid N a = true <-> weight N a).
Proof.
  intros N a HN. unfold sun_valid, weight. rewrite !andb_true_iff, Nat.eqb_eq, !forallb_forall, non_increasing_spec, Z.eqb_eq.
  split.
  - intros [[[[HL HI] HP] HS] H0]. subst N. split; [reflexivity|].
    split; [apply steps_mono, HS|]. split; [rewrite <- H0; apply nth_indep; lia|].
    assert (In (nth 0 a 0) a) as Hin by (apply nth_In; lia).
    specialize (HI _ Hin). unfold int16b in HI. apply andb_true_iff in HI as [_ HI]. apply Z.ltb_lt in HI. exact HI.
  - intros (HL & HM & H0 & HT). subst N.
    assert (B : forall x, In x a -> 0 <= x < 32768).
    { intros x Hx. destruct (In_nth a x 0 Hx) as (i & Li & <-).
      assert (nth (length a - 1) a 0 <= nth i a 0) by (apply HM; lia).
      assert (nth i a 0 <= nth 0 a 0) by (apply HM; lia). lia. }
    split; [split; [split; [split; [reflexivity|]|]|]|].
    + intros x Hx. specialize (B x Hx). unfold int16b. apply andb_true_iff. rewrite Z.leb_le, Z.ltb_lt. lia.
    + intros x Hx. specialize (B x Hx). apply negb_true_iff, Z.ltb_ge. lia.
    + intros i Li. apply HM. lia.
    + rewrite <- H0. apply nth_indep. lia.
Qed.

(** * Duals *)
Lemma fold_max_ge : forall l x, (forall y, In y l -> y <= x) -> fold_left Z.max l x = x.
Proof. induction l as [|y l IH]; intros x H; [reflexivity|]. cbn. rewrite Z.max_l by (apply H; left; reflexivity). apply IH. intros z Hz. apply H. right. exact Hz. Qed.

Lemma sun_max_weight : forall N a, (1 <= N)%nat -> weight N a -> sun_max a = nth 0 a 0.
Proof.
  intros N a HN (HL & HM & _). destruct a as [|x a]; [cbn in HL; lia|]. unfold sun_max. cbn.
  apply fold_max_ge. intros y Hy. destruct (In_nth a y 0 Hy) as (i & Li & <-).
  apply (HM 0%nat (S i)). cbn in HL. lia.
Qed.

Lemma to_i16_id : forall x, -32768 <= x < 32768 -> to_i16 x = x.
Proof. intros x H. unfold to_i16. rewrite Z.mod_small; lia. Qed.

Lemma sun_dual_nth : forall N a i, (1 <= N)%nat -> weight N a -> (i < N)%nat ->
  nth i (sun_dual a) 0 = nth 0 a 0 - nth (N - 1 - i) a 0.
Proof.
  intros N a i HN W Li. assert (E := sun_max_weight HN W). destruct W as (HL & HM & H0 & HT). unfold sun_dual. rewrite E.
  rewrite rev_nth by (rewrite map_length; lia). rewrite map_length, HL.
  replace (N - S i)%nat with (N - 1 - i)%nat by lia.
  rewrite nth_map_lt with (d := 0) by lia. set (j := (N - 1 - i)%nat).
  assert (nth j a 0 <= nth 0 a 0) by (apply HM; unfold j; lia).
  assert (nth (N - 1) a 0 <= nth j a 0) by (apply HM; unfold j; lia).
  rewrite (@to_i16_id (nth j a 0 - _)) by lia. rewrite to_i16_id by lia. lia.
Qed.

Lemma sun_dual_length : forall a, length (sun_dual a) = length a.
Proof. intros. unfold sun_dual. rewrite rev_length, map_length. reflexivity. Qed.

Lemma sun_dual_weight : forall N a, (1 <= N)%nat -> weight N a -> weight N (sun_dual a).
Proof.
  intros N a HN W. assert (D := fun i => @sun_dual_nth N a i HN W). destruct W as (HL & HM & H0 & HT).
  split; [rewrite sun_dual_length; exact HL|]. split; [|split].
  - intros i j L. rewrite !D by lia. assert (nth (N - 1 - i) a 0 <= nth (N - 1 - j) a 0) by (apply HM; lia). lia.
  - rewrite D by lia. replace (N - 1 - (N - 1))%nat with 0%nat by lia. lia.
  - rewrite D by lia. rewrite Nat.sub_0_r. lia.
Qed.

Lemma sun_dual_involutive : forall N a, (1 <= N)%nat -> weight N a -> sun_dual (sun_dual a) = a.
Proof.
  intros N a HN W. assert (W' := sun_dual_weight HN W). apply list_eq_nth with (d := 0).
  - rewrite !sun_dual_length. reflexivity.
  - intros i Li. rewrite !sun_dual_length in Li. assert (HL := proj1 W). rewrite HL in Li.
    rewrite (sun_dual_nth HN W') by exact Li. rewrite !(sun_dual_nth HN W) by lia.
    replace (N - 1 - 0)%nat with (N - 1)%nat by lia. replace (N - 1 - (N - 1 - i))%nat with i by lia.
    destruct W as (_ & _ & H0 & _). lia.
Qed.

Lemma sun_dual_zeros : forall N, sun_dual (zeros_sector N) = zeros_sector N.
Proof.
  intros [|N]; [reflexivity|]. apply list_eq_nth with (d := 0); [apply sun_dual_length|].
  unfold zeros_sector. intros i Li. rewrite sun_dual_length, repeat_length in Li.
  assert (Z0 : forall j, nth j (repeat 0 (S N)) 0 = 0) by (intros; apply nth_repeat).
  rewrite (@sun_dual_nth (S N)); [rewrite !Z0; lia | lia | | exact Li].
  split; [apply repeat_length|]. split; [intros; rewrite !Z0; lia|]. split; [apply Z0 | rewrite Z0; lia].
Qed.

(** * Weyl dimension formula *)
Definition zprod (l : list Z) : Z := fold_right Z.mul 1 l.
Lemma zprod_perm : forall l l', Permutation l l' -> zprod l = zprod l'.
Proof. induction 1; cbn [zprod fold_right] in *; unfold zprod in *; cbn; try lia; congruence. Qed.
Definition ordered_pairs (N : nat) : list (nat * nat) := filter (fun p => fst p <? snd p)%nat (list_prod (seq 1 N) (seq 1 N)).
Definition weyl_num (N : nat) (a : list Z) : Z :=
  zprod (map (fun p => nth (fst p - 1) a 0 - nth (snd p - 1) a 0 + Z.of_nat (snd p) - Z.of_nat (fst p)) (ordered_pairs N)).
Definition weyl_den (N : nat) : Z := zprod (map (fun p => Z.of_nat (snd p) - Z.of_nat (fst p)) (ordered_pairs N)).

Lemma ordered_pairs_In : forall N k l, In (k, l) (ordered_pairs N) <-> (1 <= k < l /\ l <= N)%nat.
Proof. intros. unfold ordered_pairs. rewrite filter_In, in_prod_iff, !in_seq. cbn [fst snd]. rewrite Nat.ltb_lt. lia. Qed.
Lemma NoDup_list_prod : forall (A B : Type) (l : list A) (l' : list B), NoDup l -> NoDup l' -> NoDup (list_prod l l').
Proof.
  induction l as [|x l IH]; intros l' H H'; [constructor|]. cbn. apply NoDup_cons_iff in H as [H1 H2].
  apply NoDup_app_intro; [|apply IH; assumption|].
  - apply NoDup_map_inj; [|exact H']. intros u v _ _ E. congruence.
  - intros [u v] H3 H4. apply in_map_iff in H3 as (w & E & _). apply in_prod_iff in H4 as [H4 _]. congruence.
Qed.
Lemma ordered_pairs_NoDup : forall N, NoDup (ordered_pairs N).
Proof. intros. apply NoDup_filter, NoDup_list_prod; apply seq_NoDup. Qed.

Lemma weyl_den_pos : forall N, 0 < weyl_den N.
Proof.
  intros N. unfold weyl_den. assert (H : forall p, In p (ordered_pairs N) -> (fst p < snd p)%nat) by (intros [k l]; rewrite ordered_pairs_In; cbn; lia).
  induction (ordered_pairs N) as [|p l IH]; [cbn; lia|]. cbn [map zprod fold_right]. apply Z.mul_pos_pos; [specialize (H p (or_introl eq_refl)); lia|].
  apply IH. intros q Hq. apply H. right. exact Hq.
Qed.

Lemma weyl_num_dual : forall N a, (1 <= N)%nat -> weight N a -> weyl_num N (sun_dual a) = weyl_num N a.
Proof.
  intros N a HN W. unfold weyl_num.
  set (g := fun p : nat * nat => (N + 1 - snd p, N + 1 - fst p)%nat).
  assert (P : Permutation (map g (ordered_pairs N)) (ordered_pairs N)).
  { apply NoDup_Permutation.
    - apply NoDup_map_inj; [|apply ordered_pairs_NoDup]. intros [k l] [k' l'] H1 H2 E.
      apply ordered_pairs_In in H1. apply ordered_pairs_In in H2. unfold g in E. cbn in E. injection E as E1 E2. f_equal; lia.
    - apply ordered_pairs_NoDup.
    - intros [k l]. rewrite in_map_iff. split.
      + intros ([k' l'] & E & H). apply ordered_pairs_In in H. unfold g in E. cbn in E. injection E as E1 E2. apply ordered_pairs_In. lia.
      + intros H. apply ordered_pairs_In in H. exists (N + 1 - l, N + 1 - k)%nat. split; [unfold g; cbn; f_equal; lia|]. apply ordered_pairs_In. lia. }
  transitivity (zprod (map (fun p => nth (fst p - 1) a 0 - nth (snd p - 1) a 0 + Z.of_nat (snd p) - Z.of_nat (fst p)) (map g (ordered_pairs N)))).
  - rewrite map_map. f_equal. apply map_ext_in. intros [k l] H. apply ordered_pairs_In in H. unfold g. cbn [fst snd].
    rewrite !(sun_dual_nth HN W) by lia.
    replace (N - 1 - (k - 1))%nat with (N + 1 - k - 1)%nat by lia. replace (N - 1 - (l - 1))%nat with (N + 1 - l - 1)%nat by lia. lia.
  - apply zprod_perm, Permutation_map, P.
Qed.

(** * Exact floating point steps *)
Open Scope R_scope.
(* x is a finite double with the real value n / 2, with |n| < 2^53 *)
Definition exact (x : f64) (n : Z) : Prop := is_finite x = true /\ B2R x = IZR n / 2.

Lemma half_format : forall n, (Z.abs n < 2 ^ 53)%Z -> generic_format radix2 (SpecFloat.fexp 53 1024) (IZR n / 2).
Proof.
  intros n H. apply (generic_format_FLT radix2 (-1074) 53). exists (Float radix2 n (-1)); cbn [Fnum Fexp].
  - unfold F2R. cbn. lra.
  - exact H.
  - lia.
Qed.
Lemma half_bound : forall n, (Z.abs n < 2 ^ 53)%Z -> Rabs (IZR n / 2) < bpow radix2 1024.
Proof.
  intros n H. apply Rle_lt_trans with (bpow radix2 53); [|apply bpow_lt; lia].
  assert (B : bpow radix2 53 = IZR (2 ^ 53)) by (symmetry; apply (IZR_Zpower radix2); lia).
  rewrite B. assert (- IZR (2^53) <= IZR n <= IZR (2^53)) as [H1 H2]. { rewrite <- opp_IZR. split; apply IZR_le; lia. }
  assert (0 < IZR (2 ^ 53)) by (apply IZR_lt; lia).
  apply Rabs_le. lra.
Qed.
Lemma half_round : forall n, (Z.abs n < 2 ^ 53)%Z -> round radix2 (SpecFloat.fexp 53 1024) (round_mode mode_NE) (IZR n / 2) = IZR n / 2.
Proof. intros. apply round_generic; [apply valid_rnd_N | apply half_format; assumption]. Qed.
Lemma half_test : forall n, (Z.abs n < 2 ^ 53)%Z ->
  Rlt_bool (Rabs (round radix2 (SpecFloat.fexp 53 1024) (round_mode mode_NE) (IZR n / 2))) (bpow radix2 1024) = true.
Proof. intros n H. rewrite half_round by exact H. apply Rlt_bool_true, half_bound, H. Qed.

Lemma exact_of_int : forall z, (Z.abs z < 2 ^ 52)%Z -> exact (f_of_int z) (2 * z).
Proof.
  intros z H. unfold f_of_int. pose proof (binary_normalize_correct 53 1024 prec53 prec53_emax mode_NE z 0 false) as C. cbv zeta in C.
  assert (E : F2R (Float radix2 z 0) = IZR (2 * z) / 2). { unfold F2R. cbn [Fnum Fexp bpow]. rewrite mult_IZR. lra. }
  rewrite E in C. rewrite half_test in C by lia. destruct C as (C1 & C2 & _). split; [exact C2|]. rewrite C1. apply half_round. lia.
Qed.
Lemma exact_add : forall x y n m, exact x n -> exact y m -> (Z.abs (n + m) < 2 ^ 53)%Z -> exact (fadd x y) (n + m).
Proof.
  intros x y n m [F1 V1] [F2 V2] H. pose proof (Bplus_correct 53 1024 prec53 prec53_emax mode_NE x y F1 F2) as C.
  rewrite V1, V2 in C. assert (E : IZR n / 2 + IZR m / 2 = IZR (n + m) / 2) by (rewrite plus_IZR; lra).
  rewrite E in C. rewrite half_test in C by exact H. destruct C as (C1 & C2 & _). split; [exact C2|]. unfold fadd. rewrite C1. apply half_round. exact H.
Qed.
Lemma exact_mul : forall x y n m p, exact x n -> exact y m -> (n * m = 2 * p)%Z -> (Z.abs p < 2 ^ 53)%Z -> exact (fmul x y) p.
Proof.
  intros x y n m p [F1 V1] [F2 V2] HP H. pose proof (Bmult_correct 53 1024 prec53 prec53_emax mode_NE x y) as C.
  rewrite V1, V2 in C. assert (E : IZR n / 2 * (IZR m / 2) = IZR p / 2).
  { apply (f_equal IZR) in HP. rewrite !mult_IZR in HP. lra. }
  rewrite E in C. rewrite half_test in C by exact H. destruct C as (C1 & C2 & _). rewrite F1, F2 in C2. split; [exact C2|]. unfold fmul. rewrite C1. apply half_round. exact H.
Qed.
Lemma exact_div : forall x y n m p, exact x n -> exact y m -> (m <> 0)%Z -> (2 * n = p * m)%Z -> (Z.abs p < 2 ^ 53)%Z -> exact (fdiv x y) p.
Proof.
  intros x y n m p [F1 V1] [F2 V2] HM HP H.
  assert (M : IZR m <> 0) by (apply (IZR_neq m 0 HM)).
  assert (NZ : B2R y <> 0) by (rewrite V2; lra).
  pose proof (Bdiv_correct 53 1024 prec53 prec53_emax mode_NE x y NZ) as C.
  rewrite V1, V2 in C. assert (E : IZR n / 2 / (IZR m / 2) = IZR p / 2).
  { apply (f_equal IZR) in HP. rewrite !mult_IZR in HP. apply Rmult_eq_reg_r with (IZR m); [|exact M]. field_simplify; [lra | exact M]. }
  rewrite E in C. rewrite half_test in C by exact H. destruct C as (C1 & C2 & _). split; [rewrite <- F1; exact C2|]. unfold fdiv. rewrite C1. apply half_round. exact H.
Qed.
Lemma exact_trunc : forall x z, exact x (2 * z) -> Btrunc x = z.
Proof.
  intros x z [F V]. apply eq_IZR. rewrite (Btrunc_correct 53 1024 prec53_emax), V.
  replace (IZR (2 * z) / 2) with (IZR z) by (rewrite mult_IZR; lra).
  rewrite round_FIX_IZR. rewrite Ztrunc_IZR. reflexivity.
Qed.
Close Scope R_scope.

Lemma dim_factor_1 : forall a kp k, (kp - k = 1)%nat ->
  let d := nth (k - 1) a 0 - nth (kp - 1) a 0 in 0 <= d < 32768 -> exact (dim_factor a (kp, k)) (2 * (d + 1)).
Proof.
  intros a kp k E d H. unfold dim_factor. rewrite E. fold d.
  replace (2 * (d + 1)) with (2 * 1 + 2 * d) by lia. apply exact_add; [apply exact_of_int; lia | | lia].
  apply exact_div with (2 * d) (2 * 1); [apply exact_of_int; lia | apply exact_of_int; lia | lia | lia | lia].
Qed.
Lemma dim_factor_2 : forall a kp k, (kp - k = 2)%nat ->
  let d := nth (k - 1) a 0 - nth (kp - 1) a 0 in 0 <= d < 32768 -> exact (dim_factor a (kp, k)) (d + 2).
Proof.
  intros a kp k E d H. unfold dim_factor. rewrite E. fold d.
  replace (d + 2) with (2 * 1 + d) by lia. apply exact_add; [apply exact_of_int; lia | | lia].
  apply exact_div with (2 * d) (2 * 2); [apply exact_of_int; lia | apply exact_of_int; lia | lia | lia | lia].
Qed.

Lemma sun_dim_2 : forall a, weight 2 a -> sun_dim 2 a = nth 0 a 0 + 1.
Proof.
  intros a (HL & HM & H0 & HT). cbn in H0. assert (H1 := HM 0%nat 1%nat ltac:(lia)).
  unfold sun_dim, sun_dim_float. change (weyl_pairs 2) with [(2, 1)%nat]. cbn [fold_left].
  apply exact_trunc. apply exact_mul with (2 * 1) (2 * (nth 0 a 0 + 1)).
  - apply exact_of_int. lia.
  - pose proof (@dim_factor_1 a 2%nat 1%nat eq_refl) as D. cbn [Nat.sub] in D. rewrite H0, Z.sub_0_r in D. apply D. lia.
  - lia.
  - lia.
Qed.

Lemma sun_dim_3 : forall a, weight 3 a ->
  2 * sun_dim 3 a = (nth 0 a 0 - nth 1 a 0 + 1) * (nth 0 a 0 + 2) * (nth 1 a 0 + 1).
Proof.
  intros a (HL & HM & H0 & HT). cbn in H0. assert (H1 := HM 0%nat 1%nat ltac:(lia)). assert (H2 := HM 1%nat 2%nat ltac:(lia)).
  rewrite H0 in H2. set (p := nth 0 a 0) in *. set (q := nth 1 a 0) in *.
  assert (X : exists z, (p - q + 1) * (p + 2) * (q + 1) = 2 * z).
  { destruct (Z.Even_or_Odd (q + 1)) as [[u Eu]|[u Eu]]; [exists ((p - q + 1) * (p + 2) * u); nia|].
    destruct (Z.Even_or_Odd (p - q + 1)) as [[v Ev]|[v Ev]]; [exists (v * (p + 2) * (q + 1)); nia|].
    exists ((p - q + 1) * (u + v + 1) * (q + 1)). replace (p + 2) with (2 * (u + v + 1)) by lia. ring. }
  destruct X as [z Ez]. enough (sun_dim 3 a = z) by lia.
  unfold sun_dim, sun_dim_float. change (weyl_pairs 3) with [(2, 1); (3, 1); (3, 2)]%nat. cbn [fold_left].
  assert (B1 : 0 <= (p - q + 1) * (p + 2) <= 32768 * 32769) by nia.
  assert (B2 : 0 <= (p - q + 1) * (p + 2) * (q + 1) <= 32768 * 32769 * 32768).
  { split; [apply Z.mul_nonneg_nonneg; lia|]. apply Z.mul_le_mono_nonneg; lia. }
  apply exact_trunc. apply exact_mul with ((p - q + 1) * (p + 2)) (2 * (q + 1)).
  - apply exact_mul with (2 * (p - q + 1)) (p + 2).
    + apply exact_mul with (2 * 1) (2 * (p - q + 1)); [apply exact_of_int; lia | | lia | lia].
      apply (@dim_factor_1 a 2%nat 1%nat eq_refl). cbn. fold p q. lia.
    + pose proof (@dim_factor_2 a 3%nat 1%nat eq_refl) as D. cbn [Nat.sub] in D. rewrite H0, Z.sub_0_r in D. apply D. fold p. lia.
    + ring.
    + lia.
  - pose proof (@dim_factor_1 a 3%nat 2%nat eq_refl) as D. cbn [Nat.sub] in D. rewrite H0, Z.sub_0_r in D. apply D. fold q. lia.
  - lia.
  - lia.
Qed.
