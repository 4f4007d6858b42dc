(** Labels and basis sectors; spins; spinful fermions; clock operators. *)
From Coq Require Import Reals ZArith List Arith Lia Bool Lra.
From Verif Require Import Util Cplx Hilbert SiteModel SiteSpec SiteProofs1 SiteProofs2 SiteProofs3.
Import ListNotations.
Set Implicit Arguments. Unset Strict Implicit.
Open Scope nat_scope.

(** ** the states in the order of itertools.product *)
Lemma flat_map_seq A (g : nat -> nat -> A) n m : 0 < m ->
  flat_map (fun q => map (g q) (seq 0 m)) (seq 0 n) = map (fun s => g (s / m) (s mod m)) (seq 0 (n * m)).
Proof.
  intros Hm. induction n as [|n IH]; [reflexivity|]. rewrite seq_S, flat_map_app, IH. cbn [flat_map Nat.add]. rewrite app_nil_r.
  replace (S n * m) with (n * m + m) by lia. rewrite seq_app, map_app. f_equal. cbn [Nat.add].
  rewrite <- (Nat.add_0_r (n * m)), <- (map_id (seq (n * m + 0) m)). 
  assert (E : forall k a, seq (a + k) m = map (fun r => a + r) (seq k m)).
  { clear. induction m as [|m IH]; intros k a; [reflexivity|]. cbn [seq map]. f_equal. rewrite <- IH. f_equal. lia. }
  rewrite map_id, E, map_map. apply map_ext_in. intros r Hr. apply in_seq in Hr. f_equal.
  - rewrite Nat.add_comm, Nat.div_add, Nat.div_small by lia. reflexivity.
  - rewrite Nat.add_comm, Nat.mod_add, Nat.mod_small by lia. reflexivity.
Qed.
Lemma occs_snoc l N s : occs (l ++ [N]) s = occs l (s / (N + 1)) ++ [s mod (N + 1)].
Proof.
  unfold occs. rewrite app_length, Nat.add_1_r, seq_S, map_app. cbn [map Nat.add]. rewrite occ_last. f_equal. apply map_ext_in. intros k Hk. apply in_seq in Hk. apply occ_snoc. lia.
Qed.
Lemma product_occs l : product (state_ranges l) = map (occs l) (seq 0 (sdim l)).
Proof.
  induction l as [|N l IH] using rev_ind; [reflexivity|]. unfold product, state_ranges in *. rewrite map_app, fold_left_app. cbn [map fold_left]. rewrite IH.
  rewrite flat_map_concat_map, map_map, <- flat_map_concat_map. rewrite sdim_snoc.
  rewrite (@flat_map_seq _ (fun q r => occs l q ++ [r])) by lia. apply map_ext. intros s. symmetry. apply occs_snoc.
Qed.
Lemma natsum_app a b : natsum (a ++ b) = natsum a + natsum b.
Proof. induction a as [|x a IH]; [reflexivity|]. cbn [app natsum fold_right]. fold (natsum (a ++ b)) (natsum a). lia. Qed.
Lemma natsum_map_scale c A (f : A -> nat) l : natsum (map (fun x => f x * c) l) = natsum (map f l) * c.
Proof. induction l as [|x l IH]; [reflexivity|]. cbn [map natsum fold_right]. fold (natsum (map (fun x => f x * c) l)) (natsum (map f l)). lia. Qed.
Lemma occ_index l : forall s, s < sdim l -> natsum (map (fun k => occ l s k * stride l k) (seq 0 (length l))) = s.
Proof.
  induction l as [|N l IH] using rev_ind; intros s Hs; [cbn in *; lia|]. rewrite app_length, Nat.add_1_r, seq_S, map_app, natsum_app. cbn [map Nat.add natsum fold_right].
  rewrite occ_last. replace (stride (l ++ [N]) (length l)) with 1. 2:{ unfold stride. rewrite skipn_all2 by (rewrite app_length; cbn; lia). reflexivity. }
  rewrite (map_ext_in _ (fun k => occ l (s / (N + 1)) k * stride l k * (N + 1))).
  2:{ intros k Hk. apply in_seq in Hk. rewrite occ_snoc, stride_snoc by lia. lia. }
  rewrite natsum_map_scale, IH by now apply snoc_div. rewrite (Nat.div_mod s (N + 1)) at 3 by lia. lia.
Qed.
Lemma dim_prod_stride l i : fold_left Nat.mul (map (fun j => nth j l 0 + 1) (seq (i + 1) (length l - (i + 1)))) 1 = stride l i.
Proof.
  unfold stride. generalize (i + 1). clear i. intros i. assert (G : forall m i a, length l = i + m -> fold_left Nat.mul (map (fun j => nth j l 0 + 1) (seq i m)) a = a * sdim (skipn i l)).
  { induction m as [|m IH]; intros k a E.
    - rewrite skipn_all2 by lia. cbn. lia.
    - cbn [seq map fold_left]. rewrite IH by lia. assert (Q : skipn k l = nth k l 0 :: skipn (S k) l).
      { clear -E. revert k E. induction l as [|x l' IHl]; intros k E; [cbn in E; lia|]. destruct k; [reflexivity|]. cbn [skipn nth]. rewrite IHl by (cbn in E; lia). reflexivity. }
      rewrite Q. cbn [sdim]. ring. }
  destruct (Nat.le_gt_cases i (length l)) as [H|H]; [rewrite G by lia; lia|]. replace (length l - i) with 0 by lia. rewrite skipn_all2 by lia. reflexivity.
Qed.
Lemma combine_map_same A B (f g : nat -> A) (h : A * A -> B) l : map h (combine (map f l) (map g l)) = map (fun k => h (f k, g k)) l.
Proof. induction l as [|x l IH]; [reflexivity|]. cbn [map combine]. now rewrite IH. Qed.
Lemma boson_labels_eq l : boson_labels l = map (fun s => (occs l s, s)) (seq 0 (sdim l)).
Proof.
  unfold boson_labels. rewrite product_occs, map_map. apply map_ext_in. intros s Hs. apply in_seq in Hs. f_equal.
  rewrite (map_ext _ (stride l)) by apply dim_prod_stride. unfold occs. rewrite (combine_map_same (occ l s) (stride l) (fun p => fst p * snd p)). apply occ_index. lia.
Qed.
Lemma rep_snoc n : repeat 1 (S n) = repeat 1 n ++ [1].
Proof. induction n as [|n IH]; [reflexivity|]. cbn [repeat app] in *. now rewrite IH at 1. Qed.
Lemma ranges_rep n : repeat [0; 1] n = state_ranges (repeat 1 n).
Proof. unfold state_ranges. induction n as [|n IH]; [reflexivity|]. cbn [repeat map]. now rewrite IH. Qed.
Lemma bits_index n : forall s, s < 2 ^ n -> fold_left (fun idx x => Nat.lor (Nat.shiftl idx 1) x) (occs (repeat 1 n) s) 0 = s.
Proof.
  induction n as [|n IH]; intros s Hs; [cbn in *; lia|]. rewrite rep_snoc, occs_snoc, fold_left_app. change (1 + 1) with 2. cbn [Nat.pow] in Hs.
  rewrite IH by (apply Nat.div_lt_upper_bound; lia). cbn [fold_left].
  assert (B := Nat.mod_upper_bound s 2 ltac:(lia)). assert (E := Nat.div_mod s 2 ltac:(lia)).
  assert (G : forall q r, r < 2 -> Nat.lor (Nat.shiftl q 1) r = 2 * q + r).
  { intros q r Hr. rewrite Nat.shiftl_mul_pow2. destruct r as [|[|r]]; [rewrite Nat.lor_0_r; cbn; lia| |lia]. apply Nat.bits_inj. intros b. rewrite Nat.lor_spec.
    replace (q * 2 ^ 1) with (2 * q) by (cbn; lia). destruct b as [|b]; [rewrite !Nat.testbit_even_0, Nat.testbit_odd_0; reflexivity|].
    rewrite Nat.testbit_even_succ, Nat.testbit_odd_succ by lia. replace (Nat.testbit 1 (S b)) with false; [apply orb_false_r|]. symmetry. change (Nat.testbit 1 (S b)) with (Nat.testbit 0 b). apply Nat.bits_0. }
  rewrite G by assumption. lia.
Qed.
Lemma fermion_labels_eq n : fermion_labels n = map (fun s => (occs (repeat 1 n) s, s)) (seq 0 (2 ^ n)).
Proof.
  unfold fermion_labels. rewrite ranges_rep, product_occs, sdim_rep, map_map. apply map_ext_in. intros s Hs. apply in_seq in Hs. f_equal. apply bits_index. lia.
Qed.
Lemma natsum_occs l s : natsum (occs l s) = occ_total l s. Proof. reflexivity. Qed.

(** ** spin *)
Section Spin.
  Variable two_S : nat.
  Notation d := (two_S + 1).
  Notation P := (spin_Sp two_S).
  Notation Zz := (spin_Sz two_S).
  Notation M := (mconjT (spin_Sp two_S)).
  Notation sS := (INR two_S / 2)%R.
  Definition coeff (j : nat) : R := let m := (INR j - sS)%R in sqrt (sS * (sS + 1) - m * (m + 1)).
  Lemma Sp_fold n i j : fold_left (fun M n => let m := (INR n - sS)%R in mset M (n + 1) n (RtoC (sqrt (sS * (sS + 1) - m * (m + 1))))) (seq 0 n) mzero i j
    = if (i =? j + 1) && (j <? n) then RtoC (coeff j) else C0.
  Proof.
    induction n as [|n IH].
    - cbn [seq fold_left]. rewrite andb_false_r. reflexivity.
    - rewrite seq_S, fold_left_app. cbn [fold_left Nat.add]. unfold mset at 1. cbv zeta in IH. rewrite IH.
      destruct (Nat.eqb_spec i (n + 1)); destruct (Nat.eqb_spec j n); destruct (Nat.eqb_spec i (j + 1)); destruct (Nat.ltb_spec j n); destruct (Nat.ltb_spec j (S n)); cbn [andb]; try lia; try reflexivity. now subst j.
  Qed.
  Lemma Sp_entry i j : i < d -> j < d -> P i j = if i =? j + 1 then RtoC (coeff j) else C0.
  Proof.
    intros Hi Hj. assert (E := Sp_fold (two_S + 1 - 1) i j). unfold spin_Sp. cbv zeta in *. rewrite E. destruct (Nat.eqb_spec i (j + 1)); [|reflexivity]. destruct (Nat.ltb_spec j (two_S + 1 - 1)); [reflexivity|lia].
  Qed.
  Lemma Sm_entry i j : i < d -> j < d -> M i j = if j =? i + 1 then RtoC (coeff i) else C0.
  Proof. intros Hi Hj. unfold mconjT. rewrite Sp_entry by assumption. destruct (j =? i + 1); [apply RtoC_conj|apply C_eq; cbn; ring]. Qed.
  Lemma coeff_sq j : j <= two_S -> Cmul (RtoC (coeff j)) (RtoC (coeff j)) = RtoC ((INR j + 1) * (INR two_S - INR j)).
  Proof.
    intros Hj. rewrite <- RtoC_mul. f_equal. unfold coeff. cbv zeta. assert (0 <= INR j)%R by apply pos_INR. assert (INR j <= INR two_S)%R by (apply le_INR; lia).
    rewrite sqrt_sqrt; [field|]. replace (sS * (sS + 1) - (INR j - sS) * (INR j - sS + 1))%R with ((INR j + 1) * (INR two_S - INR j))%R by field. apply Rmult_le_pos; lra.
  Qed.
  Lemma PM_entry i j : i < d -> j < d -> mmul d P M i j = mdiag (fun i => RtoC (INR i * (INR two_S - INR i + 1))) i j.
  Proof.
    intros Hi Hj. unfold mmul, mdiag. destruct (Nat.eqb_spec i j) as [ <- |Ne].
    - destruct i as [|i].
      + rewrite msum_zero'; [cbn [INR]; apply C_eq; cbn; ring|]. intros k Hk. rewrite Sp_entry by lia. destruct (Nat.eqb_spec 0 (k + 1)); [lia|ring].
      + rewrite msum_one with (k := i); [|lia|].
        * rewrite Sp_entry, Sm_entry by lia. rewrite Nat.add_1_r, Nat.eqb_refl. rewrite coeff_sq by lia. f_equal. rewrite S_INR. ring.
        * intros k Hk Nk. rewrite Sp_entry by lia. destruct (Nat.eqb_spec (S i) (k + 1)); [lia|ring].
    - apply msum_zero'. intros k Hk. rewrite Sp_entry, Sm_entry by lia. destruct (Nat.eqb_spec i (k + 1)); [|ring]. destruct (Nat.eqb_spec j (k + 1)); [lia|ring].
  Qed.
  Lemma MP_entry i j : i < d -> j < d -> mmul d M P i j = mdiag (fun i => RtoC ((INR i + 1) * (INR two_S - INR i))) i j.
  Proof.
    intros Hi Hj. unfold mmul, mdiag. destruct (Nat.eqb_spec i j) as [ <- |Ne].
    - destruct (Nat.eq_dec i two_S) as [ -> |Ni].
      + rewrite msum_zero'; [apply C_eq; cbn; ring|]. intros k Hk. rewrite Sm_entry by lia. destruct (Nat.eqb_spec k (two_S + 1)); [lia|ring].
      + rewrite msum_one with (k := i + 1); [|lia|].
        * rewrite Sp_entry, Sm_entry by lia. rewrite Nat.eqb_refl. apply coeff_sq. lia.
        * intros k Hk Nk. rewrite Sm_entry by lia. destruct (Nat.eqb_spec k (i + 1)); [lia|ring].
    - apply msum_zero'. intros k Hk. rewrite Sp_entry, Sm_entry by lia. destruct (Nat.eqb_spec k (i + 1)); [|ring]. destruct (Nat.eqb_spec k (j + 1)); [lia|ring].
  Qed.
  Lemma Sz_diag : Zz = mdiag (fun n => RtoC (- sS + INR n)). Proof. reflexivity. Qed.
  Lemma PM_comm i j : i < d -> j < d -> Csub (mmul d P M i j) (mmul d M P i j) = Cmul (RtoC 2) (Zz i j).
  Proof.
    intros Hi Hj. rewrite PM_entry, MP_entry, Sz_diag by assumption. unfold mdiag. destruct (i =? j); [|apply C_eq; cbn; ring]. unfold Csub. rewrite <- RtoC_opp, <- RtoC_add, <- RtoC_mul. f_equal. field.
  Qed.
  Lemma ZP_comm i j : i < d -> j < d -> Csub (mmul d Zz P i j) (mmul d P Zz i j) = P i j.
  Proof.
    intros Hi Hj. rewrite Sz_diag, mmul_diag_l, mmul_diag_r, Sp_entry by assumption. destruct (Nat.eqb_spec i (j + 1)) as [ -> |]; [|ring].
    rewrite plus_INR. change (INR 1) with 1%R. unfold Csub. rewrite <- !RtoC_mul, <- RtoC_opp, <- RtoC_add. f_equal. ring.
  Qed.
  Lemma ZM_comm i j : i < d -> j < d -> Csub (mmul d Zz M i j) (mmul d M Zz i j) = Copp (M i j).
  Proof.
    intros Hi Hj. rewrite Sz_diag, mmul_diag_l, mmul_diag_r, Sm_entry by assumption. destruct (Nat.eqb_spec j (i + 1)) as [ -> |]; [|ring].
    rewrite plus_INR. change (INR 1) with 1%R. unfold Csub. rewrite <- !RtoC_mul, <- !RtoC_opp, <- RtoC_add. f_equal. ring.
  Qed.
End Spin.

(** linearity of the matrix product *)
Lemma mmul_scale_l d a A B i j : mmul d (mscale a A) B i j = Cmul a (mmul d A B i j).
Proof. unfold mmul, mscale. rewrite <- msum_scale. apply msum_ext. intros. ring. Qed.
Lemma mmul_scale_r d a A B i j : mmul d A (mscale a B) i j = Cmul a (mmul d A B i j).
Proof. unfold mmul, mscale. rewrite <- msum_scale. apply msum_ext. intros. ring. Qed.
Lemma mmul_add_l d A A' B i j : mmul d (madd A A') B i j = Cadd (mmul d A B i j) (mmul d A' B i j).
Proof. unfold mmul, madd. rewrite <- msum_add. apply msum_ext. intros. ring. Qed.
Lemma mmul_add_r d A B B' i j : mmul d A (madd B B') i j = Cadd (mmul d A B i j) (mmul d A B' i j).
Proof. unfold mmul, madd. rewrite <- msum_add. apply msum_ext. intros. ring. Qed.
Lemma mmul_sub_l d A A' B i j : mmul d (msub A A') B i j = Csub (mmul d A B i j) (mmul d A' B i j).
Proof. unfold mmul, msub, Csub. rewrite <- msum_opp, <- msum_add. apply msum_ext. intros. ring. Qed.
Lemma mmul_sub_r d A B B' i j : mmul d A (msub B B') i j = Csub (mmul d A B i j) (mmul d A B' i j).
Proof. unfold mmul, msub, Csub. rewrite <- msum_opp, <- msum_add. apply msum_ext. intros. ring. Qed.

Definition half : C := RtoC (1/2).
Lemma half4 : Cmul (Cmul (RtoC 2) (RtoC 2)) (Cmul half half) = C1. Proof. unfold half. rewrite <- !RtoC_mul. unfold RtoC, C1. f_equal. field. Qed.
Lemma half2 : Cmul (RtoC 2) half = C1. Proof. unfold half. rewrite <- RtoC_mul. unfold RtoC, C1. f_equal. field. Qed.
Lemma Ci2 : Cmul Ci Ci = Copp C1. Proof. apply C_eq; cbn; ring. Qed.
Lemma ihalf : ((0, 1/2)%R : C) = Cmul Ci half. Proof. apply C_eq; unfold half, Ci; cbn; ring. Qed.
Lemma two_C : RtoC 2 = Cadd C1 C1. Proof. apply C_eq; cbn; ring. Qed.
(** a vector operator built from a ladder operator *)
Section Ladder.
  Variables (d : nat) (Zz P : mat).
  Notation M := (mconjT P).
  Hypothesis H1 : forall i j, i < d -> j < d -> Csub (mmul d P M i j) (mmul d M P i j) = Cmul (RtoC 2) (Zz i j).
  Hypothesis H2 : forall i j, i < d -> j < d -> Csub (mmul d Zz P i j) (mmul d P Zz i j) = P i j.
  Hypothesis H3 : forall i j, i < d -> j < d -> Csub (mmul d Zz M i j) (mmul d M Zz i j) = Copp (M i j).
  Notation v := (spin_vector_from_Sp Zz P).
  Ltac ex := unfold comm, spin_vector_from_Sp; rewrite ?mmul_scale_l, ?mmul_scale_r, ?mmul_add_l, ?mmul_add_r, ?mmul_sub_l, ?mmul_sub_r, ?mmul_scale_l, ?mmul_scale_r, ?mmul_add_l, ?mmul_add_r, ?mmul_sub_l, ?mmul_sub_r.
  Lemma ladder_xy : meq d (comm d (v 0) (v 1)) (mscale Ci (v 2)).
  Proof.
    intros i j Hi Hj. ex. rewrite ihalf. change (RtoC (1/2)) with half. unfold mscale.
    transitivity (Cmul Ci (Cmul (Cmul half half) (Cmul (RtoC 2) (Csub (mmul d P M i j) (mmul d M P i j))))).
    - rewrite two_C. ring.
    - rewrite H1 by assumption. transitivity (Cmul Ci (Cmul (Cmul (Cmul (RtoC 2) (RtoC 2)) (Cmul half half)) (Zz i j))); [ring|]. rewrite half4. ring.
  Qed.
  Lemma ladder_yz : meq d (comm d (v 1) (v 2)) (mscale Ci (v 0)).
  Proof.
    intros i j Hi Hj. ex. rewrite ihalf. change (RtoC (1/2)) with half. unfold mscale, madd.
    transitivity (Cmul (Cmul Ci half) (Csub (Csub (mmul d Zz P i j) (mmul d P Zz i j)) (Csub (mmul d Zz M i j) (mmul d M Zz i j)))); [ring|].
    rewrite H2, H3 by assumption. ring.
  Qed.
  Lemma ladder_zx : meq d (comm d (v 2) (v 0)) (mscale Ci (v 1)).
  Proof.
    intros i j Hi Hj. ex. change (RtoC (1/2)) with half. unfold mscale, msub. rewrite ihalf.
    transitivity (Cmul half (Cadd (Csub (mmul d Zz P i j) (mmul d P Zz i j)) (Csub (mmul d Zz M i j) (mmul d M Zz i j)))); [ring|].
    rewrite H2, H3 by assumption. replace (Cmul Ci (Cmul (Cmul Ci half) (Csub (M i j) (P i j)))) with (Cmul (Cmul Ci Ci) (Cmul half (Csub (M i j) (P i j)))) by ring. rewrite Ci2. ring.
  Qed.
  Lemma ladder_sq i j : Cadd (Cadd (mmul d (v 0) (v 0) i j) (mmul d (v 1) (v 1) i j)) (mmul d (v 2) (v 2) i j)
    = Cadd (Cmul half (Cadd (mmul d P M i j) (mmul d M P i j))) (mmul d Zz Zz i j).
  Proof.
    ex. rewrite ihalf. change (RtoC (1/2)) with half.
    transitivity (Cadd (Cadd (Cmul (Cmul half half) (Cadd (Cadd (mmul d P P i j) (mmul d P M i j)) (Cadd (mmul d M P i j) (mmul d M M i j))))
                      (Cmul (Cmul Ci Ci) (Cmul (Cmul half half) (Csub (Csub (mmul d M M i j) (mmul d M P i j)) (Csub (mmul d P M i j) (mmul d P P i j)))))) (mmul d Zz Zz i j)); [ring|].
    rewrite Ci2. transitivity (Cadd (Cmul (Cmul (RtoC 2) half) (Cmul half (Cadd (mmul d P M i j) (mmul d M P i j)))) (mmul d Zz Zz i j)); [rewrite two_C; ring|].
    rewrite half2. ring.
  Qed.
  Lemma ladder_Sp i j : spin_op_Sp v i j = P i j.
  Proof.
    unfold spin_op_Sp, spin_vector_from_Sp, madd, mscale, msub. rewrite ihalf. change (RtoC (1/2)) with half.
    transitivity (Cadd (Cmul half (Cadd (P i j) (M i j))) (Cmul (Cmul Ci Ci) (Cmul half (Csub (M i j) (P i j))))); [ring|]. rewrite Ci2.
    transitivity (Cmul (Cmul (RtoC 2) half) (P i j)); [rewrite two_C; ring|]. rewrite half2. ring.
  Qed.
  Lemma ladder_Sm i j : spin_op_Sm v i j = M i j.
  Proof.
    unfold spin_op_Sm, spin_vector_from_Sp, madd, mscale, msub. rewrite ihalf. change (RtoC (1/2)) with half.
    transitivity (Csub (Cmul half (Cadd (P i j) (M i j))) (Cmul (Cmul Ci Ci) (Cmul half (Csub (M i j) (P i j))))); [ring|]. rewrite Ci2.
    transitivity (Cmul (Cmul (RtoC 2) half) (M i j)); [rewrite two_C; ring|]. rewrite half2. ring.
  Qed.
  Hypothesis HZ : hermitian d Zz.
  Lemma ladder_herm axis : hermitian d (v axis).
  Proof.
    intros i j Hi Hj. destruct axis as [|[|axis]]; [| |now apply HZ].
    - unfold mconjT at 1, spin_vector_from_Sp, mscale, madd. unfold mconjT. rewrite Cconj_mul, Cconj_add, Cconj_invol, RtoC_conj. ring.
    - unfold mconjT at 1, spin_vector_from_Sp, mscale, msub, Csub. unfold mconjT. rewrite Cconj_mul, Cconj_add, Cconj_opp, Cconj_invol. apply C_eq; cbn; ring.
  Qed.
End Ladder.

(** ** clock *)
Section Clock.
  Variable q : nat.
  Hypothesis Q : 0 < q.
  Lemma X_entry i j : i < q -> j < q -> clock_X q i j = if j =? (i + 1) mod q then C1 else C0.
  Proof.
    intros Hi Hj. unfold clock_X, madd, meye_k. assert (E : (i + 1) mod q = if i + 1 =? q then 0 else i + 1).
    { destruct (Nat.eqb_spec (i + 1) q) as [ -> |]; [apply Nat.mod_same; lia|apply Nat.mod_small; lia]. }
    rewrite E. destruct (Z.eqb_spec (Z.of_nat j) (Z.of_nat i + 1)); destruct (Z.eqb_spec (Z.of_nat j) (Z.of_nat i + (1 - Z.of_nat q)));
      destruct (Nat.eqb_spec (i + 1) q); try lia; match goal with |- context [j =? ?x] => destruct (Nat.eqb_spec j x) end; try lia; ring.
  Qed.
  Lemma X_pow p : forall i j, i < q -> j < q -> mpow q (clock_X q) p i j = if j =? (i + p) mod q then C1 else C0.
  Proof.
    induction p as [|p IH]; intros i j Hi Hj; cbn [mpow].
    - rewrite Nat.add_0_r, Nat.mod_small by assumption. unfold meye. now rewrite Nat.eqb_sym.
    - unfold mmul. assert (B : (i + 1) mod q < q) by (apply Nat.mod_upper_bound; lia). rewrite msum_one with (k := (i + 1) mod q); [|assumption|].
      + rewrite X_entry, Nat.eqb_refl, IH by assumption. replace (((i + 1) mod q + p) mod q) with ((i + S p) mod q); [ring|]. rewrite Nat.add_mod_idemp_l by lia. f_equal. lia.
      + intros k Hk Nk. rewrite X_entry by assumption. destruct (Nat.eqb_spec k ((i + 1) mod q)); [lia|ring].
  Qed.
  Lemma Z_pow p : forall i j, i < q -> j < q -> mpow q (clock_Z q) p i j = mdiag (fun n => cis (INR p * (2 * PI / INR q * INR n))) i j.
  Proof.
    induction p as [|p IH]; intros i j Hi Hj; cbn [mpow].
    - unfold meye, mdiag. cbn [INR]. rewrite Rmult_0_l, cis_0. reflexivity.
    - unfold clock_Z at 1. rewrite mmul_diag_l by assumption. rewrite IH by assumption. unfold mdiag. destruct (i =? j); [|ring]. rewrite <- cis_add. f_equal. rewrite S_INR. ring.
  Qed.
  Lemma INRq : (INR q <> 0)%R. Proof. apply not_0_INR. lia. Qed.
  Lemma X_q : meq q (mpow q (clock_X q) q) meye.
  Proof.
    intros i j Hi Hj. rewrite X_pow by assumption. replace ((i + q) mod q) with i; [unfold meye; now rewrite Nat.eqb_sym|].
    rewrite <- (Nat.mul_1_l q) at 1. rewrite Nat.mod_add by lia. now rewrite Nat.mod_small.
  Qed.
  Lemma Z_q : meq q (mpow q (clock_Z q) q) meye.
  Proof.
    intros i j Hi Hj. rewrite Z_pow by assumption. unfold mdiag, meye. destruct (i =? j); [|reflexivity].
    replace (INR q * (2 * PI / INR q * INR i))%R with (IZR (Z.of_nat i) * (2 * PI))%R; [apply cis_2PI|]. rewrite <- INR_IZR_INZ. field. apply INRq.
  Qed.
  Lemma XZ_comm : meq q (mmul q (clock_X q) (clock_Z q)) (mscale (cis (2 * PI / INR q)) (mmul q (clock_Z q) (clock_X q))).
  Proof.
    intros i j Hi Hj. unfold mscale, clock_Z. rewrite mmul_diag_r, mmul_diag_l, X_entry by assumption. destruct (Nat.eqb_spec j ((i + 1) mod q)) as [E|]; [|ring].
    transitivity (cis (2 * PI / INR q * INR j)); [ring|]. transitivity (cis (2 * PI / INR q + 2 * PI / INR q * INR i)); [|rewrite cis_add; ring].
    destruct (Nat.eq_dec (i + 1) q) as [W|W].
    - rewrite W, Nat.mod_same in E by lia. subst j. cbn [INR]. rewrite Rmult_0_r, cis_0.
      replace (2 * PI / INR q + 2 * PI / INR q * INR i)%R with (IZR 1 * (2 * PI))%R; [symmetry; apply cis_2PI|]. 
      assert (X : INR q = (INR i + 1)%R) by (rewrite <- W, plus_INR; reflexivity). assert (N := INRq). rewrite X in *. field. exact N.
    - rewrite Nat.mod_small in E by lia. subst j. rewrite plus_INR. change (INR 1) with 1%R. f_equal. ring.
  Qed.
  Lemma X_unitary : meq q (mmul q (clock_X q) (mconjT (clock_X q))) meye.
  Proof.
    intros i j Hi Hj. unfold mmul. assert (B : (i + 1) mod q < q) by (apply Nat.mod_upper_bound; lia). rewrite msum_one with (k := (i + 1) mod q); [|assumption|].
    - unfold mconjT. rewrite !X_entry, Nat.eqb_refl by assumption. unfold meye. destruct (Nat.eqb_spec i j) as [ <- |Ne].
      + rewrite Nat.eqb_refl. apply C_eq; cbn; ring.
      + destruct (Nat.eqb_spec ((i + 1) mod q) ((j + 1) mod q)) as [E|]; [|apply C_eq; cbn; ring]. exfalso. apply Ne.
        destruct (Nat.eq_dec (i + 1) q) as [W|W]; destruct (Nat.eq_dec (j + 1) q) as [W'|W']; try lia.
        * rewrite W, Nat.mod_same, Nat.mod_small in E by lia. lia.
        * rewrite W', Nat.mod_same, Nat.mod_small in E by lia. lia.
        * rewrite !Nat.mod_small in E by lia. lia.
    - intros k Hk Nk. rewrite X_entry by assumption. destruct (Nat.eqb_spec k ((i + 1) mod q)); [lia|ring].
  Qed.
  Lemma Z_unitary : meq q (mmul q (clock_Z q) (mconjT (clock_Z q))) meye.
  Proof.
    intros i j Hi Hj. unfold clock_Z at 1. rewrite mmul_diag_l by assumption. unfold mconjT, clock_Z, mdiag, meye. rewrite Nat.eqb_sym. destruct (Nat.eqb_spec i j) as [ <- |Ne].
    - apply cis_norm.
    - apply C_eq; cbn; ring.
  Qed.
End Clock.
