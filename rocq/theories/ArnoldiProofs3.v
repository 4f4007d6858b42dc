(** The eigenpairs found by Arnoldi *)
From Coq Require Import Reals Lra List Arith Bool Lia FunctionalExtensionality Permutation String.
From Verif Require Import Util Cplx Hilbert LinOpModel LinOpSpec LinOpProofs LinOpMat KrylovModel KrylovSpec KrylovProofs KrylovProofs3 KrylovProofs4 KrylovProofs5 KrylovProofs6 GmresProofs GmresProofs2 GmresProofs3 ArnoldiModel ArnoldiSpec ArnoldiProofs ArnoldiProofs2.
Import ListNotations.
Set Implicit Arguments. Unset Strict Implicit.
Open Scope nat_scope.

Lemma submatrix_lt n m i j : i < n -> j < n -> submatrix n m i j = m i j.
Proof. intros Hi Hj. unfold submatrix. apply Nat.ltb_lt in Hi, Hj. now rewrite Hi, Hj. Qed.
Lemma submatrix_ext n m m' : (forall i j, i < n -> j < n -> m i j = m' i j) -> submatrix n m = submatrix n m'.
Proof.
  intros E. apply functional_extensionality. intros i. apply functional_extensionality. intros j. unfold submatrix. destruct (Nat.ltb_spec i n), (Nat.ltb_spec j n); cbn; try reflexivity. now apply E.
Qed.
Lemma arnoldi_calc_ext o eig srt k m m' : (forall i j, i <= k -> j <= k -> m i j = m' i j) -> arnoldi_calc o eig srt k m = arnoldi_calc o eig srt k m'.
Proof. intros E. unfold arnoldi_calc. destruct k as [|k]; [now rewrite E by lia|]. rewrite (@submatrix_ext _ m m'); [reflexivity|]. intros i j Hi Hj. apply E; lia. Qed.
Lemma aevo_calc_ext eig solve d k m m' : (forall i j, i <= k -> j <= k -> m i j = m' i j) -> aevo_calc eig solve d k m = aevo_calc eig solve d k m'.
Proof. intros E. unfold aevo_calc. destruct k as [|k]; [now rewrite E by lia|]. rewrite (@submatrix_ext _ m m'); [reflexivity|]. intros i j Hi Hj. apply E; lia. Qed.
Lemma arnoldi_calc_some o eig srt k m : arnoldi_calc o eig srt k m <> None.
Proof. unfold arnoldi_calc. destruct k; [discriminate|]. destruct (eig _ _). discriminate. Qed.

Record sorted_eig (o : aopts) (n : nat) (m : nat -> nat -> C) (e : list C) (r : list (list C)) : Prop := {
  se_len : length e = n; se_lenr : length r = n;
  se_eig : forall i j, i < n -> j < n -> csum_n n (fun k => Cmul (m i k) (nth k (nth j r []) C0)) = Cmul (nth j e C0) (nth i (nth j r []) C0);
  se_unit : forall j, j < n -> rsum_n n (fun k => Cnorm2 (nth k (nth j r []) C0)) = 1%R;
  se_all : forall c x, (exists i, i < n /\ x i <> C0) -> (forall i, i < n -> csum_n n (fun k => Cmul (m i k) (x k)) = Cmul c (x i)) -> In c e;
  se_sorted : forall i j, i < j < n -> (sort_key (a_which o) (nth i e C0) <= sort_key (a_which o) (nth j e C0))%R }.
Lemma csum_n_ext n f g : (forall i, i < n -> f i = g i) -> csum_n n f = csum_n n g. Proof. rewrite !csum_n_sumn. apply sumn_ext. Qed.
Lemma rsum_n_ext n f g : (forall i, i < n -> f i = g i) -> rsum_n n f = rsum_n n g.
Proof. intros E. unfold rsum_n. f_equal. apply map_ext_in. intros i Hi. apply in_seq in Hi. apply E. lia. Qed.
Lemma calc_sorted o eig srt k m e r rn : sort_ok srt -> arnoldi_calc o eig srt k m = Some (e, r, rn) ->
  (1 <= k -> eig_ok (k + 1) (submatrix (k + 1) m) (fst (eig (k + 1) (submatrix (k + 1) m))) (snd (eig (k + 1) (submatrix (k + 1) m)))) -> sorted_eig o (k + 1) m e r.
Proof.
  intros SO E EO. unfold arnoldi_calc in E. destruct k as [|k].
  - injection E as <- <- <-. constructor; try reflexivity.
    + intros i j Hi Hj. assert (i = 0) by lia. assert (j = 0) by lia. subst. unfold csum_n. cbn. ring.
    + intros j Hj. assert (j = 0) by lia. subst. unfold rsum_n, Cnorm2. cbn. ring.
    + intros c x [i [Hi Nx]] EV. assert (i = 0) by lia. subst i. specialize (EV 0 ltac:(lia)). unfold csum_n in EV. cbn in EV. left. apply (Cmul_cancel Nx). transitivity (Cadd (Cmul (m 0 0) (x 0)) C0); [ring|]. rewrite EV. ring.
    + intros i j D. lia.
  - specialize (EO ltac:(lia)). set (n := S k + 1) in *. destruct (eig n (submatrix n m)) as [E0 v]. cbn [fst snd] in EO. injection E as <- <- <-. destruct EO as [L1 L2 L3 L4].
    set (keys := map (sort_key (a_which o)) E0). assert (LK : length keys = n) by (unfold keys; now rewrite map_length). destruct (SO keys) as [PM SD]. rewrite LK in PM, SD.
    assert (LP := is_perm_length PM).
    assert (NE : forall j, j < n -> nth j (map (fun j => nth j E0 C0) (srt keys)) C0 = nth (nth j (srt keys) 0) E0 C0) by (intros j Hj; apply nth_map_lt with (d := 0); lia).
    assert (NR : forall j i, j < n -> i < n -> nth i (nth j (map (fun j => map (fun i => v i j) (seq 0 n)) (srt keys)) []) C0 = v i (nth j (srt keys) 0)).
    { intros j i Hj Hi. rewrite nth_map_lt with (d := 0) by lia. rewrite nth_map_lt with (d := 0) by (rewrite seq_length; lia). rewrite seq_nth by lia. reflexivity. }
    assert (BD : forall j, j < n -> nth j (srt keys) 0 < n) by (intros j Hj; apply (is_perm_nth_lt PM); lia).
    constructor.
    + now rewrite map_length.
    + now rewrite map_length.
    + intros i j Hi Hj. rewrite NE, NR by assumption. rewrite <- (L2 i (nth j (srt keys) 0)) by auto. apply csum_n_ext. intros l Hl. rewrite NR by assumption. now rewrite submatrix_lt.
    + intros j Hj. rewrite <- (L3 (nth j (srt keys) 0)) by auto. apply rsum_n_ext. intros l Hl. now rewrite NR.
    + intros c x Hx EV. assert (IN : In c E0) by (apply (L4 c x Hx); intros i Hi; rewrite <- EV by exact Hi; apply csum_n_ext; intros l Hl; now rewrite submatrix_lt).
      apply (In_nth _ _ C0) in IN. destruct IN as [j [Hj <-]]. rewrite L1 in Hj. apply in_map_iff. exists j. split; [reflexivity|]. apply (is_perm_In j PM). exact Hj.
    + intros i j D. rewrite !NE by lia. specialize (SD i j D). unfold keys in SD at 2 4. rewrite !nth_map_lt with (d := C0) in SD by (rewrite L1; apply BD; lia). exact SD.
Qed.

(** the gaps looked at by _converged *)
Definition ole (a : option R) (x : R) : Prop := match a with None => False | Some y => (y <= x)%R end.
Lemma omin_l a b x : ole a x -> ole (omin a b) x. Proof. destruct a, b; cbn; try tauto. intros. eapply Rle_trans; [apply Rmin_l|assumption]. Qed.
Lemma omin_r a b x : ole b x -> ole (omin a b) x. Proof. destruct a, b; cbn; try tauto. intros. eapply Rle_trans; [apply Rmin_r|assumption]. Qed.
Lemma fold_omin (f : nat -> option R) x : forall l a, (ole a x \/ exists i, In i l /\ ole (f i) x) -> ole (fold_left (fun md i => omin md (f i)) l a) x.
Proof.
  induction l as [|i l IH]; intros a [G|[j [Hj G]]]; cbn [fold_left]; [exact G|destruct Hj| |].
  - apply IH. left. now apply omin_l.
  - apply IH. destruct Hj as [-> |Hj]; [left; now apply omin_r|]. right. eauto.
Qed.
Lemma min_diff_le o k es i j : i < a_num_ev o -> i < j < a_N_max o -> ole (min_diff o k es) (Cabs (Csub (es k j) (es k i))).
Proof.
  intros Hi Hj. unfold min_diff. apply fold_omin. right. exists i. split; [apply in_seq; lia|]. apply fold_omin. right. exists j. split; [apply in_seq; lia|]. cbn. lra.
Qed.
Lemma conv_err o k es res hn (i j : nat) : (0 < a_min_gap o)%R -> arnoldi_conv o k es res hn = true -> i < a_num_ev o -> i < j < a_N_max o ->
  (let err := (Cabs (nth k (nth 0 res []) C0) * Cabs hn) / Rmax (Cabs (Csub (es k j) (es k i))) (a_min_gap o) in err * err < a_P_tol o)%R.
Proof.
  intros MG E Hi Hj. assert (M := min_diff_le k es Hi Hj). unfold arnoldi_conv in E. apply andb_true_iff in E. destruct E as [E _]. apply Rltb_true in E. destruct (min_diff o k es) as [d|]; [|destruct M]. cbn in M.
  set (r := (Cabs (nth k (nth 0 res []) C0) * Cabs hn)%R) in *. assert (R0 : (0 <= r)%R) by (apply Rmult_le_pos; apply Cabs_nonneg).
  set (D := Cabs (Csub (es k j) (es k i))) in *. cbv zeta. eapply Rle_lt_trans; [|exact E].
  assert (G1 : (0 < Rmax d (a_min_gap o))%R) by (eapply Rlt_le_trans; [exact MG|apply Rmax_r]).
  assert (G2 : (Rmax d (a_min_gap o) <= Rmax D (a_min_gap o))%R) by (apply Rmax_lub; [eapply Rle_trans; [exact M|apply Rmax_l]|apply Rmax_r]).
  assert (G3 : (0 < Rmax D (a_min_gap o))%R) by lra.
  assert (Q : (r / Rmax D (a_min_gap o) <= r / Rmax d (a_min_gap o))%R) by (unfold Rdiv; apply Rmult_le_compat_l; [exact R0|]; apply Rinv_le_contravar; assumption).
  assert (Q0 : (0 <= r / Rmax D (a_min_gap o))%R) by (unfold Rdiv; apply Rmult_le_pos; [exact R0|]; left; now apply Rinv_0_lt_compat).
  apply Rmult_le_compat; assumption.
Qed.
Lemma rsum_term n (f : nat -> R) i : (forall j, j < n -> (0 <= f j)%R) -> i < n -> (f i <= rsum_n n f)%R.
Proof.
  intros P Hi. unfold rsum_n. assert (G : forall l, (forall j, In j l -> (0 <= f j)%R) -> (0 <= fold_right Rplus 0 (map f l))%R /\ (In i l -> (f i <= fold_right Rplus 0 (map f l))%R)).
  { induction l as [|a l IH]; intros Q; cbn [map fold_right]; [split; [lra|intros []]|]. destruct (IH (fun j Hj => Q j (or_intror Hj))) as [I1 I2]. assert (Qa := Q a (or_introl eq_refl)). split; [lra|]. intros [-> |Hin]; [lra|]. specialize (I2 Hin). lra. }
  apply G; [intros j Hj; apply in_seq in Hj; apply P; lia|apply in_seq; lia].
Qed.
