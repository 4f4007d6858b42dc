(** Back substitution; the residual after k rounds; the Krylov space *)
From Coq Require Import Reals Lra List Arith Bool Lia.
From Verif Require Import Util Cplx Hilbert LinOpModel LinOpSpec LinOpProofs LinOpMat KrylovModel KrylovSpec KrylovProofs3 KrylovProofs4 KrylovProofs5 KrylovProofs6 GmresModel GmresSpec GmresProofs GmresProofs2.
Import ListNotations.
Set Implicit Arguments. Unset Strict Implicit.
Open Scope nat_scope.

Section Back.
  Variables (k : nat) (cols : list (list C)) (e : list C).
  Hypothesis DIAG : forall j, j < k -> hent cols j j <> C0.
  Hypothesis TRI : forall i j, j < k -> j < i -> hent cols i j = C0.
  Lemma back_fold i acc : forall n a v, fold_left (fun y j => Csub y (Cmul (hent cols i j) (nth (j - a) acc C0))) (seq a n) v = Csub v (sumn n (fun j => Cmul (hent cols i (a + j)) (nth j acc C0))).
  Proof.
    assert (G : forall n a m v, a <= m -> fold_left (fun y j => Csub y (Cmul (hent cols i j) (nth (j - a) acc C0))) (seq m n) v = Csub v (sumn n (fun j => Cmul (hent cols i (m + j)) (nth (m - a + j) acc C0)))).
    { induction n as [|n IH]; intros a m v Hm; cbn [seq fold_left].
      - unfold sumn. cbn. ring.
      - rewrite IH by lia. rewrite sumn_S. rewrite !Nat.add_0_r. rewrite (sumn_ext (n := n) (f := fun j => Cmul (hent cols i (S m + j)) (nth (S m - a + j) acc C0)) (g := fun j => Cmul (hent cols i (m + S j)) (nth (m - a + S j) acc C0))).
        + ring.
        + intros j _. replace (S m + j) with (m + S j) by lia. replace (S m - a + j) with (m - a + S j) by lia. reflexivity. }
    intros n a v. rewrite G by lia. f_equal. apply sumn_ext. intros j _. now rewrite Nat.sub_diag.
  Qed.
  Lemma backsolve_ok : forall i acc, i <= k -> length acc = k - i ->
    (forall r, i <= r < k -> sumn (k - i) (fun j => Cmul (hent cols r (i + j)) (nth j acc C0)) = nth r e C0) ->
    exists y, backsolve k cols e i acc = Some y /\ length y = k /\ forall r, r < k -> sumn k (fun j => Cmul (hent cols r j) (nth j y C0)) = nth r e C0.
  Proof.
    induction i as [|i IH]; intros acc Hi LA S.
    - exists acc. split; [reflexivity|]. split; [lia|]. intros r Hr. rewrite <- (S r) by lia. rewrite Nat.sub_0_r. reflexivity.
    - cbn [backsolve]. destruct (Ceqb_spec (hent cols i i) C0) as [Z|Z]; [exfalso; now apply (DIAG (j := i))|]. apply IH; [lia|cbn [length]; lia|].
      intros r Hr. replace (k - i) with (Datatypes.S (k - Datatypes.S i)) by lia. rewrite sumn_S. rewrite Nat.add_0_r. cbn [nth].
      rewrite (sumn_ext (g := fun j => Cmul (hent cols r (Datatypes.S i + j)) (nth j acc C0))) by (intros j _; replace (i + Datatypes.S j) with (Datatypes.S i + j) by lia; reflexivity).
      destruct (Nat.eq_dec r i) as [-> |D].
      + rewrite back_fold. set (T := sumn _ _). replace (Cmul (hent cols i i) (Cdiv (Csub (nth i e C0) T) (hent cols i i))) with (Cmul (Cdiv (Csub (nth i e C0) T) (hent cols i i)) (hent cols i i)) by ring. rewrite Cdiv_mul by exact Z. ring.
      + rewrite (TRI (i := r) (j := i)) by lia. rewrite S by lia. ring.
  Qed.
End Back.

Section P.
  Variables (V : Type) (h : hspace V) (A : V -> V) (b : V) (o : gopts).
  Hypothesis L : hlaws h.
  Hypothesis HA : linear h A.
  Notation z := (hzero h).
  Notation qn s i := (nth i (g_qs s) z).
  Notation pn s i := (pv h (g_cs s) (g_sn s) (g_qs s) i).
  Notation un s i := (uv h (g_cs s) (g_sn s) (g_qs s) i).
  Lemma vsum_inner x n f : hinner h x (vsum h n f) = sumn n (fun i => hinner h x (f i)).
  Proof. unfold vsum, sumn. induction (seq 0 n) as [|i l IH]; cbn [map fold_right]; [apply (inner_0_r L)|]. rewrite (hl_inner_add L), IH. reflexivity. Qed.
  Lemma ginv_tri r0 k s : ginv h A o r0 k s -> forall i j, j < k -> j < i -> hent (g_cols s) i j = C0.
  Proof.
    intros I i j Hj Hi. destruct (gi_cols I Hj) as [E1 E2]. destruct (Nat.eq_dec i (S j)) as [-> |D]; [exact E2|]. unfold hent. apply nth_overflow. lia.
  Qed.
  (** A (sum of y_j q_j) = sum of e_i u_i, if y solves the triangular system *)
  Lemma apply_A r0 k s y e : ginv h A o r0 k s -> (forall r, r < k -> sumn k (fun j => Cmul (hent (g_cols s) r j) (nth j y C0)) = e r) ->
    A (vsum h k (fun j => hscale h (nth j y C0) (qn s j))) = vsum h k (fun i => hscale h (e i) (un s i)).
  Proof.
    intros I SY. rewrite (vsum_linear L _ _ HA). apply (inner_ext L). intros x. rewrite !vsum_inner.
    transitivity (sumn k (fun j => sumn k (fun i => Cmul (Cmul (hent (g_cols s) i j) (nth j y C0)) (hinner h x (un s i))))).
    - apply sumn_ext. intros j Hj. rewrite (proj2 HA), (hl_inner_scale L), (gi_A I Hj), vsum_inner.
      transitivity (Cmul (nth j y C0) (sumn k (fun i => Cmul (hent (g_cols s) i j) (hinner h x (un s i))))).
      + f_equal. rewrite <- (vsum_inner x (S j)). rewrite <- (vsum_zeros L (n := S j) (m := k)).
        * rewrite vsum_inner. apply sumn_ext. intros i _. now rewrite (hl_inner_scale L).
        * lia.
        * intros i Hi. rewrite (ginv_tri I) by lia. apply (hl_null L).
      + rewrite <- sumn_scale. apply sumn_ext. intros i _. ring.
    - rewrite sumn_swap. apply sumn_ext. intros i Hi. rewrite (hl_inner_scale L), <- (SY i Hi), <- sumn_scale_r. reflexivity.
  Qed.
  Lemma add_fold (f : nat -> V) n : forall x, fold_left (fun x i => hadd h x (f i)) (seq 0 n) x = hadd h x (vsum h n f).
  Proof.
    induction n as [|n IH]; intros x; [cbn; symmetry; apply (add_0_r L)|]. rewrite seq_S, fold_left_app, IH. cbn [fold_left]. rewrite (vsum_S L). cbn [plus]. rewrite (hl_assoc L). reflexivity.
  Qed.
  (** the result of a cycle of k rounds *)
  Lemma solve x k s : ginv h A o (residual h A b x) k s -> exists y, backsolve k (g_cols s) (g_e s) k [] = Some y /\
    let x' := fold_left (fun x i => hadd h x (hscale h (nth i y C0) (qn s i))) (seq 0 k) x in
    hsub h x' x = vsum h k (fun j => hscale h (nth j y C0) (qn s j)) /\ residual h A b x' = hscale h (nth k (g_e s) C0) (pn s k).
  Proof.
    intros I. destruct (backsolve_ok (e := g_e s) (gi_diag I) (ginv_tri I) (i := k) (acc := [])) as [y [E [LY S]]]; [lia|cbn; lia|intros; lia|].
    exists y. split; [exact E|]. cbv zeta. rewrite add_fold. set (w := vsum h k _).
    assert (AW := apply_A I S). fold w in AW. split; [hvec L|].
    assert (GE := gi_e I). rewrite <- AW in GE. unfold residual in *. rewrite (proj1 HA).
    assert (GE' : forall v, hinner h v (hsub h b (A x)) = hinner h v (hadd h (A w) (hscale h (nth k (g_e s) C0) (pn s k)))) by (intros v; now rewrite <- GE).
    apply (inner_ext L). intros v. specialize (GE' v). unfold hsub in *. repeat rewrite (hl_inner_add L) in GE'. repeat rewrite (hl_inner_add L). repeat rewrite (hl_inner_scale L) in GE'. repeat rewrite (hl_inner_scale L). repeat rewrite (hl_inner_add L).
    set (B0 := hinner h v b) in *. set (B1 := hinner h v (A x)) in *. set (B2 := hinner h v (A w)) in *. set (B3 := hinner h v (pn s k)) in *.
    transitivity (Cadd (Cadd B0 (Cmul (Copp C1) B1)) (Cmul (Copp C1) B2)); [ring|]. rewrite GE'. ring.
  Qed.

  (** ** The Krylov space *)
  Lemma powers_A n psi v : in_span h (powers A n psi) v -> in_span h (powers A (S n) psi) (A v).
  Proof.
    intros [c [Hc E]]. subst v. rewrite powers_length in Hc. rewrite (linear_lincomb L HA), powers_map. exists (C0 :: c). split; [cbn [length powers]; rewrite powers_length; lia|]. cbn [powers lincomb].
    now rewrite (hl_null L), (hl_zero L).
  Qed.
  Record gkry (r0 : V) (k : nat) (qs : list V) : Prop := {
    gk_len : length qs = S k;
    gk_first : hscale h (RtoC (hnorm h r0)) (nth 0 qs z) = r0;
    gk_in : forall j, j <= k -> in_span h (powers A (S j) r0) (nth j qs z);
    gk_A : forall j, j < k -> in_span h (firstn (j + 2) qs) (A (nth j qs z)) }.
  Lemma powers_mono n m v r0 : n <= m -> in_span h (powers A n r0) v -> in_span h (powers A m r0) v.
  Proof. intros H. apply (span_mono L). intros x. now apply powers_In. Qed.
  Lemma gkry_init x : gkry (residual h A b x) 0 (g_qs (g_init h A b o x)).
  Proof.
    constructor; cbn [g_init g_qs length]; [reflexivity| |intros j Hj|intros; lia].
    - exact (gi_first (init_inv A b o L x)).
    - replace j with 0 by lia. cbn [nth powers]. assert (X : in_span h [residual h A b x] (residual h A b x)) by (apply (span_In L); now left).
      destruct (Rlt_dec _ _); [apply (span_scale L)|]; exact X.
  Qed.
  Lemma gkry_step r0 k qs col q : gkry r0 k qs -> g_arnoldi h A k qs = (col, q) -> gkry r0 (S k) (qs ++ [q]).
  Proof.
    intros I E. assert (AR := arnoldi_relation A L (gk_len I)). rewrite E in AR. destruct AR as [LC [AQ [[n [N0 CN]] [CZ [QQ _]]]]]. assert (LQ := gk_len I).
    assert (QA : forall i, i <= k -> nth i (qs ++ [q]) z = nth i qs z) by (intros i Hi; apply app_nth1; lia).
    assert (QN : nth (S k) (qs ++ [q]) z = q) by (rewrite app_nth2 by lia; rewrite LQ, Nat.sub_diag; reflexivity).
    constructor.
    - rewrite app_length. cbn. lia.
    - rewrite QA by lia. apply (gk_first I).
    - intros j Hj. destruct (Nat.eq_dec j (S k)) as [-> |D]; [|rewrite QA by lia; apply (gk_in I); lia]. rewrite QN.
      destruct (Ceqb_spec (nth (S k) col C0) C0) as [Z|Z]; [rewrite (proj1 CZ Z); apply (span_zero L)|].
      assert (AS : in_span h (powers A (S (S k)) r0) (A (nth k qs z))) by (apply powers_A, (gk_in I); lia).
      replace (k + 2) with (S (S k)) in AQ by lia. rewrite (vsum_S L) in AQ. rewrite QN in AQ. set (w := vsum h (S k) _) in AQ.
      assert (WS : in_span h (powers A (S (S k)) r0) w).
      { apply (vsum_span L). intros i Hi. apply (span_scale L). rewrite QA by lia. apply powers_mono with (n := S i); [lia|]. apply (gk_in I). lia. }
      assert (EQ : q = hscale h (Cinv (nth (S k) col C0)) (hsub h (A (nth k qs z)) w)).
      { rewrite AQ. apply (inner_ext L). intros x. unfold hsub. repeat first [rewrite (hl_inner_scale L)|rewrite (hl_inner_add L)]. set (c := nth (S k) col C0) in *.
        replace (Cmul (Cinv c) (Cadd (Cadd (hinner h x w) (Cmul c (hinner h x q))) (Cmul (Copp C1) (hinner h x w)))) with (Cmul (Cmul c (Cinv c)) (hinner h x q)) by ring. rewrite Cinv_r by exact Z. ring. }
      rewrite EQ. apply (span_scale L), (span_add L); [exact AS|]. now apply (span_scale L).
    - intros j Hj. destruct (Nat.eq_dec j k) as [-> |D].
      + rewrite QA by lia. rewrite AQ. apply (vsum_span L). intros i Hi. apply (span_scale L), (span_In L). rewrite <- (nth_firstn_lt z (n := k + 2)) by exact Hi. apply nth_In. rewrite firstn_length, app_length. cbn. lia.
      + rewrite QA by lia. apply (span_mono L) with (l := firstn (j + 2) qs); [|apply (gk_A I); lia]. intros x X. rewrite firstn_app. apply in_app_iff. now left.
  Qed.
  Lemma gkry_powers r0 k qs : gkry r0 k qs -> forall j, j <= k -> in_span h (firstn (S j) qs) (Nat.iter j A r0).
  Proof.
    intros I. assert (LQ := gk_len I). induction j as [|j IH]; intros Hj.
    - cbn [Nat.iter]. rewrite <- (gk_first I). apply (span_scale L), (span_In L). destruct qs; [cbn in LQ; lia|]. now left.
    - cbn [Nat.iter]. change (in_span h (firstn (S (S j)) qs) (A (Nat.iter j A r0))). destruct (IH ltac:(lia)) as [c [LC ->]]. rewrite (linear_lincomb L HA). rewrite (lincomb_vsum h (q := map A (firstn (S j) qs))) by (now rewrite map_length).
      apply (vsum_span L). intros i Hi. rewrite map_length, firstn_length in Hi. apply (span_scale L). rewrite nth_map_lt with (d := z) by (rewrite firstn_length; lia). rewrite nth_firstn_lt by lia.
      apply (span_mono L) with (l := firstn (i + 2) qs); [|apply (gk_A I); lia]. intros x X.
      replace (firstn (i + 2) qs) with (firstn (i + 2) (firstn (S (S j)) qs)) in X by (rewrite firstn_firstn; f_equal; lia).
      rewrite <- (firstn_skipn (i + 2) (firstn (S (S j)) qs)). apply in_app_iff. now left.
  Qed.
  Lemma gkry_span r0 k qs n v : gkry r0 k qs -> n <= k -> in_span h (powers A n r0) v <-> in_span h (firstn n qs) v.
  Proof.
    intros I Hn. assert (LQ := gk_len I). split; apply (span_trans L); intros x X.
    - apply powers_iter in X. destruct X as [j [Hj ->]]. apply (span_mono L) with (l := firstn (S j) qs); [|apply (gkry_powers I); lia]. intros y Y.
      replace (firstn (S j) qs) with (firstn (S j) (firstn n qs)) in Y by (rewrite firstn_firstn; f_equal; lia). rewrite <- (firstn_skipn (S j) (firstn n qs)). apply in_app_iff. now left.
    - apply (In_nth _ _ z) in X. destruct X as [i [Hi <-]]. rewrite firstn_length in Hi. rewrite nth_firstn_lt by lia. apply powers_mono with (n := S i); [lia|]. apply (gk_in I). lia.
  Qed.
End P.
