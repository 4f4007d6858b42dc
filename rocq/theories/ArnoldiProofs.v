(** The Krylov basis built by Arnoldi *)
From Coq Require Import Reals Lra List Arith Bool Lia FunctionalExtensionality.
From Verif Require Import Util Cplx Hilbert LinOpModel LinOpSpec LinOpProofs LinOpMat KrylovModel KrylovSpec KrylovProofs KrylovProofs3 KrylovProofs4 KrylovProofs5 KrylovProofs6 GmresProofs GmresProofs2 GmresProofs3 ArnoldiModel ArnoldiSpec.
Import ListNotations.
Set Implicit Arguments. Unset Strict Implicit.
Open Scope nat_scope.

Lemma set2_eq m i j v : set2 m i j v i j = v. Proof. unfold set2. now rewrite !Nat.eqb_refl. Qed.
Lemma set2_neq m i j v i' j' : i' <> i \/ j' <> j -> set2 m i j v i' j' = m i' j'.
Proof. intros N. unfold set2. destruct (Nat.eqb_spec i' i), (Nat.eqb_spec j' j); cbn; try reflexivity. lia. Qed.
Lemma set_col_other m j l i' j' : j' <> j -> set_col m j l i' j' = m i' j'. Proof. intros N. unfold set_col. now rewrite (proj2 (Nat.eqb_neq _ _) N). Qed.
Lemma set_col_lt m j l i : i < length l -> set_col m j l i j = nth i l C0. Proof. intros N. unfold set_col. now rewrite Nat.eqb_refl, (proj2 (Nat.ltb_lt _ _) N). Qed.
Lemma set_col_ge m j l i : length l <= i -> set_col m j l i j = m i j. Proof. intros N. unfold set_col. now rewrite Nat.eqb_refl, (proj2 (Nat.ltb_ge _ _) N). Qed.
Lemma set_row_other m i l i' j' : i' <> i -> set_row m i l i' j' = m i' j'. Proof. intros N. unfold set_row. now rewrite (proj2 (Nat.eqb_neq _ _) N). Qed.
Lemma set_row_eq m i l j : m i j = C0 -> set_row m i l i j = nth j l C0.
Proof. intros N. unfold set_row. rewrite Nat.eqb_refl. cbn [andb]. destruct (Nat.ltb_spec j (length l)); [reflexivity|]. rewrite N. symmetry. now apply nth_overflow. Qed.

Section P.
  Variables (V : Type) (h : hspace V) (H : V -> V) (o : aopts) (psi0 : V).
  Variable calc : nat -> (nat -> nat -> C) -> option (list C * list (list C) * R).
  Variable conv : nat -> (nat -> nat -> C) -> list (list C) -> C -> bool.
  Hypothesis L : hlaws h.
  Hypothesis HA : linear h H.
  (** the result of step k depends only on the leading (k+1) x (k+1) matrix *)
  Hypothesis calc_ext : forall k m m', (forall i j, i <= k -> j <= k -> m i j = m' i j) -> calc k m = calc k m'.
  Notation z := (hzero h).
  Notation q s i := (nth i (s_cache s) z).
  Record ainv (k : nat) (s : astate V) : Prop := {
    ai_len : length (s_cache s) = k;
    ai_orth : orthonormal h (s_cache s);
    ai_perp : forall y, In y (s_cache s) -> hinner h y (s_w s) = C0;
    ai_wn : s_wn s = hnorm h (s_w s);
    ai_start : k = 0 -> s_w s = psi0;
    ai_first : 1 <= k -> q s 0 = rscale h (/ hnorm h psi0) psi0;
    ai_in : forall y, In y (s_cache s) -> in_span h (powers H k psi0) y;
    ai_win : in_span h (powers H (S k) psi0) (s_w s);
    ai_rel : forall j, j < k -> H (q s j) = hadd h (vsum h k (fun i => hscale h (s_h s i j) (q s i))) (if S j =? k then s_w s else z);
    ai_zero : forall i j, j + 1 < i \/ k <= j -> s_h s i j = C0;
    ai_sub : 1 <= k -> s_h s k (k - 1) = RtoC (s_wn s);
    ai_pos : forall j, S j < k -> exists r, (0 < r)%R /\ s_h s (S j) j = RtoC r;
    ai_pow : forall v, in_span h (powers H k psi0) v -> in_span h (s_cache s) v;
    ai_next : in_span h (s_cache s ++ [s_w s]) (Nat.iter k H psi0);
    ai_es0 : forall j i, k <= j -> s_es s j i = C0;
    ai_es : forall j, j < k -> exists e r rn, calc j (s_h s) = Some (e, r, rn) /\ (forall i, s_es s j i = nth i e C0) /\ (S j = k -> r = s_res s /\ rn = s_rn s) }.
  Lemma lcs : forall c l a x, length c = length l -> lincomb h (c ++ [a]) (l ++ [x]) = hadd h (lincomb h c l) (hscale h a x).
  Proof.
    induction c as [|b c IH]; intros [|y l] a x E; try discriminate; cbn [lincomb app]; [now rewrite (add_0_r L), (hl_zero L)|]. rewrite IH by (now injection E). apply (hl_assoc L).
  Qed.
  Lemma span_snoc l x v : in_span h (l ++ [x]) v <-> exists y a, in_span h l y /\ v = hadd h y (hscale h a x).
  Proof.
    split.
    - intros [c [LC ->]]. rewrite app_length in LC. cbn in LC. assert (LC' : length c = S (length l)) by lia. rewrite (list_snoc C0 LC'). rewrite lcs by (rewrite firstn_length; lia).
      exists (lincomb h (firstn (length l) c) l), (nth (length l) c C0). split; [|reflexivity]. exists (firstn (length l) c). split; [rewrite firstn_length; lia|reflexivity].
    - intros [y [a [[c [LC ->]] ->]]]. exists (c ++ [a]). split; [rewrite !app_length; cbn; lia|]. now rewrite lcs.
  Qed.
  Lemma powers_snoc n : forall psi, powers H (S n) psi = powers H n psi ++ [Nat.iter n H psi].
  Proof.
    induction n as [|n IH]; intros psi; [reflexivity|]. change (powers H (S (S n)) psi) with (psi :: powers H (S n) (H psi)). rewrite IH. cbn [powers app]. do 3 f_equal. symmetry. apply iter_S_r.
  Qed.
  Lemma span_image l l' v : (forall y, In y l -> in_span h l' (H y)) -> in_span h l v -> in_span h l' (H v).
  Proof. intros F [c [LC ->]]. rewrite (linear_lincomb L HA). apply (span_trans L) with (l := map H l); [|exists c; split; [now rewrite map_length|reflexivity]]. intros y Y. apply in_map_iff in Y. destruct Y as [u [<- U]]. now apply F. Qed.
  Lemma span_app_l l l' v : in_span h l v -> in_span h (l ++ l') v.
  Proof. apply (span_mono L). intros y Y. apply in_app_iff. now left. Qed.

  Lemma ainv_init : hnorm h psi0 <> 0%R -> ainv 0 (AState [] zeros2 zeros2 psi0 (hnorm h psi0) [] 1%R).
  Proof.
    intros N0. constructor; cbn [s_cache s_h s_es s_w s_wn s_res s_rn length]; try reflexivity; try (intros; lia).
    - apply orthonormal_nil.
    - intros y [].
    - intros y [].
    - apply (span_In L). now left.
    - intros v X. exact X.
    - cbn. apply (span_In L). now left.
  Qed.
  Lemma ainv_step k s s' : ainv k s -> a_step h H o calc k s = Some s' -> ainv (S k) s'.
  Proof.
    intros I E. unfold a_step in E. destruct (Req_EM_T (s_wn s) 0) as [|N0]; [discriminate|]. set (w := rscale h (/ s_wn s) (s_w s)) in *. set (cache := s_cache s ++ [w]) in *.
    destruct (a_N_max o <? length cache); [discriminate|].
    assert (LC : length cache = S k) by (unfold cache; rewrite app_length, (ai_len I); cbn; lia).
    assert (WU : hinner h w w = C1) by (unfold w; rewrite (ai_wn I); apply (normalized L); rewrite <- (ai_wn I); exact N0).
    assert (WP : forall y, In y (s_cache s) -> hinner h y w = C0) by (intros y Y; unfold w; rewrite (inner_rscale_r L), (ai_perp I Y); ring).
    assert (ON : orthonormal h cache) by (apply (orthonormal_snoc (ai_orth I) WU WP)).
    assert (WW : s_w s = hscale h (RtoC (s_wn s)) w) by (unfold w, rscale; rewrite (hl_mul L), <- RtoC_mul, Rinv_r by exact N0; symmetry; apply (hl_one L)).
    assert (CS := coeffs_sum L cache (H w)). assert (CL := coeffs_len h cache (H w)).
    assert (CP : forall y, In y cache -> hinner h y (snd (project_coeffs h cache (H w))) = C0).
    { intros y Y. rewrite (project_coeffs_snd h), (fold_project_orth L) by apply ON. now apply (projector_perp L). }
    destruct (project_coeffs h cache (H w)) as [hs w']. cbn [fst snd] in CS, CL, CP. set (m := set2 (set_col (s_h s) k hs) (k + 1) k (RtoC (hnorm h w'))) in *.
    destruct (calc k m) as [[[e r] rn]|] eqn:CA; [|discriminate]. injection E as E. subst s'.
    assert (LH : length hs = S k) by (now rewrite CL).
    assert (MO : forall i j, j <> k -> m i j = s_h s i j) by (intros i j Hj; unfold m; rewrite set2_neq by (now right); now apply set_col_other).
    assert (MK : forall i, i <= k -> m i k = nth i hs C0) by (intros i Hi; unfold m; rewrite set2_neq by (left; lia); apply set_col_lt; lia).
    assert (QW : nth k cache z = w) by (unfold cache; rewrite app_nth2 by (rewrite (ai_len I); lia); rewrite (ai_len I), Nat.sub_diag; reflexivity).
    assert (QO : forall i, i < k -> nth i cache z = q s i) by (intros i Hi; unfold cache; apply app_nth1; rewrite (ai_len I); exact Hi).
    assert (RK : H w = hadd h (vsum h (S k) (fun i => hscale h (m i k) (nth i cache z))) w').
    { rewrite CS. f_equal. rewrite (lincomb_vsum h) by (rewrite LC; exact LH). rewrite LC. apply vsum_ext. intros i Hi. rewrite MK by lia. reflexivity. }
    assert (REL : forall j, j < S k -> H (nth j cache z) = hadd h (vsum h (S k) (fun i => hscale h (m i j) (nth i cache z))) (if S j =? S k then w' else z)).
    { intros j Hj. destruct (Nat.eq_dec j k) as [-> |D].
      - rewrite Nat.eqb_refl, QW. exact RK.
      - rewrite (proj2 (Nat.eqb_neq (S j) (S k))) by lia. rewrite (add_0_r L). rewrite QO by lia. rewrite (ai_rel I) by lia. rewrite (vsum_S L). rewrite QW.
        f_equal; [apply vsum_ext; intros i Hi; rewrite QO by exact Hi; now rewrite MO|]. rewrite MO by exact D. destruct (Nat.eqb_spec (S j) k) as [<-|D'].
        + rewrite WW. f_equal. assert (X := ai_sub I ltac:(lia)). replace (S j - 1) with j in X by lia. symmetry. exact X.
        + rewrite (ai_zero I) by lia. symmetry. apply (hl_null L). }
    assert (WIN : in_span h (powers H (S k) psi0) w) by (unfold w, rscale; apply (span_scale L), (ai_win I)).
    assert (CIN : forall y, In y cache -> in_span h (powers H (S k) psi0) y).
    { intros y Y. apply in_app_iff in Y. destruct Y as [Y|[<-|[]]]; [|exact WIN]. eapply (span_mono L); [|apply (ai_in I Y)]. intros x. apply powers_In. lia. }
    assert (IMG : forall y, In y cache -> in_span h (cache ++ [w']) (H y)).
    { intros y Y. apply (In_nth _ _ z) in Y. destruct Y as [j [Hj <-]]. rewrite LC in Hj. rewrite REL by exact Hj. apply (span_add L).
      - apply (vsum_span L). intros i Hi. apply (span_scale L), (span_In L). apply in_app_iff. left. apply nth_In. lia.
      - destruct (S j =? S k); [apply (span_In L), in_app_iff; right; now left|apply (span_zero L)]. }
    assert (NX : in_span h cache (Nat.iter k H psi0)).
    { apply (span_trans L) with (l := s_cache s ++ [s_w s]); [|apply (ai_next I)]. intros y Y. apply in_app_iff in Y. destruct Y as [Y|[<-|[]]]; [apply (span_In L), in_app_iff; now left|]. rewrite WW. apply (span_scale L), (span_In L), in_app_iff. right. now left. }
    constructor; cbn [s_cache s_h s_es s_w s_wn s_res s_rn].
    - exact LC.
    - exact ON.
    - exact CP.
    - reflexivity.
    - discriminate.
    - intros _. destruct (Nat.eq_dec k 0) as [-> |D].
      + rewrite QW. unfold w. rewrite (ai_wn I), (ai_start I eq_refl). reflexivity.
      + rewrite QO by lia. apply (ai_first I). lia.
    - exact CIN.
    - assert (X : in_span h (powers H (S (S k)) psi0) (H w)) by (apply (powers_A L HA), WIN).
      replace w' with (hsub h (H w) (vsum h (S k) (fun i => hscale h (m i k) (nth i cache z)))) by (rewrite RK; hvec L). unfold hsub. apply (span_add L); [exact X|]. apply (span_scale L), (vsum_span L).
      intros i Hi. apply (span_scale L). eapply (span_mono L); [|apply CIN, nth_In; lia]. intros x. apply powers_In. lia.
    - exact REL.
    - intros i j D. destruct (Nat.eq_dec j k) as [-> |D'].
      + unfold m. rewrite set2_neq by (left; lia). rewrite set_col_ge by lia. apply (ai_zero I). lia.
      + rewrite MO by exact D'. apply (ai_zero I). lia.
    - intros _. replace (S k - 1) with k by lia. unfold m. replace (S k) with (k + 1) by lia. apply set2_eq.
    - intros j Hj. destruct (Nat.eq_dec (S j) k) as [<-|D]; [|rewrite MO by lia; apply (ai_pos I); lia]. rewrite MO by lia. exists (s_wn s). assert (X := ai_sub I ltac:(lia)). replace (S j - 1) with j in X by lia. split; [|exact X].
      assert (NN := norm_nonneg h (s_w s)). rewrite <- (ai_wn I) in NN. lra.
    - intros v X. rewrite powers_snoc in X. revert X. apply (span_trans L). intros y Y. apply in_app_iff in Y. destruct Y as [Y|[<-|[]]]; [|exact NX].
      apply span_app_l, (ai_pow I), (span_In L), Y.
    - change (Nat.iter (S k) H psi0) with (H (Nat.iter k H psi0)). apply (span_image IMG NX).
    - intros j i Hj. rewrite set_row_other by lia. apply (ai_es0 I). lia.
    - intros j Hj. destruct (Nat.eq_dec j k) as [-> |D].
      + exists e, r, rn. split; [exact CA|]. split; [|intros _; auto]. intros i. apply set_row_eq. apply (ai_es0 I). lia.
      + destruct (ai_es I (j := j) ltac:(lia)) as [e1 [r1 [rn1 [C1' [C2' _]]]]]. exists e1, r1, rn1. split; [rewrite <- C1'; apply calc_ext; intros i j' Hi Hj'; apply MO; lia|]. split; [|intros; lia].
        intros i. rewrite set_row_other by exact D. apply C2'.
  Qed.
  Hypothesis CUT : (0 < a_cutoff o)%R.
  Lemma loop_spec : forall fuel k s, ainv k s -> k + fuel = a_N_max o -> s_wn s <> 0%R ->
    match a_loop h H o calc conv fuel k s with
    | Some (n, s') => ainv n s' /\ k <= n <= a_N_max o /\ (0 < fuel -> k < n /\ exists s0, ainv (n - 1) s0 /\ a_step h H o calc (n - 1) s0 = Some s') /\ (n < a_N_max o -> a_stop o conv (n - 1) s' = true)
    | None => exists k' s0, k' < a_N_max o /\ ainv k' s0 /\ s_wn s0 <> 0%R /\ a_step h H o calc k' s0 = None
    end.
  Proof.
    induction fuel as [|fuel IH]; intros k s I Hk N0; cbn [a_loop].
    - split; [exact I|]. split; [lia|]. split; [lia|]. intros; lia.
    - destruct (a_step h H o calc k s) as [s'|] eqn:ST.
      + assert (I' := ainv_step I ST). destruct (a_stop o conv k s') eqn:SP.
        * split; [exact I'|]. split; [lia|]. split; [intros _; split; [lia|]; exists s; replace (S k - 1) with k by lia; auto|]. intros _. now replace (S k - 1) with k by lia.
        * assert (N1 : s_wn s' <> 0%R). { unfold a_stop in SP. apply orb_false_iff in SP. destruct SP as [SP _]. apply Rltb_false in SP. lra. }
          specialize (IH (S k) s' I' ltac:(lia) N1). destruct (a_loop h H o calc conv fuel (S k) s') as [[n s2]|] eqn:LO; [|exact IH]. destruct IH as [J1 [J2 [J3 J4]]]. split; [exact J1|]. split; [lia|]. split; [|exact J4]. intros _. destruct fuel as [|fuel]; [|destruct (J3 ltac:(lia)) as [J5 J6]; split; [lia|exact J6]].
          assert (n = S k) by lia. subst n. assert (s2 = s') by (unfold a_loop in LO; congruence). subst s2. split; [lia|]. exists s. replace (S k - 1) with k by lia. auto.
      + exists k, s. split; [lia|auto].
  Qed.
  Lemma build_spec : a_N_max o <> 0 ->
    match a_build h H o calc conv (new_obj psi0) with
    | Some (p, n, s) => hnorm h psi0 <> 0%R /\ p = rscale h (/ hnorm h psi0) psi0 /\ ainv n s /\ 1 <= n <= a_N_max o /\ (exists s0, ainv (n - 1) s0 /\ a_step h H o calc (n - 1) s0 = Some s) /\ (n < a_N_max o -> a_stop o conv (n - 1) s = true)
    | None => psi0 = z \/ exists k' s0, k' < a_N_max o /\ ainv k' s0 /\ s_wn s0 <> 0%R /\ a_step h H o calc k' s0 = None
    end.
  Proof.
    intros NM. unfold a_build. cbn [new_obj o_psi0 o_cache o_h o_es]. destruct (Req_EM_T (hnorm h psi0) 0) as [Z|N0]; [left; now apply (norm_0_iff L)|].
    assert (X := loop_spec (fuel := a_N_max o) (ainv_init N0) (eq_refl _) N0). destruct (a_loop _ _ _ _ _ _ _ _) as [[n s]|]; [|now right].
    destruct X as [J1 [J2 [J3 J4]]]. split; [exact N0|]. split; [reflexivity|]. destruct (J3 ltac:(lia)) as [J5 J6]. split; [exact J1|]. split; [lia|]. split; [exact J6|exact J4].
  Qed.
  (** a step fails only because _calc_result_krylov fails *)
  Lemma step_none k s : ainv k s -> s_wn s <> 0%R -> k < a_N_max o -> a_step h H o calc k s = None ->
    exists m, calc k m = None /\ forall calc', (forall j m, exists e r rn, calc' j m = Some (e, r, rn)) -> exists s', a_step h H o calc' k s = Some s' /\ s_h s' = m.
  Proof.
    intros I N0 Hk ST. unfold a_step in *. destruct (Req_EM_T (s_wn s) 0) as [|_]; [congruence|]. rewrite app_length, (ai_len I) in *. cbn [length] in *.
    rewrite (proj2 (Nat.ltb_ge (a_N_max o) (k + 1))) in * by lia. destruct (project_coeffs h _ _) as [hs w']. eexists. split; [destruct (calc k _) as [[[? ?] ?]|] eqn:CA in ST; [discriminate|]; exact CA|].
    intros calc' T. edestruct (T k) as [e [r [rn CE]]]. rewrite CE. eexists. split; [reflexivity|]. reflexivity.
  Qed.
  Definition triv_calc (k : nat) (m : nat -> nat -> C) : option (list C * list (list C) * R) := Some ([], [], 1%R).
End P.
Lemma ainv_forget V (h : hspace V) H psi0 calc k s : ainv h H psi0 calc k s -> ainv h H psi0 triv_calc k (AState (s_cache s) (s_h s) zeros2 (s_w s) (s_wn s) [] 1%R).
Proof.
  intros [A1 A2 A3 A4 A5 A6 A7 A8 A9 A10 A11 A12 A13 A14 A15 A16]. constructor; cbn [s_cache s_h s_es s_w s_wn s_res s_rn]; auto. intros j Hj. exists [], [], 1%R. split; [reflexivity|]. split; [|auto]. intros i. now rewrite nth_overflow by (cbn; lia).
Qed.
