(** The Lanczos invariants. *)
From Coq Require Import Reals Lra List Arith Lia Bool.
From Verif Require Import Cplx Hilbert LinOpModel LinOpSpec LinOpProofs LinOpMat KrylovModel KrylovSpec.
Import ListNotations.
Set Implicit Arguments. Unset Strict Implicit.
Open Scope nat_scope.

Lemma Rltb_true x y : Rltb x y = true <-> (x < y)%R. Proof. unfold Rltb. destruct (Rlt_dec x y); split; auto; discriminate. Qed.
Lemma Rltb_false x y : Rltb x y = false <-> (y <= x)%R.
Proof. unfold Rltb. destruct (Rlt_dec x y); split; intros; auto; try discriminate; lra. Qed.

Section P.
  Variables (V : Type) (h : hspace V) (H : V -> V) (o : lopts).
  Hypothesis L : hlaws h.
  Hypothesis HH : hermitian h H.
  Hypothesis NC : 2 <= N_cache o.
  Notation z := (hzero h).

  (** ** the cache holds the last N_cache vectors *)
  Definition lastn (q : list V) : list V := skipn (length q - N_cache o) q.
  Lemma skipn_S_tl A (l : list A) : forall n, skipn (Datatypes.S n) l = tl (skipn n l).
  Proof. induction l as [|x l IH]; intros [|n]; try reflexivity. cbn [skipn]. rewrite <- IH. destruct l; reflexivity. Qed.
  Lemma to_cache_lastn q x : to_cache o (lastn q) x = lastn (q ++ [x]).
  Proof.
    unfold to_cache, lastn. rewrite !app_length, skipn_length. cbn [length].
    destruct (le_lt_dec (N_cache o) (length q)) as [Hl|Hl].
    - replace (length q - (length q - N_cache o) + 1) with (N_cache o + 1) by lia. rewrite (proj2 (Nat.ltb_lt _ _)) by lia.
      replace (length q + 1 - N_cache o) with (Datatypes.S (length q - N_cache o)) by lia. rewrite skipn_S_tl, skipn_app.
      replace (length q - N_cache o - length q) with 0 by lia. reflexivity.
    - replace (length q - N_cache o) with 0 by lia. replace (length q + 1 - N_cache o) with 0 by lia. cbn [skipn].
      rewrite (proj2 (Nat.ltb_ge _ _)) by lia. reflexivity.
  Qed.
  Lemma lastn_length q : length (lastn q) = Nat.min (length q) (N_cache o). Proof. unfold lastn. rewrite skipn_length. lia. Qed.
  Lemma lastn_last q x : last (lastn (q ++ [x])) z = x.
  Proof.
    unfold lastn. rewrite skipn_app, app_length. cbn [length]. replace (length q + 1 - N_cache o - length q) with 0 by lia. cbn [skipn]. apply last_last.
  Qed.
  Lemma nth_skipn0 A (d : A) l : forall m j, nth j (skipn m l) d = nth (m + j) l d.
  Proof. induction l as [|x l IH]; intros [|m] j; cbn [skipn]; try reflexivity; [destruct j; reflexivity|]. cbn [Nat.add nth]. apply IH. Qed.
  Lemma nth_last A (d : A) l : nth (length l - 1) l d = last l d.
  Proof. induction l as [|a l IH]; [reflexivity|]. destruct l as [|b l]; [reflexivity|]. change (last (a :: b :: l) d) with (last (b :: l) d). rewrite <- IH. cbn [length]. replace (Datatypes.S (Datatypes.S (length l)) - 1) with (Datatypes.S (Datatypes.S (length l) - 1)) by lia. reflexivity. Qed.
  Lemma lastn_nth q j : j < length (lastn q) -> nth j (lastn q) z = nth (length q - N_cache o + j) q z.
  Proof.
    intros _. unfold lastn. apply nth_skipn0.
  Qed.
  Lemma lastn_In q x : In x (lastn q) -> In x q.
  Proof. unfold lastn. intros Hx. rewrite <- (firstn_skipn (length q - N_cache o) q). apply in_app_iff. now right. Qed.
  Lemma lastn_removelast q x : removelast (lastn (q ++ [x])) = skipn (length q + 1 - N_cache o) q.
  Proof.
    unfold lastn. rewrite app_length. cbn [length]. rewrite skipn_app. replace (length q + 1 - N_cache o - length q) with 0 by lia. cbn [skipn]. now rewrite removelast_last.
  Qed.

  (** ** the three-term recurrence *)
  Definition prev_term (be : list R) (q : list V) (j : nat) : V := if j =? 0 then z else rscale h (nth (j - 1) be 0%R) (nth (j - 1) q z).
  (** H q_j = beta_(j-1) q_(j-1) + alpha_j q_j + (beta_j q_(j+1), or w for the last one) *)
  Definition recurrence (q : list V) (w : V) (al be : list R) : Prop :=
    forall j, j < length q ->
      H (nth j q z) = hadd h (hadd h (prev_term be q j) (rscale h (nth j al 0%R) (nth j q z)))
                       (if Datatypes.S j =? length q then w else rscale h (nth j be 0%R) (nth (Datatypes.S j) q z)).
  Record linv (k : nat) (q : list V) (w : V) (al be : list R) : Prop := {
    li_len : length q = k; li_al : length al = k; li_be : length be = k;
    li_on : orthonormal h q;
    li_perp : forall x, In x q -> hinner h x w = C0;
    li_rec : recurrence q w al be;
    li_beta : k <> 0 -> nth (k - 1) be 0%R = hnorm h w }.

  Lemma orthonormal_nth q i j : orthonormal h q -> i < length q -> j < length q -> hinner h (nth i q z) (nth j q z) = if i =? j then C1 else C0.
  Proof. clear NC.
    intros [H1 H2] Hi Hj. destruct (Nat.eqb_spec i j) as [E|N].
    - subst. apply H2, nth_In. exact Hj.
    - destruct (lt_eq_lt_dec i j) as [[Hl|He]|Hl]; [apply H1; lia|lia|]. apply (inner_sym0 L), H1. lia.
  Qed.
  (** matrix elements of H with the new vector *)
  Lemma matrix_elements k q w al be : linv k q w al be -> hnorm h w <> 0%R -> forall i, i < k ->
    hinner h (nth i q z) (H (rscale h (/ hnorm h w) w)) = if Datatypes.S i =? k then RtoC (hnorm h w) else C0.
  Proof.
    intros I Nw i Hi. set (x := rscale h (/ hnorm h w) w). destruct HH as [_ Hadj]. rewrite Hadj. assert (R1 := li_rec I). unfold recurrence in R1. rewrite (li_len I) in R1. rewrite (R1 i Hi).
    assert (Px : forall y, In y q -> hinner h y x = C0).
    { intros y Hy. unfold x. rewrite (inner_rscale_r L), (li_perp I Hy). ring. }
    rewrite !(inner_add_l L), (inner_rscale_l L). rewrite (Px (nth i q z)) by (apply nth_In; rewrite (li_len I); lia).
    assert (E1 : hinner h (prev_term be q i) x = C0).
    { unfold prev_term. destruct (i =? 0); [apply (inner_0_l L)|]. rewrite (inner_rscale_l L), Px; [ring|]. apply nth_In. rewrite (li_len I). lia. }
    rewrite E1. destruct (Nat.eqb_spec (Datatypes.S i) k) as [E|N].
    - unfold x. rewrite (inner_rscale_r L), (inner_real L), <- (norm_sq L). apply C_eq; cbn; field; exact Nw.
    - rewrite (inner_rscale_l L), Px; [ring|]. apply nth_In. rewrite (li_len I). lia.
  Qed.

  (** the orthogonalisation, in either mode, subtracts beta q_(k-1) *)
  Lemma orthogonalize_spec k q x beta w : length q = k -> orthonormal h q ->
    (forall i, i < k -> hinner h (nth i q z) w = if Datatypes.S i =? k then RtoC beta else C0) ->
    orthogonalize h o k (lastn (q ++ [x])) beta w = if k =? 0 then w else axpy h (RtoC (- beta)) (nth (k - 1) q z) w.
  Proof.
    intros Hl HO E. unfold orthogonalize. destruct (reortho o).
    - rewrite lastn_removelast, Hl. set (r := skipn (k + 1 - N_cache o) q).
      assert (Hr : length r = k - (k + 1 - N_cache o)) by (unfold r; rewrite skipn_length; lia).
      assert (Or : orthogonal h r).
      { intros i j Hij. rewrite Hr in Hij. unfold r. assert (G : forall m, m < k - (k + 1 - N_cache o) -> nth m (skipn (k + 1 - N_cache o) q) z = nth (k + 1 - N_cache o + m) q z).
        { intros m Hm. apply nth_skipn0. }
        rewrite !G by lia. destruct HO as [H1 _]. apply H1. lia. }
      change (fold_left (fun w0 c => axpy h (Copp (hinner h c w0)) c w0) r w) with (fold_left (fun r0 o0 => project_out h o0 r0) r w).
      rewrite (fold_project_orth L w Or). unfold projector. destruct (Nat.eqb_spec k 0) as [Z|NZ].
      + assert (r = []) by (destruct r; [reflexivity|cbn [length] in Hr; lia]). rewrite H0. cbn [span_part]. unfold hsub. now rewrite (scale_0 L), (add_0_r L).
      + assert (Es : span_part h r w = rscale h beta (nth (k - 1) q z)).
        { assert (G : exists r', q = firstn (k + 1 - N_cache o) q ++ r' ++ [nth (k - 1) q z] /\ r = r' ++ [nth (k - 1) q z]).
          { assert (r <> []) by (destruct r; [cbn [length] in Hr; lia|discriminate]). exists (removelast r).
            assert (El : last r z = nth (k - 1) q z).
            { rewrite <- nth_last, Hr. unfold r. rewrite nth_skipn0. f_equal. lia. }
            rewrite <- El. rewrite <- app_removelast_last by assumption. split; [symmetry; apply firstn_skipn|reflexivity]. }
          destruct G as [r' [Eq Er]]. rewrite Er. rewrite (span_part_app L). cbn [span_part]. rewrite E by lia. replace (Datatypes.S (k - 1) =? k) with true by (symmetry; apply Nat.eqb_eq; lia).
          rewrite (add_0_r L). rewrite (span_part_zero L); [apply (hl_zero L)|]. intros y Hy. 
          destruct (In_nth r' y z Hy) as (m & Hm & Em).
          assert (Ey : y = nth (length (firstn (k + 1 - N_cache o) q) + m) q z).
          { rewrite Eq at 2. rewrite app_nth2 by lia. rewrite Nat.add_comm, Nat.add_sub. rewrite app_nth1 by exact Hm. now symmetry. }
          assert (Hlen : length q = length (firstn (k + 1 - N_cache o) q) + (length r' + 1)) by (rewrite Eq at 1; rewrite !app_length; cbn [length]; lia).
          rewrite Ey, E by lia. destruct (Nat.eqb_spec (Datatypes.S (length (firstn (k + 1 - N_cache o) q) + m)) k); [lia|reflexivity]. }
        rewrite Es. unfold axpy, hsub, rscale. rewrite (hl_mul L), (hl_comm L). f_equal. f_equal. apply C_eq; cbn; ring.
    - destruct k as [|k]; [reflexivity|]. cbn [Nat.ltb Nat.leb Nat.eqb]. rewrite lastn_length, app_length, Hl. cbn [length].
      assert (Hx : Nat.min (Datatypes.S k + 1) (N_cache o) - 2 < length (lastn (q ++ [x]))) by (rewrite lastn_length, app_length, Hl; cbn [length]; lia).
      rewrite (lastn_nth Hx), app_length, Hl. cbn [length]. replace (Datatypes.S k + 1 - N_cache o + (Nat.min (Datatypes.S k + 1) (N_cache o) - 2)) with k by lia.
      replace (Datatypes.S k - 1) with k by lia. rewrite app_nth1 by lia. reflexivity.
  Qed.

  (** one Lanczos step in exact arithmetic *)
  Lemma step_inv k q w al be : linv k q w al be -> hnorm h w <> 0%R ->
    let b := hnorm h w in let x := rscale h (/ b) w in let c := lastn (q ++ [x]) in
    let alpha := fst (hinner h (H x) x) in
    let w' := orthogonalize h o k c b (axpy h (RtoC (- alpha)) x (H x)) in
    linv (k + 1) (q ++ [x]) w' (al ++ [alpha]) (be ++ [hnorm h w']).
  Proof.
    intros I Nw b x c alpha w'. assert (ME := matrix_elements I Nw). fold b x in ME.
    assert (Hx1 : hinner h x x = C1) by apply (normalized L Nw).
    assert (Hxq : forall y, In y q -> hinner h y x = C0) by (intros y Hy; unfold x; rewrite (inner_rscale_r L), (li_perp I Hy); ring).
    assert (Hal : hinner h x (H x) = RtoC alpha).
    { unfold alpha. destruct HH as [_ Hadj]. apply C_eq; [now rewrite Hadj|]. cbn [RtoC snd]. assert (X := hl_inner_conj L x (H x)). rewrite (Hadj x x) in *. apply (f_equal snd) in X. rewrite <- (Hadj x x) in X at 2.
      cbn [Cconj snd] in X. assert (Y : hinner h x (H x) = hinner h (H x) x) by apply Hadj. rewrite <- Y in X. rewrite <- Y. lra. }
    assert (E1 : forall i, i < k -> hinner h (nth i q z) (axpy h (RtoC (- alpha)) x (H x)) = if Datatypes.S i =? k then RtoC b else C0).
    { intros i Hi. rewrite (inner_axpy_r L), Hxq by (apply nth_In; rewrite (li_len I); exact Hi). rewrite ME by exact Hi. ring. }
    assert (Ew : w' = if k =? 0 then axpy h (RtoC (- alpha)) x (H x) else axpy h (RtoC (- b)) (nth (k - 1) q z) (axpy h (RtoC (- alpha)) x (H x))).
    { unfold w', c. apply orthogonalize_spec; [apply (li_len I)|apply (li_on I)|exact E1]. }
    assert (HO' : orthonormal h (q ++ [x])) by (apply orthonormal_snoc; [apply (li_on I)|exact Hx1|exact Hxq]).
    constructor.
    - rewrite app_length, (li_len I). reflexivity.
    - rewrite app_length, (li_al I). reflexivity.
    - rewrite app_length, (li_be I). reflexivity.
    - exact HO'.
    - intros y Hy. rewrite Ew. apply in_app_iff in Hy. destruct Hy as [Hy|[Hy|[]]].
      + destruct (In_nth q y z Hy) as (i & Hi & Ei). rewrite (li_len I) in Hi. destruct (Nat.eqb_spec k 0) as [Z|NZ]; [lia|]. rewrite <- Ei, (inner_axpy_r L), E1 by exact Hi.
        rewrite orthonormal_nth by (first [apply (li_on I)|rewrite (li_len I); lia]).
        destruct (Nat.eqb_spec i (k - 1)) as [E|N]; destruct (Nat.eqb_spec (Datatypes.S i) k); try lia; apply C_eq; cbn; ring.
      + subst y. destruct (Nat.eqb_spec k 0) as [Z|NZ].
        * rewrite (inner_axpy_r L), Hx1, Hal. apply C_eq; cbn; ring.
        * assert (Hin : In (nth (k - 1) q z) q) by (apply nth_In; rewrite (li_len I); lia). rewrite !(inner_axpy_r L), Hx1, Hal. rewrite (inner_sym0 L (Hxq _ Hin)). apply C_eq; cbn; ring.
    - intros j Hj. rewrite app_length in *. cbn [length] in *. rewrite (li_len I) in *.
      destruct (Nat.eq_dec j k) as [E|N].
      + subst j. replace (Datatypes.S k =? k + 1) with true by (symmetry; apply Nat.eqb_eq; lia).
        rewrite (app_nth2 q), (app_nth2 al) by (rewrite ?(li_len I), ?(li_al I); lia). rewrite (li_len I), (li_al I), Nat.sub_diag. cbn [nth]. rewrite Ew. unfold prev_term.
        destruct (Nat.eqb_spec k 0) as [Z|NZ].
        * apply (inner_ext L). intros y. rewrite !(hl_inner_add L), (inner_0_r L), (inner_axpy_r L), (inner_rscale_r L). apply C_eq; cbn; ring.
        * rewrite (app_nth1 q), (app_nth1 be) by (rewrite ?(li_len I), ?(li_be I); lia). rewrite (li_beta I NZ). fold b.
          apply (inner_ext L). intros y. rewrite !(hl_inner_add L), !(inner_axpy_r L), !(inner_rscale_r L). apply C_eq; cbn; ring.
      + rewrite (app_nth1 q), (app_nth1 al) by (rewrite ?(li_len I), ?(li_al I); lia). rewrite (li_rec I) by (rewrite (li_len I); lia). rewrite (li_len I).
        destruct (Nat.eqb_spec (Datatypes.S j) (k + 1)); [lia|].
        f_equal; [f_equal|].
        * unfold prev_term. destruct (Nat.eqb_spec j 0); [reflexivity|]. rewrite (app_nth1 q), (app_nth1 be) by (rewrite ?(li_len I), ?(li_be I); lia). reflexivity.
        * destruct (Nat.eqb_spec (Datatypes.S j) k) as [E|N'].
          -- rewrite (app_nth2 q) by (rewrite (li_len I); lia). rewrite (li_len I). replace (Datatypes.S j - k) with 0 by lia. cbn [nth].
             rewrite (app_nth1 be) by (rewrite (li_be I); lia). replace j with (k - 1) by lia. rewrite (li_beta I) by lia. unfold x, b, rscale. rewrite (hl_mul L).
             rewrite <- RtoC_mul, Rinv_r by exact Nw. symmetry. apply (hl_one L).
          -- rewrite (app_nth1 q), (app_nth1 be) by (rewrite ?(li_len I), ?(li_be I); lia). reflexivity.
    - intros _. replace (k + 1 - 1) with k by lia. rewrite app_nth2, (li_be I), Nat.sub_diag by (rewrite (li_be I); lia). reflexivity.
  Qed.
End P.
