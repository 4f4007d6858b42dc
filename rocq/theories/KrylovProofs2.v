(** The Lanczos loop, and assembling the result with any cache size. *)
From Coq Require Import Reals Lra List Arith Lia Bool Permutation.
From Verif Require Util.
From Verif Require Import Cplx Hilbert LinOpModel LinOpSpec LinOpProofs LinOpMat KrylovModel KrylovSpec KrylovProofs.
Import ListNotations.
Set Implicit Arguments. Unset Strict Implicit.
Open Scope nat_scope.

Section P.
  Variables (V : Type) (h : hspace V) (H : V -> V) (o : lopts).
  Hypothesis L : hlaws h.
  Hypothesis HH : hermitian h H.
  Hypothesis NC : 2 <= N_cache o.
  Hypothesis CP : (0 < cutoff o)%R.
  Variable calc : list R -> list R -> list R * list C * R.
  Variable conv : nat -> list R -> list R -> list C -> R -> bool.
  Notation z := (hzero h).

  Record sinv (psi : V) (k : nat) (q : list V) (s : lstate V) : Prop := {
    si_l : linv h H k q (wvec s) (alphas s) (betas s);
    si_cache : cache s = lastn o q;
    si_beta : beta s = hnorm h (wvec s);
    si_es : length (es s) = k;
    si_calc : k <> 0 -> (nth (k - 1) (es s) [], vf s, rnorm s) = calc (alphas s) (firstn (k - 1) (betas s));
    si_all : forall j, j < k -> nth j (es s) [] = fst (fst (calc (firstn (j + 1) (alphas s)) (firstn j (betas s))));
    si_hist : forall m, 0 < m <= k -> exists w, linv h H m (firstn m q) w (firstn m (alphas s)) (firstn m (betas s));
    si_pos : forall j, j + 1 < k -> nth j (betas s) 0%R <> 0%R;
    si_first : k <> 0 -> nth 0 q z = psi;
    si_first0 : k = 0 -> rscale h (/ beta s) (wvec s) = psi }.

  Lemma step_sinv psi k q s : sinv psi k q s -> beta s <> 0%R -> sinv psi (k + 1) (q ++ [rscale h (/ beta s) (wvec s)]) (lanczos_step h H o calc k s).
  Proof.
    intros I NB. assert (Hb := si_beta I). assert (LI := si_l I). rewrite Hb in NB.
    assert (SI := step_inv L HH NC LI NB). cbv zeta in SI.
    unfold lanczos_step. rewrite (si_cache I), to_cache_lastn, lastn_last by lia. rewrite Hb.
    set (x := rscale h (/ hnorm h (wvec s)) (wvec s)) in *. set (alpha := fst (hinner h (H x) x)) in *.
    destruct (calc (alphas s ++ [alpha]) (betas s)) as [[e v] rn] eqn:Ec.
    set (w' := orthogonalize h o k (lastn o (q ++ [x])) (hnorm h (wvec s)) (axpy h (RtoC (- alpha)) x (H x))) in *.
    constructor; cbn [cache wvec beta alphas betas es vf rnorm].
    - exact SI.
    - reflexivity.
    - reflexivity.
    - rewrite app_length, (si_es I). reflexivity.
    - intros _. replace (k + 1 - 1) with k by lia. rewrite app_nth2, (si_es I), Nat.sub_diag by (rewrite (si_es I); lia). cbn [nth]. rewrite <- Ec. f_equal.
      rewrite firstn_app, (li_be LI), Nat.sub_diag. cbn [firstn]. rewrite app_nil_r. symmetry. apply firstn_all2. rewrite (li_be LI). lia.
    - intros j Hj. destruct (Nat.eq_dec j k) as [E|N].
      + subst j. rewrite app_nth2, (si_es I), Nat.sub_diag by (rewrite (si_es I); lia). cbn [nth]. rewrite firstn_all2 by (rewrite app_length, (li_al LI); cbn [length]; lia).
        rewrite firstn_app, (li_be LI), Nat.sub_diag. cbn [firstn]. rewrite app_nil_r, firstn_all2 by (rewrite (li_be LI); lia). now rewrite Ec.
      + rewrite app_nth1 by (rewrite (si_es I); lia). rewrite (si_all I) by lia. rewrite !firstn_app, (li_al LI), (li_be LI). replace (j + 1 - k) with 0 by lia. replace (j - k) with 0 by lia. cbn [firstn]. now rewrite !app_nil_r.
    - intros m Hm. destruct (Nat.eq_dec m (k + 1)) as [E|N].
      + subst m. exists w'. rewrite !firstn_all2 by (rewrite app_length, ?(li_len LI), ?(li_al LI), ?(li_be LI); cbn [length]; lia). exact SI.
      + destruct (si_hist I (m := m) ltac:(lia)) as [w0 Hw]. exists w0. rewrite !firstn_app, (li_len LI), (li_al LI), (li_be LI). replace (m - k) with 0 by lia. cbn [firstn]. rewrite !app_nil_r. exact Hw.
    - intros j Hj. rewrite app_nth1 by (rewrite (li_be LI); lia). destruct (Nat.eq_dec (j + 1) k) as [E|N].
      + replace j with (k - 1) by lia. rewrite (li_beta LI) by lia. exact NB.
      + apply (si_pos I). lia.
    - intros _. destruct k as [|k].
      + destruct q; [|assert (X := li_len LI); discriminate]. cbn [app nth]. rewrite <- (si_first0 I eq_refl). rewrite Hb. reflexivity.
      + rewrite app_nth1 by (rewrite (li_len LI); lia). apply (si_first I). lia.
    - intros E. lia.
  Qed.
  Lemma loop_sinv psi : forall fuel k q s, sinv psi k q s -> (cutoff o <= beta s)%R ->
    let '(n, s') := lanczos_loop h H o calc conv fuel k s in
    k <= n <= k + fuel /\ (fuel <> 0 -> k < n) /\ (exists q', sinv psi n q' s') /\
    (n < k + fuel -> lanczos_stop o conv (n - 1) s' = true).
  Proof.
    induction fuel as [|fuel IH]; intros k q s I HB; cbn [lanczos_loop].
    - split; [lia|]. split; [lia|]. split; [now exists q|lia].
    - assert (I' := step_sinv I ltac:(lra)). set (s1 := lanczos_step h H o calc k s) in *. destruct (lanczos_stop o conv k s1) eqn:St.
      + split; [lia|]. split; [lia|]. split; [replace (Datatypes.S k) with (k + 1) by lia; eexists; exact I'|]. intros _. replace (Datatypes.S k - 1) with k by lia. exact St.
      + assert (HB' : (cutoff o <= beta s1)%R).
        { unfold lanczos_stop in St. apply orb_false_iff in St. destruct St as [St _]. apply Rltb_false in St. rewrite Rabs_right in St; [exact St|].
          rewrite (si_beta I'). apply Rle_ge, norm_nonneg. }
        replace (k + 1) with (Datatypes.S k) in I' by lia. specialize (IH _ _ _ I' HB'). destruct (lanczos_loop h H o calc conv fuel (Datatypes.S k) s1) as [n s'].
        destruct IH as [H1 [H2 [H3 H4]]]. split; [lia|]. split; [lia|]. split; [exact H3|]. intros Hn. apply H4. lia.
  Qed.
  Lemma init_sinv psi0 : (cutoff o <= hnorm h psi0)%R -> sinv (rscale h (/ hnorm h psi0) psi0) 0 [] (LState [] psi0 (hnorm h psi0) [] [] [] [] 0%R).
  Proof.
    intros HB. constructor; cbn [cache wvec beta alphas betas es vf rnorm]; try reflexivity; try lia; try congruence.
    constructor; try reflexivity; try congruence.
    - apply orthonormal_nil.
    - intros x [].
    - intros j Hj. cbn in Hj. lia.
  Qed.
  Theorem build_krylov_spec psi0 : N_max o <> 0 ->
    match build_krylov h H o calc conv psi0 with
    | None => (hnorm h psi0 < cutoff o)%R
    | Some (psi, n, s) => (cutoff o <= hnorm h psi0)%R /\ psi = rscale h (/ hnorm h psi0) psi0 /\ 1 <= n <= N_max o /\ (exists q, sinv psi n q s) /\
                          (n < N_max o -> lanczos_stop o conv (n - 1) s = true)
    end.
  Proof.
    intros NM. unfold build_krylov. destruct (Rltb (hnorm h psi0) (cutoff o)) eqn:E; [now apply Rltb_true|]. apply Rltb_false in E.
    assert (X := loop_sinv (N_max o) (init_sinv E)). cbn [beta] in X. specialize (X E). destruct (lanczos_loop h H o calc conv (N_max o) 0 _) as [n s]. destruct X as [H1 [H2 [H3 H4]]].
    split; [exact E|]. split; [reflexivity|]. split; [lia|]. split; [exact H3|]. intros Hn. apply H4. lia.
  Qed.

  (** ** sums of the basis vectors *)
  Fixpoint vs (v : list C) (q : list V) (l : list nat) : V := match l with [] => z | i :: l => hadd h (hscale h (nth i v C0) (nth i q z)) (vs v q l) end.
  Lemma vs_perm v q l l' : Permutation l l' -> vs v q l = vs v q l'.
  Proof.
    induction 1; cbn [vs]; [reflexivity|now f_equal| |congruence]. rewrite !(hl_assoc L). f_equal. apply (hl_comm L).
  Qed.
  Lemma vs_app v q l l' : vs v q (l ++ l') = hadd h (vs v q l) (vs v q l').
  Proof. induction l as [|i l IH]; cbn [app vs]; [symmetry; apply (hl_zero L)|]. rewrite IH. apply (hl_assoc L). Qed.
  Lemma vs_lincomb : forall v q, length v = length q -> vs v q (seq 0 (length q)) = lincomb h v q.
  Proof.
    assert (G : forall v q a v0 q0, length v0 = a -> length q0 = a -> length v = length q -> vs (v0 ++ v) (q0 ++ q) (seq a (length q)) = lincomb h v q).
    { induction v as [|c v IH]; intros [|x q] a v0 q0 Hv Hq E; cbn [length] in E; try lia; cbn [length seq vs lincomb]; [reflexivity|].
      rewrite !app_nth2 by lia. rewrite Hv, Hq, Nat.sub_diag. cbn [nth]. f_equal.
      specialize (IH q (Datatypes.S a) (v0 ++ [c]) (q0 ++ [x])). rewrite !app_length, <- !app_assoc in IH. cbn [length app] in IH. apply IH; lia. }
    intros v q E. apply (G v q 0 [] []); auto.
  Qed.
  Lemma fold_vs v q (f : nat -> nat) (g : nat -> V) : forall l p, (forall k, In k l -> g k = nth (f k) q z) ->
    fold_left (fun p k => hadd h p (hscale h (nth (f k) v C0) (g k))) l p = hadd h p (vs v q (map f l)).
  Proof.
    induction l as [|k l IH]; intros p Hg; cbn [fold_left map vs]; [symmetry; apply (add_0_r L)|]. rewrite IH by (intros; apply Hg; now right). rewrite (Hg k) by now left.
    symmetry. apply (hl_assoc L).
  Qed.

  Lemma rebuild_spec psi N q s v : sinv psi N q s -> forall m k beta psif, k + m <= N - 1 -> (k <> 0 -> beta = nth (k - 1) (betas s) 0%R) ->
    rebuild h H o m k (alphas s) (betas s) v (lastn o (firstn k q)) (nth k q z) beta psif = hadd h psif (vs v q (seq (k + 1) m)).
  Proof.
    intros I. assert (LI := si_l I). assert (Hq := li_len LI). induction m as [|m IH]; intros k bt psif Hk Hb; cbn [rebuild seq vs].
    - symmetry. apply (add_0_r L).
    - assert (Hkl : length (firstn k q) = k) by (rewrite firstn_length; lia).
      rewrite to_cache_lastn, lastn_last by lia.
      assert (Ef : firstn k q ++ [nth k q z] = firstn (k + 1) q).
      { assert (G : forall (l : list V) n, n < length l -> firstn n l ++ [nth n l z] = firstn (n + 1) l).
        { clear. induction l as [|x l IHl]; intros [|n] Hn; cbn [length] in Hn; try lia; cbn [firstn nth app Nat.add]; [destruct l; reflexivity|]. f_equal. apply IHl. lia. }
        apply G. lia. }
      assert (On : orthonormal h (firstn k q)) by (eapply (orthonormal_app_l (q' := skipn k q)); rewrite firstn_skipn; apply (li_on LI)).
      assert (Er := li_rec LI (j := k) ltac:(lia)). rewrite Hq in Er. destruct (Nat.eqb_spec (Datatypes.S k) N); [lia|].
      assert (Nf : forall i, i < k -> nth i (firstn k q) z = nth i q z).
      { intros i Hi. assert (G : forall (l : list V) n i, i < n -> nth i (firstn n l) z = nth i l z). { clear. induction l as [|x l IHl]; intros [|n] [|i] Hi; cbn [firstn nth]; try lia; auto. apply IHl. lia. } apply G, Hi. }
      rewrite (orthogonalize_spec L NC (nth k q z) (beta := bt) (w := axpy h (RtoC (- nth k (alphas s) 0%R)) (nth k q z) (H (nth k q z))) Hkl On).
      2:{ intros i Hi. rewrite (Nf i Hi), (inner_axpy_r L), Er, !(hl_inner_add L), !(inner_rscale_r L).
          rewrite !(orthonormal_nth L (li_on LI)) by lia. unfold prev_term. destruct (Nat.eqb_spec k 0); [lia|]. rewrite (inner_rscale_r L), (orthonormal_nth L (li_on LI)) by lia.
          destruct (Nat.eqb_spec i k); [lia|]. destruct (Nat.eqb_spec i (Datatypes.S k)); [lia|]. rewrite (Hb n0).
          destruct (Nat.eqb_spec i (k - 1)); destruct (Nat.eqb_spec (Datatypes.S i) k); try lia; apply C_eq; cbn; ring. }
      assert (Ew : rscale h (/ nth k (betas s) 0%R) (if k =? 0 then axpy h (RtoC (- nth k (alphas s) 0%R)) (nth k q z) (H (nth k q z))
          else axpy h (RtoC (- bt)) (nth (k - 1) (firstn k q) z) (axpy h (RtoC (- nth k (alphas s) 0%R)) (nth k q z) (H (nth k q z)))) = nth (k + 1) q z).
      { assert (NB := si_pos I (j := k) ltac:(lia)). replace (k + 1) with (Datatypes.S k) by lia.
        apply (inner_ext L). intros y. rewrite (inner_rscale_r L).
        assert (E2 := f_equal (hinner h y) Er). rewrite !(hl_inner_add L), !(inner_rscale_r L) in E2. unfold prev_term in E2.
        destruct (Nat.eqb_spec k 0) as [Z|NZ].
        - rewrite (inner_axpy_r L), E2, (inner_0_r L). apply C_eq; cbn; field; exact NB.
        - rewrite Nf by lia. rewrite !(inner_axpy_r L), E2, (inner_rscale_r L), (Hb NZ). apply C_eq; cbn; field; exact NB. }
      rewrite Ew, Ef. replace (Datatypes.S (k + 1)) with (k + 1 + 1) by lia. replace (Datatypes.S k) with (k + 1) by lia.
      rewrite (IH (k + 1)); [|lia|intros _; now replace (k + 1 - 1) with k by lia]. symmetry. apply (hl_assoc L).
  Qed.

  (** the result vector is the combination of all basis vectors, whatever the cache size *)
  Theorem calc_result_full_gen psi N q s : sinv psi N q s -> 1 < N -> length (vf s) = N ->
    calc_result_full h H o psi N s = Some (rscale h (/ hnorm h (lincomb h (vf s) q)) (lincomb h (vf s) q)).
  Proof.
    intros I HN Hv. assert (LI := si_l I). assert (Hq := li_len LI). unfold calc_result_full. rewrite Hv, Nat.eqb_refl. rewrite (proj2 (Nat.ltb_lt 1 N)) by exact HN. cbn [andb].
    rewrite (si_cache I), lastn_length, Hq. set (lc := Nat.min N (N_cache o)). set (m := Nat.min (lc + 1) N - 1).
    rewrite (fold_vs (vf s) (q := q) (f := fun k => N - k) (g := fun k => nth (lc - k) (lastn o q) z)).
    2:{ intros k Hk. apply in_seq in Hk. rewrite lastn_nth by (rewrite lastn_length, Hq; lia). rewrite Hq. f_equal. lia. }
    assert (Er := rebuild_spec (vf s) I (m := N - lc - 1) (k := 0) (beta := 0%R)). cbn [firstn] in Er. unfold lastn at 1 in Er. cbn [length skipn Nat.sub] in Er. rewrite (si_first I) in Er by lia.
    rewrite Er by lia. cbn [Nat.add].
    assert (E : hadd h (hadd h (hscale h (nth 0 (vf s) C0) psi) (vs (vf s) q (map (fun k => N - k) (seq 1 m)))) (vs (vf s) q (seq 1 (N - lc - 1))) = lincomb h (vf s) q).
    { rewrite <- vs_lincomb by lia. rewrite Hq.
      assert (P : Permutation ((0 :: map (fun k => N - k) (seq 1 m)) ++ seq 1 (N - lc - 1)) (seq 0 N)).
      { apply NoDup_Permutation_bis.
        - cbn [app]. constructor.
          + intros Hin. apply in_app_iff in Hin. destruct Hin as [Hin|Hin]; [apply in_map_iff in Hin; destruct Hin as [k [E Hk]]; apply in_seq in Hk; lia|apply in_seq in Hin; lia].
          + apply Util.NoDup_app_intro.
            * apply Util.NoDup_map_inj; [|apply seq_NoDup]. intros a b Ha Hb E. apply in_seq in Ha. apply in_seq in Hb. lia.
            * apply seq_NoDup.
            * intros y Hy Hy'. apply in_map_iff in Hy. destruct Hy as [k [E Hk]]. apply in_seq in Hk. apply in_seq in Hy'. lia.
        - rewrite app_length. cbn [length]. rewrite map_length, !seq_length. lia.
        - intros y Hy. apply in_seq. cbn [app] in Hy. destruct Hy as [Hy|Hy]; [lia|]. apply in_app_iff in Hy. destruct Hy as [Hy|Hy].
          + apply in_map_iff in Hy. destruct Hy as [k [E Hk]]. apply in_seq in Hk. lia.
          + apply in_seq in Hy. lia. }
      rewrite <- (vs_perm _ _ P). cbn [app vs]. rewrite vs_app, <- (si_first I) by lia. symmetry. apply (hl_assoc L). }
    rewrite E. reflexivity. exact NC.
  Qed.
  Theorem calc_result_full_spec psi N q s : sinv psi N q s -> 1 < N -> length (vf s) = N -> hnorm h (lincomb h (vf s) q) = 1%R ->
    calc_result_full h H o psi N s = Some (lincomb h (vf s) q).
  Proof. intros I HN Hv Hn. rewrite (calc_result_full_gen I HN Hv), Hn, Rinv_1. f_equal. apply (hl_one L). Qed.
End P.
