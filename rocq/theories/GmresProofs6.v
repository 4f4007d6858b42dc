(** Early breakdown: when the Krylov space is exhausted before N_min steps are done *)
From Coq Require Import Reals Lra List Arith Bool Lia.
From Verif Require Import Util Cplx Hilbert LinOpModel LinOpSpec LinOpProofs LinOpMat KrylovModel KrylovSpec KrylovProofs3 KrylovProofs4 KrylovProofs5 KrylovProofs6 GmresModel GmresSpec GmresProofs GmresProofs2 GmresProofs3 GmresProofs4 GmresProofs5.
Import ListNotations.
Set Implicit Arguments. Unset Strict Implicit.
Open Scope nat_scope.

Section P.
  Variables (V : Type) (h : hspace V) (A : V -> V) (b : V) (o : gopts).
  Hypothesis L : hlaws h.
  Hypothesis HA : linear h A.
  Notation z := (hzero h).
  Notation qn s i := (nth i (g_qs s) z).
  Lemma span_perp (l : list V) u v : in_span h l v -> (forall y, In y l -> hinner h u y = C0) -> hinner h u v = C0.
  Proof.
    intros [c [_ ->]]. revert c. induction l as [|y l IH]; intros [|a c] F; cbn [lincomb]; try apply (inner_0_r L). rewrite (hl_inner_add L), (hl_inner_scale L), (F y (or_introl eq_refl)), IH by (intros; apply F; now right). ring.
  Qed.
  Lemma exhausted_zero r0 k s : ginv h A o r0 k s -> gkry h A r0 k (g_qs s) -> exhausted h A k r0 -> qn s k = z.
  Proof.
    intros I K EX. destruct (gi_last I) as [N|Z]; [|exact Z]. exfalso.
    assert (Q := gk_in K (le_n k)).
    assert (Q1 : in_span h (powers A k r0) (qn s k)).
    { revert Q. apply (span_trans L). intros y Y. apply powers_iter in Y. destruct Y as [j [Hj ->]]. destruct (Nat.eq_dec j k) as [-> |D]; [exact EX|].
      apply (span_In L). apply powers_iter. exists j. split; [lia|reflexivity]. }
    apply (gkry_span L HA _ K (le_n k)) in Q1.
    assert (Z := span_perp Q1 (u := qn s k)). rewrite N in Z. assert (X : C1 = C0).
    { apply Z. intros y Y. apply (In_nth _ _ z) in Y. destruct Y as [i [Hi <-]]. rewrite firstn_length, (gi_lq I) in Hi. rewrite nth_firstn_lt by lia. apply (inner_sym0 L), (gi_perp I). lia. }
    injection X as X. lra.
  Qed.
  Lemma loop_breaks r0 n : n <= g_N_min o -> n < g_N_max o -> exhausted h A n r0 ->
    forall fuel k s, k + fuel = g_N_max o -> k <= n -> ginv h A o r0 k s -> gkry h A r0 k (g_qs s) -> g_loop h A b o fuel k s = None.
  Proof.
    intros H1 H2 EX. induction fuel as [|fuel IH]; intros k s Hk Hn I K; [lia|]. cbn [g_loop].
    destruct (g_step h A b k s) as [s1|] eqn:ST; [|reflexivity].
    destruct (Nat.eq_dec k n) as [-> |D]; [rewrite (step_exhausted b L HA I (exhausted_zero I K EX)) in ST; discriminate|].
    rewrite (proj2 (Nat.leb_gt (g_N_min o) k)) by lia. rewrite andb_false_r.
    assert (Hk' : k < g_N_max o) by lia. destruct (step_inv L HA I Hk' ST) as [I' [ON [col [q [c [sn [e [EA [EQ _]]]]]]]]].
    apply IH; [lia|lia|exact I'|]. rewrite EQ. eapply gkry_step; eassumption.
  Qed.
  Lemma early_breakdown x n : n <= g_N_min o -> n < g_N_max o -> g_restart o <> 0 -> exhausted h A n (residual h A b x) ->
    (g_res o <= relative_residual h A b x)%R -> gmres h A b o x = None.
  Proof.
    intros H1 H2 H3 EX R. unfold gmres. destruct (Rltb (start_error h A b x) (g_res o)) eqn:B; [apply Rltb_iff in B; unfold start_error, relative_residual, residual, denom, b_norm in *; lra|].
    destruct (g_restart o) as [|m]; [congruence|]. cbn [g_cycles]. unfold g_cycle.
    rewrite (loop_breaks H1 H2 EX (fuel := g_N_max o) (k := 0) (s := g_init h A b o x)); [reflexivity|reflexivity|lia|apply (init_inv A b o L)|apply (gkry_init A b o L)].
  Qed.
End P.
