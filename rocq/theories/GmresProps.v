(** C56: the linear solver GMRES. *)
From Coq Require Import Reals Lra List Arith Lia Bool.
From Verif Require Import Util Cplx Hilbert LinOpModel LinOpSpec LinOpProofs LinOpMat KrylovModel KrylovSpec KrylovProofs KrylovProofs4 KrylovProofs6 KrylovProps GmresModel GmresSpec GmresProofs GmresProofs2 GmresProofs3 GmresProofs4 GmresProofs5 GmresProofs6.
Import ListNotations.
Open Scope nat_scope.

(** GMRES(A, x, b, options).run() for a hermitian operator, or for real data: the returned number is the relative residual of the returned vector, it is not
    larger than the one of the initial guess, and below [res] unless all [restart] cycles of N_max steps were used; the lists of errors and of steps describe the run:
    every cycle minimises the residual over x + (Krylov space), and the error listed after j steps is the minimum after j steps. *)
Theorem C56_gmres : forall V (h : hspace V) A b o x x' rel errs iters, hlaws h -> linear h A -> (hermitian h A \/ real_problem h A b x) ->
  gmres h A b o x = Some (x', rel, errs, iters) ->
  rel = relative_residual h A b x' /\ (rel <= relative_residual h A b x)%R /\
  ((rel < g_res o)%R \/ (length iters = g_restart o /\ forall n, In n iters -> n = g_N_max o)) /\
  (((rel < g_res o)%R /\ x' = x /\ errs = [[rel]] /\ iters = []) \/
   ((g_res o <= relative_residual h A b x)%R /\ run_of h A b (g_N_min o) (g_N_max o) (g_res o) (g_restart o) x errs iters x')).
Proof.
  intros V h A b o x x' rel errs iters L HA G E. unfold gmres in E.
  change (start_error h A b x) with (relative_residual h A b x) in E. destruct (Rltb (relative_residual h A b x) (g_res o)) eqn:B.
  - apply Rltb_iff in B. injection E as <- <- <- <-. split; [reflexivity|]. split; [lra|]. split; [now left|]. left. auto.
  - assert (B' : (g_res o <= relative_residual h A b x)%R) by (destruct (Rle_or_lt (g_res o) (relative_residual h A b x)) as [X|X]; [exact X|apply Rltb_iff in X; congruence]).
    destruct (g_cycles h A b o (g_restart o) x [] []) as [[[x1 e1] i1]|] eqn:CY; [|discriminate]. injection E as <- <- <- <-.
    assert (RO := good_cycles L HA G CY). destruct (run_of_le L RO) as [RL RC].
    assert (NE : (hnorm h (hsub h (A x1) b) / denom h b)%R = relative_residual h A b x1).
    { unfold relative_residual, residual, denom, b_norm. f_equal. assert (X : hsub h (A x1) b = hscale h (Copp C1) (hsub h b (A x1))) by (unfold hsub; hvec L). rewrite X. rewrite (norm_hscaleC L).
      replace (Cabs (Copp C1)) with 1%R; [ring|]. unfold Cabs, Cnorm2. cbn. replace ((- (1)) * (- (1)) + - 0 * - 0)%R with 1%R by ring. symmetry. apply sqrt_1. }
    split; [exact NE|]. rewrite NE. assert (D : (0 < (if Req_EM_T (hnorm h b) 0 then 1 else hnorm h b))%R) by (destruct (Req_EM_T (hnorm h b) 0); [lra|assert (X := norm_nonneg h b); lra]).
    split; [unfold relative_residual, Rdiv; apply Rmult_le_compat_r; [left; now apply Rinv_0_lt_compat|exact RL]|]. split; [|right; auto].
    destruct RC as [RC|[R1 R2]]; [now left|]. right. split; [exact R1|]. rewrite Forall_forall in R2. intros n Hn. symmetry. now apply R2.
Qed.
Print Assumptions C56_gmres.

(** When does run() give NaN?  For an invertible hermitian (or real) operator only if one of the cycles exhausts its Krylov space in less than N_max steps;
    with a single cycle it is the Krylov space of the initial residual. *)
Theorem C56_fails_only_if_exhausted : forall V (h : hspace V) A b o x, hlaws h -> linear h A -> (hermitian h A \/ real_problem h A b x) -> (forall v, A v = hzero h -> v = hzero h) ->
  gmres h A b o x = None ->
  exists x' k, k < g_N_max o /\ exhausted h A k (residual h A b x') /\ (hnorm h (residual h A b x') <= hnorm h (residual h A b x))%R /\ (g_restart o = 1 -> x' = x).
Proof.
  intros V h A b o x L HA G INJ E. unfold gmres in E. destruct (Rltb _ _); [discriminate|]. destruct (g_cycles h A b o (g_restart o) x [] []) as [[[? ?] ?]|] eqn:CY; [discriminate|].
  exact (good_fail L HA INJ G CY).
Qed.
Print Assumptions C56_fails_only_if_exhausted.

(** In that case -- the Krylov space is exhausted after n <= N_min steps, so that the exact solution has just been found -- the result is always NaN,
    for every linear operator: the test for convergence waits for N_min + 1 steps, and the next step divides by zero. *)
Theorem C56_early_breakdown_gives_nan : forall V (h : hspace V) A b o x n, hlaws h -> linear h A -> n <= g_N_min o -> n < g_N_max o -> g_restart o <> 0 ->
  exhausted h A n (residual h A b x) -> (g_res o <= relative_residual h A b x)%R -> gmres h A b o x = None.
Proof. intros V h A b o x n L HA. apply (early_breakdown L HA). Qed.
Print Assumptions C56_early_breakdown_gives_nan.

(** refuted: "GMRES solves the identity": with the default options GMRES(1, 0, b) gives NaN for every non-zero b with norm at least 1e-8 *)
Definition default_options : gopts := GOpts 5 20 10 (1 / 100000000)%R.
Theorem C56_identity_default_options_refuted : forall V (h : hspace V) b, hlaws h -> b <> hzero h -> gmres h (fun v => v) b default_options (hzero h) = None.
Proof.
  intros V h b L NB. apply (C56_early_breakdown_gives_nan V h (fun v => v) b default_options (hzero h) 1 L); cbn [default_options g_N_min g_N_max g_restart g_res]; try lia.
  - split; reflexivity.
  - unfold exhausted. cbn [Nat.iter powers]. apply (span_In L). now left.
  - unfold relative_residual, residual. replace (hsub h b (hzero h)) with b by (symmetry; unfold hsub; hvec L). assert (N : hnorm h b <> 0%R) by (intros X; apply NB; now apply (norm_0_iff L)).
    destruct (Req_EM_T (hnorm h b) 0) as [X|X]; [congruence|]. unfold Rdiv. rewrite Rinv_r by exact N. lra.
Qed.
Print Assumptions C56_identity_default_options_refuted.

(** ** Complex operators: the Givens rotation is built with sqrt(v1^2 + v2^2) instead of sqrt(|v1|^2 + |v2|^2) *)
Definition cop (a : C) : vecC 2 -> vecC 2 := fun v => match v with (x, (y, tt)) => (Cmul a x, (Cadd x y, tt)) end.
Lemma cop_linear : forall a, linear (Cn 2) (cop a).
Proof. intros a. split; [intros [x [y []]] [x' [y' []]]|intros c [x [y []]]]; cbn; apply v2_ext; ring. Qed.
Lemma cop_inj : forall a v, a <> C0 -> cop a v = hzero (Cn 2) -> v = hzero (Cn 2).
Proof.
  intros a [x [y []]] NA E. assert (E1 : Cmul a x = C0) by exact (f_equal fst E). assert (E2 : Cadd x y = C0) by exact (f_equal (fun v => fst (snd v)) E). assert (X := Cmul_0 E1 NA). subst x. cbn. replace (Cadd C0 y) with y in E2 by ring. now subst y.
Qed.
Lemma norm_e1 : hnorm (Cn 2) e1 = 1%R. Proof. apply norm_1, C_eq; cbn; ring. Qed.
Lemma norm_e2 : hnorm (Cn 2) e2 = 1%R. Proof. apply norm_1, C_eq; cbn; ring. Qed.
Lemma cop_start : forall a o, g_init (Cn 2) (cop a) e1 o (hzero (Cn 2)) = GState [e1] [] [] [] (C1 :: repeat C0 (g_N_max o)) [1%R] /\ start_error (Cn 2) (cop a) e1 (hzero (Cn 2)) = 1%R.
Proof.
  intros a o. assert (R : hsub (Cn 2) e1 (cop a (hzero (Cn 2))) = e1) by (apply v2_ext; apply C_eq; cbn; ring). unfold g_init, start_error, denom, b_norm. rewrite R, norm_e1.
  destruct (Req_EM_T 1 0) as [X|X]; [lra|]. destruct (Rlt_dec 0 1) as [Y|Y]; [|lra]. replace (1 / 1)%R with 1%R by field. rewrite Rinv_1. replace (rscale (Cn 2) 1 e1) with e1 by (symmetry; apply (hl_one (Cn_laws 2))). split; reflexivity.
Qed.
Lemma cop_arnoldi : forall a, g_arnoldi (Cn 2) (cop a) 0 [e1] = ([a; C1], e2).
Proof.
  intros a. unfold g_arnoldi. cbn [last firstn Nat.add project_coeffs].
  replace (hinner (Cn 2) e1 (cop a e1)) with a by (symmetry; apply C_eq; cbn; ring). replace (axpy (Cn 2) (Copp a) e1 (cop a e1)) with e2 by (symmetry; apply v2_ext; apply C_eq; cbn; ring).
  rewrite norm_e2. destruct (Rlt_dec 0 1) as [Y|Y]; [|lra]. rewrite Rinv_1. replace (rscale (Cn 2) 1 e2) with e2 by (symmetry; apply (hl_one (Cn_laws 2))). reflexivity.
Qed.
(** refuted: "GMRES minimises the residual for every invertible operator": the residual of the result is larger than the one of the initial guess x = 0 *)
Theorem C56_complex_operator_refuted : exists (A : vecC 2 -> vecC 2) b x o x' rel errs iters, linear (Cn 2) A /\ (forall v, A v = hzero (Cn 2) -> v = hzero (Cn 2)) /\
  gmres (Cn 2) A b o x = Some (x', rel, errs, iters) /\ (relative_residual (Cn 2) A b x < relative_residual (Cn 2) A b x')%R.
Proof.
  set (a := (0, 5 / 4)%R : C). set (o := GOpts 0 1 1 (1 / 100000000)%R). exists (cop a), e1, (hzero (Cn 2)), o.
  destruct (cop_start a o) as [E1 E2]. set (y := (0, - (20 / 9))%R : C). set (x' := (y, (C0, tt)) : vecC 2).
  assert (CY : exists e, g_cycle (Cn 2) (cop a) e1 o (hzero (Cn 2)) = Some (x', false, e, 1)).
  { unfold g_cycle. rewrite E1. cbn [o g_N_max g_loop repeat]. unfold g_step. cbn [g_qs]. rewrite cop_arnoldi. unfold apply_givens. cbn [fold_left seq]. unfold givens_rotation. cbn [nth g_cs g_sn g_e g_errs g_cols g_qs].
    set (t := Csqrt (Cadd (Cmul a a) (Cmul C1 C1))). assert (TT : Cmul t t = ((- 9 / 16)%R, 0%R)) by (unfold t; rewrite Csqrt_sq; apply C_eq; cbn; field).
    assert (T0 : t <> C0). { intros X. rewrite X in TT. injection TT as TT. cbn in TT. lra. }
    destruct (Ceqb_spec t C0) as [X|_]; [congruence|]. set (c := Cdiv a t). set (s := Cdiv C1 t).
    assert (CT : Cmul c t = a) by (apply Cdiv_mul, T0). assert (ST : Cmul s t = C1) by (apply Cdiv_mul, T0).
    assert (RK : Cadd (Cmul c a) (Cmul s C1) = t).
    { apply (Cmul_cancel T0). replace (Cmul t (Cadd (Cmul c a) (Cmul s C1))) with (Cadd (Cmul (Cmul c t) a) (Cmul s t)) by ring. rewrite CT, ST, TT. apply C_eq; cbn; field. }
    cbn [upd app last nth g_errs g_cols g_e g_qs]. assert (ERR : Rltb (Cabs (Cmul (Copp s) C1) / denom (Cn 2) e1)%R (1 / 100000000)%R = false).
    { apply Rltb_false. unfold denom, b_norm. rewrite norm_e1. destruct (Req_EM_T 1 0); [lra|]. assert (S1 : (1 <= Cabs s)%R).
      { assert (X : (Cnorm2 s * (9 / 16))%R = 1%R). { assert (X := f_equal Cnorm2 ST). rewrite Cnorm2_mul in X. assert (Y := f_equal Cnorm2 TT). rewrite Cnorm2_mul in Y. unfold Cnorm2 at 3 in Y. unfold Cnorm2 at 3 in X. cbn in X, Y.
          assert (T9 : Cnorm2 t = (9 / 16)%R) by (assert (N := Cnorm2_nonneg t); nra). rewrite T9 in X. lra. }
        unfold Cabs. rewrite <- sqrt_1 at 1. apply sqrt_le_1_alt. lra. }
      replace (Cabs (Cmul (Copp s) C1)) with (Cabs s); [lra|]. unfold Cabs. f_equal. replace (Cmul (Copp s) C1) with (Copp s) by ring. unfold Cnorm2, Copp. cbn. ring. }
    change (g_res o) with (1 / 100000000)%R. rewrite ERR. cbn [andb g_cols g_e g_qs]. rewrite RK. cbn [backsolve seq Nat.sub fold_left nth]. change (hent [[t; C0]] 0 0) with t. destruct (Ceqb_spec t C0) as [X|_]; [congruence|].
    eexists. cbn [fold_left seq nth]. repeat f_equal.
    assert (Y : Cdiv (Cmul c C1) t = y).
    { apply (Cmul_cancel T0). apply (Cmul_cancel T0). replace (Cmul t (Cmul t (Cdiv (Cmul c C1) t))) with (Cmul (Cmul (Cdiv (Cmul c C1) t) t) t) by ring. rewrite (Cdiv_mul _ T0).
      replace (Cmul (Cmul c C1) t) with (Cmul c t) by ring. rewrite CT. replace (Cmul t (Cmul t y)) with (Cmul (Cmul t t) y) by ring. rewrite TT. apply C_eq; cbn; field. }
    rewrite Y. apply v2_ext; apply C_eq; cbn; ring. }
  destruct CY as [e CY]. eexists x', _, _, _. split; [apply cop_linear|]. split; [intros v; apply cop_inj; intros X; injection X; lra|]. split.
  - unfold gmres. rewrite E2. replace (Rltb 1 (g_res o)) with false by (symmetry; apply Rltb_false; cbn; lra). cbn [g_cycles o g_restart]. rewrite CY. reflexivity.
  - change (relative_residual (Cn 2) (cop a) e1 (hzero (Cn 2))) with (start_error (Cn 2) (cop a) e1 (hzero (Cn 2))). rewrite E2. unfold relative_residual. rewrite norm_e1. destruct (Req_EM_T 1 0); [lra|].
    unfold Rdiv. rewrite Rinv_1, Rmult_1_r. unfold hnorm, hnorm2. rewrite <- sqrt_1 at 1. apply sqrt_lt_1_alt. split; [lra|]. cbn. lra.
Qed.
Print Assumptions C56_complex_operator_refuted.

(** refuted: "GMRES gives a result for every invertible operator, as long as the Krylov vectors are independent": sqrt(i^2 + 1^2) = 0, the result is NaN *)
Theorem C56_complex_operator_nan_refuted : exists (A : vecC 2 -> vecC 2) b x, linear (Cn 2) A /\ (forall v, A v = hzero (Cn 2) -> v = hzero (Cn 2)) /\
  (forall k, k < 2 -> ~ exhausted (Cn 2) A k (residual (Cn 2) A b x)) /\ forall N_min, gmres (Cn 2) A b (GOpts N_min 2 1 (1 / 100000000)%R) x = None.
Proof.
  set (a := (0, 1)%R : C). exists (cop a), e1, (hzero (Cn 2)). split; [apply cop_linear|]. split; [intros v; apply cop_inj; intros X; injection X; lra|]. split.
  - assert (R : residual (Cn 2) (cop a) e1 (hzero (Cn 2)) = e1) by (apply v2_ext; apply C_eq; cbn; ring). rewrite R. intros k Hk [c [LC E]]. destruct k as [|[|k]]; [| |lia].
    + cbn in E. destruct c; injection E as E; cbn in E; lra.
    + destruct c as [|c1 [|c2 c]]; try discriminate. cbn in E. injection E as _ _ E _. cbn in E. lra.
  - intros Nm. destruct (cop_start a (GOpts Nm 2 1 (1 / 100000000)%R)) as [E1 E2]. unfold gmres. rewrite E2. replace (Rltb 1 (g_res (GOpts Nm 2 1 (1 / 100000000)))) with false by (symmetry; apply Rltb_false; cbn; lra).
    cbn [g_restart g_cycles]. unfold g_cycle. rewrite E1. cbn [g_N_max g_loop]. unfold g_step. cbn [g_qs]. rewrite cop_arnoldi. unfold apply_givens. cbn [fold_left seq]. unfold givens_rotation. cbn [nth].
    replace (Cadd (Cmul a a) (Cmul C1 C1)) with C0 by (apply C_eq; cbn; ring). rewrite Csqrt_0. destruct (Ceqb_spec C0 C0); [reflexivity|congruence].
Qed.
Print Assumptions C56_complex_operator_nan_refuted.

(** a non-trivial run that satisfies the hypotheses: A = Pauli X, b = e1, x = 0: the solution e2 needs two steps *)
Example C56_ex : hermitian (Cn 2) pauliX /\ (forall v, pauliX v = hzero (Cn 2) -> v = hzero (Cn 2)) /\ ~ exhausted (Cn 2) pauliX 1 e1 /\
  exists x' errs iters, gmres (Cn 2) pauliX e1 (GOpts 0 2 1 (1 / 10)%R) (hzero (Cn 2)) = Some (x', 0%R, errs, iters).
Proof.
  assert (INJ : forall v, pauliX v = hzero (Cn 2) -> v = hzero (Cn 2)) by (intros [x [y []]] E; cbn in *; injection E as E1 E2; now subst).
  assert (R : residual (Cn 2) pauliX e1 (hzero (Cn 2)) = e1) by (apply v2_ext; apply C_eq; cbn; ring).
  assert (NX : forall k, k < 2 -> ~ exhausted (Cn 2) pauliX k e1).
  { intros k Hk [c [LC E]]. destruct k as [|[|k]]; [| |lia].
    - cbn in E. destruct c; injection E as E; cbn in E; lra.
    - destruct c as [|c1 [|c2 c]]; try discriminate. cbn in E. injection E as _ _ E _. cbn in E. lra. }
  split; [apply pauliX_hermitian|]. split; [exact INJ|]. split; [apply NX; lia|].
  assert (HL := proj1 pauliX_hermitian).
  destruct (gmres (Cn 2) pauliX e1 (GOpts 0 2 1 (1 / 10)%R) (hzero (Cn 2))) as [[[[x' rel] errs] iters]|] eqn:E.
  - exists x', errs, iters. destruct (C56_gmres _ _ _ _ _ _ _ _ _ _ (Cn_laws 2) HL (or_introl pauliX_hermitian) E) as [E1 [_ [_ RUN]]]. cbn [g_res g_N_min g_N_max g_restart] in RUN.
    assert (R1 : relative_residual (Cn 2) pauliX e1 (hzero (Cn 2)) = 1%R).
    { unfold relative_residual. rewrite R, norm_e1. destruct (Req_EM_T 1 0); [lra|field]. }
    assert (NN : (0 <= rel)%R). { rewrite E1. unfold relative_residual. rewrite norm_e1. destruct (Req_EM_T 1 0); [lra|]. unfold Rdiv. rewrite Rinv_1, Rmult_1_r. apply norm_nonneg. }
    assert (E2v : forall n, 2 <= n -> in_krylov (Cn 2) pauliX e1 n (hzero (Cn 2)) e2).
    { intros n Hn. unfold in_krylov. rewrite R. replace (hsub (Cn 2) e2 (hzero (Cn 2))) with e2 by (symmetry; apply v2_ext; apply C_eq; cbn; ring). apply (span_In (Cn_laws 2)). destruct n as [|[|n]]; [lia|lia|]. cbn [powers]. right. now left. }
    assert (RE2 : hnorm (Cn 2) (residual (Cn 2) pauliX e1 e2) = 0%R). { apply (norm_0_iff (Cn_laws 2)). apply v2_ext; apply C_eq; cbn; ring. }
    assert (CASE : (hnorm (Cn 2) (residual (Cn 2) pauliX e1 x') <= 0)%R -> rel = 0%R).
    { intros X. rewrite E1. unfold relative_residual. assert (Y := norm_nonneg (Cn 2) (residual (Cn 2) pauliX e1 x')). replace (hnorm (Cn 2) (residual (Cn 2) pauliX e1 x')) with 0%R by lra. apply Rmult_0_l. }
    replace 0%R with rel; [reflexivity|]. apply CASE.
    destruct RUN as [[X [X' _]]|[_ RUN]]; [subst x'; lra|].
    inversion RUN as [|? n ? ? row CY Nn RL|? ? x1 ? row ? ? CY RUN']; subst.
    + destruct (Nat.eq_dec n 1) as [-> |D]; [|rewrite <- RE2; apply (proj2 (cy_min CY)), E2v; lia]. exfalso.
      (* one step: x' = c * e1, the residual is e1 - c * e2 *)
      assert (K := proj1 (cy_min CY)). unfold in_krylov in K. rewrite R in K. destruct K as [c [LC K]]. destruct c as [|c [|]]; try discriminate. cbn [powers lincomb] in K. destruct x' as [p [q []]]. cbn in K. injection K as K1 K2 K3 K4.
      unfold relative_residual in RL. rewrite norm_e1 in RL. destruct (Req_EM_T 1 0) as [?|_]; [lra|]. unfold Rdiv in RL. rewrite Rinv_1, !Rmult_1_r in RL.
      assert (Q : q = C0) by (apply C_eq; cbn in *; lra). subst q. assert (S1 : (1 <= hnorm (Cn 2) (residual (Cn 2) pauliX e1 (p, (C0, tt))))%R).
      { unfold hnorm. rewrite <- sqrt_1 at 1. apply sqrt_le_1_alt. unfold hnorm2. cbn. destruct p as [p1 p2]. cbn. nra. }
      apply (Rlt_irrefl 1). eapply Rle_lt_trans; [exact S1|]. eapply Rlt_trans; [exact RL|lra].
    + inversion RUN' as [x0| |]; subst. rewrite <- RE2. apply (proj2 (cy_min CY)), E2v. lia.
  - exfalso. destruct (C56_fails_only_if_exhausted _ _ _ _ _ _ (Cn_laws 2) HL (or_introl pauliX_hermitian) INJ E) as [x1 [k [Hk [EX [_ EQ]]]]]. rewrite (EQ eq_refl), R in EX. exact (NX k Hk EX).
Qed.
