(** The loop, the restart cycles, failures *)
From Coq Require Import Reals Lra List Arith Bool Lia.
From Verif Require Import Util Cplx Hilbert LinOpModel LinOpSpec LinOpProofs LinOpMat KrylovModel KrylovSpec KrylovProofs3 KrylovProofs4 KrylovProofs5 KrylovProofs6 GmresModel GmresSpec GmresProofs GmresProofs2 GmresProofs3 GmresProofs4.
Import ListNotations.
Set Implicit Arguments. Unset Strict Implicit.
Open Scope nat_scope.

Lemma Rltb_iff x y : Rltb x y = true <-> (x < y)%R. Proof. unfold Rltb. destruct (Rlt_dec x y); split; intros; try lra; congruence. Qed.

Section P.
  Variables (V : Type) (h : hspace V) (A : V -> V) (b : V) (o : gopts).
  Hypothesis L : hlaws h.
  Hypothesis HA : linear h A.
  Notation z := (hzero h).
  Notation qn s i := (nth i (g_qs s) z).
  Notation pn s i := (pv h (g_cs s) (g_sn s) (g_qs s) i).
  Notation un s i := (uv h (g_cs s) (g_sn s) (g_qs s) i).
  (** [adm r]: a residual for which all matrix elements are real; [J k qs]: what is preserved along the basis *)
  Variables (adm : V -> Prop) (J : nat -> list V -> Prop).
  Hypothesis J0 : forall x, adm (residual h A b x) -> J 0 (g_qs (g_init h A b o x)).
  Hypothesis JR : forall r0 k qs, J k qs -> gkry h A r0 k qs -> orthonormal h qs -> forall i, i <= k -> is_real (hinner h (nth i qs z) (A (nth k qs z))).
  Hypothesis JS : forall r0 k qs col q, J k qs -> gkry h A r0 k qs -> orthonormal h qs -> g_arnoldi h A k qs = (col, q) -> J (S k) (qs ++ [q]).
  Hypothesis JE : forall r0 k s, J k (g_qs s) -> ginv h A o r0 k s -> greal h k s -> adm (hscale h (nth k (g_e s) C0) (pn s k)).

  Record gall (x : V) (k : nat) (s : gstate V) : Prop := {
    ga_inv : ginv h A o (residual h A b x) k s;
    ga_kry : gkry h A (residual h A b x) k (g_qs s);
    ga_real : greal h k s;
    ga_J : J k (g_qs s);
    ga_len : length (g_errs s) = S k;
    ga_errs : forall j, j <= k -> best_error h A b j x (nth j (g_errs s) 0%R);
    ga_last : last (g_errs s) 0%R = (Cabs (nth k (g_e s) C0) / denom h b)%R }.
  Lemma gall_init x : adm (residual h A b x) -> gall x 0 (g_init h A b o x).
  Proof.
    intros AD. assert (I := init_inv A b o L x). assert (K := gkry_init A b o L x). assert (R := greal_init A b o L x).
    assert (E0 : Cabs (RtoC (hnorm h (hsub h b (A x)))) = hnorm h (hsub h b (A x))) by (rewrite Cabs_RtoC; apply Rabs_pos_eq, norm_nonneg).
    constructor; try assumption; [now apply J0|reflexivity| |].
    - intros j Hj. replace j with 0 by lia. destruct (optimal L HA I K R) as [y [_ [M [RR _]]]]. cbv zeta in *. eexists. split; [exact M|]. rewrite RR. cbn [g_init g_errs g_e nth]. rewrite E0. reflexivity.
    - cbn [g_init g_errs g_e nth last]. rewrite E0. reflexivity.
  Qed.
  Lemma gall_step x k s s' : gall x k s -> k < g_N_max o -> g_step h A b k s = Some s' -> gall x (S k) s'.
  Proof.
    intros G Hk E. destruct G as [I K R JJ LE BE LA]. destruct (step_inv L HA I Hk E) as [I' [ON [col [q [c [sn [e [EA [EQ [EC [ES [GR [EE [EV EER]]]]]]]]]]]]]].
    assert (K' : gkry h A (residual h A b x) (S k) (g_qs s')) by (rewrite EQ; eapply gkry_step; eassumption).
    assert (R' : greal h (S k) s') by (apply (greal_step L HA I R Hk (JR JJ K ON) E)).
    destruct (optimal L HA I' K' R') as [y [_ [M [RR _]]]]. cbv zeta in *.
    constructor; try assumption.
    - rewrite EQ. eapply JS; eassumption.
    - rewrite EER, app_length, LE. cbn. lia.
    - intros j Hj. rewrite EER. destruct (Nat.eq_dec j (S k)) as [-> |D].
      + rewrite app_nth2 by lia. rewrite LE, Nat.sub_diag. cbn [nth]. eexists. split; [exact M|]. rewrite RR, EE. reflexivity.
      + rewrite app_nth1 by lia. apply BE. lia.
    - rewrite EER, last_last, EE. reflexivity.
  Qed.
  Lemma loop_spec x : forall fuel k s s' n c, gall x k s -> k + fuel = g_N_max o -> g_loop h A b o fuel k s = Some (s', n, c) ->
    gall x n s' /\ (c = false -> n = g_N_max o) /\ (c = true -> g_N_min o < n <= g_N_max o /\ (last (g_errs s') 0 < g_res o)%R).
  Proof.
    induction fuel as [|fuel IH]; intros k s s' n c G Hk E; cbn [g_loop] in E.
    - injection E as <- <- <-. split; [exact G|]. split; [lia|discriminate].
    - destruct (g_step h A b k s) as [s1|] eqn:ST; [|discriminate]. assert (G1 := gall_step G ltac:(lia) ST).
      destruct (Rltb (last (g_errs s1) 0%R) (g_res o) && (g_N_min o <=? k)) eqn:B.
      + injection E as <- <- <-. apply andb_true_iff in B. destruct B as [B1 B2]. apply Rltb_iff in B1. apply Nat.leb_le in B2. split; [exact G1|]. split; [discriminate|]. intros _. split; [lia|exact B1].
      + apply (IH _ _ _ _ _ G1); [lia|exact E].
  Qed.
  Lemma cycle_spec x x' c row n : adm (residual h A b x) -> g_cycle h A b o x = Some (x', c, row, n) ->
    cycle h A b n x x' row /\ adm (residual h A b x') /\ (c = false -> n = g_N_max o) /\ (c = true -> g_N_min o < n <= g_N_max o /\ (relative_residual h A b x' < g_res o)%R).
  Proof.
    intros AD E. unfold g_cycle in E. destruct (g_loop _ _ _ _ _ _ _) as [[[s p] cv]|] eqn:LP; [|discriminate]. destruct (loop_spec (gall_init AD) (eq_refl _) LP) as [G [C1' C2']].
    destruct (optimal L HA (ga_inv G) (ga_kry G) (ga_real G)) as [y [B [M [RR RES]]]]. rewrite B in E. cbv zeta in *. injection E as <- <- <- <-.
    split; [constructor; [apply (ga_len G)|apply (ga_errs G)|exact M]|]. split; [rewrite RES; apply (JE (ga_J G) (ga_inv G) (ga_real G))|]. split; [exact C1'|].
    intros Hc. destruct (C2' Hc) as [H1 H2]. split; [exact H1|]. rewrite RR, <- (ga_last G). exact H2.
  Qed.
  Lemma cycles_spec : forall n x errs iters x' errs' iters', adm (residual h A b x) -> g_cycles h A b o n x errs iters = Some (x', errs', iters') ->
    exists e i, errs' = errs ++ e /\ iters' = iters ++ i /\ run_of h A b (g_N_min o) (g_N_max o) (g_res o) n x e i x' /\ adm (residual h A b x').
  Proof.
    induction n as [|n IH]; intros x errs iters x' errs' iters' AD E; cbn [g_cycles] in E.
    - injection E as <- <- <-. exists [[start_error h A b x]], []. rewrite app_nil_r. split; [reflexivity|]. split; [reflexivity|]. split; [apply run_out|exact AD].
    - destruct (g_cycle h A b o x) as [[[[x1 c] row] p]|] eqn:CY; [|discriminate]. destruct (cycle_spec AD CY) as [C [AD1 [C1' C2']]]. destruct c.
      + injection E as <- <- <-. exists [row], [p]. repeat (split; [reflexivity|]). split; [|exact AD1]. destruct (C2' eq_refl). now apply run_converged.
      + specialize (C1' eq_refl). subst p. destruct (IH _ _ _ _ _ _ AD1 E) as [e [i [E1 [E2 [RO AD2]]]]]. exists (row :: e), (g_N_max o :: i). rewrite E1, E2, <- !app_assoc. split; [reflexivity|]. split; [reflexivity|]. split; [|exact AD2].
        eapply run_restart; eassumption.
  Qed.

  (** failures *)
  Lemma step_fails x k s : (forall v, A v = z -> v = z) -> gall x k s -> k < g_N_max o -> g_step h A b k s = None -> qn s k = z.
  Proof.
    intros INJ G Hk E. destruct G as [I K R JJ _ _ _]. destruct (gi_last I) as [N|Z]; [|exact Z]. exfalso.
    assert (ON : orthonormal h (g_qs s)) by (apply (orthonormal_all (gi_lq I) (gi_orth I) (gi_perp I) N)).
    unfold g_step in E. assert (AR := arnoldi_relation A L (gi_lq I)). assert (RA := JR JJ K ON). destruct (g_arnoldi h A k (g_qs s)) as [col q]. destruct AR as [LC [AQ [[n [N0 CN]] [_ [_ [_ CO]]]]]]. specialize (CO ON).
    assert (RCO : forall i, is_real (nth i col C0)).
    { apply nth_real. intros i Hi. rewrite LC in Hi. destruct (Nat.eq_dec i (S k)) as [-> |D]; [rewrite CN; reflexivity|]. rewrite CO by lia. apply RA. lia. }
    unfold apply_givens in E. set (col' := fold_left (fun col i => rotate col i (g_cs s) (g_sn s)) (seq 0 k) col) in *.
    assert (RC' : forall i, is_real (nth i col' C0)).
    { apply rotations_real; [apply nth_real; rewrite (gi_lc I); apply (gr_c R)|apply nth_real; rewrite (gi_ls I); apply (gr_s R)|exact RCO]. }
    unfold givens_rotation in E. destruct (Csqrt_real (RC' k) (RC' (S k))) as [_ SQ].
    destruct (Ceqb_spec (Csqrt (Cadd (Cmul (nth k col' C0) (nth k col' C0)) (Cmul (nth (S k) col' C0) (nth (S k) col' C0)))) C0) as [T|T]; [|discriminate]. destruct (SQ T) as [Z1 Z2].
    assert (LQ := gi_lq I).
    assert (PA : pv h (g_cs s) (g_sn s) (g_qs s ++ [q]) k = pn s k). { rewrite <- (pv_app h (cs := g_cs s) (sn := g_sn s) (qs := g_qs s) [] [] [q] (i := k)) by (rewrite ?(gi_lc I), ?(gi_ls I); lia). now rewrite !app_nil_r. }
    assert (UA : forall i, i < k -> uv h (g_cs s) (g_sn s) (g_qs s ++ [q]) i = un s i). { intros i Hi. rewrite <- (uv_app h (cs := g_cs s) (sn := g_sn s) (qs := g_qs s) [] [] [q] (i := i)) by (rewrite ?(gi_lc I), ?(gi_ls I); lia). now rewrite !app_nil_r. }
    assert (AK : A (qn s k) = vsum h k (fun i => hscale h (nth i col' C0) (un s i))).
    { rewrite AQ. rewrite (@rotations V h L (g_cs s) (g_sn s) (g_qs s ++ [q]) k col k LC (le_n k)) by (intros i Hi; apply (gi_cs I Hi)). fold col'. replace (k + 1 - k) with 1 by lia.
      rewrite vsum_Sl, vsum_0. rewrite Nat.add_0_r. replace (k + 1) with (S k) by lia. rewrite Z1, Z2, !(hl_null L), !(add_0_r L). apply vsum_ext. intros i Hi. rewrite UA by exact Hi. reflexivity. }
    destruct (backsolve_ok (e := col') (gi_diag I) (ginv_tri I) (i := k) (acc := [])) as [y [_ [LY SY]]]; [lia|cbn; lia|intros; lia|].
    assert (AW := apply_A L HA I SY). set (w := vsum h k (fun j => hscale h (nth j y C0) (qn s j))) in *.
    assert (D : hsub h (qn s k) w = z). { apply INJ. unfold hsub. rewrite (proj1 HA), (proj2 HA), AW, AK. hvec L. }
    assert (W0 : hinner h (qn s k) w = C0). { unfold w. rewrite (vsum_inner L). rewrite <- (sumn_zero k). apply sumn_ext. intros i Hi. rewrite (hl_inner_scale L), (inner_sym0 L (gi_perp I Hi)). ring. }
    assert (F : hinner h (qn s k) (hsub h (qn s k) w) = C1) by (rewrite (inner_sub_r L), N, W0; ring). rewrite D, (inner_0_r L) in F. injection F as F. lra.
  Qed.
  Lemma exhausted_of x k s : gall x k s -> qn s k = z -> exhausted h A k (residual h A b x).
  Proof.
    intros G Z. unfold exhausted. assert (K := ga_kry G). apply (gkry_span L HA _ K (le_n k)). assert (P := gkry_powers L HA K (le_n k)). assert (LQ := gk_len K). rewrite (firstn_all2 (g_qs s)) in P by lia.
    rewrite (list_snoc z LQ) in P. revert P. apply (span_trans L). intros y Y. apply in_app_iff in Y. destruct Y as [Y|[<-|[]]]; [now apply (span_In L)|]. rewrite Z. apply (span_zero L).
  Qed.
  Lemma loop_fails x : (forall v, A v = z -> v = z) -> forall fuel k s, gall x k s -> k + fuel = g_N_max o -> g_loop h A b o fuel k s = None -> exists n, n < g_N_max o /\ exhausted h A n (residual h A b x).
  Proof.
    intros INJ. induction fuel as [|fuel IH]; intros k s G Hk E; cbn [g_loop] in E; [discriminate|].
    destruct (g_step h A b k s) as [s1|] eqn:ST.
    - destruct (_ && _) in E; [discriminate|]. apply (IH (S k) s1); [|lia|exact E]. apply (gall_step G ltac:(lia) ST).
    - exists k. split; [lia|]. apply (exhausted_of G). apply (step_fails INJ G); [lia|exact ST].
  Qed.
  Lemma cycle_fails x : (forall v, A v = z -> v = z) -> adm (residual h A b x) -> g_cycle h A b o x = None -> exists n, n < g_N_max o /\ exhausted h A n (residual h A b x).
  Proof.
    intros INJ AD E. unfold g_cycle in E. destruct (g_loop _ _ _ _ _ _ _) as [[[s p] cv]|] eqn:LP; [|apply (loop_fails INJ (gall_init AD) (eq_refl _) LP)].
    destruct (loop_spec (gall_init AD) (eq_refl _) LP) as [G _]. destruct (optimal L HA (ga_inv G) (ga_kry G) (ga_real G)) as [y [B _]]. rewrite B in E. discriminate.
  Qed.
  Lemma cycle_le n x x' row : cycle h A b n x x' row -> (hnorm h (residual h A b x') <= hnorm h (residual h A b x))%R.
  Proof.
    intros C. apply (proj2 (cy_min C)). unfold in_krylov. replace (hsub h x x) with z; [apply (span_zero L)|]. symmetry. hvec L.
  Qed.
  Lemma cycles_fail : (forall v, A v = z -> v = z) -> forall n x errs iters, adm (residual h A b x) -> g_cycles h A b o n x errs iters = None ->
    exists x' k, k < g_N_max o /\ exhausted h A k (residual h A b x') /\ (hnorm h (residual h A b x') <= hnorm h (residual h A b x))%R /\ (n = 1 -> x' = x).
  Proof.
    intros INJ. induction n as [|n IH]; intros x errs iters AD E; cbn [g_cycles] in E; [discriminate|].
    destruct (g_cycle h A b o x) as [[[[x1 c] row] p]|] eqn:CY.
    - destruct (cycle_spec AD CY) as [C [AD1 _]]. destruct c; [discriminate|]. destruct n as [|n]; [discriminate|]. destruct (IH _ _ _ AD1 E) as [x' [k [H1 [H2 [H3 _]]]]]. exists x', k. split; [exact H1|]. split; [exact H2|]. split; [|lia].
      assert (X := cycle_le C). lra.
    - destruct (cycle_fails INJ AD CY) as [k [H1 H2]]. exists x, k. repeat (split; [assumption||lra|]). reflexivity.
  Qed.
End P.

Section Instances.
  Variables (V : Type) (h : hspace V) (A : V -> V) (b : V) (o : gopts).
  Hypothesis L : hlaws h.
  Hypothesis HA : linear h A.
  Notation z := (hzero h).
  (** hermitian operators *)
  Section Hermitian.
    Hypothesis HH : hermitian h A.
    Definition Jh (k : nat) (qs : list V) : Prop := forall i, i < k -> is_real (hinner h (nth k qs z) (A (nth i qs z))).
    Lemma Jh0 x : True -> Jh 0 (g_qs (g_init h A b o x)). Proof. intros _ i Hi. lia. Qed.
    Lemma JhR r0 k qs : Jh k qs -> gkry h A r0 k qs -> orthonormal h qs -> forall i, i <= k -> is_real (hinner h (nth i qs z) (A (nth k qs z))).
    Proof.
      intros J _ _ i Hi. rewrite (proj2 HH). rewrite (hl_inner_conj L). unfold is_real, Cconj. cbn [snd]. destruct (Nat.eq_dec i k) as [-> |D].
      - assert (X : hinner h (nth k qs z) (A (nth k qs z)) = Cconj (hinner h (nth k qs z) (A (nth k qs z)))) by (etransitivity; [apply (proj2 HH)|apply (hl_inner_conj L)]). apply (f_equal snd) in X. cbn [Cconj snd] in X. lra.
      - assert (X := J i ltac:(lia)). unfold is_real in X. lra.
    Qed.
    Lemma JhS r0 k qs col q : Jh k qs -> gkry h A r0 k qs -> orthonormal h qs -> g_arnoldi h A k qs = (col, q) -> Jh (S k) (qs ++ [q]).
    Proof.
      intros _ K ON E i Hi. assert (LQ := gk_len K). assert (AR := arnoldi_relation A L LQ). rewrite E in AR. destruct AR as [LC [AQ [[n [N0 CN]] [_ [QQ [PERP _]]]]]]. specialize (PERP ON).
      rewrite (app_nth2 qs) by lia. rewrite LQ, Nat.sub_diag. cbn [nth]. rewrite (app_nth1 qs) by lia. destruct (Nat.eq_dec i k) as [-> |D].
      - rewrite AQ. replace (k + 2) with (S (S k)) by lia. rewrite (vsum_S L), (hl_inner_add L), (vsum_inner L).
        assert (Z : sumn (S k) (fun i => hinner h q (hscale h (nth i col C0) (nth i (qs ++ [q]) z))) = C0).
        { rewrite <- (sumn_zero (S k)). apply sumn_ext. intros i Hj. rewrite (hl_inner_scale L), app_nth1 by lia. rewrite (inner_sym0 L (PERP i ltac:(lia))). ring. }
        rewrite Z. rewrite (hl_inner_scale L), CN. rewrite app_nth2 by lia. rewrite LQ, Nat.sub_diag. cbn [nth]. apply real_add; [reflexivity|]. apply real_mul; [reflexivity|]. rewrite (inner_real L). reflexivity.
      - destruct (gk_A K (j := i) ltac:(lia)) as [c [LCc ->]]. rewrite firstn_length in LCc. rewrite (lincomb_vsum h) by (rewrite firstn_length; exact LCc). rewrite (vsum_inner L).
        replace (sumn _ _) with C0; [reflexivity|]. rewrite <- (sumn_zero (length (firstn (i + 2) qs))). apply sumn_ext. intros j Hj. rewrite firstn_length in Hj. rewrite (hl_inner_scale L), nth_firstn_lt by lia.
        rewrite (inner_sym0 L (PERP j ltac:(lia))). ring.
    Qed.
  End Hermitian.
  (** real problems *)
  Section Real.
    Variable P : V -> Prop.
    Hypothesis PA : forall u v, P u -> P v -> P (hadd h u v).
    Hypothesis PS : forall a u, P u -> P (rscale h a u).
    Hypothesis PH : forall u, P u -> P (A u).
    Hypothesis PI : forall u v, P u -> P v -> snd (hinner h u v) = 0%R.
    Definition Jr (k : nat) (qs : list V) : Prop := length qs = S k /\ Forall P qs.
    Lemma P_scale c u : is_real c -> P u -> P (hscale h c u). Proof. intros R U. rewrite (proj1 (is_real_iff c) R). now apply PS. Qed.
    Lemma Jr0 x : P (residual h A b x) -> Jr 0 (g_qs (g_init h A b o x)).
    Proof. intros X. split; [reflexivity|]. cbn [g_init g_qs]. constructor; [|constructor]. destruct (Rlt_dec _ _); [apply PS|]; exact X. Qed.
    Lemma Jr_nth k qs i : Jr k qs -> i <= k -> P (nth i qs z).
    Proof. intros [LQ F] Hi. rewrite Forall_forall in F. apply F, nth_In. lia. Qed.
    Lemma JrR r0 k qs : Jr k qs -> gkry h A r0 k qs -> orthonormal h qs -> forall i, i <= k -> is_real (hinner h (nth i qs z) (A (nth k qs z))).
    Proof. intros J _ _ i Hi. apply PI; [apply (Jr_nth J Hi)|]. apply PH, (Jr_nth J). lia. Qed.
    Lemma P_coeffs os : Forall P os -> forall w, P w -> P (snd (project_coeffs h os w)).
    Proof.
      induction os as [|q os IH]; intros F w W; cbn [project_coeffs]; [exact W|]. inversion F as [|? ? Q F']; subst. specialize (IH F' (axpy h (Copp (hinner h q w)) q w)).
      destruct (project_coeffs h os _) as [cs r]. apply IH. unfold axpy. apply PA; [|exact W]. apply P_scale; [apply real_opp, PI; assumption|exact Q].
    Qed.
    Lemma JrS r0 k qs col q : Jr k qs -> gkry h A r0 k qs -> orthonormal h qs -> g_arnoldi h A k qs = (col, q) -> Jr (S k) (qs ++ [q]).
    Proof.
      intros J _ _ E. split; [rewrite app_length; destruct J as [-> _]; cbn; lia|]. apply Forall_app. split; [apply J|]. constructor; [|constructor].
      unfold g_arnoldi in E. assert (LQ := proj1 J). assert (EL : last qs z = nth k qs z) by (rewrite (list_snoc z LQ) at 1; apply last_last). rewrite EL in E.
      assert (W : P (A (nth k qs z))) by (apply PH, (Jr_nth J); lia). rewrite (firstn_all2 qs) in E by lia. assert (X := P_coeffs (proj2 J) W). destruct (project_coeffs h qs _) as [hs r]. cbn [snd] in X. injection E as _ <-.
      destruct (Rlt_dec _ _); [apply PS|]; exact X.
    Qed.
    Lemma JrE r0 k s : Jr k (g_qs s) -> ginv h A o r0 k s -> greal h k s -> P (hscale h (nth k (g_e s) C0) (pv h (g_cs s) (g_sn s) (g_qs s) k)).
    Proof.
      intros J I R. apply P_scale; [apply (gr_e R)|]. assert (G : forall i, i <= k -> P (pv h (g_cs s) (g_sn s) (g_qs s) i)).
      { induction i as [|i IH]; intros Hi; cbn [pv]; [apply (Jr_nth J Hi)|]. apply PA.
        - apply P_scale; [apply real_opp, (gr_s R); lia|apply IH; lia].
        - apply P_scale; [apply (gr_c R); lia|apply (Jr_nth J Hi)]. }
      apply G. lia.
    Qed.
  End Real.

  Definition good (x : V) : Prop := hermitian h A \/ real_problem h A b x.
  Lemma good_cycles n x x' errs iters : good x -> g_cycles h A b o n x [] [] = Some (x', errs, iters) -> run_of h A b (g_N_min o) (g_N_max o) (g_res o) n x errs iters x'.
  Proof.
    intros [HH|[P [PX [PB [PA [PS [PH PI]]]]]]] E.
    - destruct (cycles_spec (b := b) (o := o) (adm := fun _ => True) (J := Jh) L HA) with (n := n) (x := x) (errs := @nil (list R)) (iters := @nil nat) (x' := x') (errs' := errs) (iters' := iters) as [e [i [E1 [E2 [RO _]]]]]; try exact E; try exact I.
      + apply Jh0.
      + apply (JhR HH).
      + apply (JhS).
      + intros; exact Logic.I.
      + cbn [app] in E1, E2. subst. exact RO.
    - assert (PR : P (residual h A b x)). { unfold residual, hsub. apply PA; [exact PB|]. replace (Copp C1) with (RtoC (-1)) by (apply C_eq; cbn; ring). apply PS, PH, PX. }
      destruct (cycles_spec (b := b) (o := o) (adm := P) (J := Jr P) L HA) with (n := n) (x := x) (errs := @nil (list R)) (iters := @nil nat) (x' := x') (errs' := errs) (iters' := iters) as [e [i [E1 [E2 [RO _]]]]]; try exact E; try exact PR.
      + apply (Jr0 PS).
      + apply (JrR PH PI).
      + apply (JrS PA PS PH PI).
      + apply (JrE PA PS).
      + cbn [app] in E1, E2. subst. exact RO.
  Qed.
  Lemma good_fail n x : (forall v, A v = z -> v = z) -> good x -> g_cycles h A b o n x [] [] = None ->
    exists x' k, k < g_N_max o /\ exhausted h A k (residual h A b x') /\ (hnorm h (residual h A b x') <= hnorm h (residual h A b x))%R /\ (n = 1 -> x' = x).
  Proof.
    intros INJ [HH|[P [PX [PB [PA [PS [PH PI]]]]]]] E.
    - apply (cycles_fail (o := o) (adm := fun _ => True) (J := Jh) L HA) with (errs := @nil (list R)) (iters := @nil nat); try exact E; try exact INJ; try exact I.
      + apply Jh0.
      + apply (JhR HH).
      + apply JhS.
      + intros; exact Logic.I.
    - assert (PR : P (residual h A b x)). { unfold residual, hsub. apply PA; [exact PB|]. replace (Copp C1) with (RtoC (-1)) by (apply C_eq; cbn; ring). apply PS, PH, PX. }
      apply (cycles_fail (o := o) (adm := P) (J := Jr P) L HA) with (errs := @nil (list R)) (iters := @nil nat); try exact E; try exact INJ; try exact PR.
      + apply (Jr0 PS).
      + apply (JrR PH PI).
      + apply (JrS PA PS PH PI).
      + apply (JrE PA PS).
  Qed.
  Lemma run_of_le Nmin Nmax res n x errs iters x' : run_of h A b Nmin Nmax res n x errs iters x' -> (hnorm h (residual h A b x') <= hnorm h (residual h A b x))%R /\
    ((relative_residual h A b x' < res)%R \/ (length iters = n /\ Forall (eq Nmax) iters)).
  Proof.
    induction 1 as [x|restart n x x' row C N R|restart x x1 x' row errs iters C RO IH].
    - split; [lra|]. right. split; [reflexivity|constructor].
    - split; [apply (cycle_le L C)|now left].
    - destruct IH as [I1 I2]. assert (X := cycle_le L C). split; [lra|]. destruct I2 as [I2|[I2 I3]]; [now left|]. right. split; [cbn; now rewrite I2|now constructor].
  Qed.
End Instances.
