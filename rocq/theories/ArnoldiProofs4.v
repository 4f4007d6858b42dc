(** The result of Arnoldi::run *)
From Coq Require Import Reals Lra List Arith Bool Lia FunctionalExtensionality Permutation String.
From Verif Require Import Util Cplx Hilbert LinOpModel LinOpSpec LinOpProofs LinOpMat KrylovModel KrylovSpec KrylovProofs KrylovProofs3 KrylovProofs4 KrylovProofs5 KrylovProofs6 GmresProofs GmresProofs2 GmresProofs3 ArnoldiModel ArnoldiSpec ArnoldiProofs ArnoldiProofs2 ArnoldiProofs3.
Import ListNotations.
Set Implicit Arguments. Unset Strict Implicit.
Open Scope nat_scope.

Lemma sort_key_weight which z : sort_key which z = weight which z.
Proof.
  unfold sort_key, weight, weights. cbn [find existsb fst]. rewrite !orb_false_r.
  destruct (String.eqb which "LM"); [reflexivity|]. destruct (String.eqb which "m>"); [reflexivity|].
  destruct (String.eqb which "SM"); [reflexivity|]. destruct (String.eqb which "m<"); [reflexivity|]. cbn [orb].
  destruct (String.eqb which "LR"); [reflexivity|]. destruct (String.eqb which ">"), (String.eqb which "LA"); cbn [orb]; try reflexivity.
  destruct (String.eqb which "SR"); [reflexivity|]. destruct (String.eqb which "<"), (String.eqb which "SA"); cbn [orb]; try reflexivity.
  destruct (String.eqb which "LI"); [reflexivity|]. destruct (String.eqb which "SI"); reflexivity.
Qed.
Section P.
  Variables (V : Type) (h : hspace V) (H : V -> V) (o : aopts) (psi0 : V).
  Hypothesis L : hlaws h.
  Hypothesis HA : linear h H.
  Notation z := (hzero h).
  Lemma ainv_projected calc n s : 1 <= n -> ainv h H psi0 calc n s -> projected_matrix h H psi0 n (submatrix n (s_h s)).
  Proof.
    intros N1 I. exists (s_cache s). split; [apply (ai_len I)|]. split; [apply (ai_orth I)|]. split; [apply (ai_first I N1)|]. split; [intros y; apply (ai_in I)|]. split; [|split; [|split]].
    - intros i j Hi Hj. rewrite submatrix_lt by assumption. rewrite (ai_rel I Hj), (hl_inner_add L). assert (Y := X_coef L I N1 (fun l => s_h s l j) Hi). unfold X in Y. rewrite Y.
      replace (hinner h _ _) with C0; [ring|]. symmetry. destruct (S j =? n); [apply (ai_perp I), (q_In I Hi)|apply (inner_0_r L)].
    - intros i j D. unfold submatrix. destruct (Nat.ltb_spec i n), (Nat.ltb_spec j n); cbn; try reflexivity. lia.
    - intros j Hj. rewrite submatrix_lt by lia. apply (ai_pos I Hj).
    - intros i j D. unfold submatrix. destruct ((i <? n) && (j <? n)); [|reflexivity]. apply (ai_zero I). now left.
  Qed.
  Variables (eig : eig_fun) (srt : sort_fun).
  Hypothesis SO : sort_ok srt.
  Hypothesis ER : eig_right h H psi0 (a_N_max o) eig.
  Notation calc := (arnoldi_calc o eig srt).
  Lemma res_sorted n s : 1 <= n <= a_N_max o -> ainv h H psi0 calc n s -> exists e, sorted_eig o n (s_h s) e (s_res s) /\ forall i, s_es s (n - 1) i = nth i e C0.
  Proof.
    intros Hn I. destruct (ai_es I (j := n - 1) ltac:(lia)) as [e [r [rn [CA [EE RR]]]]]. destruct (RR ltac:(lia)) as [-> _]. exists e. split; [|exact EE].
    assert (Y := calc_sorted SO CA). replace (n - 1 + 1) with n in Y by lia. apply Y. intros K1. apply ER; [lia|]. apply ainv_projected with (calc := calc); [lia|exact I].
  Qed.
  Lemma sorted_ritz n s e j : 1 <= n -> ainv h H psi0 calc n s -> sorted_eig o n (s_h s) e (s_res s) -> j < n ->
    let psi := X h n s (fun i => nth i (nth j (s_res s) []) C0) in
    ritz_pair h H psi0 n (nth j e C0) psi /\ residual_norm h H (nth j e C0) psi = (Cabs (nth (n - 1)%nat (nth j (s_res s) []) C0) * s_wn s)%R.
  Proof.
    intros N1 I SE Hj. cbv zeta. apply (ritz_of_eig L HA I N1).
    - intros i Hi. apply (se_eig SE Hi Hj).
    - apply (se_unit SE Hj).
  Qed.
  Lemma ritz_sorted n s e c : 1 <= n -> ainv h H psi0 calc n s -> sorted_eig o n (s_h s) e (s_res s) -> ritz_value h H psi0 n c -> exists j, j < n /\ nth j e C0 = c.
  Proof.
    intros N1 I SE [psi RP]. destruct (eig_of_ritz L HA I N1 RP) as [x [_ [NX EV]]]. assert (IN := se_all SE NX EV). apply (In_nth _ _ C0) in IN. destruct IN as [j [Hj E]]. rewrite (se_len SE) in Hj. eauto.
  Qed.
  Hypothesis CUT : (0 < a_cutoff o)%R.
  Hypothesis NM : a_N_max o <> 0.
  Hypothesis MG : (0 < a_min_gap o)%R.
  Hypothesis NMIN : 2 <= a_N_min o.
  Lemma step_prev k s0 s : a_step h H o calc k s0 = Some s -> forall j i, j <> k -> s_es s j i = s_es s0 j i.
  Proof.
    intros E j i D. unfold a_step in E. destruct (Req_EM_T _ _); [discriminate|]. destruct (a_N_max o <? _); [discriminate|]. destruct (project_coeffs _ _ _). destruct (calc _ _) as [[[? ?] ?]|]; [|discriminate].
    injection E as <-. cbn [s_es]. now apply set_row_other.
  Qed.
  Theorem raw_result :
    match arnoldi_run h H o eig srt None (new_obj psi0) with
    | None => psi0 = z
    | Some (E0, psis, N, x') => psi0 <> z /\ arnoldi_result h H psi0 0 o E0 psis N
    end.
  Proof.
    unfold arnoldi_run. assert (B := build_spec psi0 (arnoldi_conv o) L HA (@arnoldi_calc_ext o eig srt) CUT NM).
    destruct (a_build h H o calc (arnoldi_conv o) (new_obj psi0)) as [[[p N] s]|]; [|destruct B as [B|[k [s0 [Hk [I0 [W0 B]]]]]]; [exact B|exfalso; destruct (step_none I0 W0 Hk B) as [m [CN _]]; exact (arnoldi_calc_some CN)]].
    destruct B as [N0 [Ep [I [HN [[s0 [I0 ST]] SP]]]]]. assert (NZ : psi0 <> z) by (intros Z; apply N0; now apply (norm_0_iff L)).
    destruct (res_sorted HN I) as [e [SE EE]]. assert (N1 : 1 <= N) by lia. assert (LC := ai_len I).
    set (E0 := map (fun i => s_es s (N - 1) i) (seq 0 (a_num_ev o))).
    assert (LE : List.length E0 = a_num_ev o) by (unfold E0; now rewrite map_length, seq_length).
    assert (NE : forall i, i < a_num_ev o -> nth i E0 C0 = nth i e C0).
    { intros i Hi. unfold E0. rewrite nth_map_lt with (d := 0) by (rewrite seq_length; lia). rewrite seq_nth by lia. apply EE. }
    set (phi := fun j => X h N s (fun i => nth i (nth j (s_res s) []) C0)).
    set (psis := if N =? 1 then [p] else map phi (seq 0 (Nat.min N (a_num_ev o)))).
    assert (FM : (if N =? 1 then Some (E0, [p], N, AObj p (s_cache s) (s_h s) (s_es s))
                  else match full_multi h o N s with Some psis => Some (E0, psis, N, AObj p (s_cache s) (s_h s) (s_es s)) | None => None end)
                 = Some (E0, psis, N, AObj p (s_cache s) (s_h s) (s_es s))).
    { unfold psis. destruct (N =? 1); [reflexivity|]. unfold full_multi. rewrite LC, Nat.ltb_irrefl. do 4 f_equal. apply map_ext_in. intros j Hj. apply in_seq in Hj. cbv zeta. rewrite (combine_X L I N1).
      change (X h N s (fun i => nth i (nth j (s_res s) []) C0)) with (phi j). destruct (sorted_ritz (j := j) N1 I SE ltac:(lia)) as [[U _ _] _]. change (hinner h (phi j) (phi j) = C1) in U.
      replace (hnorm h (phi j)) with 1%R by (unfold hnorm, hnorm2; rewrite U; cbn; symmetry; apply sqrt_1). rewrite Rinv_1. apply (hl_one L). }
    change (map (fun i => let e1 := s_es s (N - 1) i in e1) (seq 0 (a_num_ev o))) with E0. rewrite FM. split; [exact NZ|].
    assert (NP : forall j, j < Nat.min N (a_num_ev o) -> nth j psis z = phi j).
    { intros j Hj. unfold psis. destruct (Nat.eqb_spec N 1) as [E|D].
      - assert (j = 0) by lia. subst j. cbn [nth]. rewrite Ep, <- (X_first L I N1). unfold phi. apply X_ext. intros i Hi. assert (i = 0) by lia. subst i. cbn [Nat.eqb].
        destruct (ai_es I (j := N - 1) ltac:(lia)) as [e1 [r1 [rn1 [CA [_ RR]]]]]. destruct (RR ltac:(lia)) as [<- _]. rewrite E in CA. cbn in CA. injection CA as _ <- _. reflexivity.
      - rewrite nth_map_lt with (d := 0) by (rewrite seq_length; lia). rewrite seq_nth by lia. reflexivity. }
    assert (KY : forall c, key 0 o c = sort_key (a_which o) c) by (intros c; unfold key; rewrite <- sort_key_weight; f_equal; apply C_eq; cbn; ring).
    assert (RES : forall j, j < Nat.min N (a_num_ev o) -> residual_norm h H (nth j E0 C0) (nth j psis z) = (Cabs (nth (N - 1)%nat (nth j (s_res s) []) C0) * s_wn s)%R).
    { intros j Hj. rewrite NE, NP by lia. apply (sorted_ritz (j := j) N1 I SE). lia. }
    assert (WN : (0 <= s_wn s)%R) by (rewrite (ai_wn I); apply norm_nonneg).
    constructor.
    - exact HN.
    - exact LE.
    - unfold psis. destruct (N =? 1); [reflexivity|]. now rewrite map_length, seq_length.
    - intros i Hi. rewrite NE, NP by lia. apply (sorted_ritz (j := i) N1 I SE). lia.
    - intros i j D. rewrite !KY, !NE by lia. apply (se_sorted SE). lia.
    - intros c RV. destruct (ritz_sorted N1 I SE RV) as [j [Hj <-]]. destruct (Nat.lt_ge_cases j (a_num_ev o)) as [J|J].
      + left. exists j. split; [lia|]. apply NE. exact J.
      + right. intros i Hi. rewrite !KY, NE by lia. apply (se_sorted SE). lia.
    - intros LT NE0. specialize (SP LT). unfold a_stop in SP. apply orb_true_iff in SP. destruct SP as [SP|SP].
      + left. apply Rltb_true in SP. intros i Hi. rewrite RES by exact Hi. assert (U := se_unit SE (j := i) ltac:(lia)).
        assert (T := @rsum_term N (fun k => Cnorm2 (nth k (nth i (s_res s) []) C0)) (N - 1) ltac:(intros; apply Cnorm2_nonneg) ltac:(lia)). rewrite U in T.
        assert (CB : (Cabs (nth (N - 1)%nat (nth i (s_res s) []) C0) <= 1)%R). { unfold Cabs. rewrite <- sqrt_1. apply sqrt_le_1; [apply Cnorm2_nonneg|lra|exact T]. }
        eapply Rle_lt_trans; [|exact SP]. rewrite <- (Rmult_1_l (s_wn s)) at 2. apply Rmult_le_compat_r; assumption.
      + right. apply andb_true_iff in SP. destruct SP as [MI CV]. apply Nat.leb_le in MI. split; [lia|].
        assert (SB := ai_sub I N1). replace (N - 1 + 1) with N in CV by lia.
        assert (R0 : residual_norm h H (nth 0 E0 C0) (nth 0 psis z) = (Cabs (nth (N - 1)%nat (nth 0 (s_res s) []) C0) * Cabs (s_h s N (N - 1)%nat))%R).
        { rewrite RES by lia. rewrite SB, Cabs_RtoC, Rabs_right by lra. reflexivity. }
        assert (GAP : forall i j, i < j < N -> i < a_num_ev o -> (let err := residual_norm h H (nth 0 E0 C0) (nth 0 psis z) / Rmax (Cabs (Csub (nth j e C0) (nth i E0 C0))) (a_min_gap o) in err * err < a_P_tol o)%R).
        { intros i j D Hi. assert (G := conv_err (i := i) (j := j) MG CV Hi ltac:(lia)). rewrite !EE in G. rewrite R0, NE by exact Hi. exact G. }
        split; [|split].
        * intros i c Hi RV ND. destruct (ritz_sorted N1 I SE RV) as [j [Hj <-]]. assert (J : Nat.min N (a_num_ev o) <= j).
          { destruct (Nat.lt_ge_cases j (Nat.min N (a_num_ev o))) as [J|J]; [|exact J]. exfalso. apply (ND j J). apply NE. lia. }
          apply GAP; lia.
        * intros i j D. rewrite (NE j) by lia. apply GAP; lia.
        * unfold arnoldi_conv in CV. apply andb_true_iff in CV. destruct CV as [_ CV]. destruct (a_E_tol o) as [t|]; [|exact Logic.I]. apply Rltb_true in CV.
          assert (HN0 : 1 <= N - 1 <= a_N_max o) by lia. destruct (res_sorted HN0 I0) as [e0 [SE0 EE0]]. rewrite (step_prev ST) in CV by lia. rewrite EE0, EE in CV.
          exists (nth 0 e0 C0). split; [|split].
          -- eexists. apply (sorted_ritz (j := 0) (proj1 HN0) I0 SE0). lia.
          -- intros c RV. destruct (ritz_sorted (proj1 HN0) I0 SE0 RV) as [j [Hj <-]]. rewrite !KY. destruct j as [|j]; [lra|]. apply (se_sorted SE0). lia.
          -- rewrite NE by lia. exact CV.
  Qed.
End P.
