(** ArnoldiEvolution *)
From Coq Require Import Reals Lra List Arith Bool Lia FunctionalExtensionality Permutation String.
From Verif Require Import Util Cplx Hilbert LinOpModel LinOpSpec LinOpProofs LinOpMat KrylovModel KrylovSpec KrylovProofs KrylovProofs3 KrylovProofs4 KrylovProofs5 KrylovProofs6 GmresProofs GmresProofs2 GmresProofs3 ArnoldiModel ArnoldiSpec ArnoldiProofs ArnoldiProofs2 ArnoldiProofs3 ArnoldiProofs4.
Import ListNotations.
Set Implicit Arguments. Unset Strict Implicit.
Open Scope nat_scope.

Lemma sumn_1 f : sumn 1 f = f 0. Proof. rewrite sumn_S. unfold sumn, csum. cbn [seq map fold_right]. ring. Qed.
Section P.
  Variables (V : Type) (h : hspace V) (H : V -> V) (o : aopts) (psi0 : V).
  Hypothesis L : hlaws h.
  Hypothesis HA : linear h H.
  Notation z := (hzero h).
  Lemma powers_rescale (a : R) n v : a <> 0%R -> in_span h (powers H n (rscale h a psi0)) v <-> in_span h (powers H n psi0) v.
  Proof.
    intros Na. assert (IT : forall j, Nat.iter j H (rscale h a psi0) = rscale h a (Nat.iter j H psi0)).
    { induction j as [|j IH]; [reflexivity|]. change (H (Nat.iter j H (rscale h a psi0)) = rscale h a (H (Nat.iter j H psi0))). rewrite IH. unfold rscale. apply (proj2 HA). }
    split; apply (span_trans L); intros x Hx; apply powers_iter in Hx; destruct Hx as [j [Hj ->]].
    - rewrite IT. unfold rscale. apply (span_scale L), (span_In L), powers_iter. eauto.
    - replace (Nat.iter j H psi0) with (rscale h (/ a) (Nat.iter j H (rscale h a psi0))).
      + unfold rscale at 1. apply (span_scale L), (span_In L), powers_iter. eauto.
      + rewrite IT. unfold rscale. rewrite (hl_mul L), <- RtoC_mul, Rinv_l by exact Na. apply (hl_one L).
  Qed.
  Lemma unit_scale r x : (0 < r)%R -> hinner h x x = C1 -> hnorm h (rscale h r x) = r /\ unit_result h (rscale h r x) = x.
  Proof.
    intros Hr Hx. assert (E : hnorm h (rscale h r x) = r). { unfold rscale. rewrite (norm_hscale L). unfold hnorm, hnorm2. rewrite Hx. cbn. rewrite sqrt_1, Rabs_right by lra. ring. }
    split; [exact E|]. unfold unit_result. rewrite E. unfold rscale. rewrite (hl_mul L), <- RtoC_mul, Rinv_l by lra. apply (hl_one L).
  Qed.
  Section Basis.
    Variables (calc : nat -> (nat -> nat -> C) -> option (list C * list (list C) * R)) (n : nat) (s : astate V).
    Hypothesis I : ainv h H psi0 calc n s.
    Hypothesis N1 : 1 <= n.
    Notation XX c := (X h n s c).
    Lemma X_scale a c : hscale h a (XX c) = XX (fun i => Cmul a (c i)).
    Proof. apply (inner_ext L). intros y. rewrite (hl_inner_scale L). unfold X. rewrite !(vsum_inner L), <- sumn_scale. apply sumn_ext. intros i Hi. rewrite !(hl_inner_scale L). ring. Qed.
    Lemma X_vsum k (f : nat -> nat -> C) : vsum h k (fun j => XX (f j)) = XX (fun i => sumn k (fun j => f j i)).
    Proof.
      apply (inner_ext L). intros y. rewrite (vsum_inner L). unfold X. rewrite (vsum_inner L). rewrite (sumn_ext (g := fun j => sumn n (fun i => Cmul (f j i) (hinner h y (nth i (s_cache s) z))))).
      - rewrite sumn_swap. apply sumn_ext. intros i Hi. rewrite (hl_inner_scale L), <- sumn_scale_r. reflexivity.
      - intros j Hj. rewrite (vsum_inner L). apply sumn_ext. intros i Hi. apply (hl_inner_scale L).
    Qed.
    Lemma X_abs_le c i : i < n -> (Cabs (c i) <= hnorm h (XX c))%R.
    Proof.
      intros Hi. unfold Cabs, hnorm, hnorm2. apply sqrt_le_1_alt. rewrite (X_norm L I N1). cbn [RtoC fst]. apply (@rsum_term n (fun i => Cnorm2 (c i))); [intros; apply Cnorm2_nonneg|exact Hi].
    Qed.
    Lemma stop_intro conv_ok s0 vf : ainv h H psi0 calc (n - 1) s0 -> (exists x, s_cache s = s_cache s0 ++ [x]) ->
      (forall k es res hn, conv_ok k es res hn = Rltb (Cabs (nth k (nth 0 res []) C0)) (a_P_tol o)) -> nth 0 (s_res s) [] = vf ->
      a_stop o conv_ok (n - 1) s = true -> aevo_stop h H psi0 o n (XX (fun i => nth i vf C0)).
    Proof.
      intros I0 [x EC] CV EV SP. unfold a_stop in SP. apply orb_true_iff in SP. destruct SP as [SP|SP].
      - left. apply Rltb_true in SP. intros y Hy. apply (krylov_X L I) in Hy. destruct Hy as [c ->]. exists (XX (mv n s c)). split; [apply (krylov_X L I); eauto|].
        rewrite (H_X L HA I N1). replace (hsub h (hadd h (XX (mv n s c)) (hscale h (c (n - 1)) (s_w s))) (XX (mv n s c))) with (hscale h (c (n - 1)) (s_w s)) by hvec L.
        rewrite (norm_hscaleC L), <- (ai_wn I), Rmult_comm. apply Rmult_le_compat; [rewrite (ai_wn I); apply norm_nonneg|apply Cabs_nonneg|lra|]. apply X_abs_le. lia.
      - right. apply andb_true_iff in SP. destruct SP as [H1 H2]. apply Nat.leb_le in H1. split; [lia|]. rewrite CV, EV in H2. apply Rltb_true in H2.
        assert (LC := ai_len I). assert (LC0 := ai_len I0).
        exists (XX (fun i => if i <? n - 1 then nth i vf C0 else C0)). split.
        + apply (vsum_span L). intros i Hi. destruct (Nat.ltb_spec i (n - 1)) as [Q|Q].
          * apply (span_scale L), (ai_in I0). rewrite EC, app_nth1 by lia. apply nth_In. lia.
          * rewrite (hl_null L). apply (span_zero L).
        + replace (hsub h (XX (fun i => nth i vf C0)) (XX (fun i => if i <? n - 1 then nth i vf C0 else C0))) with (hscale h (nth (n - 1) vf C0) (nth (n - 1) (s_cache s) z)).
          * rewrite (norm_hscaleC L). replace (hnorm h (nth (n - 1) (s_cache s) z)) with 1%R; [lra|]. unfold hnorm, hnorm2. rewrite (proj2 (ai_orth I)) by (apply nth_In; lia). cbn. symmetry. apply sqrt_1.
          * apply (inner_ext L). intros y. rewrite (inner_sub_r L), (hl_inner_scale L). unfold X. rewrite !(vsum_inner L).
            transitivity (Cadd (sumn n (fun i => hinner h y (hscale h (nth i vf C0) (nth i (s_cache s) z)))) (Cmul (Copp C1) (sumn n (fun i => hinner h y (hscale h (if i <? n - 1 then nth i vf C0 else C0) (nth i (s_cache s) z)))))); [|ring].
            rewrite <- sumn_scale, <- sumn_add.
            rewrite (sumn_ext (g := fun i => if n - 1 =? i then Cmul (nth i vf C0) (hinner h y (nth i (s_cache s) z)) else C0)).
            -- rewrite (sumn_single (fun i => Cmul (nth i vf C0) (hinner h y (nth i (s_cache s) z)))) by lia. reflexivity.
            -- intros i Hi. rewrite !(hl_inner_scale L). destruct (Nat.ltb_spec i (n - 1)), (Nat.eqb_spec (n - 1) i); try lia; ring.
    Qed.
  End Basis.
  Variables (eig : eig_fun) (solve : solve_fun).
  Hypothesis SV : solve_right h H psi0 (a_N_max o) eig solve.
  Hypothesis ER : eig_right h H psi0 (a_N_max o) eig.
  Hypothesis CUT : (0 < a_cutoff o)%R.
  Hypothesis NM : a_N_max o <> 0.
  Lemma step_cache calc k s0 s : a_step h H o calc k s0 = Some s -> exists x, s_cache s = s_cache s0 ++ [x].
  Proof.
    intros E. unfold a_step in E. destruct (Req_EM_T _ _); [discriminate|]. destruct (a_N_max o <? _); [discriminate|]. destruct (project_coeffs _ _ _). destruct (calc _ _) as [[[? ?] ?]|]; [|discriminate].
    injection E as <-. cbn [s_cache]. eauto.
  Qed.
  Lemma evo_none delta k m : (1 <= k -> projected_matrix h H psi0 (k + 1) (submatrix (k + 1) m)) -> k < a_N_max o -> aevo_calc eig solve delta k m = None -> 1 <= k /\ dependent_columns (k + 1) (snd (eig (k + 1) (submatrix (k + 1) m))).
  Proof.
    intros PM Hk E. unfold aevo_calc in E. destruct k as [|k]; [discriminate|]. split; [lia|]. specialize (PM ltac:(lia)). assert (SX := SV (n := S k + 1) ltac:(lia) PM). set (n := S k + 1) in *. change (fun i => if i =? 0 then C1 else C0) with unit0 in E. destruct (eig n (submatrix n m)) as [E0 v]. cbn [snd] in *.
    destruct (solve n v _) as [c|]; [|exact SX]. destruct SX as [S1 S2]. exfalso.
    destruct (Req_EM_T _ 0) as [Z|Z]; [|discriminate]. clear E.
    set (x := fun i => csumn n (fun j => Cmul (v i j) (Cmul (Cexp (Cmul (nth j E0 C0) delta)) (c j)))) in *.
    assert (X0 : forall i, i < n -> x i = C0).
    { intros i Hi. apply sqrt_eq_0 in Z.
      - assert (T := @rsum_term n (fun i => Cnorm2 (x i)) i ltac:(intros; apply Cnorm2_nonneg) Hi). unfold rsum_n in T. rewrite map_map in Z. rewrite Z in T. assert (P := Cnorm2_nonneg (x i)). assert (Q : Cnorm2 (x i) = 0%R) by lra.
        apply Cabs_0_iff. unfold Cabs. rewrite Q. apply sqrt_0.
      - clear. induction (map x (seq 0 n)) as [|a l IH]; cbn; [lra|]. assert (P := Cnorm2_nonneg a). lra. }
    assert (NC : exists j, j < n /\ c j <> C0).
    { destruct (Forall_dec (fun j => c j = C0)) with (l := seq 0 n) as [F|F]; [intros j; destruct (Ceqb_spec (c j) C0); [now left|now right]| |].
      - exfalso. assert (Y := S1 0 ltac:(lia)). unfold unit0 in Y. cbn [Nat.eqb] in Y. rewrite (csum_n_ext (g := fun _ => C0)) in Y; [|intros j Hj; rewrite Forall_forall in F; rewrite (F j) by (apply in_seq; lia); ring].
        rewrite csum_n_sumn, sumn_zero in Y. apply (f_equal fst) in Y. cbn in Y. lra.
      - apply Exists_Forall_neg in F. 2: { intros i. destruct (Ceqb_spec (c i) C0); [now left|now right]. } apply Exists_exists in F. destruct F as [i [Hi Ni]]. apply in_seq in Hi. exists i. split; [lia|exact Ni]. }
    destruct NC as [j [Hj Cj]]. apply S2. exists j, (fun j => Cmul (Cexp (Cmul (nth j E0 C0) delta)) (c j)). split; [exact Hj|]. split; [|exact X0]. intros Y. apply Cj. exact (Cmul_0 Y (@Cexp_neq0 _)).
  Qed.
  Theorem evo_result (pn : R) delta normalize : (0 < pn)%R ->
    match aevo_run h H o eig solve pn psi0 delta normalize with
    | None => psi0 = z \/ exists n m, 2 <= n <= a_N_max o /\ projected_matrix h H psi0 n m /\ dependent_columns n (snd (eig n m))
    | Some (res, N, psi0') => psi0 <> z /\ 1 <= N <= a_N_max o /\ psi0' = rscale h (/ hnorm h psi0) psi0 /\
        exists c phi, spectral_decomposition h H N (rscale h pn psi0') c phi /\
          let U := vsum h N (fun j => hscale h (Cexp (Cmul delta (c j))) (phi j)) in
          hnorm h U <> 0%R /\ res = (if (match normalize with Some b => b | None => false end) then unit_result h U else U) /\
          (N < a_N_max o -> aevo_stop h H psi0 o N (unit_result h U))
    end.
  Proof.
    intros PN. unfold aevo_run. assert (B := build_spec psi0 (aevo_conv o) L HA (@aevo_calc_ext eig solve delta) CUT NM).
    destruct (a_build h H o (aevo_calc eig solve delta) (aevo_conv o) (new_obj psi0)) as [[[p N] s]|].
    2: { destruct B as [B|[k [s0 [Hk [I0 [W0 B]]]]]]; [now left|]. right. destruct (step_none I0 W0 Hk B) as [m [CN T]]. destruct (T triv_calc) as [s' [ST Em]]; [intros; now exists [], [], 1%R|]. 
         assert (PM : projected_matrix h H psi0 (k + 1) (submatrix (k + 1) m)). {
         assert (ST' : exists s2, a_step h H o triv_calc k (AState (s_cache s0) (s_h s0) zeros2 (s_w s0) (s_wn s0) [] 1%R) = Some s2 /\ s_h s2 = m).
         { unfold a_step in *. cbn [s_cache s_h s_es s_w s_wn s_res s_rn]. destruct (Req_EM_T (s_wn s0) 0); [discriminate|]. destruct (a_N_max o <? _); [discriminate|]. destruct (project_coeffs _ _ _). cbn [triv_calc] in *. injection ST as <-. cbn [s_h] in Em. eexists. split; [reflexivity|]. exact Em. }
         destruct ST' as [s2 [ST2 Em2]]. assert (I2 := ainv_step L HA (calc := triv_calc) (fun _ _ _ _ => eq_refl) (ainv_forget I0) ST2). rewrite <- Em2. replace (k + 1) with (S k) by lia. apply (ainv_projected L (calc := triv_calc)); [lia|exact I2]. }
         destruct (evo_none (fun _ => PM) Hk CN) as [K1 DC]. exists (k + 1), (submatrix (k + 1) m). split; [lia|]. split; [exact PM|exact DC]. }
    destruct B as [N0 [Ep [I [HN [[s0 [I0 ST]] SP]]]]]. assert (N1 : 1 <= N) by lia. assert (LC := ai_len I).
    assert (NZ : psi0 <> z) by (intros Z; apply N0; now apply (norm_0_iff L)).
    assert (P1 : hinner h p p = C1) by (rewrite Ep; apply (normalized L N0)).
    assert (PF := X_first L I N1). rewrite <- Ep in PF.
    assert (NI : (/ hnorm h psi0 <> 0)%R) by now apply Rinv_neq_0_compat.
    assert (PW : forall v, in_span h (powers H N (rscale h pn p)) v <-> exists c, v = X h N s c).
    { intros v. rewrite <- (krylov_X L I). rewrite Ep. replace (rscale h pn (rscale h (/ hnorm h psi0) psi0)) with (rscale h (pn * / hnorm h psi0) psi0) by (unfold rscale; rewrite (hl_mul L), <- RtoC_mul; reflexivity).
      apply powers_rescale. apply Rmult_integral_contrapositive_currified; [lra|exact NI]. }
    (* enough: coefficients x/nrm of the unit result, and eigenpairs *)
    assert (KEY : forall (x : nat -> C) (E : nat -> C) (v : nat -> nat -> C) (c : nat -> C) nrm vf,
      (forall i j, i < N -> j < N -> sumn N (fun k => Cmul (s_h s i k) (v k j)) = Cmul (E j) (v i j)) ->
      (forall i, i < N -> sumn N (fun j => Cmul (v i j) (c j)) = if i =? 0 then C1 else C0) ->
      (forall i, i < N -> x i = sumn N (fun j => Cmul (v i j) (Cmul (Cexp (Cmul delta (E j))) (c j)))) -> (0 < nrm)%R -> (nrm * nrm)%R = rsum_n N (fun i => Cnorm2 (x i)) ->
      nth 0 (s_res s) [] = vf -> (forall i, i < N -> nth i vf C0 = Cmul (RtoC (/ nrm)) (x i)) -> s_rn s = nrm ->
      let r := X h N s (fun i => nth i vf C0) in
      hinner h r r = C1 /\ exists e phi, spectral_decomposition h H N (rscale h pn p) e phi /\
          let U := vsum h N (fun j => hscale h (Cexp (Cmul delta (e j))) (phi j)) in
          hnorm h U <> 0%R /\
          (if (match normalize with Some b => b | None => false end) then r else rscale h (pn * s_rn s) r) = (if (match normalize with Some b => b | None => false end) then unit_result h U else U) /\
          (N < a_N_max o -> aevo_stop h H psi0 o N (unit_result h U))).
    { intros x E v c nrm vf EV VC EX NP NS RV VF RN. cbv zeta. set (r := X h N s (fun i => nth i vf C0)).
      assert (RX : r = rscale h (/ nrm) (X h N s x)). { unfold r, rscale. rewrite X_scale. apply X_ext. exact VF. }
      assert (XN : hinner h (X h N s x) (X h N s x) = RtoC (nrm * nrm)) by (rewrite (X_norm L I N1), NS; reflexivity).
      assert (RU : hinner h r r = C1). { rewrite RX, (inner_rscale_l L), (inner_rscale_r L), XN, <- !RtoC_mul. change C1 with (RtoC 1). apply (f_equal RtoC). field. lra. }
      split; [exact RU|]. set (phi := fun j => rscale h pn (X h N s (fun i => Cmul (v i j) (c j)))). exists E, phi.
      assert (EU : vsum h N (fun j => hscale h (Cexp (Cmul delta (E j))) (phi j)) = rscale h (pn * nrm) r).
      { unfold phi, rscale. rewrite (vsum_ext h (g := fun j => X h N s (fun i => Cmul (Cexp (Cmul delta (E j))) (Cmul (RtoC pn) (Cmul (v i j) (c j)))))).
        - rewrite X_vsum. rewrite RX. unfold rscale. rewrite (hl_mul L), <- RtoC_mul. replace (pn * nrm * / nrm)%R with pn by (field; lra). rewrite X_scale. apply X_ext. intros i Hi. rewrite EX by exact Hi. rewrite <- sumn_scale. apply sumn_ext. intros j Hj. ring.
        - intros j Hj. rewrite !X_scale. reflexivity. }
      assert (PR : (0 < pn * nrm)%R) by (apply Rmult_lt_0_compat; assumption). destruct (@unit_scale (pn * nrm) r PR RU) as [U1 U2].
      split; [constructor|].
      - unfold phi, rscale. rewrite (vsum_ext h (g := fun j => X h N s (fun i => Cmul (RtoC pn) (Cmul (v i j) (c j))))) by (intros j Hj; apply X_scale). rewrite X_vsum. rewrite <- PF, X_scale. apply X_ext. intros i Hi. rewrite sumn_scale, VC by exact Hi. reflexivity.
      - intros j Hj. apply PW. unfold phi, rscale. rewrite X_scale. eauto.
      - intros j y Hj Hy. apply PW in Hy. destruct Hy as [d ->]. unfold phi, rscale. rewrite X_scale. set (cc := fun i => Cmul (RtoC pn) (Cmul (v i j) (c j))).
        rewrite (eig_residual L HA I N1 (c := cc) (E := E j)).
        + rewrite (hl_inner_scale L), (inner_sym0 L (X_w L I d)). ring.
        + intros i Hi. unfold mv, cc. transitivity (sumn N (fun k => Cmul (Cmul (RtoC pn) (c j)) (Cmul (s_h s i k) (v k j)))); [apply sumn_ext; intros; ring|]. rewrite sumn_scale, EV by assumption. ring.
      - rewrite EU, U1, U2, RN. split; [lra|]. split; [reflexivity|]. intros LT. apply (stop_intro I N1 (conv_ok := aevo_conv o) (s0 := s0)); auto. exact (step_cache ST). }
    destruct (ai_es I (j := N - 1) ltac:(lia)) as [e1 [r1 [rn1 [CA [_ RR]]]]]. destruct (RR ltac:(lia)) as [-> ->]. clear RR.
    assert (FIN : forall r, hinner h r r = C1 -> r = X h N s (fun i => nth i (nth 0 (s_res s) []) C0) ->
       (if N =? 1 then Some (hscale h (nth 0 (nth 0 (s_res s) []) C0) p)
        else if List.length (s_cache s) <? N then None else Some (rscale h (/ hnorm h (combine_basis h (s_cache s) N (nth 0 (s_res s) []))) (combine_basis h (s_cache s) N (nth 0 (s_res s) [])))) = Some r).
    { intros r RU ->. destruct (Nat.eqb_spec N 1) as [E1|D1].
      - f_equal. rewrite <- PF, X_scale. apply X_ext. intros i Hi. assert (i = 0) by lia. subst i. cbn [Nat.eqb]. ring.
      - rewrite LC, Nat.ltb_irrefl. rewrite (combine_X L I N1). f_equal. replace (hnorm h _) with 1%R by (unfold hnorm, hnorm2; rewrite RU; cbn; symmetry; apply sqrt_1). rewrite Rinv_1. apply (hl_one L). }
    unfold aevo_calc in CA. destruct (N - 1) as [|k] eqn:NK.
    - clear LC. assert (N = 1) by lia. subst N. injection CA as _ CA1 CA2. set (ex := Cexp (Cmul delta (s_h s 0 0))) in *.
      assert (Ab : (0 < Cabs ex)%R). { unfold Cabs, ex. rewrite Cnorm2_exp. apply sqrt_lt_R0. assert (Y := exp_pos (fst (Cmul delta (s_h s 0 0)))). apply Rmult_lt_0_compat; exact Y. }
      destruct (KEY (fun _ => ex) (fun _ => s_h s 0 0) (fun _ _ => C1) (fun _ => C1) (Cabs ex) [Cmul (RtoC (/ Cabs ex)) ex]) as [RU K].
      + intros i j Hi Hj. assert (i = 0) by lia. subst i. rewrite sumn_1. cbn [Nat.eqb]. ring.
      + intros i Hi. assert (i = 0) by lia. subst i. rewrite sumn_1. cbn [Nat.eqb]. ring.
      + intros i Hi. rewrite sumn_1. unfold ex. ring.
      + exact Ab.
      + unfold rsum_n. cbn. unfold Cabs. rewrite sqrt_sqrt by apply Cnorm2_nonneg. ring.
      + now rewrite <- CA1.
      + intros i Hi. assert (i = 0) by lia. subst i. reflexivity.
      + now rewrite <- CA2.
      + cbv zeta. rewrite (FIN _ RU ltac:(now rewrite <- CA1)). auto.
    - replace (S k + 1) with N in CA by lia. assert (EO := ER (n := N) (m := submatrix N (s_h s)) ltac:(lia) (ainv_projected L N1 I)). assert (SS := SV (n := N) (m := submatrix N (s_h s)) ltac:(lia) (ainv_projected L N1 I)). change (fun i => if i =? 0 then C1 else C0) with unit0 in CA. destruct (eig N (submatrix N (s_h s))) as [E0 v]. cbn [fst snd] in EO, SS. destruct EO as [O1 O2 O3 O4].
      destruct (solve N v _) as [c|]; [|discriminate]. destruct SS as [S1 _].
      set (x := fun i => csumn N (fun j => Cmul (v i j) (Cmul (Cexp (Cmul (nth j E0 C0) delta)) (c j)))) in *.
      destruct (Req_EM_T _ 0) as [Z|Z]; [discriminate|]. injection CA as _ CA1 CA2. set (nrm := sqrt (fold_right Rplus 0%R (map Cnorm2 (map x (seq 0 N))))) in *.
      assert (NP : (0 <= fold_right Rplus 0%R (map Cnorm2 (map x (seq 0 N))))%R) by (clear; induction (map x (seq 0 N)) as [|a l IH]; cbn; [lra|]; assert (P := Cnorm2_nonneg a); lra).
      destruct (KEY x (fun j => nth j E0 C0) v c nrm (map (Cmul (RtoC (/ nrm))) (map x (seq 0 N)))) as [RU K].
      + intros i j Hi Hj. etransitivity; [|exact (O2 i j Hi Hj)]. apply sumn_ext. intros l Hl. now rewrite submatrix_lt.
      + intros i Hi. apply (S1 i Hi).
      + intros i Hi. unfold x. rewrite csumn_sumn. apply sumn_ext. intros j Hj. replace (Cmul (nth j E0 C0) delta) with (Cmul delta (nth j E0 C0)) by ring. reflexivity.
      + assert (Y := sqrt_pos (fold_right Rplus 0%R (map Cnorm2 (map x (seq 0 N))))). fold nrm in Y. lra.
      + unfold nrm. rewrite sqrt_sqrt by exact NP. unfold rsum_n. now rewrite map_map.
      + now rewrite <- CA1.
      + intros i Hi. rewrite map_map, nth_map_lt with (d := 0) by (rewrite seq_length; lia). rewrite seq_nth by lia. reflexivity.
      + now rewrite <- CA2.
      + cbv zeta. rewrite (FIN _ RU ltac:(now rewrite <- CA1)). auto.
  Qed.
End P.
