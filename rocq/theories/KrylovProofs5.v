(** The result of a Lanczos run does not depend on the cache; shifts. *)
From Coq Require Import Reals Lra List Arith Lia Bool.
From Verif Require Import Cplx Hilbert LinOpModel LinOpSpec LinOpProofs LinOpMat KrylovModel KrylovSpec KrylovProofs KrylovProofs2 KrylovProofs3 KrylovProofs4.
Import ListNotations.
Set Implicit Arguments. Unset Strict Implicit.
Open Scope nat_scope.

Section P.
  Variables (V : Type) (h : hspace V) (H : V -> V).
  Hypothesis L : hlaws h.
  Hypothesis HH : hermitian h H.
  Notation z := (hzero h).

  Definition next_w (k : nat) (q : list V) (b : R) (w : V) : V :=
    let x := rscale h (/ b) w in
    let y := axpy h (RtoC (- fst (hinner h (H x) x))) x (H x) in
    if k =? 0 then y else axpy h (RtoC (- b)) (nth (k - 1) q z) y.
  Lemma step_wvec o calc psi k q s : 2 <= N_cache o -> sinv h H o calc psi k q s -> beta s <> 0%R ->
    wvec (lanczos_step h H o calc k s) = next_w k q (beta s) (wvec s).
  Proof.
    intros NC I NB. assert (Hb := si_beta I). assert (LI := si_l I). assert (NB' := NB). rewrite Hb in NB'.
    assert (ME := matrix_elements L HH NC LI NB').
    unfold lanczos_step, next_w. rewrite (si_cache I), to_cache_lastn, lastn_last by lia. rewrite Hb.
    set (x := rscale h (/ hnorm h (wvec s)) (wvec s)) in *. set (alpha := fst (hinner h (H x) x)) in *.
    destruct (calc (alphas s ++ [alpha]) (betas s)) as [[e v] rn]. cbn [wvec].
    apply (orthogonalize_spec L NC x (li_len LI) (li_on LI)). intros i Hi. rewrite (inner_axpy_r L), (ME i Hi). unfold x. rewrite (inner_rscale_r L).
    rewrite (li_perp LI) by (apply nth_In; rewrite (li_len LI); exact Hi). ring.
  Qed.

  (** everything but the cache *)
  Definition same (s1 s2 : lstate V) : Prop :=
    wvec s1 = wvec s2 /\ beta s1 = beta s2 /\ alphas s1 = alphas s2 /\ betas s1 = betas s2 /\ es s1 = es s2 /\ vf s1 = vf s2 /\ rnorm s1 = rnorm s2.
  Lemma step_same o1 o2 calc psi k q s1 s2 : 2 <= N_cache o1 -> 2 <= N_cache o2 -> sinv h H o1 calc psi k q s1 -> sinv h H o2 calc psi k q s2 -> same s1 s2 -> beta s1 <> 0%R ->
    same (lanczos_step h H o1 calc k s1) (lanczos_step h H o2 calc k s2).
  Proof.
    intros C1' C2' I1 I2 [E1 [E2 [E3 [E4 [E5 [E6 E7]]]]]] NB.
    assert (W1 := step_wvec C1' I1 NB). assert (W2 := step_wvec C2' I2). rewrite <- E2, <- E1 in W2. specialize (W2 NB). rewrite <- W1 in W2. clear W1. symmetry in W2.
    revert W2. unfold lanczos_step. rewrite (si_cache I1), (si_cache I2), !to_cache_lastn, !lastn_last by lia. rewrite <- E1, <- E2, <- E3, <- E4, <- E5.
    destruct (calc _ (betas s1)) as [[e v] rn]. unfold same. cbn [wvec beta alphas betas es vf rnorm]. intros W. rewrite <- W. auto 10.
  Qed.
  Lemma loop_same o1 o2 calc conv psi : 2 <= N_cache o1 -> 2 <= N_cache o2 -> cutoff o1 = cutoff o2 -> N_min o1 = N_min o2 -> (0 < cutoff o1)%R ->
    forall fuel k q s1 s2, sinv h H o1 calc psi k q s1 -> sinv h H o2 calc psi k q s2 -> same s1 s2 -> (cutoff o1 <= beta s1)%R ->
    exists n q' s1' s2', lanczos_loop h H o1 calc conv fuel k s1 = (n, s1') /\ lanczos_loop h H o2 calc conv fuel k s2 = (n, s2') /\
      sinv h H o1 calc psi n q' s1' /\ sinv h H o2 calc psi n q' s2' /\ same s1' s2'.
  Proof.
    intros C1' C2' EC EN CP. induction fuel as [|fuel IH]; intros k q s1 s2 I1 I2 S HB; cbn [lanczos_loop].
    - exists k, q, s1, s2. auto.
    - assert (NB : beta s1 <> 0%R) by lra. assert (S' := step_same C1' C2' I1 I2 S NB).
      assert (E2 : beta s2 = beta s1) by (symmetry; apply S).
      assert (I1' := step_sinv L HH C1' I1 NB). assert (I2' := step_sinv L HH C2' I2 ltac:(rewrite E2; exact NB)). rewrite E2 in I2'.
      replace (wvec s2) with (wvec s1) in I2' by apply S.
      assert (St : lanczos_stop o2 conv k (lanczos_step h H o2 calc k s2) = lanczos_stop o1 conv k (lanczos_step h H o1 calc k s1)).
      { unfold lanczos_stop. destruct S' as [_ [F2 [F3 [F4 [F5 [F6 F7]]]]]]. now rewrite F2, F4, F5, F6, EC, EN. }
      rewrite St. destruct (lanczos_stop o1 conv k (lanczos_step h H o1 calc k s1)) eqn:Q.
      + replace (k + 1) with (Datatypes.S k) in * by lia. eauto 10.
      + replace (k + 1) with (Datatypes.S k) in * by lia. apply (IH _ _ _ _ I1' I2' S').
        unfold lanczos_stop in Q. apply orb_false_iff in Q. destruct Q as [Q _]. apply Rltb_false in Q. rewrite Rabs_right in Q; [exact Q|].
        rewrite (si_beta I1'). apply Rle_ge, norm_nonneg.
  Qed.
  Lemma build_same o1 o2 calc conv psi0 : 2 <= N_cache o1 -> 2 <= N_cache o2 -> cutoff o1 = cutoff o2 -> N_min o1 = N_min o2 -> N_max o1 = N_max o2 -> (0 < cutoff o1)%R ->
    match build_krylov h H o1 calc conv psi0, build_krylov h H o2 calc conv psi0 with
    | Some (psi, n, s1), Some (psi', n', s2) => psi = psi' /\ n = n' /\ same s1 s2 /\
        (length (vf s1) = n -> 1 < n -> calc_result_full h H o1 psi n s1 = calc_result_full h H o2 psi n s2)
    | None, None => True
    | _, _ => False
    end.
  Proof.
    intros C1' C2' EC EN EM CP. unfold build_krylov. rewrite <- EC, <- EM. destruct (Rltb (hnorm h psi0) (cutoff o1)) eqn:E; [exact I|]. apply Rltb_false in E.
    assert (CP2 : (0 < cutoff o2)%R) by (rewrite <- EC; exact CP). assert (Ee2 : (cutoff o2 <= hnorm h psi0)%R) by (rewrite <- EC; exact E).
    assert (I1 : sinv h H o1 calc (rscale h (/ hnorm h psi0) psi0) 0 [] (LState [] psi0 (hnorm h psi0) [] [] [] [] 0%R)) by (eapply init_sinv; eassumption).
    assert (I2 : sinv h H o2 calc (rscale h (/ hnorm h psi0) psi0) 0 [] (LState [] psi0 (hnorm h psi0) [] [] [] [] 0%R)) by (eapply init_sinv; eassumption).
    destruct (@loop_same o1 o2 calc conv _ C1' C2' EC EN CP (N_max o1) 0 [] _ _ I1 I2) as [n [q [s1 [s2 [E1 [E2 [J1 [J2 S]]]]]]]].
    - unfold same. cbn. auto 10.
    - exact E.
    - rewrite E1, E2. split; [reflexivity|]. split; [reflexivity|]. split; [exact S|]. intros Hv HN.
      assert (Ev : vf s1 = vf s2) by apply S.
      rewrite (calc_result_full_gen L C1' J1 HN Hv), (calc_result_full_gen L C2' J2 HN) by congruence. now rewrite Ev.
  Qed.
  (** the lengths needed: gs_calc and evo_calc return one coefficient per row *)
  Lemma gs_calc_len eigh al be : al <> [] -> length (snd (fst (gs_calc eigh al be))) = length al.
  Proof. destruct al as [|a [|b al]]; intros Na; [congruence|reflexivity|]. unfold gs_calc. destruct (eigh _ _). cbn [fst snd]. now rewrite map_length, seq_length. Qed.
  Lemma evo_calc_len eigh dl al be : al <> [] -> length (snd (fst (evo_calc eigh dl al be))) = length al.
  Proof. destruct al as [|a [|b al]]; intros Na; [congruence|reflexivity|]. unfold evo_calc. destruct (eigh _ _). cbn [fst snd]. now rewrite !map_length, seq_length. Qed.
  Lemma vf_len o calc conv psi0 psi n s : hermitian h H -> 2 <= N_cache o -> (0 < cutoff o)%R -> N_max o <> 0 -> (forall al be, al <> [] -> length (snd (fst (calc al be))) = length al) ->
    build_krylov h H o calc conv psi0 = Some (psi, n, s) -> length (vf s) = n.
  Proof.
    intros HH' NC CP NM HL E. assert (B := build_krylov_spec L HH' NC CP calc conv psi0 NM). rewrite E in B. destruct B as [_ [_ [HN [[q SI] _]]]].
    assert (X := si_calc SI ltac:(lia)). assert (Y := HL (alphas s) (firstn (n - 1) (betas s))). rewrite <- X in Y. cbn [fst snd] in Y. rewrite (li_al (si_l SI)) in Y. apply Y.
    intros Z. assert (W := li_al (si_l SI)). rewrite Z in W. cbn in W. lia.
  Qed.
  Theorem cache_irrelevant o nc r eigh shift psi0 : 2 <= N_cache o -> 2 <= nc -> (0 < cutoff o)%R -> N_max o <> 0 ->
    ground_state_run h H (with_cache o nc r) eigh shift psi0 = ground_state_run h H o eigh shift psi0.
  Proof.
    intros C1' C2' CP NM. unfold ground_state_run. assert (B := @build_same (with_cache o nc r) o (gs_calc eigh) (gs_conv o) psi0 C2' C1' eq_refl eq_refl eq_refl CP).
    change (gs_conv (with_cache o nc r)) with (gs_conv o). assert (VL := @vf_len (with_cache o nc r) (gs_calc eigh) (gs_conv o) psi0).
    destruct (build_krylov h H (with_cache o nc r) (gs_calc eigh) (gs_conv o) psi0) as [[[psi n] s1]|]; destruct (build_krylov h H o (gs_calc eigh) (gs_conv o) psi0) as [[[psi' n'] s2]|]; try now destruct B.
    destruct B as [E1 [E2 [S E3]]]. subst psi' n'. specialize (VL psi n s1 HH C2' CP NM (@gs_calc_len eigh) eq_refl). replace (es s2) with (es s1) by apply S.
    destruct (Nat.eqb_spec n 1) as [E|NE]; [reflexivity|]. destruct (le_lt_dec n 1) as [Hn|Hn].
    - unfold calc_result_full. replace (vf s2) with (vf s1) by apply S. rewrite VL, (proj2 (Nat.ltb_ge 1 n)), andb_false_r by lia. reflexivity.
    - rewrite E3 by assumption. reflexivity.
  Qed.
  Theorem cache_irrelevant_evo o nc r eigh psi0 pn dl nrm : 2 <= N_cache o -> 2 <= nc -> (0 < cutoff o)%R -> N_max o <> 0 ->
    evolution_run h H (with_cache o nc r) eigh psi0 pn dl nrm = evolution_run h H o eigh psi0 pn dl nrm.
  Proof.
    intros C1' C2' CP NM. unfold evolution_run. assert (B := @build_same (with_cache o nc r) o (evo_calc eigh dl) (evo_conv o) psi0 C2' C1' eq_refl eq_refl eq_refl CP).
    change (evo_conv (with_cache o nc r)) with (evo_conv o). assert (VL := @vf_len (with_cache o nc r) (evo_calc eigh dl) (evo_conv o) psi0).
    destruct (build_krylov h H (with_cache o nc r) (evo_calc eigh dl) (evo_conv o) psi0) as [[[psi n] s1]|]; destruct (build_krylov h H o (evo_calc eigh dl) (evo_conv o) psi0) as [[[psi' n'] s2]|]; try now destruct B.
    destruct B as [E1 [E2 [S E3]]]. subst psi' n'. specialize (VL psi n s1 HH C2' CP NM (@evo_calc_len eigh dl) eq_refl).
    replace (rnorm s2) with (rnorm s1) by apply S. replace (nth 0 (vf s2) C0) with (nth 0 (vf s1) C0) by (f_equal; apply S).
    destruct (Nat.eqb_spec n 1) as [E|NE]; [reflexivity|]. destruct (le_lt_dec n 1) as [Hn|Hn].
    - unfold calc_result_full. replace (vf s2) with (vf s1) by apply S. rewrite VL, (proj2 (Nat.ltb_ge 1 n)), andb_false_r by lia. reflexivity.
    - rewrite E3 by assumption. reflexivity.
  Qed.
End P.

(** ** shifted operators *)
Section Shift.
  Variables (V : Type) (h : hspace V) (H K : V -> V) (e : R) (W : V -> Prop).
  Hypothesis L : hlaws h.
  Hypothesis HH : hermitian h H.
  Hypothesis HK : hermitian h K.
  Hypothesis W0 : W (hzero h).
  Hypothesis Wadd : forall x y, W x -> W y -> W (hadd h x y).
  Hypothesis Wscale : forall a x, W x -> W (hscale h a x).
  Hypothesis WH : forall x, W x -> W (H x).
  Hypothesis KH : forall x, W x -> K x = hadd h (H x) (rscale h e x).

  Lemma iter_S_r (F : V -> V) j psi : Nat.iter (S j) F psi = Nat.iter j F (F psi).
  Proof. change (F (Nat.iter j F psi) = Nat.iter j F (F psi)). induction j as [|j IH]; [reflexivity|]. change (F (F (Nat.iter j F psi)) = F (Nat.iter j F (F psi))). now rewrite IH. Qed.
  Lemma powers_iter (F : V -> V) n : forall psi x, In x (powers F n psi) <-> exists j, j < n /\ x = Nat.iter j F psi.
  Proof.
    induction n as [|n IH]; intros psi x; cbn [powers].
    - split; [intros []|intros [j [Hj _]]; lia].
    - cbn [In]. rewrite IH. split.
      + intros [E|[j [Hj E]]]; [exists 0; split; [lia|now symmetry]|]. exists (S j). split; [lia|]. rewrite E. symmetry. apply iter_S_r.
      + intros [[|j] [Hj E]]; [left; now symmetry|]. right. exists j. split; [lia|]. rewrite E. apply iter_S_r.
  Qed.
  Lemma span_mono l l' v : (forall x, In x l -> In x l') -> in_span h l v -> in_span h l' v.
  Proof. intros Hl. apply (span_trans L). intros x Hx. apply (span_In L). auto. Qed.
  Lemma iter_W psi j : W psi -> W (Nat.iter j H psi). Proof. intros Hp. induction j; cbn; auto. Qed.
  Lemma span_W psi n v : W psi -> in_span h (powers H n psi) v -> W v.
  Proof.
    intros Hp [c [Hc E]]. subst v. assert (A : forall x, In x (powers H n psi) -> W x). { intros x Hx. apply powers_iter in Hx. destruct Hx as [j [_ E]]. subst x. now apply iter_W. }
    revert c Hc A. generalize (powers H n psi). induction l as [|x l IH]; intros [|a c] Hc A; cbn [lincomb]; try discriminate; auto.
    apply Wadd; [apply Wscale, A; now left|]. apply IH; [cbn in Hc; lia|]. intros; apply A; now right.
  Qed.
  Lemma powers_shift_1 psi n : W psi -> forall j, j < n -> in_span h (powers H (S j) psi) (Nat.iter j K psi).
  Proof.
    intros Hp. induction j as [|j IH]; intros Hj; cbn [Nat.iter nat_rect]; [apply (span_In L); now left|]. 
    change (nat_rect (fun _ : nat => V) psi (fun _ : nat => K) j) with (Nat.iter j K psi). specialize (IH ltac:(lia)).
    rewrite KH by now apply (span_W Hp IH). apply (span_add L).
    - now apply (powers_H L HH).
    - unfold rscale. apply (span_scale L). eapply span_mono; [|exact IH]. intros x Hx. apply (powers_In (n := Datatypes.S j)); [lia|exact Hx].
  Qed.
  Lemma powers_shift_2 psi n : W psi -> forall j, j < n -> in_span h (powers K (S j) psi) (Nat.iter j H psi) /\ (forall x, In x (powers K (S j) psi) -> W x).
  Proof.
    intros Hp.
    assert (WK : forall x, W x -> W (K x)) by (intros x Hx; rewrite KH by exact Hx; unfold rscale; auto).
    assert (IW : forall j, W (Nat.iter j K psi)) by (induction j; cbn; auto).
    assert (PW : forall n x, In x (powers K n psi) -> W x) by (intros m x Hx; apply powers_iter in Hx; destruct Hx as [i [_ E]]; subst x; apply IW).
    induction j as [|j IH]; intros Hj; (split; [|apply PW]).
    - apply (span_In L). now left.
    - cbn [Nat.iter nat_rect]. change (nat_rect (fun _ : nat => V) psi (fun _ : nat => H) j) with (Nat.iter j H psi). destruct (IH ltac:(lia)) as [IH1 _].
      assert (E : H (Nat.iter j H psi) = hsub h (K (Nat.iter j H psi)) (rscale h e (Nat.iter j H psi))). { rewrite KH by (now apply iter_W). hvec L. }
      rewrite E. unfold hsub, rscale. apply (span_add L); [now apply (powers_H L HK)|]. apply (span_scale L), (span_scale L). eapply span_mono; [|exact IH1]. intros x Hx. apply (powers_In (n := Datatypes.S j)); [lia|exact Hx].
  Qed.
  Lemma powers_shift psi n v : W psi -> in_span h (powers K n psi) v <-> in_span h (powers H n psi) v.
  Proof.
    intros Hp. split; apply (span_trans L); intros x Hx; apply powers_iter in Hx; destruct Hx as [j [Hj E]]; subst x.
    - eapply span_mono; [|apply (powers_shift_1 Hp Hj)]. intros x Hx. apply (powers_In (n := Datatypes.S j)); [lia|exact Hx].
    - eapply span_mono; [|apply (powers_shift_2 Hp Hj)]. intros x Hx. apply (powers_In (n := Datatypes.S j)); [lia|exact Hx].
  Qed.
  Lemma lowest_shift (P Q : V -> Prop) E : (forall x, P x <-> Q x) -> (forall x, P x -> W x) -> lowest_energy h K P E -> lowest_energy h H Q (E - e)%R.
  Proof.
    intros PQ PW [[phi [H1 [H2 H3]]] H4]. split.
    - exists phi. split; [now apply PQ|]. split; [exact H2|]. rewrite (KH (PW _ H1)), (hl_inner_add L), (inner_rscale_r L), H2 in H3.
      replace (hinner h phi (H phi)) with (Csub (Cadd (hinner h phi (H phi)) (Cmul (RtoC e) C1)) (RtoC e)) by ring. rewrite H3. apply C_eq; cbn; ring.
    - intros x Hx. apply PQ in Hx. assert (X := H4 x Hx). rewrite (KH (PW _ Hx)), (hl_inner_add L), (inner_rscale_r L) in X. cbn [Cadd Cmul RtoC fst snd] in X. lra.
  Qed.
  Lemma ritz_shift o psi0 E psi N : W psi0 -> ritz h K o psi0 E psi N -> ritz h H o psi0 (E - e)%R psi N.
  Proof.
    intros Hp R. assert (SP := fun v Hp => @powers_shift psi0 N v Hp). assert (KR := proj1 (SP psi Hp) (rz_krylov R)).
    assert (Wpsi := span_W Hp KR).
    assert (RES : hsub h (H psi) (rscale h (E - e) psi) = hsub h (K psi) (rscale h E psi)). { rewrite (KH Wpsi). apply (inner_ext L). intros y. rewrite !(inner_sub_r L), (hl_inner_add L), !(inner_rscale_r L). apply C_eq; cbn; ring. }
    constructor; rewrite ?RES.
    - apply (rz_N R).
    - apply (rz_unit R).
    - assert (X := rz_energy R). rewrite (KH Wpsi), (hl_inner_add L), (inner_rscale_r L), (rz_unit R) in X.
      replace (hinner h psi (H psi)) with (Csub (Cadd (hinner h psi (H psi)) (Cmul (RtoC e) C1)) (RtoC e)) by ring. rewrite X. apply C_eq; cbn; ring.
    - exact KR.
    - intros phi Hphi. try rewrite RES. apply (rz_galerkin R). now apply SP.
    - intros phi Hphi. assert (X := rz_minimal R (proj2 (SP phi Hp) Hphi)). rewrite (KH (span_W Hp Hphi)), (hl_inner_add L), (inner_rscale_r L) in X. cbn [Cadd Cmul RtoC fst snd] in X. lra.
    - intros HN. destruct (rz_stop R HN) as [Hs|[Hm [E1 [E' [L1 [L2 [L3 L4]]]]]]]; [now left|]. right. split; [exact Hm|]. exists (E1 - e)%R, (E' - e)%R. split; [|split; [|split]].
      + eapply lowest_shift; [| |exact L1]; cbv beta.
        * intros x. now rewrite SP.
        * intros x [Hx _]. apply SP in Hx; [|exact Hp]. now apply (span_W Hp Hx).
      + eapply lowest_shift; [| |exact L2]; cbv beta.
        * intros x. now apply powers_shift.
        * intros x Hx. apply powers_shift in Hx; [|exact Hp]. now apply (span_W Hp Hx).
      + cbv zeta in *. replace (E1 - e - (E - e))%R with (E1 - E)%R by ring. exact L3.
      + destruct (E_tol o); [lra|exact Logic.I].
  Qed.
End Shift.
