(** Results of the Lanczos runs. *)
From Coq Require Import Reals Lra List Arith Lia Bool Permutation.
From Verif Require Util.
From Verif Require Import Cplx Hilbert LinOpModel LinOpSpec LinOpProofs LinOpMat KrylovModel KrylovSpec KrylovProofs KrylovProofs2 KrylovProofs3.
Import ListNotations.
Set Implicit Arguments. Unset Strict Implicit.
Open Scope nat_scope.

Lemma Cabs_RtoC x : Cabs (RtoC x) = Rabs x.
Proof. unfold Cabs, Cnorm2, RtoC. cbn [fst snd]. rewrite <- (sqrt_Rsqr_abs x). f_equal. unfold Rsqr. ring. Qed.
Lemma nth_map_seq A (f : nat -> A) n i d : i < n -> nth i (map f (seq 0 n)) d = f i.
Proof. intros Hi. rewrite (nth_indep _ d (f 0)) by (rewrite map_length, seq_length; exact Hi). rewrite map_nth, seq_nth by exact Hi. reflexivity. Qed.

Section P.
  Variables (V : Type) (h : hspace V) (H : V -> V) (o : lopts).
  Hypothesis L : hlaws h.
  Hypothesis HH : hermitian h H.
  Hypothesis NC : 2 <= N_cache o.
  Hypothesis CP : (0 < cutoff o)%R.
  Hypothesis NM : N_max o <> 0.
  Notation z := (hzero h).

  Lemma norm_hscale a x : hnorm h (hscale h (RtoC a) x) = (Rabs a * hnorm h x)%R.
  Proof.
    unfold hnorm, hnorm2. rewrite (inner_scale_l L), (hl_inner_scale L), (inner_real L). cbn [Cmul Cconj RtoC fst snd].
    replace (a * (a * hnorm2 h x - 0 * 0) - - 0 * (a * 0 + 0 * hnorm2 h x))%R with (Rsqr a * hnorm2 h x)%R by (unfold Rsqr; ring).
    rewrite sqrt_mult_alt by apply Rle_0_sqr. rewrite sqrt_Rsqr_abs. reflexivity.
  Qed.

  (** the quadratic form in terms of the matrix *)
  Lemma energy_form N q w al be c : linv h H N q w al be -> N <> 0 -> length c = N ->
    hinner h (lincomb h c q) (H (lincomb h c q)) = sumn N (fun i => Cmul (Cconj (nth i c C0)) (sumn N (fun j => Cmul (RtoC (tridiag al be i j)) (nth j c C0)))).
  Proof.
    clear NC. intros I NZ Hc. rewrite (inner_H_lincomb L HH I _ NZ Hc). rewrite (w_perp L I Hc).
    replace (Cmul (nth (N - 1) c C0) C0) with C0 by ring.
    transitivity (sumn N (fun i => Cmul (sumn N (fun j => Cmul (RtoC (tridiag al be i j)) (nth j c C0))) (hinner h (lincomb h c q) (nth i q z)))); [ring|].
    apply sumn_ext. intros i Hi. rewrite (inner_lincomb_ln L _ Hc (li_len I)).
    rewrite (sumn_ext (f := fun k => Cmul (Cconj (nth k c C0)) (hinner h (nth k q z) (nth i q z))) (g := fun k => Cmul (if i =? k then C1 else C0) (Cconj (nth k c C0)))).
    2:{ intros k Hk. cbv beta. rewrite (orthonormal_nth L (li_on I)) by (rewrite (li_len I); lia). rewrite (Nat.eqb_sym k i). ring. }
    rewrite (sumn_delta (fun k => Cconj (nth k c C0)) Hi). ring.
  Qed.
  (** conclusions for a vector v with T v = E v, sum v^2 = 1 *)
  Lemma ritz_conclusion psi0 N q w al be (v : list C) (E : R) (vr : nat -> R) : (hnorm h psi0 <> 0)%R ->
    linv h H N q w al be -> N <> 0 -> (forall j, j + 1 < N -> nth j be 0%R <> 0%R) -> nth 0 q z = rscale h (/ hnorm h psi0) psi0 ->
    length v = N -> (forall i, i < N -> nth i v C0 = RtoC (vr i)) -> rsum N (fun i => vr i * vr i)%R = 1%R ->
    (forall i, i < N -> sumn N (fun j => Cmul (RtoC (tridiag al be i j)) (nth j v C0)) = Cmul (RtoC E) (nth i v C0)) ->
    let psi := lincomb h v q in
    hinner h psi psi = C1 /\ hinner h psi (H psi) = RtoC E /\ in_span h (powers H N psi0) psi /\
    (forall phi, in_span h (powers H N psi0) phi -> hinner h phi (hsub h (H psi) (rscale h E psi)) = C0) /\
    hnorm h (hsub h (H psi) (rscale h E psi)) = (Rabs (vr (N - 1)%nat) * hnorm h w)%R.
  Proof.
    intros N0 I NZ POS Q0 Hv Hvr Hn HT psi.
    assert (HK : forall x, in_span h (powers H N psi0) x <-> in_span h q x).
    { intros x. rewrite (krylov_space L HH I POS x NZ), Q0. symmetry. apply (span_powers_scale L HH). apply Rinv_neq_0_compat, N0. }
    assert (U : hinner h psi psi = C1).
    { unfold psi. rewrite (inner_lincombs L (li_on I) Hv Hv (li_len I)).
      rewrite (sumn_ext (g := fun i => RtoC (vr i * vr i))) by (intros i Hi; rewrite Hvr by exact Hi; rewrite RtoC_conj; symmetry; apply RtoC_mul). rewrite <- RtoC_rsum, Hn. reflexivity. }
    assert (RP := ritz_pair L HH I NZ Hv HT). fold psi in RP.
    assert (RS : hsub h (H psi) (rscale h E psi) = hscale h (nth (N - 1) v C0) w). { rewrite RP. hvec L. }
    assert (PW : forall x, in_span h q x -> hinner h x w = C0).
    { intros x [c [Hc Ec]]. subst x. apply (w_perp L I). rewrite Hc. apply (li_len I). }
    assert (SQ : in_span h q psi) by (exists v; split; [now rewrite Hv, (li_len I)|reflexivity]).
    split; [exact U|]. split; [|split; [|split]].
    - rewrite RP, (hl_inner_add L), (inner_rscale_r L), (hl_inner_scale L), U, (PW psi SQ). apply C_eq; cbn; ring.
    - apply HK, SQ.
    - intros phi Hp. rewrite RS, (hl_inner_scale L), PW by now apply HK. ring.
    - rewrite RS, Hvr by lia. apply norm_hscale.
  Qed.

  Lemma abs_le_1 N (vr : nat -> R) i : i < N -> rsum N (fun i => vr i * vr i)%R = 1%R -> (Rabs (vr i) <= 1)%R.
  Proof.
    intros Hi Hs. assert (G : forall l, In i l -> (vr i * vr i <= fold_right Rplus 0 (map (fun i => vr i * vr i) l))%R /\ (0 <= fold_right Rplus 0 (map (fun i => vr i * vr i) l))%R).
    { assert (Z : forall l, (0 <= fold_right Rplus 0 (map (fun i => vr i * vr i) l))%R). { induction l as [|k l IH]; cbn [map fold_right]; [lra|]. assert (X := Rle_0_sqr (vr k)). unfold Rsqr in X. lra. }
      induction l as [|k l IH]; [intros []|]. intros Hk. split; [|apply Z]. cbn [map fold_right]. assert (X := Rle_0_sqr (vr k)). unfold Rsqr in X. destruct Hk as [E|Hk]; [subst k; assert (Y := Z l); lra|]. destruct (IH Hk). lra. }
    assert (X := proj1 (G (seq 0 N) ltac:(apply in_seq; lia))). fold (rsum N (fun i => (vr i * vr i)%R)) in X. rewrite Hs in X.
    rewrite <- Rabs_R1. apply Rsqr_le_abs_0. unfold Rsqr. lra.
  Qed.

  Lemma nth_firstn0 A (d : A) (l : list A) n i : i < n -> nth i (firstn n l) d = nth i l d.
  Proof. revert n i. induction l as [|x l IH]; intros [|n] i Hi; try lia; [destruct i; reflexivity|]. destruct i as [|i]; [reflexivity|]. cbn [firstn nth]. apply IH. lia. Qed.

  Section Run.
    Variables (eigh : eigh_fun) (psi0 : V) (N : nat) (q : list V) (s : lstate V).
    Hypothesis SI : sinv h H o (gs_calc eigh) (rscale h (/ hnorm h psi0) psi0) N q s.
    Hypothesis N0 : hnorm h psi0 <> 0%R.
    Hypothesis OKR : forall m, 2 <= m <= N -> eigh_ok eigh (firstn m (alphas s)) (firstn (m - 1) (betas s)).
    (** the data of the m-th step: eigenvalues and eigenvectors of the leading m x m matrix *)
    Definition evm (m : nat) : list R := match m with 1 => [nth 0 (alphas s) 0%R] | _ => ev eigh (firstn m (alphas s)) (firstn (m - 1) (betas s)) end.
    Definition vm (m i j : nat) : R := match m with 1 => 1%R | _ => evec eigh (firstn m (alphas s)) (firstn (m - 1) (betas s)) i j end.
    Lemma len_al m : m <= N -> length (firstn m (alphas s)) = m. Proof. intros Hm. rewrite firstn_length, (li_al (si_l SI)). lia. Qed.
    Lemma gs_calc_m m : 0 < m <= N -> gs_calc eigh (firstn m (alphas s)) (firstn (m - 1) (betas s)) = (evm m, map (fun i => RtoC (vm m i 0)) (seq 0 m), 0%R).
    Proof.
      intros Hm. assert (Hl := len_al (m := m) ltac:(lia)). destruct m as [|[|m]]; [lia| |].
      - unfold evm, vm. destruct (alphas s) as [|a al]; [discriminate|]. reflexivity.
      - unfold evm, vm, ev, evec. destruct (firstn (S (S m)) (alphas s)) as [|a [|b al]]; try discriminate. unfold gs_calc. destruct (eigh _ _) as [e v]. cbn [fst snd]. rewrite Hl. reflexivity.
    Qed.
    Lemma tri_firstn m i j : m <= N -> i < m -> j < m -> tridiag (firstn m (alphas s)) (firstn (m - 1) (betas s)) i j = tridiag (firstn m (alphas s)) (firstn m (betas s)) i j.
    Proof.
      intros Hm Hi Hj. rewrite <- (tridiag_firstn (firstn m (betas s)) (len_al Hm) Hi Hj). rewrite firstn_firstn. now replace (Nat.min (m - 1) m) with (m - 1) by lia.
    Qed.
    Lemma vm_orth m i j : 0 < m <= N -> i < m -> j < m -> rsum m (fun k => vm m k i * vm m k j)%R = if i =? j then 1%R else 0%R.
    Proof.
      intros Hm Hi Hj. destruct (Nat.eq_dec m 1) as [E|NE]; [subst m; replace i with 0 by lia; replace j with 0 by lia; cbn; ring|].
      assert (X := eig_orth (OKR (m := m) ltac:(lia)) (i := i) (j := j)). rewrite len_al in X by lia. destruct m as [|[|m]]; try lia. exact (X Hi Hj).
    Qed.
    Lemma vm_eig m i j : 0 < m <= N -> i < m -> j < m ->
      sumn m (fun k => Cmul (RtoC (tridiag (firstn m (alphas s)) (firstn m (betas s)) i k)) (RtoC (vm m k j))) = Cmul (RtoC (nth j (evm m) 0%R)) (RtoC (vm m i j)).
    Proof.
      intros Hm Hi Hj. destruct (Nat.eq_dec m 1) as [E|NE].
      - subst m. replace i with 0 by lia. replace j with 0 by lia. assert (X := len_al (m := 1) ltac:(lia)). unfold evm, vm. destruct (alphas s) as [|a al]; [discriminate|]. apply C_eq; cbn; ring.
      - assert (X := eig_eqC (OKR (m := m) ltac:(lia)) (i := i) (j := j)). rewrite len_al in X by lia. specialize (X Hi Hj).
        rewrite (sumn_ext (g := fun k => Cmul (RtoC (tridiag (firstn m (alphas s)) (firstn (m - 1) (betas s)) i k)) (RtoC (vm m k j)))) by (intros k Hk; rewrite tri_firstn by lia; reflexivity).
        destruct m as [|[|m]]; try lia. exact X.
    Qed.
    Lemma vm_rayleigh m r (c : nat -> C) : 0 < m <= N -> (forall k, k < r -> sumn m (fun i => Cmul (RtoC (vm m i k)) (c i)) = C0) -> r < m ->
      (nth r (evm m) 0 * fst (sumn m (fun i => Cmul (Cconj (c i)) (c i))) <=
       fst (sumn m (fun i => Cmul (Cconj (c i)) (sumn m (fun j => Cmul (RtoC (tridiag (firstn m (alphas s)) (firstn m (betas s)) i j)) (c j))))))%R.
    Proof.
      intros Hm Hr Hrm. destruct (Nat.eq_dec m 1) as [E|NE].
      - subst m. replace r with 0 by lia. assert (X := len_al (m := 1) ltac:(lia)). unfold evm, vm. destruct (alphas s) as [|a al]; [discriminate|]. apply Req_le. destruct (c 0) as [x y] eqn:E0. unfold sumn. cbn [seq map csum fold_right]. rewrite E0. cbn. ring.
      - assert (X := rayleigh_gen (OKR (m := m) ltac:(lia)) (m := r) (c := c)). rewrite len_al in X by lia. destruct m as [|[|m]]; try lia. eapply Rle_trans; [exact (X Hr)|]. apply Req_le. f_equal. apply sumn_ext. intros i Hi. f_equal. apply sumn_ext. intros j Hj. rewrite tri_firstn by lia. reflexivity.
    Qed.
    Definition col (m j : nat) : list C := map (fun i => RtoC (vm m i j)) (seq 0 m).
    (** the j-th Ritz vector of the Krylov space of order m *)
    Definition rvec (m j : nat) : V := lincomb h (col m j) (firstn m q).
    Lemma q0 : N <> 0 -> nth 0 q z = rscale h (/ hnorm h psi0) psi0. Proof. apply (si_first SI). Qed.
    Lemma rvec_ritz m j w : 0 < m <= N -> j < m -> linv h H m (firstn m q) w (firstn m (alphas s)) (firstn m (betas s)) ->
      hinner h (rvec m j) (rvec m j) = C1 /\ hinner h (rvec m j) (H (rvec m j)) = RtoC (nth j (evm m) 0%R) /\ in_span h (powers H m psi0) (rvec m j) /\
      (forall phi, in_span h (powers H m psi0) phi -> hinner h phi (hsub h (H (rvec m j)) (rscale h (nth j (evm m) 0%R) (rvec m j))) = C0) /\
      hnorm h (hsub h (H (rvec m j)) (rscale h (nth j (evm m) 0%R) (rvec m j))) = (Rabs (vm m (m - 1)%nat j) * hnorm h w)%R.
    Proof.
      intros Hm Hj I. unfold rvec. apply (@ritz_conclusion psi0 m (firstn m q) w (firstn m (alphas s)) (firstn m (betas s)) (col m j) (nth j (evm m) 0%R) (fun i => vm m i j)); auto; try lia.
      - intros i Hi. rewrite nth_firstn0 by lia. apply (si_pos SI). lia.
      - rewrite nth_firstn0 by lia. apply q0. lia.
      - unfold col. now rewrite map_length, seq_length.
      - intros i Hi. unfold col. now rewrite nth_map_seq.
      - rewrite vm_orth by lia. now rewrite Nat.eqb_refl.
      - intros i Hi. unfold col. rewrite (sumn_ext (g := fun k => Cmul (RtoC (tridiag (firstn m (alphas s)) (firstn m (betas s)) i k)) (RtoC (vm m k j)))) by (intros k Hk; now rewrite nth_map_seq).
        rewrite vm_eig by lia. now rewrite nth_map_seq.
    Qed.
    Lemma span_q m x w : 0 < m <= N -> linv h H m (firstn m q) w (firstn m (alphas s)) (firstn m (betas s)) -> in_span h (powers H m psi0) x <-> in_span h (firstn m q) x.
    Proof.
      intros Hm I. assert (POS : forall j, j + 1 < m -> nth j (firstn m (betas s)) 0%R <> 0%R) by (intros i Hi; rewrite nth_firstn0 by lia; apply (si_pos SI); lia).
      rewrite (krylov_space L HH I POS x) by lia. rewrite nth_firstn0 by lia. rewrite q0 by lia. symmetry. apply (span_powers_scale L HH). apply Rinv_neq_0_compat, N0.
    Qed.
    Lemma rvec_minimal m r phi : 0 < m <= N -> r < m -> in_span h (powers H m psi0) phi -> (forall k, k < r -> hinner h (rvec m k) phi = C0) ->
      (nth r (evm m) 0 * fst (hinner h phi phi) <= fst (hinner h phi (H phi)))%R.
    Proof.
      intros Hm Hr Hp Ho. destruct (si_hist SI Hm) as [w I]. apply (span_q phi Hm I) in Hp. destruct Hp as [c [Hc E]]. subst phi. rewrite (li_len I) in Hc.
      rewrite (inner_lincombs L (li_on I) Hc Hc (li_len I)), (energy_form I) by first [exact Hc | clear - Hm; lia]. apply (vm_rayleigh (c := fun i => nth i c C0)); auto.
      intros k Hk. etransitivity; [|exact (Ho k Hk)]. unfold rvec. rewrite (inner_lincombs L (li_on I) (c := col m k) (n := m)) by first [exact Hc | apply (li_len I) | unfold col; now rewrite map_length, seq_length].
      apply sumn_ext. intros i Hi. unfold col. rewrite nth_map_seq by exact Hi. rewrite RtoC_conj. reflexivity.
    Qed.
    Lemma lowest_m m : 0 < m <= N -> lowest_energy h H (in_span h (powers H m psi0)) (nth 0 (evm m) 0%R).
    Proof.
      intros Hm. destruct (si_hist SI Hm) as [w I]. destruct (@rvec_ritz m 0 w Hm ltac:(lia) I) as [R1 [R2 [R3 _]]]. split; [exists (rvec m 0); auto|].
      intros phi Hp. apply rvec_minimal with (m := m); auto; lia.
    Qed.
    Lemma second_m m : 1 < m <= N -> lowest_energy h H (fun phi => in_span h (powers H m psi0) phi /\ hinner h (rvec m 0) phi = C0) (nth 1 (evm m) 0%R).
    Proof.
      intros Hm. assert (Hm' : 0 < m <= N) by lia. destruct (si_hist SI Hm') as [w I]. destruct (@rvec_ritz m 1 w Hm' ltac:(lia) I) as [R1 [R2 [R3 _]]]. split.
      - exists (rvec m 1). split; [split; [exact R3|]|auto]. unfold rvec. rewrite (inner_lincombs L (li_on I) (n := m)) by first [apply (li_len I) | unfold col; now rewrite map_length, seq_length].
        rewrite (sumn_ext (g := fun i => RtoC (vm m i 0 * vm m i 1))) by (intros i Hi; unfold col; rewrite !nth_map_seq by exact Hi; rewrite RtoC_conj; symmetry; apply RtoC_mul).
        rewrite <- RtoC_rsum, vm_orth by lia. reflexivity.
      - intros phi [Hp Ho]. apply rvec_minimal with (m := m); auto; try lia. intros k Hk. replace k with 0 by lia. exact Ho.
    Qed.
    Lemma es_m m : 0 < m <= N -> nth (m - 1) (es s) [] = evm m.
    Proof. intros Hm. rewrite (si_all SI) by lia. replace (m - 1 + 1) with m by lia. now rewrite gs_calc_m. Qed.
  End Run.

  Theorem ground_state_spec (eigh : eigh_fun) psi0 : 2 <= N_min o -> eigh_ok_run h H o (gs_calc eigh) (gs_conv o) eigh psi0 ->
    match ground_state_run h H o eigh None psi0 with
    | None => (hnorm h psi0 < cutoff o)%R
    | Some (E, psi, N) => (cutoff o <= hnorm h psi0)%R /\ ritz h H o psi0 E psi N
    end.
  Proof.
    intros NMIN OKR. unfold ground_state_run. assert (B := build_krylov_spec L HH NC CP (gs_calc eigh) (gs_conv o) psi0 NM). unfold eigh_ok_run in OKR.
    destruct (build_krylov h H o (gs_calc eigh) (gs_conv o) psi0) as [[[psi N] s]|]; [|exact B].
    destruct B as [HB [Epsi [HN [[q SI] Hstop]]]]. specialize (OKR psi N s eq_refl). subst psi. assert (NZ : 0 < N <= N) by lia. assert (N0 : hnorm h psi0 <> 0%R) by lra.
    assert (I := si_l SI). assert (I' : linv h H N (firstn N q) (wvec s) (firstn N (alphas s)) (firstn N (betas s))) by (rewrite !firstn_all2 by (rewrite ?(li_len I), ?(li_al I), ?(li_be I); lia); exact I).
    assert (Cc := si_calc SI ltac:(lia)). assert (Gm := gs_calc_m SI OKR NZ). rewrite (firstn_all2 (alphas s)) in Gm by (rewrite (li_al I); lia). rewrite Gm in Cc. injection Cc as C1' C2' C3'.
    rewrite C1'. destruct (rvec_ritz SI N0 OKR (j := 0) NZ ltac:(lia) I') as [R1 [R2 [R3 [R4 R5]]]].
    assert (Ep : rvec eigh q s N 0 = lincomb h (vf s) q) by (unfold rvec; rewrite firstn_all2 by (rewrite (li_len I); lia); now rewrite C2').
    assert (RZ : ritz h H o psi0 (nth 0 (evm eigh s N) 0%R) (rvec eigh q s N 0) N).
    { constructor; auto.
      - apply (lowest_m SI N0 OKR NZ).
      - intros Hlt. specialize (Hstop Hlt). unfold lanczos_stop in Hstop. apply orb_true_iff in Hstop. destruct Hstop as [Hs|Hs].
        + left. apply Rltb_true in Hs. rewrite (si_beta SI), Rabs_right in Hs by apply Rle_ge, norm_nonneg. rewrite R5.
          assert (A1 := abs_le_1 (N := N) (i := N - 1) (vr := fun i => vm eigh s N i 0) ltac:(lia) (vm_orth SI OKR (i := 0) (j := 0) NZ ltac:(lia) ltac:(lia))).
          eapply Rle_lt_trans; [|exact Hs]. rewrite <- (Rmult_1_l (hnorm h (wvec s))) at 2. apply Rmult_le_compat_r; [apply norm_nonneg|exact A1].
        + right. apply andb_true_iff in Hs. destruct Hs as [H1 H2]. apply Nat.leb_le in H1. split; [lia|]. assert (HN2 : 1 < N <= N) by lia. assert (HN1 : 0 < N - 1 <= N) by lia.
          exists (nth 1 (evm eigh s N) 0%R), (nth 0 (evm eigh s (N - 1)) 0%R). split; [apply (second_m SI N0 OKR HN2)|]. split; [apply (lowest_m SI N0 OKR HN1)|].
          unfold gs_conv in H2. apply andb_true_iff in H2. destruct H2 as [H2 H3]. apply Rltb_true in H2. rewrite (es_m SI OKR HN1), (es_m SI OKR NZ) in *.
          split.
          * cbv zeta. rewrite R5. rewrite (li_beta I) in H2 by lia. rewrite C2' in H2. rewrite (nth_map_seq (fun i => RtoC (vm eigh s N i 0))), Cabs_RtoC in H2 by lia.
            rewrite (Rabs_right (hnorm h (wvec s))) in H2 by apply Rle_ge, norm_nonneg. exact H2.
          * destruct (E_tol o); [now apply Rltb_true in H3|exact Logic.I]. }
    destruct (Nat.eqb_spec N 1) as [E1|NE1].
    - split; [exact HB|]. subst N. assert (Er : rvec eigh q s 1 0 = rscale h (/ hnorm h psi0) psi0).
      { rewrite Ep, C2'. cbn [seq map vm]. assert (X := q0 SI). destruct q as [|x [|y q']]; try (assert (Y := li_len I); discriminate). cbn [lincomb nth] in *. change (RtoC 1) with C1. rewrite (hl_one L), (add_0_r L). apply X. lia. }
      rewrite <- Er. exact RZ.
    - rewrite (calc_result_full_spec L NC SI); [|lia|rewrite C2', map_length, seq_length; reflexivity|rewrite <- Ep; unfold hnorm, hnorm2; rewrite R1; cbn; apply sqrt_1].
      split; [exact HB|]. rewrite <- Ep. exact RZ.
  Qed.
End P.
