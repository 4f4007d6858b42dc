(** LanczosEvolution. *)
From Coq Require Import Reals Lra List Arith Lia Bool.
From Verif Require Import Cplx Hilbert LinOpModel LinOpSpec LinOpProofs LinOpMat KrylovModel KrylovSpec KrylovProofs KrylovProofs2 KrylovProofs3 KrylovProofs4.
Import ListNotations.
Set Implicit Arguments. Unset Strict Implicit.
Open Scope nat_scope.

Lemma csumn_sumn n f : csumn n f = sumn n f. Proof. reflexivity. Qed.
Lemma Cnorm2_conj z : Cmul (Cconj z) z = RtoC (Cnorm2 z). Proof. destruct z as [a b]. apply C_eq; unfold Cnorm2; cbn; ring. Qed.
Lemma Cnorm2_nonneg z : (0 <= Cnorm2 z)%R. Proof. destruct z as [a b]. unfold Cnorm2. cbn [fst snd]. assert (X := Rle_0_sqr a). assert (Y := Rle_0_sqr b). unfold Rsqr in *. lra. Qed.
Lemma Cnorm2_0 z : Cnorm2 z = 0%R -> z = C0.
Proof. destruct z as [a b]. unfold Cnorm2. cbn [fst snd]. intros E. assert (X := Rle_0_sqr a). assert (Y := Rle_0_sqr b). unfold Rsqr in *. apply C_eq; cbn [fst snd C0]; nra. Qed.
Lemma Cnorm2_mul x y : Cnorm2 (Cmul x y) = (Cnorm2 x * Cnorm2 y)%R. Proof. destruct x, y. unfold Cnorm2. cbn. ring. Qed.
Lemma Cnorm2_exp z : Cnorm2 (Cexp z) = (exp (fst z) * exp (fst z))%R.
Proof. unfold Cexp, Cnorm2, cis. cbn. assert (X := sin2_cos2 (snd z)). unfold Rsqr in X. nra. Qed.
Lemma Cexp_neq0 z : Cexp z <> C0.
Proof. intros E. assert (X := Cnorm2_exp z). rewrite E in X. cbn in X. unfold Cnorm2 in X. cbn in X. assert (Y := exp_pos (fst z)). nra. Qed.
Lemma Cmul_0 x y : Cmul x y = C0 -> x <> C0 -> y = C0.
Proof. intros E Nx. apply Cnorm2_0. assert (X := Cnorm2_mul x y). rewrite E in X. assert (Nn : Cnorm2 x <> 0%R) by (intros Z; apply Nx, Cnorm2_0, Z). unfold Cnorm2 at 1 in X. cbn [C0 fst snd] in X. nra. Qed.
Lemma sum_norm2 n (x : nat -> C) : sumn n (fun i => Cmul (Cconj (x i)) (x i)) = RtoC (fold_right Rplus 0%R (map (fun i => Cnorm2 (x i)) (seq 0 n))).
Proof. unfold sumn. induction (seq 0 n) as [|i l IH]; [reflexivity|]. cbn [map fold_right csum]. change (csum (map (fun i0 => Cmul (Cconj (x i0)) (x i0)) l)) with (csum (map (fun i0 => Cmul (Cconj (x i0)) (x i0)) l)).
  unfold csum in *. cbn [fold_right]. rewrite IH, Cnorm2_conj. symmetry. apply RtoC_add. Qed.
Lemma sum_norm2_0 n (x : nat -> C) : fold_right Rplus 0%R (map (fun i => Cnorm2 (x i)) (seq 0 n)) = 0%R -> forall i, i < n -> x i = C0.
Proof.
  intros E i Hi. assert (A : forall l, (0 <= fold_right Rplus 0 (map (fun i => Cnorm2 (x i)) l))%R) by (induction l; cbn [map fold_right]; [lra|assert (Y := Cnorm2_nonneg (x a)); lra]).
  assert (B : forall l, fold_right Rplus 0%R (map (fun i => Cnorm2 (x i)) l) = 0%R -> In i l -> Cnorm2 (x i) = 0%R).
  { induction l as [|a l IH]; intros El Hin; [destruct Hin|]. cbn [map fold_right] in El. assert (Y := Cnorm2_nonneg (x a)). assert (Z := A l). destruct Hin as [E'|Hin]; [subst a; lra|apply IH; [lra|exact Hin]]. }
  apply Cnorm2_0, (B (seq 0 n) E). apply in_seq. lia.
Qed.
Lemma sum_norm2_pos n (x : nat -> C) : (0 <= fold_right Rplus 0 (map (fun i => Cnorm2 (x i)) (seq 0 n)))%R.
Proof. induction (seq 0 n); cbn [map fold_right]; [lra|assert (Y := Cnorm2_nonneg (x a)); lra]. Qed.

Section P.
  Variables (V : Type) (h : hspace V) (H : V -> V) (o : lopts).
  Hypothesis L : hlaws h.
  Hypothesis HH : hermitian h H.
  Hypothesis NC : 2 <= N_cache o.
  Hypothesis CP : (0 < cutoff o)%R.
  Hypothesis NM : N_max o <> 0.
  Notation z := (hzero h).
  Lemma inner_vsum y n f : hinner h y (vsum h n f) = sumn n (fun i => hinner h y (f i)).
  Proof.
    unfold vsum, sumn. induction (seq 0 n) as [|i l IH]; cbn [map fold_right]; [apply (inner_0_r L)|]. rewrite (hl_inner_add L), IH. reflexivity.
  Qed.

  (** the coefficients of exp(delta T) e_0 *)
  Section Coef.
    Variables (N : nat) (q : list V) (w : V) (al be : list R) (eigh : eigh_fun) (psi : V) (pn : R).
    Hypothesis I : linv h H N q w al be.
    Hypothesis N1 : 1 < N.
    Hypothesis OK : eigh_ok eigh al (firstn (N - 1) be).
    Hypothesis Q0 : nth 0 q z = psi.
    Hypothesis POS : forall j, j + 1 < N -> nth j be 0%R <> 0%R.
    Hypothesis PN : pn <> 0%R.
    Let e := ev eigh al (firstn (N - 1) be).
    Let v := evec eigh al (firstn (N - 1) be).
    Let Hla : length al = N := li_al I.
    Definition ecoef (f : R -> C) (i : nat) : C := sumn N (fun j => Cmul (RtoC (v i j)) (Cmul (f (nth j e 0%R)) (RtoC (v 0 j)))).
    Definition comp (j : nat) : V := rscale h pn (lincomb h (map (fun i => RtoC (v i j * v 0 j)) (seq 0 N)) q).
    Definition fq (f : R -> C) : V := lincomb h (map (ecoef f) (seq 0 N)) q.
    Lemma lc_map (x : nat -> C) y : hinner h y (lincomb h (map x (seq 0 N)) q) = sumn N (fun i => Cmul (x i) (hinner h y (nth i q z))).
    Proof.
      rewrite (inner_lincomb_n L y (n := N)) by (rewrite ?map_length, ?seq_length; auto; apply (li_len I)). apply sumn_ext. intros i Hi. now rewrite nth_map_seq.
    Qed.
    Lemma fq_comps f : vsum h N (fun j => hscale h (f (nth j e 0%R)) (comp j)) = rscale h pn (fq f).
    Proof.
      apply (inner_ext L). intros y. rewrite inner_vsum, (inner_rscale_r L). unfold fq. rewrite lc_map. rewrite <- sumn_scale.
      rewrite (sumn_ext (g := fun j => sumn N (fun i => Cmul (RtoC pn) (Cmul (Cmul (RtoC (v i j)) (Cmul (f (nth j e 0%R)) (RtoC (v 0 j)))) (hinner h y (nth i q z)))))).
      2:{ intros j Hj. rewrite (hl_inner_scale L). unfold comp. rewrite (inner_rscale_r L), lc_map, <- !sumn_scale. apply sumn_ext. intros i Hi. rewrite RtoC_mul. ring. }
      rewrite sumn_swap. apply sumn_ext. intros i Hi. unfold ecoef. rewrite sumn_scale, sumn_scale_r. reflexivity.
    Qed.
    Lemma ecoef_one i : i < N -> ecoef (fun _ => C1) i = if 0 =? i then C1 else C0.
    Proof.
      intros Hi. unfold ecoef. assert (X := eig_complC OK (i := i) (j := 0)). rewrite Hla in X. specialize (X Hi ltac:(lia)). unfold dlt in X. rewrite (Nat.eqb_sym 0 i). rewrite <- X.
      apply sumn_ext. intros j Hj. unfold v. ring.
    Qed.
    Lemma fq_one : fq (fun _ => C1) = psi.
    Proof.
      apply (inner_ext L). intros y. unfold fq. rewrite lc_map, <- Q0.
      rewrite (sumn_ext (g := fun i => Cmul (if 0 =? i then C1 else C0) (hinner h y (nth i q z)))) by (intros i Hi; now rewrite ecoef_one).
      apply (sumn_delta (fun i => hinner h y (nth i q z))). lia.
    Qed.
    Lemma comp_eig j : j < N -> H (comp j) = hadd h (rscale h (nth j e 0%R) (comp j)) (hscale h (RtoC (pn * (v (N - 1)%nat j * v 0%nat j))) w).
    Proof.
      intros Hj. unfold comp. unfold rscale at 1. rewrite (proj2 (proj1 HH)). rewrite (ritz_pair L HH I (e := nth j e 0%R)).
      - rewrite (nth_map_seq (fun i => RtoC (v i j * v 0 j))) by lia. rewrite !RtoC_mul. hvec L.
      - lia.
      - now rewrite map_length, seq_length.
      - intros i Hi. rewrite (nth_map_seq (fun i => RtoC (v i j * v 0 j))) by exact Hi. assert (X := eig_eqC OK (i := i) (j := j)). rewrite Hla in X. specialize (X Hi Hj).
        rewrite (sumn_ext (g := fun k => Cmul (Cmul (RtoC (tridiag al (firstn (N - 1) be) i k)) (RtoC (v k j))) (RtoC (v 0 j)))).
        2:{ intros k Hk. rewrite (nth_map_seq (fun i => RtoC (v i j * v 0 j))) by exact Hk. rewrite (tridiag_firstn be Hla Hi Hk), RtoC_mul. ring. }
        rewrite sumn_scale_r. unfold v at 1. rewrite X, RtoC_mul. unfold v, e. ring.
    Qed.
    Lemma HKs x : in_span h (powers H N psi) x <-> in_span h q x.
    Proof. rewrite (krylov_space L HH I POS x) by lia. now rewrite Q0. Qed.
    Lemma fq_span f : in_span h q (fq f). Proof. exists (map (ecoef f) (seq 0 N)). split; [rewrite map_length, seq_length; symmetry; apply (li_len I)|reflexivity]. Qed.
    Lemma kdecomp : krylov_decomposition h H N (rscale h pn psi) (fun j => nth j e 0%R) comp.
    Proof.
      assert (SP : forall x, in_span h (powers H N (rscale h pn psi)) x <-> in_span h q x) by (intros x; rewrite (span_powers_scale L HH); [apply HKs|exact PN]).
      assert (CI : forall j, in_span h q (comp j)).
      { intros j. unfold comp, rscale. apply (span_scale L). eexists. split; [|reflexivity]. rewrite map_length, seq_length. symmetry. apply (li_len I). }
      constructor.
      - rewrite <- fq_one. rewrite <- fq_comps. unfold vsum. f_equal. apply map_ext. intros j. apply (hl_one L).
      - intros j Hj. apply SP, CI.
      - intros i j Hi Hj Hij. unfold comp. rewrite (inner_rscale_l L), (inner_rscale_r L).
        rewrite (inner_lincombs L (li_on I) (n := N)) by (rewrite ?map_length, ?seq_length; auto; apply (li_len I)).
        rewrite (sumn_ext (g := fun k => Cmul (Cmul (RtoC (v k i)) (RtoC (v k j))) (RtoC (v 0 i * v 0 j)))).
        2:{ intros k Hk. rewrite !(nth_map_seq _ C0 Hk), RtoC_conj, !RtoC_mul. ring. }
        rewrite sumn_scale_r. assert (X := eig_orthC OK (i := i) (j := j)). rewrite Hla in X. specialize (X Hi Hj). fold v in X. rewrite X. unfold dlt. rewrite (proj2 (Nat.eqb_neq i j) Hij). ring.
      - intros j y Hj Hy. apply SP in Hy. rewrite comp_eig by exact Hj.
        replace (hsub h (hadd h (rscale h (nth j e 0%R) (comp j)) (hscale h (RtoC (pn * (v (N - 1)%nat j * v 0%nat j))) w)) (rscale h (nth j e 0%R) (comp j))) with (hscale h (RtoC (pn * (v (N - 1)%nat j * v 0%nat j))) w) by hvec L.
        destruct Hy as [c [Hc Ec]]. subst y. rewrite (hl_inner_scale L), (w_perp L I) by (rewrite Hc; apply (li_len I)). ring.
    Qed.
    Lemma fq_norm f : hinner h (fq f) (fq f) = RtoC (fold_right Rplus 0%R (map (fun i => Cnorm2 (ecoef f i)) (seq 0 N))).
    Proof.
      unfold fq. rewrite (inner_lincombs L (li_on I) (n := N)) by (rewrite ?map_length, ?seq_length; auto; apply (li_len I)). rewrite <- sum_norm2. apply sumn_ext. intros i Hi. now rewrite !nth_map_seq.
    Qed.
    Lemma coef_nonzero f : (forall x, f x <> C0) -> fold_right Rplus 0%R (map (fun i => Cnorm2 (ecoef f i)) (seq 0 N)) <> 0%R.
    Proof.
      intros Nf E. assert (Z := sum_norm2_0 E).
      assert (V0 : forall j, j < N -> RtoC (v 0 j) = C0).
      { intros j Hj. apply (Cmul_0 (x := f (nth j e 0%R))); [|apply Nf].
        transitivity (sumn N (fun i => Cmul (RtoC (v i j)) (ecoef f i))).
        - unfold ecoef. rewrite (sumn_ext (g := fun i => sumn N (fun k => Cmul (Cmul (RtoC (v i j)) (RtoC (v i k))) (Cmul (f (nth k e 0%R)) (RtoC (v 0 k)))))).
          2:{ intros i Hi. rewrite <- sumn_scale. apply sumn_ext. intros k Hk. ring. }
          rewrite sumn_swap. rewrite (sumn_ext (g := fun k => Cmul (if j =? k then C1 else C0) (Cmul (f (nth k e 0%R)) (RtoC (v 0 k))))).
          + symmetry. apply (sumn_delta (fun k => Cmul (f (nth k e 0%R)) (RtoC (v 0 k)))). exact Hj.
          + intros k Hk. rewrite sumn_scale_r. assert (X := eig_orthC OK (i := j) (j := k)). rewrite Hla in X. specialize (X Hj Hk). fold v in X. rewrite X. reflexivity.
        - rewrite (sumn_ext (g := fun _ => C0)) by (intros i Hi; rewrite Z by exact Hi; ring). apply sumn_zero. }
      assert (X := eig_complC OK (i := 0) (j := 0)). rewrite Hla in X. specialize (X ltac:(lia) ltac:(lia)). fold v in X.
      rewrite (sumn_ext (g := fun _ => C0)) in X by (intros k Hk; rewrite V0 by exact Hk; ring). rewrite sumn_zero in X. apply (f_equal fst) in X. cbn in X. lra.
    Qed.
  End Coef.


  Lemma norm_hscaleC a x : hnorm h (hscale h a x) = (Cabs a * hnorm h x)%R.
  Proof.
    unfold hnorm, hnorm2, Cabs. rewrite (inner_scale_l L), (hl_inner_scale L), (inner_real L).
    replace (Cmul (Cconj a) (Cmul a (RtoC (hnorm2 h x)))) with (Cmul (Cmul (Cconj a) a) (RtoC (hnorm2 h x))) by ring. rewrite Cnorm2_conj, <- RtoC_mul. cbn [RtoC fst].
    rewrite sqrt_mult_alt by apply Cnorm2_nonneg. reflexivity.
  Qed.
  Lemma lincomb_snoc : forall c q a x, length c = length q -> lincomb h (c ++ [a]) (q ++ [x]) = hadd h (lincomb h c q) (hscale h a x).
  Proof. induction c as [|b c IH]; intros [|y q] a x Hl; cbn [length] in Hl; try discriminate; cbn [app lincomb]; [now rewrite (hl_zero L), (add_0_r L)|]. rewrite IH by lia. apply (hl_assoc L). Qed.
  Lemma firstn_snoc A (l : list A) d n : length l = S n -> l = firstn n l ++ [nth n l d].
  Proof.
    revert n. induction l as [|x l IH]; intros n Hn; cbn [length] in Hn; [discriminate|]. destruct n as [|n].
    - destruct l; [reflexivity|discriminate].
    - cbn [firstn nth app]. f_equal. apply IH. lia.
  Qed.
  Lemma Cabs_nonneg a : (0 <= Cabs a)%R. Proof. apply sqrt_pos. Qed.
  Lemma coef_le c q n i : orthonormal h q -> length c = n -> length q = n -> i < n -> (Cabs (nth i c C0) <= hnorm h (lincomb h c q))%R.
  Proof.
    intros HO Hc Hq Hi. unfold Cabs, hnorm, hnorm2. apply sqrt_le_1_alt. rewrite (inner_lincombs L HO Hc Hc Hq), (sum_norm2 n (fun i => nth i c C0)). cbn [RtoC fst].
    assert (G : forall l, In i l -> (Cnorm2 (nth i c C0) <= fold_right Rplus 0 (map (fun i => Cnorm2 (nth i c C0)) l))%R).
    { assert (A : forall l, (0 <= fold_right Rplus 0 (map (fun i => Cnorm2 (nth i c C0)) l))%R) by (induction l; cbn [map fold_right]; [lra|assert (Y := Cnorm2_nonneg (nth a c C0)); lra]).
      induction l as [|k l IH]; intros Hk; [destruct Hk|]. cbn [map fold_right]. assert (Y := Cnorm2_nonneg (nth k c C0)). assert (Z := A l). destruct Hk as [E|Hk]; [subst k; lra|]. specialize (IH Hk). lra. }
    apply G. apply in_seq. lia.
  Qed.
  (** the stopping rule *)
  Lemma evo_stop_intro eigh delta psi0 psi N q s : sinv h H o (evo_calc eigh delta) psi N q s -> 1 <= N -> length (vf s) = N -> (hnorm h psi0 <> 0)%R -> psi = rscale h (/ hnorm h psi0) psi0 ->
    lanczos_stop o (evo_conv o) (N - 1) s = true -> evo_stop h H o psi0 N (lincomb h (vf s) q).
  Proof.
    intros SI HN Hv N0 Ep Hs. assert (I := si_l SI). assert (NZ : N <> 0) by lia. assert (Q0 := si_first SI NZ).
    assert (HK : forall x, in_span h (powers H N psi0) x <-> in_span h q x).
    { intros x. rewrite (krylov_space L HH I (si_pos SI) x NZ), Q0, Ep. symmetry. apply (span_powers_scale L HH). apply Rinv_neq_0_compat, N0. }
    unfold lanczos_stop in Hs. apply orb_true_iff in Hs. destruct Hs as [Hs|Hs].
    - left. apply Rltb_true in Hs. rewrite (si_beta SI), Rabs_right in Hs by apply Rle_ge, norm_nonneg. intros x Hx. apply HK in Hx. destruct Hx as [c [Hc Ex]]. subst x. rewrite (li_len I) in Hc.
      exists (lincomb h (map (fun i => sumn N (fun j => Cmul (RtoC (tridiag (alphas s) (betas s) i j)) (nth j c C0))) (seq 0 N)) q). split.
      + apply HK. eexists. split; [|reflexivity]. rewrite map_length, seq_length. symmetry. apply (li_len I).
      + assert (E : hsub h (H (lincomb h c q)) (lincomb h (map (fun i => sumn N (fun j => Cmul (RtoC (tridiag (alphas s) (betas s) i j)) (nth j c C0))) (seq 0 N)) q) = hscale h (nth (N - 1) c C0) (wvec s)).
        { apply (inner_ext L). intros y. rewrite (inner_sub_r L), (hl_inner_scale L), (inner_H_lincomb L HH I y NZ Hc), (lc_map I). ring. }
        rewrite E, norm_hscaleC. rewrite Rmult_comm. apply Rmult_le_compat; [apply norm_nonneg|apply Cabs_nonneg|lra|]. apply (coef_le (n := N)); try apply I; auto. lia.
    - right. apply andb_true_iff in Hs. destruct Hs as [H1 H2]. apply Nat.leb_le in H1. split; [lia|]. unfold evo_conv in H2. apply Rltb_true in H2.
      exists (lincomb h (firstn (N - 1) (vf s)) (firstn (N - 1) q)). split.
      + assert (G : forall x, In x (firstn (N - 1) q) -> in_span h (powers H (N - 1) psi0) x).
        { intros x Hx. destruct (In_nth _ _ z Hx) as (j & Hj & Ej). rewrite firstn_length, (li_len I) in Hj. rewrite Util.nth_firstn_lt in Ej by lia. subst x.
          assert (X := q_in_powers L HH I (si_pos SI) (le_n j) ltac:(lia)). rewrite Q0, Ep in X. apply (span_powers_scale L HH) in X; [|apply Rinv_neq_0_compat, N0].
          eapply (span_trans L); [|exact X]. intros y Hy. apply (span_In L), (powers_In (n := S j)); [lia|exact Hy]. }
        apply (span_trans L G). eexists. split; [|reflexivity]. rewrite !firstn_length, Hv, (li_len I). reflexivity.
      + assert (E : hsub h (lincomb h (vf s) q) (lincomb h (firstn (N - 1) (vf s)) (firstn (N - 1) q)) = hscale h (nth (N - 1) (vf s) C0) (nth (N - 1) q z)).
        { rewrite (firstn_snoc (l := vf s) C0 (n := N - 1)) at 1 by lia. rewrite (firstn_snoc (l := q) z (n := N - 1)) at 1 by (rewrite (li_len I); lia).
          rewrite lincomb_snoc by (rewrite !firstn_length, Hv, (li_len I); reflexivity). hvec L. }
        rewrite E, norm_hscaleC. replace (hnorm h (nth (N - 1) q z)) with 1%R; [lra|]. unfold hnorm, hnorm2. rewrite (proj2 (li_on I)) by (apply nth_In; rewrite (li_len I); lia). cbn. symmetry. apply sqrt_1.
  Qed.

  Lemma unit_of r x : (0 < r)%R -> hinner h x x = C1 -> hnorm h (rscale h r x) = r /\ unit_result h (rscale h r x) = x.
  Proof.
    intros Hr Hx. assert (E : hnorm h (rscale h r x) = r). { unfold rscale. rewrite (norm_hscale L). unfold hnorm, hnorm2. rewrite Hx. cbn. rewrite sqrt_1, Rabs_right by lra. ring. }
    split; [exact E|]. unfold unit_result. rewrite E. unfold rscale. rewrite (hl_mul L), <- RtoC_mul, Rinv_l by lra. apply (hl_one L).
  Qed.

  Theorem evolution_spec (eigh : eigh_fun) psi0 pn delta normalize : eigh_ok_run h H o (evo_calc eigh delta) (evo_conv o) eigh psi0 ->
    match pn with Some n => (0 < n)%R | None => True end ->
    match evolution_run h H o eigh psi0 pn delta normalize with
    | None => (hnorm h psi0 < cutoff o)%R
    | Some (res, N, psi0', pn') =>
        let n := match pn with Some n => n | None => hnorm h psi0 end in
        (cutoff o <= hnorm h psi0)%R /\ 1 <= N <= N_max o /\ psi0' = rscale h (/ hnorm h psi0) psi0 /\ pn' = Some n /\
        exists e phi, krylov_decomposition h H N (rscale h n psi0') e phi /\
          let U := vsum h N (fun j => hscale h (Cexp (Cmul delta (RtoC (e j)))) (phi j)) in
          hnorm h U <> 0%R /\
          res = (if (match normalize with Some b => b | None => if Req_EM_T (fst delta) 0 then true else false end) then unit_result h U else U) /\
          (N < N_max o -> evo_stop h H o psi0 N (unit_result h U))
    end.
  Proof.
    intros OKR PN. unfold evolution_run. assert (B := build_krylov_spec L HH NC CP (evo_calc eigh delta) (evo_conv o) psi0 NM). unfold eigh_ok_run in OKR.
    destruct (build_krylov h H o (evo_calc eigh delta) (evo_conv o) psi0) as [[[psi N] s]|]; [|exact B].
    destruct B as [HB [Epsi [HN [[q SI] Hstop]]]]. specialize (OKR psi N s eq_refl). assert (I := si_l SI). assert (NZ : N <> 0) by lia.
    assert (N0 : hnorm h psi0 <> 0%R) by lra. assert (Q0 := si_first SI NZ). assert (Cc := si_calc SI NZ).
    set (n := match pn with Some n => n | None => hnorm h psi0 end). assert (Hn : (0 < n)%R) by (unfold n; destruct pn; lra). clearbody n.
    (* it is enough to give the unit vector, its coefficients and the decomposition *)
    assert (KEY : forall r0, length (vf s) = N -> r0 = lincomb h (vf s) q -> hinner h r0 r0 = C1 -> (0 < rnorm s)%R ->
      forall e phi, krylov_decomposition h H N (rscale h n psi) e phi -> vsum h N (fun j => hscale h (Cexp (Cmul delta (RtoC (e j)))) (phi j)) = rscale h (n * rnorm s) r0 ->
      exists e phi, krylov_decomposition h H N (rscale h n psi) e phi /\
          let U := vsum h N (fun j => hscale h (Cexp (Cmul delta (RtoC (e j)))) (phi j)) in
          hnorm h U <> 0%R /\
          (if (match normalize with Some b => b | None => if Req_EM_T (fst delta) 0 then true else false end) then r0 else rscale h (n * rnorm s) r0) =
          (if (match normalize with Some b => b | None => if Req_EM_T (fst delta) 0 then true else false end) then unit_result h U else U) /\
          (N < N_max o -> evo_stop h H o psi0 N (unit_result h U))).
    { intros r0 Hv Er Hu Hr e phi KD EU. exists e, phi. split; [exact KD|]. cbv zeta. rewrite EU. destruct (@unit_of (n * rnorm s) r0) as [U1 U2]; [now apply Rmult_lt_0_compat|exact Hu|].
      rewrite U2, U1. split; [apply Rgt_not_eq, Rmult_lt_0_compat; assumption|]. split; [reflexivity|]. intros Hlt. rewrite Er. apply (evo_stop_intro SI); auto; lia. }
    destruct (Nat.eqb_spec N 1) as [E1|NE1].
    - subst N. split; [exact HB|]. split; [lia|]. split; [exact Epsi|]. split; [reflexivity|].
      assert (EX : exists a, alphas s = [a]). { assert (X := li_al I). destruct (alphas s) as [|a [|b al]]; try discriminate. now exists a. } destruct EX as [a Ea].
      rewrite Ea in Cc. cbn [evo_calc] in Cc. injection Cc as C1' C2' C3'.
      assert (EQ : q = [psi]). { destruct q as [|x [|y q]]; try (assert (X := li_len I); discriminate). cbn [nth] in Q0. now subst x. }
      assert (Ab : (0 < Cabs (Cexp (Cmul delta (RtoC a))))%R). { unfold Cabs. rewrite Cnorm2_exp. apply sqrt_lt_R0. assert (X := exp_pos (fst (Cmul delta (RtoC a)))). apply Rmult_lt_0_compat; exact X. }
      assert (U1 : hinner h psi psi = C1) by (rewrite Epsi; apply (normalized L N0)).
      assert (R0 : hscale h (nth 0 (vf s) C0) psi = lincomb h (vf s) q). { rewrite C2', EQ. cbn [lincomb nth]. now rewrite (add_0_r L). }
      apply (KEY (hscale h (nth 0 (vf s) C0) psi)) with (e := fun _ => a) (phi := fun _ => rscale h n psi).
      + now rewrite C2'.
      + exact R0.
      + rewrite C2'. cbn [nth]. rewrite (inner_scale_l L), (hl_inner_scale L), U1.
        replace (Cmul (Cconj (Cmul (RtoC (/ Cabs (Cexp (Cmul delta (RtoC a))))) (Cexp (Cmul delta (RtoC a))))) (Cmul (Cmul (RtoC (/ Cabs (Cexp (Cmul delta (RtoC a))))) (Cexp (Cmul delta (RtoC a)))) C1))
          with (Cmul (Cmul (RtoC (/ Cabs (Cexp (Cmul delta (RtoC a))))) (RtoC (/ Cabs (Cexp (Cmul delta (RtoC a)))))) (Cmul (Cconj (Cexp (Cmul delta (RtoC a)))) (Cexp (Cmul delta (RtoC a))))) by (rewrite Cconj_mul, RtoC_conj; ring).
        rewrite Cnorm2_conj. assert (SQ : Cnorm2 (Cexp (Cmul delta (RtoC a))) = (Cabs (Cexp (Cmul delta (RtoC a))) * Cabs (Cexp (Cmul delta (RtoC a))))%R) by (unfold Cabs; rewrite sqrt_sqrt; [reflexivity|apply Cnorm2_nonneg]).
        rewrite SQ, <- !RtoC_mul. change C1 with (RtoC 1). apply (f_equal RtoC). field. lra.
      + rewrite C3'. exact Ab.
      + constructor.
        * unfold vsum. cbn. now rewrite (add_0_r L).
        * intros j Hj. apply (span_In L). now left.
        * intros i j Hi Hj Hij. lia.
        * intros j y Hj [c [Hc Ey]]. subst y. destruct c as [|c0 [|c1 c]]; cbn [powers length] in Hc; try discriminate. cbn [powers lincomb]. rewrite (add_0_r L).
          assert (RP := ritz_pair L HH I (c := [C1]) (e := a)). rewrite EQ in RP. cbn [lincomb] in RP. rewrite (hl_one L), (add_0_r L) in RP. replace (1 - 1) with 0 in RP by lia. cbn [nth] in RP. rewrite (hl_one L) in RP.
          unfold rscale at 2. rewrite (proj2 (proj1 HH)). rewrite RP; [|lia|reflexivity|intros i Hi; replace i with 0 by lia; rewrite Ea; apply C_eq; cbn; ring].
          assert (PW := li_perp I (x := psi)). rewrite EQ in PW. specialize (PW (or_introl eq_refl)).
          unfold rscale. rewrite (inner_scale_l L), (inner_scale_l L), (inner_sub_r L), !(hl_inner_scale L), (hl_inner_add L), !(hl_inner_scale L), PW. ring.
      + unfold vsum. cbn [seq map fold_right]. rewrite (add_0_r L), C2', C3'. cbn [nth]. set (x := Cexp (Cmul delta (RtoC a))) in *. unfold rscale. rewrite !(hl_mul L). f_equal.
        rewrite RtoC_mul. replace (Cmul (Cmul (RtoC n) (RtoC (Cabs x))) (Cmul (RtoC (/ Cabs x)) x)) with (Cmul (Cmul (RtoC (Cabs x)) (RtoC (/ Cabs x))) (Cmul (RtoC n) x)) by ring.
        rewrite <- (RtoC_mul (Cabs x)), Rinv_r by lra. change (RtoC 1) with C1. ring.
    - specialize (OKR N ltac:(lia)). rewrite (firstn_all2 (alphas s)) in OKR by (rewrite (li_al I); lia). assert (HN1 : 1 < N) by lia.
      assert (EX : exists a b al, alphas s = a :: b :: al). { assert (X := li_al I). destruct (alphas s) as [|a [|b al]]; cbn in X; try lia. now exists a, b, al. }
      destruct EX as [a [b [al Ea]]]. assert (Hla : length (alphas s) = N) by apply (li_al I).
      set (f := fun x => Cexp (Cmul delta (RtoC x))).
      assert (Ec : evo_calc eigh delta (alphas s) (firstn (N - 1) (betas s)) = 
         ([], map (Cmul (RtoC (/ sqrt (fold_right Rplus 0%R (map (fun i => Cnorm2 (ecoef N (alphas s) (betas s) eigh f i)) (seq 0 N)))))) (map (ecoef N (alphas s) (betas s) eigh f) (seq 0 N)), sqrt (fold_right Rplus 0%R (map (fun i => Cnorm2 (ecoef N (alphas s) (betas s) eigh f i)) (seq 0 N))))).
      { unfold evo_calc. rewrite Ea at 1. unfold ecoef, ev, evec. destruct (eigh (alphas s) (firstn (N - 1) (betas s))) as [ee vv]. rewrite Hla. cbn [fst snd].
        assert (E : map (fun i => csumn N (fun j => Cmul (RtoC (vv i j)) (Cmul (Cexp (Cmul (RtoC (nth j ee 0%R)) delta)) (RtoC (vv 0 j))))) (seq 0 N) = map (fun i => sumn N (fun j => Cmul (RtoC (vv i j)) (Cmul (f (nth j ee 0%R)) (RtoC (vv 0 j))))) (seq 0 N)).
        { apply map_ext. intros i. unfold f. rewrite csumn_sumn. apply sumn_ext. intros j Hj. replace (Cmul (RtoC (nth j ee 0%R)) delta) with (Cmul delta (RtoC (nth j ee 0%R))) by ring. reflexivity. }
        rewrite E. rewrite (map_map (fun i => sumn N (fun j => Cmul (RtoC (vv i j)) (Cmul (f (nth j ee 0%R)) (RtoC (vv 0 j))))) Cnorm2). reflexivity. }
      rewrite Ec in Cc. injection Cc as C1' C2' C3'. set (nrm := sqrt (fold_right Rplus 0%R (map (fun i => Cnorm2 (ecoef N (alphas s) (betas s) eigh f i)) (seq 0 N)))) in *.
      assert (NN := coef_nonzero I HN1 OKR (f := f) (fun x => Cexp_neq0 (z := Cmul delta (RtoC x)))).
      assert (Hnrm : (0 < nrm)%R). { apply sqrt_lt_R0. assert (X := sum_norm2_pos N (ecoef N (alphas s) (betas s) eigh f)). lra. }
      assert (Hv : length (vf s) = N) by (rewrite C2', !map_length, seq_length; reflexivity).
      assert (LV : lincomb h (vf s) q = rscale h (/ nrm) (fq N q (alphas s) (betas s) eigh f)) by (rewrite C2'; apply (lincomb_scale L)).
      assert (UN : hinner h (lincomb h (vf s) q) (lincomb h (vf s) q) = C1).
      { rewrite LV, (inner_rscale_l L), (inner_rscale_r L), (fq_norm eigh I). rewrite <- (sqrt_sqrt _ (sum_norm2_pos N (ecoef N (alphas s) (betas s) eigh f))). fold nrm. rewrite <- !RtoC_mul. change C1 with (RtoC 1). apply (f_equal RtoC). field. lra. }
      rewrite (calc_result_full_spec L NC SI HN1 Hv) by (unfold hnorm, hnorm2; rewrite UN; cbn; apply sqrt_1).
      split; [exact HB|]. split; [lia|]. split; [exact Epsi|]. split; [reflexivity|].
      apply KEY with (e := fun j => nth j (ev eigh (alphas s) (firstn (N - 1) (betas s))) 0%R) (phi := comp N q (alphas s) (betas s) eigh n); auto.
      + rewrite C3'. exact Hnrm.
      + apply (kdecomp I HN1 OKR Q0 (si_pos SI)). lra.
      + assert (X := fq_comps eigh n I f). unfold f in X at 1. rewrite X, LV, C3'. unfold rscale. rewrite (hl_mul L). f_equal. rewrite <- RtoC_mul. f_equal. field. lra.
  Qed.

  (** on an invariant Krylov space the components are eigenvectors *)
  Lemma decomposition_exact N psi e phi : krylov_decomposition h H N psi e phi -> (forall x, in_span h (powers H N psi) x -> in_span h (powers H N psi) (H x)) ->
    forall j, j < N -> H (phi j) = rscale h (e j) (phi j).
  Proof.
    intros KD INV j Hj. assert (X := kd_galerkin KD (j := j)). set (r := hsub h (H (phi j)) (rscale h (e j) (phi j))) in *.
    assert (Hr : in_span h (powers H N psi) r). { unfold r, hsub, rscale. apply (span_add L); [apply INV, (kd_in KD Hj)|]. apply (span_scale L), (span_scale L), (kd_in KD Hj). }
    assert (Z := hl_inner_def L (f_equal fst (X r Hj Hr))). replace (H (phi j)) with (hadd h r (rscale h (e j) (phi j))) by (unfold r; hvec L). rewrite Z. apply (hl_zero L).
  Qed.
End P.
