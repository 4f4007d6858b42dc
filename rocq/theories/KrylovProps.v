(** C55: Lanczos ground state search and time evolution. *)
From Coq Require Import Reals Lra List Arith Lia Bool.
From Verif Require Import Cplx Hilbert LinOpModel LinOpSpec LinOpProofs LinOpMat KrylovModel KrylovSpec KrylovProofs KrylovProofs2 KrylovProofs3 KrylovProofs4 KrylovProofs5 KrylovProofs6.
Import ListNotations.
Open Scope nat_scope.

(** lanczos(H, psi, options): for a hermitian operator, if numpy's eigh is right on the matrices of this run, the result is the lowest Ritz pair of H
    (not of the shifted operator) in the Krylov space span(psi, H psi, ..., H^(N-1) psi), whatever E_shift, N_cache and reortho are; the only error is a starting vector
    with norm below the cutoff.  If H is a projected operator and E_shift is given, the vectors must be orthonormal, and psi orthogonal to them. *)
Theorem C55_ground_state : forall V T (h : hspace V) (to : tensor_ops V T), hlaws h ->
  forall o eigh shift A psi0, valid_options o = true -> (0 < cutoff o)%R -> N_max o <> 0 ->
  hermitian h (matvec h to A) ->
  (forall B os p, shift <> None -> A = OProj B os true p -> orthonormal h os /\ (forall x, In x os -> hinner h x psi0 = C0)) ->
  eigh_ok_run h (matvec h to (fst (krylov_init A shift))) o (gs_calc eigh) (gs_conv o) eigh psi0 ->
  match fst (lanczos h to o eigh shift A psi0) with
  | None => (hnorm h psi0 < cutoff o)%R
  | Some (E, psi, N) => (cutoff o <= hnorm h psi0)%R /\ ritz h (matvec h to A) o psi0 E psi N
  end.
Proof.
  intros V T h to L o eigh shift A psi0 VO CP NM HH HP OKR. unfold lanczos. rewrite VO. apply andb_true_iff in VO. destruct VO as [V1 V2]. apply Nat.leb_le in V1, V2.
  set (H := matvec h to A) in *.
  assert (KEY : forall K e (W : V -> Prop), hermitian h K -> W (hzero h) -> (forall x y, W x -> W y -> W (hadd h x y)) -> (forall a x, W x -> W (hscale h a x)) ->
     (forall x, W x -> W (H x)) -> (forall x, W x -> K x = hadd h (H x) (rscale h e x)) -> W psi0 -> eigh_ok_run h K o (gs_calc eigh) (gs_conv o) eigh psi0 ->
     match ground_state_run h K o eigh (Some e) psi0 with None => (hnorm h psi0 < cutoff o)%R | Some (E, psi, N) => (cutoff o <= hnorm h psi0)%R /\ ritz h H o psi0 E psi N end).
  { intros K e W HK W1 W2 W3 W4 W5 W6 OK. assert (X := ground_state_spec L HK V2 CP NM V1 OK). unfold ground_state_run in *.
    destruct (build_krylov h K o (gs_calc eigh) (gs_conv o) psi0) as [[[psi N] s]|]; [|exact X].
    destruct (N =? 1).
    - destruct X as [X1 X2]. split; [exact X1|]. now apply (ritz_shift L HH HK W1 W2 W3 W4 W5 W6).
    - destruct (calc_result_full h K o psi N s) as [p|]; [|exact X]. destruct X as [X1 X2]. split; [exact X1|]. now apply (ritz_shift L HH HK W1 W2 W3 W4 W5 W6). }
  assert (SHE : forall K (e : R), (forall v, K v = hadd h (H v) (rscale h e v)) -> hermitian h K).
  { intros K e EK. destruct HH as [HL HA]. split.
    - apply (linear_ext (A := fun v => hadd h (H v) (rscale h e v))); [intros; now rewrite EK|]. apply (linear_add L HL). unfold rscale. apply (linear_scale L). apply linear_id.
    - intros x y. rewrite !EK, (hl_inner_add L), (inner_add_l L), (inner_rscale_l L), (inner_rscale_r L), HA. reflexivity. }
  assert (GEN : forall K e, (forall v, K v = hadd h (H v) (rscale h e v)) -> eigh_ok_run h K o (gs_calc eigh) (gs_conv o) eigh psi0 ->
     match ground_state_run h K o eigh (Some e) psi0 with None => (hnorm h psi0 < cutoff o)%R | Some (E, psi, N) => (cutoff o <= hnorm h psi0)%R /\ ritz h H o psi0 E psi N end).
  { intros K e EK OK. apply (KEY K e (fun _ => True)); auto. now apply (SHE K e). }
  destruct shift as [e|]; [|exact (ground_state_spec L HH V2 CP NM V1 OKR)].
  assert (SH : forall B v, matvec h to (OShift B (RtoC e)) v = hadd h (matvec h to B v) (rscale h e v)) by (intros; cbn [matvec]; unfold axpy, rscale; apply (hl_comm L)).
  destruct A as [t w|f g|B|B more|B s|B os b p]; cbn [krylov_init fst] in *; try (apply GEN; [apply SH|exact OKR]).
  set (K := matvec h to (OProj (OShift B (RtoC e)) os b p)) in *. destruct b.
  - destruct (HP B os p ltac:(discriminate) eq_refl) as [HO Hperp].
    assert (EH : forall v, H v = hadd h (projector h os (matvec h to B (projector h os v))) (hscale h (pen p) (span_part h os v))) by (intros v; unfold H; cbn [matvec]; apply (proj_matvec_orth L), HO).
    assert (PL := projector_linear L os).
    assert (PP : forall v, projector h os (projector h os v) = projector h os v) by (intros v; apply (projector_fix L); intros x Hx; now apply (projector_perp L)).
    assert (EK : forall v, K v = hadd h (H v) (rscale h e (projector h os v))).
    { intros v. unfold K. cbn [matvec]. rewrite (proj_matvec_orth L) by apply HO. rewrite EH. unfold axpy. rewrite (proj1 PL), (proj2 PL), PP. unfold rscale. hvec L. }
    apply (KEY K e (fun x => forall y, In y os -> hinner h y x = C0)).
    + destruct HH as [HL HA]. split.
      * apply (linear_ext (A := fun v => hadd h (H v) (rscale h e (projector h os v)))); [intros; now rewrite EK|]. apply (linear_add L HL). unfold rscale. apply (linear_scale L). exact PL.
      * intros x y. rewrite !EK, (hl_inner_add L), (inner_add_l L), (inner_rscale_l L), (inner_rscale_r L), HA, (projector_self L os x y). reflexivity.
    + intros y Hy. apply (inner_0_r L).
    + intros x y Hx Hy o' Ho. rewrite (hl_inner_add L), Hx, Hy by exact Ho. ring.
    + intros a x Hx o' Ho. rewrite (hl_inner_scale L), Hx by exact Ho. ring.
    + intros x Hx o' Ho. rewrite EH, (hl_inner_add L), (hl_inner_scale L), (projector_perp L) by assumption. rewrite (span_part_zero L) by exact Hx. rewrite (inner_0_r L). ring.
    + intros x Hx. rewrite EK, (projector_fix L) by exact Hx. reflexivity.
    + exact Hperp.
    + exact OKR.
  - apply GEN; [|exact OKR]. intros v. unfold K, H. cbn [matvec]. rewrite !(proj_matvec_unprojected L). unfold axpy, rscale. hvec L.
Qed.
Print Assumptions C55_ground_state.

(** N_cache and reortho are only about memory and rounding: they change nothing in exact arithmetic, for the ground state search and for the evolution. *)
Theorem C55_cache_and_reortho_irrelevant : forall V (h : hspace V) H, hlaws h -> hermitian h H -> forall o nc r eigh, 2 <= N_cache o -> 2 <= nc -> (0 < cutoff o)%R -> N_max o <> 0 ->
  (forall shift psi0, ground_state_run h H (with_cache o nc r) eigh shift psi0 = ground_state_run h H o eigh shift psi0) /\
  (forall psi0 pn delta nrm, evolution_run h H (with_cache o nc r) eigh psi0 pn delta nrm = evolution_run h H o eigh psi0 pn delta nrm).
Proof. intros. split; intros; [now apply cache_irrelevant|now apply cache_irrelevant_evo]. Qed.
Print Assumptions C55_cache_and_reortho_irrelevant.

(** LanczosEvolution.run(delta, normalize) computes exp(delta H) psi within the Krylov space: psi splits into orthogonal components phi_j with
    H phi_j = e_j phi_j + (something orthogonal to the Krylov space), and the result is sum_j exp(delta e_j) phi_j, normalised or not;
    it may be called repeatedly: psi is always the original vector. *)
Theorem C55_evolution : forall V (h : hspace V) H, hlaws h -> hermitian h H -> forall o eigh psi0 pn delta normalize,
  valid_options o = true -> (0 < cutoff o)%R -> N_max o <> 0 ->
  eigh_ok_run h H o (evo_calc eigh delta) (evo_conv o) eigh psi0 -> match pn with Some n => (0 < n)%R | None => True end ->
  match evolution_run h H o eigh psi0 pn delta normalize with
  | None => (hnorm h psi0 < cutoff o)%R
  | Some (res, N, psi0', pn') =>
      let n := match pn with Some n => n | None => hnorm h psi0 end in
      (cutoff o <= hnorm h psi0)%R /\ 1 <= N <= N_max o /\ psi0' = rscale h (/ hnorm h psi0) psi0 /\ pn' = Some n /\
      exists e phi, krylov_decomposition h H N (rscale h n psi0') e phi /\
        let U := vsum h N (fun j => hscale h (Cexp (Cmul delta (RtoC (e j)))) (phi j)) in
        hnorm h U <> 0%R /\
        res = (if (match normalize with Some b => b | None => if Req_EM_T (fst delta) 0 then true else false end) then unit_result h U else U) /\
        (N < N_max o -> evo_stop h H o psi0 N (unit_result h U))
  end.
Proof.
  intros V h H L HH o eigh psi0 pn delta normalize VO CP NM OKR PN. apply andb_true_iff in VO. destruct VO as [V1 V2]. apply Nat.leb_le in V1, V2. now apply evolution_spec.
Qed.
Print Assumptions C55_evolution.

(** If the Krylov space is invariant under H, the components are eigenvectors: the result is exp(delta H) psi exactly. *)
Theorem C55_evolution_exact : forall V (h : hspace V) H, hlaws h -> forall N psi e phi, krylov_decomposition h H N psi e phi ->
  (forall x, in_span h (powers H N psi) x -> in_span h (powers H N psi) (H x)) ->
  psi = vsum h N phi /\ forall j, j < N -> H (phi j) = rscale h (e j) (phi j).
Proof. intros V h H L N psi e phi KD INV. split; [apply (kd_sum KD)|]. intros j Hj. exact (decomposition_exact L KD INV Hj). Qed.
Print Assumptions C55_evolution_exact.

(** run() may be called again: in the state after a first run, the vector evolved by the next run (see C55_evolution) is again the original psi0,
    and the object is in the same state after the second run as after the first. *)
Theorem C55_evolution_repeated : forall V (h : hspace V) H, hlaws h -> forall o eigh psi0 delta normalize r N p1 m1, (0 < cutoff o)%R ->
  evolution_run h H o eigh psi0 None delta normalize = Some (r, N, p1, m1) ->
  exists n, m1 = Some n /\ (0 < n)%R /\ rscale h n (rscale h (/ hnorm h p1) p1) = psi0 /\
    forall delta' normalize' r' N' p2 m2, evolution_run h H o eigh p1 m1 delta' normalize' = Some (r', N', p2, m2) -> p2 = p1 /\ m2 = m1.
Proof.
  intros V h H L o eigh psi0 delta normalize r N p1 m1 CP R.
  assert (G : forall q pn d nr r' N' p' m', evolution_run h H o eigh q pn d nr = Some (r', N', p', m') ->
     (cutoff o <= hnorm h q)%R /\ p' = rscale h (/ hnorm h q) q /\ m' = Some (match pn with Some n => n | None => hnorm h q end)).
  { intros q pn d nr r' N' p' m' E. unfold evolution_run, build_krylov in E. destruct (Rltb (hnorm h q) (cutoff o)) eqn:B; [discriminate|]. apply Rltb_false in B.
    destruct (lanczos_loop h H o (evo_calc eigh d) (evo_conv o) (N_max o) 0 _) as [n s]. destruct (if n =? 1 then _ else _); [|discriminate]. injection E as _ _ E3 E4. subst. auto. }
  destruct (G _ _ _ _ _ _ _ _ R) as [B [Ep Em]]. assert (N0 : hnorm h psi0 <> 0%R) by lra.
  assert (E : hnorm h p1 = 1%R) by (rewrite Ep; unfold hnorm at 1, hnorm2; rewrite (normalized L N0); cbn; apply sqrt_1).
  assert (E1 : rscale h (/ hnorm h p1) p1 = p1) by (rewrite E, Rinv_1; apply (hl_one L)).
  exists (hnorm h psi0). split; [exact Em|]. split; [lra|]. split.
  - rewrite E1, Ep. unfold rscale. rewrite (hl_mul L), <- RtoC_mul, Rinv_r by exact N0. apply (hl_one L).
  - intros d' nr' r' N' p2 m2 R2. destruct (G _ _ _ _ _ _ _ _ R2) as [_ [E2 E3]]. rewrite E1 in E2. subst m1. split; [exact E2|exact E3].
Qed.
Print Assumptions C55_evolution_repeated.

(** Starting from a normalised eigenvector, one step returns it. *)
Lemma eigenvector_run : forall V (h : hspace V), hlaws h -> forall H o eigh shift psi0 (a : R), 0 < N_cache o -> (0 < cutoff o <= 1)%R -> N_max o <> 0 ->
  hinner h psi0 psi0 = C1 -> H psi0 = rscale h a psi0 -> ground_state_run h H o eigh shift psi0 = Some (match shift with Some e => (a - e)%R | None => a end, psi0, 1).
Proof.
  intros V h L H o eigh shift psi0 a NC CP NM U EV. assert (N1 : hnorm h psi0 = 1%R) by (unfold hnorm, hnorm2; rewrite U; cbn; apply sqrt_1).
  unfold ground_state_run, build_krylov. rewrite N1. replace (Rltb 1 (cutoff o)) with false by (symmetry; apply Rltb_false; lra). rewrite Rinv_1.
  assert (E1 : rscale h 1 psi0 = psi0) by apply (hl_one L). rewrite E1. destruct (N_max o) as [|n]; [congruence|]. cbn [lanczos_loop]. unfold lanczos_step. cbn [wvec beta KrylovModel.cache alphas betas es]. rewrite Rinv_1, E1.
  unfold to_cache. cbn [app length]. rewrite (proj2 (Nat.ltb_ge (N_cache o) 1)) by lia. cbn [last]. rewrite EV. rewrite (inner_rscale_l L), U. replace (fst (Cmul (RtoC a) C1)) with a by (cbn; ring).
  cbn [app gs_calc].
  assert (EW : axpy h (RtoC (- a)) psi0 (rscale h a psi0) = hzero h). { apply (inner_ext L). intros y. rewrite (inner_axpy_r L), (inner_rscale_r L), (inner_0_r L). apply C_eq; cbn; ring. }
  rewrite EW. assert (EO : orthogonalize h o 0 [psi0] 1 (hzero h) = hzero h) by (unfold orthogonalize; destruct (reortho o); reflexivity). rewrite EO.
  assert (Z : hnorm h (hzero h) = 0%R) by (unfold hnorm, hnorm2; rewrite (inner_0_r L); cbn; apply sqrt_0). rewrite Z.
  unfold lanczos_stop. cbn [beta]. rewrite Rabs_R0. replace (Rltb 0 (cutoff o)) with true by (symmetry; apply Rltb_true; lra). cbn [orb].
  change (1 =? 1) with true. cbn [es nth Nat.sub app]. destruct shift; reflexivity.
Qed.

(** E_shift changes the caller's projected operator: calling lanczos twice with the same arguments gives the energies 0 and 1. *)
Definition e1 : vecC 2 := (C1, (C0, tt)).
Definition e2 : vecC 2 := (C0, (C1, tt)).
Definition demo_opts : lopts := LOpts 2 20 20 (1 / 100000) (1 / 1000) (1 / 1000) None false.
Lemma lanczos_unfold : forall V T (h : hspace V) (to : tensor_ops V T) o eigh shift A psi, valid_options o = true ->
  lanczos h to o eigh shift A psi = (ground_state_run h (matvec h to (fst (krylov_init A shift))) o eigh shift psi, snd (krylov_init A shift)).
Proof. intros. unfold lanczos. rewrite H. destruct (krylov_init A shift). reflexivity. Qed.
Theorem C55_shifted_projected_operator_refuted :
  exists (A : linop (vecC 2) mat) (psi0 : vecC 2), forall eigh,
    let first := lanczos (Cn 2) (mat_ops 2) demo_opts eigh (Some 1%R) A psi0 in
    let second := lanczos (Cn 2) (mat_ops 2) demo_opts eigh (Some 1%R) (snd first) psi0 in
    hermitian (Cn 2) (matvec (Cn 2) (mat_ops 2) A) /\
    fst first = Some (0%R, psi0, 1) /\ fst second = Some (1%R, psi0, 1).
Proof.
  exists (OProj (OTensor (fun _ _ => C0) 1) [e1] true None), e2. intros eigh. cbv zeta. split; [|split].
  - assert (Z : forall v, matvec (Cn 2) (mat_ops 2) (OProj (OTensor (fun _ _ => C0) 1) [e1] true None) v = hzero (Cn 2)).
    { intros [[a b] [[c d] []]]. apply injective_projections; [apply C_eq; cbn; ring|apply injective_projections; [apply C_eq; cbn; ring|reflexivity]]. }
    split; [split|].
    + intros x y. rewrite !Z. symmetry. apply (hl_zero (Cn_laws 2)).
    + intros a x. rewrite !Z. symmetry. apply (scale_0 (Cn_laws 2)).
    + intros x y. now rewrite !Z, (inner_0_r (Cn_laws 2)), (inner_0_l (Cn_laws 2)).
  - rewrite lanczos_unfold by reflexivity. cbn [krylov_init fst snd].
    rewrite (eigenvector_run _ (Cn 2) (Cn_laws 2) _ demo_opts eigh (Some 1%R) e2 1%R); [f_equal; f_equal; f_equal; ring|cbn; lia|cbn; lra|cbn; discriminate|apply C_eq; cbn; ring|].
    apply injective_projections; [apply C_eq; cbn; ring|apply injective_projections; [apply C_eq; cbn; ring|reflexivity]].
  - rewrite !lanczos_unfold by reflexivity. cbn [krylov_init fst snd].
    rewrite (eigenvector_run _ (Cn 2) (Cn_laws 2) _ demo_opts eigh (Some 1%R) e2 2%R); [f_equal; f_equal; f_equal; ring|cbn; lia|cbn; lra|cbn; discriminate|apply C_eq; cbn; ring|].
    apply injective_projections; [apply C_eq; cbn; ring|apply injective_projections; [apply C_eq; cbn; ring|reflexivity]].
Qed.
Print Assumptions C55_shifted_projected_operator_refuted.

(** The hypotheses hold for H = Pauli X, psi = e1: the run takes two steps. *)
Definition pauliX : vecC 2 -> vecC 2 := fun v => match v with (a, (b, tt)) => (b, (a, tt)) end.
Definition s2 : R := (/ sqrt 2)%R.
Definition eighX : eigh_fun := fun al be => ([-1; 1]%R, fun i j => if (i =? 1) && (j =? 0) then (- s2)%R else s2).
Lemma s2_sq : (s2 * s2 = / 2)%R.
Proof. unfold s2. rewrite <- Rinv_mult. now rewrite sqrt_sqrt by lra. Qed.
Lemma v2_ext : forall a b c d : C, a = c -> b = d -> (a, (b, tt)) = (c, (d, tt)). Proof. intros; now subst. Qed.
Lemma norm_1 : forall v : vecC 2, hinner (Cn 2) v v = C1 -> hnorm (Cn 2) v = 1%R. Proof. intros v U. unfold hnorm, hnorm2. rewrite U. cbn. apply sqrt_1. Qed.
Lemma pauliX_hermitian : hermitian (Cn 2) pauliX.
Proof.
  split; [split|].
  - intros [a [b []]] [c [d []]]. reflexivity.
  - intros x [a [b []]]. reflexivity.
  - intros [a [b []]] [c [d []]]. cbn. apply C_eq; cbn; ring.
Qed.
Lemma pauliX_run : forall calc conv, exists s, build_krylov (Cn 2) pauliX demo_opts calc conv e1 = Some (e1, 2, s) /\ alphas s = [0; 0]%R /\ betas s = [1; 0]%R.
Proof.
  intros calc conv. assert (N1 : hnorm (Cn 2) e1 = 1%R) by (apply norm_1, C_eq; cbn; ring). assert (N2 : hnorm (Cn 2) e2 = 1%R) by (apply norm_1, C_eq; cbn; ring).
  assert (L := Cn_laws 2). assert (R1 : forall v, rscale (Cn 2) 1 v = v) by (intros v; apply (hl_one L)).
  unfold build_krylov. rewrite N1. replace (Rltb 1 (cutoff demo_opts)) with false by (symmetry; apply Rltb_false; cbn; lra). rewrite Rinv_1, R1.
  change (N_max demo_opts) with 20. set (f := 18). change 20 with (Datatypes.S (Datatypes.S f)). cbn [lanczos_loop].
  assert (S1 : exists e v rn, lanczos_step (Cn 2) pauliX demo_opts calc 0 (LState [] e1 1%R [] [] [] [] 0%R) = LState [e1] e2 1%R [0%R] [1%R] [e] v rn).
  { unfold lanczos_step. cbn [wvec beta KrylovModel.cache alphas betas es]. rewrite Rinv_1, R1. change (to_cache demo_opts [] e1) with [e1]. cbn [last]. change (pauliX e1) with e2.
    replace (fst (hinner (Cn 2) e2 e1)) with 0%R by (cbn; ring). cbn [app]. destruct (calc [0%R] []) as [[e v] rn]. exists e, v, rn.
    change (orthogonalize (Cn 2) demo_opts 0 [e1] 1 (axpy (Cn 2) (RtoC (- 0)) e1 e2)) with (axpy (Cn 2) (RtoC (- 0)) e1 e2).
    replace (axpy (Cn 2) (RtoC (- 0)) e1 e2) with e2 by (apply v2_ext; apply C_eq; cbn; ring). rewrite N2. reflexivity. }
  destruct S1 as [e [v [rn S1]]]. rewrite S1.
  assert (St : lanczos_stop demo_opts conv 0 (LState [e1] e2 1%R [0%R] [1%R] [e] v rn) = false).
  { unfold lanczos_stop. cbn [beta]. change (N_min demo_opts <=? 0 + 1) with false. rewrite Rabs_R1. replace (Rltb 1 (cutoff demo_opts)) with false by (symmetry; apply Rltb_false; cbn; lra). reflexivity. }
  rewrite St.
  assert (S2 : exists e' v' rn', lanczos_step (Cn 2) pauliX demo_opts calc 1 (LState [e1] e2 1%R [0%R] [1%R] [e] v rn) = LState [e1; e2] (hzero (Cn 2)) 0%R [0; 0]%R [1; 0]%R [e; e'] v' rn').
  { unfold lanczos_step. cbn [wvec beta KrylovModel.cache alphas betas es]. rewrite Rinv_1, R1. change (to_cache demo_opts [e1] e2) with [e1; e2]. cbn [last]. change (pauliX e2) with e1.
    replace (fst (hinner (Cn 2) e1 e2)) with 0%R by (cbn; ring). cbn [app]. destruct (calc [0; 0]%R [1%R]) as [[e' v'] rn']. exists e', v', rn'.
    change (orthogonalize (Cn 2) demo_opts 1 [e1; e2] 1 (axpy (Cn 2) (RtoC (- 0)) e2 e1)) with (axpy (Cn 2) (RtoC (- (1))) e1 (axpy (Cn 2) (RtoC (- 0)) e2 e1)).
    replace (axpy (Cn 2) (RtoC (- (1))) e1 (axpy (Cn 2) (RtoC (- 0)) e2 e1)) with (hzero (Cn 2)) by (symmetry; apply v2_ext; apply C_eq; cbn; ring).
    replace (hnorm (Cn 2) (hzero (Cn 2))) with 0%R by (unfold hnorm, hnorm2; rewrite (inner_0_r L); cbn; symmetry; apply sqrt_0). reflexivity. }
  destruct S2 as [e' [v' [rn' S2]]]. rewrite S2.
  assert (St2 : lanczos_stop demo_opts conv 1 (LState [e1; e2] (hzero (Cn 2)) 0%R [0; 0]%R [1; 0]%R [e; e'] v' rn') = true).
  { unfold lanczos_stop. cbn [beta]. rewrite Rabs_R0. replace (Rltb 0 (cutoff demo_opts)) with true by (symmetry; apply Rltb_true; cbn; lra). reflexivity. }
  rewrite St2. eexists. split; [reflexivity|]. split; reflexivity.
Qed.
Example C55_hypotheses_met : forall calc conv, valid_options demo_opts = true /\ (0 < cutoff demo_opts)%R /\ hermitian (Cn 2) pauliX /\
  eigh_ok_run (Cn 2) pauliX demo_opts calc conv eighX e1.
Proof.
  intros calc conv. split; [reflexivity|]. split; [cbn; lra|]. split; [apply pauliX_hermitian|].
  intros psi n s E m Hm. destruct (pauliX_run calc conv) as [s' [E' [A B]]]. rewrite E' in E. injection E as E1 E2 E3. subst psi n s'. rewrite A, B. replace m with 2 by lia.
  cbn [firstn Nat.sub]. assert (Q := s2_sq). unfold eigh_ok. cbn [length eighX]. split; [reflexivity|]. split; [|split; [|split]].
  - intros i j [Hi Hj]. destruct i as [|[|i]]; destruct j as [|[|j]]; try lia; cbn; lra.
  - intros i j Hi Hj. destruct i as [|[|i]]; destruct j as [|[|j]]; try lia; cbn; lra.
  - intros i j Hi Hj. destruct i as [|[|i]]; destruct j as [|[|j]]; try lia; cbn; lra.
  - intros i j Hi Hj. destruct i as [|[|i]]; destruct j as [|[|j]]; try lia; cbn; lra.
Qed.
