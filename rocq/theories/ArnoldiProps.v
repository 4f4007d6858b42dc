(** C57: Arnoldi eigensolver and ArnoldiEvolution for general linear operators. *)
From Coq Require Import Reals Lra List Arith Lia Bool String Sorted Permutation.
From Verif Require Import Util StableSort RowProofs Cplx Hilbert LinOpModel LinOpSpec LinOpProofs LinOpMat KrylovModel KrylovSpec KrylovProofs KrylovProofs3 KrylovProofs4 KrylovProofs5 KrylovProofs6 KrylovProps GmresProofs GmresProofs2 GmresProofs3 GmresProps ArnoldiModel ArnoldiSpec ArnoldiProofs ArnoldiProofs2 ArnoldiProofs3 ArnoldiProofs4 ArnoldiProofs5 ArnoldiProofs6.
Import ListNotations.
Open Scope nat_scope.

(** Arnoldi(H, psi, options).run(), if numpy's eig is right on the matrices it is given: the only error is psi = 0; the first min(N, num_ev) values and vectors are the
    Ritz pairs of H (not of the shifted operator) in span(psi, ..., H^(N-1) psi) that come first in the order [which] of the shifted values; see [arnoldi_result] for the stopping rule.
    If H is a projected operator and E_shift is given, the vectors must be orthonormal, and psi orthogonal to them. *)
Theorem C57_arnoldi : forall V T (h : hspace V) (to : tensor_ops V T), hlaws h ->
  forall o eig srt shift A psi0, a_valid o = true -> (0 < a_cutoff o)%R -> (0 < a_min_gap o)%R -> a_N_max o <> 0 -> sort_ok srt ->
  linear h (matvec h to A) ->
  (forall B os p, shift <> None -> A = OProj B os true p -> orthonormal h os /\ (forall x, In x os -> hinner h x psi0 = C0)) ->
  eig_right h (matvec h to (fst (krylov_init A shift))) psi0 (a_N_max o) eig ->
  match fst (arnoldi h to o eig srt shift A psi0) with
  | None => psi0 = hzero h
  | Some (E0, psis, N) => psi0 <> hzero h /\ arnoldi_result h (matvec h to A) psi0 (match shift with Some e => e | None => 0%R end) o E0 psis N
  end.
Proof.
  intros V T h to L o eig srt shift A psi0 VO CP MG NM SO HH HP ER. unfold arnoldi. rewrite VO. apply Nat.leb_le in VO. set (H := matvec h to A) in *.
  assert (KEY : forall K e (W : V -> Prop), linear h K -> W (hzero h) -> (forall x y, W x -> W y -> W (hadd h x y)) -> (forall a x, W x -> W (hscale h a x)) ->
     (forall x, W x -> W (H x)) -> (forall x, W x -> K x = hadd h (H x) (rscale h e x)) -> W psi0 -> eig_right h K psi0 (a_N_max o) eig ->
     match (match arnoldi_run h K o eig srt (Some e) (new_obj psi0) with Some (E, psis, N, _) => Some (E, psis, N) | None => None end) with
     | None => psi0 = hzero h | Some (E0, psis, N) => psi0 <> hzero h /\ arnoldi_result h H psi0 e o E0 psis N end).
  { intros K e W HK W1 W2 W3 W4 W5 W6 OK. assert (X := raw_result L HK SO OK CP NM MG VO). rewrite run_shift.
    destruct (arnoldi_run h K o eig srt None (new_obj psi0)) as [[[[E0 psis] N] x']|]; [|exact X]. destruct X as [X1 X2]. split; [exact X1|]. now apply (result_shift L HH HK W1 W2 W3 W4 W5 W6). }
  assert (SHE : forall K (e : R), (forall v, K v = hadd h (H v) (rscale h e v)) -> linear h K).
  { intros K e EK. apply (linear_ext (A := fun v => hadd h (H v) (rscale h e v))); [intros; now rewrite EK|]. apply (linear_add L HH). unfold rscale. apply (linear_scale L). apply linear_id. }
  assert (GEN : forall K e, (forall v, K v = hadd h (H v) (rscale h e v)) -> eig_right h K psi0 (a_N_max o) eig ->
     match (match arnoldi_run h K o eig srt (Some e) (new_obj psi0) with Some (E, psis, N, _) => Some (E, psis, N) | None => None end) with
     | None => psi0 = hzero h | Some (E0, psis, N) => psi0 <> hzero h /\ arnoldi_result h H psi0 e o E0 psis N end).
  { intros K e EK OK. apply (KEY K e (fun _ => True)); auto. now apply (SHE K e). }
  destruct shift as [e|].
  2: { cbn [krylov_init fst] in *. assert (X := raw_result L HH SO ER CP NM MG VO). fold H. destruct (arnoldi_run h H o eig srt None (new_obj psi0)) as [[[[E0 psis] N] x']|]; exact X. }
  assert (SH : forall B v, matvec h to (OShift B (RtoC e)) v = hadd h (matvec h to B v) (rscale h e v)) by (intros; cbn [matvec]; unfold axpy, rscale; apply (hl_comm L)).
  destruct A as [t w|f g|B|B more|B s|B os b p]; cbn [krylov_init fst] in *; try (apply GEN; [apply SH|exact ER]).
  set (K := matvec h to (OProj (OShift B (RtoC e)) os b p)) in *. destruct b.
  - destruct (HP B os p ltac:(discriminate) eq_refl) as [HO Hperp].
    assert (EH : forall v, H v = hadd h (projector h os (matvec h to B (projector h os v))) (hscale h (pen p) (span_part h os v))) by (intros v; unfold H; cbn [matvec]; apply (proj_matvec_orth L), HO).
    assert (PL := projector_linear L os).
    assert (PP : forall v, projector h os (projector h os v) = projector h os v) by (intros v; apply (projector_fix L); intros x Hx; now apply (projector_perp L)).
    assert (EK : forall v, K v = hadd h (H v) (rscale h e (projector h os v))).
    { intros v. unfold K. cbn [matvec]. rewrite (proj_matvec_orth L) by apply HO. rewrite EH. unfold axpy. rewrite (proj1 PL), (proj2 PL), PP. unfold rscale. hvec L. }
    apply (KEY K e (fun x => forall y, In y os -> hinner h y x = C0)).
    + apply (linear_ext (A := fun v => hadd h (H v) (rscale h e (projector h os v)))); [intros; now rewrite EK|]. apply (linear_add L HH). unfold rscale. apply (linear_scale L). exact PL.
    + intros y Hy. apply (inner_0_r L).
    + intros x y Hx Hy o' Ho. rewrite (hl_inner_add L), Hx, Hy by exact Ho. ring.
    + intros a x Hx o' Ho. rewrite (hl_inner_scale L), Hx by exact Ho. ring.
    + intros x Hx o' Ho. rewrite EH, (hl_inner_add L), (hl_inner_scale L), (projector_perp L) by assumption. rewrite (span_part_zero L) by exact Hx. rewrite (inner_0_r L). ring.
    + intros x Hx. rewrite EK, (projector_fix L) by exact Hx. reflexivity.
    + exact Hperp.
    + exact ER.
  - apply GEN; [|exact ER]. intros v. unfold K, H. cbn [matvec]. rewrite !(proj_matvec_unprojected L). unfold axpy, rscale. hvec L.
Qed.
Print Assumptions C57_arnoldi.

(** ArnoldiEvolution(H, psi, options).run(delta, normalize): psi splits into components phi_j of the Krylov space with H phi_j = c_j phi_j + (something orthogonal to the Krylov space),
    and the result is sum_j exp(delta c_j) phi_j, normalised or not (by default not); it fails only for psi = 0, or if eig returns linearly dependent eigenvectors.
    [pn] is the norm of the psi given to the constructor, psi0 the current vector of the object (see C57_evolution_repeated) *)
Theorem C57_evolution : forall V (h : hspace V) H, hlaws h -> linear h H -> forall o eig solve psi0 (pn : R) delta normalize,
  (0 < a_cutoff o)%R -> a_N_max o <> 0 -> (0 < pn)%R -> eig_right h H psi0 (a_N_max o) eig -> solve_right h H psi0 (a_N_max o) eig solve ->
  match aevo_run h H o eig solve pn psi0 delta normalize with
  | None => psi0 = hzero h \/ exists n m, 2 <= n <= a_N_max o /\ projected_matrix h H psi0 n m /\ dependent_columns n (snd (eig n m))
  | Some (res, N, psi0') => psi0 <> hzero h /\ 1 <= N <= a_N_max o /\ psi0' = rscale h (/ hnorm h psi0) psi0 /\
      exists c phi, spectral_decomposition h H N (rscale h pn psi0') c phi /\
        let U := vsum h N (fun j => hscale h (Cexp (Cmul delta (c j))) (phi j)) in
        hnorm h U <> 0%R /\ res = (if (match normalize with Some b => b | None => false end) then unit_result h U else U) /\
        (N < a_N_max o -> aevo_stop h H psi0 o N (unit_result h U))
  end.
Proof. intros V h H L HA o eig solve psi0 pn delta normalize CUT NM PN ER SV. exact (evo_result L HA SV ER CUT NM delta normalize PN). Qed.
Print Assumptions C57_evolution.

(** If the Krylov space is invariant under H, the components are eigenvectors: the result is exp(delta H) psi exactly. *)
Theorem C57_evolution_exact : forall V (h : hspace V) H, hlaws h -> linear h H -> forall N psi c phi, spectral_decomposition h H N psi c phi ->
  (forall x, in_span h (powers H N psi) x -> in_span h (powers H N psi) (H x)) ->
  psi = vsum h N phi /\ forall j, j < N -> H (phi j) = hscale h (c j) (phi j).
Proof.
  intros V h H L HA N psi c phi [S1 S2 S3] INV. split; [exact S1|]. intros j Hj. set (r := hsub h (H (phi j)) (hscale h (c j) (phi j))).
  assert (IN : in_span h (powers H N psi) r) by (unfold r, hsub; apply (span_add L); [apply INV, S2, Hj|apply (span_scale L), (span_scale L), S2, Hj]).
  assert (IP : hinner h r r = C0) by exact (S3 j r Hj IN). assert (Z : r = hzero h) by (apply (norm_0_iff L); unfold hnorm, hnorm2; rewrite IP; cbn; apply sqrt_0).
  transitivity (hadd h r (hscale h (c j) (phi j))); [unfold r; hvec L|]. rewrite Z. apply (hl_zero L).
Qed.
Print Assumptions C57_evolution_exact.

(** run() may be called again: the vector evolved by the next run (see C57_evolution) is again the original psi0, and the object is in the same state after the second run as after the first *)
Theorem C57_evolution_repeated : forall V (h : hspace V) H, hlaws h -> forall o eig solve psi0 delta normalize r N p1,
  aevo_run h H o eig solve (hnorm h psi0) psi0 delta normalize = Some (r, N, p1) ->
  rscale h (hnorm h psi0) (rscale h (/ hnorm h p1) p1) = psi0 /\
  forall delta' normalize' r' N' p2, aevo_run h H o eig solve (hnorm h psi0) p1 delta' normalize' = Some (r', N', p2) -> p2 = p1.
Proof.
  intros V h H L o eig solve psi0 delta normalize r N p1 R.
  assert (G : forall pn q d nr r' N' p', aevo_run h H o eig solve pn q d nr = Some (r', N', p') -> hnorm h q <> 0%R /\ p' = rscale h (/ hnorm h q) q).
  { intros pn q d nr r' N' p' E. unfold aevo_run, a_build in E. cbn [new_obj o_psi0] in E. destruct (Req_EM_T (hnorm h q) 0) as [|N0]; [discriminate|].
    destruct (a_loop _ _ _ _ _ _ _ _) as [[n s]|]; [|discriminate]. cbv zeta in E. destruct (if n =? 1 then _ else _); [|discriminate]. injection E as _ _ E. auto. }
  destruct (G _ _ _ _ _ _ _ R) as [N0 Ep].
  assert (E : hnorm h p1 = 1%R) by (rewrite Ep; unfold hnorm at 1, hnorm2; rewrite (normalized L N0); cbn; apply sqrt_1).
  assert (E1 : rscale h (/ hnorm h p1) p1 = p1) by (rewrite E, Rinv_1; apply (hl_one L)).
  split.
  - rewrite E1, Ep. unfold rscale. rewrite (hl_mul L), <- RtoC_mul, Rinv_r by exact N0. apply (hl_one L).
  - intros d' nr' r' N' p2 R2. destruct (G _ _ _ _ _ _ _ R2) as [_ E2]. now rewrite E1 in E2.
Qed.
Print Assumptions C57_evolution_repeated.

(** ** What does not hold *)
Definition aopts_with (N_max num_ev : nat) : aopts := AOpts 2 N_max (1 / 100000) (1 / 1000) (1 / 1000) None "LM" num_ev.
Lemma norm0 : hnorm (Cn 2) (hzero (Cn 2)) = 0%R. Proof. unfold hnorm, hnorm2. rewrite (inner_0_r (Cn_laws 2)). cbn. apply sqrt_0. Qed.
Lemma R1v : forall v : vecC 2, rscale (Cn 2) (/ 1) v = v. Proof. intros v. rewrite Rinv_1. apply (hl_one (Cn_laws 2)). Qed.
Ltac rl := first [apply Rltb_true; lra|apply Rltb_false; lra].

(** refuted: "the num_ev values returned are Ritz values": only the first N are.  For the identity and num_ev = 2, the values are 1 and 0 *)
Theorem C57_more_values_than_steps_refuted : exists H psi0, linear (Cn 2) H /\ forall eig srt, exists x,
  arnoldi_run (Cn 2) H (aopts_with 20 2) eig srt None (new_obj psi0) = Some ([C1; C0], [psi0], 1, x) /\
  ~ (exists N, ritz_value (Cn 2) H psi0 N C0).
Proof.
  exists (fun v => v), e1. split; [split; reflexivity|]. intros eig srt. eexists. split.
  - unfold arnoldi_run, a_build. cbn [new_obj o_psi0 o_cache o_h o_es]. rewrite norm_e1. destruct (Req_EM_T 1 0) as [X|_]; [lra|]. change (a_N_max (aopts_with 20 2)) with 20. cbn [a_loop].
    unfold a_step. cbn [s_cache s_h s_es s_w s_wn app List.length]. destruct (Req_EM_T 1 0) as [X|_]; [lra|]. rewrite R1v. change (a_N_max (aopts_with 20 2) <? 1) with false. cbn [project_coeffs].
    replace (hinner (Cn 2) e1 e1) with C1 by (apply C_eq; cbn; ring). replace (axpy (Cn 2) (Copp C1) e1 e1) with (hzero (Cn 2)) by (symmetry; apply v2_ext; apply C_eq; cbn; ring). rewrite norm0. cbn [arnoldi_calc].
    unfold a_stop at 1. cbn [s_wn]. replace (Rltb 0 (a_cutoff (aopts_with 20 2))) with true by (symmetry; apply Rltb_true; cbn; lra). cbn [orb]. cbn [Nat.eqb s_es Nat.sub aopts_with a_num_ev seq map]. reflexivity.
  - intros [N [psi [U IN G]]]. specialize (G psi IN). replace (hsub (Cn 2) psi (hscale (Cn 2) C0 psi)) with psi in G by (pose proof (Cn_laws 2) as L; hvec L). rewrite U in G. apply (f_equal fst) in G. cbn in G. lra.
Qed.
Print Assumptions C57_more_values_than_steps_refuted.

(** refuted: "run() may be called again": Arnoldi does not clear its cache, and the second run projects out the old basis.  For Pauli X and e1 the second run
    returns the value 0 after one step, although H e1 is orthogonal to e1 and the residual has norm 1 (the cutoff is 1/1000) *)
Lemma pauli_first : forall o eig srt, 3 <= a_N_max o -> 2 <= a_N_min o -> (0 < a_cutoff o <= 1)%R -> a_num_ev o = 1 ->
  exists E psis x, arnoldi_run (Cn 2) pauliX o eig srt None (new_obj e1) = Some (E, psis, 2, x) /\ o_cache x = [e1; e2] /\ o_psi0 x = e1.
Proof.
  intros o eig srt NM MI CU NV. unfold arnoldi_run, a_build. cbn [new_obj o_psi0 o_cache o_h o_es]. rewrite norm_e1. destruct (Req_EM_T 1 0) as [X|_]; [lra|]. rewrite R1v.
  destruct (a_N_max o) as [|[|[|k]]] eqn:EN; [lia|lia|lia|]. cbn [a_loop].
  assert (S1 : exists es, a_step (Cn 2) pauliX o (arnoldi_calc o eig srt) 0 (AState [] zeros2 zeros2 e1 1%R [] 1%R) = Some (AState [e1] (set2 (set_col zeros2 0 [C0]) 1 0 C1) es e2 1%R [[C1]] 1%R)).
  { unfold a_step. cbn [s_cache s_h s_es s_w s_wn app List.length]. destruct (Req_EM_T 1 0) as [X|_]; [lra|]. rewrite R1v. rewrite EN. cbn [Nat.ltb Nat.leb]. cbn [project_coeffs]. change (pauliX e1) with e2.
    replace (hinner (Cn 2) e1 e2) with C0 by (apply C_eq; cbn; ring). replace (axpy (Cn 2) (Copp C0) e1 e2) with e2 by (symmetry; apply v2_ext; apply C_eq; cbn; ring). rewrite norm_e2. cbn [arnoldi_calc]. eexists. reflexivity. }
  destruct S1 as [es S1]. rewrite S1. clear S1. unfold a_stop at 1. cbn [s_wn]. replace (Rltb 1 (a_cutoff o)) with false by (symmetry; apply Rltb_false; lra). rewrite (proj2 (Nat.leb_gt (a_N_min o) (0 + 1))) by lia. cbn [orb andb].
  set (m0 := set2 (set_col zeros2 0 [C0]) 1 0 C1).
  assert (S2 : exists m es' r, a_step (Cn 2) pauliX o (arnoldi_calc o eig srt) 1 (AState [e1] m0 es e2 1%R [[C1]] 1%R) = Some (AState [e1; e2] m es' (hzero (Cn 2)) 0%R r 1%R)).
  { unfold a_step. cbn [s_cache s_h s_es s_w s_wn app List.length]. destruct (Req_EM_T 1 0) as [X|_]; [lra|]. rewrite R1v. rewrite EN. cbn [Nat.ltb Nat.leb]. cbn [project_coeffs]. change (pauliX e2) with e1.
    replace (hinner (Cn 2) e1 e1) with C1 by (apply C_eq; cbn; ring). replace (axpy (Cn 2) (Copp C1) e1 e1) with (hzero (Cn 2)) by (symmetry; apply v2_ext; apply C_eq; cbn; ring).
    rewrite (inner_0_r (Cn_laws 2)). replace (axpy (Cn 2) (Copp C0) e2 (hzero (Cn 2))) with (hzero (Cn 2)) by (symmetry; apply v2_ext; apply C_eq; cbn; ring). rewrite norm0. unfold arnoldi_calc. destruct (eig _ _). do 3 eexists. reflexivity. }
  destruct S2 as [m [es' [r S2]]]. rewrite S2. clear S2. unfold a_stop at 1. cbn [s_wn]. replace (Rltb 0 (a_cutoff o)) with true by (symmetry; apply Rltb_true; lra). cbn [orb]. cbn [Nat.eqb]. unfold full_multi. cbn [s_cache List.length Nat.ltb Nat.leb]. do 3 eexists. split; [reflexivity|]. split; reflexivity.
Qed.
Theorem C57_run_twice_refuted : exists H psi0, linear (Cn 2) H /\ forall o eig srt, 3 <= a_N_max o -> 2 <= a_N_min o -> (0 < a_cutoff o <= 1)%R -> a_num_ev o = 1 ->
  exists E psis x, arnoldi_run (Cn 2) H o eig srt None (new_obj psi0) = Some (E, psis, 2, x) /\
  exists x', arnoldi_run (Cn 2) H o eig srt None x = Some ([C0], [psi0], 1, x') /\ residual_norm (Cn 2) H C0 psi0 = 1%R /\ ~ arnoldi_result (Cn 2) H psi0 0 o [C0] [psi0] 1.
Proof.
  exists pauliX, e1. split; [apply pauliX_hermitian|]. intros o eig srt NM MI CU NV. destruct (pauli_first o eig srt NM MI CU NV) as [E [psis [x [R1 [XC XP]]]]]. exists E, psis, x. split; [exact R1|].
  assert (RES : residual_norm (Cn 2) pauliX C0 e1 = 1%R).
  { unfold residual_norm. replace (hsub (Cn 2) (pauliX e1) (hscale (Cn 2) C0 e1)) with e2 by (symmetry; apply v2_ext; apply C_eq; cbn; ring). apply norm_e2. }
  assert (SEC : exists x', arnoldi_run (Cn 2) pauliX o eig srt None x = Some ([C0], [e1], 1, x')).
  { destruct x as [p c m es]. cbn [o_cache o_psi0] in XC, XP. subst p c. unfold arnoldi_run, a_build. cbn [o_psi0 o_cache o_h o_es]. rewrite norm_e1. destruct (Req_EM_T 1 0) as [X|_]; [lra|]. rewrite R1v.
    destruct (a_N_max o) as [|[|[|k]]] eqn:EN; [lia|lia|lia|]. cbn [a_loop]. unfold a_step. cbn [s_cache s_h s_es s_w s_wn app List.length]. destruct (Req_EM_T 1 0) as [X|_]; [lra|]. rewrite R1v. rewrite EN. cbn [Nat.ltb Nat.leb]. cbn [project_coeffs]. change (pauliX e1) with e2.
    replace (hinner (Cn 2) e1 e2) with C0 by (apply C_eq; cbn; ring). replace (axpy (Cn 2) (Copp C0) e1 e2) with e2 by (symmetry; apply v2_ext; apply C_eq; cbn; ring).
    replace (hinner (Cn 2) e2 e2) with C1 by (apply C_eq; cbn; ring). replace (axpy (Cn 2) (Copp C1) e2 e2) with (hzero (Cn 2)) by (symmetry; apply v2_ext; apply C_eq; cbn; ring). rewrite (inner_0_r (Cn_laws 2)).
    replace (axpy (Cn 2) (Copp C0) e1 (hzero (Cn 2))) with (hzero (Cn 2)) by (symmetry; apply v2_ext; apply C_eq; cbn; ring). rewrite norm0. cbn [arnoldi_calc]. unfold a_stop at 1. cbn [s_wn]. replace (Rltb 0 (a_cutoff o)) with true by (symmetry; apply Rltb_true; lra). cbn [orb].
    cbn [Nat.eqb s_es Nat.sub]. rewrite NV. cbn [seq map]. eexists. reflexivity. }
  destruct SEC as [x' SEC]. exists x'. split; [exact SEC|]. split; [exact RES|]. intros AR. destruct (ar_stop AR ltac:(lia) ltac:(lia)) as [B|[B _]]; [|lia]. specialize (B 0). rewrite NV in B. cbn [Nat.min nth] in B. rewrite RES in B. specialize (B ltac:(lia)). lra.
Qed.
Print Assumptions C57_run_twice_refuted.

(** refuted: "ArnoldiEvolution computes exp(delta H) psi": for the Jordan block H e2 = e1, H e1 = 0 the eigenvectors never span the Krylov space, and every correct eig and solve lead to an exception,
    although exp(delta H) e2 = e2 + delta e1 *)
Definition jordan : vecC 2 -> vecC 2 := fun v => match v with (a, (b, tt)) => (b, (C0, tt)) end.
Theorem C57_evolution_of_jordan_block_refuted : linear (Cn 2) jordan /\ forall o eig solve pn delta normalize, 2 <= a_N_max o -> 2 <= a_N_min o -> (0 < a_cutoff o <= 1)%R -> (0 < pn)%R ->
  eig_right (Cn 2) jordan e2 (a_N_max o) eig -> solve_right (Cn 2) jordan e2 (a_N_max o) eig solve -> aevo_run (Cn 2) jordan o eig solve pn e2 delta normalize = None.
Proof.
  assert (HL : linear (Cn 2) jordan) by (split; [intros [a [b []]] [c [d []]]|intros x [a [b []]]]; apply v2_ext; cbn; apply C_eq; cbn; ring).
  split; [exact HL|]. intros o eig solve pn delta normalize NM MI CU PN ER SV. unfold aevo_run, a_build. cbn [new_obj o_psi0 o_cache o_h o_es]. rewrite norm_e2. destruct (Req_EM_T 1 0) as [X|_]; [lra|].
  destruct (a_N_max o) as [|[|k]] eqn:EN; [lia|lia|]. cbn [a_loop]. set (calc := aevo_calc eig solve delta).
  assert (S1 : exists r rn es, a_step (Cn 2) jordan o calc 0 (AState [] zeros2 zeros2 e2 1%R [] 1%R) = Some (AState [e2] (set2 (set_col zeros2 0 [C0]) 1 0 C1) es e1 1%R r rn)).
  { unfold a_step. cbn [s_cache s_h s_es s_w s_wn app List.length]. destruct (Req_EM_T 1 0) as [X|_]; [lra|]. rewrite R1v. rewrite EN. cbn [Nat.ltb Nat.leb]. cbn [project_coeffs]. change (jordan e2) with e1.
    replace (hinner (Cn 2) e2 e1) with C0 by (apply C_eq; cbn; ring). replace (axpy (Cn 2) (Copp C0) e2 e1) with e1 by (symmetry; apply v2_ext; apply C_eq; cbn; ring). rewrite norm_e1. unfold calc. cbn [aevo_calc]. do 3 eexists. reflexivity. }
  destruct S1 as [r [rn [es S1]]]. rewrite S1. clear S1. unfold a_stop at 1. cbn [s_wn]. replace (Rltb 1 (a_cutoff o)) with false by (symmetry; apply Rltb_false; lra). rewrite (proj2 (Nat.leb_gt (a_N_min o) (0 + 1))) by lia. cbn [orb andb].
  set (m0 := set2 (set_col zeros2 0 [C0]) 1 0 C1).
  assert (S2 : a_step (Cn 2) jordan o calc 1 (AState [e2] m0 es e1 1%R r rn) = None).
  { unfold a_step. cbn [s_cache s_h s_es s_w s_wn app List.length]. destruct (Req_EM_T 1 0) as [X|_]; [lra|]. rewrite R1v. rewrite EN. cbn [Nat.ltb Nat.leb]. cbn [project_coeffs]. replace (jordan e1) with (hzero (Cn 2)) by (apply v2_ext; apply C_eq; cbn; ring).
    rewrite (inner_0_r (Cn_laws 2)). replace (axpy (Cn 2) (Copp C0) e2 (hzero (Cn 2))) with (hzero (Cn 2)) by (symmetry; apply v2_ext; apply C_eq; cbn; ring).
    rewrite (inner_0_r (Cn_laws 2)). replace (axpy (Cn 2) (Copp C0) e1 (hzero (Cn 2))) with (hzero (Cn 2)) by (symmetry; apply v2_ext; apply C_eq; cbn; ring). rewrite norm0.
    set (m := set2 (set_col m0 1 [C0; C0]) (1 + 1) 1 (RtoC 0)).
    assert (M : forall i j, i < 2 -> j < 2 -> m i j = if (i =? 1) && (j =? 0) then C1 else C0) by (intros [|[|i]] [|[|j]] Hi Hj; try lia; reflexivity).
    assert (PM : projected_matrix (Cn 2) jordan e2 2 (submatrix 2 m)).
    { exists [e2; e1]. split; [reflexivity|]. split; [|split; [|split; [|split; [|split; [|split]]]]].
      - split; [intros [|i] [|[|j]] D; cbn in D; try lia; apply C_eq; cbn; ring|]. intros x [<-|[<-|[]]]; apply C_eq; cbn; ring.
      - cbn [nth]. now rewrite norm_e2, R1v.
      - intros y [<-|[<-|[]]]; apply (span_In (Cn_laws 2)); [now left|right; left; reflexivity].
      - intros i j Hi Hj. rewrite submatrix_lt, M by assumption. destruct i as [|[|i]], j as [|[|j]]; try lia; apply C_eq; cbn; ring.
      - intros i j D. unfold submatrix. destruct (Nat.ltb_spec i 2), (Nat.ltb_spec j 2); cbn; try reflexivity; lia.
      - intros j Hj. assert (j = 0) by lia. subst j. exists 1%R. split; [lra|]. rewrite submatrix_lt, M by lia. reflexivity.
      - intros i j D. unfold submatrix. destruct (Nat.ltb_spec i 2); [lia|reflexivity]. }
    assert (EO := ER 2 (submatrix 2 m) ltac:(lia) PM). assert (SO := SV 2 (submatrix 2 m) ltac:(lia) PM). unfold calc, aevo_calc. cbn [Nat.add]. change (fun i => if i =? 0 then C1 else C0) with unit0. destruct (eig 2 (submatrix 2 m)) as [E0 v]. cbn [fst snd] in *. destruct EO as [O1 O2 O3 _].
    assert (V0 : forall j, j < 2 -> v 0 j = C0).
    { intros j Hj. assert (A0 := O2 0 j ltac:(lia) Hj). assert (A1 := O2 1 j ltac:(lia) Hj). unfold csum_n in A0, A1. cbn [seq map fold_right] in A0, A1. rewrite !submatrix_lt, !M in A0, A1 by lia. cbn [Nat.eqb andb] in A0, A1.
      set (ev := nth j E0 C0) in *. destruct (Ceqb_spec ev C0) as [Z|Z].
      - rewrite Z in A1. transitivity (Cadd (Cmul C1 (v 0 j)) (Cadd (Cmul C0 (v 1 j)) C0)); [ring|]. rewrite A1. ring.
      - apply (Cmul_cancel Z). rewrite <- A0. ring. }
    destruct (solve 2 v unit0) as [c|]; [|reflexivity]. exfalso. destruct SO as [SO _]. specialize (SO 0 ltac:(lia)). unfold csum_n in SO. cbn [seq map fold_right] in SO. rewrite !V0 in SO by lia. unfold unit0 in SO. cbn [Nat.eqb] in SO. apply (f_equal fst) in SO. cbn in SO. lra. }
  rewrite S2. reflexivity.
Qed.
Print Assumptions C57_evolution_of_jordan_block_refuted.

(** ** The hypotheses can be met: Pauli X, psi = e1, N_max = 2 *)
Definition rsort : sort_fun := fun l => stable_sort (fun i j => Rltb (nth i l 0%R) (nth j l 0%R)) (seq 0 (List.length l)).
Lemma rsort_ok : sort_ok rsort.
Proof.
  intros l. unfold rsort. set (f := fun i j => Rltb (nth i l 0%R) (nth j l 0%R)). split; [unfold is_perm; apply stable_sort_perm|].
  assert (S := @stable_sort_sorted nat f (fun _ => True)). assert (SS : StronglySorted (stab_lt f lt) (stable_sort f (seq 0 (List.length l)))).
  { apply S with (R := lt).
    - intros x y z _ _ _ E1 E2. apply Rltb_true in E1. apply Rltb_true in E2. apply Rltb_true. lra.
    - intros x y z _ _ _ E. unfold f in *. apply Rltb_true in E. destruct (Rlt_dec (nth x l 0%R) (nth y l 0%R)) as [Q|Q]; [left; now apply Rltb_true|right; apply Rltb_true; lra].
    - apply Forall_forall. auto.
    - apply RowProofs.seq_sorted. }
  rewrite StronglySorted_nth with (d := 0) in SS. intros i j D. specialize (SS i j). rewrite stable_sort_length, seq_length in SS. destruct (SS D) as [Q|[Q _]]; unfold f in Q |- *; [apply Rltb_true in Q; lra|apply Rltb_false in Q; lra].
Qed.
Definition eigX : eig_fun := fun _ _ => ([C1; Copp C1], fun i j => if (i =? 1) && (j =? 1) then RtoC (- s2) else RtoC s2).
Definition solveX : solve_fun := fun _ _ _ => Some (fun _ => RtoC s2).
Lemma pauli_projected : forall m, projected_matrix (Cn 2) pauliX e1 2 m -> forall i j, i < 2 -> j < 2 -> m i j = if i =? j then C0 else C1.
Proof.
  intros m [q [LQ [[OR UN] [Q0 [_ [EN [_ [PO _]]]]]]]]. destruct q as [|a [|b [|? ?]]]; try discriminate. cbn [nth] in *. rewrite norm_e1, R1v in Q0. subst a.
  destruct (PO 0 ltac:(lia)) as [r [RP RE]]. rewrite (EN 1 0) in RE by lia. cbn [nth] in RE. assert (O1 := OR 0 1 ltac:(cbn; lia)). cbn [nth] in O1. assert (U1 := UN b ltac:(right; now left)).
  destruct b as [[b1 b2] [[b3 b4] []]]. assert (A1 := f_equal fst O1). assert (A2 := f_equal snd O1). assert (A3 := f_equal fst RE). assert (A4 := f_equal snd RE). assert (A5 := f_equal fst U1). cbn in A1, A2, A3, A4, A5.
  assert (b1 = 0%R) by lra. assert (b2 = 0%R) by lra. assert (b4 = 0%R) by lra. subst b1 b2 b4. assert (b3 = r) by lra. subst b3. assert (RR : (r * r = 1)%R) by lra.
  assert (r = 1%R) by (destruct (Rtotal_order r 1) as [Q|[Q|Q]]; [exfalso; nra|exact Q|exfalso; nra]). subst r.
  intros i j Hi Hj. rewrite EN by assumption. destruct i as [|[|i]], j as [|[|j]]; try lia; cbn [nth]; apply C_eq; cbn; ring.
Qed.
Example C57_hypotheses_met : a_valid (aopts_with 2 1) = true /\ sort_ok rsort /\ linear (Cn 2) pauliX /\ e1 <> hzero (Cn 2) /\
  eig_right (Cn 2) pauliX e1 2 eigX /\ solve_right (Cn 2) pauliX e1 2 eigX solveX /\ projected_matrix (Cn 2) pauliX e1 2 (fun i j => if (i <? 2) && (j <? 2) && negb (i =? j) then C1 else C0).
Proof.
  split; [reflexivity|]. split; [apply rsort_ok|]. split; [apply pauliX_hermitian|]. split; [intros X; apply (f_equal (fun v => fst (fst v))) in X; cbn in X; lra|].
  assert (Q := s2_sq). assert (VV : forall i j, i < 2 -> j < 2 -> snd (eigX 2 zeros2) i j = if (i =? 1) && (j =? 1) then RtoC (- s2) else RtoC s2) by reflexivity.
  split; [|split].
  - intros n m Hn PM. assert (n = 2) by lia. subst n. assert (M := pauli_projected m PM). cbn [eigX fst snd]. constructor.
    + reflexivity.
    + intros i j Hi Hj. unfold csum_n. cbn [seq map fold_right]. rewrite !M by lia. destruct i as [|[|i]], j as [|[|j]]; try lia; apply C_eq; cbn; ring.
    + intros j Hj. unfold rsum_n. cbn [seq map fold_right]. destruct j as [|[|j]]; try lia; unfold Cnorm2; cbn; lra.
    + intros c x [i [Hi Nx]] EV. assert (A0 := EV 0 ltac:(lia)). assert (A1 := EV 1 ltac:(lia)). unfold csum_n in A0, A1. cbn [seq map fold_right] in A0, A1. rewrite !M in A0, A1 by lia. cbn [Nat.eqb] in A0, A1.
      assert (B0 : x 1 = Cmul c (x 0)) by (transitivity (Cadd (Cmul C0 (x 0)) (Cadd (Cmul C1 (x 1)) C0)); [ring|exact A0]). assert (B1 : x 0 = Cmul c (x 1)) by (transitivity (Cadd (Cmul C1 (x 0)) (Cadd (Cmul C0 (x 1)) C0)); [ring|exact A1]).
      assert (N0 : x 0 <> C0) by (intros Z; destruct i as [|[|i]]; [now apply Nx|apply Nx; rewrite B0, Z; ring|lia]).
      assert (CC : Cmul c c = C1) by (apply (Cmul_cancel N0); rewrite B0 in B1; replace (Cmul (x 0) (Cmul c c)) with (Cmul c (Cmul c (x 0))) by ring; rewrite <- B1; ring).
      destruct (Ceqb_spec c C1) as [E|E]; [left; now symmetry|]. right. left. assert (D : Csub c C1 <> C0) by (intros Z; apply E; replace c with (Cadd (Csub c C1) C1) by ring; rewrite Z; ring).
      assert (F : Cadd c C1 = C0) by (apply (Cmul_cancel D); replace (Cmul (Csub c C1) (Cadd c C1)) with (Csub (Cmul c c) C1) by ring; rewrite CC; ring). replace c with (Csub (Cadd c C1) C1) by ring. rewrite F. ring.
  - intros n m Hn PM. assert (n = 2) by lia. subst n. unfold solveX, solve_ok. cbn [eigX snd]. split.
    + intros i Hi. unfold csum_n. cbn [seq map fold_right]. destruct i as [|[|i]]; try lia; apply C_eq; cbn; lra.
    + intros [j [c [Hj [Nc DC]]]]. assert (A0 := DC 0 ltac:(lia)). assert (A1 := DC 1 ltac:(lia)). unfold csum_n in A0, A1. cbn [seq map fold_right Nat.eqb andb] in A0, A1.
      assert (NS : s2 <> 0%R) by (intros Z; rewrite Z in Q; lra). assert (NSC : RtoC s2 <> C0) by (intros Z; apply (f_equal fst) in Z; cbn in Z; lra).
      assert (S0 : Cadd (c 0) (c 1) = C0) by (apply (Cmul_cancel NSC); transitivity C0; [rewrite <- A0; ring|ring]).
      assert (S1 : Csub (c 0) (c 1) = C0) by (apply (Cmul_cancel NSC); transitivity C0; [rewrite <- A1; apply C_eq; cbn; ring|ring]).
      assert (T0 := f_equal fst S0). assert (T1 := f_equal snd S0). assert (T2 := f_equal fst S1). assert (T3 := f_equal snd S1). cbn in T0, T1, T2, T3. apply Nc. destruct j as [|[|j]]; try lia; apply C_eq; cbn; lra.
  - exists [e1; e2]. split; [reflexivity|]. split; [|split; [|split; [|split; [|split; [|split]]]]].
    + split; [intros [|i] [|[|j]] D; cbn in D; try lia; apply C_eq; cbn; ring|]. intros x [<-|[<-|[]]]; apply C_eq; cbn; ring.
    + cbn [nth]. now rewrite norm_e1, R1v.
    + intros y [<-|[<-|[]]]; apply (span_In (Cn_laws 2)); [now left|right; left; reflexivity].
    + intros i j Hi Hj. destruct i as [|[|i]], j as [|[|j]]; try lia; apply C_eq; cbn; ring.
    + intros i j D. destruct (Nat.ltb_spec i 2), (Nat.ltb_spec j 2); cbn; try reflexivity; lia.
    + intros j Hj. assert (j = 0) by lia. subst j. exists 1%R. split; [lra|]. reflexivity.
    + intros i j D. destruct (Nat.ltb_spec i 2); [lia|reflexivity].
Qed.
