(** Exact verification of the Fibonacci, Ising and SU(3)_3 symbol tables. *)
From Coq Require Import Reals QArith Qreals Lra.
From Verif Require Import Util RowModel RowProofs SymModel SymProofs AbelianModel AbelianProofs
  CatSpec CatProofs Cplx Tower FinRing AnyonModel.
Set Implicit Arguments.
Unset Strict Implicit.
Open Scope R_scope.

Lemma C_zn (n : Z) (a : list Z) :
  (len1 a && ((0 <=? q0 a)%Z && (q0 a <? n)%Z))%bool = true -> exists x, a = [x] /\ (0 <= x < n)%Z.
Proof.
  rewrite !andb_true_iff. intros [A B]. apply len1_inv in A. destruct A as [x ->]. exists x.
  cbn [q0 nth] in B. split; auto. rewrite Z.leb_le, Z.ltb_lt in B. exact B.
Qed.

Section Trans.
  Variables K : Type.
  Variable o : ops K.
  Variable h : K -> C.
  Hypothesis H : hom o Cops h.
  Lemma h_nth n l : h (nth n l (o0 o)) = nth n (map h l) (o0 Cops).
  Proof.
    rewrite <- (h_0 H). symmetry. apply map_nth.
  Qed.
  Lemma h_default_c F R F' R' a b c d e f m n k l :
    (forall a b c d e f m n k l, h (F a b c d e f m n k l) = F' a b c d e f m n k l) ->
    (forall a b c m, h (R a b c m) = R' a b c m) ->
    h (default_c_symbol o F R a b c d e f m n k l) = default_c_symbol Cops F' R' a b c d e f m n k l.
  Proof.
    intros EF ER. unfold default_c_symbol. now rewrite !(h_mul H), (h_conj H), EF, !ER.
  Qed.
  Lemma h_fib_F ft a b c d e f m n k l :
    h (fib_F o ft a b c d e f m n k l) = fib_F Cops (map h ft) a b c d e f m n k l.
  Proof. unfold fib_F. destruct (all_tau a b && all_tau c d); [apply h_nth|apply H]. Qed.
  Lemma h_fib_R rt a b c m : h (fib_R o rt a b c m) = fib_R Cops (map h rt) a b c m.
  Proof. unfold fib_R. destruct (all_tau a b); [apply h_nth|apply H]. Qed.
  Lemma h_fib_C ft rt a b c d e f m n k l :
    h (fib_C o ft rt a b c d e f m n k l) = fib_C Cops (map h ft) (map h rt) a b c d e f m n k l.
  Proof.
    unfold fib_C. destruct (all_tau b c); [|apply H]. rewrite h_nth. f_equal.
    unfold fib_ctab. cbn [map].
    rewrite (h_0 H), !(@h_default_c _ _ (fib_F Cops (map h ft)) (fib_R Cops (map h rt))) by (intros; auto using h_fib_F, h_fib_R).
    reflexivity.
  Qed.
  Lemma h_ising_F ft a b c d e f m n k l :
    h (ising_F o ft a b c d e f m n k l) = ising_F Cops (map h ft) a b c d e f m n k l.
  Proof.
    unfold ising_F. destruct (sectors_are a b c d 1 1 1 1); [apply h_nth|].
    destruct (sectors_are a b c d 2 1 2 1); [now rewrite (h_opp H), (h_1 H)|].
    destruct (sectors_are a b c d 1 2 1 2); [now rewrite (h_opp H), (h_1 H)|apply H].
  Qed.
  Lemma h_ising_R rt a b c m : h (ising_R o rt a b c m) = ising_R Cops (map h rt) a b c m.
  Proof. unfold ising_R. destruct (negb _ && negb _); [apply h_nth|apply H]. Qed.
  Lemma h_ising_C ft rt p a b c d e f m n k l :
    h (ising_C o ft rt p a b c d e f m n k l) = ising_C Cops (map h ft) (map h rt) (h p) a b c d e f m n k l.
  Proof.
    unfold ising_C. destruct ((q0 b =? 1)%Z && (q0 c =? 1)%Z); [|apply H]. rewrite h_nth. f_equal.
    unfold ising_ctab. cbn [map].
    rewrite (h_0 H), !(h_opp H), (h_1 H),
      !(@h_default_c _ _ (ising_F Cops (map h ft)) (ising_R Cops (map h rt)))
      by (intros; auto using h_ising_F, h_ising_R).
    reflexivity.
  Qed.

  Lemma h_mat_get m i j : h (mat_get o m i j) = mat_get Cops (map (map h) m) i j.
  Proof.
    unfold mat_get. rewrite h_nth. f_equal. change (@nil C) with (map h []). symmetry. apply map_nth.
  Qed.
  Lemma h_slice m r0 r1 c0 c1 :
    map h (slice2d_block o m r0 r1 c0 c1) = slice2d_block Cops (map (map h) m) r0 r1 c0 c1.
  Proof.
    unfold slice2d_block. rewrite !flat_map_concat_map, concat_map, map_map. f_equal.
    apply map_ext. intros i. rewrite map_map. apply map_ext. intros j. apply h_mat_get.
  Qed.
  Lemma h_reshaped data s1 s2 s3 m n k l :
    h (reshaped o data s1 s2 s3 m n k l) = reshaped Cops (map h data) s1 s2 s3 m n k l.
  Proof. apply h_nth. Qed.

  Variables third half s3h is3 is12 ii : K.
  Notation Fk := (su33_F o third half s3h is3 is12).
  Notation Fh := (su33_F Cops (h third) (h half) (h s3h) (h is3) (h is12)).
  Lemma h_f4 : map (map h) (su33_f4 o third half is3 is12) =
               su33_f4 Cops (h third) (h half) (h is3) (h is12).
  Proof. unfold su33_f4. cbn [map]. now rewrite !(h_opp H), (h_0 H). Qed.
  Lemma h_su33_F a b c d e f m n k l : h (Fk a b c d e f m n k l) = Fh a b c d e f m n k l.
  Proof.
    unfold su33_F. destruct (_ || _)%bool; [apply H|].
    unfold su33_F_allowed. cbv zeta.
    destruct (count_z _ _ =? 4)%nat.
    { destruct (f4_slices (q0 e)) as [e0 e1], (f4_slices (q0 f)) as [f0 f1].
      now rewrite h_reshaped, h_slice, h_f4. }
    destruct (count_z _ _ =? 3)%nat.
    { destruct (nth _ _ _ =? 0)%Z; [|destruct (_ || _)%bool];
        rewrite h_reshaped; unfold flat2, su33_f1, su33_f2, su33_f3; cbn [concat map app];
        rewrite ?(h_opp H), ?(h_0 H), ?(h_1 H); reflexivity. }
    destruct ((count_z _ _ =? 2)%nat && _).
    { destruct (find_index _ _ 0) as [i1|]; [|apply H].
      destruct (find_index _ _ (S i1)) as [i2|]; [|apply H].
      destruct (_ || _)%bool; [now rewrite (h_opp H), (h_1 H)|apply H]. }
    destruct ((count_z _ _ =? 0)%nat && _); [|apply H].
    match goal with |- h (if ?b then _ else _) = _ => destruct b end;
      [now rewrite (h_opp H), (h_1 H)|apply H].
  Qed.
  Lemma h_su33_R a b c m : h (su33_R o ii a b c m) = su33_R Cops (h ii) a b c m.
  Proof.
    unfold su33_R. destruct (_ && _); [|apply H]. destruct (_ =? _)%Z.
    - rewrite h_nth. cbn [map]. now rewrite (h_opp H).
    - now rewrite (h_opp H), (h_1 H).
  Qed.
  Lemma h_su33_C a b c d e f m n k l :
    h (su33_C o third half s3h is3 is12 ii a b c d e f m n k l) =
    su33_C Cops (h third) (h half) (h s3h) (h is3) (h is12) (h ii) a b c d e f m n k l.
  Proof.
    unfold su33_C. destruct (_ && _ && _ && _); [|apply H].
    apply h_default_c; intros; auto using h_su33_F, h_su33_R.
  Qed.
End Trans.

(** pointwise equal C symbols *)
Lemma C_is_RFR_ext S K (o : ops K) F F' R R' C C' :
  (forall a b c d e f m n k l, F a b c d e f m n k l = F' a b c d e f m n k l) ->
  (forall a b c m, R a b c m = R' a b c m) ->
  (forall a b c d e f m n k l, C a b c d e f m n k l = C' a b c d e f m n k l) ->
  C_is_RFR S o F R C -> C_is_RFR S o F' R' C'.
Proof.
  intros EF ER EC HC a b c Va Vb Vc e He d Hd f Hf Ff m n k l L1 L2 L3 L4.
  rewrite <- EC, <- !ER, <- EF. auto.
Qed.

(** * Fibonacci: Q(sqrt 5)(1/sqrt phi)(i sin(3pi/5)) *)
Lemma sqrt5_sq : sqrt 5 * sqrt 5 = 5.
Proof. apply sqrt_sqrt. lra. Qed.
Lemma sqrt5_gt : 2 < sqrt 5.
Proof. apply Rsqr_incrst_0; unfold Rsqr; [rewrite sqrt5_sq; lra|lra|apply sqrt_pos]. Qed.
Lemma phi_pos : 0 < phi.
Proof. unfold phi. assert (H := sqrt5_gt). lra. Qed.
Lemma inv_phi : / phi = (sqrt 5 - 1) / 2.
Proof.
  assert (P := phi_pos). apply Rmult_eq_reg_l with phi; [|lra]. rewrite Rinv_r by lra.
  unfold phi. assert (H := sqrt5_sq). nra.
Qed.

Lemma real_conj r (x : C) : x = C1 -> Cconj (RtoC r) = Cmul x (RtoC r).
Proof. intros ->. rewrite RtoC_conj. ring. Qed.

Definition x5 : exact (Q * Q).
Proof.
  refine (@ext Q Qx 5%Q 1%Q (RtoC (sqrt 5)) _ _).
  - rewrite sqrt_C_sq by lra. cbn [x_h Qx]. unfold Qh, Q2R. cbn. f_equal. lra.
  - apply real_conj, (h_1 Qhom).
Defined.
Lemma x5_h a b : x_h x5 (a, b) = RtoC (Q2R a + Q2R b * sqrt 5).
Proof.
  cbn [x_h x5 ext]. unfold ext_h, x_h, Qx, Qh, fst, snd. now rewrite <- RtoC_mul, <- RtoC_add.
Qed.
Definition x5f : exact (Q * Q * (Q * Q)).
Proof.
  refine (@ext _ x5 ((-1 # 2), (1 # 2))%Q (1%Q, 0%Q) (RtoC (/ sqrt phi)) _ _).
  - rewrite x5_h, <- RtoC_mul. f_equal. rewrite <- Rinv_mult. rewrite sqrt_sqrt by (left; apply phi_pos).
    rewrite inv_phi. unfold Q2R. cbn. lra.
  - apply real_conj, (h_1 (x_hom x5)).
Defined.
Lemma x5f_h a b : x_h x5f (a, b) = Cadd (x_h x5 a) (Cmul (x_h x5 b) (RtoC (/ sqrt phi))).
Proof. reflexivity. Qed.

Lemma cos_3PI5 : cos (3 * PI / 5) = (1 - sqrt 5) / 4.
Proof.
  set (c := cos (PI / 5)).
  assert (P := PI_RGT_0).
  assert (Hc : 0 < c) by (apply cos_gt_0; lra).
  assert (C2 : cos (2 * (PI / 5)) = 2 * c * c - 1) by apply cos_2a_cos.
  assert (C3 : cos (3 * PI / 5) = 4 * c * c * c - 3 * c).
  { replace (3 * PI / 5) with (2 * (PI / 5) + PI / 5) by lra. rewrite cos_plus, C2, sin_2a.
    fold c. assert (S := sin2_cos2 (PI / 5)). unfold Rsqr in S. fold c in S.
    replace (2 * sin (PI / 5) * c * sin (PI / 5)) with (2 * c * (sin (PI / 5) * sin (PI / 5))) by ring.
    replace (sin (PI / 5) * sin (PI / 5)) with (1 - c * c) by lra. ring. }
  assert (C4 : cos (3 * PI / 5) = - cos (2 * (PI / 5))).
  { replace (3 * PI / 5) with (- (2 * (PI / 5)) + PI) by lra. rewrite neg_cos, cos_neg. reflexivity. }
  assert (E : (c + 1) * (4 * c * c - 2 * c - 1) = 0) by (rewrite C3, C2 in C4; nra).
  apply Rmult_integral in E. destruct E as [E|E]; [lra|].
  assert (S5 := sqrt5_sq). assert (G := sqrt5_gt).
  assert (E2 : (4 * c - 1 - sqrt 5) * (4 * c - 1 + sqrt 5) = 0) by nra.
  apply Rmult_integral in E2. destruct E2 as [E2|E2]; [|lra].
  rewrite C3. replace c with ((1 + sqrt 5) / 4) by lra.
  replace (4 * ((1 + sqrt 5) / 4) * ((1 + sqrt 5) / 4) * ((1 + sqrt 5) / 4)) with
    ((1 + sqrt 5) * (1 + 2 * sqrt 5 + sqrt 5 * sqrt 5) / 16) by field.
  rewrite S5. nra.
Qed.

Definition xfib : exact (Q * Q * (Q * Q) * (Q * Q * (Q * Q))).
Proof.
  refine (@ext _ x5f (((-5 # 8), (-1 # 8)), (0, 0))%Q (((-1)%Q, 0%Q), (0%Q, 0%Q)) (0, sin (3 * PI / 5)) _ _).
  - rewrite x5f_h, !x5_h. assert (S := sin2_cos2 (3 * PI / 5)). unfold Rsqr in S. rewrite cos_3PI5 in S.
    assert (S5 := sqrt5_sq). unfold Q2R, RtoC, Cmul, Cadd. cbn [fst snd Qnum Qden].
    apply C_eq; cbn [fst snd]; nra.
  - rewrite x5f_h, !x5_h. unfold Q2R, RtoC, Cmul, Cadd, Cconj. cbn [fst snd Qnum Qden].
    apply C_eq; cbn [fst snd]; nra.
Defined.
Definition kf5 (a b : Q) : Q * Q * (Q * Q) * (Q * Q * (Q * Q)) := (((a, b), (0, 0)), ((0, 0), (0, 0)))%Q.
Definition kff (a b : Q) : Q * Q * (Q * Q) * (Q * Q * (Q * Q)) := (((0, 0), (a, b)), ((0, 0), (0, 0)))%Q.
(** e^{3 pi i/5} = (1 - sqrt 5)/4 + w *)
Definition kfr1 : Q * Q * (Q * Q) * (Q * Q * (Q * Q)) := (((1 # 4, -1 # 4), (0, 0)), ((1, 0), (0, 0)))%Q.
Definition kfib_f := [kf5 (-1 # 2) (1 # 2); kff 1 0; kf5 (1 # 2) (-1 # 2)].
Definition kfib_r (rh : bool) :=
  let l := [omul (x_ops xfib) kfr1 kfr1; kfr1] in
  if rh then map (oconj (x_ops xfib)) l else l.
Lemma xfib_h a b : x_h xfib (a, b) = Cadd (x_h x5f a) (Cmul (x_h x5f b) (0, sin (3 * PI / 5))).
Proof. reflexivity. Qed.
Lemma kf5_h a b : x_h xfib (kf5 a b) = RtoC (Q2R a + Q2R b * sqrt 5).
Proof.
  unfold kf5. rewrite xfib_h, !x5f_h, !x5_h. replace (Q2R 0) with 0 by (unfold Q2R; cbn; lra).
  unfold RtoC, Cmul, Cadd. cbn [fst snd]. apply C_eq; cbn [fst snd]; lra.
Qed.
Lemma kff_h a b : x_h xfib (kff a b) = RtoC ((Q2R a + Q2R b * sqrt 5) * / sqrt phi).
Proof.
  unfold kff. rewrite xfib_h, !x5f_h, !x5_h. replace (Q2R 0) with 0 by (unfold Q2R; cbn; lra).
  unfold RtoC, Cmul, Cadd. cbn [fst snd]. apply C_eq; cbn [fst snd]; lra.
Qed.
Lemma kfr1_h : x_h xfib kfr1 = cis (3 * PI / 5).
Proof.
  unfold kfr1. rewrite xfib_h, !x5f_h, !x5_h. unfold cis. rewrite cos_3PI5.
  unfold Q2R, RtoC, Cmul, Cadd. cbn [fst snd Qnum Qden].
  apply C_eq; cbn [fst snd]; lra.
Qed.
Lemma fib_f_h : map (x_h xfib) kfib_f = fib_ftab.
Proof.
  unfold kfib_f, fib_ftab. cbn [map]. rewrite !kf5_h, kff_h, inv_phi.
  unfold Q2R. cbn [Qnum Qden]. f_equal; [f_equal; lra|]. f_equal; [f_equal; lra|]. f_equal. f_equal. lra.
Qed.
Lemma fib_r_h rh : map (x_h xfib) (kfib_r rh) = fib_rtab rh.
Proof.
  assert (E : map (x_h xfib) [omul (x_ops xfib) kfr1 kfr1; kfr1] = [cis (-4 * PI / 5); cis (3 * PI / 5)]).
  { cbn [map]. rewrite (h_mul (x_hom xfib)), kfr1_h. cbn [Cops omul]. rewrite <- cis_add.
    f_equal. rewrite <- (cis_period (-4 * PI / 5) 1). f_equal. lra. }
  unfold kfib_r, fib_rtab. destruct rh; [|exact E].
  rewrite <- E. rewrite !map_map. apply map_ext. intros a. apply (h_conj (x_hom xfib)).
Qed.

Lemma fib_secs a : sym_valid Fibonacci a = true -> In a [[0%Z]; [1%Z]].
Proof.
  intros V. apply (@C_zn 2) in V. destruct V as (x & -> & B).
  assert (E : x = 0%Z \/ x = 1%Z) by lia. destruct E; subst; cbn; auto.
Qed.
Lemma Fibonacci_ring : fusion_ring Fibonacci.
Proof. apply ring_check with (secs := [[0%Z]; [1%Z]]); [exact fib_secs|reflexivity]. Qed.

Definition fib_qd_k (a : list Z) := if (q0 a =? 0)%Z then kf5 1 0 else kf5 (1 # 2) (1 # 2).
Lemma fib_qd_h a : x_h xfib (fib_qd_k a) = RtoC (fib_qdim a).
Proof.
  unfold fib_qd_k, fib_qdim, phi. destruct (q0 a =? 0)%Z; rewrite kf5_h; f_equal; unfold Q2R; cbn [Qnum Qden]; lra.
Qed.
Definition kF := fib_F (x_ops xfib) kfib_f.
Definition kR rh := fib_R (x_ops xfib) (kfib_r rh).
Definition kC rh := fib_C (x_ops xfib) kfib_f (kfib_r rh).
Lemma fib_category_k rh :
  braided_category Fibonacci Cops (hF (x_h xfib) kF) (hR (x_h xfib) (kR rh))
    (fun a => x_h xfib ((fun _ => o1 (x_ops xfib)) a)) (fun a => x_h xfib (fib_qd_k a)).
Proof.
  apply category_check with (o := x_ops xfib) (eqb := x_eqb xfib) (secs := [[0%Z]; [1%Z]]).
  - apply x_hom.
  - apply x_sound.
  - exact fib_secs.
  - vm_compute. reflexivity.
  - destruct rh; vm_compute; reflexivity.
Qed.
Lemma fib_category rh :
  braided_category Fibonacci Cops (fib_F Cops fib_ftab) (fib_R Cops (fib_rtab rh))
    (fun a => RtoC (IZR (fib_fs a))) (fun a => RtoC (fib_qdim a)).
Proof.
  eapply braided_category_ext; [| | | |exact (fib_category_k rh)]; intros.
  - unfold hF, kF. now rewrite (h_fib_F (x_hom xfib)), fib_f_h.
  - unfold hR, kR. now rewrite (h_fib_R (x_hom xfib)), fib_r_h.
  - apply (h_1 (x_hom xfib)).
  - apply fib_qd_h.
Qed.
Lemma fib_C_ok rh :
  C_is_RFR Fibonacci Cops (fib_F Cops fib_ftab) (fib_R Cops (fib_rtab rh)) (fib_C Cops fib_ftab (fib_rtab rh)).
Proof.
  apply C_is_RFR_ext with (F := hF (x_h xfib) kF) (R := hR (x_h xfib) (kR rh)) (C := hC (x_h xfib) (kC rh)).
  - intros. unfold hF, kF. now rewrite (h_fib_F (x_hom xfib)), fib_f_h.
  - intros. unfold hR, kR. now rewrite (h_fib_R (x_hom xfib)), fib_r_h.
  - intros. unfold hC, kC. now rewrite (h_fib_C (x_hom xfib)), fib_f_h, fib_r_h.
  - apply C_check with (o := x_ops xfib) (eqb := x_eqb xfib) (secs := [[0%Z]; [1%Z]]).
    + apply x_hom.
    + apply x_sound.
    + exact fib_secs.
    + destruct rh; vm_compute; reflexivity.
Qed.
