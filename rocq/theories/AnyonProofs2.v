(** Exact verification of the Ising and SU(3)_3 symbol tables, and the Z_N anyon categories. *)
From Coq Require Import Reals QArith Qreals Lra.
From Verif Require Import Util RowModel RowProofs SymModel SymProofs AbelianModel AbelianProofs
  CatSpec CatProofs Cplx Tower FinRing AnyonModel AnyonProofs.
Set Implicit Arguments.
Unset Strict Implicit.
Open Scope R_scope.

Lemma Q2R_0 : Q2R 0 = 0. Proof. unfold Q2R; cbn; lra. Qed.

(** * Q(sqrt 2)(i)(e^{i pi/8}) *)
Definition x2 : exact (Q * Q).
Proof.
  refine (@ext Q Qx 2%Q 1%Q (RtoC (sqrt 2)) _ _).
  - rewrite sqrt_C_sq by lra. cbn [x_h Qx]. unfold Qh, Q2R. cbn. f_equal. lra.
  - apply real_conj, (h_1 Qhom).
Defined.
Lemma x2_h a b : x_h x2 (a, b) = RtoC (Q2R a + Q2R b * sqrt 2).
Proof.
  cbn [x_h x2 ext]. unfold ext_h, x_h, Qx, Qh, fst, snd. now rewrite <- RtoC_mul, <- RtoC_add.
Qed.
Definition x2i : exact (Q * Q * (Q * Q)).
Proof.
  refine (@ext _ x2 (-(1), 0)%Q (-(1), 0)%Q (0, 1) _ _); rewrite x2_h, Q2R_0, Q2R_opp;
    unfold Q2R, Cmul, Cconj, RtoC; cbn [fst snd Qnum Qden]; apply C_eq; cbn [fst snd]; lra.
Defined.
Lemma x2i_h a b c d : x_h x2i ((a, b), (c, d)) = (Q2R a + Q2R b * sqrt 2, Q2R c + Q2R d * sqrt 2).
Proof.
  cbn [x_h x2i ext]. unfold ext_h. cbn [fst snd]. rewrite !x2_h. unfold RtoC, Cmul, Cadd. cbn [fst snd].
  apply C_eq; cbn [fst snd]; lra.
Qed.
Lemma half_sqrt2 : / sqrt 2 = / 2 * sqrt 2.
Proof.
  assert (0 < sqrt 2) by (apply sqrt_lt_R0; lra). assert (S := sqrt_sqrt 2 ltac:(lra)).
  apply Rmult_eq_reg_l with (sqrt 2); [|lra]. rewrite Rinv_r by lra.
  replace (sqrt 2 * (/ 2 * sqrt 2)) with (/ 2 * (sqrt 2 * sqrt 2)) by ring. rewrite S. lra.
Qed.
Lemma cis_PI4 : cis (PI / 4) = (/ 2 * sqrt 2, / 2 * sqrt 2).
Proof. unfold cis. rewrite cos_PI4, sin_PI4. unfold Rdiv. rewrite half_sqrt2. apply C_eq; cbn [fst snd]; lra. Qed.
Definition xis : exact (Q * Q * (Q * Q) * (Q * Q * (Q * Q))).
Proof.
  refine (@ext _ x2i ((0, 1 # 2), (0, 1 # 2))%Q ((0, 1 # 2), (0, -1 # 2))%Q (cis (PI / 8)) _ _).
  - rewrite <- cis_add. replace (PI / 8 + PI / 8) with (PI / 4) by lra. rewrite cis_PI4, x2i_h, Q2R_0.
    unfold Q2R. cbn [Qnum Qden]. apply C_eq; cbn [fst snd]; lra.
  - rewrite <- cis_opp.
    replace (- (PI / 8)) with (- (PI / 4) + PI / 8) by lra. rewrite cis_add. f_equal.
    rewrite cis_opp, cis_PI4, x2i_h, Q2R_0. unfold Q2R, Cconj. cbn [fst snd Qnum Qden].
    apply C_eq; cbn [fst snd]; lra.
Defined.
Notation kis := (Q * Q * (Q * Q) * (Q * Q * (Q * Q)))%type.
Definition kemb (a b c d : Q) : kis := (((a, b), (c, d)), ((0, 0), (0, 0)))%Q.
Lemma kemb_h a b c d : x_h xis (kemb a b c d) = (Q2R a + Q2R b * sqrt 2, Q2R c + Q2R d * sqrt 2).
Proof.
  cbn [x_h xis ext]. unfold kemb, ext_h. cbn [fst snd]. rewrite !x2i_h, !Q2R_0.
  unfold Cadd, Cmul. cbn [fst snd]. apply C_eq; cbn [fst snd]; lra.
Qed.
Definition kw : kis := (((0, 0), (0, 0)), ((1, 0), (0, 0)))%Q.
Lemma kw_h : x_h xis kw = cis (PI / 8).
Proof.
  cbn [x_h xis ext]. unfold kw, ext_h. cbn [fst snd]. rewrite !x2i_h, !Q2R_0.
  replace (Q2R 1) with 1 by (unfold Q2R; cbn; lra).
  unfold Cadd, Cmul. cbn [fst snd]. apply C_eq; cbn [fst snd]; lra.
Qed.
Definition osgn (z : Z) : kis := if (z =? 1)%Z then o1 (x_ops xis) else oopp (x_ops xis) (o1 (x_ops xis)).
Definition kis_f (nu : Z) : list kis :=
  let s := osgn (ising_fs1 nu) in
  let v := omul (x_ops xis) s (kemb 0 (1 # 2) 0 0) in
  [v; o0 (x_ops xis); v; o0 (x_ops xis); oopp (x_ops xis) v].
Definition kis_phase (nu : Z) : kis := opow (x_ops xis) (kemb 0 0 (-(1)) 0) (Z.to_nat nu).
Definition kis_r (nu : Z) : list kis :=
  let s := osgn (ising_fs1 nu) in
  let o := x_ops xis in
  [kis_phase nu; oopp o (o1 o); omul o (opow o kw (Z.to_nat (3 * nu))) s;
   omul o (opow o (oconj o kw) (Z.to_nat nu)) s; o0 o].
Lemma osgn_h nu : x_h xis (osgn (ising_fs1 nu)) = RtoC (IZR (ising_fs1 nu)).
Proof.
  unfold ising_fs1. destruct (_ =? 0)%Z; unfold osgn; cbn [Z.eqb Pos.eqb].
  - rewrite (h_1 (x_hom xis)). reflexivity.
  - rewrite (h_opp (x_hom xis)), (h_1 (x_hom xis)). cbn. apply C_eq; cbn; lra.
Qed.
Lemma kis_f_h nu : map (x_h xis) (kis_f nu) = ising_ftab nu.
Proof.
  unfold kis_f, ising_ftab. cbn [map]. rewrite (h_opp (x_hom xis)), !(h_mul (x_hom xis)), osgn_h, kemb_h, (h_0 (x_hom xis)), Q2R_0.
  replace (1 / sqrt 2) with (/ 2 * sqrt 2) by (unfold Rdiv; rewrite half_sqrt2; lra).
  set (s := IZR (ising_fs1 nu)). unfold Q2R, RtoC. cbn [Qnum Qden Cops omul o0].
  assert (E : Cmul (s, 0) (0 + 1 * / 2 * sqrt 2, 0 + 0 * sqrt 2) = (1 * s * (/ 2 * sqrt 2), 0)).
  { apply C_eq; unfold Cmul; cbn [fst snd]; lra. }
  cbn [oopp]. rewrite E. do 4 (apply f_equal2; [reflexivity|]). apply f_equal2; [|reflexivity]. apply C_eq; cbn [fst snd Cops oopp]; unfold Copp; cbn [fst snd]; ring.
Qed.
Lemma kis_phase_h nu : x_h xis (kis_phase nu) = ising_phase nu.
Proof.
  unfold kis_phase, ising_phase. rewrite (h_pow (x_hom xis)), kemb_h, Q2R_0. f_equal.
  apply C_eq; cbn [fst snd]; unfold Q2R; cbn [Qnum Qden Qopp Z.opp]; lra.
Qed.
Lemma INR_Z n : (0 <= n)%Z -> INR (Z.to_nat n) = IZR n.
Proof. intros. rewrite INR_IZR_INZ. now rewrite Z2Nat.id by lia. Qed.
Lemma kis_r_h nu : (0 <= nu)%Z -> map (x_h xis) (kis_r nu) = ising_rtab nu.
Proof.
  intros Hn. unfold kis_r, ising_rtab. cbn [map].
  rewrite kis_phase_h, (h_opp (x_hom xis)), (h_1 (x_hom xis)), !(h_mul (x_hom xis)), !osgn_h,
    !(h_pow (x_hom xis)), (h_conj (x_hom xis)), kw_h, (h_0 (x_hom xis)).
  cbn [Cops oconj omul o0 oopp o1]. fold Cops. rewrite <- cis_opp, !cis_pow, !INR_Z by lia.
  f_equal. f_equal; [apply C_eq; cbn; lra|].
  rewrite mult_IZR. f_equal; [f_equal; f_equal; lra|]. f_equal. f_equal. f_equal. lra.
Qed.

Definition isecs : list (list Z) := [[0%Z]; [1%Z]; [2%Z]].
Lemma ising_secs a : sym_valid Ising a = true -> In a isecs.
Proof.
  intros V. apply (@C_zn 3) in V. destruct V as (x & -> & B).
  assert (E : x = 0%Z \/ x = 1%Z \/ x = 2%Z) by lia. destruct E as [|[|]]; subst; cbn; auto.
Qed.
Lemma Ising_ring : fusion_ring Ising.
Proof. apply ring_check with (secs := isecs); [exact ising_secs|reflexivity]. Qed.

Definition is_qd_k (a : list Z) : kis := if (q0 a =? 1)%Z then kemb 0 1 0 0 else kemb 1 0 0 0.
Lemma is_qd_h a : x_h xis (is_qd_k a) = RtoC (ising_qdim a).
Proof.
  unfold is_qd_k, ising_qdim. destruct (q0 a =? 1)%Z; rewrite kemb_h; unfold Q2R; cbn [Qnum Qden];
  apply C_eq; cbn [fst snd RtoC]; lra.
Qed.
Definition is_fs_k nu (a : list Z) : kis :=
  nth (Z.to_nat (q0 a)) [o1 (x_ops xis); osgn (ising_fs1 nu); o1 (x_ops xis)] (o0 (x_ops xis)).
Lemma is_fs_h nu a : x_h xis (is_fs_k nu a) = RtoC (IZR (ising_fs nu a)).
Proof.
  unfold is_fs_k, ising_fs. rewrite (h_nth (x_hom xis)). cbn [map]. rewrite osgn_h, (h_1 (x_hom xis)).
  destruct (Z.to_nat (q0 a)) as [|[|[|[]]]]; reflexivity.
Qed.
Definition odd_nus : list Z := [1; 3; 5; 7; 9; 11; 13; 15]%Z.
Lemma odd_nu nu : (0 <= nu < 16)%Z -> Z.odd nu = true -> In nu odd_nus.
Proof.
  intros B O. apply Z.odd_spec in O. destruct O as [m ->]. unfold odd_nus.
  assert (E : (m = 0 \/ m = 1 \/ m = 2 \/ m = 3 \/ m = 4 \/ m = 5 \/ m = 6 \/ m = 7)%Z) by lia.
  cbn [In]. intuition lia.
Qed.
Definition ikF nu := ising_F (x_ops xis) (kis_f nu).
Definition ikR nu := ising_R (x_ops xis) (kis_r nu).
Lemma ising_check :
  forallb (fun nu => check_pentagon (x_ops xis) (x_eqb xis) Ising isecs (ikF nu) &&
                     check_category (x_ops xis) (x_eqb xis) Ising isecs (ikF nu) (ikR nu) (is_fs_k nu) is_qd_k) odd_nus = true.
Proof. vm_compute. reflexivity. Qed.
Lemma ising_category nu : (0 <= nu < 16)%Z -> Z.odd nu = true ->
  braided_category Ising Cops (ising_F Cops (ising_ftab nu)) (ising_R Cops (ising_rtab nu))
    (fun a => RtoC (IZR (ising_fs nu a))) (fun a => RtoC (ising_qdim a)).
Proof.
  intros B O.
  assert (V := ising_check). rewrite forallb_forall in V. specialize (V nu (odd_nu B O)).
  apply andb_true_iff in V. destruct V as [V1 V2].
  apply braided_category_ext with (F := hF (x_h xis) (ikF nu)) (R := hR (x_h xis) (ikR nu))
    (fs := fun a => x_h xis (is_fs_k nu a)) (qd := fun a => x_h xis (is_qd_k a)).
  - intros. unfold hF, ikF. now rewrite (h_ising_F (x_hom xis)), kis_f_h.
  - intros. unfold hR, ikR. now rewrite (h_ising_R (x_hom xis)), kis_r_h by lia.
  - apply is_fs_h.
  - apply is_qd_h.
  - apply category_check with (o := x_ops xis) (eqb := x_eqb xis) (secs := isecs); auto.
    + apply x_hom.
    + apply x_sound.
    + exact ising_secs.
Qed.
(** the C symbol of the code, patched by the defining formula where [b], [c] are not both sigma
    and both non-trivial *)
Definition ising_covered (b c : list Z) : bool :=
  ((q0 b =? 1) && (q0 c =? 1) || (q0 b =? 0) || (q0 c =? 0))%Z.
Definition patched K (o : ops K) (F : Fsym K) (R : Rsym K) (Cc : Fsym K) : Fsym K :=
  fun a b c d e f m n k l =>
    if ising_covered b c then Cc a b c d e f m n k l
    else omul o (R e c d n) (omul o (F c a b d e f m n k l) (oconj o (R a c f k))).
Lemma ising_check_C :
  forallb (fun nu => check_C (x_ops xis) (x_eqb xis) Ising isecs (ikF nu) (ikR nu)
     (patched (x_ops xis) (ikF nu) (ikR nu) (ising_C (x_ops xis) (kis_f nu) (kis_r nu) (kis_phase nu)))) odd_nus = true.
Proof. vm_compute. reflexivity. Qed.
Lemma ising_C_covered nu : (0 <= nu < 16)%Z -> Z.odd nu = true ->
  C_is_RFR Ising Cops (ising_F Cops (ising_ftab nu)) (ising_R Cops (ising_rtab nu))
    (patched Cops (ising_F Cops (ising_ftab nu)) (ising_R Cops (ising_rtab nu))
       (ising_C Cops (ising_ftab nu) (ising_rtab nu) (ising_phase nu))).
Proof.
  intros B O.
  assert (V := ising_check_C). rewrite forallb_forall in V. specialize (V nu (odd_nu B O)). cbv beta in V.
  assert (EF : forall a b c d e f m n k l, hF (x_h xis) (ikF nu) a b c d e f m n k l =
    ising_F Cops (ising_ftab nu) a b c d e f m n k l).
  { intros. unfold hF, ikF. now rewrite (h_ising_F (x_hom xis)), kis_f_h. }
  assert (ER : forall a b c m, hR (x_h xis) (ikR nu) a b c m = ising_R Cops (ising_rtab nu) a b c m).
  { intros. unfold hR, ikR. now rewrite (h_ising_R (x_hom xis)), kis_r_h by lia. }
  eapply C_is_RFR_ext; [exact EF|exact ER| |
    eapply C_check with (o := x_ops xis) (eqb := x_eqb xis) (secs := isecs);
      [apply x_hom|apply x_sound|exact ising_secs|exact V]].
  intros. unfold hC, patched. destruct (ising_covered b c).
  - now rewrite (h_ising_C (x_hom xis)), kis_f_h, kis_r_h, kis_phase_h by lia.
  - rewrite !(h_mul (x_hom xis)), (h_conj (x_hom xis)).
    change (x_h xis (ikR nu e c d n)) with (hR (x_h xis) (ikR nu) e c d n).
    change (x_h xis (ikR nu a c f k)) with (hR (x_h xis) (ikR nu) a c f k).
    change (x_h xis (ikF nu c a b d e f m n k l)) with (hF (x_h xis) (ikF nu) c a b d e f m n k l).
    now rewrite !ER, EF.
Qed.

Lemma ising_nu_range nu : (0 <= ising_nu nu < 16)%Z.
Proof. unfold ising_nu. apply Z.rem_bound_pos; [|lia]. assert (H := Z.rem_bound_abs nu 16 ltac:(lia)). lia. Qed.
Lemma ising_nu_mod nu : ising_nu nu = (nu mod 16)%Z.
Proof.
  unfold ising_nu. assert (H := Z.rem_bound_abs nu 16 ltac:(lia)).
  rewrite Z.rem_mod_nonneg by lia.
  rewrite (Z.quot_rem' nu 16) at 2.
  rewrite Z.add_mod, Z.mod_same, Z.add_0_r, Z.mod_mod by lia.
  rewrite <- Z.add_mod_idemp_l, Z.mul_comm, Z.mod_mul by lia. reflexivity.
Qed.
Lemma ising_nu_odd nu : Z.odd nu = true -> Z.odd (ising_nu nu) = true.
Proof.
  rewrite ising_nu_mod. intros O. rewrite (Z.div_mod nu 16) in O by lia.
  rewrite Z.odd_add, Z.odd_mul in O. change (Z.odd 16) with false in O. destruct (Z.odd (nu mod 16)); [reflexivity|discriminate].
Qed.

(** * SU(3)_3 over Q(sqrt 3)(i) *)
Definition x3 : exact (Q * Q).
Proof.
  refine (@ext Q Qx 3%Q 1%Q (RtoC (sqrt 3)) _ _).
  - rewrite sqrt_C_sq by lra. cbn [x_h Qx]. unfold Qh, Q2R. cbn. f_equal. lra.
  - apply real_conj, (h_1 Qhom).
Defined.
Lemma x3_h a b : x_h x3 (a, b) = RtoC (Q2R a + Q2R b * sqrt 3).
Proof.
  cbn [x_h x3 ext]. unfold ext_h, x_h, Qx, Qh, fst, snd. now rewrite <- RtoC_mul, <- RtoC_add.
Qed.
Definition x3i : exact (Q * Q * (Q * Q)).
Proof.
  refine (@ext _ x3 (-(1), 0)%Q (-(1), 0)%Q (0, 1) _ _); rewrite x3_h, Q2R_0, Q2R_opp;
    unfold Q2R, Cmul, Cconj, RtoC; cbn [fst snd Qnum Qden]; apply C_eq; cbn [fst snd]; lra.
Defined.
Lemma x3i_h a b c d : x_h x3i ((a, b), (c, d)) = (Q2R a + Q2R b * sqrt 3, Q2R c + Q2R d * sqrt 3).
Proof.
  cbn [x_h x3i ext]. unfold ext_h. cbn [fst snd]. rewrite !x3_h. unfold RtoC, Cmul, Cadd. cbn [fst snd].
  apply C_eq; cbn [fst snd]; lra.
Qed.
Definition k3 (a b : Q) : Q * Q * (Q * Q) := ((a, b), (0, 0))%Q.
Lemma k3_h a b : x_h x3i (k3 a b) = RtoC (Q2R a + Q2R b * sqrt 3).
Proof. unfold k3. rewrite x3i_h, Q2R_0. apply C_eq; cbn [fst snd RtoC]; lra. Qed.
Definition k3i : Q * Q * (Q * Q) := ((0, 0), (1, 0))%Q.
Lemma k3i_h : x_h x3i k3i = (0, 1).
Proof. unfold k3i. rewrite x3i_h, Q2R_0. apply C_eq; cbn [fst snd]; unfold Q2R; cbn [Qnum Qden]; lra. Qed.
Lemma inv_sqrt3 : / sqrt 3 = / 3 * sqrt 3.
Proof.
  assert (0 < sqrt 3) by (apply sqrt_lt_R0; lra). assert (S := sqrt_sqrt 3 ltac:(lra)).
  apply Rmult_eq_reg_l with (sqrt 3); [|lra]. rewrite Rinv_r by lra.
  replace (sqrt 3 * (/ 3 * sqrt 3)) with (/ 3 * (sqrt 3 * sqrt 3)) by ring. rewrite S. lra.
Qed.
Lemma sqrt12 : sqrt 12 = 2 * sqrt 3.
Proof.
  replace 12 with (4 * 3) by lra. rewrite sqrt_mult by lra. f_equal.
  replace 4 with (2 * 2) by lra. apply sqrt_square. lra.
Qed.
Definition s3F := su33_F (x_ops x3i) (k3 (1 # 3) 0) (k3 (1 # 2) 0) (k3 0 (1 # 2)) (k3 0 (1 # 3)) (k3 0 (1 # 6)).
Definition s3R := su33_R (x_ops x3i) k3i.
Definition s3C := su33_C (x_ops x3i) (k3 (1 # 3) 0) (k3 (1 # 2) 0) (k3 0 (1 # 2)) (k3 0 (1 # 3)) (k3 0 (1 # 6)) k3i.
Lemma k3_vals : x_h x3i (k3 (1 # 3) 0) = RtoC (1 / 3) /\ x_h x3i (k3 (1 # 2) 0) = RtoC (1 / 2) /\
  x_h x3i (k3 0 (1 # 2)) = RtoC (sqrt 3 / 2) /\ x_h x3i (k3 0 (1 # 3)) = RtoC (1 / sqrt 3) /\
  x_h x3i (k3 0 (1 # 6)) = RtoC (1 / sqrt 12).
Proof.
  assert (0 < sqrt 3) by (apply sqrt_lt_R0; lra).
  rewrite !k3_h. rewrite sqrt12. unfold Rdiv. rewrite Rinv_mult, inv_sqrt3. unfold Q2R. cbn [Qnum Qden].
  repeat split; f_equal; lra.
Qed.
Lemma s3F_h a b c d e f m n k l : x_h x3i (s3F a b c d e f m n k l) = su33_Fc a b c d e f m n k l.
Proof.
  unfold s3F, su33_Fc. rewrite (h_su33_F (x_hom x3i)).
  destruct k3_vals as (-> & -> & -> & -> & ->). reflexivity.
Qed.
Lemma s3R_h a b c m : x_h x3i (s3R a b c m) = su33_Rc a b c m.
Proof. unfold s3R, su33_Rc. now rewrite (h_su33_R (x_hom x3i)), k3i_h. Qed.
Lemma s3C_h a b c d e f m n k l : x_h x3i (s3C a b c d e f m n k l) = su33_Cc a b c d e f m n k l.
Proof.
  unfold s3C, su33_Cc. rewrite (h_su33_C (x_hom x3i)), k3i_h.
  destruct k3_vals as (-> & -> & -> & -> & ->). reflexivity.
Qed.
Definition s3secs : list (list Z) := [[0%Z]; [1%Z]; [2%Z]; [3%Z]].
Lemma su33_secs a : sym_valid SU3_3 a = true -> In a s3secs.
Proof.
  intros V. apply (@C_zn 4) in V. destruct V as (x & -> & B).
  assert (E : (x = 0 \/ x = 1 \/ x = 2 \/ x = 3)%Z) by lia. destruct E as [|[|[|]]]; subst; cbn; auto.
Qed.
Lemma SU3_3_ring : fusion_ring SU3_3.
Proof. apply ring_check with (secs := s3secs); [exact su33_secs|reflexivity]. Qed.
Definition s3_qd (a : list Z) := if (q0 a =? 1)%Z then k3 3 0 else k3 1 0.
Lemma s3_qd_h a : x_h x3i (s3_qd a) = RtoC (su33_qdim a).
Proof.
  unfold s3_qd, su33_qdim. destruct (q0 a =? 1)%Z; rewrite k3_h; f_equal; unfold Q2R; cbn [Qnum Qden]; lra.
Qed.
Lemma su33_category :
  braided_category SU3_3 Cops su33_Fc su33_Rc (fun a => RtoC (IZR (su33_fs a))) (fun a => RtoC (su33_qdim a)).
Proof.
  apply braided_category_ext with (F := hF (x_h x3i) s3F) (R := hR (x_h x3i) s3R)
    (fs := fun a => x_h x3i ((fun _ => o1 (x_ops x3i)) a)) (qd := fun a => x_h x3i (s3_qd a)).
  - exact s3F_h.
  - exact s3R_h.
  - intros. apply (h_1 (x_hom x3i)).
  - exact s3_qd_h.
  - apply category_check with (o := x_ops x3i) (eqb := x_eqb x3i) (secs := s3secs).
    + apply x_hom.
    + apply x_sound.
    + exact su33_secs.
    + vm_compute. reflexivity.
    + vm_compute. reflexivity.
Qed.
Lemma su33_C_ok : C_is_RFR SU3_3 Cops su33_Fc su33_Rc su33_Cc.
Proof.
  eapply C_is_RFR_ext; [exact s3F_h|exact s3R_h|exact s3C_h|].
  apply C_check with (o := x_ops x3i) (eqb := x_eqb x3i) (secs := s3secs).
  - apply x_hom.
  - apply x_sound.
  - exact su33_secs.
  - vm_compute. reflexivity.
Qed.
