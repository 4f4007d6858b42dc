(** Z_N anyon categories. *)
From Coq Require Import Reals Lra.
From Verif Require Import Util RowModel RowProofs SymModel SymProofs AbelianModel AbelianProofs
  CatSpec CatProofs Cplx Tower AnyonModel.
Set Implicit Arguments.
Unset Strict Implicit.
Open Scope nat_scope.

Section AbCat.
  Variable S : symmetry.
  Variable fuse : sector -> sector -> sector.
  Hypothesis G : abelian_group_laws S fuse.
  Notation valid a := (sym_valid S a = true).
  Variable f3 : sector -> sector -> sector -> C.
  Variable r2 : sector -> sector -> C.
  Variable fs : sector -> C.
  Definition aF : Fsym C := fun a b c _ _ _ _ _ _ _ => f3 a b c.
  Definition aR : Rsym C := fun a b _ _ => r2 a b.
  Hypothesis pent : forall a b c d, valid a -> valid b -> valid c -> valid d ->
    Cmul (f3 (fuse a b) c d) (f3 a b (fuse c d)) =
    Cmul (f3 a b c) (Cmul (f3 a (fuse b c) d) (f3 b c d)).
  Hypothesis hexa : forall a b c, valid a -> valid b -> valid c ->
    Cmul (r2 c a) (Cmul (f3 a c b) (r2 c b)) = Cmul (f3 c a b) (Cmul (r2 c (fuse a b)) (f3 a b c)).
  Hypothesis f_real : forall a b c, Cconj (f3 a b c) = f3 a b c.
  Hypothesis f_sq : forall a b c, Cmul (f3 a b c) (f3 a b c) = C1.
  Hypothesis r_unit : forall a b, Cmul (r2 a b) (Cconj (r2 a b)) = C1.
  Hypothesis f_triv : forall a b c, valid a -> valid b -> valid c ->
    a = sym_trivial S \/ b = sym_trivial S \/ c = sym_trivial S -> f3 a b c = C1.
  Hypothesis r_triv : forall a, valid a -> r2 a (sym_trivial S) = C1 /\ r2 (sym_trivial S) a = C1.
  Hypothesis fs_ok : forall a, valid a -> f3 a (sym_dual S a) a = fs a /\ (fs a = C1 \/ fs a = Copp C1).

  Lemma aN a b : valid a -> valid b -> n_symbol S a b (fuse a b) = 1.
  Proof. intros A B. rewrite (ag_n_symbol G) by auto. now rewrite row_eqb_refl. Qed.
  Lemma aOut a b c : valid a -> valid b -> In c (sym_outcomes S a b) -> c = fuse a b.
  Proof. intros A B H. rewrite (ag_outcomes G) in H by auto. destruct H as [H|[]]. auto. Qed.
  Lemma aFuses a b c : valid a -> valid b -> can_fuse_to S a b c = true -> c = fuse a b.
  Proof. rewrite can_fuse_to_In. apply aOut. Qed.
  Lemma sum1 f : sumn Cops 1 f = f 0.
  Proof. unfold sumn, osum. cbn [seq map fold_right Cops oadd o0]. ring. Qed.
  Lemma osum1 (x : C) : osum Cops [x] = x.
  Proof. unfold osum. cbn [fold_right Cops oadd o0]. ring. Qed.

  Lemma ab_hex (r : sector -> sector -> C) :
    (forall a b c, valid a -> valid b -> valid c ->
      Cmul (r c a) (Cmul (f3 a c b) (r c b)) = Cmul (f3 c a b) (Cmul (r c (fuse a b)) (f3 a b c))) ->
    hexagon_for S Cops aF (fun a b _ _ => r a b).
  Proof.
    intros Hr a b c A B D e He d Hd g Hg Fg al be mu nu L1 L2 L3 L4.
    assert (CL := ag_closed G).
    apply aOut in He; auto. subst e. apply aOut in Hd; auto. subst d. apply aOut in Hg; auto. subst g.
    unfold hexagon_lhs, hexagon_rhs. rewrite (ag_outcomes G) by auto. cbn [map].
    rewrite osum1, aN by auto.
    assert (N1 : n_symbol S c (fuse a b) (fuse (fuse a c) b) = 1).
    { rewrite (ag_comm G (a := a) (b := c)), (ag_assoc G) by auto. apply aN; auto. }
    rewrite N1, !sum1. cbn [Cops omul]. unfold aF. now apply Hr.
  Qed.

  Lemma abelian_category : braided_category S Cops aF aR fs (fun _ => C1).
  Proof.
    assert (CL := ag_closed G).
    constructor.
    - intros a b c d A B D E f Hf g Hg e He j Hj Ff i Hi Fi mu nu kap rho gam del L1 L2 L3 L4 L5 L6.
      apply aOut in Hf; auto. subst f. apply aOut in Hg; auto. subst g. apply aOut in He; auto. subst e.
      apply aOut in Hj; auto. subst j. apply aOut in Hi; auto. subst i.
      unfold pentagon_lhs, pentagon_rhs. rewrite (ag_outcomes G (a := b) (b := c)) by auto. cbn [map].
      rewrite osum1.
      assert (N1 : n_symbol S (fuse a b) (fuse c d) (fuse (fuse (fuse a b) c) d) = 1).
      { rewrite (ag_assoc G (a := fuse a b)) by auto. apply aN; auto. }
      assert (N2 : n_symbol S a (fuse b c) (fuse (fuse a b) c) = 1).
      { rewrite (ag_assoc G) by auto. apply aN; auto. }
      assert (N3 : n_symbol S (fuse b c) d (fuse b (fuse c d)) = 1).
      { rewrite <- (ag_assoc G) by auto. apply aN; auto. }
      rewrite N1, N2, N3, aN, !sum1 by auto. cbn [Cops omul]. unfold aF. apply pent; auto.
    - split; [now apply ab_hex|]. unfold aR. apply (@ab_hex (fun a b => Cconj (r2 a b))).
      intros a b c A B D. assert (E := f_equal Cconj (hexa A B D)).
      rewrite !Cconj_mul, !f_real in E. exact E.
    - intros a b c A B D e He d Hd g Hg Fg mu nu mu' nu' L1 L2 L3 L4.
      apply aOut in He; auto. subst e. apply aOut in Hd; auto. subst d. apply aOut in Hg; auto. subst g.
      rewrite !aN in L1, L2, L3, L4 by auto. replace mu with 0 by lia. replace mu' with 0 by lia.
      replace nu with 0 by lia. replace nu' with 0 by lia.
      rewrite row_eqb_refl. cbn [Nat.eqb andb]. unfold F_gram. rewrite (ag_outcomes G) by auto. cbn [map].
      rewrite osum1, aN by auto.
      assert (N1 : n_symbol S (fuse a b) c (fuse a (fuse b c)) = 1).
      { rewrite <- (ag_assoc G) by auto. apply aN; auto. }
      rewrite N1, !sum1. cbn [Cops omul oconj o1]. unfold aF. now rewrite f_real.
    - intros a b A B c Hc mu L. cbn [Cops omul oconj o1]. apply r_unit.
    - intros a b c A B D T e He d Hd f Hf Ff mu nu kap lam L1 L2 L3 L4.
      apply aOut in He; auto. subst e. apply aOut in Hd; auto. subst d. apply aOut in Hf; auto. subst f.
      apply aFuses in Ff; auto. rewrite Ff in *.
      assert (N1 : n_symbol S a (fuse b c) (fuse (fuse a b) c) = 1).
      { rewrite (ag_assoc G) by auto. apply aN; auto. }
      rewrite N1 in *. rewrite !aN in * by auto.
      replace mu with 0 by lia. replace kap with 0 by lia. replace nu with 0 by lia. replace lam with 0 by lia.
      cbn [Nat.mul Nat.add Nat.eqb Cops o1]. apply f_triv; auto.
    - intros a A. apply r_triv; auto.
    - intros a A. destruct (fs_ok A) as [E1 E2]. cbn [Cops omul o1 oopp]. unfold aF. split; auto.
      rewrite E1. ring.
    - intros a b A B. rewrite (ag_outcomes G) by auto. cbn [map]. rewrite osum1, aN, sum1 by auto.
      cbn [Cops omul]. ring.
  Qed.

  (** the C symbol of an abelian category *)
  Lemma abelian_C (c2 : sector -> sector -> C) :
    (forall a b c, valid a -> valid b -> valid c ->
      c2 b c = Cmul (r2 (fuse a b) c) (Cmul (f3 c a b) (Cconj (r2 a c)))) ->
    C_is_RFR S Cops aF aR (fun _ b c _ _ _ _ _ _ _ => c2 b c).
  Proof.
    intros HC a b c A B D e He d Hd f Hf Ff mu nu kap lam L1 L2 L3 L4.
    apply aOut in He; auto. subst e. cbn [Cops omul oconj]. unfold aF, aR. apply HC; auto.
  Qed.
End AbCat.

Open Scope Z_scope.
(** * Z_N anyon fusion rules *)
Lemma ZNAnyon_group N : 1 < N <= 32768 -> abelian_group_laws (ZNAnyon N) (lift2 (zn_fuse N)).
Proof. intros HN. destruct (ZN_group HN). constructor; assumption. Qed.
Lemma zna_valid_inv N a : sym_valid (ZNAnyon N) a = true -> exists x, a = [x] /\ 0 <= x < N.
Proof. intros V. change (sym_valid (ZN N) a = true) in V. apply zn_valid_inv in V. firstorder. Qed.

Lemma phase_pow_add t j k : Cmul (phase_pow t j) (phase_pow t k) = phase_pow t (j + k).
Proof. unfold phase_pow. rewrite <- cis_add. f_equal. rewrite plus_IZR. lra. Qed.
Lemma phase_pow_conj t k : Cconj (phase_pow t k) = phase_pow t (- k).
Proof. unfold phase_pow. rewrite <- cis_opp. f_equal. rewrite opp_IZR. lra. Qed.
Lemma phase_pow_0 t : phase_pow t 0 = C1.
Proof. unfold phase_pow. rewrite Rmult_0_l. apply cis_0. Qed.
Lemma phase_pow_unit t k : Cmul (phase_pow t k) (Cconj (phase_pow t k)) = C1.
Proof. apply cis_norm. Qed.
(** phases with period N *)
Lemma phase_pow_cong t N j k : (exists m, IZR N * t = IZR m * (2 * PI))%R ->
  j mod N = k mod N -> N <> 0 -> phase_pow t j = phase_pow t k.
Proof.
  intros [m Hm] E HN. unfold phase_pow.
  assert (D : j = k + N * (j / N - k / N)).
  { assert (A := Z.div_mod j N HN). assert (B := Z.div_mod k N HN). lia. }
  rewrite D, plus_IZR, mult_IZR, Rmult_plus_distr_r.
  replace (IZR N * IZR (j / N - k / N) * t)%R with (IZR (m * (j / N - k / N)) * (2 * PI))%R.
  - apply cis_period.
  - rewrite mult_IZR. replace (IZR N * IZR (j / N - k / N) * t)%R with (IZR N * t * IZR (j / N - k / N))%R by ring.
    rewrite Hm. ring.
Qed.
(** phases with phase^N = -1 *)
Lemma phase_pow_half t N : (exists m, IZR N * t = (IZR m + / 2) * (2 * PI))%R ->
  forall j k, phase_pow t (j + N * k) = Cmul (phase_pow t j) (RtoC (IZR (if Z.even k then 1 else -1))).
Proof.
  intros [m Hm] j k. unfold phase_pow. rewrite plus_IZR, mult_IZR, Rmult_plus_distr_r, cis_add. f_equal.
  replace (IZR N * IZR k * t)%R with (IZR N * t * IZR k)%R by ring. rewrite Hm.
  replace ((IZR m + / 2) * (2 * PI) * IZR k)%R with (IZR (k * (2 * m + 1)) * PI)%R.
  - rewrite cis_PI_mult. rewrite Z.even_mul.
    replace (Z.even (2 * m + 1)) with false by (rewrite Z.even_add, Z.even_mul; reflexivity).
    rewrite orb_false_r. destruct (Z.even k); unfold RtoC, C1, Copp; cbn [fst snd]; apply C_eq; cbn [fst snd]; lra.
  - rewrite mult_IZR, plus_IZR, mult_IZR. field.
Qed.

Lemma zna_period N n : 1 < N -> exists m, (IZR N * zna_angle N n = IZR m * (2 * PI))%R.
Proof.
  intros HN. exists (Z.rem n N). unfold zna_angle. field. apply not_0_IZR. lia.
Qed.

Lemma zna_category N n : 1 < N <= 32768 ->
  braided_category (ZNAnyon N) Cops zna_F (zna_R N n) (fun _ => C1) (fun _ => C1).
Proof.
  intros HN. assert (P := zna_period n (proj1 HN)).
  apply (abelian_category (ZNAnyon_group HN) (f3 := fun _ _ _ => C1)
          (r2 := fun a b => phase_pow (zna_angle N n) (q0 a * q0 b))).
  - intros. ring.
  - intros a b c A B D. unfold lift2, zn_fuse. change (q0 [?x]) with x.
    change (nth 0 ?a 0) with (q0 a). rewrite mod_n_spec by lia.
    transitivity (Cmul (phase_pow (zna_angle N n) (q0 c * q0 a)) (phase_pow (zna_angle N n) (q0 c * q0 b))); [ring|].
    rewrite phase_pow_add.
    transitivity (phase_pow (zna_angle N n) (q0 c * ((q0 a + q0 b) mod N))); [|ring].
    apply phase_pow_cong with (N := N); auto; [|lia].
    rewrite Z.mul_mod_idemp_r by lia. f_equal. lia.
  - intros. apply C_eq; cbn; lra.
  - intros. ring.
  - intros. apply phase_pow_unit.
  - auto.
  - intros a A. cbn [sym_trivial ZNAnyon q0 nth]. rewrite Z.mul_0_r. split; apply phase_pow_0.
  - auto.
Qed.
Lemma zna_C_ok N n : 1 < N <= 32768 -> C_is_RFR (ZNAnyon N) Cops zna_F (zna_R N n) (zna_C N n).
Proof.
  intros HN. assert (P := zna_period n (proj1 HN)).
  apply (abelian_C (ZNAnyon_group HN) (f3 := fun _ _ _ => C1)
          (r2 := fun a b => phase_pow (zna_angle N n) (q0 a * q0 b))
          (c2 := fun b c => phase_pow (zna_angle N n) (q0 b * q0 c))).
  intros a b c A B D. unfold lift2, zn_fuse. change (q0 [?x]) with x.
  change (nth 0 ?a 0) with (q0 a). rewrite mod_n_spec by lia.
  rewrite phase_pow_conj.
  transitivity (Cmul (phase_pow (zna_angle N n) ((q0 a + q0 b) mod N * q0 c)) (phase_pow (zna_angle N n) (- (q0 a * q0 c)))); [|ring].
  rewrite phase_pow_add. apply phase_pow_cong with (N := N); auto; [|lia].
  rewrite <- Z.add_mod_idemp_l, Z.mul_mod_idemp_l, Z.add_mod_idemp_l by lia. f_equal. lia.
Qed.

(** * Z_N^(n+1/2) *)
Lemma zna2_period N n : 1 < N -> exists m, (IZR N * zna2_angle N n = (IZR m + / 2) * (2 * PI))%R.
Proof.
  intros HN. exists (Z.rem n N). unfold zna2_angle. field. apply not_0_IZR. lia.
Qed.
Lemma parity_even k : parity_sign k = if Z.even k then 1 else -1.
Proof.
  unfold parity_sign. assert (E : Z.rem k 2 =? 0 = Z.even k).
  { apply Bool.eq_true_iff_eq. rewrite Z.eqb_eq, Z.even_spec. rewrite Z.rem_divide by lia.
    unfold Z.divide, Z.Even. split; intros [m ->]; exists m; lia. }
  now rewrite E.
Qed.
Definition sgn (b : bool) : C := RtoC (IZR (if b then 1 else -1)).
Lemma sgn_mul b c : Cmul (sgn b) (sgn c) = sgn (Bool.eqb b c).
Proof. destruct b, c; unfold sgn, RtoC; cbn [Bool.eqb]; apply C_eq; unfold Cmul; cbn [fst snd]; lra. Qed.
Lemma sgn_even_add j k : Cmul (sgn (Z.even j)) (sgn (Z.even k)) = sgn (Z.even (j + k)).
Proof. rewrite sgn_mul. now rewrite Z.even_add. Qed.
Lemma sgn_true : sgn true = C1. Proof. reflexivity. Qed.

Lemma zna2_F_eq N a b c d e f m n k l :
  zna2_F N a b c d e f m n k l = sgn (Z.even (q0 a * Z.quot (q0 b + q0 c) N)).
Proof. unfold zna2_F, sgn. now rewrite parity_even. Qed.

Lemma zna2_hyps N n : 1 < N <= 32768 -> Z.even N = true ->
  let t := zna2_angle N n in
  let f3 := fun a b c : sector => sgn (Z.even (q0 a * Z.quot (q0 b + q0 c) N)) in
  let r2 := fun a b : sector => phase_pow t (q0 a * q0 b) in
  let fuse := lift2 (zn_fuse N) in
  (forall a b c d, sym_valid (ZNAnyon N) a = true -> sym_valid (ZNAnyon N) b = true ->
     sym_valid (ZNAnyon N) c = true -> sym_valid (ZNAnyon N) d = true ->
     Cmul (f3 (fuse a b) c d) (f3 a b (fuse c d)) =
     Cmul (f3 a b c) (Cmul (f3 a (fuse b c) d) (f3 b c d))) /\
  (forall a b c, sym_valid (ZNAnyon N) a = true -> sym_valid (ZNAnyon N) b = true ->
     sym_valid (ZNAnyon N) c = true ->
     Cmul (r2 c a) (Cmul (f3 a c b) (r2 c b)) = Cmul (f3 c a b) (Cmul (r2 c (fuse a b)) (f3 a b c))).
Proof.
  intros HN Ev t f3 r2 fuse. assert (P := zna2_period n (proj1 HN)). fold t in P.
  assert (Q : forall x y, 0 <= x < N -> 0 <= y < N ->
     exists q, Z.quot (x + y) N = q /\ (x + y) mod N = x + y - N * q).
  { intros x y Hx Hy. exists ((x + y) / N). rewrite Z.quot_div_nonneg by lia. split; auto.
    assert (D := Z.div_mod (x + y) N ltac:(lia)). lia. }
  split.
  - intros a b c d A B D E.
    apply zna_valid_inv in A, B, D, E. destruct A as (x & -> & A), B as (y & -> & B), D as (z & -> & D), E as (w & -> & E).
    unfold f3, fuse, lift2, zn_fuse. cbn [q0 nth]. rewrite !mod_n_spec by lia.
    destruct (Q x y A B) as (q1 & Q1 & R1). destruct (Q z w D E) as (q2 & Q2 & R2).
    destruct (Q y z B D) as (q3 & Q3 & R3). rewrite Q2, Q3, R1, R2, R3.
    assert (M1 := Z.mod_pos_bound (z + w) N ltac:(lia)). assert (M2 := Z.mod_pos_bound (y + z) N ltac:(lia)).
    rewrite R2 in M1. rewrite R3 in M2.
    rewrite !Z.quot_div_nonneg by lia.
    replace (y + (z + w - N * q2)) with (y + z + w + (- q2) * N) by lia.
    replace (y + z - N * q3 + w) with (y + z + w + (- q3) * N) by lia.
    rewrite !Z_div_plus_full by lia. set (s := (y + z + w) / N).
    rewrite !sgn_even_add. f_equal.
    rewrite !Z.even_add, !Z.even_mul, !Z.even_add, !Z.even_sub, !Z.even_mul, !Z.even_add, !Z.even_opp, Ev.
    destruct (Z.even x), (Z.even y), (Z.even q2), (Z.even q3), (Z.even s), (Z.even q1); reflexivity.
  - intros a b c A B D.
    apply zna_valid_inv in A, B, D. destruct A as (x & -> & A), B as (y & -> & B), D as (z & -> & D).
    unfold f3, r2, fuse, lift2, zn_fuse. cbn [q0 nth]. rewrite !mod_n_spec by lia.
    destruct (Q x y A B) as (q1 & Q1 & R1). rewrite Q1, R1. rewrite (Z.add_comm z y).
    set (q3 := Z.quot (y + z) N).
    assert (H1 : phase_pow t (z * (x + y - N * q1)) =
                 Cmul (phase_pow t (z * x + z * y)) (sgn (Z.even (z * q1)))).
    { replace (z * (x + y - N * q1)) with (z * x + z * y + N * (- (z * q1))) by lia.
      rewrite (phase_pow_half P). unfold sgn. now rewrite Z.even_opp. }
    rewrite H1, <- phase_pow_add.
    assert (H2 : Cmul (sgn (Z.even (z * q1))) (sgn (Z.even (z * q1))) = C1).
    { rewrite sgn_mul, Bool.eqb_reflx. reflexivity. }
    transitivity (Cmul (Cmul (phase_pow t (z * x)) (phase_pow t (z * y)))
       (Cmul (sgn (Z.even (x * q3))) (Cmul (sgn (Z.even (z * q1))) (sgn (Z.even (z * q1)))))).
    + rewrite H2. ring.
    + ring.
Qed.

Lemma zna2_category N n : 1 < N <= 32768 -> Z.even N = true ->
  braided_category (ZNAnyon N) Cops (zna2_F N) (zna2_R N n) (fun a => RtoC (IZR (zna2_fs a))) (fun _ => C1).
Proof.
  intros HN Ev. destruct (@zna2_hyps N n HN Ev) as [PH HX].
  eapply braided_category_ext; [| | | |
    apply (abelian_category (ZNAnyon_group HN) (f3 := fun a b c => sgn (Z.even (q0 a * Z.quot (q0 b + q0 c) N)))
          (r2 := fun a b => phase_pow (zna2_angle N n) (q0 a * q0 b)) (fs := fun a => RtoC (IZR (zna2_fs a))))].
  - intros. unfold aF. now rewrite zna2_F_eq.
  - reflexivity.
  - reflexivity.
  - reflexivity.
  - exact PH.
  - exact HX.
  - intros. unfold sgn. apply RtoC_conj.
  - intros. rewrite sgn_mul, Bool.eqb_reflx. reflexivity.
  - intros. apply phase_pow_unit.
  - intros a b c A B D T.
    apply zna_valid_inv in A, B, D. destruct A as (x & -> & A), B as (y & -> & B), D as (z & -> & D).
    cbn [q0 nth sym_trivial ZNAnyon] in *. rewrite <- sgn_true. f_equal.
    destruct T as [T|[T|T]]; assert (T0 := f_equal (fun l => nth 0 l 0) T); cbn [nth] in T0; subst.
    + reflexivity.
    + rewrite Z.quot_small by lia. now rewrite Z.mul_0_r.
    + rewrite Z.quot_small by lia. now rewrite Z.mul_0_r.
  - intros a A. cbn [sym_trivial ZNAnyon q0 nth]. rewrite Z.mul_0_r. split; apply phase_pow_0.
  - intros a A. apply zna_valid_inv in A. destruct A as (x & -> & A).
    cbn [sym_dual ZNAnyon]. unfold zna2_fs. cbn [q0 nth]. rewrite parity_even, mod_n_spec by lia.
    split.
    + unfold sgn. f_equal. f_equal.
      destruct (Z.eq_dec x 0) as [->|Nx].
      * rewrite Z.mul_0_l. reflexivity.
      * rewrite Z.mod_opp_l_nz; [|lia|rewrite Z.mod_small; lia]. rewrite Z.mod_small by lia.
        replace (N - x + x) with N by lia. rewrite Z.quot_same by lia. now rewrite Z.mul_1_r.
    + destruct (Z.even x); [now left|right]. apply C_eq; cbn; lra.
Qed.
Lemma zna2_C_ok N n : 1 < N <= 32768 -> Z.even N = true ->
  C_is_RFR (ZNAnyon N) Cops (zna2_F N) (zna2_R N n) (zna2_C N n).
Proof.
  intros HN Ev a b c A B D e He d Hd f Hf Ff mu nu kap lam L1 L2 L3 L4. rewrite zna2_F_eq.
  apply (aOut (ZNAnyon_group HN)) in He; auto. subst e.
  apply zna_valid_inv in A, B, D. destruct A as (x & -> & A), B as (y & -> & B), D as (z & -> & D).
  unfold zna2_C, zna2_R, lift2, zn_fuse. cbn [q0 nth Cops omul oconj]. rewrite mod_n_spec by lia.
  rewrite phase_pow_conj, Z.quot_div_nonneg by lia.
  assert (DM := Z.div_mod (x + y) N ltac:(lia)). set (q := (x + y) / N) in *.
  replace ((x + y) mod N) with (x + y - N * q) by lia.
  replace ((x + y - N * q) * z) with (x * z + y * z + N * (- (z * q))) by lia.
  rewrite (phase_pow_half (zna2_period n (proj1 HN))), Z.even_opp.
  change (RtoC (IZR (if Z.even (z * q) then 1 else -1))) with (sgn (Z.even (z * q))).
  assert (H2 : Cmul (sgn (Z.even (z * q))) (sgn (Z.even (z * q))) = C1).
  { rewrite sgn_mul, Bool.eqb_reflx. reflexivity. }
  set (t := zna2_angle N n) in *.
  transitivity (Cmul (Cmul (phase_pow t (x * z + y * z)) (phase_pow t (- (x * z))))
      (Cmul (sgn (Z.even (z * q))) (sgn (Z.even (z * q))))); [|ring].
  rewrite H2, phase_pow_add. replace (x * z + y * z + - (x * z)) with (y * z) by lia. ring.
Qed.

(** * D(Z_N) *)
Lemma qd_valid_inv N a : sym_valid (QuantumDouble N) a = true ->
  exists x y, a = [x; y] /\ 0 <= x < N /\ 0 <= y < N.
Proof.
  cbn [sym_valid QuantumDouble]. rewrite !andb_true_iff, !Z.leb_le, !Z.ltb_lt, Nat.eqb_eq.
  destruct a as [|x [|y [|]]]; cbn [length q0 q1 nth]; try (intros; exfalso; lia).
  intros H. exists x, y. split; auto. lia.
Qed.
Lemma qd_valid_intro N x y : N <= 32768 -> 0 <= x < N -> 0 <= y < N -> sym_valid (QuantumDouble N) [x; y] = true.
Proof.
  intros. cbn [sym_valid QuantumDouble]. rewrite !andb_true_iff, !Z.leb_le, !Z.ltb_lt. cbn [q0 q1 nth].
  rewrite !int16b_spec. unfold int16. repeat split; auto; lia.
Qed.
Definition qd_fuse (N : Z) (a b : sector) : sector := [(q0 a + q0 b) mod N; (q1 a + q1 b) mod N].
Lemma QD_group N : 1 < N <= 32768 -> abelian_group_laws (QuantumDouble N) (qd_fuse N).
Proof.
  intros HN. assert (Bd : forall x, 0 <= x mod N < N) by (intros; apply Z.mod_pos_bound; lia).
  assert (DU : forall a, sym_valid (QuantumDouble N) a = true ->
     sym_dual (QuantumDouble N) a = [(- q0 a) mod N; (- q1 a) mod N]).
  { intros a A. apply qd_valid_inv in A. destruct A as (x & y & -> & A & B).
    cbn [sym_dual QuantumDouble q0 q1 nth]. rewrite !to_i16_id by (unfold int16; lia).
    now rewrite !mod_n_spec by lia. }
  constructor; try reflexivity.
  - intros a b A B. cbn [sym_outcomes QuantumDouble]. unfold qd_fuse. now rewrite !mod_n_spec by lia.
  - intros a A. apply qd_valid_inv in A. destruct A as (x & y & -> & _). reflexivity.
  - intros. apply qd_valid_intro; auto; lia.
  - apply qd_valid_intro; lia.
  - intros a A. rewrite DU by auto. apply qd_valid_intro; auto; lia.
  - intros a b c A B D. unfold qd_fuse. cbn [q0 q1 nth]. change (nth 0 ?a 0) with (q0 a). change (nth 1 ?a 0) with (q1 a).
    rewrite !Zplus_mod_idemp_l, !Zplus_mod_idemp_r.
    replace (q0 a + q0 b + q0 c) with (q0 a + (q0 b + q0 c)) by lia.
    replace (q1 a + q1 b + q1 c) with (q1 a + (q1 b + q1 c)) by lia. reflexivity.
  - intros. unfold qd_fuse. now rewrite (Z.add_comm (q0 a)), (Z.add_comm (q1 a)).
  - intros a A. apply qd_valid_inv in A. destruct A as (x & y & -> & A & B).
    unfold qd_fuse. cbn [q0 q1 nth sym_trivial QuantumDouble Z.add]. now rewrite !Z.mod_small by lia.
  - intros a A. rewrite DU by auto. unfold qd_fuse. cbn [q0 q1 nth sym_trivial QuantumDouble].
    change (nth 0 ?a 0) with (q0 a). change (nth 1 ?a 0) with (q1 a).
    rewrite !Zplus_mod_idemp_r, !Z.add_opp_diag_r. now rewrite Z.mod_0_l by lia.
Qed.
Lemma qd_period N : 1 < N -> exists m, (IZR N * qd_angle N = IZR m * (2 * PI))%R.
Proof. intros HN. exists 1. unfold qd_angle. field. apply not_0_IZR. lia. Qed.
Lemma qd_category N : 1 < N <= 32768 ->
  braided_category (QuantumDouble N) Cops zna_F (qd_R N) (fun _ => C1) (fun _ => C1).
Proof.
  intros HN. assert (P := qd_period (proj1 HN)).
  apply (abelian_category (QD_group HN) (f3 := fun _ _ _ => C1)
          (r2 := fun a b => phase_pow (qd_angle N) (q0 a * q1 b))).
  - intros. ring.
  - intros a b c A B D. unfold qd_fuse. cbn [q0 q1 nth]. change (nth 0 ?a 0) with (q0 a). change (nth 1 ?a 0) with (q1 a).
    transitivity (Cmul (phase_pow (qd_angle N) (q0 c * q1 a)) (phase_pow (qd_angle N) (q0 c * q1 b))); [ring|].
    rewrite phase_pow_add.
    transitivity (phase_pow (qd_angle N) (q0 c * ((q1 a + q1 b) mod N))); [|ring].
    apply phase_pow_cong with (N := N); auto; [|lia].
    rewrite Z.mul_mod_idemp_r by lia. f_equal. lia.
  - intros. apply C_eq; cbn; lra.
  - intros. ring.
  - intros. apply phase_pow_unit.
  - auto.
  - intros a A. cbn [sym_trivial QuantumDouble q0 q1 nth]. rewrite Z.mul_0_r. split; apply phase_pow_0.
  - auto.
Qed.
Lemma qd_C_ok N : 1 < N <= 32768 -> C_is_RFR (QuantumDouble N) Cops zna_F (qd_R N) (qd_C N).
Proof.
  intros HN. assert (P := qd_period (proj1 HN)).
  apply (abelian_C (QD_group HN) (f3 := fun _ _ _ => C1)
          (r2 := fun a b => phase_pow (qd_angle N) (q0 a * q1 b))
          (c2 := fun b c => phase_pow (qd_angle N) (q0 b * q1 c))).
  intros a b c A B D. unfold qd_fuse. cbn [q0 q1 nth]. change (nth 0 ?a 0) with (q0 a). change (nth 1 ?a 0) with (q1 a).
  rewrite phase_pow_conj.
  transitivity (Cmul (phase_pow (qd_angle N) ((q0 a + q0 b) mod N * q1 c)) (phase_pow (qd_angle N) (- (q0 a * q1 c)))); [|ring].
  rewrite phase_pow_add. apply phase_pow_cong with (N := N); auto; [|lia].
  rewrite <- Z.add_mod_idemp_l, Z.mul_mod_idemp_l, Z.add_mod_idemp_l by lia. f_equal. lia.
Qed.
Lemma qd_all_sectors_spec N : 1 < N <= 32768 ->
  NoDup (qd_all_sectors N) /\ forall a, In a (qd_all_sectors N) <-> sym_valid (QuantumDouble N) a = true.
Proof.
  intros HN. unfold qd_all_sectors.
  assert (E : forall i, (i < Z.to_nat N)%nat -> to_i16 (Z.of_nat i) = Z.of_nat i).
  { intros i Hi. apply to_i16_id. unfold int16. lia. }
  split.
  - apply NoDup_flat_map.
    + apply seq_NoDup.
    + intros i Hi. apply NoDup_map_inj; [|apply seq_NoDup]. intros x y Hx Hy F. apply in_seq in Hx, Hy.
      assert (F0 := f_equal (fun l => nth 0 l 0) F). cbn [nth] in F0. rewrite !E in F0 by lia. lia.
    + intros i j z Hi Hj Hz Hz'. apply in_map_iff in Hz, Hz'. destruct Hz as (x & <- & Hx), Hz' as (y & F & Hy).
      apply in_seq in Hi, Hj, Hx, Hy.
      assert (F0 := f_equal (fun l => nth 1 l 0) F). cbn [nth] in F0. rewrite !E in F0 by lia. lia.
  - intros a. rewrite in_flat_map. split.
    + intros (i & Hi & H). apply in_map_iff in H. destruct H as (j & <- & Hj). apply in_seq in Hi, Hj.
      rewrite !E by lia. apply qd_valid_intro; lia.
    + intros V. apply qd_valid_inv in V. destruct V as (x & y & -> & A & B).
      exists (Z.to_nat y). split; [apply in_seq; lia|]. apply in_map_iff. exists (Z.to_nat x).
      split; [|apply in_seq; lia]. rewrite !E, !Z2Nat.id by lia. reflexivity.
Qed.
