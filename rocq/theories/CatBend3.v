(** The B symbols of a category are invertible, with the quantum dimensions that the code computes. *)
From Coq Require Import Reals Lra.
From Verif Require Import Util RowModel RowProofs SymModel SymProofs CatSpec Sums StarMat CatBend CatBend2 TreeModel MoveModel BendSpec Cplx Tower StarCplx TwistModel.
Set Implicit Arguments. Unset Strict Implicit.
Open Scope nat_scope.

Section General.
  Variable S : symmetry.
  Hypothesis RING : fusion_ring S.
  Variable K : Type.
  Variable o : ops K.
  Hypothesis ST : star_laws o.
  Variable F : Fsym K.
  Variables fs qd sq isq : sector -> K.
  Hypothesis PENT : pentagon S o F.
  Hypothesis UNI : F_unitary S o F.
  Hypothesis TRIV : F_trivial S o F.
  Hypothesis FQ : FS_qdim S o F fs qd.
  Notation SR := (st_semi ST).
  Add Ring Kr : (st_RT ST).
  Notation "x ** y" := (omul o x y) (at level 40, left associativity).
  Notation conj := (oconj o).
  Notation N := (n_symbol S).
  Notation valid a := (sym_valid S a = true).
  Notation one := (sym_trivial S).
  Notation dual := (sym_dual S).
  Lemma loop_one : F one (dual one) one one one one 0 0 0 0 = o1 o.
  Proof.
    assert (V1 := fr_trivial_valid RING). rewrite (fr_dual_trivial RING). assert (I1 := In_unit_r RING V1). assert (N1 := N_unit_r RING V1).
    rewrite (@TRIV one one one V1 V1 V1 (or_introl eq_refl) one I1 one I1 one I1 (proj2 (fuses_In S one one one) I1) 0 0 0 0); try (rewrite N1; lia). reflexivity.
  Qed.
  Lemma one_dims : qd one = fs one.
  Proof. destruct (FQ (fr_trivial_valid RING)) as [H _]. rewrite loop_one in H. rewrite <- H. ring. Qed.
  Hypothesis SQ : forall a, valid a -> sq a ** sq a = qd a.
  Hypothesis SC : forall a, valid a -> conj (sq a) = sq a.
  Hypothesis SD : forall a, valid a -> sq (dual a) = sq a.
  Hypothesis SI : forall a, valid a -> sq a ** isq a = o1 o.
  Hypothesis S1 : sq one = o1 o.
  Lemma bend_data_default : bend_data S o (default_b_symbol S o F sq) sq isq fs.
  Proof.
    assert (QD : forall a, valid a -> qd (dual a) = qd a). { intros a V. rewrite <- (SQ (fr_dual_valid RING V)), <- (SQ V), (SD V). reflexivity. }
    assert (QR : forall a, valid a -> conj (qd a) = qd a). { intros a V. rewrite <- (SQ V), (st_mul ST), (SC V). reflexivity. }
    constructor.
    - intros a z c Va Vz Ic mu mu' Hm Hm'. assert (B := @bend_identity S RING K o ST F fs qd PENT UNI TRIV FQ a z c Va Vz Ic mu Hm mu' Hm'). destruct (fs_sq ST FQ Vz) as [F1 _].
      assert (E : sumn o (N c (dual z) a) (fun nu => default_b_symbol S o F sq a z c mu nu ** conj (default_b_symbol S o F sq c (dual z) a nu mu')) = if mu =? mu' then fs z else o0 o).
      { rewrite <- B. unfold sumn. rewrite <- (sum_mul_r SR). apply sum_ext. intros nu _. unfold default_b_symbol. rewrite (fr_dual_invol RING Vz), (st_mul ST), (st_invol ST), (SD Vz), (SC Vz), <- (SQ Vz). ring. }
      rewrite E. destruct (mu =? mu'); [exact F1|ring].
    - exact SI.
    - split; [exact S1|]. rewrite <- one_dims, <- (SQ (fr_trivial_valid RING)), S1. ring.
    - intros a V. destruct (fs_sq ST FQ V) as [F1 F2]. split; [exact F1|]. split; [exact F2|]. exact (@fs_dual S RING K o ST F fs qd PENT UNI TRIV FQ QR QD a V).
  Qed.
End General.

(** with the quantum dimensions of the code *)
Section Numbers.
  Variable S : symmetry.
  Hypothesis RING : fusion_ring S.
  Variable F : Fsym C.
  Variable Rs : Rsym C.
  Variables fs qd : sector -> C.
  Hypothesis BC : braided_category S Cops F Rs fs qd.
  Notation valid a := (sym_valid S a = true).
  Notation one := (sym_trivial S).
  Notation dual := (sym_dual S).
  Hypothesis POS : forall a, valid a -> exists d, (0 < d)%R /\ qd a = RtoC d.
  Open Scope R_scope.
  Lemma loop_value a d : valid a -> 0 < d -> qd a = RtoC d -> (fs a = C1 /\ f_loop S F a = RtoC (/ d)) \/ (fs a = Copp C1 /\ f_loop S F a = RtoC (- / d)).
  Proof.
    intros V D E. destruct (bc_fs BC V) as [H FE]. fold (f_loop S F a) in H. rewrite E in H. cbn [Cops omul] in H. assert (G : f_loop S F a = Cmul (fs a) (RtoC (/ d))).
    { rewrite <- H. destruct (f_loop S F a) as [x y]. apply C_eq; unfold Cmul, RtoC; cbn [fst snd]; field; lra. }
    destruct FE as [FE|FE]; rewrite FE in *; cbn [Cops o1 oopp] in *; [left|right]; (split; [reflexivity|]); rewrite G; apply C_eq; unfold Cmul, RtoC, C1, Copp; cbn [fst snd]; ring.
  Qed.
  Lemma code_qdim a d : valid a -> 0 < d -> qd a = RtoC d -> qdim S F a = d.
  Proof.
    intros V D E. unfold qdim. assert (G : Cnorm2 (f_loop S F a) = / d * / d) by (destruct (loop_value V D E) as [[_ H]|[_ H]]; rewrite H; unfold Cnorm2, RtoC; cbn [fst snd]; ring).
    rewrite G, sqrt_square by (left; now apply Rinv_0_lt_compat). apply Rinv_inv.
  Qed.
  Lemma code_numbers a : valid a -> 0 < qdim S F a /\ RtoC (qdim S F a) = qd a /\ frobenius_schur S F a = fs a.
  Proof.
    intros V. destruct (POS V) as (d & D & E). rewrite (code_qdim V D E). split; [exact D|]. split; [now rewrite E|]. unfold frobenius_schur. assert (P := Rinv_0_lt_compat d D).
    destruct (loop_value V D E) as [[H1 H2]|[H1 H2]]; rewrite H1, H2; cbn [RtoC fst]; destruct (Rle_dec _ _); try reflexivity; lra.
  Qed.
  Lemma qdim_dual a : valid a -> qdim S F (dual a) = qdim S F a.
  Proof.
    intros V. assert (Vd := fr_dual_valid RING V). destruct (POS V) as (d & D & E). destruct (POS Vd) as (d' & D' & E'). rewrite (code_qdim V D E), (code_qdim Vd D' E').
    assert (H := @fs_flip S RING C Cops Cops_star F fs qd (bc_pentagon BC) (bc_F_unitary BC) (bc_F_trivial BC) (bc_fs BC) a V).
    assert (L : F (dual a) a (dual a) (dual a) one one 0%nat 0%nat 0%nat 0%nat = f_loop S F (dual a)) by (unfold f_loop; now rewrite (fr_dual_invol RING V)). rewrite L, E in H. cbn [Cops omul oconj] in H.
    assert (X : / d' * d = 1 \/ / d' * d = - (1)).
    { destruct (loop_value Vd D' E') as [[_ G]|[_ G]]; rewrite G in H; destruct (proj2 (bc_fs BC V)) as [K|K]; rewrite K in H; cbn [Cops o1 oopp] in H; apply (f_equal fst) in H; unfold Cmul, Cconj, RtoC, C1, Copp in H; cbn [fst snd] in H; first [left; lra|right; lra]. }
    assert (P := Rinv_0_lt_compat d' D'). destruct X as [X|X].
    - assert (Y : d' * (/ d' * d) = d') by (rewrite X; ring). rewrite <- Rmult_assoc, Rinv_r, Rmult_1_l in Y by lra. auto.
    - assert (0 < / d' * d) by now apply Rmult_lt_0_compat. lra.
  Qed.
  Lemma qdim_one : qdim S F one = 1.
  Proof. unfold qdim, f_loop. rewrite (loop_one RING (bc_F_trivial BC)). unfold Cnorm2. cbn [Cops o1 C1 fst snd]. replace (1 * 1 + 0 * 0) with 1 by ring. rewrite sqrt_1. apply Rinv_1. Qed.
  Lemma FS_code : FS_qdim S Cops F (frobenius_schur S F) (fun a => RtoC (qdim S F a)).
  Proof. intros a V. destruct (code_numbers V) as (_ & E1 & E2). rewrite E1, E2. exact (bc_fs BC V). Qed.
  Lemma bend_data_code : bend_data S Cops (b_symbol S F) (sqrt_qdim S F) (inv_sqrt_qdim S F) (frobenius_schur S F).
  Proof.
    apply (@bend_data_default S RING C Cops Cops_star F (frobenius_schur S F) (fun a => RtoC (qdim S F a)) (sqrt_qdim S F) (inv_sqrt_qdim S F) (bc_pentagon BC) (bc_F_unitary BC) (bc_F_trivial BC) FS_code).
    - intros a V. destruct (code_numbers V) as (P & _). unfold sqrt_qdim. cbn [Cops omul]. rewrite <- RtoC_mul, sqrt_sqrt by lra. reflexivity.
    - intros a V. apply C_eq; cbn; ring.
    - intros a V. unfold sqrt_qdim. now rewrite (qdim_dual V).
    - intros a V. destruct (code_numbers V) as (P & _). unfold sqrt_qdim, inv_sqrt_qdim. cbn [Cops omul o1]. rewrite <- RtoC_mul, Rinv_r; [reflexivity|]. assert (H := sqrt_lt_R0 _ P). lra.
    - unfold sqrt_qdim. rewrite qdim_one, sqrt_1. reflexivity.
  Qed.
  (** finitely many sectors *)
  Variable A : list sector.
  Hypothesis ND : NoDup A.
  Hypothesis ALL : forall a, valid a <-> In a A.
  Lemma QC_code : qdim_character S Cops (fun a => RtoC (qdim S F a)).
  Proof.
    intros a b Va Vb. rewrite (proj1 (proj2 (code_numbers Va))), (proj1 (proj2 (code_numbers Vb))), (bc_qdim BC Va Vb). f_equal. apply map_ext_in. intros c Ic. unfold sumn. f_equal. apply map_ext. intros _. symmetry. apply (code_numbers (fr_closed RING Va Vb Ic)).
  Qed.
  Lemma dual_code a : valid a -> RtoC (qdim S F (dual a)) = RtoC (qdim S F a).
  Proof. intros V. now rewrite (qdim_dual V). Qed.
  Lemma real_code a : valid a -> Cconj (RtoC (qdim S F a)) = RtoC (qdim S F a).
  Proof. intros _. apply C_eq; cbn; ring. Qed.
  Lemma inv_code a : valid a -> omul Cops (RtoC (qdim S F a)) (RtoC (/ qdim S F a)) = o1 Cops.
  Proof. intros V. destruct (code_numbers V) as (P & _). cbn [Cops omul o1]. rewrite <- RtoC_mul, Rinv_r by lra. reflexivity. Qed.
  Lemma twist_R_code a : valid a -> Cmul (topological_twist S Cops Rs (fun b => RtoC (qdim S F b)) (fun b => RtoC (/ qdim S F b)) a) (Rs a (dual a) one 0%nat) = fs a.
  Proof.
    intros V. rewrite <- (proj2 (proj2 (code_numbers V))).
    exact (@twist_R S RING C Cops Cops_star F (frobenius_schur S F) (fun a => RtoC (qdim S F a)) (bc_pentagon BC) (bc_F_unitary BC) (bc_F_trivial BC) FS_code QC_code real_code A ND ALL a V Rs (proj1 (bc_hexagon BC)) (bc_R_trivial BC) _ (inv_code V)).
  Qed.
  Lemma twist_code tb sb : twist_unitary S Cops (twist_number S F Rs tb sb).
  Proof.
    intros a V. unfold twist_number. destruct tb; [apply C_eq; cbn; ring|]. destruct sb.
    - destruct (Rlt_dec _ _); apply C_eq; cbn; ring.
    - exact (@twist_unit S RING C Cops Cops_star F (frobenius_schur S F) (fun a => RtoC (qdim S F a)) (bc_pentagon BC) (bc_F_unitary BC) (bc_F_trivial BC) FS_code QC_code real_code A ND ALL a V Rs (proj1 (bc_hexagon BC)) (bc_R_trivial BC) (bc_R_unitary BC) _ (inv_code V)).
  Qed.
  (** the B symbol is unitary up to the quantum dimensions *)
  Lemma b_unitary a z c k r : valid a -> valid z -> valid c -> (k < n_symbol S a z c)%nat -> (r < n_symbol S a z c)%nat ->
    sumn Cops (n_symbol S a z c) (fun n => Cmul (b_symbol S F a z c k n) (Cconj (b_symbol S F a z c r n))) = if Nat.eqb k r then RtoC (qdim S F c / qdim S F a) else C0.
  Proof.
    intros Va Vz Vc Hk Hr. assert (H := @bend_unitary S RING C Cops Cops_star F (frobenius_schur S F) (fun a => RtoC (qdim S F a)) (bc_pentagon BC) (bc_F_unitary BC) (bc_F_trivial BC) FS_code QC_code real_code A ND ALL z Vz a c k r Va Vc Hk Hr).
    destruct (code_numbers Va) as (Pa & _). destruct (code_numbers Vz) as (Pz & _).
    assert (E : Cmul (sumn Cops (n_symbol S a z c) (fun n => Cmul (b_symbol S F a z c k n) (Cconj (b_symbol S F a z c r n)))) (RtoC (qdim S F a)) = if Nat.eqb k r then RtoC (qdim S F c) else C0).
    { etransitivity; [|exact H]. unfold sumn. change Cmul with (omul Cops). rewrite <- !(sum_mul_r (st_semi Cops_star)). apply sum_ext. intros n _. unfold b_symbol, default_b_symbol, U. cbn [Cops omul oconj].
      set (x := F a z (dual z) a one c 0%nat 0%nat k n). set (y := F a z (dual z) a one c 0%nat 0%nat r n). transitivity (Cmul (Cmul (Cconj x) y) (Cmul (RtoC (qdim S F a)) (RtoC (sqrt (qdim S F z) * sqrt (qdim S F z))))); [|rewrite sqrt_sqrt by lra; reflexivity].
      unfold sqrt_qdim. apply C_eq; unfold Cmul, Cconj, RtoC; cbn [fst snd]; ring. }
    assert (G : forall x w, Cmul x (RtoC (qdim S F a)) = w -> x = Cmul w (RtoC (/ qdim S F a))). { intros x w <-. destruct x as [u v]. apply C_eq; unfold Cmul, RtoC; cbn [fst snd]; field; lra. }
    rewrite (G _ _ E). destruct (Nat.eqb k r); [|apply C_eq; cbn; ring]. unfold Rdiv. now rewrite RtoC_mul.
  Qed.
  Lemma b_flip a z c k n : valid a -> valid z -> valid c -> (k < n_symbol S a z c)%nat -> (n < n_symbol S a z c)%nat ->
    Cmul (RtoC (qdim S F a)) (b_symbol S F a z c k n) = Cmul (fs z) (Cmul (RtoC (qdim S F c)) (b_symbol S F c (dual z) a n k)).
  Proof.
    intros Va Vz Vc Hk Hn. assert (H := @bend_flip S RING C Cops Cops_star F (frobenius_schur S F) (fun a => RtoC (qdim S F a)) (bc_pentagon BC) (bc_F_unitary BC) (bc_F_trivial BC) FS_code QC_code real_code A ND ALL z Vz a c k n Va Vc Hk Hn).
    destruct (code_numbers Vz) as (_ & _ & FZ). rewrite FZ in H. assert (FR : Cconj (fs z) = fs z) by (destruct (proj2 (bc_fs BC Vz)) as [X|X]; rewrite X; apply C_eq; cbn; ring).
    unfold U in H. unfold b_symbol, default_b_symbol. cbn [Cops omul oconj] in *. apply (f_equal Cconj) in H. rewrite !Cconj_mul, FR, (real_code Va), (real_code Vc) in H. unfold sqrt_qdim. rewrite (qdim_dual Vz).
    set (w := RtoC (sqrt (qdim S F z))). match type of H with ?x = ?y => transitivity (Cmul x w); [ring|]; rewrite H; ring end.
  Qed.
End Numbers.
