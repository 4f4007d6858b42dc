(** B symbols are unitary up to the quantum dimensions, and topological twists have unit modulus, in every category with finitely many sectors. *)
From Verif Require Import Util RowModel RowProofs SymModel SymProofs CatSpec Sums StarMat CatBend.
Set Implicit Arguments. Unset Strict Implicit.
Open Scope nat_scope.

Section Finite.
  Variable S : symmetry.
  Hypothesis RING : fusion_ring S.
  Variable K : Type.
  Variable o : ops K.
  Hypothesis ST : star_laws o.
  Variable F : Fsym K.
  Variables fs qd : sector -> K.
  Hypothesis PENT : pentagon S o F.
  Hypothesis UNI : F_unitary S o F.
  Hypothesis TRIV : F_trivial S o F.
  Hypothesis FQ : FS_qdim S o F fs qd.
  Hypothesis QC : qdim_character S o qd.
  Notation SR := (st_semi ST).
  Add Ring Kr : (st_RT ST).
  Notation "x ** y" := (omul o x y) (at level 40, left associativity).
  Notation sum := (osum o).
  Notation conj := (oconj o).
  Notation N := (n_symbol S).
  Notation out := (sym_outcomes S).
  Notation valid a := (sym_valid S a = true).
  Notation one := (sym_trivial S).
  Notation dual := (sym_dual S).
  Hypothesis QR : forall a, valid a -> conj (qd a) = qd a.
  Hypothesis QD : forall a, valid a -> qd (dual a) = qd a.

  Lemma fs_sq a : valid a -> fs a ** fs a = o1 o /\ conj (fs a) = fs a.
  Proof. intros V. destruct (proj2 (FQ V)) as [E|E]; rewrite E; (split; [ring|]); rewrite ?(conj_opp ST), (conj_1 ST); reflexivity. Qed.
  Lemma qd_cancel z x y : valid z -> qd z ** x = qd z ** y -> x = y.
  Proof.
    intros V E. destruct (FQ V) as [H _]. destruct (fs_sq V) as [H2 _]. assert (G : forall w, w = fs z ** F z (dual z) z z one one 0 0 0 0 ** (qd z ** w)).
    { intros w. transitivity (fs z ** fs z ** w); [rewrite H2; ring|]. rewrite <- H at 2. ring. }
    rewrite (G x), (G y), E. reflexivity.
  Qed.
  (** duals *)
  Lemma fs_flip z : valid z -> conj (F (dual z) z (dual z) (dual z) one one 0 0 0 0) ** qd z = fs z.
  Proof.
    intros V. assert (Vb := fr_dual_valid RING V). assert (V1 := fr_trivial_valid RING).
    assert (Ic := In_dual' RING V). assert (N1 : N (dual z) z one = 1) by (apply (N_dual' RING); exact V).
    assert (B := @bend_identity S RING K o ST F fs qd PENT UNI TRIV FQ (dual z) z one Vb V Ic 0 ltac:(rewrite N1; lia) 0 ltac:(rewrite N1; lia)). cbn [Nat.eqb] in B. rewrite <- B. f_equal.
    assert (NU : N one (dual z) (dual z) = 1) by (rewrite (N_unit_l RING _ Vb), row_eqb_refl; reflexivity). rewrite NU. unfold sumn. cbn [seq map]. rewrite sum_cons, sum_nil.
    assert (NB : N (dual z) (dual (dual z)) one = 1) by (apply (N_dual RING); exact Vb).
    assert (Ib : In (dual z) (out one (dual z))) by (apply (@N_In S one (dual z) (dual z) 0); rewrite NU; lia).
    rewrite (@TRIV one (dual z) z V1 Vb V (or_introl eq_refl) one (In_dual' RING V) one (In_unit_r RING V1) (dual z) Ib (proj2 (fuses_In S (dual z) z one) (In_dual' RING V)) 0 0 0 0); [cbn [Nat.mul Nat.add Nat.eqb]; ring|rewrite N1; lia|rewrite (N_unit_r RING V1); lia|rewrite NU; lia|rewrite N1; lia].
  Qed.
  Lemma fs_dual z : valid z -> fs (dual z) = fs z.
  Proof.
    intros V. assert (Vb := fr_dual_valid RING V). destruct (FQ Vb) as [H _]. rewrite (fr_dual_invol RING V), (QD V) in H. rewrite <- H.
    assert (E := fs_flip V). apply (f_equal conj) in E. rewrite (st_mul ST), (st_invol ST), (QR V), (proj2 (fs_sq V)) in E. exact E.
  Qed.

  Definition U (a z c : sector) (k n : nat) : K := F a z (dual z) a one c 0 0 k n.
  Variable A : list sector.
  Hypothesis ND : NoDup A.
  Hypothesis ALL : forall a, valid a <-> In a A.
  Lemma row_sec_dec (x y : sector) : {x = y} + {x <> y}. Proof. apply list_eq_dec, Z.eq_dec. Qed.
  Lemma over_all a z (f : sector -> K) : valid a -> valid z -> (forall c, ~ In c (out a z) -> f c = o0 o) -> sum (map f (out a z)) = sum (map f A).
  Proof.
    intros Va Vz H. apply (sum_incl SR row_sec_dec); [exact (fr_nodup RING Va Vz)|exact ND| |intros c _; apply H]. intros c I. apply ALL. exact (fr_closed RING Va Vz I).
  Qed.
  Lemma N_out a z c : ~ In c (out a z) -> N a z c = 0.
  Proof. intros H. destruct (N a z c) as [|n] eqn:E; [reflexivity|]. exfalso. apply H. apply (@N_In S a z c 0). lia. Qed.
  (** the norm of a row *)
  Lemma row_one a z : valid a -> valid z -> sum (map (fun c => sumn o (N a z c) (fun k => sumn o (N a z c) (fun n => U a z c k n ** conj (U a z c k n)))) A) = o1 o.
  Proof.
    intros Va Vz. assert (Vb := fr_dual_valid RING Vz). assert (V1 := fr_trivial_valid RING).
    assert (G := UNI Va Vz Vb (In_dual RING Vz) (In_unit_r RING Va) (In_dual RING Vz) (proj2 (fuses_In S a one a) (In_unit_r RING Va)) (mu := 0) (nu := 0) (mu' := 0) (nu' := 0)).
    rewrite (N_dual RING Vz), (N_unit_r RING Va), row_eqb_refl in G. cbn [Nat.eqb andb] in G. rewrite <- G by lia. symmetry. unfold F_gram. rewrite over_all by (auto; intros c NI; rewrite (N_out NI); reflexivity).
    apply sum_ext. intros c Ic. apply ALL in Ic. unfold sumn. apply sum_ext. intros k _. rewrite <- (N_rotate RING Va Vz Ic). reflexivity.
  Qed.

  Variable z : sector.
  Hypothesis Vz : valid z.
  Notation zb := (dual z).
  Notation Vb := (fr_dual_valid RING Vz).
  Notation total := (sum (map (fun a => qd a ** qd a) A)).
  Definition grid (f : sector -> sector -> nat -> nat -> K) : K := sum (map (fun a => sum (map (fun c => sumn o (N a z c) (fun k => sumn o (N a z c) (fun n => f a c k n))) A)) A).
  Lemma grid_ext f g : (forall a c k n, valid a -> valid c -> k < N a z c -> n < N a z c -> f a c k n = g a c k n) -> grid f = grid g.
  Proof.
    intros H. unfold grid. apply sum_ext. intros a Ia. apply sum_ext. intros c Ic. unfold sumn. apply sum_ext. intros k Ik. apply sum_ext. intros n In'. apply ALL in Ia. apply ALL in Ic. apply in_seq in Ik. apply in_seq in In'. apply H; auto; lia.
  Qed.
  Lemma grid_plus f g : grid (fun a c k n => oadd o (f a c k n) (g a c k n)) = oadd o (grid f) (grid g).
  Proof.
    unfold grid. rewrite <- (sum_plus SR). apply sum_ext. intros a _. rewrite <- (sum_plus SR). apply sum_ext. intros c _. unfold sumn. rewrite <- (sum_plus SR). apply sum_ext. intros k _. rewrite <- (sum_plus SR). reflexivity.
  Qed.
  Lemma grid_mul x f : grid (fun a c k n => x ** f a c k n) = x ** grid f.
  Proof.
    unfold grid. rewrite <- (sum_mul_l SR). apply sum_ext. intros a _. rewrite <- (sum_mul_l SR). apply sum_ext. intros c _. unfold sumn. rewrite <- (sum_mul_l SR). apply sum_ext. intros k _. rewrite <- (sum_mul_l SR). reflexivity.
  Qed.
  Lemma grid_1 : grid (fun a c k n => qd a ** qd a ** (U a z c k n ** conj (U a z c k n))) = total.
  Proof.
    unfold grid. apply sum_ext. intros a Ia. apply ALL in Ia. transitivity (qd a ** qd a ** o1 o); [|ring]. rewrite <- (row_one Ia Vz). rewrite <- (sum_mul_l SR). apply sum_ext. intros c _. unfold sumn. rewrite <- (sum_mul_l SR). apply sum_ext. intros k _. rewrite <- (sum_mul_l SR). reflexivity.
  Qed.
  Lemma grid_2 : grid (fun a c k n => qd c ** qd c ** (U c zb a n k ** conj (U c zb a n k))) = total.
  Proof.
    unfold grid. rewrite (sum_swap SR). apply sum_ext. intros c Ic. apply ALL in Ic. transitivity (qd c ** qd c ** o1 o); [|ring]. rewrite <- (row_one Ic Vb). rewrite <- (sum_mul_l SR). apply sum_ext. intros a Ia. apply ALL in Ia. rewrite <- (N_rotate RING Ia Vz Ic). unfold sumn.
    rewrite (sum_swap SR). rewrite <- (sum_mul_l SR). apply sum_ext. intros k _. rewrite <- (sum_mul_l SR). reflexivity.
  Qed.
  Lemma grid_4 : grid (fun a c k n => fs z ** (qd a ** qd c) ** (conj (U a z c k n) ** U c zb a n k)) = total.
  Proof.
    apply (qd_cancel Vz). unfold grid. rewrite <- !(sum_mul_l SR). apply sum_ext. intros a Ia. apply ALL in Ia. transitivity (qd a ** (qd a ** qd z)); [|ring]. rewrite (QC Ia Vz).
    rewrite (over_all Ia Vz) by (intros c NI; rewrite (N_out NI); reflexivity). rewrite <- !(sum_mul_l SR). apply sum_ext. intros c Ic. apply ALL in Ic. unfold sumn. rewrite <- !(sum_mul_l SR). apply sum_ext. intros k Ik. apply in_seq in Ik.
    rewrite (sum_mul_l SR). assert (Hk : k < N a z c) by lia. assert (Io := N_In Hk).
    assert (B := @bend_identity S RING K o ST F fs qd PENT UNI TRIV FQ a z c Ia Vz Io k Hk k Hk). rewrite Nat.eqb_refl in B. unfold sumn in B. rewrite <- (N_rotate RING Ia Vz Ic) in B.
    transitivity (fs z ** (qd a ** qd c) ** fs z); [|transitivity (fs z ** fs z ** (qd a ** qd c)); [ring|rewrite (proj1 (fs_sq Vz)); ring]].
    rewrite <- B at 2. unfold U. rewrite (fr_dual_invol RING Vz). ring.
  Qed.
  Lemma total_real : conj total = total.
  Proof. rewrite (conj_sum ST). apply sum_ext. intros a Ia. apply ALL in Ia. now rewrite (st_mul ST), (QR Ia). Qed.
  Lemma grid_conj f : conj (grid f) = grid (fun a c k n => conj (f a c k n)).
  Proof. unfold grid. rewrite (conj_sum ST). apply sum_ext. intros a _. rewrite (conj_sum ST). apply sum_ext. intros c _. unfold sumn. rewrite (conj_sum ST). apply sum_ext. intros k _. apply (conj_sum ST). Qed.

  Definition T (a c : sector) (k n : nat) : K := oadd o (qd a ** U a z c k n) (oopp o (fs z ** (qd c ** U c zb a n k))).
  Lemma grid_T : grid (fun a c k n => T a c k n ** conj (T a c k n)) = o0 o.
  Proof.
    set (f4 := fun a c k n => fs z ** (qd a ** qd c) ** (conj (U a z c k n) ** U c zb a n k)).
    transitivity (oadd o (oadd o (grid (fun a c k n => qd a ** qd a ** (U a z c k n ** conj (U a z c k n)))) (grid (fun a c k n => qd c ** qd c ** (U c zb a n k ** conj (U c zb a n k))))) (oopp o (o1 o) ** oadd o (grid f4) (grid (fun a c k n => conj (f4 a c k n))))).
    - rewrite <- grid_plus, <- grid_plus, <- grid_mul, <- grid_plus. apply grid_ext. intros a c k n Va Vc _ _. unfold T, f4. destruct (fs_sq Vz) as [F1 F2]. rewrite !(st_add ST), !(conj_opp ST), !(st_mul ST), !(st_invol ST), !F2, (QR Va), (QR Vc).
      transitivity (oadd o (oadd o (qd a ** qd a ** (U a z c k n ** conj (U a z c k n))) ((fs z ** fs z) ** (qd c ** qd c ** (U c zb a n k ** conj (U c zb a n k))))) (oopp o (o1 o) ** oadd o (fs z ** (qd a ** qd c) ** (conj (U a z c k n) ** U c zb a n k)) (fs z ** (qd a ** qd c) ** (U a z c k n ** conj (U c zb a n k))))); [ring|rewrite F1; ring].
    - rewrite <- grid_conj, grid_1, grid_2. unfold f4. rewrite grid_4, total_real. ring.
  Qed.
  (** a leg can be bent in two ways *)
  Lemma bend_flip a c k n : valid a -> valid c -> k < N a z c -> n < N a z c -> qd a ** U a z c k n = fs z ** (qd c ** U c zb a n k).
  Proof.
    intros Va Vc Hk Hn. assert (Z : T a c k n = o0 o).
    { set (l := flat_map (fun a => flat_map (fun c => flat_map (fun k => map (fun n => T a c k n) (seq 0 (N a z c))) (seq 0 (N a z c))) A) A).
      assert (E : sum (map (fun x => x ** conj x) l) = o0 o).
      { unfold l. rewrite (sum_flat_map SR). rewrite <- grid_T. unfold grid. apply sum_ext. intros a' _. rewrite (sum_flat_map SR). apply sum_ext. intros c' _. rewrite (sum_flat_map SR). unfold sumn. apply sum_ext. intros k' _. rewrite map_map. reflexivity. }
      apply (st_definite ST E). unfold l. apply in_flat_map. exists a. split; [now apply ALL|]. apply in_flat_map. exists c. split; [now apply ALL|]. apply in_flat_map. exists k. split; [apply in_seq; lia|]. apply in_map_iff. exists n. split; [reflexivity|apply in_seq; lia]. }
    unfold T in Z. transitivity (oadd o (fs z ** (qd c ** U c zb a n k)) (oadd o (qd a ** U a z c k n) (oopp o (fs z ** (qd c ** U c zb a n k))))); [ring|]. rewrite Z. ring.
  Qed.
  (** the B symbol is unitary up to normalisation *)
  Lemma bend_unitary a c k r : valid a -> valid c -> k < N a z c -> r < N a z c -> sumn o (N a z c) (fun n => conj (U a z c k n) ** U a z c r n) ** (qd a ** qd z) = if k =? r then qd c else o0 o.
  Proof.
    intros Va Vc Hk Hr. assert (Io := N_In Hk). assert (B := @bend_identity S RING K o ST F fs qd PENT UNI TRIV FQ a z c Va Vz Io k Hk r Hr). rewrite <- (N_rotate RING Va Vz Vc) in B.
    transitivity (fs z ** qd c ** (if k =? r then fs z else o0 o)).
    - rewrite <- B. unfold sumn. rewrite <- !(sum_mul_r SR), <- (sum_mul_l SR). apply sum_ext. intros n Hn. apply in_seq in Hn. transitivity (conj (U a z c k n) ** (qd a ** U a z c r n) ** qd z); [ring|]. rewrite (@bend_flip a c r n) by (auto; lia).
      unfold U. rewrite (fr_dual_invol RING Vz). ring.
    - destruct (k =? r); [|ring]. transitivity (fs z ** fs z ** qd c); [ring|]. rewrite (proj1 (fs_sq Vz)). ring.
  Qed.
  (** the topological twist *)
  Variable R : Rsym K.
  Hypothesis HEX : hexagon_for S o F R.
  Hypothesis RT : R_trivial S o R.
  Hypothesis RU : R_unitary S o R.
  Variable iq : K.
  Hypothesis IQ : qd z ** iq = o1 o.
  Notation theta := (sum (map (fun b => qd b ** sumn o (N z z b) (fun mu => R z z b mu)) (out z z)) ** iq).
  Lemma hex_1 e al be : In e (out z z) -> al < N z z e -> be < N z z e ->
    R z z e al ** (U z z e al be ** R z zb one 0) = sum (map (fun f => sumn o (N z zb f) (fun de => sumn o (N z f z) (fun si => F z z zb z f e de si al be ** (R z f z si ** F z zb z z one f 0 0 de si)))) (out z zb)).
  Proof.
    intros Ie Ha Hb. assert (VB := Vb). assert (Ve := fr_closed RING Vz Vz Ie). assert (NB : be < N e zb z) by (rewrite <- (N_rotate RING Vz Vz Ve); exact Hb).
    exact (@HEX z zb z Vz VB Vz e Ie z (N_In NB) one (In_dual RING Vz) (proj2 (fuses_In S z one z) (In_unit_r RING Vz)) al be 0 0 Ha NB ltac:(rewrite (N_dual RING Vz); lia) ltac:(rewrite (N_unit_r RING Vz); lia)).
  Qed.
  Lemma twist_R : theta ** R z zb one 0 = fs z.
  Proof.
    assert (VB := Vb).
    set (W := sum (map (fun e => sumn o (N z z e) (fun al => sumn o (N z z e) (fun be => conj (U z z e al be) ** (R z z e al ** (U z z e al be ** R z zb one 0))))) (out z z))).
    assert (W1 : W ** (qd z ** qd z) = theta ** qd z ** R z zb one 0).
    { transitivity (sum (map (fun b => qd b ** sumn o (N z z b) (fun mu => R z z b mu)) (out z z)) ** (qd z ** iq) ** R z zb one 0); [rewrite IQ|ring]. unfold W. rewrite <- !(sum_mul_r SR). apply sum_ext. intros e Ie. assert (Ve := fr_closed RING Vz Vz Ie).
      unfold sumn. rewrite <- !(sum_mul_l SR), <- !(sum_mul_r SR). apply sum_ext. intros al Ha. apply in_seq in Ha.
      transitivity (R z z e al ** R z zb one 0 ** (sumn o (N z z e) (fun n => conj (U z z e al n) ** U z z e al n) ** (qd z ** qd z))).
      - unfold sumn. rewrite <- !(sum_mul_r SR), <- !(sum_mul_l SR). apply sum_ext. intros be _. ring.
      - rewrite (@bend_unitary z e al al Vz Ve) by lia. rewrite Nat.eqb_refl. ring. }
    assert (W2 : W = F z zb z z one one 0 0 0 0).
    { unfold W. transitivity (sum (map (fun e => sumn o (N z z e) (fun al => sumn o (N z z e) (fun be => sum (map (fun f => sumn o (N z zb f) (fun de => sumn o (N z f z) (fun si =>
        (F z z zb z f e de si al be ** conj (U z z e al be)) ** (R z f z si ** F z zb z z one f 0 0 de si)))) (out z zb))))) (out z z))).
      { apply sum_ext. intros e Ie. unfold sumn. apply sum_ext. intros al Ha. apply sum_ext. intros be Hb. apply in_seq in Ha. apply in_seq in Hb. rewrite (@hex_1 e al be Ie) by lia. rewrite <- (sum_mul_l SR). apply sum_ext. intros f _. unfold sumn. rewrite <- (sum_mul_l SR). apply sum_ext. intros de _. rewrite <- (sum_mul_l SR). apply sum_ext. intros si _. ring. }
      transitivity (sum (map (fun f => sumn o (N z zb f) (fun de => sumn o (N z f z) (fun si => F_gram S o F z z zb z f one de si 0 0 ** (R z f z si ** F z zb z z one f 0 0 de si)))) (out z zb))).
      { transitivity (sum (map (fun e => sum (map (fun f => sumn o (N z zb f) (fun de => sumn o (N z f z) (fun si => sumn o (N z z e) (fun al => sumn o (N z z e) (fun be => 
          (F z z zb z f e de si al be ** conj (U z z e al be)) ** (R z f z si ** F z zb z z one f 0 0 de si)))))) (out z zb))) (out z z))).
        - apply sum_ext. intros e _. unfold sumn. transitivity (sum (map (fun al => sum (map (fun f => sum (map (fun be => sum (map (fun de => sum (map (fun si => F z z zb z f e de si al be ** conj (U z z e al be) ** (R z f z si ** F z zb z z one f 0 0 de si)) (seq 0 (N z f z)))) (seq 0 (N z zb f)))) (seq 0 (N z z e)))) (out z zb))) (seq 0 (N z z e)))).
          + apply sum_ext. intros al _. apply (sum_swap SR).
          + rewrite (sum_swap SR). apply sum_ext. intros f _.
            transitivity (sum (map (fun al => sum (map (fun de => sum (map (fun be => sum (map (fun si => F z z zb z f e de si al be ** conj (U z z e al be) ** (R z f z si ** F z zb z z one f 0 0 de si)) (seq 0 (N z f z)))) (seq 0 (N z z e)))) (seq 0 (N z zb f)))) (seq 0 (N z z e)))).
            { apply sum_ext. intros al _. apply (sum_swap SR). } rewrite (sum_swap SR). apply sum_ext. intros de _.
            transitivity (sum (map (fun al => sum (map (fun si => sum (map (fun be => F z z zb z f e de si al be ** conj (U z z e al be) ** (R z f z si ** F z zb z z one f 0 0 de si)) (seq 0 (N z z e)))) (seq 0 (N z f z)))) (seq 0 (N z z e)))).
            { apply sum_ext. intros al _. apply (sum_swap SR). } apply (sum_swap SR).
        - rewrite (sum_swap SR). apply sum_ext. intros f _. unfold sumn at 1. rewrite (sum_swap SR). unfold sumn at 4. apply sum_ext. intros de _. unfold sumn at 1. rewrite (sum_swap SR). unfold sumn at 3. apply sum_ext. intros si _.
          unfold F_gram. rewrite <- (sum_mul_r SR). apply sum_ext. intros e Ie. assert (Ve := fr_closed RING Vz Vz Ie). unfold sumn. rewrite <- (sum_mul_r SR). apply sum_ext. intros al _. rewrite <- (sum_mul_r SR). rewrite <- (N_rotate RING Vz Vz Ve). reflexivity. }
      rewrite (sum_single SR (x := one) (fr_nodup RING Vz VB) (In_dual RING Vz)).
      - rewrite (N_dual RING Vz), (N_unit_r RING Vz). unfold sumn. cbn [seq map]. rewrite !sum_cons, !sum_nil.
        rewrite (@UNI z z zb Vz Vz VB one (In_dual RING Vz) z (In_unit_r RING Vz) one (In_dual RING Vz) (proj2 (fuses_In S z one z) (In_unit_r RING Vz)) 0 0 0 0) by (rewrite ?(N_dual RING Vz), ?(N_unit_r RING Vz); lia).
        rewrite row_eqb_refl. cbn [Nat.eqb andb]. rewrite (proj1 (RT Vz)). ring.
      - intros f If NE. unfold sumn. apply (sum_zero SR). intros de Hd. apply (sum_zero SR). intros si Hs. apply in_seq in Hd. apply in_seq in Hs.
        assert (Iz : In z (out z f)) by (apply (@N_In S z f z si); lia).
        rewrite (@UNI z z zb Vz Vz VB f If z Iz one (In_dual RING Vz) (proj2 (fuses_In S z one z) (In_unit_r RING Vz)) de si 0 0) by (rewrite ?(N_dual RING Vz), ?(N_unit_r RING Vz); lia).
        destruct (row_eqb f one) eqn:E; [apply row_eqb_eq in E; congruence|]. cbn [andb]. ring. }
    apply (qd_cancel Vz). rewrite <- (proj1 (FQ Vz)) at 1. rewrite W2 in W1. transitivity (theta ** qd z ** R z zb one 0); [ring|]. rewrite <- W1. ring.
  Qed.
  Lemma twist_unit : theta ** conj theta = o1 o.
  Proof.
    assert (E := twist_R). assert (H := RU Vz Vb (In_dual RING Vz) (mu := 0)). rewrite (N_dual RING Vz) in H. specialize (H ltac:(lia)). destruct (fs_sq Vz) as [F1 F2].
    transitivity (theta ** conj theta ** (R z zb one 0 ** conj (R z zb one 0))); [rewrite H; ring|]. transitivity ((theta ** R z zb one 0) ** conj (theta ** R z zb one 0)); [rewrite !(st_mul ST); ring|]. rewrite E, F2. exact F1.
  Qed.
End Finite.
