(** Deciding the consistency equations of a finite category in an exact ring [K] and
    transporting them along a ring homomorphism [h] into another ring (the complex numbers). *)
From Verif Require Import Util RowModel RowProofs SymModel SymProofs CatSpec.
Set Implicit Arguments.
Unset Strict Implicit.
Open Scope nat_scope.

Record hom K L (o : ops K) (p : ops L) (h : K -> L) : Prop := {
  h_0 : h (o0 o) = o0 p;
  h_1 : h (o1 o) = o1 p;
  h_add : forall x y, h (oadd o x y) = oadd p (h x) (h y);
  h_mul : forall x y, h (omul o x y) = omul p (h x) (h y);
  h_opp : forall x, h (oopp o x) = oopp p (h x);
  h_conj : forall x, h (oconj o x) = oconj p (h x);
}.

Section Transfer.
  Variables K L : Type.
  Variable o : ops K.
  Variable p : ops L.
  Variable h : K -> L.
  Hypothesis H : hom o p h.
  Variable eqb : K -> K -> bool.
  Hypothesis eqb_sound : forall x y, eqb x y = true -> h x = h y.

  Lemma h_osum l : h (osum o l) = osum p (map h l).
  Proof. unfold osum. induction l; cbn [fold_right map]; [apply H|]. now rewrite (h_add H), IHl. Qed.
  Lemma h_sumn n f : h (sumn o n f) = sumn p n (fun i => h (f i)).
  Proof. unfold sumn. rewrite h_osum, map_map. reflexivity. Qed.

  Lemma osum_ext (l1 l2 : list L) : l1 = l2 -> osum p l1 = osum p l2.
  Proof. now intros ->. Qed.
  Lemma sumn_ext n f g : (forall i, f i = g i) -> sumn p n f = sumn p n g.
  Proof. intros E. unfold sumn. f_equal. apply map_ext. exact E. Qed.

  Variable S : symmetry.
  Variable secs : list sector.
  Hypothesis secs_ok : forall a, sym_valid S a = true -> In a secs.
  Variable F : Fsym K.
  Variable R : Rsym K.
  Variable C : Fsym K.
  Definition hF : Fsym L := fun a b c d e f m n k l => h (F a b c d e f m n k l).
  Definition hC : Fsym L := fun a b c d e f m n k l => h (C a b c d e f m n k l).
  Definition hR : Rsym L := fun a b c m => h (R a b c m).

  Notation N := (n_symbol S).
  Notation out := (sym_outcomes S).
  Notation fuses a b c := (can_fuse_to S a b c).
  Definition all (l : list sector) (f : sector -> bool) := forallb f l.
  Definition alln (n : nat) (f : nat -> bool) := forallb f (seq 0 n).

  Lemma all_spec l f a : all l f = true -> In a l -> f a = true.
  Proof. unfold all. rewrite forallb_forall. auto. Qed.
  Lemma alln_spec n f i : alln n f = true -> i < n -> f i = true.
  Proof. unfold alln. rewrite forallb_forall. intros A B. apply A, in_seq. lia. Qed.

  Definition check_pentagon : bool :=
    all secs (fun a => all secs (fun b => all secs (fun c => all secs (fun d =>
    all (out a b) (fun f => all (out f c) (fun g => all (out g d) (fun e =>
    all (out c d) (fun j => if fuses f j e then all (out b j) (fun i => if fuses a i e then
      alln (N a b f) (fun mu => alln (N f c g) (fun nu => alln (N a i e) (fun kap =>
      alln (N g d e) (fun rho => alln (N c d j) (fun gam => alln (N b j i) (fun del =>
        eqb (pentagon_lhs S o F a b c d e f g j i mu nu kap rho gam del)
            (pentagon_rhs S o F a b c d e f g j i mu nu kap rho gam del)))))))
      else true) else true)))))))).

  Lemma h_pentagon_lhs a b c d e f g j i mu nu kap rho gam del :
    h (pentagon_lhs S o F a b c d e f g j i mu nu kap rho gam del) =
    pentagon_lhs S p hF a b c d e f g j i mu nu kap rho gam del.
  Proof.
    unfold pentagon_lhs. rewrite h_sumn. apply sumn_ext. intros s. now rewrite (h_mul H).
  Qed.
  Lemma h_pentagon_rhs a b c d e f g j i mu nu kap rho gam del :
    h (pentagon_rhs S o F a b c d e f g j i mu nu kap rho gam del) =
    pentagon_rhs S p hF a b c d e f g j i mu nu kap rho gam del.
  Proof.
    unfold pentagon_rhs. rewrite h_osum, map_map. apply osum_ext, map_ext. intros x.
    rewrite h_sumn. apply sumn_ext. intros s. rewrite h_sumn. apply sumn_ext. intros l.
    rewrite h_sumn. apply sumn_ext. intros w. now rewrite !(h_mul H).
  Qed.

  Lemma pentagon_check : check_pentagon = true -> pentagon S p hF.
  Proof.
    unfold check_pentagon. intros K0 a b c d Va Vb Vc Vd f Hf g Hg e He j Hj Ff i Hi Fi
      mu nu kap rho gam del L1 L2 L3 L4 L5 L6.
    assert (K1 := all_spec K0 (secs_ok Va)). assert (K2 := all_spec K1 (secs_ok Vb)).
    assert (K3 := all_spec K2 (secs_ok Vc)). assert (K4 := all_spec K3 (secs_ok Vd)).
    assert (K5 := all_spec K4 Hf). assert (K6 := all_spec K5 Hg). assert (K7 := all_spec K6 He).
    assert (K8 := all_spec K7 Hj). cbv beta in K8. rewrite Ff in K8.
    assert (K9 := all_spec K8 Hi). cbv beta in K9. rewrite Fi in K9.
    assert (P := alln_spec (alln_spec (alln_spec (alln_spec (alln_spec (alln_spec K9 L1) L2) L3) L4) L5) L6).
    apply eqb_sound in P. now rewrite h_pentagon_lhs, h_pentagon_rhs in P.
  Qed.

  Definition check_hexagon (R : Rsym K) : bool :=
    all secs (fun a => all secs (fun b => all secs (fun c =>
    all (out a c) (fun e => all (out e b) (fun d => all (out c b) (fun g => if fuses a g d then
      alln (N a c e) (fun al => alln (N e b d) (fun be => alln (N c b g) (fun mu => alln (N a g d) (fun nu =>
        eqb (hexagon_lhs o F R a b c d e g al be mu nu) (hexagon_rhs S o F R a b c d e g al be mu nu)))))
      else true)))))).

  Lemma hexagon_check (T : Rsym K) : check_hexagon T = true ->
    hexagon_for S p hF (fun a b c m => h (T a b c m)).
  Proof.
    unfold check_hexagon. intros K0 a b c Va Vb Vc e He d Hd g Hg Fg al be mu nu L1 L2 L3 L4.
    assert (K1 := all_spec K0 (secs_ok Va)). assert (K2 := all_spec K1 (secs_ok Vb)).
    assert (K3 := all_spec K2 (secs_ok Vc)).
    assert (K5 := all_spec K3 He). assert (K6 := all_spec K5 Hd). assert (K7 := all_spec K6 Hg).
    cbv beta in K7. rewrite Fg in K7.
    assert (P := alln_spec (alln_spec (alln_spec (alln_spec K7 L1) L2) L3) L4).
    apply eqb_sound in P. unfold hexagon_lhs, hexagon_rhs in *.
    rewrite !(h_mul H) in P. rewrite h_osum, map_map in P. unfold hF at 1.
    etransitivity; [exact P|]. apply osum_ext, map_ext. intros x.
    rewrite h_sumn. apply sumn_ext. intros s. rewrite h_sumn. apply sumn_ext. intros l.
    now rewrite !(h_mul H).
  Qed.

  Definition check_hexagons : bool :=
    check_hexagon R && check_hexagon (fun a b c m => oconj o (R a b c m)).
  Lemma hexagons_check : check_hexagons = true -> hexagon S p hF hR.
  Proof.
    unfold check_hexagons. rewrite andb_true_iff. intros [A B]. split.
    - now apply (hexagon_check (T := R)).
    - apply hexagon_check in B. unfold hexagon_for in *. intros.
      assert (E : forall R1 R2 : Rsym L, (forall a b c m, R1 a b c m = R2 a b c m) ->
         hexagon_lhs p hF R1 a b c d e g al be mu nu = hexagon_lhs p hF R2 a b c d e g al be mu nu /\
         hexagon_rhs S p hF R1 a b c d e g al be mu nu = hexagon_rhs S p hF R2 a b c d e g al be mu nu).
      { intros R1 R2 E. unfold hexagon_lhs, hexagon_rhs. split; [now rewrite !E|].
        apply osum_ext, map_ext. intros x. apply sumn_ext. intros s. apply sumn_ext. intros l.
        now rewrite E. }
      destruct (E (fun a b c m => oconj p (hR a b c m)) (fun a b c m => h (oconj o (R a b c m)))) as [-> ->].
      { intros. unfold hR. now rewrite (h_conj H). }
      now apply B.
  Qed.

  Definition check_F_unitary : bool :=
    all secs (fun a => all secs (fun b => all secs (fun c =>
    all (out b c) (fun e => all (out a e) (fun d => all (out b c) (fun g => if fuses a g d then
      alln (N b c e) (fun mu => alln (N a e d) (fun nu => alln (N b c g) (fun mu' => alln (N a g d) (fun nu' =>
        eqb (F_gram S o F a b c d e g mu nu mu' nu')
            (if row_eqb e g && (mu =? mu') && (nu =? nu') then o1 o else o0 o)))))
      else true)))))).
  Lemma F_unitary_check : check_F_unitary = true -> F_unitary S p hF.
  Proof.
    unfold check_F_unitary. intros K0 a b c Va Vb Vc e He d Hd g Hg Fg mu nu mu' nu' L1 L2 L3 L4.
    assert (K1 := all_spec K0 (secs_ok Va)). assert (K2 := all_spec K1 (secs_ok Vb)).
    assert (K3 := all_spec K2 (secs_ok Vc)).
    assert (K5 := all_spec K3 He). assert (K6 := all_spec K5 Hd). assert (K7 := all_spec K6 Hg).
    cbv beta in K7. rewrite Fg in K7.
    assert (P := alln_spec (alln_spec (alln_spec (alln_spec K7 L1) L2) L3) L4).
    apply eqb_sound in P. unfold F_gram in *. rewrite h_osum, map_map in P.
    transitivity (h (if row_eqb e g && (mu =? mu') && (nu =? nu') then o1 o else o0 o)).
    - etransitivity; [|exact P]. apply osum_ext, map_ext. intros x.
      rewrite h_sumn. apply sumn_ext. intros s. rewrite h_sumn. apply sumn_ext. intros l.
      now rewrite (h_mul H), (h_conj H).
    - destruct (row_eqb e g && (mu =? mu') && (nu =? nu')); apply H.
  Qed.

  Definition check_R_unitary : bool :=
    all secs (fun a => all secs (fun b => all (out a b) (fun c => alln (N a b c) (fun mu =>
      eqb (omul o (R a b c mu) (oconj o (R a b c mu))) (o1 o))))).
  Lemma R_unitary_check : check_R_unitary = true -> R_unitary S p hR.
  Proof.
    unfold check_R_unitary. intros K0 a b Va Vb c Hc mu L1.
    assert (K1 := all_spec K0 (secs_ok Va)). assert (K2 := all_spec K1 (secs_ok Vb)).
    assert (P := alln_spec (all_spec K2 Hc) L1). apply eqb_sound in P.
    rewrite (h_mul H), (h_conj H), (h_1 H) in P. exact P.
  Qed.

  Definition check_C : bool :=
    all secs (fun a => all secs (fun b => all secs (fun c =>
    all (out a b) (fun e => all (out e c) (fun d => all (out a c) (fun f => if fuses f b d then
      alln (N a b e) (fun mu => alln (N e c d) (fun nu => alln (N a c f) (fun kap => alln (N f b d) (fun lam =>
        eqb (C a b c d e f mu nu kap lam)
            (omul o (R e c d nu) (omul o (F c a b d e f mu nu kap lam) (oconj o (R a c f kap))))))))
      else true)))))).
  Lemma C_check : check_C = true -> C_is_RFR S p hF hR hC.
  Proof.
    unfold check_C. intros K0 a b c Va Vb Vc e He d Hd f Hf Ff mu nu kap lam L1 L2 L3 L4.
    assert (K1 := all_spec K0 (secs_ok Va)). assert (K2 := all_spec K1 (secs_ok Vb)).
    assert (K3 := all_spec K2 (secs_ok Vc)).
    assert (K5 := all_spec K3 He). assert (K6 := all_spec K5 Hd). assert (K7 := all_spec K6 Hf).
    cbv beta in K7. rewrite Ff in K7.
    assert (P := alln_spec (alln_spec (alln_spec (alln_spec K7 L1) L2) L3) L4).
    apply eqb_sound in P. rewrite !(h_mul H), (h_conj H) in P. exact P.
  Qed.

  Definition check_F_trivial : bool :=
    all secs (fun a => all secs (fun b => all secs (fun c =>
    if row_eqb a (sym_trivial S) || row_eqb b (sym_trivial S) || row_eqb c (sym_trivial S) then
    all (out b c) (fun e => all (out a e) (fun d => all (out a b) (fun f => if fuses f c d then
      alln (N b c e) (fun mu => alln (N a e d) (fun nu => alln (N a b f) (fun kap => alln (N f c d) (fun lam =>
        eqb (F a b c d e f mu nu kap lam)
          (if mu * N a e d + nu =? kap * N f c d + lam then o1 o else o0 o)))))
      else true))) else true))).
  Lemma F_trivial_check : check_F_trivial = true -> F_trivial S p hF.
  Proof.
    unfold check_F_trivial. intros K0 a b c Va Vb Vc T e He d Hd f Hf Ff mu nu kap lam L1 L2 L3 L4.
    assert (K1 := all_spec K0 (secs_ok Va)). assert (K2 := all_spec K1 (secs_ok Vb)).
    assert (K3 := all_spec K2 (secs_ok Vc)). cbv beta in K3.
    replace (row_eqb a (sym_trivial S) || row_eqb b (sym_trivial S) || row_eqb c (sym_trivial S)) with true in K3.
    2:{ symmetry. rewrite !orb_true_iff, !row_eqb_eq. tauto. }
    assert (K5 := all_spec K3 He). assert (K6 := all_spec K5 Hd). assert (K7 := all_spec K6 Hf).
    cbv beta in K7. rewrite Ff in K7.
    assert (P := alln_spec (alln_spec (alln_spec (alln_spec K7 L1) L2) L3) L4).
    apply eqb_sound in P. unfold hF. rewrite P.
    destruct (mu * N a e d + nu =? kap * N f c d + lam); apply H.
  Qed.

  Definition check_R_trivial : bool :=
    all secs (fun a => eqb (R a (sym_trivial S) a 0) (o1 o) && eqb (R (sym_trivial S) a a 0) (o1 o)).
  Lemma R_trivial_check : check_R_trivial = true -> R_trivial S p hR.
  Proof.
    unfold check_R_trivial. intros K0 a Va. assert (K1 := all_spec K0 (secs_ok Va)). cbv beta in K1.
    apply andb_true_iff in K1. destruct K1 as [A B]. apply eqb_sound in A, B. unfold hR.
    rewrite A, B, (h_1 H). auto.
  Qed.

  Variables fs qd : sector -> K.
  Definition check_FS : bool :=
    all secs (fun a =>
      eqb (omul o (F a (sym_dual S a) a a (sym_trivial S) (sym_trivial S) 0 0 0 0) (qd a)) (fs a) &&
      (eqb (fs a) (o1 o) || eqb (fs a) (oopp o (o1 o)))).
  Lemma FS_check : check_FS = true -> FS_qdim S p hF (fun a => h (fs a)) (fun a => h (qd a)).
  Proof.
    unfold check_FS. intros K0 a Va. assert (K1 := all_spec K0 (secs_ok Va)). cbv beta in K1.
    apply andb_true_iff in K1. destruct K1 as [A B]. apply eqb_sound in A. rewrite (h_mul H) in A.
    split; [exact A|]. apply orb_true_iff in B. destruct B as [B|B]; apply eqb_sound in B.
    - left. now rewrite B, (h_1 H).
    - right. now rewrite B, (h_opp H), (h_1 H).
  Qed.

  Definition check_qdim : bool :=
    all secs (fun a => all secs (fun b =>
      eqb (omul o (qd a) (qd b)) (osum o (map (fun c => sumn o (N a b c) (fun _ => qd c)) (out a b))))).
  Lemma qdim_check : check_qdim = true -> qdim_character S p (fun a => h (qd a)).
  Proof.
    unfold check_qdim. intros K0 a b Va Vb. assert (K1 := all_spec K0 (secs_ok Va)).
    assert (P := all_spec K1 (secs_ok Vb)). cbv beta in P. apply eqb_sound in P.
    rewrite (h_mul H), h_osum, map_map in P. rewrite P. apply osum_ext, map_ext. intros x.
    now rewrite h_sumn.
  Qed.

  Definition check_category : bool :=
    check_hexagons && check_F_unitary && check_R_unitary && check_F_trivial && check_R_trivial &&
    check_FS && check_qdim.
  Lemma category_check : check_pentagon = true -> check_category = true ->
    braided_category S p hF hR (fun a => h (fs a)) (fun a => h (qd a)).
  Proof.
    unfold check_category. rewrite !andb_true_iff. intros P [[[[[[X1 X2] X3] X4] X5] X6] X7].
    constructor; auto using pentagon_check, hexagons_check, F_unitary_check, R_unitary_check,
      F_trivial_check, R_trivial_check, FS_check, qdim_check.
  Qed.
End Transfer.

(** pointwise equal symbols satisfy the same equations *)
Lemma braided_category_ext S K (o : ops K) (F F' : Fsym K) (R R' : Rsym K) fs fs' qd qd' :
  (forall a b c d e f m n k l, F a b c d e f m n k l = F' a b c d e f m n k l) ->
  (forall a b c m, R a b c m = R' a b c m) -> (forall a, fs a = fs' a) -> (forall a, qd a = qd' a) ->
  braided_category S o F R fs qd -> braided_category S o F' R' fs' qd'.
Proof.
  intros EF ER Efs Eqd B.
  assert (osum_e : forall l1 l2 : list K, l1 = l2 -> osum o l1 = osum o l2) by now intros ? ? ->.
  assert (sumn_e : forall n (f g : nat -> K), (forall i, f i = g i) -> sumn o n f = sumn o n g).
  { intros n f g E. unfold sumn. f_equal. apply map_ext. exact E. }
  assert (HX : forall T T' : Rsym K, (forall a b c m, T a b c m = T' a b c m) ->
     hexagon_for S o F T -> hexagon_for S o F' T').
  { intros T T' ET HT a b c Va Vb Vc e He d Hd g Hg Fg al be mu nu L1 L2 L3 L4.
    specialize (HT a b c Va Vb Vc e He d Hd g Hg Fg al be mu nu L1 L2 L3 L4).
    unfold hexagon_lhs, hexagon_rhs in *. rewrite <- !ET, <- !EF, HT.
    apply osum_e, map_ext. intros x. apply sumn_e. intros s. apply sumn_e. intros l.
    now rewrite <- !EF, <- !ET. }
  destruct B as [B1 [B2 B2'] B3 B4 B5 B6 B7 B8]. constructor.
  - unfold pentagon in *. intros.
    specialize (B1 a b c d H H0 H1 H2 f H3 g H4 e H5 j H6 H7 i H8 H9 mu nu kap rho gam del H10 H11 H12 H13 H14 H15).
    unfold pentagon_lhs, pentagon_rhs in *. etransitivity; [|etransitivity; [exact B1|]].
    + apply sumn_e. intros. now rewrite !EF.
    + apply osum_e, map_ext. intros x. apply sumn_e. intros s. apply sumn_e. intros l.
      apply sumn_e. intros w. now rewrite !EF.
  - split; [now apply (HX R R')|].
    apply (HX (fun a b c m => oconj o (R a b c m))); auto. intros. now rewrite ER.
  - unfold F_unitary in *. intros. rewrite <- (B3 a b c) with (d := d); auto.
    unfold F_gram. apply osum_e, map_ext. intros x. apply sumn_e. intros s. apply sumn_e. intros l.
    now rewrite !EF.
  - unfold R_unitary in *. intros. rewrite <- !ER. auto.
  - unfold F_trivial in *. intros. rewrite <- EF. auto.
  - unfold R_trivial in *. intros. rewrite <- !ER. auto.
  - unfold FS_qdim in *. intros. rewrite <- EF, <- Efs, <- Eqd. auto.
  - unfold qdim_character in *. intros. rewrite <- !Eqd, B8 by auto.
    apply osum_e, map_ext. intros x. apply sumn_e. intros. now rewrite Eqd.
Qed.
