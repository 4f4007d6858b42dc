(** Products of braided categories. *)
From Coq Require Import Reals Lra.
From Verif Require Import Util RowModel RowProofs SymModel SymProofs CatSpec CatProofs Cplx Tower
  ProductModel ProductProofs.
Set Implicit Arguments.
Unset Strict Implicit.
Open Scope nat_scope.

(** ** the equations only see valid sectors *)
Section Agree.
  Variables S T : symmetry.
  Hypothesis A : sym_agree S T.
  Hypothesis FT : fusion_ring T.
  Variable K : Type.
  Variable o : ops K.
  Notation valid a := (sym_valid T a = true).

  Lemma sumn_ext' n (f g : nat -> K) : (forall i, f i = g i) -> sumn o n f = sumn o n g.
  Proof. intros E. unfold sumn. f_equal. apply map_ext. exact E. Qed.
  Lemma sumn_ext_l n (f g : nat -> K) : (forall i, i < n -> f i = g i) -> sumn o n f = sumn o n g.
  Proof. intros E. unfold sumn. f_equal. apply map_ext_in. intros i H. apply in_seq in H. apply E. lia. Qed.
  Lemma sumn_ext_n n m (f g : nat -> K) : n = m -> (forall i, f i = g i) -> sumn o n f = sumn o m g.
  Proof. intros <-. apply sumn_ext'. Qed.
  Lemma osum_ext_in (l : list sector) (f g : sector -> K) : (forall i, In i l -> f i = g i) ->
    osum o (map f l) = osum o (map g l).
  Proof. intros E. f_equal. now apply map_ext_in. Qed.

  Variables (F F' : Fsym K) (R R' : Rsym K) (fs fs' qd qd' : sector -> K).
  Notation NT := (n_symbol T).
  Hypothesis EF : forall a b c d e f m n k l, valid a -> valid b -> valid c -> valid d -> valid e ->
    valid f -> m < NT b c e -> n < NT a e d -> k < NT a b f -> l < NT f c d ->
    F a b c d e f m n k l = F' a b c d e f m n k l.
  Hypothesis ER : forall a b c m, valid a -> valid b -> valid c -> m < NT a b c ->
    R a b c m = R' a b c m.
  Hypothesis Efs : forall a, valid a -> fs a = fs' a.
  Hypothesis Eqd : forall a, valid a -> qd a = qd' a.

  Lemma Vst a : sym_valid S a = true -> valid a.
  Proof. now rewrite (sa_valid A). Qed.
  Lemma Cl a b c : valid a -> valid b -> In c (sym_outcomes T a b) -> valid c.
  Proof. apply (fr_closed FT). Qed.
  Lemma Cf a b c : valid a -> valid b -> can_fuse_to S a b c = can_fuse_to T a b c.
  Proof. intros. unfold can_fuse_to. now rewrite (sa_out A). Qed.

  Ltac prep := repeat match goal with
    | H : sym_valid S _ = true |- _ => apply Vst in H
    | Ha : valid ?a, Hb : valid ?b, H : context [sym_outcomes S ?a ?b] |- _ => rewrite (@sa_out _ _ A a b Ha Hb) in H
    | Ha : valid ?a, Hb : valid ?b, H : context [can_fuse_to S ?a ?b ?c] |- _ => rewrite (@Cf a b c Ha Hb) in H
    | Ha : valid ?a, Hb : valid ?b, H : context [n_symbol S ?a ?b ?c] |- _ => rewrite (@sa_n_symbol _ _ a b c A Ha Hb) in H
    | Ha : valid ?a, Hb : valid ?b |- context [sym_outcomes S ?a ?b] => rewrite (@sa_out _ _ A a b Ha Hb)
    | Ha : valid ?a, Hb : valid ?b |- context [n_symbol S ?a ?b ?c] => rewrite (@sa_n_symbol _ _ a b c A Ha Hb)
    | Ha : valid ?a, Hb : valid ?b, H : In ?c (sym_outcomes T ?a ?b) |- _ =>
        lazymatch goal with
        | _ : valid c |- _ => fail
        | _ => assert (valid c) by exact (Cl Ha Hb H)
        end
    end.

  Lemma hexagon_for_agree (Q Q' : Rsym K) :
    (forall a b c m, valid a -> valid b -> valid c -> m < NT a b c -> Q a b c m = Q' a b c m) ->
    hexagon_for T o F' Q' -> hexagon_for S o F Q.
  Proof.
    intros EQ H a b c Va Vb Vc e He d Hd g Hg Fg al be mu nu L1 L2 L3 L4. prep.
    specialize (H a b c Va Vb Vc e He d Hd g Hg Fg al be mu nu L1 L2 L3 L4).
    unfold hexagon_lhs, hexagon_rhs in *.
    assert (Lal : al < NT c a e) by (rewrite (fr_comm FT); auto).
    rewrite !EF, !EQ by auto. rewrite H. prep.
    apply osum_ext_in. intros f Hf. prep. apply sumn_ext_l. intros s Ls.
    apply sumn_ext_l. intros t Lt.
    rewrite !EF, EQ; auto; rewrite (fr_comm FT); auto.
  Qed.

  Lemma category_agree : braided_category T o F' R' fs' qd' -> braided_category S o F R fs qd.
  Proof.
    intros [B1 [B2 B2'] B3 B4 B5 B6 B7 B8]. assert (VT := fr_trivial_valid FT). constructor.
    - intros a b c d Va Vb Vc Vd f Hf g Hg e He j Hj Fj i Hi Fi mu nu kap rho gam del L1 L2 L3 L4 L5 L6.
      prep. specialize (B1 a b c d Va Vb Vc Vd f Hf g Hg e He j Hj Fj i Hi Fi mu nu kap rho gam del L1 L2 L3 L4 L5 L6).
      unfold pentagon_lhs, pentagon_rhs in *. prep.
      etransitivity; [|etransitivity; [exact B1|]].
      + apply sumn_ext_l. intros s Ls. now rewrite !EF by auto.
      + apply osum_ext_in. intros h Hh. prep. apply sumn_ext_l. intros s Ls.
        apply sumn_ext_l. intros t Lt. apply sumn_ext_l. intros w Lw. now rewrite !EF by auto.
    - split; [now apply (@hexagon_for_agree R R')|].
      apply (@hexagon_for_agree _ (fun a b c m => oconj o (R' a b c m))); auto.
      intros. now rewrite ER by auto.
    - intros a b c Va Vb Vc e He d Hd g Hg Fg mu nu mu' nu' L1 L2 L3 L4. prep.
      rewrite <- (B3 a b c Va Vb Vc e He d Hd g Hg Fg mu nu mu' nu' L1 L2 L3 L4).
      unfold F_gram. prep. apply osum_ext_in. intros f Hf. prep.
      apply sumn_ext_l. intros s Ls. apply sumn_ext_l. intros t Lt. now rewrite !EF by auto.
    - intros a b Va Vb c Hc mu L. prep. rewrite !ER by auto. now apply B4.
    - intros a b c Va Vb Vc Htr e He d Hd f Hf Ff mu nu kap lam L1 L2 L3 L4. prep.
      rewrite (sa_trivial A) in Htr. rewrite EF by auto. now apply B5.
    - intros a Va. prep. rewrite (sa_trivial A).
      assert (U := proj2 (fr_unit FT Va)). assert (U2 := U). rewrite (fr_comm FT) in U2 by auto.
      rewrite !ER by (auto; lia). now apply B6.
    - intros a Va. prep. rewrite (sa_trivial A), (sa_dual A) by auto.
      assert (VD := fr_dual_valid FT Va).
      assert (U := proj2 (fr_unit FT Va)). assert (U2 := U). rewrite (fr_comm FT) in U2 by auto.
      assert (D1 := fr_dual FT Va VD). rewrite row_eqb_refl in D1.
      assert (D2 := D1). rewrite (fr_comm FT) in D2 by auto.
      rewrite EF, Efs, Eqd by (auto; lia). now apply B7.
    - intros a b Va Vb. prep. rewrite !Eqd, B8 by auto. apply osum_ext_in. intros c Hc. prep.
      apply sumn_ext_l. intros ? _. now rewrite Eqd.
  Qed.
End Agree.

(** ** sums over product index sets *)
Open Scope nat_scope.
Notation "x *c y" := (Cmul x y) (at level 40, left associativity).
Lemma osum_cons x l : osum Cops (x :: l) = Cadd x (osum Cops l).
Proof. reflexivity. Qed.
Lemma osum_nil : osum Cops [] = C0.
Proof. reflexivity. Qed.
Lemma osum_app l1 l2 : osum Cops (l1 ++ l2) = Cadd (osum Cops l1) (osum Cops l2).
Proof.
  induction l1; cbn [app]; rewrite ?osum_nil, ?osum_cons; [ring|]. rewrite IHl1. ring.
Qed.
Lemma osum_scale_l c l : osum Cops (map (fun x => c *c x) l) = c *c osum Cops l.
Proof.
  induction l; cbn [map]; rewrite ?osum_nil, ?osum_cons; [ring|]. rewrite IHl. ring.
Qed.
Lemma sumn_scale_l c n f : sumn Cops n (fun i => c *c f i) = c *c sumn Cops n f.
Proof. unfold sumn. rewrite <- osum_scale_l, map_map. reflexivity. Qed.
Lemma sumn_scale_r c n f : sumn Cops n (fun i => f i *c c) = sumn Cops n f *c c.
Proof.
  transitivity (sumn Cops n (fun i => c *c f i)); [|rewrite sumn_scale_l; ring].
  unfold sumn. f_equal. apply map_ext. intros. ring.
Qed.
Lemma sumn_add_n m n f : sumn Cops (m + n) f = Cadd (sumn Cops m f) (sumn Cops n (fun i => f (m + i))).
Proof.
  unfold sumn. rewrite seq_app, map_app, osum_app. f_equal. cbn [Nat.add].
  rewrite (seq_shift_map m), map_map. reflexivity.
Qed.
Lemma sumn_mul m n f :
  sumn Cops (m * n) f = sumn Cops m (fun i => sumn Cops n (fun j => f (i * n + j))).
Proof.
  induction m.
  - reflexivity.
  - replace (Datatypes.S m * n) with (m * n + n) by lia. rewrite sumn_add_n, IHm.
    replace (Datatypes.S m) with (m + 1) by lia. rewrite sumn_add_n. f_equal.
    unfold sumn at 2. cbn [seq map]. rewrite osum_cons, osum_nil, Nat.add_0_r. ring.
Qed.
Lemma sumn_ext_lt n (f g : nat -> C) : (forall i, i < n -> f i = g i) -> sumn Cops n f = sumn Cops n g.
Proof. intros E. unfold sumn. f_equal. apply map_ext_in. intros i H. apply in_seq in H. apply E. lia. Qed.
(** the summation index of a product runs over pairs *)
Lemma sumn_pair m n (h : nat -> C) (f g : nat -> C) :
  (forall s, s < m * n -> h s = f (s / n) *c g (s mod n)) ->
  sumn Cops (m * n) h = sumn Cops m f *c sumn Cops n g.
Proof.
  intros E. rewrite sumn_mul. rewrite <- sumn_scale_r. apply sumn_ext_lt. intros i Hi.
  rewrite <- sumn_scale_l. apply sumn_ext_lt. intros j Hj. rewrite E by nia.
  rewrite Nat.div_add_l, Nat.div_small, Nat.add_0_r by lia.
  rewrite (Nat.add_comm (i * n)), Nat.mod_add, Nat.mod_small by lia. reflexivity.
Qed.

Section Prod2Cat.
  Variables P S : symmetry.
  Hypothesis FP : fusion_ring P.
  Hypothesis FS : fusion_ring S.
  Notation LP := (sym_len P).
  Notation p1 a := (firstn LP a).
  Notation p2 a := (skipn LP a).
  Notation PS := (prod2 P S).
  Notation NP := (n_symbol P).
  Notation NS := (n_symbol S).
  Variables (F1 F2 : Fsym C) (R1 R2 : Rsym C) (fs1 fs2 qd1 qd2 : sector -> C).

  Definition F12 : Fsym C := fun a b c d e f i j k l =>
    F1 (p1 a) (p1 b) (p1 c) (p1 d) (p1 e) (p1 f)
       (i / NS (p2 b) (p2 c) (p2 e)) (j / NS (p2 a) (p2 e) (p2 d))
       (k / NS (p2 a) (p2 b) (p2 f)) (l / NS (p2 f) (p2 c) (p2 d)) *c
    F2 (p2 a) (p2 b) (p2 c) (p2 d) (p2 e) (p2 f)
       (i mod NS (p2 b) (p2 c) (p2 e)) (j mod NS (p2 a) (p2 e) (p2 d))
       (k mod NS (p2 a) (p2 b) (p2 f)) (l mod NS (p2 f) (p2 c) (p2 d)).
  Definition R12 : Rsym C := fun a b c i =>
    R1 (p1 a) (p1 b) (p1 c) (i / NS (p2 a) (p2 b) (p2 c)) *c
    R2 (p2 a) (p2 b) (p2 c) (i mod NS (p2 a) (p2 b) (p2 c)).

  Lemma osum_cart (h f g : sector -> C) X Y : (forall x, In x X -> length x = LP) ->
    (forall c, In c (cart_step X Y) -> h c = f (p1 c) *c g (p2 c)) ->
    osum Cops (map h (cart_step X Y)) = osum Cops (map f X) *c osum Cops (map g Y).
  Proof.
    intros L E. rewrite (map_ext_in _ (fun c => f (p1 c) *c g (p2 c))) by auto. clear E.
    unfold cart_step. induction X as [|x X IH].
    - cbn [flat_map map]. rewrite !osum_nil. ring.
    - cbn [flat_map map]. rewrite map_app, osum_app, IH by auto with datatypes.
      rewrite osum_cons, map_map.
      rewrite (map_ext_in _ (fun y => f x *c g y)).
      2:{ intros y _. rewrite p1_app, p2_app; auto with datatypes. }
      rewrite <- (map_map g (fun z => f x *c z)), osum_scale_l. ring.
  Qed.

  Notation valid a := (sym_valid PS a = true).
  Lemma v1 a : valid a -> sym_valid P (p1 a) = true.
  Proof. intros H. now apply (prod2_valid_iff FP FS) in H. Qed.
  Lemma v2 a : valid a -> sym_valid S (p2 a) = true.
  Proof. intros H. now apply (prod2_valid_iff FP FS) in H. Qed.
  Lemma o1' a b c : valid a -> valid b -> In c (sym_outcomes PS a b) ->
    In (p1 c) (sym_outcomes P (p1 a) (p1 b)).
  Proof. intros Ha Hb H. now apply (in_prod2_out FP FS Ha Hb) in H. Qed.
  Lemma o2' a b c : valid a -> valid b -> In c (sym_outcomes PS a b) ->
    In (p2 c) (sym_outcomes S (p2 a) (p2 b)).
  Proof. intros Ha Hb H. now apply (in_prod2_out FP FS Ha Hb) in H. Qed.
  Lemma c1 a b c : valid a -> valid b -> can_fuse_to PS a b c = true ->
    can_fuse_to P (p1 a) (p1 b) (p1 c) = true.
  Proof. rewrite !can_fuse_to_In. apply o1'. Qed.
  Lemma c2 a b c : valid a -> valid b -> can_fuse_to PS a b c = true ->
    can_fuse_to S (p2 a) (p2 b) (p2 c) = true.
  Proof. rewrite !can_fuse_to_In. apply o2'. Qed.
  Lemma nlt a b c m : valid a -> valid b -> m < n_symbol PS a b c ->
    m / NS (p2 a) (p2 b) (p2 c) < NP (p1 a) (p1 b) (p1 c) /\
    m mod NS (p2 a) (p2 b) (p2 c) < NS (p2 a) (p2 b) (p2 c).
  Proof.
    intros Ha Hb. rewrite (prod2_n_symbol FP FS Ha Hb). intros H. split.
    - apply Nat.div_lt_upper_bound; nia.
    - apply Nat.mod_upper_bound. nia.
  Qed.
  Lemma n_pair a b c : valid a -> valid b ->
    n_symbol PS a b c = NP (p1 a) (p1 b) (p1 c) * NS (p2 a) (p2 b) (p2 c).
  Proof. intros. now apply prod2_n_symbol. Qed.
  Lemma outL a b x : valid a -> valid b -> In x (sym_outcomes P (p1 a) (p1 b)) -> length x = LP.
  Proof. intros Ha Hb. apply (out_len FP); now apply v1. Qed.

  Ltac vprep := repeat match goal with
    | Ha : valid ?a, Hb : valid ?b, H : In ?c (sym_outcomes PS ?a ?b) |- _ =>
        lazymatch goal with
        | _ : valid c |- _ => fail
        | _ => assert (valid c) by exact (prod2_closed FP FS Ha Hb H)
        end
    end.
  Ltac facts := repeat match goal with
    | H : valid ?a |- _ =>
        lazymatch goal with
        | _ : sym_valid P (p1 a) = true |- _ => fail
        | _ => assert (sym_valid P (p1 a) = true) by exact (v1 H); assert (sym_valid S (p2 a) = true) by exact (v2 H)
        end
    | Ha : valid ?a, Hb : valid ?b, H : In ?c (sym_outcomes PS ?a ?b) |- _ =>
        lazymatch goal with
        | _ : In (p1 c) (sym_outcomes P (p1 a) (p1 b)) |- _ => fail
        | _ => assert (In (p1 c) (sym_outcomes P (p1 a) (p1 b))) by exact (o1' Ha Hb H);
               assert (In (p2 c) (sym_outcomes S (p2 a) (p2 b))) by exact (o2' Ha Hb H)
        end
    | Ha : valid ?a, Hb : valid ?b, H : can_fuse_to PS ?a ?b ?c = true |- _ =>
        lazymatch goal with
        | _ : can_fuse_to P (p1 a) (p1 b) (p1 c) = true |- _ => fail
        | _ => assert (can_fuse_to P (p1 a) (p1 b) (p1 c) = true) by exact (c1 Ha Hb H);
               assert (can_fuse_to S (p2 a) (p2 b) (p2 c) = true) by exact (c2 Ha Hb H)
        end
    | Ha : valid ?a, Hb : valid ?b, H : ?m < n_symbol PS ?a ?b ?c |- _ =>
        apply (nlt Ha Hb) in H; destruct H
    end.

  Lemma prod_pentagon : pentagon P Cops F1 -> pentagon S Cops F2 -> pentagon PS Cops F12.
  Proof.
    intros H1 H2 a b c d Va Vb Vc Vd f Hf g Hg e He j Hj Fj i Hi Fi mu nu kap rho gam del L1 L2 L3 L4 L5 L6.
    vprep. facts.
    specialize (H1 (p1 a) (p1 b) (p1 c) (p1 d) ltac:(auto) ltac:(auto) ltac:(auto) ltac:(auto)
      (p1 f) ltac:(auto) (p1 g) ltac:(auto) (p1 e) ltac:(auto) (p1 j) ltac:(auto) ltac:(auto)
      (p1 i) ltac:(auto) ltac:(auto) _ _ _ _ _ _ ltac:(eassumption) ltac:(eassumption) ltac:(eassumption)
      ltac:(eassumption) ltac:(eassumption) ltac:(eassumption)).
    specialize (H2 (p2 a) (p2 b) (p2 c) (p2 d) ltac:(auto) ltac:(auto) ltac:(auto) ltac:(auto)
      (p2 f) ltac:(auto) (p2 g) ltac:(auto) (p2 e) ltac:(auto) (p2 j) ltac:(auto) ltac:(auto)
      (p2 i) ltac:(auto) ltac:(auto) _ _ _ _ _ _ ltac:(eassumption) ltac:(eassumption) ltac:(eassumption)
      ltac:(eassumption) ltac:(eassumption) ltac:(eassumption)).
    etransitivity; [|etransitivity; [exact (f_equal2 Cmul H1 H2)|]]; clear H1 H2.
    - unfold pentagon_lhs. rewrite n_pair by auto. apply sumn_pair. intros s Hs. unfold F12.
      cbn [Cops omul]. ring.
    - symmetry. unfold pentagon_rhs. cbn [prod2 sym_outcomes]. apply osum_cart.
      { intros x. apply outL; auto. }
      intros h Hh. change (In h (sym_outcomes PS b c)) in Hh. vprep. rewrite n_pair by auto.
      apply sumn_pair. intros s Hs. rewrite n_pair by auto. apply sumn_pair. intros l Hl.
      rewrite n_pair by auto. apply sumn_pair. intros w Hw. unfold F12. cbn [Cops omul]. ring.
  Qed.

  Lemma prod_hexagon_for (Q1 Q2 Q : Rsym C) :
    (forall a b c m, Q a b c m = Q1 (p1 a) (p1 b) (p1 c) (m / NS (p2 a) (p2 b) (p2 c)) *c
                                 Q2 (p2 a) (p2 b) (p2 c) (m mod NS (p2 a) (p2 b) (p2 c))) ->
    hexagon_for P Cops F1 Q1 -> hexagon_for S Cops F2 Q2 -> hexagon_for PS Cops F12 Q.
  Proof.
    intros EQ H1 H2 a b c Va Vb Vc e He d Hd g Hg Fg al be mu nu L1 L2 L3 L4. vprep. facts.
    specialize (H1 (p1 a) (p1 b) (p1 c) ltac:(auto) ltac:(auto) ltac:(auto) (p1 e) ltac:(auto)
      (p1 d) ltac:(auto) (p1 g) ltac:(auto) ltac:(auto) _ _ _ _ ltac:(eassumption) ltac:(eassumption)
      ltac:(eassumption) ltac:(eassumption)).
    specialize (H2 (p2 a) (p2 b) (p2 c) ltac:(auto) ltac:(auto) ltac:(auto) (p2 e) ltac:(auto)
      (p2 d) ltac:(auto) (p2 g) ltac:(auto) ltac:(auto) _ _ _ _ ltac:(eassumption) ltac:(eassumption)
      ltac:(eassumption) ltac:(eassumption)).
    etransitivity; [|etransitivity; [exact (f_equal2 Cmul H1 H2)|]]; clear H1 H2.
    - unfold hexagon_lhs. rewrite !EQ. unfold F12.
      rewrite (@fr_comm _ FS (p2 c) (p2 a) (p2 e)) by auto. cbn [Cops omul]. ring.
    - symmetry. unfold hexagon_rhs. cbn [prod2 sym_outcomes]. apply osum_cart.
      { intros x. apply outL; auto. }
      intros h Hh. change (In h (sym_outcomes PS a b)) in Hh. vprep. rewrite n_pair by auto.
      apply sumn_pair. intros s Hs. rewrite n_pair by auto. apply sumn_pair. intros l Hl.
      rewrite EQ. unfold F12. facts. rewrite (@fr_comm _ FS (p2 c) (p2 a) (p2 e)) by auto.
      rewrite (@fr_comm _ FS (p2 b) (p2 c) (p2 g)) by auto.
      rewrite (@fr_comm _ FS (p2 h) (p2 c) (p2 d)) by auto.
      cbn [Cops omul]. ring.
  Qed.

  Lemma pair_eqb (a b : sector) : valid a -> valid b ->
    row_eqb a b = row_eqb (p1 a) (p1 b) && row_eqb (p2 a) (p2 b).
  Proof.
    intros _ _. apply eq_true_iff_eq. rewrite andb_true_iff, !row_eqb_eq. split.
    - now intros ->.
    - intros [E1 E2]. rewrite <- (firstn_skipn LP a), <- (firstn_skipn LP b). now rewrite E1, E2.
  Qed.
  Lemma divmod_eqb m m' n : n <> 0 -> (m =? m') = ((m / n =? m' / n) && (m mod n =? m' mod n)).
  Proof.
    intros Hn. apply eq_true_iff_eq. rewrite andb_true_iff, !Nat.eqb_eq. split.
    - now intros ->.
    - intros [E1 E2]. rewrite (Nat.div_mod m n Hn), (Nat.div_mod m' n Hn). now rewrite E1, E2.
  Qed.

  Lemma prod_F_unitary : F_unitary P Cops F1 -> F_unitary S Cops F2 -> F_unitary PS Cops F12.
  Proof.
    intros H1 H2 a b c Va Vb Vc e He d Hd g Hg Fg mu nu mu' nu' L1 L2 L3 L4. vprep.
    facts.
    specialize (H1 (p1 a) (p1 b) (p1 c) ltac:(auto) ltac:(auto) ltac:(auto) (p1 e) ltac:(auto)
      (p1 d) ltac:(auto) (p1 g) ltac:(auto) ltac:(auto) _ _ _ _ ltac:(eassumption) ltac:(eassumption)
      ltac:(eassumption) ltac:(eassumption)).
    specialize (H2 (p2 a) (p2 b) (p2 c) ltac:(auto) ltac:(auto) ltac:(auto) (p2 e) ltac:(auto)
      (p2 d) ltac:(auto) (p2 g) ltac:(auto) ltac:(auto) _ _ _ _ ltac:(eassumption) ltac:(eassumption)
      ltac:(eassumption) ltac:(eassumption)).
    etransitivity; [|etransitivity; [exact (f_equal2 Cmul H1 H2)|]]; clear H1 H2.
    - unfold F_gram. cbn [prod2 sym_outcomes]. apply osum_cart.
      { intros x. apply outL; auto. }
      intros h Hh. change (In h (sym_outcomes PS a b)) in Hh. vprep. rewrite n_pair by auto.
      apply sumn_pair. intros s Hs. rewrite n_pair by auto. apply sumn_pair. intros l Hl.
      unfold F12. change (omul Cops) with Cmul. change (oconj Cops) with Cconj. rewrite !Cconj_mul. ring.
    - rewrite (@pair_eqb e g) by auto.
      destruct (row_eqb (p1 e) (p1 g)) eqn:E1; destruct (row_eqb (p2 e) (p2 g)) eqn:E2;
        cbn [andb];
        [|repeat match goal with |- context [if ?b then _ else _] => destruct b end;
          cbn [Cops o0 o1]; ring ..].
      apply row_eqb_eq in E1, E2.
      assert (E : e = g).
      { rewrite <- (firstn_skipn LP e), <- (firstn_skipn LP g). now rewrite E1, E2. }
      subst g.
      rewrite (@divmod_eqb mu mu' (NS (p2 b) (p2 c) (p2 e))) by lia.
      rewrite (@divmod_eqb nu nu' (NS (p2 a) (p2 e) (p2 d))) by lia.
      repeat match goal with |- context [Nat.eqb ?x ?y] => destruct (Nat.eqb x y) end;
        cbn [andb Cops o0 o1]; ring.
  Qed.

  Lemma prod_R_unitary : R_unitary P Cops R1 -> R_unitary S Cops R2 -> R_unitary PS Cops R12.
  Proof.
    intros H1 H2 a b Va Vb c Hc mu L. vprep. facts.
    specialize (H1 (p1 a) (p1 b) ltac:(auto) ltac:(auto) (p1 c) ltac:(auto) _ ltac:(eassumption)).
    specialize (H2 (p2 a) (p2 b) ltac:(auto) ltac:(auto) (p2 c) ltac:(auto) _ ltac:(eassumption)).
    unfold R12. cbn [Cops omul oconj o1] in *. rewrite Cconj_mul.
    transitivity (C1 *c C1); [|ring]. rewrite <- H1 at 1. rewrite <- H2. ring.
  Qed.

  Lemma triv_len : length (sym_trivial P) = LP.
  Proof. apply (fr_len FP), (fr_trivial_valid FP). Qed.
  Lemma p1_triv : p1 (sym_trivial PS) = sym_trivial P.
  Proof. apply p1_app, triv_len. Qed.
  Lemma p2_triv : p2 (sym_trivial PS) = sym_trivial S.
  Proof. apply p2_app, triv_len. Qed.

  (** facts about fusing with the trivial sector *)
  Lemma unit_l T (FT : fusion_ring T) a b : sym_valid T a = true ->
    In b (sym_outcomes T (sym_trivial T) a) -> b = a /\ n_symbol T (sym_trivial T) a b = 1.
  Proof.
    intros Va H. destruct (fr_unit FT Va) as [E N]. rewrite E in H. destruct H as [<-|[]]. auto.
  Qed.
  Lemma unit_r T (FT : fusion_ring T) a b : sym_valid T a = true ->
    In b (sym_outcomes T a (sym_trivial T)) -> b = a /\ n_symbol T a (sym_trivial T) b = 1.
  Proof.
    intros Va H. assert (VT := fr_trivial_valid FT).
    assert (Vb := fr_closed FT Va VT H). apply (n_symbol_pos b FT Va VT) in H.
    rewrite (fr_comm FT Va VT Vb) in *. apply (n_symbol_pos b FT VT Va) in H.
    now apply unit_l.
  Qed.

  Lemma prod_F_trivial : F_trivial P Cops F1 -> F_trivial S Cops F2 -> F_trivial PS Cops F12.
  Proof.
    intros H1 H2 a b c Va Vb Vc Ht e He d Hd f Hf Ff mu nu kap lam L1 L2 L3 L4. vprep.
    assert (RP := prod2_ring FP FS).
    assert (Q1 := L1). assert (Q2 := L2). assert (Q3 := L3). assert (Q4 := L4).
    rewrite n_pair in Q1, Q2, Q3, Q4 by auto. facts.
    specialize (H1 (p1 a) (p1 b) (p1 c) ltac:(auto) ltac:(auto) ltac:(auto)).
    specialize (H2 (p2 a) (p2 b) (p2 c) ltac:(auto) ltac:(auto) ltac:(auto)).
    assert (T1 : p1 a = sym_trivial P \/ p1 b = sym_trivial P \/ p1 c = sym_trivial P).
    { destruct Ht as [ -> | [ -> | -> ]]; rewrite p1_triv; auto. }
    assert (T2 : p2 a = sym_trivial S \/ p2 b = sym_trivial S \/ p2 c = sym_trivial S).
    { destruct Ht as [ -> | [ -> | -> ]]; rewrite p2_triv; auto. }
    specialize (H1 T1 (p1 e) ltac:(auto) (p1 d) ltac:(auto) (p1 f) ltac:(auto) ltac:(auto) _ _ _ _
      ltac:(eassumption) ltac:(eassumption) ltac:(eassumption) ltac:(eassumption)).
    specialize (H2 T2 (p2 e) ltac:(auto) (p2 d) ltac:(auto) (p2 f) ltac:(auto) ltac:(auto) _ _ _ _
      ltac:(eassumption) ltac:(eassumption) ltac:(eassumption) ltac:(eassumption)).
    unfold F12. rewrite H1, H2. clear H1 H2.
    rewrite !n_pair by auto.
    rewrite can_fuse_to_In in Ff.
    assert (N2 : NS (p2 b) (p2 c) (p2 e) <> 0 /\ NS (p2 a) (p2 e) (p2 d) <> 0 /\
                 NS (p2 a) (p2 b) (p2 f) <> 0 /\ NS (p2 f) (p2 c) (p2 d) <> 0) by nia.
    assert (EE : forall (x y : bool), Cmul (if x then o1 Cops else o0 Cops) (if y then o1 Cops else o0 Cops)
       = if x && y then o1 Cops else o0 Cops).
    { intros [] []; cbn [andb Cops o0 o1]; ring. }
    rewrite EE. clear EE.
    assert (IFE : forall (x y : bool), x = y -> (if y then o1 Cops else o0 Cops) = (if x then o1 Cops else o0 Cops))
      by (now intros ? ? ->).
    apply IFE. clear IFE.
    assert (IFF : forall X Y Z W V U : nat, (X =? Y) = (Z =? W) && (V =? U) <-> (X = Y <-> Z = W /\ V = U)).
    { intros. rewrite eq_iff_eq_true, andb_true_iff, !Nat.eqb_eq. reflexivity. }
    apply IFF. clear IFF. apply o1' in Ff as Ff1; auto. apply o2' in Ff as Ff2; auto.
    destruct Ht as [ -> | [ -> | -> ]].
    - rewrite p1_triv, p2_triv in *.
      destruct (@unit_l P FP (p1 b) (p1 f)) as [E1 N1']; auto.
      destruct (@unit_l S FS (p2 b) (p2 f)) as [E2 N2']; auto.
      destruct (@unit_l P FP (p1 e) (p1 d)) as [E3 N3']; auto.
      destruct (@unit_l S FS (p2 e) (p2 d)) as [E4 N4']; auto.
      rewrite E1, E2, E3, E4 in *. rewrite N1', N2', N3', N4' in *.
      replace nu with 0 in * by lia. replace kap with 0 in * by lia.
      rewrite !Nat.mod_1_r, !Nat.div_1_r, !Nat.mul_0_l. cbn [Nat.add].
      rewrite !Nat.mul_1_r, !Nat.add_0_r.
      generalize (@divmod_eqb mu lam (NS (p2 b) (p2 c) (p2 e)) ltac:(lia)).
      rewrite eq_iff_eq_true, andb_true_iff, !Nat.eqb_eq. tauto.
    - rewrite p1_triv, p2_triv in *.
      destruct (@unit_r P FP (p1 a) (p1 f)) as [E1 N1']; auto.
      destruct (@unit_r S FS (p2 a) (p2 f)) as [E2 N2']; auto.
      destruct (@unit_l P FP (p1 c) (p1 e)) as [E3 N3']; auto.
      destruct (@unit_l S FS (p2 c) (p2 e)) as [E4 N4']; auto.
      rewrite E1, E2, E3, E4 in *. rewrite N1', N2', N3', N4' in *.
      replace mu with 0 in * by lia. replace kap with 0 in * by lia.
      rewrite !Nat.mod_1_r, !Nat.div_1_r, !Nat.mul_0_l. cbn [Nat.add].
      generalize (@divmod_eqb nu lam (NS (p2 a) (p2 c) (p2 d)) ltac:(lia)).
      rewrite eq_iff_eq_true, andb_true_iff, !Nat.eqb_eq. tauto.
    - rewrite p1_triv, p2_triv in *.
      destruct (@unit_r P FP (p1 b) (p1 e)) as [E1 N1']; auto.
      destruct (@unit_r S FS (p2 b) (p2 e)) as [E2 N2']; auto.
      destruct (@unit_r P FP (p1 f) (p1 d)) as [E3 N3']; auto.
      destruct (@unit_r S FS (p2 f) (p2 d)) as [E4 N4']; auto.
      rewrite E1, E2, <- E3, <- E4 in *. rewrite N1', N2', N3', N4' in *.
      replace mu with 0 in * by lia. replace lam with 0 in * by lia.
      rewrite !Nat.mod_1_r, !Nat.div_1_r, !Nat.mul_0_l. cbn [Nat.add].
      rewrite !Nat.mul_1_r, !Nat.add_0_r.
      generalize (@divmod_eqb nu kap (NS (p2 a) (p2 b) (p2 d)) ltac:(lia)).
      rewrite eq_iff_eq_true, andb_true_iff, !Nat.eqb_eq. tauto.
  Qed.

  Lemma prod2_category :
    braided_category P Cops F1 R1 fs1 qd1 -> braided_category S Cops F2 R2 fs2 qd2 ->
    braided_category PS Cops F12 R12 (fun a => fs1 (p1 a) *c fs2 (p2 a))
      (fun a => qd1 (p1 a) *c qd2 (p2 a)).
  Proof.
    intros [A1 [A2 A2'] A3 A4 A5 A6 A7 A8] [B1 [B2 B2'] B3 B4 B5 B6 B7 B8]. constructor.
    - now apply prod_pentagon.
    - split; [now apply (@prod_hexagon_for R1 R2)|].
      apply (@prod_hexagon_for (fun a b c m => oconj Cops (R1 a b c m)) (fun a b c m => oconj Cops (R2 a b c m))); auto.
      intros. unfold R12. cbn [Cops oconj]. apply Cconj_mul.
    - now apply prod_F_unitary.
    - now apply prod_R_unitary.
    - now apply prod_F_trivial.
    - intros a Va. facts. destruct (A6 (p1 a)) as [X1 X2]; auto. destruct (B6 (p2 a)) as [Y1 Y2]; auto.
      unfold R12. rewrite p1_triv, p2_triv.
      assert (N1 : NS (p2 a) (sym_trivial S) (p2 a) = 1).
      { assert (VT := fr_trivial_valid FS). rewrite (fr_comm FS) by auto.
        apply (fr_unit FS). auto. }
      assert (N2 : NS (sym_trivial S) (p2 a) (p2 a) = 1) by (apply (fr_unit FS); auto).
      rewrite N1, N2. cbn [Nat.div Nat.modulo Nat.divmod fst snd Nat.sub] in *.
      rewrite X1, X2, Y1, Y2. cbn [Cops o1]. split; ring.
    - intros a Va. facts. destruct (A7 (p1 a)) as [X1 X2]; auto. destruct (B7 (p2 a)) as [Y1 Y2]; auto.
      assert (LD : length (sym_dual P (p1 a)) = LP) by (apply (fr_len FP), (fr_dual_valid FP); auto).
      cbn [prod2 sym_dual]. unfold F12. rewrite p1_triv, p2_triv, !p1_app, !p2_app by auto.
      assert (Z1 : forall n, 0 / n = 0) by (intros []; [reflexivity|apply Nat.div_0_l; lia]).
      assert (Z2 : forall n, 0 mod n = 0) by (intros []; [reflexivity|apply Nat.mod_0_l; lia]).
      rewrite !Z1, !Z2. split.
      + cbn [Cops omul] in *. rewrite <- X1, <- Y1. ring.
      + cbn [Cops o1 oopp] in *.
        destruct X2 as [ -> | -> ], Y2 as [ -> | -> ]; [left|right|right|left]; ring.
    - intros a b Va Vb. facts. cbn [prod2 sym_outcomes].
      rewrite (@osum_cart _ (fun c => sumn Cops (NP (p1 a) (p1 b) c) (fun _ => qd1 c))
        (fun c => sumn Cops (NS (p2 a) (p2 b) c) (fun _ => qd2 c))).
      + rewrite <- A8, <- B8 by auto. cbn [Cops omul]. ring.
      + intros x. apply outL; auto.
      + intros c Hc. rewrite n_pair by auto. now apply sumn_pair.
  Qed.
End Prod2Cat.

(** ** lists of factors *)
Section ListCat.
  Notation facs := (list (factor C)).
  Notation nf := (nofac Cops).
  Notation fsec := (@factor_sector C).
  Definition full_qd (fs : facs) (a : sector) : C :=
    fold_left (fun r i => omul Cops r (fac_qd (nth i fs nf) (fsec fs a i))) (seq 0 (length fs)) (o1 Cops).
  Definition is_cat (f : factor C) : Prop :=
    braided_category (fac_sym f) Cops (fac_F f) (fac_R f) (fac_fs f) (fac_qd f).

  Lemma fold_parts_snoc (A : Type) (g : A -> factor C -> sector -> A) (fs : facs) f a x :
    length a = total_len (fs ++ [f]) ->
    fold_left (fun r i => g r (nth i (fs ++ [f]) nf) (fsec (fs ++ [f]) a i)) (seq 0 (length (fs ++ [f]))) x =
    g (fold_left (fun r i => g r (nth i fs nf) (fsec fs (firstn (total_len fs) a) i)) (seq 0 (length fs)) x)
      f (skipn (total_len fs) a).
  Proof.
    intros L. rewrite seq_snoc, fold_left_app. cbn [fold_left]. rewrite nth_snoc_last, fsec_snoc_last by auto.
    f_equal. apply fold_left_ext_in. intros y i Hi. apply in_seq in Hi.
    now rewrite nth_snoc_lt, fsec_snoc_lt by lia.
  Qed.

  Lemma f_array_snoc (fs : facs) f a b c d e g :
    length a = total_len (fs ++ [f]) -> length b = total_len (fs ++ [f]) ->
    length c = total_len (fs ++ [f]) -> length d = total_len (fs ++ [f]) ->
    length e = total_len (fs ++ [f]) -> length g = total_len (fs ++ [f]) ->
    let p1 := firstn (total_len fs) in let p2 := skipn (total_len fs) in
    product_f_array Cops (fs ++ [f]) a b c d e g =
    kron Cops (product_f_array Cops fs (p1 a) (p1 b) (p1 c) (p1 d) (p1 e) (p1 g))
      (f_array f (p2 a) (p2 b) (p2 c) (p2 d) (p2 e) (p2 g)).
  Proof.
    intros. unfold product_f_array. rewrite seq_snoc, fold_left_app. cbn [fold_left].
    rewrite nth_snoc_last, !fsec_snoc_last by auto. f_equal. apply fold_left_ext_in. intros y i Hi.
    apply in_seq in Hi. now rewrite nth_snoc_lt, !fsec_snoc_lt by lia.
  Qed.
  Lemma r_array_snoc (fs : facs) f a b c :
    length a = total_len (fs ++ [f]) -> length b = total_len (fs ++ [f]) ->
    length c = total_len (fs ++ [f]) ->
    let p1 := firstn (total_len fs) in let p2 := skipn (total_len fs) in
    product_r_array Cops (fs ++ [f]) a b c =
    kron Cops (product_r_array Cops fs (p1 a) (p1 b) (p1 c)) (r_array f (p2 a) (p2 b) (p2 c)).
  Proof.
    intros. unfold product_r_array. rewrite seq_snoc, fold_left_app. cbn [fold_left].
    rewrite nth_snoc_last, !fsec_snoc_last by auto. f_equal. apply fold_left_ext_in. intros y i Hi.
    apply in_seq in Hi. now rewrite nth_snoc_lt, !fsec_snoc_lt by lia.
  Qed.

  Lemma full_category (fs : facs) : fs <> [] -> Forall (fun f => fusion_ring (fac_sym f)) fs ->
    Forall is_cat fs ->
    braided_category (full_sym Cops fs) Cops (product_F Cops fs) (product_R Cops fs)
      (product_fs Cops fs) (full_qd fs).
  Proof.
    induction fs as [|f fs IH] using rev_ind; [easy|]. intros _ F D. apply Forall_app in F, D.
    destruct F as [F Ff], D as [D Df].
    inversion Ff as [|? ? Hf _]; subst. inversion Df as [|? ? Hd _]; subst.
    destruct fs as [|g fs].
    - cbn [app]. apply (category_agree (full_agree_single Cops Hf) Hf) with (5 := Hd).
      + intros a b c d e f0 m n k l Va Vb Vc Vd Ve Vf Lm Ln Lk Ll. unfold product_F, product_f_array.
        cbn [length seq fold_left nth]. rewrite !fsec_single by (now apply (fr_len Hf)).
        cbn [kron f_array one_farray fsh fat]. rewrite !Nat.mod_small by auto. cbn [Cops omul o1]. ring.
      + intros a b c m Va Vb Vc Lm. unfold product_R, product_r_array.
        cbn [length seq fold_left nth]. rewrite !fsec_single by (now apply (fr_len Hf)).
        cbn [kron r_array one_farray fsh fat]. rewrite !Nat.mod_small by auto. cbn [Cops omul o1]. ring.
      + intros a Va. unfold product_fs. cbn [length seq fold_left nth].
        rewrite fsec_single by (now apply (fr_len Hf)). cbn [Cops omul o1]. ring.
      + intros a Va. unfold full_qd. cbn [length seq fold_left nth].
        rewrite fsec_single by (now apply (fr_len Hf)). cbn [Cops omul o1]. ring.
    - set (l := g :: fs) in *. assert (NE : l <> []) by easy.
      assert (R : fusion_ring (full_sym Cops l)) by (apply full_ring; auto).
      specialize (IH NE F D). assert (Ag := full_agree_snoc NE R Hf).
      assert (VL : forall a, sym_valid (prod2 (full_sym Cops l) (fac_sym f)) a = true ->
              length a = total_len (l ++ [f])).
      { intros a H. rewrite <- (sa_valid Ag) in H. now apply valid_len in H. }
      apply (category_agree Ag (prod2_ring R Hf)) with (5 := prod2_category R Hf IH Hd).
      + intros a b c d e f0 m n k j Va Vb Vc Vd Ve Vf _ _ _ _. unfold product_F.
        rewrite f_array_snoc by auto. reflexivity.
      + intros a b c m Va Vb Vc _. unfold product_R. rewrite r_array_snoc by auto. reflexivity.
      + intros a Va. unfold product_fs.
        apply (@fold_parts_snoc C (fun r x s => omul Cops r (fac_fs x s)) l f a (o1 Cops)). auto.
      + intros a Va. unfold full_qd.
        apply (@fold_parts_snoc C (fun r x s => omul Cops r (fac_qd x s)) l f a (o1 Cops)). auto.
  Qed.

  Lemma fold_cmul_1 A (g : A -> C) l : (forall i, In i l -> g i = C1) ->
    fold_left (fun r i => omul Cops r (g i)) l C1 = C1.
  Proof.
    intros H. induction l as [|x l IH]; cbn [fold_left]; auto.
    rewrite H by auto with datatypes. replace (omul Cops C1 C1) with C1 by (cbn [Cops omul]; ring).
    apply IH. auto with datatypes.
  Qed.

  Lemma product_category (fs : facs) : fs <> [] -> Forall (honest Cops) fs -> Forall is_cat fs ->
    braided_category (product_sym Cops fs) Cops (product_F Cops fs) (product_R Cops fs)
      (product_fs Cops fs) (product_qd Cops fs).
  Proof.
    intros NE F D.
    assert (FR : Forall (fun f => fusion_ring (fac_sym f)) fs)
      by (eapply Forall_impl; [|exact F]; intros f Hf; apply Hf).
    apply (category_agree (product_agree_full NE F) (full_ring Cops NE FR))
      with (5 := full_category NE FR D); auto.
    intros a Va. unfold product_qd. destruct (Nat.eqb_spec (max_fusion_style fs) style_single); auto.
    symmetry. apply fold_cmul_1. intros i Hi. apply in_seq in Hi.
    assert (H : max_fusion_style fs <= 0) by lia. apply max_style_le in H.
    assert (Hon := Forall_nth_fac Cops F (i := i) ltac:(lia)).
    apply (ho_qd1 Hon).
    - assert (H' := Forall_nth_fac Cops H (i := i) ltac:(lia)). cbn beta in H'. lia.
    - apply valid_parts; auto; lia.
  Qed.
End ListCat.
