(** braid: unitarity of the C symbol, and the inverse braid (C20). *)
From Coq Require Import Ring.
From Verif Require Import Util RowModel RowProofs SymModel SymProofs CatSpec Sums StarMat LexOrder SpaceModel SpaceProofs SpaceProofs2 SpaceProofs7 TreeModel TreeProofs TreeProofs2 TreeProofs3 TreeProofs4 TreeProofs5.
Set Implicit Arguments.
Unset Strict Implicit.
Open Scope nat_scope.

(** labels (f, kappa, lambda) of the two vertices (x y -> f), (f z -> d) *)
Definition vidx (S : symmetry) (x y z d : sector) : list (sector * nat * nat) :=
  flat_map (fun f => flat_map (fun k => map (fun l => (f, k, l)) (seq 0 (n_symbol S f z d))) (seq 0 (n_symbol S x y f))) (sym_outcomes S x y).
Definition vidx_eqb (p q : sector * nat * nat) : bool :=
  match p, q with (f, k, l), (f', k', l') => row_eqb f f' && (k =? k') && (l =? l') end.
Lemma vidx_eqb_eq p q : vidx_eqb p q = true <-> p = q.
Proof.
  destruct p as [[f k] l], q as [[f' k'] l']. cbn. rewrite !Bool.andb_true_iff, row_eqb_eq, !Nat.eqb_eq. split; [intros ((-> & ->) & ->); reflexivity|].
  intros H. inversion H. auto.
Qed.
Section V.
  Variable S : symmetry.
  Notation N := (n_symbol S).
  Notation out := (sym_outcomes S).
  Notation valid a := (sym_valid S a = true).
  Lemma vidx_In x y z d f k l : In (f, k, l) (vidx S x y z d) <-> In f (out x y) /\ k < N x y f /\ l < N f z d.
  Proof.
    unfold vidx. rewrite in_flat_map. split.
    - intros (f' & H1 & H). apply in_flat_map in H. destruct H as (k' & H2 & H). apply in_map_iff in H. destruct H as (l' & E & H3). inversion E; subst.
      apply in_seq in H2, H3. repeat split; [assumption|lia|lia].
    - intros (H1 & H2 & H3). exists f. split; [exact H1|]. apply in_flat_map. exists k. split; [apply in_seq; lia|]. apply in_map_iff. exists l. split; [reflexivity|].
      apply in_seq. lia.
  Qed.
  Lemma vidx_NoDup (RING : fusion_ring S) x y z d : valid x -> valid y -> NoDup (vidx S x y z d).
  Proof.
    intros Vx Vy. unfold vidx. apply NoDup_flat_map; [apply (fr_nodup RING); assumption| |].
    - intros f _. apply NoDup_flat_map; [apply seq_NoDup| |].
      + intros k _. apply NoDup_map_inj; [|apply seq_NoDup]. intros a b _ _ E. now inversion E.
      + intros k k' p _ _ H1 H2. apply in_map_iff in H1, H2. destruct H1 as (? & <- & _), H2 as (? & E & _). inversion E. congruence.
    - intros f f' p _ _ H1 H2. apply in_flat_map in H1, H2. destruct H1 as (? & _ & H1), H2 as (? & _ & H2). apply in_map_iff in H1, H2.
      destruct H1 as (? & <- & _), H2 as (? & E & _). inversion E. congruence.
  Qed.
  Lemma vidx_length x y z d : length (vidx S x y z d) = left_count S x y z d.
  Proof.
    unfold vidx, left_count. rewrite length_flat_map. f_equal. apply map_ext. intros f. rewrite (flat_map_const (n := N f z d)).
    - now rewrite seq_length.
    - intros k _. now rewrite map_length, seq_length.
  Qed.
  Lemma out_comm (RING : fusion_ring S) a b : valid a -> valid b -> Permutation (out a b) (out b a).
  Proof.
    assert (Q : forall a b x, valid a -> valid b -> In x (out a b) -> In x (out b a)).
    { intros a' b' x Va Vb H. assert (Vx := fr_closed RING Va Vb H). apply (n_symbol_pos x RING Vb Va). rewrite (fr_comm RING Vb Va Vx).
      now apply (n_symbol_pos x RING Va Vb). }
    intros Va Vb. apply NoDup_Permutation; [now apply (fr_nodup RING)|now apply (fr_nodup RING)|]. intros x. split; apply Q; assumption.
  Qed.
  Lemma left_count_comm (RING : fusion_ring S) a b c d : valid a -> valid b -> left_count S a b c d = left_count S b a c d.
  Proof.
    intros Va Vb. unfold left_count. rewrite (nsum_perm (Permutation_map _ (out_comm RING Va Vb))). f_equal. apply map_ext_in. intros x Hx.
    now rewrite (fr_comm RING Va Vb (fr_closed RING Vb Va Hx)).
  Qed.
  Lemma left_count_swap (RING : fusion_ring S) a b c d : valid a -> valid b -> valid c -> valid d -> left_count S a b c d = left_count S a c b d.
  Proof.
    intros Va Vb Vc Vd. rewrite (left_count_comm RING c d Va Vb), (fr_assoc RING Vb Va Vc Vd). unfold right_count, left_count. f_equal. apply map_ext_in.
    intros f Hf. now rewrite (fr_comm RING Vb (fr_closed RING Va Vc Hf) Vd).
  Qed.

  Variable K : Type.
  Variable o : ops K.
  Hypothesis ST : star_laws o.
  Hypothesis RING : fusion_ring S.
  Variables (F : Fsym K) (R : Rsym K) (C : Fsym K).
  Hypothesis FU : F_unitary S o F.
  Hypothesis RU : R_unitary S o R.
  Add Ring Kr6 : (st_ring ST).
  Notation SR := (st_semi ST).
  Infix "**" := (omul o) (at level 40, left associativity).
  Definition Cmat a b c d (i j : sector * nat * nat) : K :=
    match i, j with (e, mu, nu), (f, kap, lam) => C a b c d e f mu nu kap lam end.
  Lemma sum_vidx x y z d (g : sector -> nat -> nat -> K) :
    osum o (map (fun p => match p with (f, k, l) => g f k l end) (vidx S x y z d)) =
    osum o (map (fun f => sumn o (N x y f) (fun k => sumn o (N f z d) (fun l => g f k l))) (out x y)).
  Proof.
    unfold vidx. rewrite (sum_flat_map SR). apply sum_ext. intros f _. rewrite (sum_flat_map SR). unfold sumn. apply sum_ext. intros k _. now rewrite map_map.
  Qed.
  (** C = R F R* for these a, b, c *)
  Definition C_at a b c : Prop := forall e, In e (out a b) -> forall d, In d (out e c) -> forall f, In f (out a c) -> can_fuse_to S f b d = true ->
    forall mu nu kap lam, mu < N a b e -> nu < N e c d -> kap < N a c f -> lam < N f b d ->
      C a b c d e f mu nu kap lam = R e c d nu ** (F c a b d e f mu nu kap lam ** oconj o (R a c f kap)).
  Definition C_unitary_at a b c d : Prop := ortho_rows o vidx_eqb (Cmat a b c d) (vidx S a b c d) (vidx S a c b d).
  Lemma C_rows a b c d : C_at a b c -> valid a -> valid b -> valid c -> valid d -> C_unitary_at a b c d. 
  Proof.
    intros CR Va Vb Vc Vd [[e mu] nu] [[e' mu'] nu'] Hi Hi'. apply vidx_In in Hi, Hi'. destruct Hi as (H1 & H2 & H3), Hi' as (H1' & H2' & H3').
    assert (Ve := fr_closed RING Va Vb H1). assert (Ve' := fr_closed RING Va Vb H1').
    assert (D : In d (out e c)) by now apply n_symbol_lt in H3. assert (D' : In d (out e' c)) by now apply n_symbol_lt in H3'.
    assert (G := FU Vc Va Vb H1). specialize (G d). 
    assert (Dc : In d (out c e)) by (apply (Permutation_in _ (out_comm RING Ve Vc)); exact D).
    assert (Dc' : In d (out c e')) by (apply (Permutation_in _ (out_comm RING Ve' Vc)); exact D').
    specialize (G Dc e' H1' (proj2 (can_fuse_to_In _ _ _ _) Dc') mu nu mu' nu' H2).
    rewrite (fr_comm RING Vc Ve Vd), (fr_comm RING Vc Ve' Vd) in G. specialize (G H3 H2' H3').
    transitivity (R e c d nu ** oconj o (R e' c d nu') ** F_gram S o F c a b d e e' mu nu mu' nu').
    - unfold F_gram. rewrite <- (sum_perm SR (Permutation_map _ (out_comm RING Va Vc))). rewrite <- (sum_mul_l SR).
      transitivity (osum o (map (fun p => match p with (f, k, l) => R e c d nu ** oconj o (R e' c d nu') ** (F c a b d e f mu nu k l ** oconj o (F c a b d e' f mu' nu' k l)) end) (vidx S a c b d))).
      + apply sum_ext. intros [[f k] l] Hj. apply vidx_In in Hj. destruct Hj as (J1 & J2 & J3). unfold Cmat.
        assert (FB : can_fuse_to S f b d = true) by (apply can_fuse_to_In; now apply n_symbol_lt in J3).
        rewrite (CR e H1 d D f J1 FB _ _ _ _ H2 H3 J2 J3), (CR e' H1' d D' f J1 FB _ _ _ _ H2' H3' J2 J3).
        rewrite !(st_mul ST), (st_invol ST). 
        transitivity (R e c d nu ** oconj o (R e' c d nu') ** (F c a b d e f mu nu k l ** oconj o (F c a b d e' f mu' nu' k l)) ** (R a c f k ** oconj o (R a c f k))); [ring|].
        rewrite (RU Va Vc J1 J2). ring.
      + rewrite (sum_vidx a c b d (fun f k l => R e c d nu ** oconj o (R e' c d nu') ** (F c a b d e f mu nu k l ** oconj o (F c a b d e' f mu' nu' k l)))).
        apply sum_ext. intros f Hf. rewrite (fr_comm RING Va Vc (fr_closed RING Va Vc Hf)). unfold sumn. rewrite <- (sum_mul_l SR). apply sum_ext. intros k _.
        rewrite <- (sum_mul_l SR). reflexivity.
    - rewrite G. cbn [vidx_eqb]. destruct (row_eqb e e' && (mu =? mu') && (nu =? nu')) eqn:E; [|ring].
      rewrite !Bool.andb_true_iff, row_eqb_eq, !Nat.eqb_eq in E. destruct E as ((-> & ->) & ->). rewrite (RU Ve' Vc D'); [ring|]. exact H3'.
  Qed.
  Lemma C_unitary_iff : C_unitary S o C <-> forall a b c d, valid a -> valid b -> valid c -> valid d -> C_unitary_at a b c d.
  Proof.
    split.
    - intros H a b c d Va Vb Vc Vd [[e mu] nu] [[e' mu'] nu'] Hi Hi'. apply vidx_In in Hi, Hi'. destruct Hi as (H1 & H2 & H3), Hi' as (H1' & H2' & H3').
      specialize (H a b c d Va Vb Vc Vd e e' mu nu mu' nu' H1 H1' H2 H3 H2' H3'). cbn [vidx_eqb]. rewrite <- H. rewrite <- sum_vidx. apply sum_ext. intros [[f k] l] _. reflexivity.
    - intros H a b c d Va Vb Vc Vd e e' mu nu mu' nu' H1 H1' H2 H3 H2' H3'.
      assert (G := H a b c d Va Vb Vc Vd (e, mu, nu) (e', mu', nu') (proj2 (vidx_In _ _ _ _ _ _ _) (conj H1 (conj H2 H3))) (proj2 (vidx_In _ _ _ _ _ _ _) (conj H1' (conj H2' H3')))).
      cbn [vidx_eqb] in G. rewrite <- G. rewrite <- sum_vidx. apply sum_ext. intros [[f k] l] _. reflexivity.
  Qed.
  Lemma C_unitary_RFR : C_is_RFR S o F R C -> C_unitary S o C.
  Proof.
    intros CR. apply C_unitary_iff. intros a b c d Va Vb Vc Vd. apply C_rows; try assumption. intros e H1 d' D f J1 FB mu nu kap lam. apply (CR a b c Va Vb Vc e H1 d' D f J1 FB).
  Qed.
  Hypothesis CU : C_unitary S o C.
  Lemma C_cols a b c d : valid a -> valid b -> valid c -> valid d -> ortho_cols o vidx_eqb (Cmat a b c d) (vidx S a b c d) (vidx S a c b d).
  Proof.
    intros Va Vb Vc Vd. apply rows_cols with (eqA := vidx_eqb); try exact ST; try exact vidx_eqb_eq.
    - now apply vidx_NoDup.
    - now apply vidx_NoDup.
    - rewrite !vidx_length. now apply left_count_swap.
    - now apply C_unitary_iff.
  Qed.
End V.
