(** Every move is undone by the opposite move. *)
From Verif Require Import Util RowModel RowProofs GridModel GridProofs SymModel SymProofs CatSpec Sums StarMat SpaceModel SpaceSpec SpaceProofs PipeModel TreeModel TreeProofs TreeProofs3 TreeProofs4 TreeProofs5 TreeProofs7 TreeProofs8 TensorModel TensorSpec BlockModel
  SparseModel ConvertModel FtOpsModel MappingModel MappingProofs PermLegsModel PermLegsSpec MoveModel FtMapModel FtMapSpec FtMapProofs7 FtMapProofs9 BendSpec BendProofs.
Set Implicit Arguments. Unset Strict Implicit.
Open Scope nat_scope.

Section Inverse.
  Variable S : symmetry.
  Hypothesis RING : fusion_ring S.
  Variable K : Type.
  Variable o : ops K.
  Hypothesis ST : star_laws o.
  Variable B : Bsym K.
  Variables sqrt_qdim inv_sqrt_qdim fs theta : sector -> K.
  Variable trivial_braid : bool.
  Variable R : Rsym K.
  Variable C : Fsym K.
  Variable small : K -> bool.
  Hypothesis BD : bend_data S o B sqrt_qdim inv_sqrt_qdim fs.
  Hypothesis TU : twist_unitary S o theta.
  Hypothesis RU : R_unitary S o R.
  Hypothesis CU : C_unitary S o C.
  Hypothesis SM : forall x, small x = true -> x = o0 o.
  Notation SR := (st_semi ST).
  Add Ring Kr : SR.
  Notation braid_tree := (braid_tree S o R C small).
  Notation twist_tree := (twist o theta trivial_braid).
  Notation bend_pair := (fun X Y down => bend_leg S o B sqrt_qdim inv_sqrt_qdim fs X Y down false).
  Notation move := (move braid_tree twist_tree bend_pair).
  Notation moved := (moved o braid_tree twist_tree bend_pair).
  Notation "x ** y" := (omul o x y) (at level 40, left associativity).
  Notation amount := (amount pair_dec o).

  Definition pair_ok (XY : tree * tree) : Prop := tree_ok S (fst XY) /\ tree_ok S (snd XY) /\ t_coup (fst XY) = t_coup (snd XY).

  Lemma inner_valid t n : tree_ok S t -> n + 2 < num_uncoupled t -> sym_valid S (nth n (t_inner t) []) = true.
  Proof.
    intros TR H. destruct (tree_cases TR) as [ET|[(a & d0 & ET)|(a & us & c0 & du & inn & mus & ET & L & P0)]]; subst t; unfold num_uncoupled in H; cbn [t_unc length t_inner] in *; try lia.
    destruct TR as [V _]. cbn [t_unc] in V. apply Forall_cons_iff in V. destruct V as [V1 V2]. destruct (path_valid RING P0 V1 V2) as [V3 _]. destruct (path_lengths P0) as (_ & LI & _). rewrite Forall_forall in V3. apply V3. apply nth_In. lia.
  Qed.
  Lemma unc_valid' t n : tree_ok S t -> n < num_uncoupled t -> sym_valid S (nth n (t_unc t) []) = true.
  Proof. intros [V _] H. rewrite Forall_forall in V. apply V. now apply nth_In. Qed.
  Lemma sorted_seq (l : list nat) : forallb (fun p => fst p =? snd p) (combine l (seq 0 (length l))) = true -> l = seq 0 (length l).
  Proof.
    generalize 0. induction l as [|x l IH]; intros s H; [reflexivity|]. cbn [length seq combine forallb fst snd] in H. apply andb_true_iff in H. destruct H as [H1 H2]. apply Nat.eqb_eq in H1. cbn [length seq]. f_equal; [exact H1|]. now apply IH.
  Qed.
  Lemma theta_phase (over : bool) a : sym_valid S a = true -> (if negb over then theta a else oconj o (theta a)) ** (if over then theta a else oconj o (theta a)) = o1 o.
  Proof. intros V. destruct over; cbn [negb]; rewrite <- (TU V); ring. Qed.
  (** a twist multiplies the tree with a number; the opposite twist with the inverse *)
  Lemma twist_back t idcs over r : tree_ok S t -> twist_tree t idcs over = Some r -> exists c c', r = [(t, c)] /\ twist_tree t idcs (negb over) = Some [(t, c')] /\ c' ** c = o1 o.
  Proof.
    intros TR. unfold twist. destruct trivial_braid; [intros [= <-]; eexists _, _; split; [reflexivity|]; split; [reflexivity|]; ring|].
    destruct idcs as [|i [|j idcs]]; [intros [= <-]; eexists _, _; split; [reflexivity|]; split; [reflexivity|]; ring| |].
    - destruct (Nat.ltb_spec i (num_uncoupled t)) as [LT|]; [|discriminate]. intros [= <-]. eexists _, _. split; [reflexivity|]. split; [reflexivity|]. apply theta_phase. now apply unc_valid'.
    - set (l := i :: j :: idcs) in *. destruct (forallb (fun i0 => i0 <? num_uncoupled t) l) eqn:FB; [|discriminate]. cbn [negb]. destruct (strictly_up (sort_nat l)); [|discriminate]. cbn [negb].
      destruct (length (sort_nat l) =? num_uncoupled t) eqn:EL; [intros [= <-]; eexists _, _; split; [reflexivity|]; split; [reflexivity|]; apply theta_phase; now apply (coup_valid RING)|].
      destruct (forallb (fun p => fst p =? snd p) (combine (sort_nat l) (seq 0 (length (sort_nat l))))) eqn:SQ; [|discriminate]. intros [= <-]. eexists _, _. split; [reflexivity|]. split; [reflexivity|]. apply theta_phase.
      apply inner_valid; [exact TR|]. apply Nat.eqb_neq in EL. apply sorted_seq in SQ. assert (PM := sort_nat_perm l). assert (LL := Permutation_length PM). unfold l in LL at 2. cbn [length] in LL.
      assert (IN : In (last (sort_nat l) 0) l). { apply (Permutation_in _ PM). rewrite SQ, LL. rewrite seq_S. rewrite last_last. apply in_app_iff. right. now left. }
      rewrite forallb_forall in FB. specialize (FB _ IN). apply Nat.ltb_lt in FB.
      assert (E : last (sort_nat l) 0 = length (sort_nat l) - 1). { rewrite SQ at 1. rewrite LL. rewrite seq_S, last_last. cbn. lia. }
      change (last (sort_nat l) 0 - 1 + 2 < num_uncoupled t). clear -E FB LL EL. lia.
  Qed.

  Lemma coef_amount (l : list (tree * K)) u : coef o l u = FtMapSpec.amount tree_dec o l u.
  Proof.
    unfold coef, FtMapSpec.amount. f_equal. apply map_ext. intros p. destruct (tree_dec (fst p) u) as [E|N]; [now rewrite (proj2 (tree_eqb_eq _ _) E)|]. destruct (tree_eqb (fst p) u) eqn:E; [|reflexivity]. apply tree_eqb_eq in E. contradiction.
  Qed.
  Lemma braid_back t j over dc r : tree_ok S t -> braid_tree t j over dc = Some r ->
    forall u, FtMapSpec.amount tree_dec o (apply_linear o (fun v => braid_tree v j (negb over) dc) r) u = if tree_dec t u then o1 o else o0 o.
  Proof.
    intros TR. unfold MoveModel.braid_tree at 1. destruct (Nat.ltb_spec (j + 1) (num_uncoupled t)) as [LT|]; [|discriminate]. intros [= <-] u.
    assert (E : apply_linear o (fun v => braid_tree v j (negb over) dc) (braid S o R C small t j over dc) = extend_linear o (fun v => braid S o R C small v j (negb over) dc) (braid S o R C small t j over dc)).
    { unfold apply_linear, extend_linear. apply flat_map_ext_in. intros [v x] I. cbn [fst snd]. destruct (braid_valid o RING R C small over dc TR LT) as [_ V]. destruct (V _ _ I) as (V1 & V2 & _). unfold image, MoveModel.braid_tree.
      assert (LV : num_uncoupled v = num_uncoupled t) by (unfold num_uncoupled; now rewrite V2, swap2_length). rewrite LV, (proj2 (Nat.ltb_lt _ _) LT). apply map_ext. intros q. f_equal. ring. }
    rewrite E, <- coef_amount, (braid_inverse ST RING RU CU SM over dc u TR LT). destruct (tree_dec t u) as [EQ|N]; [now rewrite (proj2 (tree_eqb_eq _ _) EQ)|]. destruct (tree_eqb t u) eqn:EQ; [|reflexivity]. apply tree_eqb_eq in EQ. contradiction.
  Qed.

  (** maps of one tree as maps of pairs *)
  Lemma left_back g X Y (r : list (tree * K)) : (forall u, FtMapSpec.amount tree_dec o (apply_linear o g r) u = if tree_dec X u then o1 o else o0 o) ->
    forall k, amount (apply_linear o (left_map g) (map (fun q => ((fst q, Y), snd q)) r)) k = if pair_dec (X, Y) k then o1 o else o0 o.
  Proof.
    intros H [X' Y']. specialize (H X'). rewrite (amount_apply tree_dec SR) in H. rewrite (amount_apply pair_dec SR), map_map. cbn [fst snd].
    assert (E : forall q : tree * K, amount (image (left_map g) (fst q, Y)) (X', Y') = if tree_dec Y Y' then FtMapSpec.amount tree_dec o (image g (fst q)) X' else o0 o).
    { intros q. unfold image, left_map. cbn [fst snd]. destruct (g (fst q)) as [l|]; cbn [option_map]; [|unfold FtMapSpec.amount; cbn [map]; rewrite sum_nil; now destruct (tree_dec Y Y')].
      unfold FtMapSpec.amount. rewrite map_map. cbn [fst snd]. destruct (tree_dec Y Y') as [ <- |N].
      - f_equal. apply map_ext. intros p. destruct (pair_dec (fst p, Y) (X', Y)) as [EE|NN], (tree_dec (fst p) X') as [EE'|NN']; try reflexivity; exfalso; congruence.
      - apply (sum_zero SR). intros p _. destruct (pair_dec (fst p, Y) (X', Y')) as [EE|NN]; [exfalso; congruence|reflexivity]. }
    rewrite (map_ext _ (fun q => (if tree_dec Y Y' then FtMapSpec.amount tree_dec o (image g (fst q)) X' else o0 o) ** snd q)) by (intros q; now rewrite E).
    destruct (tree_dec Y Y') as [ <- |N].
    - rewrite H. destruct (tree_dec X X') as [ <- |N'], (pair_dec (X, _) _) as [EE|NN]; try reflexivity; exfalso; congruence.
    - rewrite (sum_zero SR) by (intros; ring). destruct (pair_dec (X, Y) (X', Y')) as [EE|NN]; [exfalso; congruence|reflexivity].
  Qed.
  Definition swapped (XY : tree * tree) : tree * tree := (snd XY, fst XY).
  Lemma swap_delta XY k : (if pair_dec (swapped XY) k then o1 o else o0 o) = (if pair_dec XY (swapped k) then o1 o else o0 o).
  Proof. destruct XY as [X Y], k as [X' Y']. unfold swapped. cbn [fst snd]. destruct (pair_dec _ _) as [E|N], (pair_dec _ _) as [E'|N']; try reflexivity; exfalso; congruence. Qed.
  Lemma amount_swapped (l : list ((tree * tree) * K)) k : amount (map (fun p => (swapped (fst p), snd p)) l) k = amount l (swapped k).
  Proof.
    unfold FtMapSpec.amount. rewrite map_map. f_equal. apply map_ext. intros [[X Y] c]. destruct k as [X' Y']. unfold swapped. cbn [fst snd]. destruct (pair_dec _ _) as [E|N], (pair_dec _ _) as [E'|N']; try reflexivity; exfalso; congruence.
  Qed.
  Lemma right_back g X Y (r : list (tree * K)) : (forall u, FtMapSpec.amount tree_dec o (apply_linear o g r) u = if tree_dec Y u then o1 o else o0 o) ->
    forall k, amount (apply_linear o (right_map g) (map (fun q => ((X, fst q), snd q)) r)) k = if pair_dec (X, Y) k then o1 o else o0 o.
  Proof.
    intros H k. assert (L := left_back X H (swapped k)). rewrite <- swap_delta in L. change (swapped (Y, X)) with (X, Y) in L. rewrite <- L. rewrite !(amount_apply pair_dec SR), !map_map. cbn [fst snd]. f_equal. apply map_ext.
    intros q. f_equal. unfold image, left_map, right_map. cbn [fst snd]. destruct (g (fst q)) as [l|]; cbn [option_map]; [|reflexivity]. rewrite <- amount_swapped, map_map. reflexivity.
  Qed.
  (** one move and the opposite one *)
  Lemma move_back i XY r : pair_ok XY -> move i XY = Some r -> forall k, amount (apply_linear o (move (invert i)) r) k = if pair_dec XY k then o1 o else o0 o.
  Proof.
    destruct XY as [X Y]. intros (TX & TY & EC) E k. cbn [fst snd] in *. destruct i as [[] idx over|[]|[] idcs over]; cbn [FtMapSpec.move invert] in *.
    - unfold left_map in E at 1. cbn [fst snd] in E. destruct (braid_tree X idx (negb over) true) as [r0|] eqn:EB; [|discriminate]. injection E as <-. apply left_back. apply (braid_back TX EB).
    - unfold right_map in E at 1. cbn [fst snd] in E. destruct (braid_tree Y idx over false) as [r0|] eqn:EB; [|discriminate]. injection E as <-. apply right_back. apply (braid_back TY EB).
    - cbn [fst snd] in E. unfold bend_leg in E. assert (NY : num_uncoupled Y <> 0). { unfold bend_down in E. destruct (num_uncoupled Y =? 0) eqn:N0; [discriminate|]. now apply Nat.eqb_neq. }
      destruct (bend_back RING ST BD false TX TY EC NY) as (r' & E' & H). rewrite E in E'. injection E' as <-. specialize (H (swapped k)). rewrite <- swap_delta in H. change (swapped (Y, X)) with (X, Y) in H. rewrite <- H.
      rewrite !(amount_apply pair_dec SR). f_equal. apply map_ext. intros q. f_equal. unfold image, bend_leg, back. cbn [negb]. destruct (bend_down S o B sqrt_qdim inv_sqrt_qdim fs (snd (fst q)) (fst (fst q)) true) as [l|]; [|reflexivity]. rewrite <- amount_swapped. reflexivity.
    - cbn [fst snd] in E. unfold bend_leg in E. cbn [negb] in E. destruct (bend_down S o B sqrt_qdim inv_sqrt_qdim fs Y X true) as [r0|] eqn:E0; [|discriminate]. injection E as <-.
      assert (NX : num_uncoupled X <> 0). { unfold bend_down in E0. destruct (num_uncoupled X =? 0) eqn:N0; [discriminate|]. now apply Nat.eqb_neq. }
      destruct (bend_back RING ST BD true TY TX (eq_sym EC) NX) as (r' & E' & H). rewrite E0 in E'. injection E' as <-. rewrite <- (H k). rewrite !(amount_apply pair_dec SR), map_map. f_equal.
    - unfold left_map in E at 1. cbn [fst snd] in E. destruct (twist_tree X idcs over) as [r0|] eqn:EB; [|discriminate]. injection E as <-. apply left_back. destruct (twist_back TX EB) as (c & c' & -> & E' & Hc). intros u.
      rewrite (amount_apply tree_dec SR). cbn [map fst snd]. unfold image. rewrite E'. rewrite sum_cons, sum_nil. unfold FtMapSpec.amount. cbn [map fst snd]. rewrite sum_cons, sum_nil. destruct (tree_dec X u); rewrite <- ?Hc; ring.
    - unfold right_map in E at 1. cbn [fst snd] in E. destruct (twist_tree Y idcs over) as [r0|] eqn:EB; [|discriminate]. injection E as <-. apply right_back. destruct (twist_back TY EB) as (c & c' & -> & E' & Hc). intros u.
      rewrite (amount_apply tree_dec SR). cbn [map fst snd]. unfold image. rewrite E'. rewrite sum_cons, sum_nil. unfold FtMapSpec.amount. cbn [map fst snd]. rewrite sum_cons, sum_nil. destruct (tree_dec Y u); rewrite <- ?Hc; ring.
  Qed.

  (** all moves, then the opposite ones *)
  Notation run l x0 := (fold_left (fun acc i => apply_linear o (move i) acc) l x0).
  Lemma run_ext l : forall a b, (forall k, amount a k = amount b k) -> forall k, amount (run l a) k = amount (run l b) k.
  Proof. induction l as [|i l IH]; intros a b H k; [apply H|]. cbn [fold_left]. apply IH. now apply (apply_ext SR). Qed.
  Lemma back_combination i acc : (forall p, In p acc -> pair_ok (fst p) /\ exists r, move i (fst p) = Some r) ->
    forall k, amount (apply_linear o (move (invert i)) (apply_linear o (move i) acc)) k = amount acc k.
  Proof.
    induction acc as [|p acc IH]; intros H k; [reflexivity|]. destruct (H p (or_introl eq_refl)) as [OK [r E]].
    change (apply_linear o (move i) (p :: acc)) with (map (fun q => (fst q, snd q ** snd p)) (image (move i) (fst p)) ++ apply_linear o (move i) acc).
    unfold apply_linear at 1. rewrite flat_map_app. fold (apply_linear o (move (invert i)) (apply_linear o (move i) acc)). rewrite (amount_app pair_dec SR), IH by (intros p' I; apply H; now right). unfold image at 2. rewrite E.
    match goal with |- oadd o (FtMapSpec.amount _ _ ?x _) _ = _ => change x with (apply_linear o (move (invert i)) (map (fun q => (fst q, snd q ** snd p)) r)) end.
    assert (E1 : amount (apply_linear o (move (invert i)) (map (fun q => (fst q, snd q ** snd p)) r)) k = (if pair_dec (fst p) k then o1 o else o0 o) ** snd p).
    { rewrite <- (move_back OK E k), !(amount_apply pair_dec SR), map_map. cbn [fst snd]. rewrite <- (sum_mul_r SR). f_equal. apply map_ext. intros q. ring. }
    rewrite E1. unfold FtMapSpec.amount at 2. cbn [map]. rewrite sum_cons. fold (amount acc k). f_equal. destruct (pair_dec (fst p) k); ring.
  Qed.

  (** the legs: names for the legs of a pair of trees, see FtMapProofs9 *)
  Section Named.
    Variables (sec : nat -> sector) (dual : nat -> bool).
    Hypothesis VAL : forall l, sym_valid S (sec l) = true.
    Notation pair_at := (pair_at S sec dual).
    Lemma at_ok st XY : pair_at st XY -> pair_ok XY.
    Proof. intros ((H1 & _) & (H2 & _) & H3). split; [exact H1|]. split; [exact H2|exact H3]. Qed.
    Lemma step_keys st i st' ev acc : exec1 st i = Some (st', ev) -> supported i -> (forall p, In p acc -> pair_at st (fst p)) ->
      (forall p, In p acc -> exists r, move i (fst p) = Some r) /\ (forall p, In p (apply_linear o (move i) acc) -> pair_at st' (fst p)).
    Proof.
      intros EX SUP AT. assert (SUP' : forall c idcs over, i = Twist c idcs over -> length idcs = 1 \/ is_perm (length idcs) idcs) by (intros c idcs over ->; exact SUP). split.
      - intros p I. destruct (step_at RING o B sqrt_qdim inv_sqrt_qdim fs theta trivial_braid R C small VAL EX SUP' (AT p I)) as (r & E & _). eauto.
      - intros [x c] I. apply apply_In in I. destruct I as (k & c' & r & I & E & J). destruct (step_at RING o B sqrt_qdim inv_sqrt_qdim fs theta trivial_braid R C small VAL EX SUP' (AT _ I)) as (r' & E' & _ & H). cbn [fst] in *. apply H. congruence.
    Qed.
    Lemma run_keys l : forall st st' ev acc, exec st l = Some (st', ev) -> Forall supported l -> (forall p, In p acc -> pair_at st (fst p)) -> forall p, In p (run l acc) -> pair_at st' (fst p).
    Proof.
      induction l as [|i l IH]; intros st st' ev acc EX SUP AT p I; cbn [exec] in EX; [injection EX as <- _; now apply AT|]. destruct (exec1 st i) as [[st1 e1]|] eqn:E1; [|discriminate]. destruct (exec st1 l) as [[st2 e2]|] eqn:E2; [|discriminate]. injection EX as -> _.
      apply Forall_cons_iff in SUP. destruct SUP as [S1 S2]. refine (IH _ _ _ _ E2 S2 _ p I). exact (proj2 (step_keys E1 S1 AT)).
    Qed.
    Lemma run_back l : forall st st' ev acc, exec st l = Some (st', ev) -> Forall supported l -> (forall p, In p acc -> pair_at st (fst p)) -> forall k, amount (run (l ++ map invert (rev l)) acc) k = amount acc k.
    Proof.
      induction l as [|i l IH]; intros st st' ev acc EX SUP AT k; cbn [exec] in EX; [reflexivity|]. destruct (exec1 st i) as [[st1 e1]|] eqn:E1; [|discriminate]. destruct (exec st1 l) as [[st2 e2]|] eqn:E2; [|discriminate].
      apply Forall_cons_iff in SUP. destruct SUP as [S1 S2]. destruct (step_keys E1 S1 AT) as [H1 H2]. cbn [rev app]. rewrite map_app, app_assoc. cbn [map fold_left]. rewrite fold_left_app. cbn [fold_left].
      rewrite (apply_ext SR _ (l' := apply_linear o (move i) acc)); [|intros k'; exact (IH _ _ _ _ E2 S2 H2 k')]. apply back_combination. intros p I. split; [exact (at_ok (AT p I))|now apply H1].
    Qed.
  End Named.
  (** linearity *)
  Lemma run_linear l : forall acc k, amount (run l acc) k = osum o (map (fun p => amount (moved l (fst p)) k ** snd p) acc).
  Proof.
    assert (A : forall acc acc' k, amount (run l (acc ++ acc')) k = oadd o (amount (run l acc) k) (amount (run l acc') k)).
    { induction l as [|i l' IH]; intros acc acc' k; [apply (amount_app pair_dec SR)|]. cbn [fold_left]. rewrite <- IH. now rewrite (flat_map_app _ acc acc' : apply_linear o (move i) (acc ++ acc') = apply_linear o (move i) acc ++ apply_linear o (move i) acc'). }
    assert (Z : forall k, amount (run l []) k = o0 o). { clear A. induction l as [|i l' IH]; intros k; [reflexivity|]. cbn [fold_left]. apply IH. }
    assert (M : forall acc c k, amount (run l (map (fun q => (fst q, snd q ** c)) acc)) k = amount (run l acc) k ** c).
    { clear A Z. induction l as [|i l' IH]; intros acc c k; [apply (amount_scaled pair_dec SR)|]. cbn [fold_left]. rewrite <- IH. apply run_ext. intros k'. f_equal. unfold apply_linear.
      induction acc as [|q acc IHa]; [reflexivity|]. cbn [flat_map map fst snd]. rewrite map_app, IHa. f_equal. rewrite map_map. cbn [fst snd]. apply map_ext. intros q'. f_equal. ring. }
    intros acc k. induction acc as [|p acc IH]; [rewrite Z; reflexivity|]. change (p :: acc) with ([p] ++ acc). rewrite A, IH. cbn [app map]. rewrite sum_cons. f_equal. destruct p as [x c]. cbn [fst snd].
    unfold FtMapSpec.moved. rewrite <- M. cbn [map fst snd]. apply run_ext. intros k'. f_equal. f_equal. f_equal. ring.
  Qed.
End Inverse.
