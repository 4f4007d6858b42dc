(** Braids, bends and twists preserve the inner product of tensors. *)
From Verif Require Import Util RowModel RowProofs GridModel GridProofs SymModel SymProofs CatSpec Sums StarMat SpaceModel SpaceSpec PipeModel PipeProofs4 TreeModel TreeProofs TreeProofs3 TreeProofs4 TreeProofs5 TreeProofs7 TreeProofs8 TensorModel TensorSpec TensorProofs5 BlockModel BlockProofs
  SparseModel ConvertModel ConvertSpec FtOpsModel MappingModel MappingProofs PermLegsModel PermLegsSpec MoveModel FtMapModel FtMapSpec FtMapProofs FtMapProofs3 FtMapProofs7 FtMapProofs9 FtMapProofs10 FtMapProofs11 FtMapProofs17 FtMapProps BendSpec BendProofs BendProofs2 BendProofs3 InnerSpec InnerProofs InnerProofs2.
Set Implicit Arguments. Unset Strict Implicit.
Open Scope nat_scope.

Section Iso.
  Variable S : tsymm.
  Hypothesis OK : tsymm_ok S.
  Notation RING := (to_ring OK).
  Variable K : Type.
  Variable o : ops K.
  Hypothesis ST : star_laws o.
  Notation SR := (st_semi ST).
  Add Ring Kr : SR.
  Variable B : Bsym K.
  Variables qdim sqrt_qdim inv_sqrt_qdim fs theta : sector -> K.
  Variable trivial_braid : bool.
  Variable R : Rsym K.
  Variable C : Fsym K.
  Variable small : K -> bool.
  Hypothesis BD : bend_data S o B sqrt_qdim inv_sqrt_qdim fs.
  Hypothesis BM : bend_metric S o B qdim sqrt_qdim fs.
  Hypothesis TU : twist_unitary S o theta.
  Hypothesis RU : R_unitary S o R.
  Hypothesis CU : C_unitary S o C.
  Hypothesis SM : forall x, small x = true -> x = o0 o.
  Notation moves := (moves S K o R C B sqrt_qdim inv_sqrt_qdim fs theta small trivial_braid).
  Notation image_of := (image_of S K o).
  Notation weight := (weight qdim).
  Notation "x ** y" := (omul o x y) (at level 40, left associativity).
  Notation conj := (oconj o).
  Notation sum := (osum o).
  Notation amount := (amount pair_dec o).
  Variables P Q P' Q' : tprod.
  Hypothesis HP : tp_ok S P.
  Hypothesis HQ : tp_ok S Q.
  Hypothesis HP' : tp_ok S P'.
  Hypothesis HQ' : tp_ok S Q'.
  Notation J := (length (tp_flat_legs P)).
  Notation Kn := (length (tp_flat_legs Q)).
  Variables (ci di : list nat) (l : list instruction) (ev : list event).
  Hypothesis PP : permuted_products ci di P Q P' Q'.
  Hypothesis EX : exec (legs0 J Kn) l = Some ((ci, di), ev).
  Hypothesis SUP : Forall supported l.
  Variables L L' : list (tree * tree).
  Hypothesis AL : all_pairs S P Q L.
  Hypothesis AL' : all_pairs S P' Q' L'.
  Let PM := exec_is_perm EX.

  Lemma L_trees k : In k L -> exists c, tree_of S P c (fst k) /\ tree_of S Q c (snd k).
  Proof. destruct k as [X Y]. intros I. now apply (proj2 AL). Qed.
  Lemma L_at k : In k L -> pair_at S (sec_at S k) (dual_at P Q) (legs0 J Kn) k.
  Proof. intros I. destruct (L_trees I) as (c & TX & TY). destruct k as [X Y]. exact (key_at OK HP HQ TX TY). Qed.
  Lemma L_valid k : In k L -> forall n, sym_valid S (sec_at S k n) = true.
  Proof. intros I. destruct (L_trees I) as (c & TX & TY). destruct k as [X Y]. exact (sec_valid OK HP HQ TX TY). Qed.
  Lemma new_at' k k' : In k L -> In k' (map fst (moves l k)) -> pair_at S (sec_at S k) (dual_at P Q) (ci, di) k'.
  Proof. intros I I'. exact (moved_keys RING (L_valid I) EX SUP (L_at I) I'). Qed.
  Lemma new_in k k' : In k L -> In k' (map fst (moves l k)) -> In k' L'.
  Proof.
    intros I I'. assert (AT := new_at' I I'). destruct (L_trees I) as (c & TX & TY). destruct k as [X Y], k' as [X' Y']. apply (proj2 AL'). exists (t_coup X'). exact (new_trees OK HP HQ PM PP TX TY AT).
  Qed.
  Lemma new_box k k' : In k L -> In k' (map fst (moves l k)) -> box S P' Q' k' = take 0 (box S P Q k) (leg_order ci di).
  Proof.
    intros I I'. assert (AT := new_at' I I'). destruct (L_trees I) as (c & TX & TY). destruct k as [X Y], k' as [X' Y']. exact (mults_permuted OK HP HQ PM PP TX TY AT).
  Qed.
  Lemma map_same_perm (f g : nat -> sector) : (forall n, J + Kn <= n -> f n = g n) -> map f ci = map g ci -> (forall n, In n di -> f n = g n) -> forall n, f n = g n.
  Proof.
    intros OUT E1 E2 n. destruct (Nat.lt_ge_cases n (J + Kn)) as [LT|GE]; [|now apply OUT]. assert (IN := proj2 (is_perm_In n PM) LT). unfold leg_order in IN. apply in_app_iff in IN. destruct IN as [IN|IN].
    - exact (ext_in_map E1 n IN).
    - apply E2. now apply in_rev.
  Qed.
  (** two pairs of trees with a common image have the same sectors on all legs *)
  Lemma same_sectors k k2 k' : In k L -> In k2 L -> In k' (map fst (moves l k)) -> In k' (map fst (moves l k2)) -> sec_at S k2 = sec_at S k \/ forall n, sec_at S k n = sec_at S k2 n.
  Proof.
    intros I I2 J1 J2. right. assert (A1 := new_at' I J1). assert (A2 := new_at' I2 J2). destruct A1 as ((_ & U1 & _) & (_ & V1 & _) & _). destruct A2 as ((_ & U2 & _) & (_ & V2 & _) & _). cbn [fst snd] in *.
    assert (V := L_valid I). assert (V' := L_valid I2). apply map_same_perm.
    - intros n Hn. destruct (L_trees I) as (c & TX & TY). destruct (L_trees I2) as (c2 & TX2 & TY2). unfold sec_at. rewrite !nth_overflow; [reflexivity| |]; rewrite app_length, rev_length, map_length.
      + rewrite (tree_of_len TX2), (tree_of_len TY2). lia.
      + rewrite (tree_of_len TX), (tree_of_len TY). lia.
    - congruence.
    - intros n In_. rewrite V1 in V2. assert (E := ext_in_map V2 n In_). cbn beta in E. rewrite <- (fr_dual_invol RING (V n)), E. apply (fr_dual_invol RING (V' n)).
  Qed.
  Lemma at_ext (f g : nat -> sector) st k : (forall n, f n = g n) -> pair_at S f (dual_at P Q) st k -> pair_at S g (dual_at P Q) st k.
  Proof.
    intros E ((A1 & A2 & A3) & (B1 & B2 & B3) & EC). unfold pair_at, tree_at, tree_at'. rewrite A2, B2. repeat split; auto; try (apply map_ext; intros n; now rewrite E); try apply A1; try apply B1.
  Qed.
  Lemma isometry k k2 : In k L -> In k2 L -> sum (map (fun k' => weight k' ** (conj (amount (moves l k) k') ** amount (moves l k2) k')) L') = if pair_dec k k2 then weight k else o0 o.
  Proof.
    intros I I2. set (Minv := fun k' => amount (moves (map invert (rev l)) k') k2).
    destruct (in_dec pair_dec k2 L) as [_|]; [|contradiction].
    assert (DS : {forall n, sec_at S k n = sec_at S k2 n} + {~ forall n, sec_at S k n = sec_at S k2 n}).
    { destruct (list_eq_dec (list_eq_dec Z.eq_dec) (map (sec_at S k) (seq 0 (J + Kn))) (map (sec_at S k2) (seq 0 (J + Kn)))) as [E|N]; [left|right].
      - apply map_same_perm.
        + intros n Hn. destruct (L_trees I) as (c & TX & TY). destruct (L_trees I2) as (c2 & TX2 & TY2). unfold sec_at. rewrite !nth_overflow; [reflexivity| |]; rewrite app_length, rev_length, map_length.
          * rewrite (tree_of_len TX2), (tree_of_len TY2). lia.
          * rewrite (tree_of_len TX), (tree_of_len TY). lia.
        + apply map_ext_in. intros n In_. apply (ext_in_map E n). apply in_seq. assert (H := proj1 (is_perm_In n PM) ltac:(unfold leg_order; apply in_app_iff; now left)). lia.
        + intros n In_. apply (ext_in_map E n). apply in_seq. assert (H := proj1 (is_perm_In n PM) ltac:(unfold leg_order; apply in_app_iff; right; now apply -> in_rev)). lia.
      - intros H. apply N. apply map_ext. exact H. }
    destruct DS as [SE|NS].
    - transitivity (sum (map (fun k' => weight k2 ** conj (Minv k' ** amount (moves l k) k')) L')).
      { apply sum_ext. intros k' _. rewrite (st_mul ST). destruct (in_dec pair_dec k' (map fst (moves l k))) as [IN|NI].
        - assert (A := new_at' I IN). assert (A2 := L_at I2). assert (V := L_valid I2). apply (at_ext SE) in A.
          assert (RA := @run_adjoint S RING K o ST B qdim sqrt_qdim inv_sqrt_qdim fs theta trivial_braid R C small BD BM SM (sec_at S k2) (dual_at P Q) V l _ _ _ k2 k' EX SUP A2 A). cbn beta in RA.
          unfold InnerProofs2.weight, Minv. transitivity (conj (amount (moves l k) k') ** (qdim (t_coup (fst k')) ** amount (moves l k2) k')); [ring|]. unfold FtMapProps.moves at 2. rewrite RA. unfold FtMapProps.moves. ring.
        - rewrite (amount_none pair_dec SR NI), (conj_0 ST). ring. }
      rewrite (sum_mul_l SR), <- (conj_sum ST). 
      assert (E : sum (map (fun k' => Minv k' ** amount (moves l k) k') L') = if pair_dec k k2 then o1 o else o0 o).
      { rewrite <- (pairing_amount pair_dec SR (l := moves l k) Minv (proj1 AL')) by (intros u Iu; exact (new_in I Iu)).
        unfold Minv. unfold FtMapProps.moves at 1. rewrite <- (run_linear S ST B sqrt_qdim inv_sqrt_qdim fs theta trivial_braid R C small (map invert (rev l))). unfold FtMapProps.moves, moved. rewrite <- fold_left_app.
        rewrite (@run_back S RING K o ST B sqrt_qdim inv_sqrt_qdim fs theta trivial_braid R C small BD TU RU CU SM (sec_at S k) (dual_at P Q) (L_valid I) l _ _ _ [(k, o1 o)] EX SUP); [|intros p0 [ <- |[]]; exact (L_at I)].
        apply (amount_single ST). }
      rewrite E. destruct (pair_dec k k2) as [ <- |N]; rewrite ?(conj_1 ST), ?(conj_0 ST); ring.
    - destruct (pair_dec k k2) as [ <- |N]; [exfalso; apply NS; reflexivity|]. apply (sum_zero SR). intros k' _.
      destruct (in_dec pair_dec k' (map fst (moves l k))) as [IN|NI]; [|rewrite (amount_none pair_dec SR NI), (conj_0 ST); ring]. destruct (in_dec pair_dec k' (map fst (moves l k2))) as [IN2|NI]; [|rewrite (amount_none pair_dec SR NI); ring].
      exfalso. destruct (same_sectors I I2 IN IN2) as [E|E]; apply NS; [intros n; now rewrite E|exact E].
  Qed.
  Variables F G F' G' : list (nat * nat * blk K).
  Hypothesis IF : image_of P Q P' Q' ci di (moves l) F F'.
  Hypothesis IG : image_of P Q P' Q' ci di (moves l) G G'.
  Hypothesis FO : ft_ok P Q F.
  Hypothesis GO : ft_ok P Q G.
  Hypothesis FO' : ft_ok P' Q' F'.
  Hypothesis GO' : ft_ok P' Q' G'.
  Notation pi := (leg_order ci di).
  Lemma new_entry (H H' : list (nat * nat * blk K)) k' r' : image_of P Q P' Q' ci di (moves l) H H' -> In k' L' -> valid_idx (box S P' Q' k') r' ->
    entry_at S o P' Q' H' k' r' = sum (map (fun k => amount (moves l k) k' ** entry_at S o P Q H k (take 0 r' (inverse_permutation pi))) L).
  Proof.
    intros IM I V. destruct k' as [X' Y']. apply (proj2 AL') in I. destruct I as (c & TX & TY). unfold entry_at. cbn [fst snd].
    assert (LX := tree_mults_len TX). assert (LY := tree_mults_len TY). destruct (product_lengths PP) as [L1 L2]. assert (LN := is_perm_length PM). unfold box in V. cbn [fst snd] in V.
    destruct (valid_split V) as (V1 & V2 & E). rewrite LX in V1, V2, E. assert (LR : length r' = J + Kn). { rewrite (valid_length V), app_length, rev_length, LX, LY. unfold leg_order in LN. rewrite app_length, rev_length in LN. lia. }
    set (r := take 0 r' (inverse_permutation pi)). assert (LRr : length r = J + Kn) by (unfold r; rewrite take_length, inverse_permutation_length; exact LN).
    apply (IM c X' Y' (firstn J r) (rev (skipn J r)) _ _ L TX TY).
    - rewrite firstn_length. lia.
    - rewrite rev_length, skipn_length. lia.
    - unfold permuted_legs. rewrite !rev_involutive, !firstn_skipn. unfold r. symmetry. apply (proj2 (take_inverse 0 (l := r') (p := pi) ltac:(rewrite LR; exact PM))).
    - exact V1.
    - apply (proj2 (valid_rev _ _)). rewrite rev_involutive. exact V2.
    - exact AL.
  Qed.
  Lemma inner_preserved : ft_inner o (fun x => x) (map qdim (tp_secs P')) F' G' true = ft_inner o (fun x => x) (map qdim (tp_secs P)) F G true.
  Proof.
    rewrite (inner_trees OK ST qdim HP' HQ' FO' GO' AL'), (inner_trees OK ST qdim HP HQ FO GO AL).
    set (a := fun k r => conj (entry_at S o P Q F k r)). set (b := fun k r => entry_at S o P Q G k r). set (inv := inverse_permutation pi).
    transitivity (sum (map (fun k' => sum (map (fun r' => sum (map (fun k => sum (map (fun k2 => (weight k' ** (conj (amount (moves l k) k') ** amount (moves l k2) k')) ** (a k (take 0 r' inv) ** b k2 (take 0 r' inv))) L)) L)) (make_grid (box S P' Q' k') true))) L')).
    { apply sum_ext. intros k' I. rewrite <- (sum_mul_l SR). apply sum_ext. intros r' Ir. apply make_grid_In in Ir. rewrite (new_entry IF I Ir), (new_entry IG I Ir), (conj_sum ST).
      rewrite <- (sum_mul_r SR), <- (sum_mul_l SR). apply sum_ext. intros k _. rewrite <- (sum_mul_l SR), <- (sum_mul_l SR). apply sum_ext. intros k2 _. rewrite (st_mul ST). unfold a, b, inv. ring. }
    transitivity (sum (map (fun k' => sum (map (fun k => sum (map (fun k2 => sum (map (fun r => (weight k' ** (conj (amount (moves l k) k') ** amount (moves l k2) k')) ** (a k r ** b k2 r)) (make_grid (box S P Q k) true))) L)) L)) L')).
    { apply sum_ext. intros k' _. rewrite (sum_swap SR). apply sum_ext. intros k I. rewrite (sum_swap SR). apply sum_ext. intros k2 _. destruct (in_dec pair_dec k' (map fst (moves l k))) as [IN|NI].
      - rewrite (new_box I IN). assert (LB : is_perm (length (box S P Q k)) pi).
        { destruct (L_trees I) as (c & TX & TY). unfold box. rewrite app_length, rev_length, (tree_mults_len TX), (tree_mults_len TY). exact PM. }
        rewrite (grid_perm SR _ LB). apply sum_ext. intros r Ir. apply make_grid_In, valid_length in Ir. unfold inv. rewrite (@take_inv_unique _ 0 (take 0 r pi) r pi); [reflexivity|now rewrite Ir|reflexivity].
      - rewrite !(sum_zero SR); [reflexivity| |]; intros; rewrite (amount_none pair_dec SR NI), (conj_0 ST); ring. }
    rewrite (sum_swap SR). apply sum_ext. intros k I.
    transitivity (sum (map (fun k2 => (if pair_dec k k2 then weight k else o0 o) ** sum (map (fun r => a k r ** b k2 r) (make_grid (box S P Q k) true))) L)).
    { rewrite (sum_swap SR). apply sum_ext. intros k2 I2. rewrite <- (isometry I I2), <- (sum_mul_r SR). apply sum_ext. intros k' _. now rewrite <- (sum_mul_l SR). }
    rewrite (sum_single SR (proj1 AL) I).
    - destruct (pair_dec k k) as [_|N]; [|congruence]. reflexivity.
    - intros k2 _ NE. destruct (pair_dec k k2) as [E|_]; [congruence|]. ring.
  Qed.
End Iso.
