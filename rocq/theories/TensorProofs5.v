(** TensorProduct: multiplicities count states, blocks of a product, and products derived from products. *)
From Verif Require Import Util StableSort RowModel RowProofs GridModel GridProofs SymModel SymProofs SpaceModel SpaceSpec SpaceProofs SpaceProofs2 SpaceProofs7
  PipeModel PipeProofs PipeProofs4 TreeModel TreeProofs TreeProofs2 TreeProofs4 FormalSum TensorModel TensorSpec TensorProofs TensorProofs2 TensorProofs3 TensorProofs4.
Set Implicit Arguments. Unset Strict Implicit.
Open Scope nat_scope.

Lemma map_fst_combine A B (l : list A) : forall m : list B, length m = length l -> map fst (combine l m) = l.
Proof. induction l as [|a l IH]; intros m L; [easy|]. destruct m as [|b m]; [discriminate|]. cbn [combine map fst]. rewrite IH; auto. Qed.

Lemma Forall2_len A B (R : A -> B -> Prop) l m : Forall2 R l m -> length l = length m.
Proof. induction 1; cbn; congruence. Qed.

Section Class.
  Variable S : tsymm.
  Hypothesis OK : tsymm_ok S.
  Let RING := to_ring OK.
  Notation valid a := (sym_valid S a = true).

  Lemma es_space_ok' E : es_ok S E -> space_ok S (es_space S E).
  Proof.
    intros O. assert (DD : dual_sectors S (dual_sectors S (es_def E)) = es_def E).
    { unfold dual_sectors. rewrite map_map, <- map_id. apply map_ext_in. intros s Hs. apply (fr_dual_invol RING), (ok_valid O), Hs. }
    assert (N : NoDup (es_def E)). { eapply StronglySorted_NoDup; [|exact (ok_sorted O)]. intros a. apply lex_lt_irrefl. }
    constructor.
    - intros s Is. cbn [es_space sp_secs] in Is. destruct (es_dual E); [|now apply (ok_valid O)]. apply in_map_iff in Is. destruct Is as (a & <- & Ia).
      apply (fr_dual_valid RING), (ok_valid O), Ia.
    - cbn [es_space sp_secs]. destruct (es_dual E); [|exact N]. apply NoDup_map_inj; [|exact N].
      intros a b Ha Hb H. rewrite <- (fr_dual_invol RING (ok_valid O Ha)), <- (fr_dual_invol RING (ok_valid O Hb)). congruence.
    - cbn [es_space sp_secs sp_mults]. destruct (es_dual E); unfold dual_sectors; rewrite ?map_length; apply (ok_len O).
    - apply (ok_pos O).
    - cbn [es_space sp_order sp_secs]. destruct (es_dual E); [rewrite DD|]; apply (ok_sorted O).
  Qed.

  Definition flats (factors : list leg) : list espace := flat_map flat_legs factors.
  (** the formal sum of a product *)
  Definition fsum_of (legs : list espace) : list (sector * nat) := convs S (map (leg_pairs S) legs).
  Lemma spaces_ok legs : Forall (es_ok S) legs -> Forall (space_ok S) (map (es_space S) legs).
  Proof. intros H. apply Forall_map. eapply Forall_impl; [|exact H]. intros E. apply es_space_ok'. Qed.
  Lemma pairs_valid legs : Forall (es_ok S) legs -> Forall (valids S) (map (leg_pairs S) legs).
  Proof. intros H. apply Forall_map. eapply Forall_impl; [|exact H]. intros E O. apply space_ok_valids. now apply es_space_ok'. Qed.
  Lemma lens legs : Forall (es_ok S) legs -> lens_ok (map (es_space S) legs).
  Proof. intros H. eapply Forall_impl; [|exact (spaces_ok H)]. intros V. apply sk_len. Qed.

  Lemma new_tprod_spec factors : Forall (es_ok S) (flats factors) ->
    exists P, new_tprod S factors = Some P /\ tp_factors P = factors /\ space_ok S (tp_space P) /\ feq (sp_pairs (tp_space P)) (fsum_of (flats factors)).
  Proof.
    intros H. unfold new_tprod, calc_sectors_of_factors. fold (flats factors).
    destruct (calc_spec OK (spaces_ok H)) as (u & m & E & O & F). rewrite E. exists (TP factors u m). split; [reflexivity|]. split; [reflexivity|]. split; [exact O|].
    rewrite map_map in F. exact F.
  Qed.
  (** a product whose sectors are those of its factors *)
  Definition tp_ok (P : tprod) : Prop := Forall (es_ok S) (tp_flat_legs P) /\ new_tprod S (tp_factors P) = Some P.
  Lemma tp_ok_spec P : tp_ok P -> space_ok S (tp_space P) /\ feq (sp_pairs (tp_space P)) (fsum_of (tp_flat_legs P)).
  Proof. intros [H N]. destruct (new_tprod_spec H) as (P' & E & _ & O & F). rewrite N in E. injection E as <-. auto. Qed.
  Lemma tp_unique factors u m : Forall (space_ok S) (map (es_space S) (flats factors)) -> space_ok S (Sp u m (Some Sorted)) ->
    feq (combine u m) (fsum_of (flats factors)) -> new_tprod S factors = Some (TP factors u m).
  Proof.
    intros H O F. unfold new_tprod, calc_sectors_of_factors. fold (flats factors).
    destruct (calc_spec OK H) as (u' & m' & E & O' & F'). rewrite E.
    destruct (@sorted_feq_eq u m u' m') as [-> ->]; auto; try (apply (sk_order O) || apply (sk_order O') || apply (sk_len O) || apply (sk_len O') || apply (sk_pos O) || apply (sk_pos O')).
    eapply feq_trans; [exact F|]. apply feq_sym. rewrite map_map in F'. exact F'.
  Qed.

  Lemma block_size_spec P c : tp_ok P -> block_size P c = fmult (fsum_of (tp_flat_legs P)) c.
  Proof.
    intros H. destruct (tp_ok_spec H) as [O F]. unfold block_size. rewrite sector_multiplicity_spec by (apply O || apply (sk_nodup O) || apply (sk_len O)).
    unfold sp_mult. rewrite <- fmult_mult_of. apply F.
  Qed.
  Lemma block_size_width P c : tp_ok P -> block_size P c = nsum (map (width S c) (iter_uncoupled S P)).
  Proof.
    intros H. rewrite block_size_spec by auto. unfold fsum_of. rewrite (convs_combos RING c (pairs_valid (proj1 H))).
    rewrite iter_uncoupled_eq by (apply lens, H). unfold tp_combos. rewrite map_map. apply nsum_map_ext. intros cb _. unfold width, item_of. cbn [u_secs u_mults].
    rewrite product_prod. unfold cprod. lia.
  Qed.

  (** ** combinations *)
  Lemma combos_In A ll (cb : list A) : In cb (combos ll) <-> Forall2 (@In A) cb ll.
  Proof.
    revert cb. induction ll as [|l r IH]; intros cb; cbn [combos].
    - split; [intros [<-|[]]; constructor|]. intros H. inversion H. now left.
    - rewrite in_flat_map. split.
      + intros (a & Ia & I). apply in_map_iff in I. destruct I as (cb' & <- & I). constructor; [exact Ia|now apply IH].
      + intros H. inversion H as [|a l' cb' r' Ia I]; subst. exists a. split; [exact Ia|]. apply in_map. now apply IH.
  Qed.
  Lemma combos_NoDup ll : (forall l, In l ll -> NoDup (map fst l)) -> NoDup (map (map (@fst sector nat)) (combos ll)).
  Proof.
    induction ll as [|l r IH]; intros H; [repeat constructor; intros []|]. cbn [combos]. rewrite flat_map_concat_map, concat_map, map_map, <- flat_map_concat_map.
    apply NoDup_flat_map.
    - eapply NoDup_map_inv. apply H. now left.
    - intros a Ia. rewrite map_map. cbn [map]. rewrite <- (map_map (map fst) (cons (fst a))). apply NoDup_map_inj; [congruence|]. apply IH. intros; apply H; now right.
    - intros x y z Ix Iy I1 I2. apply in_map_iff in I1. destruct I1 as (c1 & <- & I1). apply in_map_iff in I1. destruct I1 as (d1 & <- & _).
      apply in_map_iff in I2. destruct I2 as (c2 & E & I2). apply in_map_iff in I2. destruct I2 as (d2 & <- & _). cbn [map] in E. injection E as E _.
      assert (N : NoDup (map fst l)) by (apply H; now left). clear -N Ix Iy E. induction l as [|p l IH]; [easy|]. cbn [map] in N. inversion N as [|? ? NI N']; subst.
      destruct Ix as [->|Ix], Iy as [->|Iy]; auto.
      + exfalso. apply NI. rewrite <- E. now apply in_map.
      + exfalso. apply NI. rewrite E. now apply in_map.
  Qed.
  Lemma leg_pairs_fst E : es_ok S E -> map fst (leg_pairs S E) = es_decomp S E.
  Proof.
    intros O. unfold leg_pairs, sp_pairs, es_decomp. apply map_fst_combine. apply (sk_len (es_space_ok' O)).
  Qed.
  Lemma items_NoDup P : tp_ok P -> NoDup (map u_secs (iter_uncoupled S P)).
  Proof.
    intros H. rewrite iter_uncoupled_eq by (apply lens, H). rewrite map_map. apply combos_NoDup. intros l Il. apply in_map_iff in Il. destruct Il as (E & <- & IE).
    assert (O : es_ok S E) by (exact (proj1 (Forall_forall _ _) (proj1 H) E IE)). rewrite leg_pairs_fst by auto. apply (sk_nodup (es_space_ok' O)).
  Qed.
  (** an item: sectors of the legs, with their multiplicities *)
  Lemma item_spec P it : tp_ok P -> (In it (iter_uncoupled S P) <-> Forall2 (fun a E => In a (es_decomp S E)) (u_secs it) (tp_flat_legs P) /\
     u_mults it = map (fun p => es_mult S (fst p) (snd p)) (combine (tp_flat_legs P) (u_secs it))).
  Proof.
    intros H. rewrite iter_uncoupled_eq by (apply lens, H). destruct H as [H _]. unfold tp_combos. rewrite in_map_iff.
    assert (MU : forall E a m, es_ok S E -> (In (a, m) (leg_pairs S E) <-> In a (es_decomp S E) /\ m = es_mult S E a)).
    { intros E a m O. assert (SO := es_space_ok' O). assert (L := sk_len SO). assert (N := sk_nodup SO). split.
      - intros I. destruct (In_nth _ _ nomult I) as (i & Hi & Ei). unfold leg_pairs in Hi. rewrite pairs_length in Hi by auto.
        unfold leg_pairs in Ei. rewrite pairs_nth in Ei by auto. injection Ei as E1 E2. split; [rewrite <- E1; apply nth_In, Hi|].
        unfold es_mult. rewrite <- E1, <- E2. symmetry. apply (mult_of_nth N L Hi).
      - intros [I ->]. destruct (In_nth _ _ [] I) as (i & Hi & <-). assert (EM := mult_of_nth N L Hi). change (es_mult S E (nth i (es_decomp S E) []) = nth i (sp_mults (es_space S E)) 0) in EM. rewrite EM. unfold leg_pairs, es_decomp.
        rewrite <- (pairs_nth i L). apply nth_In. rewrite pairs_length by auto. exact Hi. }
    revert it. induction H as [|E legs O HL IH]; intros it.
    - cbn [map combos]. split.
      + intros (cb & <- & [<-|[]]). split; [constructor|reflexivity].
      + intros [F M]. inversion F as [EU|]. destruct it as [us ms]. cbn [u_secs u_mults combine] in *. subst. exists []. split; [reflexivity|now left].
    - split.
      + intros (cb & <- & I). apply combos_In in I. inversion I as [|p l cb' r' Ip Ir]; subst. destruct p as [a m]. apply (MU _ _ _ O) in Ip. destruct Ip as [Ia ->].
        destruct (proj1 (IH (item_of cb'))) as [F M]. { exists cb'. split; [reflexivity|]. now apply combos_In. }
        unfold item_of in *. cbn [map fst snd u_secs u_mults combine] in *. split; [constructor; auto|]. now rewrite <- M.
      + intros [F M]. destruct it as [us ms]. cbn [u_secs u_mults] in *. inversion F as [|a E' us' legs' Ia F']; subst.
        destruct (proj2 (IH (Unc us' (map (fun p => es_mult S (fst p) (snd p)) (combine legs us'))))) as (cb & EQ & I); [split; [exact F'|reflexivity]|].
        exists ((a, es_mult S E a) :: cb). unfold item_of in *. injection EQ as E1 E2. cbn [map fst snd combine]. rewrite E1, E2. split; [reflexivity|].
        cbn [map]. apply combos_In. constructor; [apply (MU _ _ _ O); auto|]. now apply combos_In.
  Qed.
  Lemma item_valid P it : tp_ok P -> In it (iter_uncoupled S P) -> Forall (fun a => valid a) (u_secs it) /\ length (u_secs it) = length (tp_flat_legs P).
  Proof.
    intros H I. apply (item_spec it H) in I. destruct I as [F _]. destruct H as [H _]. split.
    - induction F as [|a E us legs Ia F IH]; constructor.
      + inversion H; subst. apply (sk_valid (es_space_ok' ltac:(eassumption))). exact Ia.
      + apply IH. now inversion H.
    - eapply Forall2_len; eauto.
  Qed.

  (** ** tree blocks *)
  Lemma tree_shape_lengths us c dual t : valid_tree S us c dual t -> length (t_inner t) = length us - 2 /\ length (t_mult t) = length us - 1.
  Proof.
    intros V. inversion V as [| |a us' c' dual' inners mus LD PA]; subst; cbn [t_inner t_mult length]; auto.
    destruct (path_lengths PA) as (N & L1 & L2). destruct us' as [|u us']; [congruence|]. cbn [length] in *. lia.
  Qed.
  Lemma tree_block_slice_spec P c i x : tp_ok P -> In x (unc_loop S (iter_uncoupled S P) c (map es_dual (tp_flat_legs P)) 0 i) ->
    tree_block_slice S P (tb_tree x) = Some (tb_slice x).
  Proof.
    intros H I. destruct (unc_loop_In I) as (it & k & Ii & NE & M & ST & REST).
    assert (LD : forall it', In it' (iter_uncoupled S P) -> length (u_secs it') = length (map es_dual (tp_flat_legs P))).
    { intros it' Ii'. rewrite map_length. apply (item_valid H Ii'). }
    destruct (REST LD (items_NoDup H)) as [EO LE].
    assert (V : valid_tree S (u_secs it) c (map es_dual (tp_flat_legs P)) (tb_tree x)).
    { apply all_trees_In; [symmetry; now apply LD|]. eapply nth_error_In. exact NE. }
    destruct (valid_tree_fields V) as (E1 & E2 & E3). unfold tree_block_slice. rewrite E2, EO, E1, E3.
    destruct (tree_shape_lengths V) as [L1 L2].
    assert (AB : s_abelian S = true -> forall a b c : sector, sym_n S a b c <= 1).
    { intros A a b e. destruct (to_abelian OK A) as [fuse G]. rewrite (ag_n G). lia. }
    rewrite (proj2 (@index_iff S (s_abelian S) AB (u_secs it) c (map es_dual (tp_flat_legs P)) (tb_tree x) k (eq_sym (LD it Ii)) (proj1 (item_valid H Ii)) RING L1 L2) NE).
    unfold tb_slice. rewrite ST. f_equal. f_equal; lia.
  Qed.
  Lemma tree_blocks_trees P c i t : tp_ok P -> In t (map tb_tree (unc_loop S (iter_uncoupled S P) c (map es_dual (tp_flat_legs P)) 0 i)) <->
    valid_tree S (t_unc t) c (map es_dual (tp_flat_legs P)) t /\ Forall2 (fun a E => In a (es_decomp S E)) (t_unc t) (tp_flat_legs P).
  Proof.
    intros H. rewrite unc_loop_trees, in_flat_map. split.
    - intros (it & Ii & It). destruct (item_valid H Ii) as [VI LI]. apply all_trees_In in It; [|now rewrite map_length].
      rewrite (proj1 (valid_tree_fields It)). split; [exact It|]. now apply (item_spec it H).
    - intros [V F]. exists (Unc (t_unc t) (map (fun p => es_mult S (fst p) (snd p)) (combine (tp_flat_legs P) (t_unc t)))). split.
      + apply (item_spec _ H). auto.
      + cbn [u_secs]. apply all_trees_In; [|exact V]. rewrite map_length. symmetry. eapply Forall2_len; eauto.
  Qed.
  Lemma tree_blocks_NoDup P c i : tp_ok P -> NoDup (map tb_tree (unc_loop S (iter_uncoupled S P) c (map es_dual (tp_flat_legs P)) 0 i)).
  Proof.
    intros H. rewrite unc_loop_trees. apply NoDup_flat_map.
    - eapply NoDup_map_inv. apply items_NoDup, H.
    - intros it Ii. destruct (item_valid H Ii) as [VI LI]. apply all_trees_NoDup; auto. now rewrite map_length.
    - intros a b t Ia Ib I1 I2.
      destruct (item_valid H Ia) as [_ La]. destruct (item_valid H Ib) as [_ Lb].
      apply all_trees_In in I1; [|now rewrite map_length]. apply all_trees_In in I2; [|now rewrite map_length].
      assert (E : u_secs a = u_secs b) by (rewrite <- (proj1 (valid_tree_fields I1)); apply (proj1 (valid_tree_fields I2))).
      assert (N := items_NoDup H). clear -N Ia Ib E. induction (iter_uncoupled S P) as [|p l IH]; [easy|]. cbn [map] in N. inversion N as [|? ? NI N']; subst.
      destruct Ia as [->|Ia], Ib as [->|Ib]; auto.
      + exfalso. apply NI. rewrite E. now apply in_map.
      + exfalso. apply NI. rewrite <- E. now apply in_map.
  Qed.

  (** ** forest blocks *)
  Definition fb_slice (x : fb_item) : nat * nat := (fb_start x, fb_stop x).
  Lemma forest_loop_tiles items c i : forall start, tiles start (map fb_slice (forest_loop S items c start i)) (start + nsum (map (width S c) items)).
  Proof.
    induction items as [|it r IH]; intros start; [cbn; lia|]. cbn [forest_loop map]. rewrite nsum_cons. change (num_trees S (u_secs it) c * product (u_mults it)) with (width S c it).
    destruct (Nat.eqb_spec (width S c it) 0) as [E|E].
    - rewrite E. apply IH.
    - cbn [map tiles]. unfold fb_slice at 1. cbn [fb_start fb_stop tiles]. repeat split; [lia|]. rewrite Nat.add_assoc. apply IH.
  Qed.
  Lemma forest_loop_In items c i x : forall start, In x (forest_loop S items c start i) ->
    fb_ind x = i /\ exists it, In it items /\ fb_unc x = u_secs it /\ fb_stop x = fb_start x + width S c it /\ 0 < width S c it /\
      (NoDup (map u_secs items) -> forest_offset S items (fb_unc x) c start = Some (fb_start x)).
  Proof.
    induction items as [|it r IH]; intros start; [easy|]. cbn [forest_loop]. change (num_trees S (u_secs it) c * product (u_mults it)) with (width S c it).
    assert (GO : forall s', In x (forest_loop S r c s' i) -> s' = start + width S c it -> fb_ind x = i /\ exists it', In it' (it :: r) /\ fb_unc x = u_secs it' /\ fb_stop x = fb_start x + width S c it' /\ 0 < width S c it' /\
      (NoDup (map u_secs (it :: r)) -> forest_offset S (it :: r) (fb_unc x) c start = Some (fb_start x))).
    { intros s' I E. destruct (IH _ I) as (EI & it' & Ii & E1 & E2 & E3 & E4). split; [exact EI|]. exists it'. split; [now right|]. split; [exact E1|]. split; [exact E2|]. split; [exact E3|].
      intros N. inversion N as [|? ? NI N']; subst. cbn [forest_offset]. destruct (rows_eqb (u_secs it) (fb_unc x)) eqn:EQ.
      - apply rows_eqb_eq in EQ. exfalso. apply NI. rewrite EQ, E1. now apply in_map.
      - now apply E4. }
    destruct (Nat.eqb_spec (width S c it) 0) as [E|E].
    - intros I. apply (GO start I). lia.
    - intros [<-|I]; [|now apply (GO (start + width S c it))]. cbn [fb_ind fb_unc fb_start fb_stop]. split; [reflexivity|]. exists it. split; [now left|]. split; [reflexivity|].
      split; [reflexivity|]. split; [lia|]. intros _. cbn [forest_offset]. now rewrite (proj2 (rows_eqb_eq _ _) eq_refl).
  Qed.
  Lemma forest_loop_all items c i : forall start it, In it items -> 0 < width S c it -> In (u_secs it) (map fb_unc (forest_loop S items c start i)).
  Proof.
    induction items as [|it0 r IH]; intros start it I W; [easy|]. cbn [forest_loop]. change (num_trees S (u_secs it0) c * product (u_mults it0)) with (width S c it0).
    destruct (Nat.eqb_spec (width S c it0) 0) as [E|E].
    - destruct I as [->|I]; [lia|]. now apply IH.
    - cbn [map fb_unc]. destruct I as [->|I]; [now left|right; now apply IH].
  Qed.
  Lemma tree_block_size_spec P it : tp_ok P -> In it (iter_uncoupled S P) -> tree_block_size S P (u_secs it) = product (u_mults it).
  Proof.
    intros H I. apply (item_spec it H) in I. destruct I as [_ ->]. destruct H as [H _]. rewrite product_prod. unfold tree_block_size.
    enough (G : forall l a, Forall (es_ok S) (map fst l) -> fold_left (fun r p => r * sector_multiplicity (es_space S (fst p)) (snd p)) l a =
       a * prod (map (fun p => es_mult S (fst p) (snd p)) l)).
    { rewrite G; [lia|]. clear -H. revert H. generalize (u_secs it). induction (tp_flat_legs P) as [|E l IH]; intros us H; [constructor|].
      destruct us; [constructor|]. inversion H; subst. cbn [combine map fst]. constructor; auto. }
    induction l as [|[E a] l IH]; intros x F; [cbn; lia|]. cbn [map fst] in F. inversion F as [|? ? O F']; subst. cbn [fold_left fst snd map]. rewrite IH by auto.
    assert (SO := es_space_ok' O). rewrite sector_multiplicity_spec by (apply (sk_nodup SO) || apply (sk_len SO)).
    change (prod (es_mult S E a :: map (fun p => es_mult S (fst p) (snd p)) l)) with (es_mult S E a * prod (map (fun p => es_mult S (fst p) (snd p)) l)).
    unfold es_mult at 2. unfold sp_mult, es_decomp. cbn [es_space sp_mults]. lia.
  Qed.
  Lemma forest_block_slice_spec P c i x : tp_ok P -> In x (forest_loop S (iter_uncoupled S P) c 0 i) -> forest_block_slice S P (fb_unc x) c = Some (fb_slice x).
  Proof.
    intros H I. destruct (forest_loop_In I) as (_ & it & Ii & E1 & E2 & _ & E4). unfold forest_block_slice. rewrite (E4 (items_NoDup H)).
    unfold fb_slice, forest_block_size. rewrite E2, E1, (tree_block_size_spec H Ii). reflexivity.
  Qed.
End Class.
