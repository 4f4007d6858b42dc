(** scale_axis on one of several legs: the forests of the leg's side, their slices and the value of a scaled forest. *)
From Verif Require Import Util StableSort RowModel RowProofs GridModel GridProofs SymModel SymProofs CatSpec Sums SpaceModel SpaceSpec SpaceProofs SpaceProofs2 SpaceProofs7
  PipeModel PipeProofs PipeProofs4 TreeModel TreeProofs TreeProofs5 TensorModel TensorSpec FormalSum TensorProofs TensorProofs2 TensorProofs3 TensorProofs4 TensorProofs5 TensorProofs6 BlockModel BlockProofs
  SparseModel ConvertModel ConvertSpec ConvertProofs3 FtOpsModel FtOpsSpec FtOpsProofs2 FtOpsProofs3 FtMapModel FtMapSpec FtMapProofs FtMapProofs2 FtScaleModel FtScaleProofs.
Set Implicit Arguments. Unset Strict Implicit.
Open Scope nat_scope.

Lemma unc_forest (S : tsymm) items c dual (i j : nat) x : (forall it, In it items -> length (u_secs it) = length dual) -> forall start, In x (unc_loop S items c dual start i) -> 0 < product (tb_mults x) ->
  exists fb k n, In fb (forest_loop S items c start j) /\ fb_unc fb = t_unc (tb_tree x) /\ k < n /\ tb_start x = fb_start fb + k * product (tb_mults x) /\ fb_stop fb = fb_start fb + n * product (tb_mults x).
Proof.
  induction items as [|it r IH]; intros LEN start I POSI; [destruct I|]. rewrite unc_loop_cons in I. apply in_app_or in I. destruct I as [I|I].
  - rewrite tree_loop_spec in I. cbn [fst] in I. apply in_map_iff in I. destruct I as (k & <- & Ik). apply in_seq in Ik. cbn [tb_tree tb_start tb_mults tb_stop] in *.
    assert (LT := all_trees_length S (u_secs it) c dual). cbn [forest_loop]. cbv zeta. destruct (Nat.eqb_spec (num_trees S (u_secs it) c * product (u_mults it)) 0) as [Z|NZ]; [exfalso; nia|].
    exists (FB (u_secs it) start (start + num_trees S (u_secs it) c * product (u_mults it)) j), k, (num_trees S (u_secs it) c). cbn [fb_unc fb_start fb_stop]. split; [now left|]. split; [|repeat split; lia].
    set (t := nth k _ _). assert (It : In t (all_trees S (u_secs it) c dual)) by (apply nth_In; lia). apply all_trees_In in It; [|symmetry; apply LEN; now left]. symmetry. now destruct (valid_tree_fields It).
  - destruct (IH (fun it' H => LEN it' (or_intror H)) _ I POSI) as (fb & k & n & If & REST). exists fb, k, n. split; [|exact REST]. cbn [forest_loop]. cbv zeta. unfold width in If. destruct (Nat.eqb_spec (num_trees S (u_secs it) c * product (u_mults it)) 0) as [Z|NZ].
    + rewrite Z, Nat.add_0_r in If. exact If.
    + now right.
Qed.

Lemma tiles_NoDup l : forall s e, tiles s (map fb_slice l) e -> (forall x, In x l -> fb_start x < fb_stop x) -> NoDup l.
Proof.
  induction l as [|x l IH]; intros s e TI POSI; [constructor|].
  cbn [map tiles] in TI. unfold fb_slice at 1 in TI. destruct TI as (E1 & E2 & TI). constructor; [|apply (IH (fb_stop x) e); auto; intros y I; apply POSI; now right].
  intros I. destruct (tiles_bound TI) as [_ B]. assert (B' := B (fb_start x) (fb_stop x)). specialize (B' (in_map fb_slice _ _ I)). specialize (POSI x (or_introl eq_refl)). lia.
Qed.

Section Forests.
  Variable S : tsymm.
  Hypothesis OK : tsymm_ok S.
  Variable T : tprod.
  Hypothesis HT : tp_ok S T.
  Lemma reshape_mults us : Forall2 (fun a E => In a (es_decomp S E)) us (tp_flat_legs T) ->
    map (fun p => sector_multiplicity (es_space S (fst p)) (snd p)) (combine (tp_flat_legs T) us) = map (fun p => es_mult S (fst p) (snd p)) (combine (tp_flat_legs T) us).
  Proof.
    intros F. apply map_ext_in. intros [E s] I. cbn [fst snd]. rewrite <- es_sp_mult. assert (IE := in_combine_l _ _ _ _ I). assert (EO : es_ok S E) by (destruct HT as [FO _]; rewrite Forall_forall in FO; now apply FO).
    destruct (es_space_ok' OK EO) as [X Y Z W V]. apply sector_multiplicity_spec; auto.
  Qed.
  (** the forest that contains a tree *)
  Lemma tree_forest c t j z : tree_of S T c t -> z < prod (tree_mults S T t) ->
    exists fb k n s e, In fb (forest_loop S (iter_uncoupled S T) c 0 j) /\ fb_unc fb = t_unc t /\ tree_block_slice S T t = Some (s, e) /\ k < n /\ s = fb_start fb + k * prod (tree_mults S T t) /\ fb_stop fb = fb_start fb + n * prod (tree_mults S T t).
  Proof.
    intros TT Hz. destruct (tree_item OK HT TT) as (x & Ix & <- & SL & EM & EE & LE). rewrite items_eq in Ix.
    assert (LEN : forall it, In it (iter_uncoupled S T) -> length (u_secs it) = length (map es_dual (tp_flat_legs T))) by (intros it Hi; rewrite map_length; now destruct (item_valid OK HT Hi)).
    rewrite <- EM in *. rewrite <- product_prod in *. destruct (@unc_forest S (iter_uncoupled S T) c _ 0 j x LEN 0 Ix ltac:(lia)) as (fb & k & n & I1 & I2 & I3 & I4 & I5).
    exists fb, k, n, (tb_start x), (tb_stop x). split; [exact I1|]. split; [exact I2|]. split; [exact SL|]. split; [exact I3|]. split; [exact I4|exact I5].
  Qed.
  Lemma forest_NoDup c j : NoDup (forest_loop S (iter_uncoupled S T) c 0 j).
  Proof.
    assert (TI := forest_loop_tiles S (iter_uncoupled S T) c j 0). assert (POSI : forall x, In x (forest_loop S (iter_uncoupled S T) c 0 j) -> fb_start x < fb_stop x) by (intros x I; apply forest_loop_In in I; destruct I as (_ & it & _ & _ & E & W & _); lia).
    exact (tiles_NoDup TI POSI).
  Qed.
  Variable coupled : list sector.
  Notation forests := (iter_forest_blocks S T coupled).
  Lemma forests_In x : In x forests <-> fb_ind x < length coupled /\ In x (forest_loop S (iter_uncoupled S T) (nth (fb_ind x) coupled []) 0 (fb_ind x)).
  Proof.
    unfold iter_forest_blocks. rewrite in_flat_map. split.
    - intros (i & Hi & I). assert (E : fb_ind x = i) by (now apply forest_loop_In in I). apply in_seq in Hi. subst i. split; [lia|exact I].
    - intros [H I]. exists (fb_ind x). split; [apply in_seq; lia|exact I].
  Qed.
  Lemma forests_NoDup : NoDup forests.
  Proof.
    unfold iter_forest_blocks. apply NoDup_flat_map; [apply seq_NoDup|intros i _; apply forest_NoDup|]. intros i j x _ _ I J. apply forest_loop_In in I, J. destruct I as [I _], J as [J _]. congruence.
  Qed.
  Lemma forests_sorted : StronglySorted le (map fb_ind forests).
  Proof.
    unfold iter_forest_blocks. assert (W : forall n a, StronglySorted le (map fb_ind (flat_map (fun i => forest_loop S (iter_uncoupled S T) (nth i coupled []) 0 i) (seq a n)))); [|apply W].
    induction n as [|n IH]; intros a; [constructor|]. cbn [seq flat_map]. rewrite map_app.
    assert (C1 : forall y, In y (map fb_ind (forest_loop S (iter_uncoupled S T) (nth a coupled []) 0 a)) -> y = a) by (intros y I; apply in_map_iff in I; destruct I as (x & <- & I); now apply forest_loop_In in I).
    assert (C2 : forall y, In y (map fb_ind (flat_map (fun i => forest_loop S (iter_uncoupled S T) (nth i coupled []) 0 i) (seq (Datatypes.S a) n))) -> a <= y).
    { intros y I. apply in_map_iff in I. destruct I as (x & <- & I). apply in_flat_map in I. destruct I as (i & Hi & I). apply in_seq in Hi. apply forest_loop_In in I. destruct I as [I _]. lia. }
    specialize (IH (Datatypes.S a)). revert C1. generalize (map fb_ind (forest_loop S (iter_uncoupled S T) (nth a coupled []) 0 a)) as u. induction u as [|b u IHu]; intros C1; [exact IH|]. cbn [app]. constructor; [apply IHu; intros y I; apply C1; now right|].
    assert (b = a) by (apply C1; now left). subst b. apply Forall_app. split; apply Forall_forall; intros y I; [rewrite (C1 y (or_intror I)); lia|now apply C2].
  Qed.
  Lemma forests_disjoint x y z : In x forests -> In y forests -> fb_ind x = fb_ind y -> fb_start x <= z < fb_stop x -> fb_start y <= z < fb_stop y -> x = y.
  Proof.
    intros Ix Iy E Bx By. apply forests_In in Ix, Iy. destruct Ix as [_ Ix], Iy as [_ Iy]. rewrite <- E in Iy. apply (tiles_disjoint (forest_loop_tiles S (iter_uncoupled S T) (nth (fb_ind x) coupled []) (fb_ind x) 0) (i := z)); auto.
  Qed.
  Lemma forests_bound x : In x forests -> fb_start x <= fb_stop x <= block_size T (nth (fb_ind x) coupled []).
  Proof.
    intros Ix. apply forests_In in Ix. destruct Ix as [_ Ix]. rewrite (block_size_width OK _ HT). destruct (tiles_bound (forest_loop_tiles S (iter_uncoupled S T) (nth (fb_ind x) coupled []) (fb_ind x) 0)) as [_ B]. apply (B (fb_start x) (fb_stop x)). change (fb_start x, fb_stop x) with (fb_slice x). now apply in_map.
  Qed.
End Forests.

(** ** The value of a scaled forest *)
Lemma flat_index_cons n shape i r : length r = length shape -> flat_index (n :: shape) true (i :: r) = i * prod shape + flat_index shape true r.
Proof. intros L. change (n :: shape) with ([n] ++ shape). change (i :: r) with ([i] ++ r). rewrite (flat_index_app (shape := [n]) (shape' := shape)); auto. rewrite flat_index_1. reflexivity. Qed.
Lemma flat_index_snoc shape n r i : length r = length shape -> flat_index (shape ++ [n]) true (r ++ [i]) = flat_index shape true r * n + i.
Proof. intros L. rewrite flat_index_app by auto. rewrite flat_index_1, prod_one. reflexivity. Qed.

Section Value.
  Variable S : tsymm.
  Variable K : Type.
  Variable o : ops K.
  Variable T : tprod.
  Variables (B V : blk K) (R C : nat).
  Hypothesis HB : is_matrix R C B.
  Variable x : fb_item.
  Variables (m : list nat) (n : nat).
  Hypothesis HM : map (fun p => sector_multiplicity (es_space S (fst p)) (snd p)) (combine (tp_flat_legs T) (fb_unc x)) = m.
  Hypothesis PM : 0 < prod m.
  Hypothesis STOP : fb_stop x = fb_start x + n * prod m.
  Lemma scale_forest_row pos k p z y : fb_stop x <= R -> k < n -> valid_idx m p -> pos < length m -> z = fb_start x + k * prod m + flat_index m true p -> y < C ->
    bat o (scale_forest S o false T pos B V x) [z - fb_start x; y] = omul o (bat o B [z; y]) (bat o V [nth pos p 0]).
  Proof.
    intros LE Hk Vp Hp EZ Hy. unfold scale_forest. cbv zeta. rewrite HM. unfold forest_box. cbn [fst snd]. rewrite (proj1 HB). cbn [nth]. set (F := bslice o B _ _).
    assert (SF : bshape F = [n * prod m; C]) by (unfold F, bslice; cbn; f_equal; [lia|f_equal; lia]). rewrite SF. cbn [nth]. rewrite Nat.div_mul by lia. cbn [Nat.add].
    assert (LM : length p = length m) by (eapply valid_length; exact Vp). assert (FL := flat_index_lt true Vp).
    assert (FI : flat_index (n :: m ++ [C]) true (k :: p ++ [y]) = flat_index [n * prod m; C] true [z - fb_start x; y]).
    { rewrite flat_index_2, flat_index_cons, flat_index_snoc, prod_app, prod_one by (rewrite ?app_length; cbn; lia). replace (z - fb_start x) with (k * prod m + flat_index m true p) by lia. ring. }
    rewrite bat_reshape with (r := k :: p ++ [y]); [|unfold bscale_axis; cbn [bshape bmk]; cbn [breshape bshape length]; rewrite !app_length; cbn; lia|reflexivity|unfold bscale_axis; cbn [bshape bmk breshape]; now rewrite FI].
    unfold bscale_axis. cbn [breshape bshape]. rewrite bat_bmk.
    - f_equal; [|cbn [nth]; rewrite Nat.add_comm; cbn [Nat.add nth]; rewrite app_nth1 by lia; reflexivity].
      rewrite bat_reshape with (r := [z - fb_start x; y]); [|rewrite SF; reflexivity|cbn [length]; rewrite !app_length; cbn; lia|rewrite SF; exact FI].
      unfold F, bslice. rewrite bat_bmk; [cbn [combine map fst snd]; rewrite Nat.add_0_l; do 2 f_equal; lia|]. cbn [combine map fst snd]. constructor; [nia|]. constructor; [lia|constructor].
    - constructor; [exact Hk|]. apply valid_app; [exact LM|]. split; [exact Vp|]. constructor; [exact Hy|constructor].
  Qed.
  Lemma scale_forest_col pos k p z y : fb_stop x <= C -> k < n -> valid_idx m p -> pos < length m -> z = fb_start x + k * prod m + flat_index m true p -> y < R ->
    bat o (scale_forest S o true T pos B V x) [y; z - fb_start x] = omul o (bat o B [y; z]) (bat o V [nth pos p 0]).
  Proof.
    intros LE Hk Vp Hp EZ Hy. unfold scale_forest. cbv zeta. rewrite HM. unfold forest_box. cbn [fst snd]. rewrite (proj1 HB). cbn [nth]. set (F := bslice o B _ _).
    assert (SF : bshape F = [R; n * prod m]) by (unfold F, bslice; cbn; f_equal; [lia|f_equal; lia]). rewrite SF. cbn [nth]. rewrite Nat.div_mul by lia. cbn [Nat.add].
    assert (LM : length p = length m) by (eapply valid_length; exact Vp). assert (FL := flat_index_lt true Vp).
    assert (FI : flat_index (R :: n :: m) true (y :: k :: p) = flat_index [R; n * prod m] true [y; z - fb_start x]).
    { rewrite flat_index_2, !flat_index_cons, prod_cons by (cbn [length]; lia). replace (z - fb_start x) with (k * prod m + flat_index m true p) by lia. ring. }
    rewrite bat_reshape with (r := y :: k :: p); [|unfold bscale_axis; cbn [bshape bmk breshape length]; lia|reflexivity|unfold bscale_axis; cbn [bshape bmk breshape]; now rewrite FI].
    unfold bscale_axis. cbn [breshape bshape]. rewrite bat_bmk.
    - f_equal; [|rewrite Nat.add_comm; reflexivity].
      rewrite bat_reshape with (r := [y; z - fb_start x]); [|rewrite SF; reflexivity|cbn [length]; lia|rewrite SF; exact FI].
      unfold F, bslice. rewrite bat_bmk; [cbn [combine map fst snd]; rewrite Nat.add_0_l; do 3 f_equal; lia|]. cbn [combine map fst snd]. constructor; [lia|]. constructor; [nia|constructor].
    - constructor; [exact Hy|]. constructor; [exact Hk|exact Vp].
  Qed.
End Value.
