(** Instructions one after the other, and back, on tensors. *)
From Verif Require Import Util RowModel RowProofs GridModel GridProofs SymModel SymProofs CatSpec Sums StarMat SpaceModel SpaceSpec PipeModel PipeProofs4 TreeModel TreeProofs TreeProofs3 TreeProofs4 TreeProofs5 TreeProofs7 TreeProofs8 TensorModel TensorSpec TensorProofs5 BlockModel BlockProofs
  SparseModel ConvertModel ConvertSpec FtOpsModel MappingModel MappingProofs PermLegsModel PermLegsSpec MoveModel FtMapModel FtMapSpec FtMapProofs FtMapProofs3 FtMapProofs7 FtMapProofs9 FtMapProofs10 FtMapProofs11 FtMapProofs17 FtMapProps BendSpec BendProofs BendProofs2.
Set Implicit Arguments. Unset Strict Implicit.
Open Scope nat_scope.

(** ** executing instructions on names of legs *)
Lemma exchange_map (f : nat -> nat) l i : exchange (map f l) i = match exchange l i with Some (a, b, l') => Some (f a, f b, map f l') | None => None end.
Proof.
  unfold exchange. rewrite skipn_map. destruct (skipn i l) as [|a [|b t]]; cbn [map]; try reflexivity. rewrite firstn_map, map_app. reflexivity.
Qed.
Lemma exec1_map (f : nat -> nat) cod dom i cod' dom' ev : exec1 (cod, dom) i = Some ((cod', dom'), ev) -> exists ev', exec1 (map f cod, map f dom) i = Some ((map f cod', map f dom'), ev').
Proof.
  destruct i as [[] idx over|[]|c idcs over]; cbn [exec1].
  - rewrite exchange_map. destruct (exchange cod idx) as [[[a b] l]|]; [|discriminate]. intros [= <- <- _]. eauto.
  - rewrite exchange_map. destruct (exchange dom idx) as [[[a b] l]|]; [|discriminate]. intros [= <- <- _]. eauto.
  - rewrite <- map_rev. destruct (rev dom) as [|x r]; [discriminate|]. intros [= <- <- _]. cbn [map]. rewrite map_app, map_rev. eauto.
  - rewrite <- map_rev. destruct (rev cod) as [|x r]; [discriminate|]. intros [= <- <- _]. cbn [map]. rewrite map_app, map_rev. eauto.
  - destruct idcs as [|i0 r]; [discriminate|]. set (l := i0 :: r). assert (E : length (if c then map f cod else map f dom) = length (if c then cod else dom)) by (destruct c; apply map_length). rewrite E.
    destruct (forallb _ l); [|discriminate]. intros [= <- <- _]. eauto.
Qed.
Lemma exec_map (f : nat -> nat) l : forall cod dom cod' dom' ev, exec (cod, dom) l = Some ((cod', dom'), ev) -> exists ev', exec (map f cod, map f dom) l = Some ((map f cod', map f dom'), ev').
Proof.
  induction l as [|i l IH]; intros cod dom cod' dom' ev; cbn [exec]; [intros [= <- <- _]; eauto|]. destruct (exec1 (cod, dom) i) as [[[c1 d1] e1]|] eqn:E1; [|discriminate]. destruct (exec (c1, d1) l) as [[[c2 d2] e2]|] eqn:E2; [|discriminate].
  intros [= <- <- _]. destruct (exec1_map f E1) as [e1' ->]. destruct (IH _ _ _ _ _ E2) as [e2' ->]. eauto.
Qed.
Lemma exec_app l1 l2 : forall st st1 e1 st2 e2, exec st l1 = Some (st1, e1) -> exec st1 l2 = Some (st2, e2) -> exec st (l1 ++ l2) = Some (st2, e1 ++ e2).
Proof.
  induction l1 as [|i l IH]; intros st st1 e1 st2 e2 H1 H2; cbn [exec app] in *; [injection H1 as -> <-; exact H2|]. destruct (exec1 st i) as [[s e]|]; [|discriminate]. destruct (exec s l) as [[s' e']|] eqn:E; [|discriminate]. injection H1 as -> <-.
  rewrite (IH _ _ _ _ _ E H2). now rewrite app_assoc.
Qed.
Lemma exchange_back l i a b l' : exchange l i = Some (a, b, l') -> exchange l' i = Some (b, a, l).
Proof.
  unfold exchange. intros E. destruct (skipn i l) as [|x [|y t]] eqn:SK; try discriminate. injection E as <- <- <-.
  assert (L : length (firstn i l) = i). { rewrite firstn_length. assert (length (skipn i l) = length l - i) by apply skipn_length. rewrite SK in H. cbn [length] in H. lia. }
  rewrite skipn_app, skipn_all2, L, Nat.sub_diag by lia. cbn [skipn app]. rewrite firstn_app, L, Nat.sub_diag. cbn [firstn]. rewrite app_nil_r, firstn_firstn, Nat.min_id. now rewrite <- SK, firstn_skipn.
Qed.
Lemma exec1_back st i st' ev : exec1 st i = Some (st', ev) -> exists ev', exec1 st' (invert i) = Some (st, ev').
Proof.
  destruct st as [cod dom]. destruct i as [[] idx over|[]|c idcs over]; cbn [exec1 invert negb].
  - destruct (exchange cod idx) as [[[a b] l]|] eqn:E; [|discriminate]. intros [= <- _]. cbn [exec1]. rewrite (exchange_back E). eauto.
  - destruct (exchange dom idx) as [[[a b] l]|] eqn:E; [|discriminate]. intros [= <- _]. cbn [exec1]. rewrite (exchange_back E). eauto.
  - destruct (rev dom) as [|x r] eqn:E; [discriminate|]. intros [= <- _]. cbn [exec1]. rewrite rev_app_distr. cbn [rev app]. rewrite rev_involutive. exists []. rewrite <- (rev_involutive dom), E. reflexivity.
  - destruct (rev cod) as [|x r] eqn:E; [discriminate|]. intros [= <- _]. cbn [exec1]. rewrite rev_app_distr. cbn [rev app]. rewrite rev_involutive. exists []. rewrite <- (rev_involutive cod), E. reflexivity.
  - destruct idcs as [|i0 r]; [discriminate|]. set (l := i0 :: r). destruct (forallb _ l) eqn:FB; [|discriminate]. intros [= <- _]. cbn [exec1]. unfold l. fold l. rewrite FB. eauto.
Qed.
Lemma exec_back l : forall st st' ev, exec st l = Some (st', ev) -> exists ev', exec st' (map invert (rev l)) = Some (st, ev').
Proof.
  induction l as [|i l IH]; intros st st' ev; cbn [exec]; [intros [= <- _]; cbn; eauto|]. destruct (exec1 st i) as [[s e]|] eqn:E1; [|discriminate]. destruct (exec s l) as [[s' e']|] eqn:E; [|discriminate]. intros [= -> _].
  destruct (IH _ _ _ E) as [e1 H1]. destruct (exec1_back E1) as [e2 H2]. exists (e1 ++ e2 ++ []). cbn [rev]. rewrite map_app. cbn [map]. apply (exec_app H1). cbn [exec]. now rewrite H2.
Qed.
Lemma invert_supported l : Forall supported l -> Forall supported (map invert (rev l)).
Proof. intros H. rewrite Forall_forall in *. intros i I. apply in_map_iff in I. destruct I as [j [ <- I]]. apply in_rev in I. specialize (H j I). destruct j; exact H. Qed.

(** the names of the legs after [ci], [di] *)
Definition renamed (ci di : list nat) (k : nat) : nat := nth k (leg_order ci di) 0.
Lemma renamed_legs ci di : map (renamed ci di) (seq 0 (length ci)) = ci /\ map (renamed ci di) (rev (seq (length ci) (length di))) = di.
Proof.
  unfold renamed, leg_order. split; [apply map_nth_app1|]. rewrite <- (rev_length di). rewrite map_nth_app2. apply rev_involutive.
Qed.
Lemma exec_two J Kn l1 l2 ci di ev1 ci2 di2 ev2 : exec (legs0 J Kn) l1 = Some ((ci, di), ev1) -> exec (legs0 (length ci) (length di)) l2 = Some ((ci2, di2), ev2) ->
  exists ev, exec (legs0 J Kn) (l1 ++ l2) = Some ((map (renamed ci di) ci2, map (renamed ci di) di2), ev).
Proof.
  intros E1 E2. destruct (exec_map (renamed ci di) E2) as [ev' E2']. destruct (renamed_legs ci di) as [R1 R2]. rewrite R1, R2 in E2'. eexists. exact (exec_app E1 E2').
Qed.
Lemma leg_order_map f ci di : leg_order (map f ci) (map f di) = map f (leg_order ci di).
Proof. unfold leg_order. now rewrite <- map_rev, map_app. Qed.
Lemma permuted_two (T : Type) (d : T) ci di ci2 di2 n cod dom cod1 dom1 cod2 dom2 : length (leg_order ci di) = n -> is_perm n (leg_order ci2 di2) -> permuted_legs d ci di cod dom cod1 dom1 ->
  (permuted_legs d ci2 di2 cod1 dom1 cod2 dom2 <-> permuted_legs d (map (renamed ci di) ci2) (map (renamed ci di) di2) cod dom cod2 dom2).
Proof.
  intros LN PM2 H1. unfold permuted_legs in *. rewrite leg_order_map, H1. assert (E : take d (take d (cod ++ rev dom) (leg_order ci di)) (leg_order ci2 di2) = take d (cod ++ rev dom) (map (renamed ci di) (leg_order ci2 di2))); [|rewrite E; reflexivity].
  unfold take. rewrite map_map. apply map_ext_in. intros k I. apply (is_perm_In k PM2) in I. rewrite nth_map_lt with (d := 0) by lia. reflexivity.
Qed.

Section Compose.
  Variable S : tsymm.
  Hypothesis OK : tsymm_ok S.
  Notation RING := (to_ring OK).
  Variable K : Type.
  Variable o : ops K.
  Hypothesis ST : star_laws o.
  Notation SR := (st_semi ST).
  Add Ring Kr : SR.
  Variable B : Bsym K.
  Variables sqrt_qdim inv_sqrt_qdim fs theta : sector -> K.
  Variable trivial_braid : bool.
  Variable R : Rsym K.
  Variable C : Fsym K.
  Variable small : K -> bool.
  Notation moves := (moves S K o R C B sqrt_qdim inv_sqrt_qdim fs theta small trivial_braid).
  Notation image_of := (image_of S K o).
  Variables P Q P1 Q1 P2 Q2 : tprod.
  Hypothesis HP : tp_ok S P.
  Hypothesis HQ : tp_ok S Q.
  Hypothesis HP1 : tp_ok S P1.
  Hypothesis HQ1 : tp_ok S Q1.
  Variables (ci di ci2 di2 : list nat) (ev1 ev2 : list event) (l1 l2 : list instruction).
  Notation J := (length (tp_flat_legs P)).
  Notation Kn := (length (tp_flat_legs Q)).
  Notation J1 := (length (tp_flat_legs P1)).
  Notation K1 := (length (tp_flat_legs Q1)).
  Hypothesis PP1 : permuted_products ci di P Q P1 Q1.
  Hypothesis PP2 : permuted_products ci2 di2 P1 Q1 P2 Q2.
  Hypothesis E1 : exec (legs0 J Kn) l1 = Some ((ci, di), ev1).
  Hypothesis E2 : exec (legs0 J1 K1) l2 = Some ((ci2, di2), ev2).
  Hypothesis S1 : Forall supported l1.
  Hypothesis S2 : Forall supported l2.

  Lemma product_lengths R0 T A D a b : permuted_products a b R0 T A D -> length a = length (tp_flat_legs A) /\ length b = length (tp_flat_legs D).
  Proof.
    intros [L1 H]. split; [exact L1|]. apply (f_equal (@length _)) in H. unfold leg_order in H. rewrite app_length, rev_length, map_length, take_length in H. rewrite app_length, rev_length in H. lia.
  Qed.
  Lemma compose_lengths : length ci = J1 /\ length di = K1.
  Proof. exact (product_lengths PP1). Qed.
  Lemma compose_exec : exists ev, exec (legs0 J Kn) (l1 ++ l2) = Some ((map (renamed ci di) ci2, map (renamed ci di) di2), ev).
  Proof. destruct compose_lengths as [L1 L2]. apply (exec_two E1 (ev2 := ev2)). now rewrite L1, L2. Qed.
  Lemma compose_products : permuted_products (map (renamed ci di) ci2) (map (renamed ci di) di2) P Q P2 Q2.
  Proof.
    destruct compose_lengths as [L1 L2]. assert (PM2 := exec_is_perm E2). split; [rewrite map_length; exact (proj1 PP2)|]. refine (proj1 (@permuted_two _ _ ci di ci2 di2 (J1 + K1) _ _ _ _ _ _ _ PM2 (proj2 PP1)) (proj2 PP2)).
    unfold leg_order. rewrite app_length, rev_length. lia.
  Qed.
  Lemma image_compose F F1 F2 : image_of P Q P1 Q1 ci di (moves l1) F F1 -> image_of P1 Q1 P2 Q2 ci2 di2 (moves l2) F1 F2 ->
    image_of P Q P2 Q2 (map (renamed ci di) ci2) (map (renamed ci di) di2) (moves (l1 ++ l2)) F F2.
  Proof.
    intros I1 I2 c X Y p q p2 q2 L TX TY Lp Lq PL Vp Vq AL. destruct compose_lengths as [L1 L2]. assert (PM1 := exec_is_perm E1). assert (PM2 := exec_is_perm E2).
    assert (LO : length (leg_order ci di) = J1 + K1) by (unfold leg_order; rewrite app_length, rev_length; lia).
    set (w := take 0 (p ++ rev q) (leg_order ci di)). assert (LW : length w = J1 + K1) by (unfold w; now rewrite take_length).
    set (p1 := firstn J1 w). set (q1 := rev (skipn J1 w)). assert (Lp1 : length p1 = J1) by (unfold p1; rewrite firstn_length; lia). assert (Lq1 : length q1 = K1) by (unfold q1; rewrite rev_length, skipn_length; lia).
    assert (PL1 : permuted_legs 0 ci di p q p1 q1) by (unfold permuted_legs, p1, q1; now rewrite rev_involutive, firstn_skipn). assert (PL2 := proj2 (permuted_two p2 q2 LO PM2 PL1) PL).
    destruct (all_pairs_exist OK HP1 HQ1) as [M AM]. rewrite (I2 c X Y p1 q1 p2 q2 M TX TY Lp1 Lq1 PL2 Vp Vq AM).
    transitivity (osum o (map (fun k1 => omul o (amount pair_dec o (moves l2 k1) (X, Y)) (osum o (map (fun k => omul o (amount pair_dec o (moves l1 k) k1) (tree_value S o P Q F (fst k) p (snd k) q)) L))) M)).
    { f_equal. apply map_ext_in. intros [X1 Y1] I. apply (proj2 AM) in I. destruct I as (c1 & TX1 & TY1). cbn [fst snd]. destruct (in_dec pair_dec (X, Y) (map fst (moves l2 (X1, Y1)))) as [IN|NI].
      - f_equal. assert (AT := key_at OK HP1 HQ1 TX1 TY1).
        assert (AT2 : pair_at S (sec_at S (X1, Y1)) (dual_at P1 Q1) (ci2, di2) (X, Y)).
        { apply in_map_iff in IN. destruct IN as [e [EE IN]]. rewrite <- EE. refine (run_keys RING (sec_valid OK HP1 HQ1 TX1 TY1) E2 S2 _ IN). intros p0 [ <- |[]]. exact AT. }
        assert (MP := mults_permuted OK HP1 HQ1 PM2 PP2 TX1 TY1 AT2). destruct (product_lengths PP2) as [A1 A2].
        assert (ML : forall (R0 : tprod) c0 t, tree_of S R0 c0 t -> length (tree_mults S R0 t) = length (tp_flat_legs R0)) by (intros R0 c0 t T0; exact (tree_mults_len T0)).
        assert (V : valid_idx (tree_mults S P1 X1) p1 /\ valid_idx (tree_mults S Q1 Y1) q1).
        { refine (@permuted_valid J1 K1 ci2 di2 PM2 (tree_mults S P1 X1) (tree_mults S Q1 Y1) (tree_mults S P2 X) (tree_mults S Q2 Y) p1 q1 p2 q2 _ _ Lp1 Lq1 _ _ MP PL2 Vp Vq); erewrite ML by eassumption; congruence. }
        destruct V as [V1 V2]. exact (I1 c1 X1 Y1 p q p1 q1 L TX1 TY1 Lp Lq PL1 V1 V2 AL).
      - rewrite (amount_none pair_dec SR NI). ring. }
    transitivity (osum o (map (fun k1 => osum o (map (fun k => omul o (omul o (amount pair_dec o (moves l2 k1) (X, Y)) (amount pair_dec o (moves l1 k) k1)) (tree_value S o P Q F (fst k) p (snd k) q)) L)) M)).
    { f_equal. apply map_ext. intros k1. rewrite <- (sum_mul_l SR). f_equal. apply map_ext. intros k. ring. }
    rewrite (sum_swap SR). f_equal. apply map_ext_in. intros [X0 Y0] I. apply (proj2 AL) in I. destruct I as (c0 & TX0 & TY0). cbn [fst snd]. rewrite (sum_mul_r SR). f_equal.
    unfold FtMapProps.moves at 3, moved at 1. rewrite fold_left_app. rewrite (run_linear S ST B sqrt_qdim inv_sqrt_qdim fs theta trivial_braid R C small l2).
    change (fold_left _ l1 [((X0, Y0), o1 o)]) with (moves l1 (X0, Y0)). symmetry. apply (pairing_amount pair_dec SR (fun k1 => amount pair_dec o (moves l2 k1) (X, Y))); [exact (proj1 AM)|].
    intros [X1 Y1] I. apply (proj2 AM). apply in_map_iff in I. destruct I as [e [EE I]]. exists (t_coup X1).
    assert (AT : pair_at S (sec_at S (X0, Y0)) (dual_at P Q) (ci, di) (X1, Y1)).
    { rewrite <- EE. refine (run_keys RING (sec_valid OK HP HQ TX0 TY0) E1 S1 _ I). intros p0 [ <- |[]]. exact (key_at OK HP HQ TX0 TY0). }
    exact (new_trees OK HP HQ PM1 PP1 TX0 TY0 AT).
  Qed.

  (** a tensor that is the image of [F] under moves that do nothing *)
  Lemma image_identity F F' (f : tree * tree -> list ((tree * tree) * K)) : (forall X Y c, tree_of S P c X -> tree_of S Q c Y -> forall k, amount pair_dec o (f (X, Y)) k = if pair_dec (X, Y) k then o1 o else o0 o) ->
    image_of P Q P Q (fst (legs0 J Kn)) (snd (legs0 J Kn)) f F F' ->
    forall c X Y p q, tree_of S P c X -> tree_of S Q c Y -> valid_idx (tree_mults S P X) p -> valid_idx (tree_mults S Q Y) q -> tree_value S o P Q F' X p Y q = tree_value S o P Q F X p Y q.
  Proof.
    intros ID IM c X Y p q TX TY Vp Vq. destruct (all_pairs_exist OK HP HQ) as [L AL].
    assert (Lp : length p = J) by (rewrite (valid_length Vp); exact (tree_mults_len TX)). assert (Lq : length q = Kn) by (rewrite (valid_length Vq); exact (tree_mults_len TY)).
    assert (PL : permuted_legs 0 (fst (legs0 J Kn)) (snd (legs0 J Kn)) p q p q).
    { unfold permuted_legs, leg_order, legs0. cbn [fst snd]. rewrite rev_involutive, <- seq_app. rewrite <- (take_seq 0 (p ++ rev q)) at 1. f_equal. f_equal. rewrite app_length, rev_length. lia. }
    rewrite (IM c X Y p q p q L TX TY Lp Lq PL Vp Vq AL).
    rewrite (map_ext_in _ (fun k => if pair_dec k (X, Y) then tree_value S o P Q F X p Y q else o0 o)).
    2:{ intros [X0 Y0] I. apply (proj2 AL) in I. destruct I as (c0 & TX0 & TY0). rewrite (ID X0 Y0 c0 TX0 TY0). cbn [fst snd]. destruct (pair_dec (X0, Y0) (X, Y)) as [E|N]; [injection E as -> ->; ring|ring]. }
    assert (IN : In (X, Y) L) by (apply (proj2 AL); exists c; auto). rewrite (sum_single SR (proj1 AL) IN); [destruct (pair_dec (X, Y) (X, Y)); [reflexivity|congruence]|]. intros k _ NE. destruct (pair_dec k (X, Y)); [contradiction|reflexivity].
  Qed.
End Compose.
