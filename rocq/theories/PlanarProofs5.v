(** C69, part 5: case distinction by the position of the cuts. *)
From Coq Require Import ZArith List Bool Lia Permutation.
From Verif Require Import Util GridModel PermLegsModel PermLegsSpec PermLegsProps PlanarModel PlanarSpec PlanarProofs1 PlanarProofs2 PlanarProofs3 PlanarProofs4.
Import ListNotations.
Set Implicit Arguments. Unset Strict Implicit.
Open Scope nat_scope.

Ltac dec1 := match goal with
  | |- context [?a <? ?b] => first [replace (a <? b) with true by (symmetry; apply Nat.ltb_lt; lia) | replace (a <? b) with false by (symmetry; apply Nat.ltb_ge; lia)]
  | |- context [?a <=? ?b] => first [replace (a <=? b) with true by (symmetry; apply Nat.leb_le; lia) | replace (a <=? b) with false by (symmetry; apply Nat.leb_gt; lia)]
  | |- context [?a =? ?b] => first [replace (a =? b) with true by (symmetry; apply Nat.eqb_eq; lia) | replace (a =? b) with false by (symmetry; apply Nat.eqb_neq; lia)]
  end.
Ltac dec := repeat (dec1; cbn [andb orb negb]).
Lemma hd_seq a m : 0 < m -> hd 0 (seq a m) = a.
Proof. destruct m; [lia|reflexivity]. Qed.
Lemma last_seq a m : 0 < m -> last (seq a m) 0 = a + m - 1.
Proof. destruct m; [lia|]. intros _. replace (S m) with (m + 1) by lia. rewrite seq_app. cbn [seq]. rewrite last_last. lia. Qed.

Lemma call_eq co dom l l' : l = l' -> POk [Call co dom (BendList l)] = POk [Call co dom (BendList l')].
Proof. now intros ->. Qed.

Section Cases.
  Variables (nc nd k c : nat) (co dom : list nat).
  Let n := nc + nd.
  Hypothesis Hk : k < n.
  Hypothesis Hc : c <= n.
  Hypothesis CUT : cut n k c co (rev dom).
  Let CS := filter (contains co) (seq 0 nc).
  Let DS := filter (fun i => contains dom (n - 1 - i)) (seq 0 nd).
  Definition good_calls := exists steps, permute_calls nc nd co dom = POk steps /\ achieves nc nd co dom steps.

  Lemma cs_range lo hi : lo <= hi -> hi <= nc -> (forall x, x < nc -> place_of n k x < c <-> lo <= x < hi) -> CS = seq lo (hi - lo).
  Proof.
    intros A B H. apply filter_range; try lia. intros x Hx. rewrite (@cut_in_co n k c co dom Hk Hc CUT) by lia. rewrite Nat.ltb_lt. apply H. lia.
  Qed.
  Lemma ds_range lo hi : lo <= hi -> hi <= nd -> (forall x, x < nd -> c <= place_of n k (n - 1 - x) <-> lo <= x < hi) -> DS = seq lo (hi - lo).
  Proof.
    intros A B H. apply filter_range; try lia. intros x Hx. rewrite (@cut_in_dom n k c co dom Hk Hc CUT) by lia. rewrite Nat.leb_le. apply H. lia.
  Qed.
  Ltac facts := repeat first
    [ rewrite (@cut_in_co n k c co dom Hk Hc CUT) by lia
    | rewrite (@cut_in_dom n k c co dom Hk Hc CUT) by lia ].
  Lemma Lco : length co = c.
  Proof. exact (proj1 (@cut_lengths n k c co dom Hk Hc CUT)). Qed.
  Lemma Ldom : length dom = n - c.
  Proof. exact (proj2 (@cut_lengths n k c co dom Hk Hc CUT)). Qed.
  Lemma in_co x : x < n -> contains co x = (place_of n k x <? c).
  Proof. exact (@cut_in_co n k c co dom Hk Hc CUT x). Qed.
  Lemma in_dom x : x < n -> contains dom x = (c <=? place_of n k x).
  Proof. exact (@cut_in_dom n k c co dom Hk Hc CUT x). Qed.
  Lemma ix_co x : x < n -> place_of n k x < c -> index_of co x = place_of n k x.
  Proof. exact (@cut_index_co n k c co dom Hk Hc CUT x). Qed.
  Lemma ix_dom x : x < n -> c <= place_of n k x -> index_of dom x = n - 1 - place_of n k x.
  Proof. exact (@cut_index_dom n k c co dom Hk Hc CUT x). Qed.

  (** [e = k + c] *)
  Lemma case_A1 : k < nc -> k + c <= nc -> good_calls.
  Proof.
    intros K E. unfold good_calls, permute_calls. cbv zeta. fold n. fold CS DS.
    assert (E1 : CS = seq k c). { replace c with (k + c - k) by lia. apply cs_range; try lia. intros x Hx. unfold place_of. destruct (Nat.ltb_spec x k); lia. }
    assert (E2 : DS = seq 0 nd). { replace nd with (nd - 0) by lia. apply ds_range; try lia. intros x Hx. unfold place_of. destruct (Nat.ltb_spec (n - 1 - x) k); lia. }
    assert (AE : co = seq k c /\ rev dom = seq (k + c) (n - (k + c)) ++ seq 0 k) by (destruct CUT as [(_ & X & Y)|(X & _)]; [now split|lia]).
    rewrite E1, E2, !seq_length. rewrite Lco, Ldom.
    assert (CW : (0 <? c) && contains co 0 && contains co (nc - 1) && (index_of co (nc - 1) <? index_of co 0) = false).
    { destruct (contains co 0) eqn:X1; [|now rewrite ?andb_false_r]. destruct (contains co (nc - 1)) eqn:X2; [|now rewrite ?andb_false_r].
      rewrite in_co in X1, X2 by lia. apply Nat.ltb_lt in X1, X2. rewrite !ix_co by lia. unfold place_of in *. destruct (Nat.ltb_spec 0 k), (Nat.ltb_spec (nc - 1) k); try lia. dec. now rewrite ?andb_false_r. }
    assert (DW : (0 <? nd) && contains dom nc && contains dom (n - 1) && (index_of dom nc <? index_of dom (n - 1)) = false).
    { destruct (Nat.eq_dec nd 0) as [Z|NZ]; [now rewrite Z|]. rewrite !ix_dom; try lia; unfold place_of; dec; lia. }
    rewrite CW, DW. cbn [andb].
    assert (T : exists steps, POk [Call co dom (BendList (six k c (nc - k - c) 0 nd 0))] = POk steps /\ achieves nc nd co dom steps).
    { eexists. split; [reflexivity|]. apply one_achieves; try lia.
      - destruct AE as [-> _]. cbn [seq app]. now rewrite app_nil_r.
      - destruct AE as [_ ->]. rewrite app_assoc. f_equal. replace (n - (k + c)) with ((nc - k - c) + nd) by lia. rewrite seq_app. do 2 f_equal. lia. }
    replace ((c =? 0) && (nd =? 0) && (0 <? c) && (0 <? n - c)) with false by (destruct c; reflexivity || now rewrite ?andb_false_r).
    destruct (Nat.eq_dec c nc) as [C|C].
    { assert (k = 0) by lia. subst k. rewrite C, !Nat.eqb_refl. cbn [andb]. exists []. split; [reflexivity|]. destruct AE as [A1 A2].
      assert (A3 : dom = rev (seq nc nd)). { rewrite <- (rev_involutive dom), A2. f_equal. cbn [seq]. rewrite app_nil_r. f_equal; lia. }
      rewrite A1, A3, C. apply nil_achieves. }
    replace (c =? nc) with false by (symmetry; apply Nat.eqb_neq; lia). cbn [andb].
    replace (nc =? 0) with false by (symmetry; apply Nat.eqb_neq; lia).
    destruct (Nat.eqb_spec nd 0) as [D|D].
    - (* empty domain *)
      assert (RB : (if contains dom (n - 1) then n - c - index_of dom (n - 1) else 0) = n - k - c).
      { rewrite in_dom by lia. destruct (Nat.leb_spec c (place_of n k (n - 1))) as [X|X].
        - rewrite ix_dom by lia. unfold place_of in *. destruct (Nat.ltb_spec (n - 1) k); lia.
        - unfold place_of in X. destruct (Nat.ltb_spec (n - 1) k); lia. }
      assert (LB : (if contains dom 0 && negb (n =? 1) then index_of dom 0 + 1 else 0) = if 0 <? k then k else if (c =? 0) && negb (n =? 1) then n else 0).
      { rewrite in_dom by lia. destruct (Nat.leb_spec c (place_of n k 0)) as [X|X].
        - rewrite ix_dom by lia. unfold place_of in *. destruct (Nat.ltb_spec 0 k); cbn [andb].
          + dec. lia.
          + dec. destruct (negb (n =? 1)) eqn:Q; lia.
        - unfold place_of in X. destruct (Nat.ltb_spec 0 k); [lia|]. cbn [andb]. dec. reflexivity. }
      rewrite RB, LB.
      assert (LB' : (if (c =? 0) && ((if 0 <? k then k else if (c =? 0) && negb (n =? 1) then n else 0) =? n) && (n - k - c =? n) then 0 else (if 0 <? k then k else if (c =? 0) && negb (n =? 1) then n else 0)) = k).
      { destruct (Nat.ltb_spec 0 k); [dec; rewrite andb_false_r; reflexivity|]. destruct (Nat.eqb_spec c 0); cbn [andb]; [|lia]. destruct (Nat.eqb_spec n 1); cbn [negb]; dec; lia. }
      rewrite LB'. dec. destruct T as (st & T1 & T2). exists st. split; [|exact T2]. rewrite <- T1. apply call_eq. bends.
    - destruct (Nat.eqb_spec c 0) as [C0|C0].
      + (* nothing stays in the codomain *)
        rewrite hd_seq, last_seq by lia. dec. rewrite ix_dom by (unfold place_of; dec; lia). unfold place_of. dec. destruct T as (st & T1 & T2). exists st. split; [|exact T2]. rewrite <- T1. apply call_eq. bends.
      + rewrite !hd_seq, !last_seq by lia. dec. rewrite ?orb_true_r. cbn [negb]. dec.
        destruct T as (st & T1 & T2). exists st. split; [|exact T2]. rewrite <- T1. apply call_eq. bends.
  Qed.

  Ltac fin T := rewrite ?andb_false_r; cbn [andb orb negb]; destruct T as (st & T1 & T2); exists st; split; [|exact T2]; rewrite <- T1; apply call_eq; bends.
  Ltac pl := unfold place_of in *; repeat match goal with |- context [if ?a <? ?b then _ else _] => destruct (Nat.ltb_spec a b) | H : context [if ?a <? ?b then _ else _] |- _ => destruct (Nat.ltb_spec a b) end; try lia.
  Lemma no_cw : k = 0 \/ nc <= k \/ k + c <= n -> (0 <? length CS) && contains co 0 && contains co (nc - 1) && (index_of co (nc - 1) <? index_of co 0) = false.
  Proof.
    intros H. destruct (contains co 0) eqn:X1; [|now rewrite ?andb_false_r]. destruct (contains co (nc - 1)) eqn:X2; [|now rewrite ?andb_false_r].
    rewrite in_co in X1, X2 by lia. apply Nat.ltb_lt in X1, X2. rewrite !ix_co by lia.
    match goal with |- context [?a <? ?b] => replace (place_of n k (nc - 1) <? place_of n k 0) with false end; [now rewrite ?andb_false_r|]. symmetry. apply Nat.ltb_ge. pl.
  Qed.
  Lemma no_dw : k <= nc \/ n <= k + c -> (0 <? length DS) && contains dom nc && contains dom (n - 1) && (index_of dom nc <? index_of dom (n - 1)) = false.
  Proof.
    intros H. destruct (Nat.eq_dec nd 0) as [Z|NZ].
    { replace (0 <? length DS) with false; [reflexivity|]. symmetry. apply Nat.ltb_ge. unfold DS. rewrite Z. cbn. lia. }
    destruct (contains dom nc) eqn:X1; [|now rewrite ?andb_false_r]. destruct (contains dom (n - 1)) eqn:X2; [|now rewrite ?andb_false_r].
    rewrite in_dom in X1, X2 by lia. apply Nat.leb_le in X1, X2. rewrite !ix_dom by lia.
    replace (n - 1 - place_of n k nc <? n - 1 - place_of n k (n - 1)) with false; [now rewrite ?andb_false_r|]. symmetry. apply Nat.ltb_ge. pl.
  Qed.

  Lemma case_A2 : k < nc -> nc < k + c -> k + c <= n -> good_calls.
  Proof.
    intros K E E'. unfold good_calls, permute_calls. cbv zeta. fold n. fold CS DS. rewrite no_cw, no_dw by lia.
    assert (E1 : CS = seq k (nc - k)). { apply cs_range; try lia. intros x Hx. pl. }
    assert (E2 : DS = seq 0 (n - (k + c) - 0)). { apply ds_range; try lia. intros x Hx. pl. } rewrite Nat.sub_0_r in E2.
    assert (AE : co = seq k c /\ rev dom = seq (k + c) (n - (k + c)) ++ seq 0 k) by (destruct CUT as [(_ & X & Y)|(X & _)]; [now split|lia]).
    rewrite E1, E2, !seq_length. cbn [andb].
    assert (T : exists steps, POk [Call co dom (BendList (six k (nc - k) 0 (k + c - nc) (n - (k + c)) 0))] = POk steps /\ achieves nc nd co dom steps).
    { eexists. split; [reflexivity|]. apply one_achieves; try lia.
      - destruct AE as [-> _]. cbn [seq app]. replace c with ((nc - k) + (k + c - nc)) at 1 by lia. rewrite seq_app. do 2 f_equal. lia.
      - destruct AE as [_ ->]. cbn [seq app]. f_equal. f_equal. lia. }
    dec. destruct (Nat.eqb_spec (n - (k + c)) 0) as [D|D]; cbn [andb].
    - rewrite hd_seq, last_seq by lia. dec. destruct (Nat.eqb_spec k 0) as [K0|K0].
      + dec. rewrite ix_co by pl. unfold place_of. dec. fin T.
      + dec. fin T.
    - rewrite !hd_seq, !last_seq by lia. dec. rewrite ?orb_true_r. cbn [negb]. dec. fin T.
  Qed.

  Lemma case_B2 : nc <= k -> n < k + c -> k + c <= n + nc -> good_calls.
  Proof.
    intros K E E'. unfold good_calls, permute_calls. cbv zeta. fold n. fold CS DS. rewrite no_cw, no_dw by lia.
    assert (E1 : CS = seq 0 (k + c - n - 0)). { apply cs_range; try lia. intros x Hx. pl. } rewrite Nat.sub_0_r in E1.
    assert (E2 : DS = seq (n - k) (nd - (n - k))). { apply ds_range; try lia. intros x Hx. pl. }
    assert (AE : co = seq k (n - k) ++ seq 0 (k + c - n) /\ rev dom = seq (k + c - n) (n - c)) by (destruct CUT as [(X & _)|(_ & X & Y)]; [lia|now split]).
    rewrite E1, E2, !seq_length. cbn [andb].
    assert (T : exists steps, POk [Call co dom (BendList (six 0 (k + c - n) (nc - (k + c - n)) 0 (k - nc) (n - k)))] = POk steps /\ achieves nc nd co dom steps).
    { eexists. split; [reflexivity|]. apply one_achieves; try lia.
      - destruct AE as [-> _]. cbn [seq app]. rewrite app_nil_r. do 2 f_equal. lia.
      - destruct AE as [_ ->]. cbn [seq app plus]. rewrite app_nil_r. replace (n - c) with ((nc - (k + c - n)) + (k - nc)) by lia. rewrite seq_app. do 2 f_equal. lia. }
    dec. destruct (Nat.eqb_spec (nd - (n - k)) 0) as [D|D]; cbn [andb].
    - rewrite hd_seq, last_seq by lia. destruct (Nat.eqb_spec (k + c - n) nc) as [K0|K0].
      + dec. rewrite ix_co by pl. unfold place_of. dec. fin T.
      + dec. fin T.
    - rewrite !hd_seq, !last_seq by lia. dec. rewrite ?orb_true_r. cbn [negb]. dec. fin T.
  Qed.

  Lemma case_B3 : nc <= k -> n + nc < k + c -> k + c <= n + k -> good_calls.
  Proof.
    intros K E E'. unfold good_calls, permute_calls. cbv zeta. fold n. fold CS DS. rewrite no_cw, no_dw by lia.
    assert (E1 : CS = seq 0 (nc - 0)). { apply cs_range; try lia. intros x Hx. pl. } rewrite Nat.sub_0_r in E1.
    assert (E2 : DS = seq (n - k) (n - (k + c - n) - (n - k))). { apply ds_range; try lia. intros x Hx. pl. }
    assert (AE : co = seq k (n - k) ++ seq 0 (k + c - n) /\ rev dom = seq (k + c - n) (n - c)) by (destruct CUT as [(X & _)|(_ & X & Y)]; [lia|now split]).
    rewrite E1, E2, !seq_length. cbn [andb].
    assert (T : exists steps, POk [Call co dom (BendList (six 0 nc 0 (k + c - n - nc) (n - c) (n - k)))] = POk steps /\ achieves nc nd co dom steps).
    { eexists. split; [reflexivity|]. apply one_achieves; try lia.
      - destruct AE as [-> _]. cbn [seq app]. replace (k + c - n) with (nc + (k + c - n - nc)) at 1 by lia. rewrite seq_app. cbn [plus]. f_equal. f_equal. lia.
      - destruct AE as [_ ->]. cbn [seq app plus]. rewrite app_nil_r. f_equal. lia. }
    destruct (Nat.eqb_spec nc 0) as [N0|N0].
    - rewrite !in_co by lia. rewrite Lco, Ldom. rewrite !ix_co by pl. unfold place_of. dec. destruct (Nat.eqb_spec (n - (k + c - n) - (n - k)) 0); dec; fin T.
    - dec. destruct (Nat.eqb_spec (n - (k + c - n) - (n - k)) 0) as [D|D]; cbn [andb].
      + rewrite hd_seq, last_seq by lia. dec. rewrite ix_co by pl. unfold place_of. dec. fin T.
      + rewrite !hd_seq, !last_seq by lia. dec. rewrite ?orb_true_r. cbn [negb orb]. dec. rewrite ?orb_true_r. cbn [negb]. fin T.
  Qed.

  (** the domain is cut only at its right end *)
  Lemma case_B1b : nc <= k -> k = nc \/ k + c = n -> k + c <= n -> good_calls.
  Proof.
    intros K KK E'. unfold good_calls, permute_calls. cbv zeta. fold n. fold CS DS. rewrite no_cw, no_dw by lia.
    assert (E1 : CS = seq 0 (0 - 0)). { apply cs_range; try lia. intros x Hx. pl. } cbn [seq Nat.sub] in E1.
    assert (AE : co = seq k c /\ rev dom = seq (k + c) (n - (k + c)) ++ seq 0 k) by (destruct CUT as [(_ & X & Y)|(X & _)]; [now split|lia]).
    rewrite Lco, Ldom.
    destruct (Nat.eq_dec k nc) as [K1|K1].
    - assert (E2 : DS = seq 0 (n - (k + c) - 0)). { apply ds_range; try lia. intros x Hx. pl. } rewrite Nat.sub_0_r in E2.
      rewrite E1, E2, !seq_length. cbn [length andb]. dec.
      assert (T : exists steps, POk [Call co dom (BendList (six nc 0 0 c (n - (k + c)) 0))] = POk steps /\ achieves nc nd co dom steps).
      { eexists. split; [reflexivity|]. apply one_achieves; try lia.
        - destruct AE as [-> _]. cbn [seq app]. now rewrite K1.
        - destruct AE as [_ ->]. cbn [seq app]. now rewrite K1. }
      destruct (Nat.eqb_spec (n - (k + c)) 0) as [D|D]; cbn [andb].
      + (* the domain is bent down as a whole *)
        destruct (Nat.eq_dec nc 0) as [N0|N0].
        * dec. rewrite ?andb_false_r. cbn [andb]. dec. rewrite !in_co by lia. rewrite !ix_co by pl. unfold place_of. dec.
          destruct (Nat.eqb_spec n 1); cbn [negb]; dec; fin T.
        * dec. destruct (Nat.ltb_spec nc nd).
          -- fin T.
          -- eexists. split; [reflexivity|]. match goal with |- achieves _ _ _ _ [Call _ _ (BendList ?l)] => replace l with (six 0 0 nc 0 0 nd) by (symmetry; bends) end.
             apply one_achieves; try lia.
             ++ destruct AE as [-> _]. cbn [seq app]. rewrite app_nil_r. f_equal; lia.
             ++ destruct AE as [_ ->]. cbn [seq app plus]. rewrite app_nil_r. rewrite D, K1. reflexivity.
      + destruct (Nat.eqb_spec nc 0) as [N0|N0].
        * dec. destruct (Nat.eqb_spec (n - (k + c)) nd) as [D1|D1].
          -- exists []. split; [reflexivity|]. destruct AE as [A1 A2]. assert (A3 : dom = rev (seq nc nd)). { rewrite <- (rev_involutive dom), A2. f_equal. replace k with 0 by lia. cbn [seq]. rewrite app_nil_r. f_equal; lia. }
             rewrite A1, A3. replace c with nc by lia. rewrite K1, N0. apply nil_achieves.
          -- dec. rewrite !in_co by lia. rewrite (@ix_co 0) by pl. unfold place_of. dec. fin T.
        * dec. rewrite hd_seq, last_seq by lia. dec. destruct (Nat.eqb_spec (n - (k + c)) nd) as [D1|D1].
          -- rewrite ix_dom by pl. unfold place_of. dec. fin T.
          -- dec. fin T.
    - assert (E2 : DS = seq (n - k) (nd - (n - k))). { apply ds_range; try lia. intros x Hx. pl. }
      rewrite E1, E2, !seq_length. cbn [length andb]. dec.
      assert (T : exists steps, POk [Call co dom (BendList (six 0 0 nc 0 (k - nc) c))] = POk steps /\ achieves nc nd co dom steps).
      { eexists. split; [reflexivity|]. apply one_achieves; try lia.
        - destruct AE as [-> _]. cbn [seq app]. rewrite app_nil_r. f_equal; lia.
        - destruct AE as [_ ->]. cbn [seq app plus]. rewrite app_nil_r. replace (n - (k + c)) with 0 by lia. cbn [seq app]. replace k with (nc + (k - nc)) at 1 by lia. rewrite seq_app. cbn [plus]. do 2 f_equal. lia. }
      destruct (Nat.eqb_spec nc 0) as [N0|N0].
      + dec. rewrite !in_co by lia. rewrite (@ix_co (n - 1)) by pl. unfold place_of. dec. fin T.
      + dec. rewrite hd_seq, last_seq by lia. dec. fin T.
  Qed.
End Cases.
