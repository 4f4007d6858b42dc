(** C69, part 6: winding; all the cases. *)
From Coq Require Import ZArith List Bool Lia Permutation.
From Verif Require Import Util GridModel PermLegsModel PermLegsSpec PermLegsProps PlanarModel PlanarSpec PlanarProofs1 PlanarProofs2 PlanarProofs3 PlanarProofs4 PlanarProofs5.
Import ListNotations.
Set Implicit Arguments. Unset Strict Implicit.
Open Scope nat_scope.

Lemma map_nth_range (l : list nat) a m : a + m <= length l -> map (fun i => nth i l 0) (seq a m) = firstn m (skipn a l).
Proof.
  intros L. assert (E := map_nth_seq_all l). apply (f_equal (fun l' => firstn m (skipn a l'))) in E. rewrite skipn_map, firstn_map, skipn_seq, firstn_seq, Nat.min_l in E by lia. exact E.
Qed.
Lemma filter_length_app A (f : A -> bool) l l' : length (filter f (l ++ l')) = length (filter f l) + length (filter f l').
Proof. now rewrite filter_app, app_length. Qed.

Section Winding.
  Variables (nc nd k c : nat) (co dom : list nat).
  Let n := nc + nd.
  Hypothesis Hk : k < n.
  Hypothesis Hc : c <= n.
  Hypothesis CUT : cut n k c co (rev dom).
  Ltac pl := unfold place_of in *; repeat match goal with |- context [if ?a <? ?b then _ else _] => destruct (Nat.ltb_spec a b) | H : context [if ?a <? ?b then _ else _] |- _ => destruct (Nat.ltb_spec a b) end; try lia.

  Lemma case_A3 : k < nc -> n < k + c -> @good_calls nc nd co dom.
  Proof.
    intros K E. unfold good_calls, permute_calls. cbv zeta.
    rewrite (@no_dw nc nd k c co dom Hk Hc CUT) by (fold n; lia). fold n.
    assert (AE : co = seq k (n - k) ++ seq 0 (k + c - n) /\ rev dom = seq (k + c - n) (n - c)) by (destruct CUT as [(X & _)|(_ & X & Y)]; [lia|now split]).
    set (dont := k + c - n) in *.
    assert (E1 : length (filter (contains co) (seq 0 nc)) = dont + (nc - k)).
    { replace nc with (dont + ((n - c) + (nc - k))) at 1 by lia. rewrite !seq_app, !filter_length_app. rewrite filter_all, filter_none, filter_all.
      - rewrite !seq_length. cbn [length]. lia.
      - intros x I. apply in_seq in I. rewrite (@in_co nc nd k c co dom Hk Hc CUT) by (fold n; lia). apply Nat.ltb_lt. fold n. pl.
      - intros x I. apply in_seq in I. rewrite (@in_co nc nd k c co dom Hk Hc CUT) by (fold n; lia). apply Nat.ltb_ge. fold n. pl.
      - intros x I. apply in_seq in I. rewrite (@in_co nc nd k c co dom Hk Hc CUT) by (fold n; lia). apply Nat.ltb_lt. fold n. pl. }
    rewrite E1. rewrite !(@in_co nc nd k c co dom Hk Hc CUT) by (fold n; lia). rewrite !(@ix_co nc nd k c co dom Hk Hc CUT) by (fold n; pl). fold n.
    assert (LA : last co 0 = dont - 1). { destruct AE as [-> _]. replace (seq 0 dont) with (seq 0 (dont - 1) ++ [dont - 1]); [now rewrite app_assoc, last_last|]. replace dont with ((dont - 1) + 1) at 3 by lia. now rewrite seq_app. }
    rewrite LA. unfold place_of. dec.
    eexists. split; [reflexivity|].
    apply (@two_achieves nc nd (range 0 (dont - 1 + 1)) (reversed_range (dont - 1 + 1) n) true
      (range (dont - 1 + 1 + (nc - (dont + (nc - k)))) n ++ range 0 (dont - 1 + 1)) (reversed_range (dont - 1 + 1) (nc - (nc - 1 - k + 1))) false co dom
      0 dont (nc - dont) 0 nd 0 0 dont 0 0 (n - c) (n - k)); unfold reversed_range, range; rewrite ?rev_involutive, ?rev_length, ?seq_length; try lia; try (split; lia).
    - cbn [seq app]. rewrite app_nil_r. f_equal; lia.
    - cbn [seq app plus]. rewrite app_nil_r. replace (n - (dont - 1 + 1)) with ((nc - dont) + nd) by lia. rewrite seq_app. f_equal; f_equal; lia.
    - cbn [seq app plus]. rewrite app_nil_r. f_equal; f_equal; lia.
    - cbn [seq app plus]. rewrite app_nil_r. f_equal; lia.
    - destruct AE as [-> _]. replace (dont - 1 + 1 - 0) with dont by lia. replace (dont - 1 + 1) with dont by lia.
      rewrite (@map_name0 dont (n - dont)); [f_equal; f_equal; lia|]. apply Forall_app. split; apply Forall_seq; lia.
    - rewrite <- (rev_involutive dom). destruct AE as [_ ->]. replace (dont - 1 + 1 - 0) with dont by lia. replace (dont - 1 + 1) with dont by lia.
      rewrite (@map_name0 dont (n - dont)); [f_equal; f_equal; lia|]. apply Forall_rev, Forall_seq. lia.
  Qed.

  Lemma case_B1a : nc < k -> k + c < n -> @good_calls nc nd co dom.
  Proof.
    intros K E. unfold good_calls, permute_calls. cbv zeta.
    rewrite (@no_cw nc nd k c co dom Hk Hc CUT) by (fold n; lia). fold n.
    assert (AE : co = seq k c /\ rev dom = seq (k + c) (n - (k + c)) ++ seq 0 k) by (destruct CUT as [(_ & X & Y)|(X & _)]; [now split|lia]).
    assert (E0 : filter (contains co) (seq 0 nc) = []).
    { apply filter_none. intros x I. apply in_seq in I. rewrite (@in_co nc nd k c co dom Hk Hc CUT) by (fold n; lia). apply Nat.ltb_ge. fold n. pl. }
    assert (E1 : length (filter (fun i => contains dom (n - 1 - i)) (seq 0 nd)) = (n - (k + c)) + (k - nc)).
    { replace nd with ((n - (k + c)) + (c + (k - nc))) at 1 by lia. rewrite !seq_app, !filter_length_app. rewrite filter_all, filter_none, filter_all.
      - rewrite !seq_length. cbn [length]. lia.
      - intros x I. apply in_seq in I. rewrite (@in_dom nc nd k c co dom Hk Hc CUT) by (fold n; lia). apply Nat.leb_le. fold n. pl.
      - intros x I. apply in_seq in I. rewrite (@in_dom nc nd k c co dom Hk Hc CUT) by (fold n; lia). apply Nat.leb_gt. fold n. pl.
      - intros x I. apply in_seq in I. rewrite (@in_dom nc nd k c co dom Hk Hc CUT) by (fold n; lia). apply Nat.leb_le. fold n. pl. }
    rewrite E0, E1. cbn [length]. rewrite !(@in_dom nc nd k c co dom Hk Hc CUT) by (fold n; lia). rewrite !(@ix_dom nc nd k c co dom Hk Hc CUT) by (fold n; pl). fold n.
    assert (HD : hd 0 dom = k - 1). { rewrite <- (rev_involutive dom). destruct AE as [_ ->]. replace k with ((k - 1) + 1) at 3 by lia. rewrite seq_app. cbn [seq plus]. now rewrite app_assoc, rev_app_distr. }
    assert (LD : length dom = n - c) by (exact (@Ldom nc nd k c co dom Hk Hc CUT)).
    rewrite HD, LD. unfold place_of. dec. rewrite ?andb_false_r. cbn [andb]. dec.
    eexists. split; [reflexivity|].
    replace (nc + (k - 1 + 1 - nc)) with k by lia. replace (nd - (n - (k + c) + (k - nc))) with c by lia.
    apply (@two_achieves nc nd (range k n ++ range 0 nc) (reversed_range nc k) false (range 0 c) (reversed_range c n) true co dom
      0 nc 0 0 (k - nc) (n - k) 0 c (n - k + nc - c) 0 (k - nc) 0); unfold reversed_range, range; rewrite ?rev_involutive, ?app_length, ?rev_length, ?seq_length, ?Nat.sub_0_r; try lia; try (split; lia).
    - cbn [seq app plus]. rewrite app_nil_r. f_equal; f_equal; lia.
    - cbn [seq app plus]. rewrite app_nil_r. f_equal; lia.
    - cbn [seq app plus]. now rewrite app_nil_r.
    - cbn [seq app plus]. rewrite app_nil_r. replace (n - c) with ((n - k + nc - c) + (k - nc)) by lia. rewrite seq_app. f_equal; f_equal; lia.
    - destruct AE as [-> _]. unfold name. cbn [fst snd]. rewrite rev_involutive. rewrite map_nth_range by (rewrite !app_length, !seq_length; lia). cbn [skipn].
      rewrite <- app_assoc, firstn_app, firstn_seq, seq_length. replace (c - (n - k)) with 0 by lia. rewrite firstn_O, app_nil_r. f_equal; lia.
    - rewrite <- (rev_involutive dom). destruct AE as [_ ->]. rewrite map_rev. f_equal. unfold name. cbn [fst snd]. rewrite rev_involutive.
      rewrite map_nth_range by (rewrite !app_length, !seq_length; lia). rewrite firstn_all2 by (rewrite skipn_length, !app_length, !seq_length; lia).
      rewrite <- app_assoc, skipn_app, skipn_seq, seq_length. replace (c - (n - k)) with 0 by lia. rewrite skipn_O.
      assert (X : seq 0 k = seq 0 nc ++ seq nc (k - nc)). { replace k with (nc + (k - nc)) at 1 by lia. apply seq_app. }
      rewrite X. f_equal. f_equal. lia.
  Qed.
End Winding.

Lemma planar_calls nc nd co dom : planar (nc + nd) co dom -> @good_calls nc nd co dom.
Proof.
  intros P. destruct (Nat.eq_dec (nc + nd) 0) as [Z|NZ].
  - assert (nc = 0) by lia. assert (nd = 0) by lia. subst. destruct P as [k [L E]]. cbn [plus] in *. assert (k = 0) by lia. subst k. cbn in E. apply app_eq_nil in E. destruct E as [-> E].
    assert (dom = []) by (rewrite <- (rev_involutive dom), E; reflexivity). subst dom. exists []. split; [reflexivity|]. apply nil_achieves.
  - destruct (@planar_cut (nc + nd) co dom) as (k & Hk & Hc & CUT); [lia|exact P|]. set (c := length co) in *.
    destruct (Nat.lt_ge_cases k nc) as [K|K].
    + destruct (Nat.le_gt_cases (k + c) nc) as [E|E]; [exact (@case_A1 nc nd k c co dom Hk Hc CUT K E)|].
      destruct (Nat.le_gt_cases (k + c) (nc + nd)) as [E'|E']; [exact (@case_A2 nc nd k c co dom Hk Hc CUT K E E')|exact (@case_A3 nc nd k c co dom Hk Hc CUT K E')].
    + destruct (Nat.le_gt_cases (k + c) (nc + nd)) as [E|E].
      * destruct (Nat.eq_dec k nc) as [K1|K1]; [|destruct (Nat.eq_dec (k + c) (nc + nd)) as [K2|K2]].
        -- exact (@case_B1b nc nd k c co dom Hk Hc CUT K (or_introl K1) E).
        -- exact (@case_B1b nc nd k c co dom Hk Hc CUT K (or_intror K2) E).
        -- apply (@case_B1a nc nd k c co dom Hk Hc CUT); lia.
      * destruct (Nat.le_gt_cases (k + c) (nc + nd + nc)) as [E'|E'].
        -- exact (@case_B2 nc nd k c co dom Hk Hc CUT K E E').
        -- apply (@case_B3 nc nd k c co dom Hk Hc CUT); lia.
Qed.
