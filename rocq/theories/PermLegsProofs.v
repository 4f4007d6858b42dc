(** C22, part 1: sequences of neighbour swaps and the pairs they exchange. *)
From Coq Require Import ZArith List Bool Lia Permutation Sorted.
From Verif Require Import Util StableSort RowModel RowProofs GridModel GridProofs PermLegsModel PermLegsSpec.
Import ListNotations.
Set Implicit Arguments. Unset Strict Implicit.
Open Scope nat_scope.

Lemma firstn_S_nth A (d : A) (l : list A) n : n < length l -> firstn (S n) l = firstn n l ++ [nth n l d].
Proof.
  revert n; induction l as [|x l IH]; intros n H; cbn [length] in H; [lia|]. destruct n as [|n]; [reflexivity|].
  cbn [firstn nth app]. f_equal. apply IH. lia.
Qed.
(** the pairs exchanged by the swaps *)
Fixpoint log (l : list nat) (js : list nat) : list (nat * nat) :=
  match js with [] => [] | j :: t => (nth j l 0, nth (S j) l 0) :: log (swap_at j l) t end.

Lemma log_app a : forall l b, log l (a ++ b) = log l a ++ log (do_swaps l a) b.
Proof. induction a as [|j a IH]; intros l b; [reflexivity|]. cbn [app log]. rewrite IH. reflexivity. Qed.

Definition tr (j i : nat) : nat := if i =? j then S j else if i =? S j then j else i.
Lemma nth_swap_at A (d : A) j : forall l i, S j < length l -> nth i (swap_at j l) d = nth (tr j i) l d.
Proof.
  induction j as [|j IH]; intros l i H.
  - destruct l as [|x [|y l]]; cbn [length] in H; try lia. cbn [swap_at]. unfold tr. destruct i as [|[|i]]; reflexivity.
  - destruct l as [|x l]; cbn [length] in H; [lia|]. cbn [swap_at]. destruct i as [|i]; [reflexivity|]. cbn [nth].
    rewrite IH by lia. unfold tr. change (S i =? S j) with (i =? j). change (S i =? S (S j)) with (i =? S j).
    destruct (i =? j); [reflexivity|]. destruct (i =? S j); reflexivity.
Qed.
Lemma swap_at_mid A (l : list A) x y r : swap_at (length l) (l ++ x :: y :: r) = l ++ y :: x :: r.
Proof. rewrite <- (Nat.add_0_r (length l)). rewrite swap_at_app. reflexivity. Qed.
Lemma swap_at_perm A j : forall l : list A, Permutation (swap_at j l) l.
Proof.
  induction j as [|j IH]; intros l; destruct l as [|x l]; cbn [swap_at]; try reflexivity.
  - destruct l as [|y l]; [reflexivity|]. apply perm_swap.
  - now constructor.
Qed.
Lemma do_swaps_perm A js : forall l : list A, Permutation (do_swaps l js) l.
Proof. unfold do_swaps. induction js as [|j js IH]; intros l; cbn [fold_left]; [reflexivity|]. rewrite IH. apply swap_at_perm. Qed.
Lemma do_swaps_cons A (l : list A) j js : do_swaps l (j :: js) = do_swaps (swap_at j l) js.
Proof. reflexivity. Qed.

Lemma swap_at_map A B (f : A -> B) j : forall l, swap_at j (map f l) = map f (swap_at j l).
Proof.
  induction j as [|j IH]; intros l; destruct l as [|x l]; cbn [swap_at map]; try reflexivity.
  - destruct l; reflexivity.
  - now rewrite IH.
Qed.
Lemma do_swaps_map A B (f : A -> B) js : forall l, do_swaps (map f l) js = map f (do_swaps l js).
Proof. induction js as [|j js IH]; intros l; [reflexivity|]. rewrite !do_swaps_cons, swap_at_map. apply IH. Qed.
Lemma log_map (f : nat -> nat) js : forall l, Forall (fun j => S j < length l) js ->
  log (map f l) js = map (fun p => (f (fst p), f (snd p))) (log l js).
Proof.
  induction js as [|j js IH]; intros l H; [reflexivity|]. inversion H as [|? ? H1 H2]; subst. cbn [log map fst snd].
  rewrite !nth_map_lt with (d := 0) by lia. rewrite swap_at_map, IH; [reflexivity|]. now rewrite swap_at_length.
Qed.

(** moving one element *)
Lemma log_down m : forall l x r, log (l ++ m ++ x :: r) (rev (seq (length l) (length m))) = map (fun y => (y, x)) (rev m).
Proof.
  induction m as [|y m IH] using rev_ind; intros l x r; [reflexivity|].
  rewrite app_length. cbn [length]. rewrite Nat.add_1_r, seq_S, rev_app_distr, rev_app_distr. cbn [rev app map log].
  rewrite <- app_assoc. cbn [app]. f_equal.
  - rewrite app_assoc, <- app_length. rewrite nth_middle. rewrite app_nth2 by lia. replace (S (length (l ++ m)) - length (l ++ m)) with 1 by lia. reflexivity.
  - replace (swap_at (length l + length m) (l ++ m ++ y :: x :: r)) with (l ++ m ++ x :: y :: r).
    + apply IH.
    + rewrite (app_assoc l m (y :: x :: r)), <- app_length, swap_at_mid. now rewrite <- app_assoc.
Qed.
Lemma do_swaps_down' A (m : list A) l x r : do_swaps (l ++ m ++ x :: r) (rev (seq (length l) (length m))) = l ++ x :: m ++ r.
Proof.
  pose proof (do_swaps_down m l x r) as H. unfold swaps_down in H. replace (length l + length m - length l) with (length m) in H by lia. exact H.
Qed.
Lemma do_swaps_up A (m : list A) : forall l x r, do_swaps (l ++ x :: m ++ r) (seq (length l) (length m)) = l ++ m ++ x :: r.
Proof.
  induction m as [|y m IH]; intros l x r; [reflexivity|]. cbn [length seq app]. rewrite do_swaps_cons, swap_at_mid.
  specialize (IH (l ++ [y]) x r). rewrite app_length in IH. cbn [length] in IH. rewrite Nat.add_1_r in IH. rewrite <- !app_assoc in IH. exact IH.
Qed.
Lemma log_up m : forall l x r, log (l ++ x :: m ++ r) (seq (length l) (length m)) = map (fun y => (x, y)) m.
Proof.
  induction m as [|y m IH]; intros l x r; [reflexivity|]. cbn [length seq app log map]. rewrite swap_at_mid. f_equal.
  - rewrite nth_middle. rewrite app_nth2 by lia. replace (S (length l) - length l) with 1 by lia. reflexivity.
  - specialize (IH (l ++ [y]) x r). rewrite app_length in IH. cbn [length] in IH. rewrite Nat.add_1_r in IH. rewrite <- !app_assoc in IH. exact IH.
Qed.

(** ** before *)
Lemma before_iff l a b : before l a b <-> exists i k, i < k < length l /\ nth i l 0 = a /\ nth k l 0 = b.
Proof.
  split.
  - intros [l1 [l2 [l3 ->]]]. exists (length l1), (length l1 + S (length l2)). repeat split.
    + lia.
    + rewrite app_length. cbn [length]. rewrite app_length. cbn [length]. lia.
    + apply nth_middle.
    + rewrite app_nth2_plus. cbn [nth]. apply nth_middle.
  - intros [i [k [[H1 H2] [H3 H4]]]].
    assert (Hi : i < length l) by lia. destruct (nth_split l 0 Hi) as [l1 [l' [E L]]]. rewrite H3 in E.
    assert (Ek : nth (k - S i) l' 0 = b). { rewrite <- H4, E. rewrite app_nth2 by lia. replace (k - length l1) with (S (k - S i)) by lia. reflexivity. }
    assert (Hk : k - S i < length l'). { rewrite E, app_length in H2. cbn [length] in H2. lia. }
    destruct (nth_split l' 0 Hk) as [l2 [l3 [E' L']]]. rewrite Ek in E'. exists l1, l2, l3. congruence.
Qed.
Lemma before_app_lr l1 l2 a b : In a l1 -> In b l2 -> before (l1 ++ l2) a b.
Proof.
  intros Ha Hb. apply in_split in Ha, Hb. destruct Ha as [x [y ->]], Hb as [z [w ->]]. exists x, (y ++ z), w.
  rewrite <- !app_assoc. cbn [app]. reflexivity.
Qed.
Lemma before_app_l l1 l2 a b : before l1 a b -> before (l1 ++ l2) a b.
Proof. intros [x [y [z ->]]]. exists x, y, (z ++ l2). rewrite <- app_assoc. cbn [app]. rewrite <- app_assoc. reflexivity. Qed.
Lemma before_app_r l1 l2 a b : before l2 a b -> before (l1 ++ l2) a b.
Proof. intros [x [y [z ->]]]. exists (l1 ++ x), y, z. now rewrite <- app_assoc. Qed.
Lemma before_cons x l a b : before l a b -> before (x :: l) a b.
Proof. apply (@before_app_r [x]). Qed.
Lemma before_hd a b l : In b l -> before (a :: l) a b.
Proof. intros H. apply (@before_app_lr [a]); [now left|easy]. Qed.
Lemma before_inv l1 l2 a b : before (l1 ++ l2) a b -> before l1 a b \/ (In a l1 /\ In b l2) \/ before l2 a b.
Proof.
  rewrite !before_iff. intros [i [k [[H1 H2] [H3 H4]]]]. rewrite app_length in H2. destruct (Nat.lt_ge_cases k (length l1)) as [L|L].
  - left. exists i, k. rewrite app_nth1 in H3, H4 by lia. easy.
  - rewrite app_nth2 in H4 by lia. destruct (Nat.lt_ge_cases i (length l1)) as [L'|L'].
    + right. left. rewrite app_nth1 in H3 by lia. subst. split; apply nth_In; lia.
    + right. right. rewrite app_nth2 in H3 by lia. exists (i - length l1), (k - length l1). split; [lia|easy].
Qed.
Lemma before_In l a b : before l a b -> In a l /\ In b l.
Proof. intros [x [y [z ->]]]. split; apply in_or_app; right; [now left|]. right. apply in_or_app. right. now left. Qed.
Lemma before_filter f l a b : before l a b -> f a = true -> f b = true -> before (filter f l) a b.
Proof.
  intros [x [y [z ->]]] Ha Hb. rewrite filter_app. cbn [filter]. rewrite Ha, filter_app. cbn [filter]. rewrite Hb. now exists (filter f x), (filter f y), (filter f z).
Qed.
Lemma before_unfilter f : forall l a b, before (filter f l) a b -> before l a b.
Proof.
  induction l as [|x l IH]; intros a b H; [exact H|]. cbn [filter] in H. destruct (f x).
  - change (x :: filter f l) with ([x] ++ filter f l) in H. apply before_inv in H. destruct H as [H|[[H1 H2]|H]].
    + apply before_iff in H. destruct H as [i [k [[L1 L2] _]]]. cbn [length] in L2. lia.
    + destruct H1 as [->|[]]. apply before_hd. now apply filter_In in H2.
    + apply before_cons. auto.
  - apply before_cons. auto.
Qed.
Lemma before_asym l a b : NoDup l -> before l a b -> before l b a -> False.
Proof.
  rewrite !before_iff. intros ND [i [k [[H1 H2] [H3 H4]]]] [i' [k' [[H1' H2'] [H3' H4']]]].
  assert (k = i') by (apply (proj1 (NoDup_nth l 0) ND); congruence || lia).
  assert (i = k') by (apply (proj1 (NoDup_nth l 0) ND); congruence || lia). lia.
Qed.
Lemma before_total l a b : In a l -> In b l -> a <> b -> before l a b \/ before l b a.
Proof.
  intros Ha Hb N. apply (In_nth _ _ 0) in Ha. apply (In_nth _ _ 0) in Hb. destruct Ha as [i [Hi Ei]], Hb as [k [Hk Ek]].
  destruct (lt_eq_lt_dec i k) as [[L|L]|L]; [left|congruence|right]; apply before_iff; [exists i, k|exists k, i]; easy.
Qed.
Lemma before_seq s n a b : before (seq s n) a b <-> s <= a < b /\ b < s + n.
Proof.
  rewrite before_iff. rewrite seq_length. split.
  - intros [i [k [[H1 H2] [<- <-]]]]. rewrite !seq_nth by lia. lia.
  - intros H. exists (a - s), (b - s). rewrite !seq_nth by lia. lia.
Qed.
Lemma before_map (f : nat -> nat) l a b : before l a b -> before (map f l) (f a) (f b).
Proof. intros [x [y [z ->]]]. rewrite map_app. cbn [map]. rewrite map_app. now exists (map f x), (map f y), (map f z). Qed.
Lemma before_sorted R l a b : StronglySorted R l -> before l a b -> R a b.
Proof.
  intros S [x [y [z ->]]]. apply StronglySorted_app in S. destruct S as [_ [S _]]. inversion S as [|? ? _ F]; subst.
  rewrite Forall_forall in F. apply F. apply in_or_app. right. now left.
Qed.

(** a pair whose order changes is exchanged at some point *)
Lemma swap_at_exchanged l j a b : NoDup l -> S j < length l -> before l a b -> before (swap_at j l) b a -> a = nth j l 0 /\ b = nth (S j) l 0.
Proof.
  intros ND Hj H1 H2. rewrite before_iff in H1, H2. rewrite swap_at_length in H2.
  destruct H1 as [i [k [[L1 L2] [Ei Ek]]]], H2 as [i' [k' [[L1' L2'] [Ei' Ek']]]]. rewrite nth_swap_at in Ei', Ek' by lia.
  assert (T : forall x, x < length l -> tr j x < length l). { intros x Hx. unfold tr. destruct (Nat.eqb_spec x j); [lia|]. destruct (Nat.eqb_spec x (S j)); lia. }
  assert (A1 : tr j i' = k) by (apply (proj1 (NoDup_nth l 0) ND); [apply T; lia|lia|congruence]).
  assert (A2 : tr j k' = i) by (apply (proj1 (NoDup_nth l 0) ND); [apply T; lia|lia|congruence]).
  unfold tr in A1, A2. destruct (Nat.eqb_spec i' j), (Nat.eqb_spec i' (S j)), (Nat.eqb_spec k' j), (Nat.eqb_spec k' (S j)); subst; try lia; split; reflexivity.
Qed.
Lemma inverted_in_log js : forall l a b, NoDup l -> Forall (fun j => S j < length l) js -> before l a b -> before (do_swaps l js) b a -> In (a, b) (log l js).
Proof.
  induction js as [|j js IH]; intros l a b ND F H1 H2.
  - exfalso. exact (before_asym ND H1 H2).
  - inversion F as [|? ? F1 F2]; subst. rewrite do_swaps_cons in H2. cbn [log].
    assert (ND' : NoDup (swap_at j l)) by (apply (Permutation_NoDup (Permutation_sym (swap_at_perm j l))); exact ND).
    destruct (before_In H1) as [Ia Ib].
    assert (N : a <> b). { intros ->. exact (before_asym ND H1 H1). }
    assert (T : before (swap_at j l) a b \/ before (swap_at j l) b a).
    { apply before_total; [| |exact N]; apply (Permutation_in _ (Permutation_sym (swap_at_perm j l))); easy. }
    destruct T as [T|T].
    + right. apply IH; auto. now rewrite swap_at_length.
    + left. destruct (swap_at_exchanged ND F1 H1 T) as [-> ->]. reflexivity.
Qed.

(** ** The swaps of permutation_as_swaps exchange exactly the inverted pairs *)
Lemma move_skipn A (d : A) l t c : t <= c < length l -> skipn (S t) (move d l t c) = slice l t c ++ skipn (S c) l.
Proof.
  intros H. unfold move. rewrite skipn_app. rewrite skipn_all2 by (rewrite firstn_length; lia). cbn [app].
  rewrite firstn_length. replace (S t - Nat.min t (length l)) with 1 by lia. reflexivity.
Qed.
Lemma move_firstn A (d : A) l t c : t <= c < length l -> firstn (S t) (move d l t c) = firstn t l ++ [nth c l d].
Proof.
  intros H. unfold move. rewrite firstn_app. rewrite firstn_all2 by (rewrite firstn_length; lia).
  rewrite firstn_length. replace (S t - Nat.min t (length l)) with 1 by lia. reflexivity.
Qed.

Section SwapsLog.
  Variable N : nat.
  Variable p : list nat.
  Hypothesis Hp : is_perm N p.

  Definition loop_inv t (cp cur : list nat) : Prop :=
    t <= N - 1 /\ length cur = N /\ is_perm N cp /\ (forall x, x < N -> nth (nth x cp 0) cur 0 = x) /\ firstn t cur = firstn t p /\ StronglySorted lt (skipn t cur).
  Lemma loop_step t cp cur : loop_inv t cp cur -> t < N - 1 ->
    let c := nth (nth t p 0) cp 0 in t <= c < N /\ loop_inv (S t) (map (roll_entry t c) cp) (move 0 cur t c) /\ nth c cur 0 = nth t p 0.
  Proof.
    intros [I1 [I2 [I3 [I4 [I5 I6]]]]] Ht c. set (o := nth t p 0) in *. pose proof (is_perm_length Hp) as Lp.
    assert (Ho : o < N) by (apply is_perm_nth_lt; auto; lia). assert (Hc : c < N) by (apply is_perm_nth_lt; auto).
    assert (Ec : nth c cur 0 = o) by (apply I4; exact Ho).
    assert (Hct : t <= c).
    { destruct (le_lt_dec t c); auto. exfalso. assert (E : nth c p 0 = o).
      { rewrite <- Ec. rewrite <- (firstn_skipn t p), <- (firstn_skipn t cur), I5. rewrite !app_nth1 by (rewrite ?I5, firstn_length; lia). reflexivity. }
      unfold o in E. apply is_perm_nth_inj with (n := N) in E; auto; lia. }
    split; [lia|]. split; [|exact Ec]. repeat split.
    - lia.
    - rewrite move_length by lia. exact I2.
    - pose proof (is_perm_length I3) as Lcp. apply is_perm_intro.
      + now rewrite map_length.
      + apply NoDup_map_inj; [|eapply is_perm_NoDup; eauto]. intros x y Hx Hy. unfold roll_entry.
        destruct (Nat.leb_spec t x), (Nat.leb_spec t y), (Nat.ltb_spec x c), (Nat.ltb_spec y c), (Nat.eqb_spec x c), (Nat.eqb_spec y c); simpl; lia.
      + apply Forall_forall. intros y Hy. apply in_map_iff in Hy. destruct Hy as [x [<- Hx]].
        apply (is_perm_In _ I3) in Hx. unfold roll_entry. destruct (Nat.leb_spec t x), (Nat.ltb_spec x c), (Nat.eqb_spec x c); simpl; lia.
    - intros x Hx. pose proof (is_perm_length I3) as Lcp. rewrite nth_map_lt with (d := 0) by lia. rewrite move_nth; [now apply I4|lia|]. rewrite I2. apply is_perm_nth_lt; auto.
    - rewrite move_firstn by lia. rewrite Ec, I5. unfold o. rewrite (firstn_S_nth 0) by lia. reflexivity.
    - rewrite move_skipn by lia. rewrite (list_split3 0 (l := cur) (t := t) (c := c)) in I6 by lia.
      rewrite skipn_app in I6. rewrite skipn_all2 in I6 by (rewrite firstn_length; lia). cbn [app] in I6. rewrite firstn_length in I6.
      replace (t - Nat.min t (length cur)) with 0 in I6 by lia. cbn [skipn] in I6.
      apply StronglySorted_app in I6. destruct I6 as [S1 [S2 S3]]. apply StronglySorted_app. inversion S2 as [|? ? S4 S5]; subst. split; [exact S1|]. split; [exact S4|].
      intros x y Hx Hy. apply S3; [exact Hx|]. now right.
  Qed.

  Lemma loop_inv_before t cp cur : loop_inv t cp cur -> t < N - 1 -> forall y, In y (slice cur t (nth (nth t p 0) cp 0)) ->
    y < nth t p 0 /\ before p (nth t p 0) y.
  Proof.
    intros I Ht y Hy. destruct (loop_step I Ht) as [Hc [_ Ec]]. destruct I as [I1 [I2 [I3 [I4 [I5 I6]]]]]. set (o := nth t p 0) in *. set (c := nth o cp 0) in *.
    pose proof (is_perm_length Hp) as Lp. pose proof (is_perm_length I3) as Lcp.
    apply (In_nth _ _ 0) in Hy. rewrite slice_length in Hy by lia. destruct Hy as [i [Hi Ey]]. rewrite nth_slice in Ey by lia.
    assert (Hlt : y < o).
    { rewrite <- Ec, <- Ey. apply (@before_sorted lt (skipn t cur)); [exact I6|]. apply before_iff. exists i, (c - t).
      rewrite skipn_length, !nth_skipn'. replace (t + (c - t)) with c by lia. repeat split; lia. }
    split; [exact Hlt|].
    assert (exists j, j < N /\ nth j cp 0 = t + i) as [z [Hz Ez]] by (apply (is_perm_surj I3); lia).
    assert (Yz : y = z). { rewrite <- Ey, <- Ez. now apply I4. }
    subst z. assert (exists j, j < N /\ nth j p 0 = y) as [k [Hk Ek]] by (apply (is_perm_surj Hp); lia).
    apply before_iff. exists t, k. repeat split; try lia. destruct (lt_eq_lt_dec t k) as [[L|L]|L]; [exact L| |]; exfalso.
    - subst k. unfold o in Hlt. lia.
    - assert (E : nth k cur 0 = y).
      { rewrite <- Ek. rewrite <- (nth_firstn_lt 0 (n := t) p), <- I5, nth_firstn_lt by lia. reflexivity. }
      assert (exists j, j < N /\ nth j cp 0 = k) as [z [Hz' Ez']] by (apply (is_perm_surj I3); lia). assert (y = z). { rewrite <- E, <- Ez'. now apply I4. } subst z. lia.
  Qed.

  Lemma swaps_loop_log n : forall t cp cur, loop_inv t cp cur -> t + n = N - 1 ->
    Forall (fun j => t <= j /\ S j < N) (swaps_loop n t p cp) /\
    forall a b, In (a, b) (log cur (swaps_loop n t p cp)) -> a < b /\ before p b a.
  Proof.
    induction n as [|n IH]; intros t cp cur I Htn.
    - split; [constructor|]. intros a b [].
    - assert (Ht : t < N - 1) by lia. pose proof (loop_inv_before I Ht) as LB. destruct (loop_step I Ht) as [Hc [I' Ec]]. cbn [swaps_loop].
      set (c := nth (nth t p 0) cp 0) in *. assert (Lc : length cur = N) by apply I.
      destruct (IH _ _ _ I') as [F LL]; [lia|]. split.
      + apply Forall_app. split.
        * apply Forall_forall. intros j Hj. unfold swaps_down in Hj. apply in_rev in Hj. apply in_seq in Hj. lia.
        * revert F. apply Forall_impl. intros j Hj. lia.
      + intros a b. rewrite log_app. rewrite (do_swaps_move 0) by lia. intros Hab. apply in_app_or in Hab. destruct Hab as [Hab|Hab]; [|now apply LL].
        rewrite (list_split3 0 (l := cur) (t := t) (c := c)) in Hab by lia. unfold swaps_down in Hab.
        pose proof (log_down (slice cur t c) (firstn t cur) (nth c cur 0) (skipn (S c) cur)) as LD.
        rewrite firstn_length, slice_length in LD by lia. replace (Nat.min t (length cur)) with t in LD by lia. rewrite LD in Hab.
        apply in_map_iff in Hab. destruct Hab as [y [E Hy]]. injection E as <- <-. apply in_rev in Hy. rewrite Ec. now apply LB.
  Qed.

  Lemma loop_inv_start c : c <= N - 1 -> (forall k, k < c -> nth k p 0 = k) -> loop_inv c (seq 0 N) (seq 0 N).
  Proof.
    intros Hc Hf. pose proof (is_perm_length Hp) as Lp. repeat split.
    - exact Hc.
    - apply seq_length.
    - apply seq_is_perm.
    - intros x Hx. rewrite !seq_nth by (rewrite ?seq_nth; lia). lia.
    - apply list_eq_nth with (d := 0); rewrite !firstn_length, ?seq_length; [lia|]. intros k Hk. rewrite !nth_firstn_lt by lia. rewrite seq_nth by lia. rewrite Hf by lia. lia.
    - replace (seq 0 N) with (seq 0 c ++ seq c (N - c)) by (rewrite <- seq_app; f_equal; lia).
      rewrite skipn_app, skipn_all2 by (rewrite seq_length; lia). rewrite seq_length, Nat.sub_diag. apply seq_sorted.
  Qed.
  Lemma swaps_loop_fix c : (forall k, k < c -> nth k p 0 = k) -> forall n t, t <= c -> t + n = N - 1 ->
    Forall (fun j => c <= j /\ S j < N) (swaps_loop n t p (seq 0 N)).
  Proof.
    intros Hf. induction n as [|n IH]; intros t Htc Htn; [constructor|]. destruct (Nat.eq_dec t c) as [->|D].
    - apply (@swaps_loop_log (S n) c (seq 0 N) (seq 0 N)); [|lia]. apply loop_inv_start; [lia|exact Hf].
    - cbn [swaps_loop]. rewrite Hf by lia. rewrite seq_nth by lia. cbn [plus]. unfold swaps_down at 1. rewrite Nat.sub_diag. cbn [seq rev app].
      rewrite (map_ext (roll_entry t t) (fun x => x)), map_id; [apply IH; lia|].
      intros x. unfold roll_entry. destruct (Nat.leb_spec t x), (Nat.ltb_spec x t), (Nat.eqb_spec x t); cbn [andb]; lia.
  Qed.
End SwapsLog.

Lemma as_swaps N p js : is_perm N p -> permutation_as_swaps p = Some js -> forall c, (forall k, k < c -> nth k p 0 = k) -> Forall (fun j => c <= j /\ S j < N) js.
Proof.
  intros Hp E c Hc. unfold permutation_as_swaps in E. destruct (is_perm_check p); [|discriminate]. injection E as <-. rewrite (is_perm_length Hp).
  apply (swaps_loop_fix Hp Hc); lia.
Qed.
Lemma as_swaps_exists N p : is_perm N p -> exists js, permutation_as_swaps p = Some js.
Proof. intros H. unfold permutation_as_swaps. rewrite (proj2 (is_perm_check_spec p)); [eexists; reflexivity|]. now rewrite (is_perm_length H). Qed.
(** the exchanged pairs of a list *)
Lemma as_swaps_log l p js a b : is_perm (length l) p -> permutation_as_swaps p = Some js -> In (a, b) (log l js) -> inverted l (do_swaps l js) a b.
Proof.
  intros Hp E H. rewrite (permutation_as_swaps_correct 0 Hp E). set (N := length l) in *.
  assert (F : Forall (fun j => S j < N) js). { apply (Forall_impl _ (P := fun j => 0 <= j /\ S j < N)); [intros; lia|]. apply (as_swaps Hp E). lia. }
  assert (El : l = map (fun i => nth i l 0) (seq 0 N)) by (symmetry; apply take_seq).
  rewrite El in H. rewrite log_map in H by (rewrite seq_length; exact F). apply in_map_iff in H. destruct H as [[x y] [E1 H]]. cbn [fst snd] in E1. injection E1 as <- <-.
  assert (S : x < y /\ before p y x).
  { unfold permutation_as_swaps in E. destruct (is_perm_check p); [|discriminate]. injection E as <-. rewrite (is_perm_length Hp) in H.
    apply (swaps_loop_log Hp (n := N - 1) (t := 0)) in H; [exact H| |lia]. apply loop_inv_start; [exact Hp|lia|lia]. }
  destruct S as [S1 S2]. split.
  - rewrite El at 1. apply (before_map (fun i => nth i l 0)). apply before_seq. apply before_In in S2. destruct S2 as [S2 _]. apply (is_perm_In _ Hp) in S2. lia.
  - unfold take. now apply (before_map (fun i => nth i l 0)).
Qed.
Lemma do_swaps_app_l A js : forall (l r : list A), Forall (fun j => S j < length l) js -> do_swaps (l ++ r) js = do_swaps l js ++ r.
Proof.
  assert (SW : forall j (l r : list A), S j < length l -> swap_at j (l ++ r) = swap_at j l ++ r).
  { induction j as [|j IH]; intros l r H; destruct l as [|x l]; cbn [length] in H; try lia; cbn [app swap_at].
    - destruct l as [|y l]; cbn [length] in H; [lia|]. reflexivity.
    - cbn [app]. f_equal. apply IH. lia. }
  induction js as [|j js IH]; intros l r F; [reflexivity|]. inversion F as [|? ? F1 F2]; subst. rewrite !do_swaps_cons, SW by exact F1. apply IH. now rewrite swap_at_length.
Qed.
Lemma log_app_l js : forall l r, Forall (fun j => S j < length l) js -> log (l ++ r) js = log l js.
Proof.
  induction js as [|j js IH]; intros l r F; [reflexivity|]. inversion F as [|? ? F1 F2]; subst. cbn [log].
  rewrite !app_nth1 by lia. f_equal. pose proof (do_swaps_app_l (js := [j]) (l := l) r) as X. unfold do_swaps in X. cbn [fold_left] in X. rewrite X by (constructor; [exact F1|constructor]).
  apply IH. now rewrite swap_at_length.
Qed.
