(** Lemmas for C74: what is bent, and where the groups are afterwards. *)
From Coq Require Import List Bool Arith Lia Permutation.
From Verif Require Import Util PlanarModel PlanarSpec PlanarProofs1 PlanarProofs4 PlanarProofs7 PcombModel PcombSpec PcombProofs1.
Import ListNotations.
Set Implicit Arguments. Unset Strict Implicit.
Open Scope nat_scope.

(** the three kinds of groups *)
Definition kind_r (nc n : nat) (s : list nat) : Prop := exists a m, s = seq a m /\ a < nc < a + m /\ a + m <= n.
Definition kind_l (nc n : nat) (s : list nat) : Prop := exists a b, s = seq a (n - a) ++ seq 0 b /\ 0 < b <= nc /\ nc <= a /\ a < n /\ b < a.
Definition kind_o (nc n : nat) (s : list nat) : Prop := exists a m, s = seq a m /\ 0 < m /\ a + m <= n /\ (a + m <= nc \/ nc <= a).
Definition cls (nc n : nat) (g s : list nat) : Prop :=
  (at_right nc g = true /\ kind_r nc n s) \/ (at_right nc g = false /\ at_left n g = true /\ kind_l nc n s) \/ (at_right nc g = false /\ at_left n g = false /\ kind_o nc n s).
Lemma classify nc nd g s : Permutation s g -> arc_shape (nc + nd) s -> (around_the_left (nc + nd) g -> 0 < nc /\ 0 < nd /\ ~ around_the_right nc g) -> cls nc (nc + nd) g s.
Proof.
  intros P SH H. assert (IN : forall x, In x g <-> In x s) by (intros x; split; [apply Permutation_in; now apply Permutation_sym|now apply Permutation_in]).
  assert (RI : at_right nc g = true <-> 0 < nc /\ around_the_right nc g) by apply at_right_spec. assert (LE : at_left (nc + nd) g = true <-> around_the_left (nc + nd) g) by apply at_left_spec.
  unfold around_the_right, around_the_left in *. rewrite !IN in *. destruct SH as [(a & m & M & AM & ->)|(a & b & B & A & ->)].
  - rewrite !in_seq in *. unfold cls. destruct (at_right nc g) eqn:R.
    + left. split; [reflexivity|]. exists a, m. destruct (proj1 RI eq_refl) as (X & Y & Z). repeat split; lia.
    + right. destruct (at_left (nc + nd) g) eqn:L.
      * exfalso. destruct (proj1 LE eq_refl) as (X & Y). destruct (H (conj X Y)) as (Z1 & Z2 & Z3). apply Z3. lia.
      * right. repeat split; auto. exists a, m. split; [reflexivity|]. split; [lia|]. split; [lia|]. destruct (le_lt_dec (a + m) nc); [now left|]. destruct (le_lt_dec nc a); [now right|]. exfalso.
        assert (false = true); [|discriminate]. apply RI. lia.
  - rewrite !in_app_iff, !in_seq in *. assert (X : (a <= 0 < a + (nc + nd - a) \/ 0 <= 0 < 0 + b) /\ (a <= nc + nd - 1 < a + (nc + nd - a) \/ 0 <= nc + nd - 1 < 0 + b)) by lia.
    destruct (H X) as (Z1 & Z2 & Z3). unfold cls. right. left. split; [|split].
    + destruct (at_right nc g); [|reflexivity]. exfalso. apply Z3. now apply RI.
    + now apply LE.
    + exists a, b. split; [reflexivity|]. destruct (le_lt_dec b nc); [|exfalso; apply Z3; lia]. destruct (le_lt_dec nc a); [|exfalso; apply Z3; lia]. lia.
Qed.

Lemma firstn_rev_seq c k m : c <= m -> firstn c (rev (seq k m)) = rev (seq (k + m - c) c).
Proof. intros C. replace m with ((m - c) + c) at 1 by lia. rewrite seq_app, rev_app_distr, firstn_app, rev_length, seq_length, Nat.sub_diag. cbn [firstn]. rewrite app_nil_r, firstn_all2 by (rewrite rev_length, seq_length; lia). do 2 f_equal; lia. Qed.
Lemma skipn_rev_seq c k m : c <= m -> skipn c (rev (seq k m)) = rev (seq k (m - c)).
Proof. intros C. replace m with ((m - c) + c) at 1 by lia. rewrite seq_app, rev_app_distr, skipn_app, rev_length, seq_length, Nat.sub_diag. cbn [skipn]. rewrite skipn_all2 by (rewrite rev_length, seq_length; lia). reflexivity. Qed.

(** bending at the right *)
Definition first_in_codomain (nc : nat) (g : list nat) : Prop := hd 0 g < nc.
Definition split_ok (nc n p : nat) (g s : list nat) : Prop :=
  (forall x m, s = seq x m -> 0 < m -> (hd 0 g < nc -> x + m <= p) /\ (nc <= hd 0 g -> p <= x)) /\
  (forall a b, s = seq a (n - a) ++ seq 0 b -> 0 < b -> b < a -> a < n -> b <= p <= a).
Lemma seq_inj a m x k : seq a m = seq x k -> 0 < m -> a = x /\ m = k.
Proof. intros E M. assert (L : length (seq a m) = length (seq x k)) by now rewrite E. rewrite !seq_length in L. subst k. destruct m; [lia|]. cbn [seq] in E. injection E as -> _. auto. Qed.
Lemma wrap_not_seq n a b x m : seq a (n - a) ++ seq 0 b = seq x m -> 0 < b -> b < a -> a < n -> False.
Proof.
  intros E B1 B2 A. assert (L : length (seq a (n - a) ++ seq 0 b) = m) by (rewrite E; apply seq_length). rewrite app_length, !seq_length in L.
  assert (X : hd 0 (seq a (n - a) ++ seq 0 b) = a) by (destruct (n - a) eqn:Q; [lia|reflexivity]). rewrite E in X. destruct m; [lia|]. cbn in X. subst x.
  assert (Y : In 0 (seq a (S m))) by (rewrite <- E; apply in_app_iff; right; apply in_seq; lia). apply in_seq in Y. lia.
Qed.
Lemma wrap_inj n a b a' b' : seq a (n - a) ++ seq 0 b = seq a' (n - a') ++ seq 0 b' -> a < n -> a' < n -> a = a' /\ b = b'.
Proof.
  intros E A A'. assert (L : length (seq a (n - a) ++ seq 0 b) = length (seq a' (n - a') ++ seq 0 b')) by now rewrite E. rewrite !app_length, !seq_length in L.
  assert (X : hd 0 (seq a (n - a) ++ seq 0 b) = a) by (destruct (n - a) eqn:Q; [lia|reflexivity]). rewrite E in X. assert (X' : hd 0 (seq a' (n - a') ++ seq 0 b') = a') by (destruct (n - a') eqn:Q; [lia|reflexivity]). lia.
Qed.

Section Main.
Variable nc nd : nat.
Variable which ss : list (list nat).
Hypothesis HL : length ss = length which.
Hypothesis HG : forall i, i < length which -> nth i which [] <> [] /\ Permutation (nth i ss []) (nth i which []).
Hypothesis HC : forall i, i < length which -> cls nc (nc + nd) (nth i which []) (nth i ss []).
Hypothesis HD : forall i j x, i < length which -> j < length which -> In x (nth i ss []) -> In x (nth j ss []) -> i = j.

Lemma hd_in i : i < length which -> In (hd 0 (nth i which [])) (nth i ss []).
Proof. intros H. destruct (HG H) as [N P]. apply (Permutation_in _ (Permutation_sym P)). destruct (nth i which []); [contradiction|now left]. Qed.

Lemma right_step : exists p, p <= nc + nd /\
  bend_at_right nc (fst (find_corners nc (nc + nd) which)) ss (seq 0 nc) (rev (seq nc nd)) = POk (seq 0 p, rev (seq p (nc + nd - p))) /\
  forall i, i < length which -> split_ok nc (nc + nd) p (nth i which []) (nth i ss []).
Proof.
  destruct (corners nc (nc + nd) which) as [R _]. destruct (fst (find_corners nc (nc + nd) which)) as [[j d]|].
  - destruct R as (J & RJ & ->). destruct (HC J) as [[_ (a & m & ES & AM & MN)]|[[X _]|[X _]]]; [|congruence|congruence].
    pose proof (hd_in J) as HJ. rewrite ES in HJ. apply in_seq in HJ.
    assert (G : forall p, (p = if nc <=? hd 0 (nth j which []) then a else a + m) -> forall i, i < length which -> split_ok nc (nc + nd) p (nth i which []) (nth i ss [])).
    { intros p EP i I. pose proof (hd_in I) as HI. destruct (Nat.eq_dec i j) as [->|N].
      - split.
        + intros x k EX K. rewrite ES in EX. destruct (seq_inj EX) as [-> ->]; [lia|]. destruct (Nat.leb_spec nc (hd 0 (nth j which []))); lia.
        + intros a' b' EX B1 B2 A'. exfalso. rewrite ES in EX. symmetry in EX. exact (wrap_not_seq EX B1 B2 A').
      - assert (DJ : forall y, a <= y < a + m -> ~ In y (nth i ss [])).
        { intros y Y Z. apply N. apply (HD I J Z). rewrite ES. apply in_seq. lia. }
        split.
        + intros x k EX K. rewrite EX in DJ, HI. apply in_seq in HI.
          assert (x + k <= a \/ a + m <= x). { destruct (le_lt_dec (x + k) a); [now left|]. destruct (le_lt_dec (a + m) x); [now right|]. exfalso. destruct (le_lt_dec a x); [apply (DJ x); [lia|apply in_seq; lia]|apply (DJ a); [lia|apply in_seq; lia]]. }
          destruct (nc <=? hd 0 (nth j which [])); lia.
        + intros a' b' EX B1 B2 A'. rewrite EX in DJ.
          assert (b' <= a). { destruct (le_lt_dec b' a); [assumption|]. exfalso. apply (DJ a); [lia|]. apply in_app_iff. right. apply in_seq. lia. }
          assert (a + m <= a'). { destruct (le_lt_dec (a + m) a'); [assumption|]. exfalso. destruct (le_lt_dec a a'); [apply (DJ a'); [lia|apply in_app_iff; left; apply in_seq; lia]|apply (DJ a); [lia|apply in_app_iff; left; apply in_seq; lia]]. }
          destruct (nc <=? hd 0 (nth j which [])); lia. }
    unfold bend_at_right. rewrite ES, index_of_seq by lia. rewrite !seq_length, rev_length, seq_length. destruct (nc <=? hd 0 (nth j which [])).
    + exists a. split; [lia|]. split; [|now apply G]. destruct (Nat.ltb_spec nc (nc - 1 - a + 1)); [lia|]. rewrite firstn_seq, skipn_seq. do 2 f_equal; [f_equal; lia|].
      rewrite <- rev_app_distr. f_equal. replace (nc + nd - a) with ((nc - a) + nd) by lia. rewrite seq_app. f_equal; f_equal; lia.
    + exists (a + m). split; [lia|]. split; [|now apply G]. destruct (Nat.ltb_spec nd (m - (nc - 1 - a + 1))); [lia|]. rewrite skipn_rev_seq, firstn_rev_seq by lia. rewrite rev_involutive.
      do 2 f_equal; [|f_equal; f_equal; lia]. replace (a + m) with (nc + (a + m - nc)) by lia. rewrite seq_app. f_equal. f_equal; lia.
  - exists nc. split; [lia|]. split; [unfold bend_at_right; do 3 f_equal; f_equal; lia|]. intros i I. pose proof (hd_in I) as HI. rewrite Forall_forall in R. pose proof (R _ (nth_In which [] I)) as RI. split.
    + intros x m EX M. destruct (HC I) as [[X _]|[(_ & _ & a & b & E & B1 & B2 & A & B3)|(_ & _ & a & k & E & K & AK & O)]]; [congruence| |].
      * exfalso. rewrite E in EX. exact (wrap_not_seq EX (proj1 B1) B3 A).
      * rewrite E in EX, HI. destruct (seq_inj EX K) as [-> ->]. apply in_seq in HI. lia.
    + intros a b EX B1 B2 A. destruct (HC I) as [[X _]|[(_ & _ & a' & b' & E & B1' & B2' & A' & B3)|(_ & _ & a' & k & E & K & AK & O)]]; [congruence| |].
      * rewrite E in EX. destruct (wrap_inj EX A' A) as [-> ->]. lia.
      * exfalso. rewrite E in EX. symmetry in EX. exact (wrap_not_seq EX B1 B2 A).
Qed.

(** moving the names *)
Definition move (n k l : nat) : nat := (l + (n - k)) mod n.
Lemma move_low n k x m : x + m <= k -> k <= n -> map (move n k) (seq x m) = seq (x + n - k) m.
Proof. intros X K. revert x X. induction m as [|m IH]; intros x X; [reflexivity|]. cbn [seq map]. rewrite IH by lia. unfold move. rewrite Nat.mod_small by lia. f_equal; [lia|f_equal; lia]. Qed.
Lemma move_high n k x m : k <= x -> x + m <= n -> map (move n k) (seq x m) = seq (x - k) m.
Proof.
  intros X K. revert x X K. induction m as [|m IH]; intros x X K; [reflexivity|]. cbn [seq map]. rewrite IH by lia. unfold move. replace (x + (n - k)) with ((x - k) + 1 * n) by lia. rewrite Nat.mod_add by lia.
  rewrite Nat.mod_small by lia. f_equal. f_equal. lia.
Qed.
Lemma move_name n k l : k <= n -> l < n -> nth (move n k l) (seq k (n - k) ++ seq 0 k) 0 = l.
Proof.
  intros K L. unfold move. destruct (le_lt_dec k l).
  - replace (l + (n - k)) with ((l - k) + 1 * n) by lia. rewrite Nat.mod_add by lia. rewrite Nat.mod_small by lia. rewrite app_nth1 by (rewrite seq_length; lia). rewrite seq_nth by lia. lia.
  - rewrite Nat.mod_small by lia. rewrite app_nth2 by (rewrite seq_length; lia). rewrite seq_length, seq_nth by lia. lia.
Qed.

(** bending at the left, and the result *)
Lemma left_step p : p <= nc + nd -> (forall i, i < length which -> split_ok nc (nc + nd) p (nth i which []) (nth i ss [])) ->
  exists k co dom, k <= nc + nd /\ bend_at_left (nc + nd) (snd (find_corners nc (nc + nd) which)) ss (seq 0 p) (rev (seq p (nc + nd - p))) = POk (co, dom, map (map (move (nc + nd) k)) ss) /\
  co ++ rev dom = seq k (nc + nd - k) ++ seq 0 k /\ length co + length dom = nc + nd /\
  forall i, i < length which -> exists a, map (move (nc + nd) k) (nth i ss []) = seq a (length (nth i ss [])) /\
    (hd 0 (nth i which []) < nc -> a + length (nth i ss []) <= length co) /\ (nc <= hd 0 (nth i which []) -> length co <= a /\ a + length (nth i ss []) <= nc + nd).
Proof.
  intros PN SP. set (n := nc + nd) in *. destruct (corners nc n which) as [_ Lc]. destruct (snd (find_corners nc n which)) as [[j d]|].
  - destruct Lc as (J & RJ & LJ & ->). destruct (HC J) as [[X _]|[(_ & _ & a & b & ES & B1 & B2 & A & B3)|(_ & X & _)]]; [congruence| |fold n in X; congruence]. fold n in ES, A.
    destruct (SP j J) as [_ S2]. specialize (S2 a b ES (proj1 B1) B3 A). pose proof (hd_in J) as HJ. rewrite ES in HJ. apply in_app_iff in HJ. rewrite !in_seq in HJ.
    unfold bend_at_left. rewrite ES, index_of_app, contains_seq. replace ((a <=? n - 1) && (n - 1 <? a + (n - a))) with true by (symmetry; apply andb_true_iff; split; [apply Nat.leb_le|apply Nat.ltb_lt]; lia).
    rewrite index_of_seq by lia. rewrite app_length, !seq_length, rev_length, seq_length. replace (n - 1 - a + 1) with (n - a) by lia.
    assert (G : forall k co, (k = if nc <=? hd 0 (nth j which []) then b else a) -> (length co = if nc <=? hd 0 (nth j which []) then p - b else n - a + p) ->
      forall i, i < length which -> exists y, map (move n k) (nth i ss []) = seq y (length (nth i ss [])) /\
        (hd 0 (nth i which []) < nc -> y + length (nth i ss []) <= @length nat co) /\ (nc <= hd 0 (nth i which []) -> length co <= y /\ y + length (nth i ss []) <= n)).
    { intros k co EK EL i I. destruct (Nat.eq_dec i j) as [->|N].
      - rewrite ES. rewrite map_app, app_length, !seq_length. destruct (Nat.leb_spec nc (hd 0 (nth j which []))).
        + rewrite move_high, move_low by lia. exists (a - k). split; [|lia]. rewrite seq_app. f_equal. f_equal. lia.
        + rewrite move_high, move_low by lia. exists 0. split; [|lia]. rewrite seq_app. f_equal; f_equal; lia.
      - assert (DJ : forall y, (a <= y < n \/ y < b) -> ~ In y (nth i ss [])).
        { intros y Y Z. apply N. apply (HD I J Z). rewrite ES. apply in_app_iff. rewrite !in_seq. lia. }
        assert (SH : exists x m, nth i ss [] = seq x m /\ 0 < m /\ x + m <= n).
        { destruct (HC I) as [[_ (x & m & E & X & Y)]|[(_ & _ & x & y & E & Y1 & Y2 & Y3 & Y4)|(_ & _ & x & m & E & M & XM & _)]]; try fold n in E; try fold n in XM; try fold n in Y; try fold n in Y3.
          - exists x, m. repeat split; auto; lia.
          - exfalso. apply (DJ 0); [lia|]. rewrite E. apply in_app_iff. right. apply in_seq. lia.
          - exists x, m. auto. }
        destruct SH as (x & m & E & M & XM). destruct (SP i I) as [S1 _]. specialize (S1 x m E M). rewrite E in DJ |- *. rewrite seq_length.
        assert (b <= x). { destruct (le_lt_dec b x); [assumption|]. exfalso. apply (DJ x); [lia|apply in_seq; lia]. }
        assert (x + m <= a). { destruct (le_lt_dec (x + m) a); [assumption|]. exfalso. destruct (le_lt_dec a x); [apply (DJ x); [lia|apply in_seq; lia]|apply (DJ a); [lia|apply in_seq; lia]]. }
        destruct (nc <=? hd 0 (nth j which [])).
        + rewrite move_high by lia. exists (x - k). split; [reflexivity|]. lia.
        + rewrite move_low by lia. exists (x + n - k). split; [reflexivity|]. lia. }
    destruct (nc <=? hd 0 (nth j which [])).
    + replace (n - a + b - (n - a)) with b by lia. destruct (Nat.ltb_spec p b); [lia|]. exists b. eexists. eexists. split; [lia|]. split; [reflexivity|]. rewrite skipn_seq, firstn_seq, Nat.min_l by lia. rewrite rev_app_distr, !rev_involutive.
      split; [|split].
      * rewrite app_assoc. f_equal. replace (n - b) with ((p - b) + (n - p)) by lia. rewrite seq_app. f_equal. f_equal; lia.
      * rewrite app_length, !rev_length, !seq_length. lia.
      * apply G; [reflexivity|]. now rewrite seq_length.
    + destruct (Nat.ltb_spec (n - p) (n - a)); [lia|]. exists a. eexists. eexists. split; [lia|]. split; [unfold move; replace (n - a) with (n - a) by lia; reflexivity|].
      rewrite firstn_rev_seq, skipn_rev_seq by lia. rewrite !rev_involutive. split; [|split].
      * rewrite <- app_assoc. f_equal; [f_equal; lia|]. replace a with (p + (a - p)) at 2 by lia. rewrite seq_app. f_equal. f_equal; lia.
      * rewrite app_length, rev_length, !seq_length. lia.
      * apply G; [reflexivity|]. rewrite app_length, !seq_length. reflexivity.
  - exists 0. eexists. eexists. split; [lia|]. rewrite Forall_forall in Lc.
    assert (SH : forall i, i < length which -> exists x m, nth i ss [] = seq x m /\ 0 < m /\ x + m <= n).
    { intros i I. pose proof (Lc _ (nth_In which [] I)) as LI. destruct (HC I) as [[_ (x & m & E & X & Y)]|[(R & L & _)|(_ & _ & x & m & E & M & XM & _)]]; try fold n in E; try fold n in XM; try fold n in Y; try fold n in Y3.
      - exists x, m. repeat split; auto; lia.
      - rewrite (LI R) in L. discriminate.
      - exists x, m. auto. }
    assert (ID : forall s, In s ss -> map (move n 0) s = s).
    { intros s S. destruct (In_nth _ _ [] S) as (i & I & <-). rewrite HL in I. destruct (SH i I) as (x & m & E & M & XM). rewrite E, move_high by lia. now rewrite Nat.sub_0_r. }
    split; [unfold bend_at_left; do 2 f_equal; symmetry; rewrite <- (map_id ss) at 2; apply map_ext_in; exact ID|]. rewrite rev_involutive, rev_length, !seq_length. cbn [seq]. rewrite app_nil_r, Nat.sub_0_r. split; [|split].
    + replace n with (p + (n - p)) at 2 by lia. now rewrite seq_app.
    + lia.
    + intros i I. destruct (SH i I) as (x & m & E & M & XM). destruct (SP i I) as [S1 _]. specialize (S1 x m E M). exists x. rewrite ID by (apply nth_In; lia). rewrite E, seq_length. split; [reflexivity|]. lia.
Qed.
End Main.
