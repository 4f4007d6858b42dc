From Verif Require Import Util StableSort RowModel RowProofs GridModel.
Set Implicit Arguments. Unset Strict Implicit.

(** ** mixed radix arithmetic *)
Fixpoint fval (r shape : list nat) : nat :=
  match r, shape with
  | i :: r', n :: t => i + n * fval r' t
  | _, _ => 0
  end.

Lemma dot_fstrides shape : forall r s, length r = length shape -> dot r (fstrides s shape) = s * fval r shape.
Proof.
  induction shape as [|n t IH]; destruct r; simpl; intros s H; try discriminate; try lia.
  rewrite IH by lia. nia.
Qed.
Lemma fstrides_length shape : forall s, length (fstrides s shape) = length shape.
Proof. induction shape; simpl; auto. Qed.
Lemma make_stride_length shape c : length (make_stride shape c) = length shape.
Proof. destruct c; simpl; [rewrite rev_length|]; rewrite fstrides_length; auto. apply rev_length. Qed.

Lemma valid_length shape r : valid_idx shape r -> length r = length shape.
Proof. induction 1; simpl; auto. Qed.

Lemma fval_lt shape r : valid_idx shape r -> fval r shape < prod shape.
Proof. induction 1; simpl; [lia|]. unfold prod in *. simpl. nia. Qed.

Lemma fval_inj shape : forall r r', valid_idx shape r -> valid_idx shape r' -> fval r shape = fval r' shape -> r = r'.
Proof.
  induction shape as [|n t IH]; intros r r' H H' E; inversion H; inversion H'; subst; auto.
  simpl in E.
  assert (x = x0 /\ fval l t = fval l0 t).
  { assert (x = x0). { assert ((x + n * fval l t) mod n = (x0 + n * fval l0 t) mod n) by now rewrite E.
      rewrite !(Nat.mul_comm n), !Nat.mod_add, !Nat.mod_small in H0 by lia. exact H0. }
    split; auto. subst. nia. }
  destruct H0; subst. f_equal. now apply IH.
Qed.

(** entry n of the decoded number *)
Lemma fval_entry shape : forall r s n m, valid_idx shape r -> 0 < s -> n < length shape -> m < s ->
  ((m + s * fval r shape) / nth n (fstrides s shape) 0) mod nth n shape 0 = nth n r 0.
Proof.
  induction shape as [|k t IH]; intros r s n m H Hs Hn Hm; [simpl in Hn; lia|].
  inversion H as [|i ? r' ? Hi Hr]; subst. destruct n as [|n]; simpl.
  - rewrite (Nat.add_comm m), (Nat.mul_comm s), Nat.div_add_l by lia. rewrite (Nat.div_small m) by lia.
    rewrite Nat.add_0_r, (Nat.mul_comm k), Nat.mod_add, Nat.mod_small by lia. reflexivity.
  - replace (m + s * (i + k * fval r' t)) with ((m + s * i) + (s * k) * fval r' t) by nia.
    apply IH; auto; [nia|simpl in Hn; lia|nia].
Qed.

Lemma fval_decode shape : forall m, m < prod shape -> exists r, valid_idx shape r /\ fval r shape = m.
Proof.
  induction shape as [|n t IH]; intros m Hm; simpl in *.
  - exists []. split; [constructor|]. unfold prod in Hm; simpl in *; lia.
  - unfold prod in *. simpl in Hm. assert (0 < n) by nia.
    destruct (IH (m / n)) as [r [Hr E]]. { apply Nat.div_lt_upper_bound; lia. }
    exists (m mod n :: r). split.
    + constructor; auto. apply Nat.mod_upper_bound. lia.
    + simpl. rewrite E. pose proof (Nat.div_mod m n). lia.
Qed.

(** ** dot and reversal *)
Lemma dot_app r r' s s' : length r = length s -> dot (r ++ r') (s ++ s') = dot r s + dot r' s'.
Proof. revert s; induction r; destruct s; simpl; intros; try discriminate; auto. rewrite IHr by lia. lia. Qed.
Lemma dot_rev r : forall s, length r = length s -> dot (rev r) (rev s) = dot r s.
Proof.
  induction r as [|i r IH]; destruct s; simpl; intros H; try discriminate; auto.
  rewrite dot_app by (rewrite !rev_length; lia). rewrite IH by lia. simpl. lia.
Qed.
Lemma prod_app a b : prod (a ++ b) = prod a * prod b.
Proof. unfold prod. induction a; simpl; [lia|]. rewrite IHa. lia. Qed.
Lemma prod_rev a : prod (rev a) = prod a.
Proof. induction a; simpl; auto. rewrite prod_app, IHa. unfold prod; simpl. lia. Qed.
Lemma Forall2_rev A B (P : A -> B -> Prop) l l' : Forall2 P l l' -> Forall2 P (rev l) (rev l').
Proof. induction 1; simpl; auto. apply Forall2_app; auto. Qed.
Lemma valid_rev shape r : valid_idx shape r <-> valid_idx (rev shape) (rev r).
Proof.
  unfold valid_idx. split; intros H; apply Forall2_rev in H; rewrite ?rev_involutive in H; auto.
Qed.

Definition flat_index (shape : list nat) (cstyle : bool) (r : list nat) : nat :=
  if cstyle then fval (rev r) (rev shape) else fval r shape.

Lemma dot_make_stride shape c r : length r = length shape -> dot r (make_stride shape c) = flat_index shape c r.
Proof.
  intros H. destruct c; simpl.
  - rewrite <- (rev_involutive r) at 1. rewrite dot_rev.
    + rewrite dot_fstrides; [lia|]. now rewrite !rev_length.
    + rewrite rev_length, fstrides_length, rev_length. auto.
  - rewrite dot_fstrides by auto. lia.
Qed.

Lemma flat_index_lt shape c r : valid_idx shape r -> flat_index shape c r < prod shape.
Proof.
  intros H. destruct c; simpl; [|now apply fval_lt]. rewrite <- prod_rev. apply fval_lt. now apply valid_rev in H.
Qed.
Lemma flat_index_inj shape c r r' :
  valid_idx shape r -> valid_idx shape r' -> flat_index shape c r = flat_index shape c r' -> r = r'.
Proof.
  intros H H' E. destruct c; simpl in E.
  - apply valid_rev in H, H'. apply fval_inj in E; auto. rewrite <- (rev_involutive r), E. apply rev_involutive.
  - eapply fval_inj; eauto.
Qed.
Lemma flat_index_surj shape c m : m < prod shape -> exists r, valid_idx shape r /\ flat_index shape c r = m.
Proof.
  intros H. destruct c; simpl.
  - rewrite <- prod_rev in H. destruct (fval_decode H) as [r [Hr E]]. exists (rev r).
    rewrite rev_involutive. split; auto. apply valid_rev. now rewrite rev_involutive.
  - now apply fval_decode.
Qed.

Lemma valid_prod_pos shape r : valid_idx shape r -> Forall (fun n => 0 < n) shape.
Proof. induction 1; constructor; auto; lia. Qed.

Lemma grid_row_flat shape c r : valid_idx shape r -> grid_row (flat_index shape c r) shape c = r.
Proof.
  intros H. pose proof (valid_length H) as L.
  apply list_eq_nth with (d := 0).
  { unfold grid_row. now rewrite map_length, seq_length. }
  unfold grid_row. rewrite map_length, seq_length. intros n Hn.
  rewrite nth_map_lt with (d := 0) by (rewrite seq_length; lia). rewrite seq_nth by lia. simpl.
  unfold grid_entry. destruct c; simpl.
  - assert (V := H). apply valid_rev in V.
    rewrite rev_nth by (rewrite fstrides_length, rev_length; lia). rewrite fstrides_length, rev_length.
    replace (nth n shape 0) with (nth (length shape - S n) (rev shape) 0)
      by (rewrite rev_nth by lia; f_equal; lia).
    pose proof (@fval_entry (rev shape) (rev r) 1 (length shape - S n) 0 V) as E.
    simpl in E. rewrite Nat.add_0_r in E. rewrite E; try lia; [|rewrite rev_length; lia].
    rewrite rev_nth by lia. f_equal. lia.
  - pose proof (@fval_entry shape r 1 n 0 H) as E. simpl in E. rewrite Nat.add_0_r in E. apply E; lia.
Qed.

(** ** grids *)
Lemma cgrid_In shape : forall r, In r (cgrid shape) <-> valid_idx shape r.
Proof.
  induction shape as [|n t IH]; intros r; simpl.
  - split; [intros [<-|[]]; constructor|]. intros H; inversion H; auto.
  - rewrite in_flat_map. split.
    + intros [i [Hi Hr]]. apply in_map_iff in Hr. destruct Hr as [r' [<- Hr']]. apply in_seq in Hi.
      constructor; [lia|now apply IH].
    + intros H. inversion H; subst. exists x. split; [apply in_seq; lia|]. apply in_map. now apply IH.
Qed.
Lemma make_grid_In shape c r : In r (make_grid shape c) <-> valid_idx shape r.
Proof.
  destruct c; simpl; [apply cgrid_In|]. rewrite in_map_iff. split.
  - intros [r' [<- H]]. apply cgrid_In in H. apply valid_rev. now rewrite rev_involutive.
  - intros H. exists (rev r). rewrite rev_involutive. split; auto. apply cgrid_In. now apply valid_rev in H.
Qed.

Lemma flat_map_map_nil A B (f : A -> list B) l : (forall x, In x l -> f x = []) -> flat_map f l = [].
Proof. induction l; simpl; intros H; auto. rewrite H by auto. apply IHl; auto. Qed.

Lemma fval_snoc r : forall shape i n, length r = length shape ->
  fval (r ++ [i]) (shape ++ [n]) = fval r shape + prod shape * i.
Proof.
  induction r as [|x r IH]; destruct shape; simpl; intros i n0 H; try discriminate.
  - unfold prod; simpl. lia.
  - rewrite IH by lia. unfold prod. simpl. fold (prod shape). lia.
Qed.

Lemma seq_concat k : forall n s, flat_map (fun i => seq (s + k * i) k) (seq 0 n) = seq s (k * n).
Proof.
  induction n as [|n IH]; intros s; [rewrite Nat.mul_0_r; auto|].
  rewrite seq_S, flat_map_app, IH. simpl. rewrite app_nil_r. replace (k * S n) with (k * n + k) by lia.
  now rewrite seq_app.
Qed.

Lemma cgrid_index shape : map (flat_index shape true) (cgrid shape) = seq 0 (prod shape).
Proof.
  induction shape as [|n t IH]; auto. simpl cgrid.
  rewrite flat_map_concat_map, concat_map, map_map, <- flat_map_concat_map.
  rewrite flat_map_concat_map.
  rewrite map_ext_in with (g := fun i => seq (0 + prod t * i) (prod t)).
  - rewrite <- flat_map_concat_map, seq_concat. f_equal. unfold prod. simpl. apply Nat.mul_comm.
  - intros i Hi. rewrite map_map. rewrite seq_shift_map, <- IH, map_map. apply map_ext_in. intros r Hr.
    apply cgrid_In in Hr. simpl. rewrite fval_snoc by (rewrite !rev_length; now apply valid_length).
    rewrite prod_rev. lia.
Qed.

Lemma make_grid_index shape c : map (flat_index shape c) (make_grid shape c) = seq 0 (prod shape).
Proof.
  destruct c; [apply cgrid_index|]. simpl. rewrite map_map. rewrite <- prod_rev, <- cgrid_index.
  apply map_ext_in. intros r Hr. simpl. now rewrite rev_involutive.
Qed.

Lemma make_grid_length shape c : length (make_grid shape c) = prod shape.
Proof. rewrite <- (map_length (flat_index shape c)), make_grid_index. apply seq_length. Qed.

Lemma make_grid_NoDup shape c : NoDup (make_grid shape c).
Proof.
  apply NoDup_map_inv with (f := flat_index shape c). rewrite make_grid_index. apply seq_NoDup.
Qed.

Lemma make_grid_nth shape c m : m < prod shape ->
  nth m (make_grid shape c) [] = grid_row m shape c /\
  valid_idx shape (nth m (make_grid shape c) []) /\
  dot (nth m (make_grid shape c) []) (make_stride shape c) = m.
Proof.
  intros H. set (r := nth m (make_grid shape c) []).
  assert (V : valid_idx shape r).
  { apply make_grid_In with (c := c). apply nth_In. now rewrite make_grid_length. }
  assert (E : flat_index shape c r = m).
  { unfold r. rewrite <- (nth_map_lt (flat_index shape c)) with (d' := 0) by (rewrite make_grid_length; auto).
    rewrite make_grid_index, seq_nth; auto. }
  split; [|split; auto].
  - rewrite <- E. symmetry. now apply grid_row_flat.
  - rewrite dot_make_stride; auto. now apply valid_length.
Qed.

(** ** order *)
Definition zrow (r : list nat) : row := map Z.of_nat r.

Lemma zrow_nth k r : nth k (zrow r) 0%Z = Z.of_nat (nth k r 0).
Proof. unfold zrow. change 0%Z with (Z.of_nat 0). apply map_nth. Qed.

Lemma lex_lt_cons_iff i r i' r' : length r = length r' ->
  (lex_lt (i :: r) (i' :: r') <-> lex_lt r r' \/ (r = r' /\ (i < i')%Z)).
Proof.
  intros L. split.
  - intros [_ [k [Hk [Hlt Heq]]]]. destruct k as [|k].
    + right. split; [|exact Hlt]. apply list_eq_nth with (d := 0%Z); auto.
      intros j Hj. apply (Heq (S j)). simpl; lia.
    + left. split; auto. exists k. simpl in Hk. repeat split; [lia|exact Hlt|].
      intros k' Hk'. apply (Heq (S k')). simpl; lia.
  - intros [[_ [k [Hk [Hlt Heq]]]]|[-> H]].
    + split; [simpl; lia|]. exists (S k). repeat split; [simpl; lia|exact Hlt|].
      intros k' Hk'. destruct k'; [lia|]. apply Heq. simpl in Hk'; lia.
    + split; [simpl; lia|]. exists 0. repeat split; [simpl; lia|exact H|].
      intros k' Hk'. destruct k'; [lia|]. reflexivity.
Qed.

Lemma fval_order shape : forall r r', valid_idx shape r -> valid_idx shape r' ->
  (fval r shape < fval r' shape <-> lex_lt (zrow r) (zrow r')).
Proof.
  induction shape as [|n t IH]; intros r r' H H'; inversion H; inversion H'; subst.
  - simpl. split; [lia|]. intros C. exfalso. eapply lex_lt_irrefl; eauto.
  - simpl fval. simpl zrow.
    change (zrow (x :: l)) with (Z.of_nat x :: zrow l). change (zrow (x0 :: l0)) with (Z.of_nat x0 :: zrow l0).
    rewrite lex_lt_cons_iff.
    2:{ unfold zrow. rewrite !map_length. rewrite (valid_length H4). now rewrite (valid_length H9). }
    rewrite <- (IH l l0) by auto.
    assert (E : zrow l = zrow l0 <-> fval l t = fval l0 t).
    { split; intros E.
      - assert (l = l0); [|congruence]. unfold zrow in E. apply (f_equal (map Z.to_nat)) in E.
        rewrite !map_map in E. rewrite !(map_ext _ (fun x => x) Nat2Z.id), !map_id in E. exact E.
      - f_equal. eapply fval_inj; eauto. }
    rewrite E, <- Nat2Z.inj_lt. split; nia.
Qed.

(** ** inverse permutation *)
Lemma inv_fold perm : forall l inv,
  (forall i, In i l -> i < length perm) -> length inv = length perm -> NoDup perm -> NoDup l ->
  (forall i, i < length perm -> nth i perm 0 < length perm) ->
  let r := fold_left (fun inv i => upd inv (nth i perm 0) i) l inv in
  length r = length perm /\
  (forall i, In i l -> nth (nth i perm 0) r 0 = i) /\
  (forall j, (forall i, In i l -> nth i perm 0 <> j) -> nth j r 0 = nth j inv 0).
Proof.
  induction l as [|a l IH]; intros inv Hl Hi Hn Hnl Hb r.
  - unfold r; simpl. repeat split; auto. intros i [].
  - unfold r. cbn [fold_left]. inversion Hnl as [|? ? Hna Hnl']; subst.
    assert (Ha : a < length perm) by (apply Hl; now left).
    destruct (IH (upd inv (nth a perm 0) a)) as [A [B C]]; auto.
    { intros i H; apply Hl; now right. }
    { now rewrite upd_length. }
    split; [exact A|split].
    + intros i [<-|Hi']; [|auto]. rewrite C.
      * apply nth_upd_eq. rewrite Hi. auto.
      * intros i Hi' E. rewrite (NoDup_nth perm 0) in Hn. apply Hn in E; auto.
        -- now subst.
        -- apply Hl; now right.
    + intros j Hj. rewrite C.
      * apply nth_upd_neq. apply Hj. now left.
      * intros i Hi'. apply Hj. now right.
Qed.

Lemma inverse_permutation_length p : length (inverse_permutation p) = length p.
Proof.
  unfold inverse_permutation. rewrite <- (repeat_length 0 (length p)) at 3.
  generalize (seq 0 (length p)) (repeat 0 (length p)). intros l. induction l; simpl; auto.
  intros. rewrite IHl. apply upd_length.
Qed.

Lemma inverse_permutation_l n p i : is_perm n p -> i < n -> nth (nth i p 0) (inverse_permutation p) 0 = i.
Proof.
  intros H Hi. pose proof (is_perm_length H) as L. unfold inverse_permutation.
  destruct (@inv_fold p (seq 0 (length p)) (repeat 0 (length p))) as [A [B C]].
  - intros j Hj. apply in_seq in Hj. lia.
  - apply repeat_length.
  - eapply is_perm_NoDup; eauto.
  - apply seq_NoDup.
  - intros j Hj. rewrite L in *. now apply is_perm_nth_lt with (n := n).
  - apply B. apply in_seq. lia.
Qed.

Lemma inverse_permutation_perm n p : is_perm n p -> is_perm n (inverse_permutation p).
Proof.
  intros H. pose proof (is_perm_length H) as L.
  apply is_perm_intro.
  - now rewrite inverse_permutation_length.
  - rewrite (NoDup_nth _ 0). rewrite inverse_permutation_length, L. intros i j Hi Hj E.
    destruct (is_perm_surj H Hi) as [i' [Hi' <-]]. destruct (is_perm_surj H Hj) as [j' [Hj' <-]].
    rewrite !(inverse_permutation_l H) in E by auto. congruence.
  - rewrite Forall_nth_iff with (d := 0). rewrite inverse_permutation_length, L. intros i Hi.
    destruct (is_perm_surj H Hi) as [i' [Hi' <-]]. now rewrite (inverse_permutation_l H).
Qed.

Lemma inverse_permutation_r n p i : is_perm n p -> i < n -> nth (nth i (inverse_permutation p) 0) p 0 = i.
Proof.
  intros H Hi. destruct (is_perm_surj H Hi) as [j [Hj <-]]. now rewrite (inverse_permutation_l H).
Qed.

Lemma inverse_permutation_involutive n p : is_perm n p -> inverse_permutation (inverse_permutation p) = p.
Proof.
  intros H. pose proof (inverse_permutation_perm H) as H'. pose proof (is_perm_length H) as L.
  apply list_eq_nth with (d := 0); [now rewrite !inverse_permutation_length|].
  rewrite !inverse_permutation_length, L. intros i Hi.
  destruct (is_perm_surj H' Hi) as [j [Hj <-]].
  rewrite (inverse_permutation_l H') by auto. now rewrite (inverse_permutation_r H).
Qed.

Lemma take_inverse A (d : A) l p : is_perm (length l) p ->
  take d (take d l p) (inverse_permutation p) = l /\ take d (take d l (inverse_permutation p)) p = l.
Proof.
  intros H. pose proof (inverse_permutation_perm H) as H'. pose proof (is_perm_length H) as L.
  pose proof (is_perm_length H') as L'.
  split; (apply list_eq_nth with (d := d); [now rewrite take_length|]); rewrite take_length; intros i Hi.
  - rewrite nth_take by auto. rewrite nth_take.
    + rewrite (inverse_permutation_r H); auto; lia.
    + rewrite L. rewrite <- L'. rewrite L'. apply is_perm_nth_lt; auto; lia.
  - rewrite nth_take by auto. rewrite nth_take.
    + rewrite (inverse_permutation_l H); auto; lia.
    + rewrite L'. apply is_perm_nth_lt; auto; lia.
Qed.

(** ** argsort, rank_data *)
Lemma argsort_perm a : is_perm (length a) (argsort a).
Proof. apply stable_sort_perm. Qed.
Lemma argsort_sorted a :
  StronglySorted (fun i j => (nth i a 0 < nth j a 0)%Z \/ (nth i a 0%Z = nth j a 0%Z /\ i < j)) (argsort a).
Proof.
  eapply StronglySorted_impl; [|apply (stable_sort_sorted (P := fun _ => True)) with (R := lt)].
  - intros i j _ _ [H|[H H']].
    + left. now apply Z.ltb_lt.
    + apply Z.ltb_ge in H. destruct (Z.eq_dec (nth i a 0%Z) (nth j a 0%Z)); [right; auto|left; lia].
  - intros x y z _ _ _ H H'. apply Z.ltb_lt in H, H'. apply Z.ltb_lt. lia.
  - intros x y z _ _ _ H. apply Z.ltb_lt in H. rewrite !Z.ltb_lt. lia.
  - apply Forall_forall; auto.
  - apply seq_sorted.
Qed.

Lemma rank_data_perm a : is_perm (length a) (rank_data a).
Proof. apply inverse_permutation_perm, argsort_perm. Qed.

Lemma rank_data_order a i j : i < length a -> j < length a ->
  ((nth i a 0 < nth j a 0)%Z \/ (nth i a 0%Z = nth j a 0%Z /\ i < j)) ->
  nth i (rank_data a) 0 < nth j (rank_data a) 0.
Proof.
  intros Hi Hj H. pose proof (argsort_perm a) as P. pose proof (is_perm_length P) as L.
  destruct (is_perm_surj P Hi) as [i' [Hi' Ei]]. destruct (is_perm_surj P Hj) as [j' [Hj' Ej]].
  unfold rank_data. rewrite <- Ei, <- Ej. rewrite !(inverse_permutation_l P) by auto.
  pose proof (argsort_sorted a) as S. rewrite StronglySorted_nth with (d := 0) in S.
  destruct (lt_eq_lt_dec i' j') as [[C|C]|C]; auto.
  - exfalso. assert (Eij : i = j) by congruence. rewrite Eij in H. destruct H as [H|[_ H]]; lia.
  - exfalso. specialize (S j' i'). rewrite Ei, Ej in S. assert (j' < i' < length (argsort a)) by lia.
    specialize (S H0). lia.
Qed.

(** for a duplicate-free list, ranks and values have the same order *)
Lemma rank_data_mono a i j : i < length a -> j < length a -> 
  (nth i (rank_data a) 0 < nth j (rank_data a) 0 <->
   ((nth i a 0 < nth j a 0)%Z \/ (nth i a 0%Z = nth j a 0%Z /\ i < j))).
Proof.
  intros Hi Hj. split; [|now apply rank_data_order]. intros H.
  destruct (Z.lt_trichotomy (nth i a 0%Z) (nth j a 0%Z)) as [C|[C|C]]; auto.
  - destruct (lt_eq_lt_dec i j) as [[D|D]|D]; auto; [subst; lia|].
    assert (nth j (rank_data a) 0 < nth i (rank_data a) 0) by (apply rank_data_order; auto). lia.
  - assert (nth j (rank_data a) 0 < nth i (rank_data a) 0) by (apply rank_data_order; auto). lia.
Qed.

(** ** is_permutation *)
Lemma stable_sort_nat_sorted l : StronglySorted le (stable_sort Nat.ltb l).
Proof.
  eapply StronglySorted_impl; [|apply (stable_sort_sorted (P := fun _ => True)) with (R := fun _ _ => True)].
  - intros x y _ _ [H|[H _]]; [apply Nat.ltb_lt in H; lia|apply Nat.ltb_ge in H; lia].
  - intros x y z _ _ _ H H'. apply Nat.ltb_lt in H, H'. apply Nat.ltb_lt. lia.
  - intros x y z _ _ _ H. apply Nat.ltb_lt in H. rewrite !Nat.ltb_lt. lia.
  - apply Forall_forall; auto.
  - clear. induction l; constructor; auto. apply Forall_forall; auto.
Qed.

Lemma sorted_NoDup_strict l : StronglySorted le l -> NoDup l -> StronglySorted lt l.
Proof.
  induction 1; intros N; constructor; inversion N; subst; auto.
  rewrite Forall_forall in *. intros x Hx. specialize (H0 x Hx).
  assert (a <> x) by (intros ->; auto). lia.
Qed.

Lemma is_permutation_spec p : is_permutation p = true <-> is_perm (length p) p.
Proof.
  unfold is_permutation. destruct (list_eq_dec _ _ _) as [E|E]; split; auto; try discriminate.
  - intros _. unfold is_perm. rewrite <- E. symmetry. apply stable_sort_perm.
  - intros H. exfalso. apply E.
    apply (StronglySorted_unique (R := lt)); [lia|intros; lia| |apply seq_sorted|].
    + apply sorted_NoDup_strict; [apply stable_sort_nat_sorted|].
      eapply Permutation_NoDup; [symmetry; apply stable_sort_perm|]. eapply is_perm_NoDup; eauto.
    + intros x. split; intros Hx.
      * apply (Permutation_in _ (stable_sort_perm _ _)) in Hx. eapply Permutation_in; eauto.
      * apply (Permutation_in _ (Permutation_sym (stable_sort_perm _ _))).
        eapply Permutation_in; [symmetry; exact H|auto].
Qed.

(** ** combine_permutations *)
Lemma combine_permutations_spec perms c out :
  combine_permutations perms c = Some out ->
  let shape := map (@length nat) perms in
  is_perm (prod shape) out /\
  forall idx, valid_idx shape idx ->
    nth (flat_index shape c idx) out 0 =
    flat_index shape c (map (fun pi => nth (snd pi) (fst pi) 0) (combine perms idx)).
Proof.
  unfold combine_permutations. destruct (forallb is_permutation perms) eqn:E; [|discriminate].
  intros H. inversion H; subst; clear H. cbv zeta.
  rewrite forallb_forall in E.
  set (shape := map (@length nat) perms).
  set (ap := fun idx => map (fun pi => nth (snd pi) (fst pi) 0) (combine perms idx)).
  assert (Vap : forall idx, valid_idx shape idx -> valid_idx shape (ap idx)).
  { unfold shape, ap. clear shape ap. induction perms as [|p perms IH]; intros idx V; inversion V; subst; [constructor|].
    simpl. constructor.
    - apply is_perm_nth_lt; auto. apply is_permutation_spec. apply E. now left.
    - apply IH; auto. intros; apply E; now right. }
  assert (Iap : forall i j, valid_idx shape i -> valid_idx shape j -> ap i = ap j -> i = j).
  { unfold shape, ap. clear Vap shape ap. induction perms as [|p perms IH]; intros i j V V' Eij; inversion V; inversion V'; subst; auto.
    simpl in Eij. inversion Eij. f_equal.
    - assert (P : is_perm (length p) p) by (apply is_permutation_spec, E; now left).
      eapply is_perm_nth_inj; eauto.
    - apply IH; auto. intros; apply E; now right. }
  assert (M : forall idx, valid_idx shape idx -> dot (ap idx) (make_stride shape c) = flat_index shape c (ap idx)).
  { intros. apply dot_make_stride. now apply valid_length, Vap. }
  split.
  - apply is_perm_intro.
    + now rewrite map_length, make_grid_length.
    + apply NoDup_map_inj; [|apply make_grid_NoDup]. intros x y Hx Hy Exy.
      apply make_grid_In in Hx, Hy. fold (ap x) (ap y) in Exy. rewrite !M in Exy by auto.
      apply Iap; auto. eapply flat_index_inj; eauto.
    + apply Forall_forall. intros x Hx. apply in_map_iff in Hx. destruct Hx as [idx [<- Hidx]].
      apply make_grid_In in Hidx. fold (ap idx). rewrite M by auto. apply flat_index_lt; auto.
  - intros idx V. pose proof (flat_index_lt c V) as Hlt.
    rewrite nth_map_lt with (d := []) by now rewrite make_grid_length.
    destruct (make_grid_nth c Hlt) as [_ [V' D]]. rewrite dot_make_stride in D by now apply valid_length.
    apply flat_index_inj in D; auto. rewrite D. fold (ap idx). now apply M.
Qed.

(** ** permutation_as_swaps *)
Lemma is_perm_check_spec p : is_perm_check p = true <-> is_perm (length p) p.
Proof.
  unfold is_perm_check. rewrite andb_true_iff, Nat.eqb_eq, forallb_forall. split.
  - intros [H H']. apply is_perm_intro; auto.
    + apply NoDup_incl_NoDup with (l := nodup Nat.eq_dec p); [apply NoDup_nodup|lia|].
      intros x Hx. now apply nodup_In in Hx.
    + apply Forall_forall. intros x Hx. apply Nat.ltb_lt. auto.
  - intros H. split.
    + rewrite nodup_fixed_point; auto. eapply is_perm_NoDup; eauto.
    + intros x Hx. apply Nat.ltb_lt. now apply (is_perm_In _ H).
Qed.

Lemma swap_at_length A j (l : list A) : length (swap_at j l) = length l.
Proof.
  revert l; induction j as [|j IH]; intros [|x l]; simpl; auto.
  destruct l; reflexivity.
Qed.
Lemma do_swaps_length A js : forall (l : list A), length (do_swaps l js) = length l.
Proof. unfold do_swaps. induction js; simpl; auto. intros. rewrite IHjs. apply swap_at_length. Qed.

Lemma swap_at_app A (l l' : list A) j : swap_at (length l + j) (l ++ l') = l ++ swap_at j l'.
Proof. induction l; simpl; auto. f_equal. exact IHl. Qed.

(** moving an element from position |l|+|m| to position |l| *)
Lemma do_swaps_down A (m : list A) : forall l x r,
  do_swaps (l ++ m ++ x :: r) (swaps_down (length l) (length l + length m)) = l ++ x :: m ++ r.
Proof.
  unfold swaps_down. intros l x r. replace (length l + length m - length l) with (length m) by lia.
  revert r x. induction m as [|y m IH] using rev_ind; intros r x; simpl; auto.
  rewrite app_length. simpl. rewrite Nat.add_1_r, seq_S, rev_app_distr. simpl.
  rewrite <- app_assoc. cbn [app].
  assert (St : forall js, do_swaps (l ++ m ++ y :: x :: r) (length l + length m :: js) = do_swaps (l ++ m ++ x :: y :: r) js).
  { intros js. unfold do_swaps. cbn [fold_left]. f_equal.
    rewrite app_assoc. rewrite <- app_length. rewrite <- (Nat.add_0_r (length (l ++ m))). rewrite swap_at_app.
    simpl. now rewrite <- app_assoc. }
  etransitivity; [exact (St _)|]. rewrite IH. now rewrite <- app_assoc.
Qed.

Lemma do_swaps_app A (l : list A) a b : do_swaps l (a ++ b) = do_swaps (do_swaps l a) b.
Proof. unfold do_swaps. apply fold_left_app. Qed.

(** list surgery: the element at [c] moved to [t] *)
Lemma list_split3 A (d : A) (l : list A) t c : t <= c < length l ->
  l = firstn t l ++ slice l t c ++ nth c l d :: skipn (S c) l.
Proof.
  intros H. unfold slice.
  rewrite <- (firstn_skipn t l) at 1. f_equal.
  rewrite <- (firstn_skipn (c - t) (skipn t l)) at 1. f_equal.
  assert (E : skipn (c - t) (skipn t l) = skipn c l).
  { clear d. revert t c H. induction l; intros t c H; simpl in *; [lia|].
    destruct t; [now rewrite Nat.sub_0_r|]. destruct c; [lia|]. simpl. apply IHl. lia. }
  rewrite E. clear E. assert (H' : c < length l) by lia. clear t H. revert c H'. induction l; intros; simpl in *; [lia|].
  destruct c; auto. apply IHl. lia.
Qed.

Definition move (A : Type) (d : A) (l : list A) (t c : nat) : list A :=
  firstn t l ++ nth c l d :: slice l t c ++ skipn (S c) l.

Lemma slice_length A (l : list A) a b : a <= b <= length l -> length (slice l a b) = b - a.
Proof. intros H. unfold slice. rewrite firstn_length, skipn_length. lia. Qed.

Lemma do_swaps_move A (d : A) l t c : t <= c < length l -> do_swaps l (swaps_down t c) = move d l t c.
Proof.
  intros H. rewrite (list_split3 d H) at 1.
  assert (Lt : length (firstn t l) = t) by (rewrite firstn_length; lia).
  assert (Ls : length (slice l t c) = c - t) by (apply slice_length; lia).
  pose proof (do_swaps_down (slice l t c) (firstn t l) (nth c l d) (skipn (S c) l)) as D.
  rewrite Lt, Ls in D. replace (t + (c - t)) with c in D by lia. exact D.
Qed.

Lemma nth_slice A (d : A) l a b i : i < b - a -> nth i (slice l a b) d = nth (a + i) l d.
Proof. intros H. unfold slice. rewrite nth_firstn_lt by auto. apply nth_skipn'. Qed.

Lemma move_nth A (d : A) l t c x : t <= c < length l -> x < length l ->
  nth (roll_entry t c x) (move d l t c) d = nth x l d.
Proof.
  intros H Hx. unfold move, roll_entry.
  assert (Lt : length (firstn t l) = t) by (rewrite firstn_length; lia).
  assert (Ls : length (slice l t c) = c - t) by (apply slice_length; lia).
  destruct (Nat.leb_spec t x); cbn [andb].
  - destruct (Nat.ltb_spec x c).
    + rewrite app_nth2 by lia. rewrite Lt. replace (S x - t) with (S (x - t)) by lia. simpl.
      rewrite app_nth1 by lia. rewrite nth_slice by lia. f_equal. lia.
    + destruct (Nat.eqb_spec x c).
      * subst. rewrite app_nth2 by lia. rewrite Lt, Nat.sub_diag. reflexivity.
      * rewrite app_nth2 by lia. rewrite Lt. replace (x - t) with (S (x - S t)) by lia. cbn [nth].
        rewrite app_nth2 by lia. rewrite Ls, nth_skipn'. f_equal. lia.
  - rewrite app_nth1 by lia. now apply nth_firstn_lt.
Qed.

Lemma move_length A (d : A) l t c : t <= c < length l -> length (move d l t c) = length l.
Proof.
  intros H. rewrite (list_split3 d H) at 2. unfold move. rewrite !app_length. simpl. rewrite !app_length. simpl. lia.
Qed.

Section Swaps.
  Variable A : Type.
  Variable d : A.
  Variable orig : list A.
  Variable p : list nat.
  Hypothesis Hp : is_perm (length orig) p.

  (* invariant: element [x] of the original list sits at position [cp[x]] of [cur]; the first [t] positions are final *)
  Lemma swaps_loop_spec n : forall t cp cur,
    t + n = length orig - 1 -> length cur = length orig -> is_perm (length orig) cp ->
    (forall x, x < length orig -> nth (nth x cp 0) cur d = nth x orig d) ->
    (forall k, k < t -> nth (nth k p 0) cp 0 = k) ->
    exists cp', is_perm (length orig) cp' /\
      (forall x, x < length orig -> nth (nth x cp' 0) (do_swaps cur (swaps_loop n t p cp)) d = nth x orig d) /\
      (forall k, k < length orig - 1 -> nth (nth k p 0) cp' 0 = k).
  Proof.
    induction n as [|n IH]; intros t cp cur Htn Hcur Hcp Hpos Hfix.
    - simpl. exists cp. repeat split; auto. intros k Hk. apply Hfix. lia.
    - cbn [swaps_loop]. set (o := nth t p 0). set (c := nth o cp 0).
      set (N := length orig) in *.
      assert (Ht : t < N) by lia.
      assert (Ho : o < N) by (apply is_perm_nth_lt; auto).
      assert (Hc : c < N) by (apply is_perm_nth_lt; auto).
      assert (Hct : t <= c).
      { destruct (le_lt_dec t c); auto. exfalso.
        assert (E : nth (nth c p 0) cp 0 = nth o cp 0) by (rewrite Hfix; auto).
        apply is_perm_nth_inj with (n := N) in E; auto; [|apply is_perm_nth_lt; auto; lia].
        unfold o in E. apply is_perm_nth_inj with (n := N) in E; auto. lia. }
      rewrite do_swaps_app. rewrite (do_swaps_move d) by lia.
      assert (Lcp : length cp = N) by now apply is_perm_length.
      assert (Hroll : forall x, x < N -> nth x (map (roll_entry t c) cp) 0 = roll_entry t c (nth x cp 0)).
      { intros x Hx. rewrite nth_map_lt with (d := 0) by lia. reflexivity. }
      assert (Hcp' : is_perm N (map (roll_entry t c) cp)).
      { apply is_perm_intro.
        - now rewrite map_length.
        - apply NoDup_map_inj; [|eapply is_perm_NoDup; eauto]. intros x y Hx Hy. unfold roll_entry.
          destruct (Nat.leb_spec t x), (Nat.leb_spec t y), (Nat.ltb_spec x c), (Nat.ltb_spec y c),
            (Nat.eqb_spec x c), (Nat.eqb_spec y c); simpl; lia.
        - apply Forall_forall. intros y Hy. apply in_map_iff in Hy. destruct Hy as [x [<- Hx]].
          apply (is_perm_In _ Hcp) in Hx. unfold roll_entry.
          destruct (Nat.leb_spec t x), (Nat.ltb_spec x c), (Nat.eqb_spec x c); simpl; lia. }
      apply IH; auto.
      + lia.
      + rewrite move_length by lia. auto.
      + intros x Hx. rewrite Hroll by auto. rewrite move_nth; auto; try lia.
        rewrite Hcur. apply is_perm_nth_lt; auto.
      + intros k Hk. rewrite Hroll by (apply is_perm_nth_lt; auto; lia).
        destruct (Nat.eq_dec k t).
        * subst. fold o c. unfold roll_entry. rewrite (proj2 (Nat.leb_le _ _) Hct), Nat.ltb_irrefl, Nat.eqb_refl. reflexivity.
        * rewrite Hfix by lia. unfold roll_entry. destruct (Nat.leb_spec t k); simpl; lia.
  Qed.

  Lemma permutation_as_swaps_correct js :
    permutation_as_swaps p = Some js -> do_swaps orig js = take d orig p.
  Proof.
    unfold permutation_as_swaps. destruct (is_perm_check p) eqn:E; [|discriminate]. intros H; inversion H; subst; clear H.
    pose proof (is_perm_length Hp) as L.
    destruct (@swaps_loop_spec (length p - 1) 0 (seq 0 (length p)) orig) as [cp' [P' [Hpos Hfix]]]; auto.
    - lia.
    - rewrite L. apply seq_is_perm.
    - intros x Hx. rewrite seq_nth by lia. reflexivity.
    - lia.
    - apply list_eq_nth with (d := d).
      { now rewrite do_swaps_length, take_length. }
      rewrite do_swaps_length. intros k Hk. rewrite nth_take by lia.
      rewrite <- (Hpos (nth k p 0)) by (apply is_perm_nth_lt; auto).
      f_equal. destruct (Nat.eq_dec k (length orig - 1)) as [->|D].
      + (* the last position is forced: cp' o p is a permutation fixing all but one point *)
        set (N := length orig) in *. set (y := nth (nth (N - 1) p 0) cp' 0).
        assert (Hy : y < N) by (apply is_perm_nth_lt; auto; apply is_perm_nth_lt; auto; lia).
        destruct (Nat.eq_dec y (N - 1)) as [E'|E']; [lia|]. exfalso.
        assert (E2 : nth (nth y p 0) cp' 0 = nth (nth (N - 1) p 0) cp' 0) by (rewrite Hfix by lia; reflexivity).
        apply is_perm_nth_inj with (n := N) in E2; auto; try (apply is_perm_nth_lt; auto; lia).
        apply is_perm_nth_inj with (n := N) in E2; auto; lia.
      + rewrite Hfix by lia. reflexivity.
  Qed.
End Swaps.

Lemma swaps_loop_bound N p : is_perm N p -> forall n t cp, t + n = N - 1 -> is_perm N cp ->
  Forall (fun j => S j < N) (swaps_loop n t p cp).
Proof.
  intros Hp. induction n as [|n IH]; intros t cp Ht Hcp; simpl; [constructor|].
  set (c := nth (nth t p 0) cp 0).
  assert (Hc : c < N) by (apply is_perm_nth_lt; auto; apply is_perm_nth_lt; auto; lia).
  apply Forall_app. split.
  - apply Forall_forall. intros j Hj. unfold swaps_down in Hj. apply in_rev in Hj. apply in_seq in Hj. lia.
  - apply IH; [lia|]. apply is_perm_intro.
    + rewrite map_length. now apply is_perm_length.
    + apply NoDup_map_inj; [|eapply is_perm_NoDup; eauto]. intros x y Hx Hy. unfold roll_entry.
      destruct (Nat.leb_spec t x), (Nat.leb_spec t y), (Nat.ltb_spec x c), (Nat.ltb_spec y c),
        (Nat.eqb_spec x c), (Nat.eqb_spec y c); simpl; lia.
    + apply Forall_forall. intros y Hy. apply in_map_iff in Hy. destruct Hy as [x [<- Hx]].
      apply (is_perm_In _ Hcp) in Hx. unfold roll_entry.
      destruct (Nat.leb_spec t x), (Nat.ltb_spec x c), (Nat.eqb_spec x c); simpl; lia.
Qed.
