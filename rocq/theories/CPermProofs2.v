(** C68, part 2: two words of swaps with the same permutation act in the same way (Coxeter relations). *)
From Coq Require Import ZArith List Bool Lia Permutation Sorted Arith.
From Verif Require Import Util GridModel GridProofs RowModel PermLegsSpec PermLegsProofs CPermModel CPermSpec CPermProofs1.
Import ListNotations.
Open Scope nat_scope.
Set Implicit Arguments. Unset Strict Implicit.

Definition act X (g : nat -> X -> X) (w : list nat) (x : X) : X := fold_left (fun x i => g i x) w x.
Lemma act_app X (g : nat -> X -> X) a b x : act g (a ++ b) x = act g b (act g a x).
Proof. unfold act. apply fold_left_app. Qed.
(** the symmetric group relations on the states with [P] *)
Record coxeter X (P : X -> Prop) (g : nat -> X -> X) (n : nat) : Prop := Coxeter {
  cx_P : forall i x, S i < n -> P x -> P (g i x);
  cx_inv : forall i x, S i < n -> P x -> g i (g i x) = x;
  cx_comm : forall i j x, S i < j -> S j < n -> P x -> g j (g i x) = g i (g j x);
  cx_yb : forall i x, S (S i) < n -> P x -> g i (g (S i) (g i x)) = g (S i) (g i (g (S i) x)) }.
(** words in normal form *)
Fixpoint cw (ks : list nat) : list nat := match ks with [] => [] | k :: ks => rev (seq 0 k) ++ map S (cw ks) end.
Fixpoint valid_code (n : nat) (ks : list nat) : Prop := match n, ks with 0, [] => True | S m, k :: ks => k <= m /\ valid_code m ks | _, _ => False end.
Fixpoint ins (j : nat) (ks : list nat) : list nat :=
  match ks with
  | [] => []
  | k :: ks => if k <? j then k :: ins (j - 1) ks else if j =? k then S k :: ks else if S j =? k then j :: ks else k :: ins j ks
  end.
Lemma ins_valid n : forall j ks, S j < n -> valid_code n ks -> valid_code n (ins j ks).
Proof.
  induction n as [|n IH]; intros j ks Hj V; [lia|]. destruct ks as [|k ks]; [contradiction|]. destruct V as [Hk V]. cbn [ins]. 
  destruct (Nat.ltb_spec k j); [split; [exact Hk|apply IH; [lia|exact V]]|]. destruct (Nat.eqb_spec j k); [split; [lia|exact V]|].
  destruct (Nat.eqb_spec (S j) k); [split; [lia|exact V]|]. split; [exact Hk|]. apply IH; [lia|exact V].
Qed.
Section Act.
  Variable X : Type.
  Variable P : X -> Prop.
  Lemma act_P g n w : coxeter P g n -> letters n w -> forall x, P x -> P (act g w x).
  Proof. intros H L. induction L as [|j w Hj L IH]; intros x Px; [exact Px|]. cbn [act fold_left]. apply IH. now apply (cx_P H). Qed.
  Lemma act_map (g : nat -> X -> X) w x : act g (map S w) x = act (fun i => g (S i)) w x.
  Proof. unfold act. revert x. induction w as [|j w IH]; intros x; [reflexivity|]. cbn [map fold_left]. apply IH. Qed.
  Lemma shift_coxeter g n : coxeter P g (S n) -> coxeter P (fun i => g (S i)) n.
  Proof. intros [A B C D]. constructor; intros; [apply A|apply B|apply C|apply D]; try lia; assumption. Qed.
  (** a letter commutes with a word of letters at distance >= 2 *)
  Lemma act_far g n w : coxeter P g n -> letters n w -> forall j x, S j < n -> Forall (fun i => S i < j \/ S j < i) w -> P x -> act g w (g j x) = g j (act g w x).
  Proof.
    intros H L. induction L as [|i w Hi L IH]; intros j x Hj F Px; [reflexivity|]. inversion F as [|? ? F1 F2]; subst. change (act g w (g i (g j x)) = g j (act g w (g i x))).
    rewrite <- IH; try assumption; [|now apply (cx_P H)]. f_equal. destruct F1 as [F1|F1]; [symmetry; now apply (cx_comm H)|now apply (cx_comm H)].
  Qed.
  Lemma letters_rev_seq n s k : s + k < n -> letters n (rev (seq s k)).
  Proof. intros H. apply Forall_forall. intros x Hx. apply in_rev, in_seq in Hx. lia. Qed.
  Lemma ins_act : forall ks g n j x, coxeter P g n -> S j < n -> valid_code n ks -> P x -> act g (cw ks) (g j x) = act g (cw (ins j ks)) x.
  Proof.
    induction ks as [|k ks IH]; intros g n j x H Hj V Px; [destruct n; [lia|contradiction]|]. destruct n as [|n]; [contradiction|]. destruct V as [Hk V]. cbn [ins].
    assert (LC : letters (S n) (rev (seq 0 k))) by (apply letters_rev_seq; lia).
    destruct (Nat.ltb_spec k j); [|destruct (Nat.eqb_spec j k); [|destruct (Nat.eqb_spec (S j) k)]]; cbn [cw]; rewrite !act_app, !act_map.
    - rewrite (act_far H LC) with (j := j); try assumption; [|apply Forall_forall; intros y Hy; apply in_rev, in_seq in Hy; lia].
      destruct j as [|j]; [lia|]. rewrite (IH (fun i => g (S i)) n j); [replace (S j - 1) with j by lia; reflexivity|now apply shift_coxeter|lia|exact V|]. now apply (act_P H LC).
    - subst k. rewrite seq_S, rev_app_distr. cbn [rev app]. reflexivity.
    - subst k. rewrite seq_S, rev_app_distr. cbn [rev app Nat.add]. change (act g (j :: rev (seq 0 j)) (g j x)) with (act g (rev (seq 0 j)) (g j (g j x))). now rewrite (cx_inv H).
    - assert (Ek : rev (seq 0 k) = rev (seq (S (S j)) (k - S (S j))) ++ [S j; j] ++ rev (seq 0 j)).
      { replace k with (S (S j) + (k - S (S j))) at 1 by lia. rewrite seq_app, rev_app_distr. f_equal. rewrite !seq_S, !rev_app_distr. reflexivity. }
      assert (L1 : letters (S n) (rev (seq (S (S j)) (k - S (S j))))) by (apply letters_rev_seq; lia). assert (L2 : letters (S n) (rev (seq 0 j))) by (apply letters_rev_seq; lia).
      assert (C : act g (rev (seq 0 k)) (g j x) = g (S j) (act g (rev (seq 0 k)) x)).
      { rewrite Ek. rewrite !act_app. rewrite (act_far H L1) with (j := j); try assumption; [|apply Forall_forall; intros y Hy; apply in_rev, in_seq in Hy; lia].
        set (y := act g (rev (seq (S (S j)) (k - S (S j)))) x). assert (Py : P y) by (now apply (act_P H L1)). change (act g [S j; j] (g j y)) with (g j (g (S j) (g j y))). change (act g [S j; j] y) with (g j (g (S j) y)). rewrite (cx_yb H) by (try assumption; lia).
        rewrite (act_far H L2); [reflexivity|lia| |].
        - apply Forall_forall; intros z Hz; apply in_rev, in_seq in Hz; lia.
        - apply (cx_P H); [lia|]. apply (cx_P H); [lia|exact Py]. }
      rewrite C. rewrite (IH (fun i => g (S i)) n j); [reflexivity|now apply shift_coxeter|lia|exact V|]. now apply (act_P H LC).
  Qed.
  Definition code_of (n : nat) (w : list nat) : list nat := fold_right ins (repeat 0 n) w.
  Lemma cw_zero n : cw (repeat 0 n) = [].
  Proof. induction n as [|n IH]; [reflexivity|]. cbn [repeat cw seq rev app]. now rewrite IH. Qed.
  Lemma valid_zero n : valid_code n (repeat 0 n).
  Proof. induction n as [|n IH]; [exact I|]. split; [lia|exact IH]. Qed.
  Lemma code_valid n w : letters n w -> valid_code n (code_of n w).
  Proof. intros L. induction L as [|j w Hj L IH]; [apply valid_zero|]. cbn [code_of fold_right]. now apply ins_valid. Qed.
  Lemma code_act g n w : coxeter P g n -> letters n w -> forall x, P x -> act g w x = act g (cw (code_of n w)) x.
  Proof.
    intros H L. induction L as [|j w Hj L IH]; intros x Px; [cbn [code_of fold_right]; now rewrite cw_zero|]. change (code_of n (j :: w)) with (ins j (code_of n w)). rewrite <- (@ins_act _ g n j x H Hj (code_valid L) Px).
    cbn [act fold_left]. apply IH. now apply (cx_P H).
  Qed.
End Act.
(** lists *)
Lemma swap_at_invol A j : forall l : list A, swap_at j (swap_at j l) = l.
Proof. induction j as [|j IH]; intros l; destruct l as [|x l]; cbn [swap_at]; try reflexivity; [destruct l; reflexivity|]. now rewrite IH. Qed.
Lemma swap_at_comm A i : forall j (l : list A), S i < j -> swap_at j (swap_at i l) = swap_at i (swap_at j l).
Proof.
  induction i as [|i IH]; intros j l H; destruct l as [|x l]; destruct j as [|j]; try lia; cbn [swap_at]; try reflexivity.
  - destruct l as [|y l]; destruct j as [|j]; try lia; cbn [swap_at]; reflexivity.
  - f_equal. apply IH. lia.
Qed.
Lemma swap_at_yb A i : forall l : list A, S (S i) < length l -> swap_at i (swap_at (S i) (swap_at i l)) = swap_at (S i) (swap_at i (swap_at (S i) l)).
Proof.
  induction i as [|i IH]; intros l H; destruct l as [|x l]; try reflexivity.
  - destruct l as [|y [|z l]]; cbn [length] in H; try lia; reflexivity.
  - change (x :: swap_at i (swap_at (S i) (swap_at i l)) = x :: swap_at (S i) (swap_at i (swap_at (S i) l))). rewrite IH; [reflexivity|]. cbn [length] in H. lia.
Qed.
Lemma lists_coxeter A n : coxeter (fun l : list A => length l = n) (fun i l => swap_at i l) n.
Proof. constructor; intros; [now rewrite swap_at_length|apply swap_at_invol|now apply swap_at_comm|apply swap_at_yb; lia]. Qed.
Lemma do_swaps_act A (l : list A) w : do_swaps l w = act (fun i l => swap_at i l) w l.
Proof. reflexivity. Qed.
Lemma do_swaps_shift A w : forall (x : A) l, do_swaps (x :: l) (map S w) = x :: do_swaps l w.
Proof. induction w as [|j w IH]; intros x l; [reflexivity|]. cbn [map]. rewrite !do_swaps_cons. cbn [swap_at]. apply IH. Qed.
Lemma app_eq_len A (a : list A) : forall b x y, length a = length b -> a ++ x = b ++ y -> a = b /\ x = y.
Proof. induction a as [|u a IH]; intros [|v b] x y L E; cbn [length app] in *; try lia; [now split|]. injection E as -> E. destruct (IH b x y ltac:(lia) E) as [-> ->]. now split. Qed.
Lemma cw_inj n : forall (l : list nat) ks ks', length l = n -> NoDup l -> valid_code n ks -> valid_code n ks' -> do_swaps l (cw ks) = do_swaps l (cw ks') -> ks = ks'.
Proof.
  induction n as [|n IH]; intros l ks ks' Ll ND V V' E; destruct ks as [|k ks], ks' as [|k' ks']; try contradiction; [reflexivity|]. destruct V as [Hk V], V' as [Hk' V'].
  assert (Sp : forall k, k <= n -> exists m v r, l = m ++ v :: r /\ length m = k).
  { intros q Hq. exists (firstn q l), (nth q l 0), (skipn (S q) l). split; [|rewrite firstn_length; lia]. pose proof (@list_split3 nat 0 l 0 q ltac:(lia)) as Q. unfold slice in Q. cbn [firstn skipn app] in Q. rewrite Nat.sub_0_r in Q. exact Q. }
  destruct (Sp k Hk) as [m [v [r [E1 Lm]]]]. destruct (Sp k' Hk') as [m' [v' [r' [E2 Lm']]]]. cbn [cw] in E. rewrite !do_swaps_app in E.
  assert (D1 : do_swaps l (rev (seq 0 k)) = v :: m ++ r) by (rewrite E1, <- Lm; exact (do_swaps_down' m [] v r)). assert (D2 : do_swaps l (rev (seq 0 k')) = v' :: m' ++ r') by (rewrite E2, <- Lm'; exact (do_swaps_down' m' [] v' r')).
  rewrite D1, D2, !do_swaps_shift in E. injection E as Ev E.
  assert (Kk : k = k').
  { assert (N1 : nth k l 0 = v) by (rewrite E1, <- Lm; apply nth_middle). assert (N2 : nth k' l 0 = v') by (rewrite E2, <- Lm'; apply nth_middle). apply (proj1 (NoDup_nth l 0) ND); try lia; congruence. }
  assert (Em : m = m' /\ v :: r = v' :: r'). { apply app_eq_len; congruence. }
  destruct Em as [Em Er]. injection Er as _ Er. rewrite <- Em, <- Er in E. f_equal; [exact Kk|]. apply (IH (m ++ r)); try assumption; [apply (f_equal (@length nat)) in E1; rewrite app_length in *; cbn [length] in E1; lia|]. rewrite E1 in ND. now apply NoDup_remove_1 in ND.
Qed.
Theorem words_agree X (P : X -> Prop) (g : nat -> X -> X) n w w' x : coxeter P g n -> letters n w -> letters n w' -> P x -> do_swaps (seq 0 n) w = do_swaps (seq 0 n) w' -> act g w x = act g w' x.
Proof.
  intros H L L' Px E. rewrite (code_act H L Px), (code_act H L' Px). f_equal. f_equal. apply (@cw_inj n (seq 0 n)); [apply seq_length|apply seq_NoDup|now apply code_valid|now apply code_valid|].
  rewrite !do_swaps_act in E. rewrite (@code_act _ _ _ n w (lists_coxeter nat n) L _ (seq_length n 0)), (@code_act _ _ _ n w' (lists_coxeter nat n) L' _ (seq_length n 0)) in E. exact E.
Qed.
(** heights *)
Section Levels.
  Variable T : Type.
  Variable B : nat -> bool -> T -> T.
  Variable n : nat.
  Hypothesis R : braid_relations B n.
  Variable height : nat -> Z.
  Definition lstep (i : nat) (s : T * list nat) : T * list nat := (B i (Z.ltb (height (nth (S i) (snd s) 0)) (height (nth i (snd s) 0))) (fst s), swap_at i (snd s)).
  Definition lok (s : T * list nat) : Prop := length (snd s) = n /\ NoDup (map height (snd s)).
  Lemma level_braid_act w : forall o x, (level_braid B height w o x, do_swaps o w) = act lstep w (x, o).
  Proof. induction w as [|i w IH]; intros o x; [reflexivity|]. cbn [level_braid act fold_left]. rewrite do_swaps_cons. apply IH. Qed.
  Lemma yb_all i a b c x : S (S i) < n -> (a = c -> b = a) -> B i c (B (S i) b (B i a x)) = B (S i) a (B i b (B (S i) c x)).
  Proof.
    destruct R as [RI [_ RY]]. intros Hi Hb. assert (I1 : forall b x, B i (negb b) (B i b x) = x) by (intros; apply RI; lia). assert (I2 : forall b x, B (S i) (negb b) (B (S i) b x) = x) by (intros; apply RI; lia).
    assert (Y : forall x, B i true (B (S i) true (B i true x)) = B (S i) true (B i true (B (S i) true x))) by (intros; now apply RY). clear RI RY.
    assert (P1 : forall x, B i false (B i true x) = x) by (intros; apply (I1 true)). assert (M1 : forall x, B i true (B i false x) = x) by (intros; apply (I1 false)).
    assert (P2 : forall x, B (S i) false (B (S i) true x) = x) by (intros; apply (I2 true)). assert (M2 : forall x, B (S i) true (B (S i) false x) = x) by (intros; apply (I2 false)).
    destruct a, b, c; try (specialize (Hb eq_refl); discriminate).
    - apply Y.
    - assert (E : exists y, x = B (S i) true y) by (exists (B (S i) false x); now rewrite M2). destruct E as [y ->]. now rewrite <- Y, P1, P2.
    - assert (E : exists y, x = B (S i) true (B i true y)) by (exists (B i false (B (S i) false x)); now rewrite M1, M2). destruct E as [y ->]. now rewrite Y, !P2, !P1.
    - assert (E : exists y, x = B i true y) by (exists (B i false x); now rewrite M1). destruct E as [y ->]. now rewrite Y, P1, P2.
    - assert (E : exists y, x = B i true (B (S i) true y)) by (exists (B (S i) false (B i false x)); now rewrite M2, M1). destruct E as [y ->]. now rewrite <- Y, !P1, !P2.
    - assert (E : exists y, x = B i true (B (S i) true (B i true y))) by (exists (B i false (B (S i) false (B i false x))); now rewrite M1, M2, M1). destruct E as [y ->]. rewrite P1, P2, P1. now rewrite Y, P2, P1, P2.
  Qed.
  Lemma nth_swap i j (l : list nat) : S i < length l -> nth j (swap_at i l) 0 = nth (tr i j) l 0.
  Proof. intros H. now apply nth_swap_at. Qed.
  Lemma heights_distinct s i j : lok s -> i < n -> j < n -> i <> j -> height (nth i (snd s) 0) <> height (nth j (snd s) 0).
  Proof.
    intros [L ND] Hi Hj N E. apply N. apply (proj1 (NoDup_nth (map height (snd s)) (height 0)) ND); rewrite ?map_length; try lia. now rewrite !map_nth.
  Qed.
  Lemma levels_coxeter : coxeter lok lstep n.
  Proof.
    assert (R' := R). destruct R' as [RI [RC _]]. constructor.
    - intros i [x o] Hi [L ND]. unfold lstep, lok in *. cbn [snd fst] in *. split; [now rewrite swap_at_length|]. rewrite <- swap_at_map. apply Permutation_NoDup with (l := map height o); [|exact ND]. symmetry. apply swap_at_perm.
    - intros i [x o] Hi K. assert (D := @heights_distinct _ i (S i) K ltac:(lia) Hi ltac:(lia)). destruct K as [L ND]. unfold lstep. cbn [snd fst] in *. rewrite swap_at_invol. f_equal.
      rewrite !nth_swap by lia. unfold tr. rewrite Nat.eqb_refl, (proj2 (Nat.eqb_neq (S i) i)), Nat.eqb_refl by lia.
      replace (Z.ltb (height (nth i o 0)) (height (nth (S i) o 0))) with (negb (Z.ltb (height (nth (S i) o 0)) (height (nth i o 0)))); [now apply RI|].
      destruct (Z.ltb_spec (height (nth (S i) o 0)) (height (nth i o 0))), (Z.ltb_spec (height (nth i o 0)) (height (nth (S i) o 0))); cbn [negb]; try reflexivity; lia.
    - intros i j [x o] Hij Hj K. destruct K as [L ND]. unfold lstep. cbn [snd fst] in *. rewrite swap_at_comm by exact Hij. f_equal. rewrite !nth_swap by lia. unfold tr.
      repeat match goal with |- context [?a =? ?b] => first [rewrite (proj2 (Nat.eqb_neq a b)) by lia | rewrite (proj2 (Nat.eqb_eq a b)) by lia] end. now apply RC.
    - intros i [x o] Hi K. destruct K as [L ND] eqn:EK. unfold lstep. cbn [snd fst] in *. rewrite swap_at_yb by lia. f_equal. rewrite !nth_swap by (rewrite ?swap_at_length; lia). unfold tr.
      repeat match goal with |- context [?a =? ?b] => first [rewrite (proj2 (Nat.eqb_neq a b)) by lia | rewrite (proj2 (Nat.eqb_eq a b)) by lia] end.
      assert (D1 := @heights_distinct _ i (S i) K ltac:(lia) ltac:(lia) ltac:(lia)). assert (D2 := @heights_distinct _ (S i) (S (S i)) K ltac:(lia) ltac:(lia) ltac:(lia)). cbn [snd] in D1, D2.
      apply yb_all; [exact Hi|]. repeat match goal with |- context [Z.ltb ?a ?b] => destruct (Z.ltb_spec a b) end; intros Q; try reflexivity; try discriminate; lia.
  Qed.
  Lemma level_braid_words w w' o x : letters n w -> letters n w' -> length o = n -> NoDup (map height o) -> do_swaps (seq 0 n) w = do_swaps (seq 0 n) w' -> level_braid B height w o x = level_braid B height w' o x.
  Proof.
    intros L L' Lo ND E. assert (Q := @words_agree _ lok lstep n w w' (x, o) levels_coxeter L L' (conj Lo ND) E). rewrite <- !level_braid_act in Q. now injection Q.
  Qed.
End Levels.
Lemma level_braid_app T (B : nat -> bool -> T -> T) height a : forall b o x, level_braid B height (a ++ b) o x = level_braid B height b (do_swaps o a) (level_braid B height a o x).
Proof. induction a as [|i a IH]; intros b o x; [reflexivity|]. cbn [app level_braid]. rewrite do_swaps_cons. apply IH. Qed.
(** renaming the strands *)
Lemma level_braid_rename T (B : nat -> bool -> T -> T) h h' (f : nat -> nat) w : forall o x, letters (length o) w -> (forall i, In i o -> h' (f i) = h i) -> level_braid B h' w (map f o) x = level_braid B h w o x.
Proof.
  induction w as [|i w IH]; intros o x L E; [reflexivity|]. inversion L as [|? ? L1 L2]; subst. cbn [level_braid]. rewrite swap_at_map. rewrite IH; [|now rewrite swap_at_length|].
  - f_equal. f_equal. rewrite !nth_map_lt with (d := 0) by lia. rewrite !E by (apply nth_In; lia). reflexivity.
  - intros k Hk. apply E. apply (Permutation_in _ (swap_at_perm i o)). exact Hk.
Qed.
