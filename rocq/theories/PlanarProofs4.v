(** C69, part 4: the calls made for a planar rearrangement. *)
From Coq Require Import ZArith List Bool Lia Permutation.
From Verif Require Import Util GridModel PermLegsModel PermLegsSpec PermLegsProps PlanarModel PlanarSpec PlanarProofs1 PlanarProofs2 PlanarProofs3.
Import ListNotations.
Set Implicit Arguments. Unset Strict Implicit.
Open Scope nat_scope.

Lemma index_of_app l l' x : index_of (l ++ l') x = if contains l x then index_of l x else length l + index_of l' x.
Proof.
  induction l as [|y l IH]; cbn [app index_of contains existsb length]; [reflexivity|]. rewrite (Nat.eqb_sym x y). destruct (Nat.eqb_spec y x); [reflexivity|]. cbn [orb]. rewrite IH. unfold contains. destruct (existsb (Nat.eqb x) l); lia.
Qed.
Lemma index_of_seq a m x : a <= x < a + m -> index_of (seq a m) x = x - a.
Proof.
  revert a. induction m as [|m IH]; intros a H; [lia|]. cbn [seq index_of]. destruct (Nat.eqb_spec a x); [lia|]. rewrite IH by lia. lia.
Qed.
Lemma contains_seq a m x : contains (seq a m) x = (a <=? x) && (x <? a + m).
Proof.
  apply eq_true_iff_eq. rewrite contains_In, in_seq, andb_true_iff, Nat.leb_le, Nat.ltb_lt. reflexivity.
Qed.
Lemma index_of_rev l x : NoDup l -> In x l -> index_of (rev l) x = length l - 1 - index_of l x.
Proof.
  induction l as [|y l IH]; intros N I; [destruct I|]. inversion N as [|? ? NI N']; subst. cbn [rev index_of length]. rewrite index_of_app. destruct (Nat.eqb_spec y x) as [ -> |NE].
  - destruct (contains (rev l) x) eqn:E; [apply contains_In in E; apply in_rev in E; easy|]. rewrite rev_length. cbn [index_of]. rewrite Nat.eqb_refl. lia.
  - destruct I as [I|I]; [easy|]. assert (E : contains (rev l) x = true) by (apply contains_In; now apply in_rev in I). rewrite E, IH by assumption. lia.
Qed.
Lemma contains_rev l x : contains (rev l) x = contains l x.
Proof. apply eq_true_iff_eq. now rewrite !contains_In, <- in_rev. Qed.
Lemma contains_app l l' x : contains (l ++ l') x = contains l x || contains l' x.
Proof. unfold contains. apply existsb_app. Qed.

(** the position of leg x when going around from leg k *)
Definition place_of (n k x : nat) : nat := if x <? k then x + n - k else x - k.
Definition cut (n k c : nat) (co rdom : list nat) : Prop :=
  (k + c <= n /\ co = seq k c /\ rdom = seq (k + c) (n - (k + c)) ++ seq 0 k) \/
  (n < k + c /\ co = seq k (n - k) ++ seq 0 (k + c - n) /\ rdom = seq (k + c - n) (n - c)).

Lemma app_cut A (a b c d : list A) : a ++ b = c ++ d -> length a <= length c -> c = a ++ skipn (length a) c /\ b = skipn (length a) c ++ d.
Proof.
  intros E L. assert (E1 := f_equal (firstn (length a)) E). assert (E2 := f_equal (skipn (length a)) E).
  rewrite !firstn_app, Nat.sub_diag, firstn_O, app_nil_r, firstn_all in E1. replace (length a - length c) with 0 in E1 by lia. rewrite firstn_O, app_nil_r in E1.
  rewrite !skipn_app, Nat.sub_diag, skipn_O, skipn_all in E2. replace (length a - length c) with 0 in E2 by lia. rewrite skipn_O in E2. cbn [app] in E2. split; [|exact E2]. rewrite E1 at 1. symmetry. apply firstn_skipn.
Qed.
Lemma skipn_seq k a m : skipn k (seq a m) = seq (a + k) (m - k).
Proof. revert a m. induction k as [|k IH]; intros a m; [now rewrite Nat.add_0_r, Nat.sub_0_r|]. destruct m; [reflexivity|]. cbn [seq skipn]. rewrite IH. f_equal; lia. Qed.
Lemma firstn_seq k a m : firstn k (seq a m) = seq a (Nat.min k m).
Proof. revert a m. induction k as [|k IH]; intros a m; [reflexivity|]. destruct m; [reflexivity|]. cbn [seq firstn Nat.min]. now rewrite IH. Qed.
Lemma rotation_seq k n : k <= n -> rotation k (seq 0 n) = seq k (n - k) ++ seq 0 k.
Proof. intros L. unfold rotation. rewrite skipn_seq, firstn_seq. now rewrite Nat.min_l by exact L. Qed.

Lemma planar_cut n co dom : 0 < n -> planar n co dom -> exists k, k < n /\ length co <= n /\ cut n k (length co) co (rev dom).
Proof.
  intros P [k [L E]]. rewrite rotation_seq in E by exact L.
  assert (E' : exists k, k < n /\ co ++ rev dom = seq k (n - k) ++ seq 0 k).
  { destruct (Nat.eq_dec k n) as [ -> |NE]; [|exists k; split; [lia|exact E]]. exists 0. split; [lia|]. rewrite E, Nat.sub_diag, Nat.sub_0_r. cbn [seq app]. now rewrite app_nil_r. }
  clear k L E. destruct E' as [k [L E]]. assert (LE := f_equal (@length nat) E). rewrite !app_length, !seq_length, rev_length in LE. exists k. split; [exact L|]. split; [lia|].
  destruct (Nat.le_gt_cases (length co) (n - k)) as [C|C].
  - left. destruct (app_cut E) as [E1 E2]; [now rewrite seq_length|]. rewrite skipn_seq in E1, E2. split; [lia|].
    assert (X := f_equal (firstn (length co)) E1). rewrite firstn_app, Nat.sub_diag, firstn_O, app_nil_r, firstn_all, firstn_seq, Nat.min_l in X by lia. split; [now symmetry|]. rewrite E2. do 2 f_equal. lia.
  - right. destruct (app_cut (eq_sym E)) as [E1 E2]; [rewrite seq_length; lia|]. rewrite seq_length in E1, E2. split; [lia|].
    assert (LS : length (skipn (n - k) co) = k + length co - n) by (rewrite skipn_length; lia).
    assert (S0 : skipn (n - k) co = seq 0 (k + length co - n)).
    { assert (X := f_equal (firstn (k + length co - n)) E2). rewrite firstn_app, LS, Nat.sub_diag, firstn_O, app_nil_r, firstn_seq, Nat.min_l in X by lia. rewrite <- LS in X at 2. rewrite firstn_all in X. now symmetry. }
    split; [now rewrite S0 in E1|]. assert (X := f_equal (skipn (k + length co - n)) E2). rewrite skipn_app, LS, Nat.sub_diag, skipn_O in X. rewrite (skipn_all2 (skipn (n - k) co)) in X by lia. cbn [app] in X. rewrite <- X, skipn_seq. f_equal; lia.
Qed.

Section Facts.
  Variables (n k c : nat) (co dom : list nat).
  Hypothesis Hk : k < n.
  Hypothesis Hc : c <= n.
  Hypothesis CUT : cut n k c co (rev dom).
  Lemma cut_lengths : length co = c /\ length dom = n - c.
  Proof. rewrite <- (rev_length dom). destruct CUT as [(H1 & -> & ->)|(H1 & -> & ->)]; rewrite ?app_length, !seq_length; lia. Qed.
  Lemma cut_in_co x : x < n -> contains co x = (place_of n k x <? c).
  Proof.
    intros Hx. apply eq_true_iff_eq. rewrite contains_In, Nat.ltb_lt. unfold place_of. destruct CUT as [(H1 & -> & _)|(H1 & -> & _)]; rewrite ?in_app_iff, !in_seq; destruct (Nat.ltb_spec x k); lia.
  Qed.
  Lemma cut_in_dom x : x < n -> contains dom x = (c <=? place_of n k x).
  Proof.
    intros Hx. apply eq_true_iff_eq. rewrite contains_In, Nat.leb_le, in_rev. unfold place_of. destruct CUT as [(H1 & _ & ->)|(H1 & _ & ->)]; rewrite ?in_app_iff, !in_seq; destruct (Nat.ltb_spec x k); lia.
  Qed.
  Lemma cut_index_co x : x < n -> place_of n k x < c -> index_of co x = place_of n k x.
  Proof.
    intros Hx. unfold place_of. destruct CUT as [(H1 & -> & _)|(H1 & -> & _)]; rewrite ?index_of_app, ?contains_seq, ?seq_length; destruct (Nat.ltb_spec x k); intros L; try lia.
    - rewrite index_of_seq; lia.
    - destruct (Nat.leb_spec k x); [lia|]. cbn [andb]. rewrite index_of_seq; lia.
    - destruct (Nat.leb_spec k x); [|lia]. destruct (Nat.ltb_spec x (k + (n - k))); [|lia]. cbn [andb]. rewrite index_of_seq; lia.
  Qed.
  Lemma cut_index_rdom x : x < n -> c <= place_of n k x -> index_of (rev dom) x = place_of n k x - c.
  Proof.
    intros Hx. unfold place_of. destruct CUT as [(H1 & _ & ->)|(H1 & _ & ->)]; rewrite ?index_of_app, ?contains_seq, ?seq_length; destruct (Nat.ltb_spec x k); intros L; try lia.
    - destruct (Nat.leb_spec (k + c) x); [lia|]. cbn [andb]. rewrite index_of_seq; lia.
    - destruct (Nat.leb_spec (k + c) x); [|lia]. destruct (Nat.ltb_spec x (k + c + (n - (k + c)))); [|lia]. cbn [andb]. rewrite index_of_seq; lia.
    - rewrite index_of_seq; lia.
  Qed.
  Lemma cut_nodup : NoDup (rev dom).
  Proof. destruct CUT as [(H1 & _ & ->)|(H1 & _ & ->)]; [|apply seq_NoDup]. apply NoDup_app_intro; try apply seq_NoDup. intros x I J. apply in_seq in I, J. lia. Qed.
  Lemma cut_index_dom x : x < n -> c <= place_of n k x -> index_of dom x = n - 1 - place_of n k x.
  Proof.
    intros Hx P. rewrite <- (rev_involutive dom). rewrite index_of_rev; [|exact cut_nodup|].
    - rewrite cut_index_rdom by assumption. rewrite rev_length. destruct cut_lengths as [_ ->]. unfold place_of in *. destruct (x <? k) eqn:E; [apply Nat.ltb_lt in E|apply Nat.ltb_ge in E]; lia.
    - rewrite <- in_rev. apply contains_In. rewrite cut_in_dom by exact Hx. now apply Nat.leb_le.
  Qed.
End Facts.

(** comparing lists of bends *)
Lemma t_same a b x (l l' : list (option bool)) : a = b -> l = l' -> times a x ++ l = times b x ++ l'.
Proof. now intros -> ->. Qed.
Lemma t_l a x (l l' : list (option bool)) : a = 0 -> l = l' -> times a x ++ l = l'.
Proof. now intros -> ->. Qed.
Lemma t_r a x (l l' : list (option bool)) : a = 0 -> l = l' -> l = times a x ++ l'.
Proof. now intros -> ->. Qed.
Ltac be := lazymatch goal with
  | |- times _ ?x ++ _ = times _ ?x ++ _ => first [solve [apply t_same; [lia|be]] | solve [apply t_l; [lia|be]] | solve [apply t_r; [lia|be]]]
  | |- times _ _ ++ _ = times _ _ ++ _ => first [solve [apply t_l; [lia|be]] | solve [apply t_r; [lia|be]]]
  | |- times _ _ ++ _ = [] => apply t_l; [lia|be]
  | |- [] = times _ _ ++ _ => apply t_r; [lia|be]
  | |- [] = [] => reflexivity
  end.
Ltac bends := unfold six; match goal with |- ?l = ?r => rewrite <- (app_nil_r l), <- (app_nil_r r) end; rewrite <- ?app_assoc; be.
