(** General list lemmas used by every model file (no modelled code in here). *)
From Coq Require Export List Arith ZArith Lia Bool Permutation.
From Coq Require Export Sorting.Sorted.
Export ListNotations.

Set Implicit Arguments. Unset Strict Implicit.

(** [take d l idx]: the elements of [l] at positions [idx]. *)
Definition take {A} (d : A) (l : list A) (idx : list nat) : list A :=
  map (fun i => nth i l d) idx.

Lemma take_length A (d : A) l idx : length (take d l idx) = length idx.
Proof. apply map_length. Qed.

Lemma nth_map_lt A B (f : A -> B) l d d' i :
  i < length l -> nth i (map f l) d' = f (nth i l d).
Proof.
  intros H. rewrite nth_indep with (d' := f d) by (rewrite map_length; exact H).
  apply map_nth.
Qed.

Lemma nth_take A (d d' : A) l idx i :
  i < length idx -> nth i (take d l idx) d' = nth (nth i idx 0) l d.
Proof. intros H. unfold take. now rewrite nth_map_lt with (d := 0). Qed.

Lemma take_seq A (d : A) l : take d l (seq 0 (length l)) = l.
Proof.
  unfold take.
  assert (G : forall pre, map (fun i => nth i (pre ++ l) d) (seq (length pre) (length l)) = l).
  { induction l as [|x xs IH]; intros pre; simpl; [reflexivity|]. f_equal.
    - rewrite app_nth2 by lia. now rewrite Nat.sub_diag.
    - specialize (IH (pre ++ [x])). rewrite <- app_assoc in IH. simpl in IH.
      rewrite app_length in IH. simpl in IH. rewrite Nat.add_1_r in IH. exact IH. }
  apply (G []).
Qed.

Lemma take_Permutation A (d : A) l p :
  Permutation p (seq 0 (length l)) -> Permutation (take d l p) l.
Proof.
  intros H. rewrite <- (take_seq d l) at 2. unfold take. now apply Permutation_map.
Qed.

Lemma take_take A (d : A) l p q :
  Forall (fun i => i < length p) q -> take d (take d l p) q = take d l (take 0 p q).
Proof.
  intros H. unfold take. rewrite map_map. apply map_ext_in. intros i Hi.
  rewrite Forall_forall in H. specialize (H i Hi).
  now rewrite nth_map_lt with (d := 0).
Qed.

Lemma list_eq_nth A (d : A) l l' :
  length l = length l' -> (forall i, i < length l -> nth i l d = nth i l' d) -> l = l'.
Proof.
  intros Hl H. apply nth_ext with (d := d) (d' := d); assumption.
Qed.

(** ** Permutations of [0..n-1] *)
Definition is_perm (n : nat) (p : list nat) : Prop := Permutation p (seq 0 n).

Lemma is_perm_length n p : is_perm n p -> length p = n.
Proof. intros H. rewrite (Permutation_length H). apply seq_length. Qed.

Lemma is_perm_NoDup n p : is_perm n p -> NoDup p.
Proof. intros H. apply Permutation_NoDup with (l := seq 0 n); [now symmetry|apply seq_NoDup]. Qed.

Lemma is_perm_In n p i : is_perm n p -> (In i p <-> i < n).
Proof.
  intros H. split; intros Hi.
  - apply (Permutation_in _ H) in Hi. apply in_seq in Hi. lia.
  - apply (Permutation_in _ (Permutation_sym H)). apply in_seq. lia.
Qed.

Lemma is_perm_Forall n p : is_perm n p -> Forall (fun i => i < n) p.
Proof. intros H. apply Forall_forall. intros i Hi. now apply (is_perm_In i H). Qed.

Lemma is_perm_nth_lt n p i : is_perm n p -> i < n -> nth i p 0 < n.
Proof.
  intros H Hi. apply (is_perm_In _ H). apply nth_In. now rewrite (is_perm_length H).
Qed.

Lemma is_perm_intro n p :
  length p = n -> NoDup p -> Forall (fun i => i < n) p -> is_perm n p.
Proof.
  intros Hl Hnd Hf. unfold is_perm. apply NoDup_Permutation_bis; [exact Hnd| |].
  - rewrite seq_length. lia.
  - intros i Hi. rewrite Forall_forall in Hf. apply in_seq. specialize (Hf i Hi). lia.
Qed.

Lemma is_perm_nth_inj n p i j :
  is_perm n p -> i < n -> j < n -> nth i p 0 = nth j p 0 -> i = j.
Proof.
  intros H Hi Hj E. pose proof (is_perm_NoDup H) as Hnd.
  rewrite (NoDup_nth p 0) in Hnd. pose proof (is_perm_length H). apply Hnd; try lia.
Qed.

Lemma is_perm_surj n p i : is_perm n p -> i < n -> exists j, j < n /\ nth j p 0 = i.
Proof.
  intros H Hi. apply (is_perm_In _ H) in Hi. apply In_nth with (d := 0) in Hi.
  destruct Hi as [j [Hj E]]. rewrite (is_perm_length H) in Hj. eauto.
Qed.

Lemma is_perm_take n p q : is_perm n p -> is_perm n q -> is_perm n (take 0 p q).
Proof.
  intros Hp Hq. unfold is_perm. etransitivity; [|exact Hp].
  apply take_Permutation. now rewrite (is_perm_length Hp).
Qed.

Lemma seq_is_perm n : is_perm n (seq 0 n).
Proof. apply Permutation_refl. Qed.

(** ** list update *)
Fixpoint upd {A} (l : list A) (i : nat) (x : A) : list A :=
  match l, i with
  | [], _ => []
  | _ :: t, 0 => x :: t
  | h :: t, S i' => h :: upd t i' x
  end.

Lemma upd_length A (l : list A) i x : length (upd l i x) = length l.
Proof. revert i; induction l; destruct i; simpl; auto. Qed.

Lemma nth_upd_eq A (d : A) l i x : i < length l -> nth i (upd l i x) d = x.
Proof. revert i; induction l; destruct i; simpl; intros; try lia; auto. apply IHl; lia. Qed.

Lemma nth_upd_neq A (d : A) l i j x : i <> j -> nth j (upd l i x) d = nth j l d.
Proof. revert i j; induction l; destruct i, j; simpl; intros; try lia; auto. Qed.

(** ** sums *)
Definition nsum (l : list nat) : nat := fold_right Nat.add 0 l.
Definition zsum (l : list Z) : Z := fold_right Z.add 0%Z l.

Lemma nsum_app a b : nsum (a ++ b) = nsum a + nsum b.
Proof. induction a; simpl; lia. Qed.
Lemma zsum_app a b : zsum (a ++ b) = (zsum a + zsum b)%Z.
Proof. unfold zsum. induction a; cbn [fold_right app]; lia. Qed.
Lemma nsum_perm a b : Permutation a b -> nsum a = nsum b.
Proof. induction 1; simpl; lia. Qed.
Lemma zsum_perm a b : Permutation a b -> zsum a = zsum b.
Proof. unfold zsum; induction 1; cbn [fold_right]; lia. Qed.

Lemma nth_repeat_lt A (x d : A) n i : i < n -> nth i (repeat x n) d = x.
Proof. revert i; induction n; destruct i; simpl; intros; try lia; auto. apply IHn; lia. Qed.

Lemma filter_length_le A (f : A -> bool) l : length (filter f l) <= length l.
Proof. induction l; simpl; auto. destruct (f a); simpl; lia. Qed.

Lemma Permutation_filter' A (f : A -> bool) l l' :
  Permutation l l' -> Permutation (filter f l) (filter f l').
Proof.
  induction 1; simpl; auto.
  - destruct (f x); auto.
  - destruct (f x), (f y); auto. apply perm_swap.
  - etransitivity; eauto.
Qed.

Lemma filter_map_swap A B (f : B -> bool) (g : A -> B) l :
  filter f (map g l) = map g (filter (fun x => f (g x)) l).
Proof. induction l; simpl; auto. destruct (f (g a)); simpl; congruence. Qed.

Lemma filter_all A (f : A -> bool) l : (forall x, In x l -> f x = true) -> filter f l = l.
Proof. induction l; simpl; auto. intros H. rewrite (H a) by auto. f_equal; auto. Qed.

Lemma filter_none A (f : A -> bool) l : (forall x, In x l -> f x = false) -> filter f l = [].
Proof. induction l; simpl; auto. intros H. rewrite (H a) by auto. auto. Qed.

Lemma combine_map_l A B C (f : A -> C) (l : list A) (l' : list B) :
  combine (map f l) l' = map (fun p => (f (fst p), snd p)) (combine l l').
Proof. revert l'; induction l; destruct l'; simpl; auto. now rewrite IHl. Qed.

Lemma combine_nth_lt A B (l : list A) (l' : list B) i x y d :
  i < length l -> i < length l' -> nth i (combine l l') d = (nth i l x, nth i l' y).
Proof.
  revert l' i; induction l; destruct l'; simpl; intros i H H'; try lia.
  destruct i; auto. apply IHl; lia.
Qed.

Lemma seq_shift_map s n : seq s n = map (fun i => s + i) (seq 0 n).
Proof.
  revert s; induction n; simpl; intros; auto.
  rewrite Nat.add_0_r. f_equal. rewrite IHn. rewrite <- seq_shift, map_map.
  apply map_ext; intros; lia.
Qed.

Lemma NoDup_map_inj A B (f : A -> B) l :
  (forall x y, In x l -> In y l -> f x = f y -> x = y) -> NoDup l -> NoDup (map f l).
Proof.
  intros Hf Hn. induction Hn; simpl; constructor.
  - intros C. apply in_map_iff in C. destruct C as [y [E Hy]].
    apply Hf in E; simpl; auto. now subst.
  - apply IHHn. intros; apply Hf; simpl; auto.
Qed.

Lemma NoDup_app_intro A (l l' : list A) :
  NoDup l -> NoDup l' -> (forall x, In x l -> ~ In x l') -> NoDup (l ++ l').
Proof.
  induction 1; simpl; intros Hl' Hd; auto. constructor.
  - rewrite in_app_iff. intros [C|C]; [auto|]. apply (Hd x); auto.
  - apply IHNoDup; auto.
Qed.

Lemma NoDup_flat_map A B (f : A -> list B) l :
  NoDup l -> (forall x, In x l -> NoDup (f x)) ->
  (forall x y z, In x l -> In y l -> In z (f x) -> In z (f y) -> x = y) ->
  NoDup (flat_map f l).
Proof.
  induction 1; simpl; intros Hn Hd; [constructor|].
  apply NoDup_app_intro; auto.
  - apply IHNoDup; auto. intros; eapply Hd; eauto.
  - intros z Hz C. apply in_flat_map in C. destruct C as [y [Hy Hz']].
    assert (x = y) by (eapply Hd; eauto). now subst.
Qed.

Lemma length_flat_map A B (f : A -> list B) l :
  length (flat_map f l) = nsum (map (fun x => length (f x)) l).
Proof. induction l; simpl; auto. rewrite app_length. lia. Qed.

Lemma StronglySorted_nth A (R : A -> A -> Prop) d l :
  StronglySorted R l <-> (forall i j, i < j < length l -> R (nth i l d) (nth j l d)).
Proof.
  split.
  - induction 1 as [|x l Hs IH Hf]; simpl; intros i j Hij; [lia|].
    destruct j; [lia|]. destruct i.
    + rewrite Forall_forall in Hf. apply Hf. apply nth_In. lia.
    + apply IH. lia.
  - induction l as [|x l IH]; intros H; constructor.
    + apply IH. intros i j Hij. apply (H (S i) (S j)). simpl; lia.
    + apply Forall_forall. intros y Hy. apply In_nth with (d := d) in Hy.
      destruct Hy as [k [Hk E]]. subst. apply (H 0 (S k)). simpl; lia.
Qed.

Lemma StronglySorted_map A B (R : B -> B -> Prop) (f : A -> B) l :
  StronglySorted R (map f l) <-> StronglySorted (fun x y => R (f x) (f y)) l.
Proof.
  induction l; simpl; split; intros H; try constructor; inversion H; subst.
  - now apply IHl.
  - now rewrite Forall_map in H3.
  - now apply IHl.
  - now apply Forall_map.
Qed.

Lemma StronglySorted_impl A (R S : A -> A -> Prop) l :
  (forall x y, In x l -> In y l -> R x y -> S x y) -> StronglySorted R l -> StronglySorted S l.
Proof.
  intros HRS H. induction H; constructor.
  - apply IHStronglySorted. intros; apply HRS; simpl; auto.
  - apply Forall_forall. intros y Hy. rewrite Forall_forall in H0. apply HRS; simpl; auto.
Qed.

Lemma StronglySorted_app A (R : A -> A -> Prop) l l' :
  StronglySorted R (l ++ l') <->
  StronglySorted R l /\ StronglySorted R l' /\ (forall x y, In x l -> In y l' -> R x y).
Proof.
  induction l; simpl; split.
  - intros H; repeat split; auto; [constructor|intros ? ? []].
  - tauto.
  - intros H; inversion H; subst. apply IHl in H2. destruct H2 as [H2 [H4 H5]].
    rewrite Forall_app in H3. destruct H3 as [H3 H6].
    repeat split; auto. { now constructor. }
    intros x y [E|Hx] Hy; subst; auto. rewrite Forall_forall in H6. auto.
  - intros [H [H' Hd]]. inversion H; subst. constructor.
    + apply IHl; repeat split; auto.
    + apply Forall_app; split; auto. apply Forall_forall; auto.
Qed.

Lemma StronglySorted_NoDup A (R : A -> A -> Prop) l :
  (forall x, ~ R x x) -> StronglySorted R l -> NoDup l.
Proof.
  intros Hirr H. induction H; constructor; auto.
  intros C. rewrite Forall_forall in H0. now apply (Hirr a), H0.
Qed.

Lemma StronglySorted_filter A (R : A -> A -> Prop) f l :
  StronglySorted R l -> StronglySorted R (filter f l).
Proof.
  induction 1; simpl; [constructor|]. destruct (f a); auto. constructor; auto.
  apply Forall_forall. intros x Hx. apply filter_In in Hx. rewrite Forall_forall in H0. now apply H0.
Qed.

(** A strictly sorted list is determined by its set of elements. *)
Lemma StronglySorted_unique A (R : A -> A -> Prop) l l' :
  (forall x, ~ R x x) -> (forall x y z, R x y -> R y z -> R x z) ->
  StronglySorted R l -> StronglySorted R l' -> (forall x, In x l <-> In x l') -> l = l'.
Proof.
  intros Hirr Htr H. revert l'. induction H as [|a l Hs IH Hf]; intros l' H' E.
  - destruct l' as [|b l']; auto. exfalso. apply (E b). now left.
  - destruct l' as [|b l']. { exfalso. apply (E a). now left. }
    inversion H' as [|? ? Hs' Hf']; subst. rewrite Forall_forall in Hf, Hf'.
    assert (a = b).
    { destruct (proj1 (E a)) as [C|C]; [now left|auto|].
      destruct (proj2 (E b)) as [D|D]; [now left|auto|].
      exfalso. apply (Hirr a). apply Htr with b; auto. }
    subst b. f_equal. apply IH; auto. intros x. split; intros Hx.
    + destruct (proj1 (E x)) as [C|C]; [now right| |auto]. subst. exfalso. apply (Hirr x). auto.
    + destruct (proj2 (E x)) as [C|C]; [now right| |auto]. subst. exfalso. apply (Hirr x). auto.
Qed.

(** [Permutation] of duplicate-free lists with the same elements. *)
Lemma NoDup_Permutation_iff A (l l' : list A) :
  NoDup l -> NoDup l' -> (forall x, In x l <-> In x l') -> Permutation l l'.
Proof. intros; now apply NoDup_Permutation. Qed.

Lemma Forall_nth_iff A (P : A -> Prop) d l :
  Forall P l <-> (forall i, i < length l -> P (nth i l d)).
Proof.
  split.
  - intros H i Hi. rewrite Forall_forall in H. apply H. now apply nth_In.
  - intros H. apply Forall_forall. intros x Hx. apply In_nth with (d := d) in Hx.
    destruct Hx as [i [Hi E]]. subst; auto.
Qed.

Lemma firstn_map' A B (f : A -> B) n l : firstn n (map f l) = map f (firstn n l).
Proof. apply firstn_map. Qed.

Lemma nth_firstn_lt A (d : A) n l i : i < n -> nth i (firstn n l) d = nth i l d.
Proof. revert n i; induction l; destruct n, i; simpl; intros; try lia; auto. apply IHl; lia. Qed.

Lemma nth_skipn' A (d : A) n l i : nth i (skipn n l) d = nth (n + i) l d.
Proof. revert n; induction l; destruct n; simpl; intros; auto. destruct i; auto. Qed.
