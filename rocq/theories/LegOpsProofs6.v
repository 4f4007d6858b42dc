(** move_leg, order of the groups. *)
From Coq Require Import List Arith Bool ZArith Permutation Lia Sorted.
From Verif Require Import Util GridModel GridProofs SymModel PipeModel PipeProofs4 LabelsModel LabelsProofs LegOpsModel LegOpsSpec LegOpsProofs LegOpsProofs2 LegOpsProofs3 LegOpsProofs4 LegOpsProofs5.
Import ListNotations.
Set Implicit Arguments. Unset Strict Implicit.
Open Scope nat_scope.

Lemma permute_legs_both t c d : tens_ok t -> is_perm (num_legs t) (c ++ rev d) -> exists t', permute_legs t (Some c) (Some d) = Some t' /\
  legs t' = map (leg_at t) (c ++ rev d) /\ t_labels t' = map (label_at t) (c ++ rev d) /\ num_codomain t' = length c.
Proof.
  intros TOK P. exists (permute t c d). unfold permute_legs. rewrite (parse_both_perm P). split; [reflexivity|]. now apply permute_spec.
Qed.
Lemma insert_nth_perm A p (x : A) l : Permutation (insert_nth p x l) (x :: l).
Proof. unfold insert_nth. rewrite <- Permutation_middle. constructor. now rewrite firstn_skipn. Qed.
Lemma rev_insert_nth A p (x : A) l : p <= length l -> rev (insert_nth p x (rev l)) = insert_nth (length l - p) x l.
Proof.
  intros H. unfold insert_nth. rewrite rev_app_distr. cbn [rev]. rewrite firstn_rev, skipn_rev, !rev_involutive, <- app_assoc. reflexivity.
Qed.
Lemma filter_rev' A (f : A -> bool) l : filter f (rev l) = rev (filter f l).
Proof. induction l as [|x l IH]; [reflexivity|]. cbn [rev filter]. rewrite filter_app, IH. cbn [filter]. destruct (f x); [reflexivity|]. cbn [rev]. apply app_nil_r. Qed.
Definition others (l : nat) (ns : list nat) : list nat := filter (fun n => negb (n =? l)) ns.
Lemma others_none l ns : ~ In l ns -> others l ns = ns.
Proof. intros H. apply filter_all. intros n I. destruct (Nat.eqb_spec n l); [subst; contradiction|reflexivity]. Qed.
Lemma others_perm l ns : NoDup ns -> In l ns -> Permutation (l :: others l ns) ns.
Proof.
  intros ND I. apply NoDup_Permutation; [constructor; [|now apply NoDup_filter]|exact ND|].
  - intros J. apply filter_In in J. destruct J as [_ J]. now rewrite Nat.eqb_refl in J.
  - intros x. cbn [In]. unfold others. rewrite filter_In. destruct (Nat.eqb_spec x l) as [->|NE]; cbn [negb]; split; intros Q.
    + exact I.
    + now left.
    + destruct Q as [Q|[Q _]]; [congruence|exact Q].
    + right. now split.
Qed.
Lemma move_spec t l : tens_ok t -> l < num_legs t ->
  let co := others l (seq 0 (num_codomain t)) in let dom := others l (seq (num_codomain t) (num_legs t - num_codomain t)) in
  (forall p, p <= length co -> exists t', move_leg t l (Some p) None = Some t' /\ legs t' = map (leg_at t) (insert_nth p l co ++ dom) /\
     t_labels t' = map (label_at t) (insert_nth p l co ++ dom) /\ num_codomain t' = length co + 1) /\
  (forall p, p <= length dom -> exists t', move_leg t l None (Some p) = Some t' /\ legs t' = map (leg_at t) (co ++ insert_nth (length dom - p) l dom) /\
     t_labels t' = map (label_at t) (co ++ insert_nth (length dom - p) l dom) /\ num_codomain t' = length co /\ nth p (t_domain t') noleg = dual_leg (leg_at t l)).
Proof.
  intros TOK Hl co dom. set (J := num_codomain t) in *. set (N := num_legs t) in *. assert (JN : J <= N) by (unfold J, N, num_codomain, num_legs; lia).
  assert (PERM : is_perm N (l :: co ++ dom)).
  { unfold is_perm. replace (co ++ dom) with (others l (seq 0 N)).
    - apply others_perm; [apply seq_NoDup|apply in_seq; lia].
    - unfold co, dom, others. rewrite <- filter_app, <- seq_app. do 2 f_equal. lia. }
  assert (EC : (if J <=? l then seq 0 J else filter (fun n => negb (n =? l)) (seq 0 J)) = co).
  { destruct (Nat.leb_spec J l); [|reflexivity]. symmetry. apply others_none. rewrite in_seq. lia. }
  assert (ED : (if J <=? l then filter (fun n => negb (n =? l)) (rev (seq J (N - J))) else rev (seq J (N - J))) = rev dom).
  { destruct (Nat.leb_spec J l); [apply filter_rev'|]. f_equal. symmetry. apply others_none. rewrite in_seq. lia. }
  split; intros p Hp; unfold move_leg; fold J N; rewrite EC, ED.
  - apply Nat.leb_le in Hp. rewrite Hp. destruct (permute_legs_both (t := t) (c := insert_nth p l co) (d := rev dom) TOK) as [t' [E [E1 [E2 E3]]]].
    + rewrite rev_involutive. unfold is_perm in *. etransitivity; [|exact PERM]. rewrite insert_nth_perm. reflexivity.
    + rewrite rev_involutive in E1, E2. exists t'. split; [exact E|]. split; [exact E1|]. split; [exact E2|]. rewrite E3. rewrite (Permutation_length (insert_nth_perm p l co)). cbn [length]. lia.
  - assert (LD : length (rev dom) = length dom) by apply rev_length. assert (Hp' := Hp). apply Nat.leb_le in Hp. rewrite LD, Hp.
    destruct (permute_legs_both (t := t) (c := co) (d := insert_nth p l (rev dom)) TOK) as [t' [E [E1 [E2 E3]]]].
    + rewrite (rev_insert_nth _ Hp'). unfold is_perm in *. etransitivity; [|exact PERM]. rewrite insert_nth_perm. symmetry. apply Permutation_middle.
    + rewrite (rev_insert_nth _ Hp') in E1, E2. exists t'. split; [exact E|]. split; [exact E1|]. split; [exact E2|]. split; [exact E3|].
      rewrite domain_skipn, E3, E1, map_app, skipn_app, map_length, Nat.sub_diag. rewrite skipn_all2 by (rewrite map_length; lia). cbn [app skipn].
      unfold insert_nth. rewrite map_app. cbn [map]. rewrite map_app, rev_app_distr. cbn [map rev]. rewrite <- app_assoc.
      rewrite app_nth2; rewrite rev_length, !map_length, skipn_length; [|lia].
      replace (p - (length dom - (length dom - p))) with 0 by lia. reflexivity.
Qed.

Lemma in_order_rank N groups : groups_ok N groups -> in_leg_order groups -> forall k, k < length groups -> group_at groups (hd 0 (nth k groups [])) = Some (nth k groups []) /\ rank groups (hd 0 (nth k groups [])) = k.
Proof.
  intros G O k Hk. split; [apply (group_at_iff G); split; [now apply nth_In|reflexivity]|].
  unfold rank. set (x := hd 0 (nth k groups [])).
  assert (E : filter (fun g => hd 0 g <? x) groups = firstn k groups).
  { rewrite <- (firstn_skipn k groups) at 1. rewrite filter_app. rewrite filter_all, filter_none; [apply app_nil_r| |].
    - intros g I. apply (In_nth _ _ []) in I. destruct I as [i [Hi <-]]. rewrite skipn_length in Hi. rewrite nth_skipn'. apply Nat.ltb_ge. unfold x.
      destruct (Nat.eq_dec i 0) as [->|]; [now rewrite Nat.add_0_r|]. apply Nat.lt_le_incl. apply O. lia.
    - intros g I. apply (In_nth _ _ []) in I. destruct I as [i [Hi <-]]. rewrite firstn_length in Hi. rewrite nth_firstn_lt by lia. apply Nat.ltb_lt. apply O. lia. }
  rewrite E, firstn_length. lia.
Qed.
