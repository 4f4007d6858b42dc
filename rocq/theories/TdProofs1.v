(** Lemmas for C72, first part: permute_legs and bend_legs at the level of legs. *)
From Coq Require Import String ZArith List Bool Permutation Lia.
From Verif Require Import Util GridModel PermLegsModel PermLegsSpec PermLegsProofs5 PermLegsProps PlanarModel PlanarSpec PlanarProofs1 PlanarProofs2 PcModel PcSpec TdModel TdSpec.
Import ListNotations.
Set Implicit Arguments. Unset Strict Implicit.
Open Scope nat_scope.

Section Call.
Variables triv sym : bool.

Lemma do_call_legs nc nd co dom b : Permutation (dom ++ co) (seq 0 (nc + nd)) ->
  length (match b with BendAll b => repeat (Some b) (nc + nd) | BendList l => l end) = nc + nd ->
  match do_call triv sym (legs0 nc nd) (Call co dom b) with POk (st, _) => st = (co, dom) | PErr _ => ~ (triv = true /\ sym = true) end.
Proof.
  intros P' LB. unfold do_call. change (fst (legs0 nc nd)) with (seq 0 nc). change (snd (legs0 nc nd)) with (rev (seq nc nd)). rewrite rev_length, !seq_length.
  unfold permute_front. cbn [c_cod c_dom c_bend].
  assert (P : is_perm (nc + nd) (co ++ rev dom)).
  { unfold is_perm. rewrite <- P'. rewrite Permutation_app_comm. apply Permutation_app_tail. symmetry. apply Permutation_rev. }
  assert (D : has_dup (dom ++ co) = false). { apply has_dup_NoDup. eapply Permutation_NoDup; [symmetry; exact P'|apply seq_NoDup]. }
  assert (FA : forallb (contains (dom ++ co)) (seq 0 (nc + nd)) = true). { apply forallb_forall. intros i J. apply contains_In. eapply Permutation_in; [symmetry; exact P'|exact J]. }
  rewrite D, FA. cbn [orb negb]. destruct (legs_unchanged nc nd co dom) eqn:U.
  - apply unchanged_spec in U.
    + destruct U as [ -> -> ]. unfold legs0. reflexivity.
    + assert (Y := is_perm_length P). rewrite app_length, rev_length in Y. unfold legs_unchanged in U. rewrite !andb_true_iff in U. destruct U as [[U _] _]. apply Nat.eqb_eq in U. lia.
  - set (bends := match b with BendAll b => _ | BendList l => l end) in *. rewrite LB, Nat.eqb_refl. cbn [negb].
    assert (R : forall bl, length bl = nc + nd -> (forall i, i < nc + nd -> changes_side (PermLegsSpec.Request nc nd co dom (repeat None (nc + nd)) bl sym) i = true -> nth i bl None <> None) ->
      match match run (PermLegsSpec.Request nc nd co dom (repeat None (nc + nd)) bl sym) with
            | Err e => PErr (Engine e)
            | Ok instrs => match exec (legs0 nc nd) instrs with Some r => POk r | None => PErr Undefined end
            end with POk (st, _) => st = (co, dom) | PErr _ => sym = false end).
    { intros bl Lb Cb. set (r := PermLegsSpec.Request _ _ _ _ _ _ _).
      assert (V : valid_request r). { split; [exact P|]. cbn [r r_levels r_bend r_nc r_nd]. rewrite repeat_length. repeat split; assumption. }
      assert (S := run_spec V). assert (T := fun e => proj1 (C22_error_iff_undecided_crossing r e V)). destruct (run r) as [l|e].
      - destruct S as (js1 & js2 & js3 & _ & _ & _ & _ & _ & _ & _ & EX). unfold r in EX. cbn [r_nc r_nd r_cod r_dom] in EX. rewrite EX. reflexivity.
      - destruct (T e eq_refl) as (_ & E & _). exact E. }
    destruct triv.
    + assert (X := R (repeat (Some true) (nc + nd)) (repeat_length _ _)). match goal with |- match ?m with _ => _ end => destruct m as [[st ev]|e] end.
      * apply X. intros i Hi _. rewrite nth_repeat_lt by exact Hi. discriminate.
      * intros [_ E]. rewrite X in E; [discriminate|]. intros i Hi _. rewrite nth_repeat_lt by exact Hi. discriminate.
    + set (bl := filter _ dom ++ _). destruct (forallb _ bl) eqn:FB; [|now intros []].
      assert (X := R bends LB). match goal with |- match ?m with _ => _ end => destruct m as [[st ev]|e] end; [|now intros []].
      apply X. intros i Hi C N. rewrite forallb_forall in FB. specialize (FB i). rewrite N in FB. enough (In i bl) by (specialize (FB H); discriminate).
      unfold changes_side in C. cbn [r_nc r_cod r_dom] in C. unfold bl. apply in_app_iff. rewrite !filter_In. destruct (Nat.ltb_spec i nc).
      * left. split; [now apply memb_In in C|reflexivity].
      * right. split; [now apply memb_In in C|now apply Nat.leb_le].
Qed.

(** ** the legs of a tensor in a row *)
Definition lin (t : legs_t name) : list name := fst t ++ rev (snd t).
Lemma lin_length t : length (lin t) = total t.
Proof. unfold lin, total. now rewrite app_length, rev_length. Qed.

Lemma permute_legs_spec t co dom b : Permutation (dom ++ co) (seq 0 (total t)) ->
  length (match b with BendAll b => repeat (Some b) (total t) | BendList l => l end) = total t ->
  match permute triv sym t co dom b with
  | inr t' => t' = (map (leg d0 t) co, map (leg d0 t) dom)
  | inl _ => ~ (triv = true /\ sym = true)
  end.
Proof.
  intros P LB. unfold permute. assert (X := @do_call_legs (length (fst t)) (length (snd t)) co dom b P LB). destruct (do_call _ _ _ _) as [[st ev]|e]; [|exact X]. now subst st.
Qed.

Lemma filter_split (l s : list nat) : NoDup s -> incl l s -> NoDup l -> Permutation (l ++ filter (fun i => negb (contains l i)) s) s.
Proof.
  intros N1 I N2. apply NoDup_Permutation.
  - apply NoDup_app_intro; [exact N2|now apply NoDup_filter|]. intros x H1 H2. apply filter_In in H2. destruct H2 as [_ H2]. apply contains_In in H1. now rewrite H1 in H2.
  - exact N1.
  - intros x. rewrite in_app_iff, filter_In. split; [intros [H|[H _]]; [now apply I|exact H]|]. intros H. destruct (contains l x) eqn:E; [left; now apply contains_In|right; now split].
Qed.
Definition proper (n : nat) (l : list nat) : Prop := NoDup l /\ Forall (fun i => i < n) l.
Lemma proper_incl n l : proper n l -> incl l (seq 0 n).
Proof. intros [_ F] x H. apply in_seq. rewrite Forall_forall in F. specialize (F x H). lia. Qed.
Lemma proper_range n l : proper n l -> existsb (fun x => n <=? x) l = false.
Proof. intros [_ F]. destruct (existsb _ l) eqn:E; [|reflexivity]. apply existsb_exists in E. destruct E as (x & H & L). rewrite Forall_forall in F. specialize (F x H). apply Nat.leb_le in L. lia. Qed.

Definition others (n : nat) (l : list nat) : list nat := filter (fun i => negb (contains l i)) (seq 0 n).
Lemma filter_rev A (f : A -> bool) (l : list A) : filter f (rev l) = rev (filter f l).
Proof. induction l as [|x l IH]; [reflexivity|]. cbn [rev filter]. rewrite filter_app, IH. cbn [filter]. destruct (f x); cbn [rev]; [reflexivity|apply app_nil_r]. Qed.

Lemma permute_domain_spec t dom : proper (total t) dom ->
  match permute_domain triv sym t dom with inr t' => t' = (map (leg d0 t) (others (total t) dom), map (leg d0 t) dom) | inl _ => ~ (triv = true /\ sym = true) end.
Proof.
  intros P. unfold permute_domain. rewrite (proper_range P). apply permute_legs_spec; [|apply repeat_length]. apply filter_split; [apply seq_NoDup|now apply proper_incl|exact (proj1 P)].
Qed.
Lemma permute_codomain_spec t co : proper (total t) co ->
  match permute_codomain triv sym t co with inr t' => t' = (map (leg d0 t) co, rev (map (leg d0 t) (others (total t) co))) | inl _ => ~ (triv = true /\ sym = true) end.
Proof.
  intros P. unfold permute_codomain. rewrite (proper_range P).
  assert (X := @permute_legs_spec t co (filter (fun i => negb (contains co i)) (rev (seq 0 (total t)))) (BendList (repeat None (total t)))).
  destruct (permute _ _ _ _ _ _) as [e|t'].
  - apply X; [|apply repeat_length]. rewrite Permutation_app_comm, filter_rev, <- Permutation_rev. apply filter_split; [apply seq_NoDup|now apply proper_incl|exact (proj1 P)].
  - rewrite <- map_rev. unfold others. rewrite <- filter_rev. apply X; [|apply repeat_length].
    rewrite Permutation_app_comm, filter_rev, <- Permutation_rev. apply filter_split; [apply seq_NoDup|now apply proper_incl|exact (proj1 P)].
Qed.
Lemma bend_legs_spec t n : n <= total t ->
  match bend_legs triv sym t n with inr t' => t' = (firstn n (lin t), rev (skipn n (lin t))) | inl _ => ~ (triv = true /\ sym = true) end.
Proof.
  intros L. unfold bend_legs.
  assert (X := @permute_legs_spec t (seq 0 n) (rev (seq n (total t - n))) (BendAll true)). destruct (permute _ _ _ _ _ _) as [e|t'].
  - apply X; [|apply repeat_length]. rewrite Permutation_app_comm, <- Permutation_rev, <- seq_app. replace (n + _) with (total t) by lia. reflexivity.
  - rewrite X; [| |apply repeat_length].
    + assert (E : lin t = map (leg d0 t) (seq 0 n) ++ map (leg d0 t) (seq n (total t - n))).
      { rewrite <- map_app, <- (seq_app n). replace (n + (total t - n)) with (length (lin t)) by (rewrite lin_length; lia). symmetry. apply (take_seq d0). }
      rewrite E. f_equal.
      * rewrite firstn_app, map_length, seq_length, Nat.sub_diag, firstn_O, app_nil_r. now rewrite firstn_all2 by (rewrite map_length, seq_length; lia).
      * rewrite skipn_app, map_length, seq_length, Nat.sub_diag, skipn_O. rewrite skipn_all2 by (rewrite map_length, seq_length; lia). cbn [app]. now rewrite map_rev.
    + rewrite Permutation_app_comm, <- Permutation_rev, <- seq_app. replace (n + _) with (total t) by lia. reflexivity.
Qed.
End Call.

(** ** replacing and dropping legs *)
Lemma upd_app A (l l' : list A) k x : upd (l ++ l') k x = if k <? length l then upd l k x ++ l' else l ++ upd l' (k - length l) x.
Proof.
  revert k. induction l as [|y l IH]; intros k; cbn [app length].
  - cbn [Nat.ltb Nat.leb]. now rewrite Nat.sub_0_r.
  - destruct k as [|k]; cbn [upd]; [reflexivity|]. rewrite IH. change (S k <? S (length l)) with (k <? length l). destruct (k <? length l); reflexivity.
Qed.
Lemma upd_rev A (l : list A) k x : k < length l -> rev (upd l k x) = upd (rev l) (length l - 1 - k) x.
Proof.
  revert k. induction l as [|y l IH]; intros k L; cbn [length] in L; [lia|]. destruct k as [|k]; cbn [upd rev]; rewrite upd_app, rev_length.
  - destruct (Nat.ltb_spec (length (y :: l) - 1 - 0) (length l)); [cbn [length] in *; lia|]. cbn [length]. replace (S (length l) - 1 - 0 - length l) with 0 by lia. reflexivity.
  - destruct (Nat.ltb_spec (length (y :: l) - 1 - S k) (length l)); [|cbn [length] in *; lia]. rewrite IH by lia. cbn [length]. do 2 f_equal. lia.
Qed.
Lemma lin_set (t : legs_t name) k x : k < total t -> lin (set_leg t k x) = upd (lin t) k x.
Proof.
  intros L. unfold lin, set_leg, total in *. rewrite upd_app. destruct (Nat.ltb_spec k (length (fst t))); cbn [fst snd]; [reflexivity|].
  rewrite upd_rev by lia. replace (length (snd t) - 1 - (length (fst t) + length (snd t) - 1 - k)) with (k - length (fst t)) by lia. reflexivity.
Qed.
Lemma total_set (t : legs_t name) k x : total (set_leg t k x) = total t.
Proof. unfold set_leg, total. destruct (k <? length (fst t)); cbn [fst snd]; now rewrite upd_length. Qed.

Lemma filter_combine A (d : A) (f : nat -> bool) l s : map snd (filter (fun p => f (fst p)) (combine (seq s (length l)) l)) = map (fun i => nth (i - s) l d) (filter f (seq s (length l))).
Proof.
  revert s. induction l as [|x l IH]; intros s; [reflexivity|]. cbn [length seq combine filter]. change (fst (s, x)) with s. specialize (IH (S s)).
  assert (E : forall i, In i (filter f (seq (S s) (length l))) -> nth (i - S s) l d = nth (i - s) (x :: l) d).
  { intros i H. apply filter_In in H. destruct H as [H _]. apply in_seq in H. replace (i - s) with (S (i - S s)) by lia. reflexivity. }
  destruct (f s); cbn [map].
  - rewrite Nat.sub_diag. change (nth 0 (x :: l) d) with x. change (snd (s, x)) with x. f_equal. rewrite IH. apply map_ext_in. exact E.
  - rewrite IH. apply map_ext_in. exact E.
Qed.
Lemma seq_flip nc nd : map (fun i => nc + nd - 1 - i) (rev (seq 0 nd)) = seq nc nd.
Proof.
  apply list_eq_nth with (d := 0); [now rewrite map_length, rev_length, !seq_length|]. intros i Hi. rewrite map_length, rev_length, seq_length in Hi.
  rewrite nth_map_lt with (d := 0) by now rewrite rev_length, seq_length. rewrite rev_nth by now rewrite seq_length. rewrite seq_length, !seq_nth by lia. lia.
Qed.
Lemma filter_map A B (f : A -> bool) (g : B -> A) l : filter f (map g l) = map g (filter (fun i => f (g i)) l).
Proof. induction l as [|x l IH]; [reflexivity|]. cbn [map filter]. rewrite IH. now destruct (f (g x)). Qed.
Lemma lin_drop (t : legs_t name) gone : lin (drop_legs t gone) = map (leg d0 t) (others (total t) gone).
Proof.
  unfold lin, drop_legs, others. cbn [fst snd]. rewrite (filter_combine d0 (fun i => negb (contains gone i))), (filter_combine d0 (fun i => negb (contains gone (total t - 1 - i)))).
  change (seq 0 (total t)) with (seq 0 (length (fst t) + length (snd t))). rewrite seq_app, filter_app, map_app. cbn [plus]. f_equal.
  - apply map_ext_in. intros i H. apply filter_In in H. destruct H as [H _]. apply in_seq in H. rewrite Nat.sub_0_r. unfold leg. now rewrite app_nth1 by lia.
  - rewrite <- (seq_flip (length (fst t)) (length (snd t))). rewrite filter_map, map_map, <- map_rev, <- filter_rev. apply map_ext_in. intros i H. apply filter_In in H. destruct H as [H _].
    apply in_rev in H. apply in_seq in H. rewrite Nat.sub_0_r. unfold leg. rewrite app_nth2 by lia. rewrite rev_nth by (unfold total; lia). f_equal. unfold total. lia.
Qed.
