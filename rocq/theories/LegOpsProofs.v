(** Lemmas on permute_legs and combine_legs. *)
From Coq Require Import List Arith Bool ZArith Permutation Lia.
From Verif Require Import Util GridModel GridProofs SymModel PipeModel PipeProofs4 LabelsModel LegOpsModel LegOpsSpec.
Import ListNotations.
Set Implicit Arguments. Unset Strict Implicit.
Open Scope nat_scope.

Lemma contains_iff l n : contains l n = true <-> In n l.
Proof.
  unfold contains. rewrite existsb_exists. split.
  - intros [x [I E]]. apply Nat.eqb_eq in E. now subst.
  - intros I. exists n. split; [exact I|apply Nat.eqb_refl].
Qed.
Lemma contains_false l n : contains l n = false <-> ~ In n l.
Proof. rewrite <- contains_iff. destruct (contains l n); split; congruence. Qed.
Lemma has_dup_iff l : has_dup l = false <-> NoDup l.
Proof.
  induction l as [|x t IH]; cbn [has_dup].
  - split; [constructor|reflexivity].
  - rewrite orb_false_iff, contains_false, IH. split; [intros [H1 H2]; now constructor|intros H; inversion H; now split].
Qed.

(** ** legs of a tensor *)
Lemma legs_length t : length (legs t) = num_legs t.
Proof. unfold legs, num_legs. rewrite app_length, rev_length, map_length. reflexivity. Qed.
Lemma legs_nth t n : n < num_legs t -> leg_at t n = as_codomain_leg t n.
Proof.
  unfold leg_at, legs, as_codomain_leg, num_legs, num_codomain. intros H. destruct (Nat.ltb_spec n (length (t_codomain t))) as [L|L].
  - now rewrite app_nth1.
  - rewrite app_nth2 by lia. rewrite rev_nth by (rewrite map_length; lia). rewrite map_length.
    rewrite nth_map_lt with (d := noleg) by lia. f_equal. f_equal. lia.
Qed.
Lemma as_domain_dual t n : n < num_legs t -> as_domain_leg t n = dual_leg (leg_at t n).
Proof.
  intros H. rewrite legs_nth by exact H. unfold as_domain_leg, as_codomain_leg. destruct (n <? num_codomain t); [reflexivity|now rewrite dual_leg_invol].
Qed.
Lemma codomain_firstn t : t_codomain t = firstn (num_codomain t) (legs t).
Proof. unfold legs, num_codomain. rewrite firstn_app, Nat.sub_diag, firstn_all. cbn. now rewrite app_nil_r. Qed.
Lemma map_dual_invol l : map dual_leg (map dual_leg l) = l.
Proof. rewrite map_map. rewrite <- (map_id l) at 2. apply map_ext. intros; apply dual_leg_invol. Qed.
Lemma domain_skipn t : t_domain t = rev (map dual_leg (skipn (num_codomain t) (legs t))).
Proof.
  unfold legs, num_codomain. rewrite skipn_app, Nat.sub_diag, skipn_all. cbn [app skipn]. rewrite map_rev, rev_involutive. symmetry. apply map_dual_invol.
Qed.
Lemma tens_eq_legs c d l : legs (Tens c d l) = c ++ rev (map dual_leg d).
Proof. reflexivity. Qed.
Lemma codomain_domain_length t : length (t_domain t) = num_legs t - num_codomain t.
Proof. unfold num_legs, num_codomain. lia. Qed.

(** ** permute_legs *)
Lemma unchanged_iff t c d : is_perm (num_legs t) (c ++ rev d) -> unchanged t c d = true ->
  c = seq 0 (num_codomain t) /\ rev d = seq (num_codomain t) (num_legs t - num_codomain t).
Proof.
  intros P U. unfold unchanged in U. apply andb_prop in U. destruct U as [U U3]. apply andb_prop in U. destruct U as [U1 U2].
  apply Nat.eqb_eq in U1. rewrite forallb_forall in U2, U3.
  assert (LEN := is_perm_length P). rewrite app_length, rev_length in LEN. split.
  - apply list_eq_nth with (d := 0); [now rewrite seq_length|]. intros i Hi. rewrite seq_nth by lia.
    apply Nat.eqb_eq. apply U2. apply in_seq. lia.
  - apply list_eq_nth with (d := 0); [rewrite rev_length, seq_length; lia|]. intros i Hi. rewrite rev_length in Hi.
    rewrite rev_nth by exact Hi. rewrite seq_nth by lia.
    assert (Hj : length d - Datatypes.S i < length d) by lia.
    specialize (U3 (length d - Datatypes.S i, nth (length d - Datatypes.S i) d 0)).
    assert (I : In (length d - Datatypes.S i, nth (length d - Datatypes.S i) d 0) (combine (seq 0 (length d)) d)).
    { replace (length d - Datatypes.S i, nth (length d - Datatypes.S i) d 0) with (nth (length d - Datatypes.S i) (combine (seq 0 (length d)) d) (0, 0)).
      - apply nth_In. rewrite combine_length, seq_length. lia.
      - rewrite combine_nth by apply seq_length. f_equal. rewrite seq_nth by exact Hj. reflexivity. }
    specialize (U3 I). cbn [fst snd] in U3. apply Nat.eqb_eq in U3. lia.
Qed.

Lemma map_nth_seq_all A (d : A) l : map (fun n => nth n l d) (seq 0 (length l)) = l.
Proof.
  apply list_eq_nth with (d := d); [now rewrite map_length, seq_length|]. intros i Hi. rewrite map_length, seq_length in Hi.
  rewrite nth_map_lt with (d := 0) by (now rewrite seq_length). now rewrite seq_nth.
Qed.

Lemma permute_spec t c d : tens_ok t -> is_perm (num_legs t) (c ++ rev d) ->
  legs (permute t c d) = map (leg_at t) (c ++ rev d) /\ t_labels (permute t c d) = map (label_at t) (c ++ rev d) /\ num_codomain (permute t c d) = length c.
Proof.
  intros OK P. unfold permute. destruct (unchanged t c d) eqn:U.
  - destruct (unchanged_iff P U) as [E1 E2]. rewrite E2. rewrite E1 at 1 2.
    replace (seq 0 (num_codomain t) ++ seq (num_codomain t) (num_legs t - num_codomain t)) with (seq 0 (num_legs t)).
    2:{ rewrite <- seq_app. f_equal. unfold num_legs, num_codomain. lia. }
    split; [|split].
    + rewrite <- legs_length. symmetry. apply (map_nth_seq_all noleg).
    + rewrite <- OK. symmetry. apply (map_nth_seq_all None).
    + now rewrite E1, seq_length.
  - assert (B : forall n, In n (c ++ rev d) -> n < num_legs t) by (intros n I; now apply (is_perm_In n P)).
    assert (LAB : map (fun n => nth n (t_labels t) None) c ++ rev (map (fun n => nth n (t_labels t) None) d) = map (label_at t) (c ++ rev d)).
    { rewrite map_app, <- map_rev. reflexivity. }
    assert (LEGS : map (as_codomain_leg t) c ++ rev (map dual_leg (map (as_domain_leg t) d)) = map (leg_at t) (c ++ rev d)).
    { rewrite map_app, map_map, <- map_rev. f_equal.
      - apply map_ext_in. intros n I. symmetry. apply legs_nth. apply B, in_or_app. now left.
      - apply map_ext_in. intros n I. rewrite as_domain_dual, dual_leg_invol; [reflexivity|]. apply B, in_or_app. now right. }
    destruct (bending t c d) as [|b bs] eqn:EB.
    + split; [|split].
      * rewrite tens_eq_legs. rewrite <- LEGS. f_equal.
        { apply map_ext_in. intros n I. unfold as_codomain_leg.
          destruct (Nat.ltb_spec n (num_codomain t)) as [L|L]; [reflexivity|]. exfalso.
          assert (In n (bending t c d)) by (unfold bending; apply in_or_app; right; apply filter_In; split; [exact I|now apply Nat.leb_le]).
          rewrite EB in H. exact H. }
        { rewrite !map_map. f_equal. apply map_ext_in. intros n I. f_equal. unfold as_domain_leg.
          destruct (Nat.ltb_spec n (num_codomain t)) as [L|L]; [|reflexivity]. exfalso.
          assert (In n (bending t c d)) by (unfold bending; apply in_or_app; left; apply filter_In; split; [exact I|now apply Nat.ltb_lt]).
          rewrite EB in H. exact H. }
      * exact LAB.
      * apply map_length.
    + split; [exact LEGS|]. split; [exact LAB|apply map_length].
Qed.
Lemma permute_ok t c d : tens_ok t -> is_perm (num_legs t) (c ++ rev d) -> tens_ok (permute t c d) /\ num_legs (permute t c d) = num_legs t.
Proof.
  intros OK P. destruct (permute_spec OK P) as [E1 [E2 _]].
  assert (L : num_legs (permute t c d) = num_legs t) by (rewrite <- legs_length, E1, map_length; apply (is_perm_length P)).
  split; [|exact L]. unfold tens_ok. rewrite E2, map_length, L. apply (is_perm_length P).
Qed.
Lemma parse_both t c d : parse_permutation t (Some c) (Some d) = (if has_dup (d ++ c) then None else if existsb (fun n => negb (contains (d ++ c) n)) (seq 0 (num_legs t)) then None else Some (c, d)).
Proof. reflexivity. Qed.
Lemma perm_comm_rev n (c d : list nat) : is_perm n (c ++ rev d) <-> is_perm n (d ++ c).
Proof.
  unfold is_perm. assert (Q : Permutation (c ++ rev d) (d ++ c)).
  { etransitivity; [apply Permutation_app_comm|]. apply Permutation_app_tail. symmetry. apply Permutation_rev. }
  split; intros H; [now rewrite <- Q|now rewrite Q].
Qed.
Lemma parse_both_perm t c d : is_perm (num_legs t) (c ++ rev d) -> parse_permutation t (Some c) (Some d) = Some (c, d).
Proof.
  intros P. rewrite parse_both. apply (proj1 (perm_comm_rev _ _ _)) in P.
  assert (ND := is_perm_NoDup P). apply has_dup_iff in ND. rewrite ND.
  destruct (existsb _ _) eqn:E; [|reflexivity]. exfalso. apply existsb_exists in E. destruct E as [n [I E]]. apply negb_true_iff, contains_false in E.
  apply E. apply (is_perm_In n P). apply in_seq in I. lia.
Qed.
Lemma parse_both_inv t c d : Forall (fun n => n < num_legs t) (c ++ d) -> parse_permutation t (Some c) (Some d) <> None -> is_perm (num_legs t) (c ++ rev d).
Proof.
  intros B. rewrite parse_both. destruct (has_dup (d ++ c)) eqn:E1; [congruence|]. destruct (existsb _ _) eqn:E2; [congruence|]. intros _.
  apply (proj2 (perm_comm_rev _ _ _)). apply has_dup_iff in E1. unfold is_perm. apply NoDup_Permutation; [exact E1|apply seq_NoDup|]. intros n. split.
  - intros I. apply in_seq. rewrite Forall_forall in B. specialize (B n). rewrite in_app_iff in *. destruct I; intuition lia.
  - intros I. destruct (contains (d ++ c) n) eqn:EC; [now apply contains_iff|]. exfalso.
    assert (existsb (fun n => negb (contains (d ++ c) n)) (seq 0 (num_legs t)) = true); [|congruence].
    apply existsb_exists. exists n. split; [exact I|now rewrite EC].
Qed.
