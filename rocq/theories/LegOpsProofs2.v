(** combine_legs: the permutation. *)
From Coq Require Import List Arith Bool ZArith Permutation Lia.
From Verif Require Import Util GridModel GridProofs SymModel PipeModel PipeProofs4 LabelsModel LegOpsModel LegOpsSpec LegOpsProofs.
Import ListNotations.
Set Implicit Arguments. Unset Strict Implicit.
Open Scope nat_scope.

Lemma NoDup_app_both A (a b : list A) : NoDup (a ++ b) -> NoDup a /\ NoDup b /\ forall x, In x a -> ~ In x b.
Proof.
  induction a as [|x a IH]; cbn [app]; intros H.
  - split; [constructor|]. split; [exact H|]. intros x [].
  - inversion H as [|y l NI ND]; subst. destruct (IH ND) as [H1 [H2 H3]]. split; [constructor; [|exact H1]|split; [exact H2|]].
    + intros I. apply NI, in_or_app. now left.
    + intros y [->|I]; [intros J; apply NI, in_or_app; now right|now apply H3].
Qed.

Section Groups.
  Variables (N : nat) (groups : list (list nat)).
  Hypothesis GOK : groups_ok N groups.

  Lemma g_nonempty g : In g groups -> g <> [].
  Proof. intros I. destruct GOK as [F _]. rewrite Forall_forall in F. now apply F. Qed.
  Lemma g_lt g n : In g groups -> In n g -> n < N.
  Proof. intros I J. destruct GOK as [F _]. rewrite Forall_forall in F. destruct (F g I) as [_ F2]. rewrite Forall_forall in F2. now apply F2. Qed.
  Lemma g_split g : In g groups -> exists a, exists b, groups = a ++ g :: b /\ (forall x, In x g -> ~ In x (concat (a ++ b))) /\ NoDup g.
  Proof.
    intros I. destruct (in_split g groups I) as [a [b E]]. exists a, b. split; [exact E|].
    destruct GOK as [_ ND]. rewrite E, concat_app in ND. cbn [concat] in ND.
    assert (ND' : NoDup (g ++ concat a ++ concat b)).
    { apply (Permutation_NoDup (l := concat a ++ g ++ concat b)); [|exact ND]. rewrite !app_assoc. apply Permutation_app_tail, Permutation_app_comm. }
    destruct (NoDup_app_both ND') as [H1 [_ H3]]. split; [|exact H1]. intros x X. rewrite concat_app. now apply H3.
  Qed.
  Lemma g_unique g g' n : In g groups -> In g' groups -> In n g -> In n g' -> g = g'.
  Proof.
    intros I J X Y. destruct (g_split I) as [a [b [E [D _]]]]. rewrite E in J. apply in_app_or in J. destruct J as [J|[J|J]].
    - exfalso. apply (D n X). rewrite concat_app. apply in_or_app. left. apply in_concat. now exists g'.
    - exact J.
    - exfalso. apply (D n X). rewrite concat_app. apply in_or_app. right. apply in_concat. now exists g'.
  Qed.
  Lemma g_hd_in g : In g groups -> In (hd 0 g) g.
  Proof. intros I. assert (H := g_nonempty I). destruct g; [congruence|now left]. Qed.
  Lemma g_hd_unique g g' : In g groups -> In g' groups -> hd 0 g = hd 0 g' -> g = g'.
  Proof. intros I J E. apply (g_unique (n := hd 0 g) I J (g_hd_in I)). rewrite E. now apply g_hd_in. Qed.

  Lemma group_at_iff n g : group_at groups n = Some g <-> In g groups /\ hd 0 g = n.
  Proof.
    unfold group_at. split.
    - intros E. apply find_some in E. destruct E as [I E]. apply Nat.eqb_eq in E. now split.
    - intros [I E]. destruct (find _ groups) as [g'|] eqn:F.
      + apply find_some in F. destruct F as [I' F]. apply Nat.eqb_eq in F. f_equal. apply g_hd_unique; [exact I'|exact I|congruence].
      + exfalso. apply (find_none _ _ F) in I. rewrite E, Nat.eqb_refl in I. discriminate.
  Qed.
  Lemma group_at_none n : group_at groups n = None <-> forall g, In g groups -> hd 0 g <> n.
  Proof.
    split.
    - intros E g I H. assert (K : group_at groups n = Some g) by (apply group_at_iff; now split). congruence.
    - intros H. destruct (group_at groups n) as [g|] eqn:E; [|reflexivity]. apply group_at_iff in E. destruct E as [I E]. exfalso. now apply (H g).
  Qed.
  Lemma absorbed_iff n : absorbed groups n = true <-> exists g, In g groups /\ In n (tl g).
  Proof.
    unfold absorbed. rewrite existsb_exists. split; intros [g [I H]]; exists g; (split; [exact I|]); now apply contains_iff.
  Qed.
  Lemma in_hd_or_tl n (g : list nat) : In n g <-> g <> [] /\ hd 0 g = n \/ In n (tl g).
  Proof.
    destruct g as [|x g]; cbn [hd tl In].
    - split; [intros []|intros [[H _]|[]]; congruence].
    - split; [intros [H|H]; [left; split; [discriminate|exact H]|now right]|intros [[_ H]|H]; [now left|now right]].
  Qed.
  Lemma head_not_absorbed n g : group_at groups n = Some g -> absorbed groups n = false.
  Proof.
    intros E. apply group_at_iff in E. destruct E as [I E]. destruct (absorbed groups n) eqn:A; [|reflexivity]. exfalso.
    apply absorbed_iff in A. destruct A as [g' [I' J]].
    assert (g = g'). { apply (g_unique (n := n) I I'); [rewrite <- E; now apply g_hd_in|]. apply in_hd_or_tl. now right. }
    subst g'. destruct (g_split I) as [_ [_ [_ [_ ND]]]]. destruct g as [|x g]; [destruct J|]. cbn in E, J. subst x. inversion ND. congruence.
  Qed.
  Lemma in_concat_iff n : In n (concat groups) <-> (exists g, group_at groups n = Some g) \/ absorbed groups n = true.
  Proof.
    rewrite in_concat. split.
    - intros [g [I J]]. apply in_hd_or_tl in J. destruct J as [[_ J]|J].
      + left. exists g. apply group_at_iff. now split.
      + right. apply absorbed_iff. now exists g.
    - intros [[g E]|A].
      + apply group_at_iff in E. destruct E as [I E]. exists g. split; [exact I|]. rewrite <- E. now apply g_hd_in.
      + apply absorbed_iff in A. destruct A as [g [I J]]. exists g. split; [exact I|]. apply in_hd_or_tl. now right.
  Qed.
  Lemma expand_in n m : In m (expand groups n) -> (exists g, group_at groups n = Some g /\ In m g) \/ (m = n /\ ~ In n (concat groups)).
  Proof.
    unfold expand. destruct (group_at groups n) as [g|] eqn:E; [intros I; left; now exists g|].
    destruct (absorbed groups n) eqn:A; [intros []|]. intros [I|[]]. right. split; [now symmetry|]. intros J. apply in_concat_iff in J.
    destruct J as [[g J]|J]; congruence.
  Qed.
  Lemma expand_group n g : group_at groups n = Some g -> expand groups n = g.
  Proof. unfold expand. now intros ->. Qed.
  Lemma expand_absorbed n : absorbed groups n = true -> expand groups n = [].
  Proof.
    intros A. unfold expand. rewrite A. destruct (group_at groups n) eqn:E; [|reflexivity]. apply head_not_absorbed in E. congruence.
  Qed.
  Lemma expand_single n : ~ In n (concat groups) -> expand groups n = [n].
  Proof.
    intros H. unfold expand. destruct (group_at groups n) as [g|] eqn:E; [exfalso; apply H, in_concat_iff; left; now exists g|].
    destruct (absorbed groups n) eqn:A; [exfalso; apply H, in_concat_iff; now right|reflexivity].
  Qed.
  Lemma cases n : (exists g, group_at groups n = Some g) \/ (group_at groups n = None /\ absorbed groups n = true) \/ (group_at groups n = None /\ absorbed groups n = false /\ ~ In n (concat groups)).
  Proof.
    destruct (group_at groups n) as [g|] eqn:E; [left; now exists g|]. right. destruct (absorbed groups n) eqn:A; [now left|]. right.
    split; [reflexivity|]. split; [reflexivity|]. intros I. apply in_concat_iff in I. destruct I as [[g I]|I]; congruence.
  Qed.

  Lemma expand_perm : is_perm N (flat_map (expand groups) (seq 0 N)).
  Proof.
    unfold is_perm. apply NoDup_Permutation; [|apply seq_NoDup|].
    - apply NoDup_flat_map.
      + apply seq_NoDup.
      + intros n _. destruct (cases n) as [[g E]|[[_ A]|[_ [_ NI]]]].
        * rewrite (expand_group E). apply group_at_iff in E. destruct (g_split (proj1 E)) as [_ [_ [_ [_ ND]]]]. exact ND.
        * rewrite (expand_absorbed A). constructor.
        * rewrite (expand_single NI). constructor; [intros []|constructor].
      + intros n m x _ _ X Y.
        apply expand_in in X. apply expand_in in Y. destruct X as [[g [E1 I1]]|[-> I1]]; destruct Y as [[g' [E2 I2]]|[E2 I2]].
        * apply group_at_iff in E1, E2. destruct E1 as [J1 <-]. destruct E2 as [J2 <-]. now rewrite (g_unique J1 J2 I1 I2).
        * exfalso. subst x. apply I2. apply in_concat. exists g. apply group_at_iff in E1. now split.
        * exfalso. apply I1. apply in_concat. exists g'. apply group_at_iff in E2. now split.
        * exact E2.
    - intros x. rewrite in_flat_map, in_seq. split.
      + intros [n [I X]]. apply in_seq in I. apply expand_in in X. destruct X as [[g [E J]]|[-> _]]; [|exact I].
        apply group_at_iff in E. split; [lia|]. apply (g_lt (proj1 E) J).
      + intros H. destruct (in_dec Nat.eq_dec x (concat groups)) as [I|I].
        * apply in_concat in I. destruct I as [g [I J]]. exists (hd 0 g). split.
          { apply in_seq. split; [lia|]. apply (g_lt I). now apply g_hd_in. }
          rewrite (expand_group (g := g)); [exact J|]. apply group_at_iff. now split.
        * exists x. split; [apply in_seq; lia|]. rewrite expand_single; [now left|exact I].
  Qed.

  (** the model's maps *)
  Lemma lookup_filter f n : (forall g, In g groups -> hd 0 g = n -> f g = true) -> lookup (filter f groups) n = group_at groups n.
  Proof.
    intros Hf. unfold lookup. destruct (find _ _) as [g|] eqn:F.
    - apply find_some in F. destruct F as [I F]. apply in_rev, filter_In in I. apply Nat.eqb_eq in F. symmetry. apply group_at_iff. tauto.
    - symmetry. apply group_at_none. intros g I E. apply (find_none _ _) with (x := g) in F.
      + rewrite E, Nat.eqb_refl in F. discriminate.
      + apply -> in_rev. apply filter_In. split; [exact I|now apply Hf].
  Qed.
  Lemma lookup_filter_none f n : (forall g, In g groups -> hd 0 g = n -> f g = false) -> lookup (filter f groups) n = None.
  Proof.
    intros Hf. unfold lookup. destruct (find _ _) as [g|] eqn:F; [|reflexivity]. exfalso.
    apply find_some in F. destruct F as [I F]. apply in_rev, filter_In in I. apply Nat.eqb_eq in F. destruct I as [I K]. rewrite (Hf g I F) in K. discriminate.
  Qed.
  Lemma lookup_codomain J n : lookup (codomain_groups J groups) n = if n <? J then group_at groups n else None.
  Proof.
    unfold codomain_groups. destruct (n <? J) eqn:E.
    - apply lookup_filter. intros g _ ->. exact E.
    - apply lookup_filter_none. intros g _ ->. exact E.
  Qed.
  Lemma lookup_domain J n : lookup (domain_groups J groups) n = if n <? J then None else group_at groups n.
  Proof.
    unfold domain_groups. destruct (n <? J) eqn:E.
    - apply lookup_filter_none. intros g _ ->. now rewrite E.
    - apply lookup_filter. intros g _ ->. now rewrite E.
  Qed.
  Lemma contains_concat n : contains (concat groups) n = match group_at groups n with Some _ => true | None => absorbed groups n end.
  Proof.
    destruct (cases n) as [[g E]|[[E A]|[E [A NI]]]]; rewrite E.
    - apply contains_iff, in_concat_iff. left. now exists g.
    - rewrite A. apply contains_iff, in_concat_iff. now right.
    - rewrite A. now apply contains_false.
  Qed.
  Lemma walk_idcs_eq J n : walk_idcs J groups n = if n <? J then (expand groups n, []) else ([], expand groups n).
  Proof.
    unfold walk_idcs. rewrite lookup_codomain, lookup_domain, contains_concat. unfold expand.
    destruct (n <? J), (group_at groups n), (absorbed groups n); reflexivity.
  Qed.
  Lemma idcs_eq J : J <= N -> flat_map (fun n => fst (walk_idcs J groups n)) (seq 0 N) = flat_map (expand groups) (seq 0 J) /\
    flat_map (fun n => snd (walk_idcs J groups n)) (seq 0 N) = flat_map (expand groups) (seq J (N - J)).
  Proof.
    intros H. replace (seq 0 N) with (seq 0 J ++ seq J (N - J)) by (rewrite <- seq_app; f_equal; lia). rewrite !flat_map_app.
    assert (E1 : forall f : nat -> list nat, (forall n, n < J -> f n = []) -> flat_map f (seq 0 J) = []).
    { intros f F. rewrite flat_map_concat_map. rewrite (map_ext_in f (fun _ => [])).
      - induction (seq 0 J); [reflexivity|assumption].
      - intros n I. apply F. apply in_seq in I. lia. }
    assert (E2 : forall f : nat -> list nat, (forall n, J <= n -> f n = []) -> flat_map f (seq J (N - J)) = []).
    { intros f F. rewrite flat_map_concat_map. rewrite (map_ext_in f (fun _ => [])).
      - induction (seq J (N - J)); [reflexivity|assumption].
      - intros n I. apply F. apply in_seq in I. lia. }
    split.
    - rewrite (E2 (fun n => fst (walk_idcs J groups n))); [rewrite app_nil_r|].
      + rewrite !flat_map_concat_map. f_equal. apply map_ext_in. intros n I. apply in_seq in I. rewrite walk_idcs_eq.
        destruct (Nat.ltb_spec n J); [reflexivity|lia].
      + intros n L. rewrite walk_idcs_eq. destruct (Nat.ltb_spec n J); [lia|reflexivity].
    - rewrite (E1 (fun n => snd (walk_idcs J groups n))); [cbn [app]|].
      + rewrite !flat_map_concat_map. f_equal. apply map_ext_in. intros n I. apply in_seq in I. rewrite walk_idcs_eq.
        destruct (Nat.ltb_spec n J); [lia|reflexivity].
      + intros n L. rewrite walk_idcs_eq. destruct (Nat.ltb_spec n J); [reflexivity|lia].
  Qed.

  (** ** the permuted numbering *)
  Definition fp : list nat := flat_map (expand groups) (seq 0 N).
  Definition inv : list nat := inverse_permutation fp.
  Definition start (n : nat) : nat := length (flat_map (expand groups) (seq 0 n)).
  Definition groups1 : list (list nat) := map (map (fun l => nth l inv 0)) groups.
  Lemma fp_perm : is_perm N fp. Proof. exact expand_perm. Qed.
  Lemma fp_length : length fp = N. Proof. apply (is_perm_length fp_perm). Qed.
  Lemma inv_fp i : i < N -> nth (nth i fp 0) inv 0 = i.
  Proof. apply (inverse_permutation_l fp_perm). Qed.
  Lemma inv_inj a b : a < N -> b < N -> nth a inv 0 = nth b inv 0 -> a = b.
  Proof. intros Ha Hb E. apply (is_perm_nth_inj (inverse_permutation_perm fp_perm) Ha Hb E). Qed.
  Lemma fp_split n : n < N -> fp = flat_map (expand groups) (seq 0 n) ++ expand groups n ++ flat_map (expand groups) (seq (Datatypes.S n) (N - Datatypes.S n)).
  Proof.
    intros H. unfold fp. replace (seq 0 N) with (seq 0 n ++ n :: seq (Datatypes.S n) (N - Datatypes.S n)).
    - rewrite flat_map_app. reflexivity.
    - replace (n :: seq (Datatypes.S n) (N - Datatypes.S n)) with (seq n (Datatypes.S (N - Datatypes.S n))) by reflexivity.
      rewrite <- seq_app. f_equal. lia.
  Qed.
  Lemma fp_at n p : n < N -> p < length (expand groups n) -> nth (start n + p) fp 0 = nth p (expand groups n) 0 /\ start n + p < N.
  Proof.
    intros H P. split.
    - rewrite (fp_split H). unfold start. rewrite app_nth2 by lia. rewrite app_nth1 by lia. f_equal. lia.
    - rewrite <- fp_length. rewrite (fp_split H). rewrite !app_length. unfold start. lia.
  Qed.
  Lemma inv_at n p : n < N -> p < length (expand groups n) -> nth (nth p (expand groups n) 0) inv 0 = start n + p.
  Proof. intros H P. destruct (fp_at H P) as [E L]. rewrite <- E. now apply inv_fp. Qed.
  Lemma map_inv_expand n : n < N -> map (fun l => nth l inv 0) (expand groups n) = seq (start n) (length (expand groups n)).
  Proof.
    intros H. apply list_eq_nth with (d := 0); [now rewrite map_length, seq_length|]. intros p P. rewrite map_length in P.
    rewrite nth_map_lt with (d := 0) by exact P. rewrite seq_nth by exact P. now apply inv_at.
  Qed.
  Lemma hd_map_inv g : In g groups -> hd 0 (map (fun l => nth l inv 0) g) = nth (hd 0 g) inv 0.
  Proof. intros I. assert (H := g_nonempty I). destruct g; [congruence|reflexivity]. Qed.
  Lemma groups1_in g1 : In g1 groups1 <-> exists g, In g groups /\ g1 = map (fun l => nth l inv 0) g.
  Proof. unfold groups1. rewrite in_map_iff. split; intros [g [H1 H2]]; exists g; (split; [now auto|now auto]). Qed.
  Lemma groups1_ok : groups_ok N groups1.
  Proof.
    split.
    - apply Forall_forall. intros g1 I. apply groups1_in in I. destruct I as [g [I ->]]. split.
      + assert (H := g_nonempty I). destruct g; [congruence|discriminate].
      + apply Forall_forall. intros x X. apply in_map_iff in X. destruct X as [y [<- Y]]. apply (is_perm_nth_lt (inverse_permutation_perm fp_perm)). apply (g_lt I Y).
    - unfold groups1. rewrite <- concat_map. apply NoDup_map_inj.
      + intros a b A B. apply in_concat in A. apply in_concat in B. destruct A as [g [I1 A]]. destruct B as [g' [I2 B]].
        apply inv_inj; [apply (g_lt I1 A)|apply (g_lt I2 B)].
      + apply GOK.
  Qed.
End Groups.
