(** split_legs, the round trip, move_leg. *)
From Coq Require Import List Arith Bool ZArith Permutation Lia Sorted.
From Verif Require Import Util GridModel GridProofs SymModel PipeModel PipeProofs4 LabelsModel LabelsProofs LegOpsModel LegOpsSpec LegOpsProofs LegOpsProofs2 LegOpsProofs3 LegOpsProofs4.
Import ListNotations.
Set Implicit Arguments. Unset Strict Implicit.
Open Scope nat_scope.

Lemma tens_ext a b : legs a = legs b -> num_codomain a = num_codomain b -> t_labels a = t_labels b -> a = b.
Proof.
  intros E1 E2 E3. assert (C := codomain_firstn a). assert (D := domain_skipn a). rewrite E1, E2, <- codomain_firstn in C. rewrite E1, E2, <- domain_skipn in D.
  destruct a, b; cbn in *. congruence.
Qed.
Lemma split_spaces_seq which l : split_spaces which l = flat_map (fun i => if contains which i then sublegs (nth i l noleg) else [nth i l noleg]) (seq 0 (length l)).
Proof.
  unfold split_spaces. assert (K : forall s l', flat_map (fun p => if contains which (fst p) then sublegs (snd p) else [snd p]) (combine (seq s (length l')) l') =
    flat_map (fun i => if contains which i then sublegs (nth (i - s) l' noleg) else [nth (i - s) l' noleg]) (seq s (length l'))).
  { intros s l'. revert s. induction l' as [|x l' IH]; intros s; [reflexivity|]. cbn [length seq combine flat_map fst snd]. rewrite Nat.sub_diag. cbn [nth]. f_equal.
    rewrite IH. rewrite !flat_map_concat_map. f_equal. apply map_ext_in. intros i I. apply in_seq in I. replace (i - s) with (Datatypes.S (i - Datatypes.S s)) by lia. reflexivity. }
  rewrite K. rewrite !flat_map_concat_map. f_equal. apply map_ext. intros i. now rewrite Nat.sub_0_r.
Qed.
Lemma rev_flat_map A B (f : A -> list B) l : rev (flat_map f l) = flat_map (fun x => rev (f x)) (rev l).
Proof. induction l as [|x l IH]; [reflexivity|]. cbn [flat_map rev]. rewrite rev_app_distr, flat_map_app, IH. cbn [flat_map]. now rewrite app_nil_r. Qed.
Lemma map_flat_map A B C (g : B -> C) (f : A -> list B) l : map g (flat_map f l) = flat_map (fun x => map g (f x)) l.
Proof. induction l as [|x l IH]; [reflexivity|]. cbn [flat_map]. now rewrite map_app, IH. Qed.
Lemma flat_map_map' A B C (f : B -> list C) (g : A -> B) l : flat_map f (map g l) = flat_map (fun x => f (g x)) l.
Proof. induction l as [|x l IH]; [reflexivity|]. cbn [map flat_map]. now rewrite IH. Qed.
Lemma flat_map_ext_in A B (f g : A -> list B) l : (forall x, In x l -> f x = g x) -> flat_map f l = flat_map g l.
Proof. intros H. rewrite !flat_map_concat_map. f_equal. now apply map_ext_in. Qed.
Lemma rev_seq_map J K : rev (seq 0 K) = map (fun n => J + K - 1 - n) (seq J K).
Proof.
  apply list_eq_nth with (d := 0); [now rewrite rev_length, map_length, !seq_length|]. intros i Hi. rewrite rev_length, seq_length in Hi.
  rewrite rev_nth by (now rewrite seq_length). rewrite seq_length, seq_nth by lia. rewrite nth_map_lt with (d := 0) by (now rewrite seq_length). rewrite seq_nth by exact Hi. lia.
Qed.
Lemma sublegs_dual p : sublegs (dual_leg p) = rev (map dual_leg (sublegs p)).
Proof. destruct p; reflexivity. Qed.
Lemma leg_co_domain_leg t n : n < num_legs t -> leg_at t n = if n <? num_codomain t then leg_co_domain t n else dual_leg (leg_co_domain t n).
Proof. intros H. rewrite legs_nth by exact H. unfold as_codomain_leg, leg_co_domain. destruct (n <? num_codomain t); reflexivity. Qed.
Lemma is_pipe_dual p : is_pipe (dual_leg p) = is_pipe p. Proof. destruct p; reflexivity. Qed.
Lemma is_pipe_co t n : n < num_legs t -> is_pipe (leg_co_domain t n) = is_pipe (leg_at t n).
Proof. intros H. rewrite leg_co_domain_leg by exact H. destruct (n <? num_codomain t); [reflexivity|now rewrite is_pipe_dual]. Qed.
Lemma sublegs_co_length t n : n < num_legs t -> length (sublegs (leg_co_domain t n)) = length (sublegs (leg_at t n)).
Proof. intros H. rewrite leg_co_domain_leg by exact H. destruct (n <? num_codomain t); [reflexivity|]. now rewrite sublegs_dual, rev_length, map_length. Qed.

Definition split_at (idcs : list nat) (t : tens) (n : nat) : list leg := if contains idcs n then sublegs (leg_at t n) else [leg_at t n].
(** the legs after splitting, for index lists that mean the same set *)
Lemma split_legs_legs t idcs cs ds lab : (forall n, n < num_legs t -> contains (if n <? num_codomain t then cs else ds) (if n <? num_codomain t then n else num_legs t - 1 - n) = contains idcs n) ->
  legs (Tens (split_spaces cs (t_codomain t)) (split_spaces ds (t_domain t)) lab) = flat_map (split_at idcs t) (seq 0 (num_legs t)) /\
  length (split_spaces cs (t_codomain t)) = length (flat_map (split_at idcs t) (seq 0 (num_codomain t))).
Proof.
  intros H. set (J := num_codomain t). set (N := num_legs t). set (K := length (t_domain t)).
  assert (EN : N = J + K) by reflexivity.
  assert (C : split_spaces cs (t_codomain t) = flat_map (split_at idcs t) (seq 0 J)).
  { rewrite split_spaces_seq. apply flat_map_ext_in. intros i I. apply in_seq in I. specialize (H i). unfold split_at. 
    assert (HL : i <? num_codomain t = true) by (apply Nat.ltb_lt; unfold J in I; lia). rewrite HL in H. rewrite H by (fold N; unfold J, num_codomain in *; lia).
    assert (LI : leg_at t i = nth i (t_codomain t) noleg) by (rewrite legs_nth by (fold N; unfold J, num_codomain in *; lia); unfold as_codomain_leg; now rewrite HL).
    now rewrite LI. }
  split; [|now rewrite C].
  rewrite tens_eq_legs, C. replace (seq 0 N) with (seq 0 J ++ seq J K) by (rewrite EN, seq_app; reflexivity). rewrite flat_map_app. f_equal.
  rewrite <- map_rev, split_spaces_seq. fold K. rewrite rev_flat_map, map_flat_map, (rev_seq_map J), flat_map_map'. apply flat_map_ext_in. intros n I. apply in_seq in I.
  specialize (H n). assert (HL : n <? num_codomain t = false) by (apply Nat.ltb_ge; unfold J in I; lia). rewrite HL in H.
  replace (J + K - 1 - n) with (num_legs t - 1 - n) by (fold N; lia). rewrite H by (fold N; lia). unfold split_at.
  assert (LI : leg_at t n = dual_leg (nth (num_legs t - 1 - n) (t_domain t) noleg)) by (rewrite legs_nth by (fold N; lia); unfold as_codomain_leg; now rewrite HL).
  rewrite LI. destruct (contains idcs n); [rewrite sublegs_dual, map_rev; reflexivity|reflexivity].
Qed.

Lemma parse_split_ok t idcs l cs ds : Forall (fun n => n < num_legs t) (match idcs with Some l => l | None => [] end) -> parse_split t idcs = Some (l, cs, ds) ->
  (forall n, n < num_legs t -> contains l n = match idcs with Some l => contains l n | None => is_pipe (leg_at t n) end) /\
  (forall n, n < num_legs t -> contains (if n <? num_codomain t then cs else ds) (if n <? num_codomain t then n else num_legs t - 1 - n) = contains l n).
Proof.
  intros F E. set (J := num_codomain t). set (N := num_legs t).
  assert (JN : J <= N) by (unfold J, N, num_codomain, num_legs; lia).
  destruct idcs as [l0|]; cbn [parse_split] in E.
  - destruct (forallb _ _); [|discriminate]. injection E as <- <- <-. split; [reflexivity|]. intros n Hn. rewrite Forall_forall in F. apply eq_true_iff_eq. rewrite !contains_iff.
    fold J N. destruct (Nat.ltb_spec n J) as [L|L].
    + rewrite filter_In. split; [tauto|]. intros I. split; [exact I|now apply Nat.ltb_lt].
    + rewrite in_map_iff. split.
      * intros [m [E I]]. apply filter_In in I. destruct I as [I NL]. apply negb_true_iff, Nat.ltb_ge in NL. assert (B := F m I). fold N in B. replace n with m by lia. exact I.
      * intros I. exists n. split; [reflexivity|]. apply filter_In. split; [exact I|]. apply negb_true_iff, Nat.ltb_ge. exact L.
  - injection E as <- <- <-. fold J N.
    assert (EJ : forall n, n < N -> contains (filter (fun n => is_pipe (nth n (t_codomain t) noleg)) (seq 0 J) ++ map (fun n => N - 1 - n) (rev (filter (fun n => is_pipe (nth n (t_domain t) noleg)) (seq 0 (N - J))))) n
       = is_pipe (leg_at t n)).
    { intros n Hn. rewrite <- is_pipe_co by exact Hn. apply eq_true_iff_eq. rewrite contains_iff, in_app_iff, filter_In, in_map_iff, in_seq. unfold leg_co_domain. fold J N.
      destruct (Nat.ltb_spec n J) as [L|L].
      - split; [|intros P; left; split; [lia|exact P]]. intros [[_ P]|[m [E I]]]; [exact P|]. apply in_rev in I. apply filter_In in I. destruct I as [I _]. apply in_seq in I. lia.
      - split.
        + intros [[B _]|[m [E I]]]; [lia|]. apply in_rev in I. apply filter_In in I. destruct I as [I P]. apply in_seq in I. replace (N - 1 - n) with m by lia. exact P.
        + intros P. right. exists (N - 1 - n). split; [lia|]. apply -> in_rev. apply filter_In. split; [apply in_seq; lia|exact P]. }
    split; [exact EJ|]. intros n Hn. rewrite EJ by exact Hn. rewrite <- is_pipe_co by exact Hn. unfold leg_co_domain. fold J N. apply eq_true_iff_eq. rewrite contains_iff.
    destruct (Nat.ltb_spec n J) as [L|L]; rewrite filter_In, in_seq; split; [tauto|intros P; split; [lia|exact P]|tauto|intros P; split; [lia|exact P]].
Qed.

(** the labels *)
Lemma split_labels_ok debug t idcs ns lab : split_labels debug t idcs ns = Ok lab <->
  exists parts, length parts = length ns /\ lab = concat parts /\
    forall k, k < length ns -> let n := nth k ns 0 in
      (if contains idcs n then split_leg_label debug (label_at t n) (Some (Z.of_nat (length (sublegs (leg_co_domain t n))))) else Ok [label_at t n]) = Ok (nth k parts []).
Proof.
  revert lab. induction ns as [|n ns IH]; intros lab; cbn [split_labels].
  - split; [intros E; injection E as <-; exists []; split; [reflexivity|]; split; [reflexivity|cbn; lia]|].
    intros [parts [L [E _]]]. destruct parts; [|discriminate]. now rewrite E.
  - change (nth n (t_labels t) None) with (label_at t n).
    destruct (if contains idcs n then split_leg_label debug (label_at t n) (Some (Z.of_nat (length (sublegs (leg_co_domain t n))))) else Ok [label_at t n]) as [a| |] eqn:EA.
    + destruct (split_labels debug t idcs ns) as [b| |].
      * split.
        { intros E. injection E as <-. destruct (proj1 (IH b) eq_refl) as [parts [L [E H]]]. exists (a :: parts). split; [cbn; now rewrite L|]. split; [cbn; now rewrite E|].
          intros [|k] K; [cbn; exact EA|]. cbn. apply H. cbn in K. lia. }
        { intros [parts [L [E H]]]. destruct parts as [|p parts]; [discriminate|]. assert (H0 := H 0 ltac:(cbn; lia)). cbn in H0. rewrite EA in H0. injection H0 as <-.
          assert (B : Ok b = Ok (concat parts)). { apply IH. exists parts. split; [now injection L|]. split; [reflexivity|]. intros k K. apply (H (Datatypes.S k)). cbn. lia. }
          injection B as ->. rewrite E. reflexivity. }
      * split; [discriminate|]. intros [parts [L [E H]]]. destruct parts as [|p parts]; [discriminate|].
        assert (B : Throw = Ok (concat parts)). { apply IH. exists parts. split; [now injection L|]. split; [reflexivity|]. intros k K. apply (H (Datatypes.S k)). cbn. lia. } discriminate.
      * split; [discriminate|]. intros [parts [L [E H]]]. destruct parts as [|p parts]; [discriminate|].
        assert (B : Abort = Ok (concat parts)). { apply IH. exists parts. split; [now injection L|]. split; [reflexivity|]. intros k K. apply (H (Datatypes.S k)). cbn. lia. } discriminate.
    + split; [discriminate|]. intros [parts [L [E H]]]. assert (H0 := H 0 ltac:(cbn; lia)). cbn in H0. congruence.
    + split; [discriminate|]. intros [parts [L [E H]]]. assert (H0 := H 0 ltac:(cbn; lia)). cbn in H0. congruence.
Qed.

Lemma split_spec debug t idcs t' : tens_ok t -> Forall (fun n => n < num_legs t) (match idcs with Some l => l | None => [] end) -> split_legs debug t idcs = Ok t' ->
  let chosen n := match idcs with Some l => contains l n | None => is_pipe (leg_at t n) end in
  (forall n, n < num_legs t -> chosen n = true -> is_pipe (leg_at t n) = true) /\
  legs t' = flat_map (fun n => if chosen n then sublegs (leg_at t n) else [leg_at t n]) (seq 0 (num_legs t)) /\
  num_codomain t' = length (flat_map (fun n => if chosen n then sublegs (leg_at t n) else [leg_at t n]) (seq 0 (num_codomain t))) /\
  exists parts, length parts = num_legs t /\ t_labels t' = concat parts /\
    forall n, n < num_legs t -> (if chosen n then split_leg_label debug (label_at t n) (Some (Z.of_nat (length (sublegs (leg_at t n))))) else Ok [label_at t n]) = Ok (nth n parts []).
Proof.
  intros TOK F E. unfold split_legs in E. destruct (parse_split t idcs) as [[[l cs] ds]|] eqn:EP; [|discriminate].
  destruct (split_labels debug t l (seq 0 (length (t_labels t)))) as [lab| |] eqn:EL; try discriminate. injection E as <-.
  destruct (parse_split_ok F EP) as [H1 H2]. destruct (split_legs_legs lab H2) as [H3 H4]. intros chosen.
  assert (JN : num_codomain t <= num_legs t) by (unfold num_codomain, num_legs; lia).
  assert (EX : forall m, m <= num_legs t -> flat_map (split_at l t) (seq 0 m) = flat_map (fun n => if chosen n then sublegs (leg_at t n) else [leg_at t n]) (seq 0 m)).
  { intros m Hm. apply flat_map_ext_in. intros n I. apply in_seq in I. unfold split_at. rewrite H1 by lia. reflexivity. }
  split; [|split; [rewrite H3; apply EX; lia|split; [unfold num_codomain at 1; cbn [t_codomain]; rewrite H4, EX by exact JN; reflexivity|]]].
  - intros n Hn C. destruct idcs as [l0|]; cbn [parse_split] in EP; [|exact C]. destruct (forallb _ _) eqn:FA; [|discriminate].
    rewrite forallb_forall in FA. unfold chosen in C. rewrite <- is_pipe_co by exact Hn. apply FA. now apply contains_iff.
  - apply split_labels_ok in EL. destruct EL as [parts [L [E H]]]. rewrite seq_length, TOK in L. exists parts. split; [exact L|]. split; [exact E|].
    intros n Hn. rewrite seq_length, TOK in H. specialize (H n Hn). cbv zeta in H. rewrite seq_nth in H by exact Hn. cbn [plus] in H. rewrite H1 in H by exact Hn.
    rewrite sublegs_co_length in H by exact Hn. exact H.
Qed.
Lemma split_total debug t idcs parts : tens_ok t -> Forall (fun n => n < num_legs t) idcs -> (forall n, In n idcs -> is_pipe (leg_at t n) = true) -> length parts = num_legs t ->
  (forall n, n < num_legs t -> (if contains idcs n then split_leg_label debug (label_at t n) (Some (Z.of_nat (length (sublegs (leg_at t n))))) else Ok [label_at t n]) = Ok (nth n parts [])) ->
  exists t', split_legs debug t (Some idcs) = Ok t' /\ t_labels t' = concat parts.
Proof.
  intros TOK F HP LP H. unfold split_legs. cbn [parse_split]. assert (FA : forallb (fun n => is_pipe (leg_co_domain t n)) idcs = true).
  { apply forallb_forall. intros n I. rewrite Forall_forall in F. rewrite is_pipe_co by now apply F. now apply HP. }
  rewrite FA. assert (E : split_labels debug t idcs (seq 0 (length (t_labels t))) = Ok (concat parts)).
  { apply split_labels_ok. exists parts. rewrite seq_length, TOK. split; [exact LP|]. split; [reflexivity|]. intros k K. cbv zeta. rewrite seq_nth by exact K. cbn [plus].
    rewrite sublegs_co_length by exact K. now apply H. }
  rewrite E. eexists. split; reflexivity.
Qed.

(** ** splitting what was combined *)
Definition is_head (groups : list (list nat)) (n : nat) : bool := match group_at groups n with Some _ => true | None => false end.
Lemma flat_map_kept A (f : nat -> list A) N groups : groups_ok N groups -> (forall n, absorbed groups n = true -> f n = []) -> flat_map f (kept N groups) = flat_map f (seq 0 N).
Proof.
  intros G H. unfold kept. induction (seq 0 N) as [|n l IH]; [reflexivity|]. cbn [filter flat_map]. destruct (absorbed groups n) eqn:AB; cbn [negb].
  - rewrite (H n AB). exact IH.
  - cbn [flat_map]. now rewrite IH.
Qed.
Lemma kept_group N groups n : groups_ok N groups -> In n (kept N groups) -> (exists g, group_at groups n = Some g /\ expand groups n = g) \/ (group_at groups n = None /\ expand groups n = [n]).
Proof.
  intros G I. apply filter_In in I. destruct I as [_ A]. apply negb_true_iff in A. unfold expand. rewrite A. destruct (group_at groups n) as [g|]; [left; now exists g|now right].
Qed.
Lemma flat_map_nth A B (f : A -> list B) (d : A) l : flat_map f l = flat_map (fun i => f (nth i l d)) (seq 0 (length l)).
Proof. rewrite <- (map_nth_seq_all d l) at 1. now rewrite flat_map_map'. Qed.

Lemma kept_prefix N groups J : J <= N -> filter (fun n => n <? J) (kept N groups) = filter (fun n => negb (absorbed groups n)) (seq 0 J).
Proof.
  intros H. unfold kept. replace (seq 0 N) with (seq 0 J ++ seq J (N - J)) by (rewrite <- seq_app; f_equal; lia). rewrite !filter_app.
  replace (filter (fun n => n <? J) (filter (fun n => negb (absorbed groups n)) (seq J (N - J)))) with (@nil nat).
  - rewrite app_nil_r. apply filter_all. intros n I. apply filter_In in I. destruct I as [I _]. apply in_seq in I. apply Nat.ltb_lt. lia.
  - symmetry. apply filter_none. intros n I. apply filter_In in I. destruct I as [I _]. apply in_seq in I. apply Nat.ltb_ge. lia.
Qed.
Lemma kept_firstn N groups J : J <= N -> filter (fun n => n <? J) (kept N groups) = firstn (length (filter (fun n => n <? J) (kept N groups))) (kept N groups).
Proof.
  intros H. rewrite kept_prefix by exact H. unfold kept. replace (seq 0 N) with (seq 0 J ++ seq J (N - J)) by (rewrite <- seq_app; f_equal; lia).
  rewrite filter_app, firstn_app, Nat.sub_diag, firstn_all. cbn. now rewrite app_nil_r.
Qed.

Lemma round_trip debug ab S t groups dualities pipes r idcs : tens_ok t -> groups_ok (num_legs t) groups -> pipes_ok t groups (fun r => nth r dualities false) pipes ->
  combine_legs debug ab S t groups dualities pipes = Some r ->
  (forall n, In n (concat groups) -> clean (label_at t n)) ->
  Forall (fun i => i < num_legs (r_tensor r)) idcs ->
  (forall i, i < num_legs (r_tensor r) -> contains idcs i = is_head groups (nth i (kept (num_legs t) groups) 0)) ->
  split_legs debug (r_tensor r) (Some idcs) = Ok (r_permuted r).
Proof.
  intros TOK GOK POK EC CL FI HI. set (N := num_legs t) in *. set (KP := kept N groups) in *.
  destruct (combine_spec debug ab S TOK GOK POK) as [r' [E [C1 [C2 [C3 [C4 [C5 [C6 _]]]]]]]]. rewrite EC in E. injection E as <-.
  fold N in C1, C2, C3, C4, C5. fold KP in C1, C2, C3.
  set (R := r_tensor r) in *. assert (NR : num_legs R = length KP) by (rewrite <- legs_length, C1, map_length; reflexivity).
  assert (ROK : tens_ok R) by (unfold tens_ok; now rewrite C2, map_length, NR).
  set (d := fun r : nat => nth r dualities false) in *.
  assert (LA : forall i, i < length KP -> leg_at R i = result_leg t groups d (nth i KP 0)) by (intros i Hi; unfold leg_at; rewrite C1; now apply nth_map_lt).
  assert (LB : forall i, i < length KP -> label_at R i = result_label t groups (nth i KP 0)) by (intros i Hi; unfold label_at; rewrite C2; now apply nth_map_lt).
  rewrite NR in FI, HI.
  assert (SUB : forall i, i < length KP -> (if contains idcs i then sublegs (leg_at R i) else [leg_at R i]) = map (leg_at t) (expand groups (nth i KP 0))).
  { intros i Hi. rewrite HI, LA by exact Hi. unfold result_leg, is_head. destruct (kept_group GOK (nth_In KP 0 Hi)) as [[g [G1 G2]]|[G1 G2]]; rewrite G1, G2; reflexivity. }
  assert (LSUB : forall i, i < length KP -> (if contains idcs i then split_leg_label debug (label_at R i) (Some (Z.of_nat (length (sublegs (leg_at R i))))) else Ok [label_at R i]) = Ok (map (label_at t) (expand groups (nth i KP 0)))).
  { intros i Hi. assert (SI := SUB i Hi). rewrite HI in * by exact Hi. rewrite LB by exact Hi. unfold result_label, is_head in *.
    destruct (kept_group GOK (nth_In KP 0 Hi)) as [[g [G1 G2]]|[G1 G2]]; rewrite G1, G2 in *; [|reflexivity].
    apply split_combine.
    - apply (group_at_iff GOK) in G1. assert (NE := g_nonempty GOK (proj1 G1)). destruct g; [congruence|discriminate].
    - apply Forall_forall. intros x X. apply in_map_iff in X. destruct X as [m [<- M]]. apply CL. apply in_concat. exists g. split; [apply (group_at_iff GOK) in G1; apply G1|exact M].
    - right. rewrite SI. now rewrite !map_length. }
  assert (FI' : Forall (fun n => n < num_legs R) idcs) by (now rewrite NR).
  destruct (split_total (debug := debug) (t := R) (idcs := idcs) (parts := map (fun n => map (label_at t) (expand groups n)) KP) ROK FI') as [t' [ES EL]].
  - intros i I. rewrite Forall_forall in FI. assert (Hi := FI i I). rewrite LA by exact Hi. apply contains_iff in I. rewrite HI in I by exact Hi. unfold is_head in I. unfold result_leg.
    destruct (group_at groups (nth i KP 0)); [reflexivity|discriminate].
  - now rewrite map_length, NR.
  - intros i Hi. rewrite NR in Hi. rewrite nth_map_lt with (d := 0) by exact Hi. now apply LSUB.
  - rewrite ES. f_equal. destruct (split_spec ROK (idcs := Some idcs) FI' ES) as [_ [S1 [S2 _]]].
    assert (ABS : forall A (f : nat -> A) n, absorbed groups n = true -> map f (expand groups n) = []) by (intros A f n AB; now rewrite (expand_absorbed GOK AB)).
    apply tens_ext.
    + rewrite S1, C4, NR. rewrite map_flat_map. rewrite <- (flat_map_kept GOK (ABS leg (leg_at t))). fold KP. rewrite (flat_map_nth _ 0 KP). apply flat_map_ext_in. intros i I. apply in_seq in I.
      apply SUB. lia.
    + rewrite S2, C6. rewrite C3. set (J := num_codomain t). set (J' := length (filter (fun n => n <? J) KP)).
      assert (JN : J <= N) by (unfold J, N, num_codomain, num_legs; lia).
      assert (FK : filter (fun n => n <? J) KP = firstn J' KP) by (apply kept_firstn; exact JN).
      assert (J'L : J' <= length KP) by (assert (K := f_equal (@length nat) FK); rewrite firstn_length in K; fold J' in K; lia).
      rewrite <- (map_length (leg_at t)). f_equal. rewrite map_flat_map.
      etransitivity; [apply (flat_map_ext_in (g := fun i => map (leg_at t) (expand groups (nth i (firstn J' KP) 0))))|].
      * intros i I. apply in_seq in I. rewrite (SUB i ltac:(lia)). rewrite nth_firstn_lt by lia. reflexivity.
      * replace (seq 0 J') with (seq 0 (length (firstn J' KP))) by (f_equal; rewrite firstn_length; lia).
        rewrite <- (flat_map_nth (fun n => map (leg_at t) (expand groups n)) 0). rewrite <- FK. unfold KP. rewrite (kept_prefix groups JN).
        assert (G0 : flat_map (fun n => map (leg_at t) (expand groups n)) (filter (fun n => negb (absorbed groups n)) (seq 0 J)) = flat_map (fun n => map (leg_at t) (expand groups n)) (seq 0 J)).
        { induction (seq 0 J) as [|n l IH]; [reflexivity|]. cbn [filter flat_map]. destruct (absorbed groups n) eqn:A; cbn [negb].
          - rewrite (ABS leg (leg_at t) n A). exact IH.
          - cbn [flat_map]. now rewrite IH. }
        exact G0.
    + rewrite EL, C5. rewrite map_flat_map. rewrite <- (flat_map_kept GOK (ABS label (label_at t))). fold KP. now rewrite flat_map_concat_map.
Qed.
