(** Lemmas for C74: the main statement and the cases where it fails. *)
From Coq Require Import List Bool Arith Lia Permutation.
From Verif Require Import Util PlanarModel PlanarSpec PlanarProofs1 PlanarProofs4 PlanarProofs7 PcombModel PcombSpec PcombProofs1 PcombProofs2.
Import ListNotations.
Set Implicit Arguments. Unset Strict Implicit.
Open Scope nat_scope.

Lemma Forall2_nth A (d : A) B (e : B) (P : A -> B -> Prop) l l' : Forall2 P l l' -> length l' = length l /\ forall i, i < length l -> P (nth i l d) (nth i l' e).
Proof. induction 1 as [|x y l l' H F [E IH]]; [split; [reflexivity|cbn; lia]|]. split; [cbn; now rewrite E|]. intros [|i] I; [exact H|]. cbn [nth]. apply IH. cbn in I. lia. Qed.
Lemma Forall2_of_nth A (d : A) B (e : B) (P : A -> B -> Prop) l : forall l', length l' = length l -> (forall i, i < length l -> P (nth i l d) (nth i l' e)) -> Forall2 P l l'.
Proof.
  induction l as [|x l IH]; intros [|y l'] E H; try discriminate E; [constructor|]. constructor; [exact (H 0 ltac:(cbn; lia))|]. apply IH; [now injection E|]. intros i I. apply (H (S i)). cbn. lia.
Qed.

Lemma combine_ok nc nd which : Forall (contiguous (nc + nd)) which -> NoDup (concat which) ->
  (forall g, In g which -> around_the_left (nc + nd) g -> 0 < nc /\ 0 < nd /\ ~ around_the_right nc g) ->
  exists co dom which', planar_combine_args nc nd which = POk (co, dom, which') /\ planar (nc + nd) co dom /\ Forall2 (gathered nc co dom) which which'.
Proof.
  intros C ND H. destruct (sort_ok C) as (ss & ES & F2). destruct (Forall2_nth [] [] F2) as [HL HN].
  assert (HG : forall i, i < length which -> nth i which [] <> [] /\ Permutation (nth i ss []) (nth i which [])).
  { intros i I. split; [|apply HN; exact I]. rewrite Forall_forall in C. apply (C _ (nth_In which [] I)). }
  assert (HC : forall i, i < length which -> cls nc (nc + nd) (nth i which []) (nth i ss [])).
  { intros i I. destruct (HN i I) as [P S]. apply (classify P S). apply H. now apply nth_In. }
  assert (HD : forall i j x, i < length which -> j < length which -> In x (nth i ss []) -> In x (nth j ss []) -> i = j).
  { intros i j x I J X Y. apply (disjoint_groups ND (i := i) (j := j) (x := x) I J); [apply (Permutation_in _ (proj2 (HG i I)))|apply (Permutation_in _ (proj2 (HG j J)))]; assumption. }
  destruct (right_step HL HG HC HD) as (p & PN & ER & SP). destruct (left_step HL HG HC HD PN SP) as (k & co & dom & K & EL & CD & LCD & POS).
  exists co, dom, (map (map (move (nc + nd) k)) ss). split; [|split].
  - unfold planar_combine_args. destruct (find_corners nc (nc + nd) which) as [r l]. cbn [fst snd] in *. rewrite ES. unfold range, reversed_range. rewrite Nat.sub_0_r. unfold range. replace (nc + nd - nc) with nd by lia. now rewrite ER.
  - exists k. split; [exact K|]. now rewrite rotation_seq.
  - apply Forall2_of_nth with (d := []) (e := []); [now rewrite map_length|]. intros i I. rewrite (nth_indep (map (map (move (nc + nd) k)) ss) [] (map (move (nc + nd) k) [])) by (rewrite map_length; lia). rewrite map_nth.
    destruct (POS i I) as (a & E & P1 & P2). destruct (HG i I) as [_ P]. destruct (HN i I) as [_ SH]. unfold gathered. rewrite CD. split; [|split].
    + rewrite map_map. rewrite (map_ext_in _ (fun l => l)); [now rewrite map_id|]. intros l L. apply (move_name HL); [exact K|]. destruct SH as [(x & m & _ & XM & EX)|(x & b & B & X & EX)]; rewrite EX in L.
      * apply in_seq in L. lia.
      * apply in_app_iff in L. rewrite !in_seq in L. lia.
    + exists a. rewrite E. f_equal. now apply Permutation_length.
    + rewrite E. destruct (Nat.ltb_spec (hd 0 (nth i which [])) nc) as [Q|Q].
      * apply Forall_forall. intros l L. apply in_seq in L. specialize (P1 Q). lia.
      * apply Forall_forall. intros l L. apply in_seq in L. destruct (P2 Q). lia.
Qed.

(** a group around the left end, if one of codomain and domain is empty *)
Lemma find_left nc n g : at_right nc g = false -> at_left n g = true -> find_corners nc n [g] = (None, Some (0, nc <=? hd 0 g)).
Proof. intros R L. unfold find_corners. cbn [length seq combine fold_left fst snd]. now rewrite R, L. Qed.
Lemma legs_below n g : contiguous n g -> Forall (fun l => l < n) g.
Proof.
  intros C. destruct (shape C) as (s & o & _ & P & SH). apply Forall_forall. intros l L. apply (Permutation_in _ (Permutation_sym P)) in L.
  destruct SH as [(a & m & _ & AM & ->)|(a & b & B & A & ->)]; [apply in_seq in L; lia|]. apply in_app_iff in L. rewrite !in_seq in L. lia.
Qed.
Lemma vector_fails nc g : contiguous nc g -> around_the_left nc g -> planar_combine_args nc 0 [g] = PErr Undefined.
Proof.
  intros C A. unfold planar_combine_args. rewrite Nat.add_0_r. pose proof (legs_below C) as B. rewrite Forall_forall in B.
  assert (R : at_right nc g = false). { destruct (at_right nc g) eqn:E; [|reflexivity]. apply at_right_spec in E. destruct E as (_ & _ & E). specialize (B _ E). lia. }
  assert (L : at_left nc g = true) by now apply at_left_spec.
  rewrite (find_left R L). destruct (shape C) as (s & o & Q & P & _). cbn [sort_groups]. rewrite Q. unfold bend_at_right, bend_at_left.
  destruct C as [NE _]. replace (nc <=? hd 0 g) with false by (symmetry; apply Nat.leb_gt; apply B; destruct g; [contradiction|now left]).
  unfold reversed_range, range. rewrite Nat.sub_diag. cbn [seq rev length nth]. destruct (Nat.ltb_spec 0 (index_of s (nc - 1) + 1)); [reflexivity|lia].
Qed.

(** a group around both ends *)
Lemma index_cons_seq a m t x : a <= x < a + m -> index_of (seq a m ++ t) x = x - a.
Proof. intros X. rewrite index_of_app, contains_seq. replace ((a <=? x) && (x <? a + m)) with true by (symmetry; apply andb_true_iff; split; [apply Nat.leb_le|apply Nat.ltb_lt]; lia). now rewrite index_of_seq. Qed.
Lemma find_one nc n g : at_right nc g = true -> find_corners nc n [g] = (Some (0, nc <=? hd 0 g), None).
Proof. intros R. unfold find_corners. cbn [length seq combine fold_left fst snd]. now rewrite R. Qed.
Lemma wrap_bipartition n a b g : 0 < b < a -> a < n -> Permutation g (seq a (n - a) ++ seq 0 b) -> exists o, parse_leg_bipartition g n = Some (seq a (n - a) ++ seq 0 b, o).
Proof.
  intros B A P. exists (seq b (a - b)). apply (PlanarProps.C69_bipartition_unique g n _ _ a).
  - now apply Permutation_sym.
  - lia.
  - rewrite rotation_seq by lia. rewrite <- app_assoc. f_equal. replace a with (b + (a - b)) at 2 by lia. now rewrite seq_app.
  - destruct (n - a) eqn:E; [lia|discriminate].
  - destruct (a - b) eqn:E; [lia|discriminate].
Qed.
Lemma both_corners nc nd a b g : 0 < nc -> 0 < nd -> 0 < b < a -> a < nc + nd -> Permutation g (seq a (nc + nd - a) ++ seq 0 b) ->
  (nc < b /\ nc <= hd 0 g \/ a < nc /\ hd 0 g < nc) -> planar_combine_args nc nd [g] = PErr Undefined.
Proof.
  intros C D B A P H. destruct (wrap_bipartition B A P) as (o & Q).
  assert (R : at_right nc g = true).
  { apply at_right_spec. split; [exact C|]. split; apply (Permutation_in _ (Permutation_sym P)); apply in_app_iff; rewrite !in_seq; lia. }
  unfold planar_combine_args. rewrite (find_one _ R). cbn [sort_groups]. rewrite Q. unfold bend_at_right. cbn [nth]. unfold range, reversed_range, range. rewrite Nat.sub_0_r, rev_length, !seq_length.
  destruct H as [[H1 H2]|[H1 H2]].
  - replace (nc <=? hd 0 g) with true by (symmetry; apply Nat.leb_le; lia). rewrite index_of_app, contains_seq. replace ((a <=? nc - 1) && (nc - 1 <? a + (nc + nd - a))) with false by (symmetry; apply andb_false_iff; left; apply Nat.leb_gt; lia).
    rewrite index_of_seq, seq_length by lia. destruct (Nat.ltb_spec nc (nc + nd - a + (nc - 1 - 0) + 1)); [reflexivity|lia].
  - replace (nc <=? hd 0 g) with false by (symmetry; apply Nat.leb_gt; lia). rewrite index_cons_seq by lia. rewrite app_length, !seq_length.
    destruct (Nat.ltb_spec (nc + nd - nc) (nc + nd - a + b - (nc - 1 - a + 1))); [reflexivity|lia].
Qed.

Lemma covector_fails nd a b g : 0 < b < a -> a < nd -> Permutation g (seq a (nd - a) ++ seq 0 b) -> planar_combine_args 0 nd [g] = PErr Undefined.
Proof.
  intros B A P. destruct (wrap_bipartition B A P) as (o & Q).
  assert (L : at_left nd g = true). { apply at_left_spec. split; apply (Permutation_in _ (Permutation_sym P)); apply in_app_iff; rewrite !in_seq; lia. }
  unfold planar_combine_args. cbn [plus]. rewrite (@find_left 0 nd g eq_refl L). cbn [sort_groups]. rewrite Q. unfold bend_at_right, bend_at_left. cbn [nth]. change (0 <=? hd 0 g) with true. cbv iota.
  rewrite index_cons_seq by lia. rewrite app_length, !seq_length. unfold range. cbn [Nat.sub seq length]. destruct (Nat.ltb_spec 0 (nd - a + b - (nd - 1 - a + 1))); [reflexivity|lia].
Qed.

(** all the legs *)
Lemma full_bipartition n g : 0 < n -> Permutation g (seq 0 n) -> parse_leg_bipartition g n = Some (seq 0 n, []).
Proof.
  intros N P. assert (LE : length g = n) by (rewrite (Permutation_length P); apply seq_length).
  assert (C : contiguous n g). { split; [intros ->; cbn in LE; lia|]. exists (seq 0 n), [], 0. split; [now apply Permutation_sym|]. split; [lia|]. cbn. now rewrite !app_nil_r. }
  destruct (shape C) as (s & o & Q & _). unfold parse_leg_bipartition in *. destruct (has_dup g || existsb (fun l => n <=? l) g); [discriminate|].
  destruct g as [|x t]; [cbn in LE; lia|]. rewrite LE, Nat.eqb_refl in *. unfold range. now rewrite Nat.sub_0_r.
Qed.
Lemma all_legs nc nd g : 0 < nc -> 0 < nd -> Permutation g (seq 0 (nc + nd)) ->
  exists co dom g', planar_combine_args nc nd [g] = POk (co, dom, [g']) /\ planar (nc + nd) co dom /\ gathered nc co dom g g'.
Proof.
  intros C D P. assert (R : at_right nc g = true). { apply at_right_spec. split; [exact C|]. split; apply (Permutation_in _ (Permutation_sym P)); apply in_seq; lia. }
  assert (LG : length g = nc + nd) by (rewrite (Permutation_length P); apply seq_length).
  assert (NM : map (fun l => nth l (seq 0 (nc + nd)) 0) (seq 0 (nc + nd)) = seq 0 (nc + nd)).
  { rewrite (map_ext_in _ (fun l => l)); [apply map_id|]. intros l L. apply in_seq in L. rewrite seq_nth by lia. lia. }
  assert (SA : seq 0 nc ++ seq nc nd = seq 0 (nc + nd)) by (now rewrite seq_app).
  unfold planar_combine_args. rewrite (find_one _ R). cbn [sort_groups]. rewrite full_bipartition by (auto; lia). unfold bend_at_right, bend_at_left. cbn [nth]. unfold range, reversed_range, range. rewrite Nat.sub_0_r.
  rewrite index_of_seq by lia. rewrite rev_length, !seq_length. replace (nc + nd - nc) with nd by lia. replace (nc - 1 - 0 + 1) with nc by lia. replace (nc + nd - nc) with nd by lia.
  destruct (Nat.leb_spec nc (hd 0 g)) as [H|H].
  - rewrite Nat.ltb_irrefl. rewrite Nat.sub_diag. cbn [firstn skipn]. rewrite <- rev_app_distr. rewrite SA. eexists. eexists. eexists. split; [reflexivity|]. split.
    + exists 0. split; [lia|]. rewrite rev_involutive. unfold rotation. cbn [skipn firstn app]. now rewrite app_nil_r.
    + unfold gathered. rewrite rev_involutive. cbn [app length]. rewrite NM. split; [now apply Permutation_sym|]. split; [exists 0; now rewrite LG|]. replace (hd 0 g <? nc) with false by (symmetry; apply Nat.ltb_ge; lia).
      rewrite rev_length, seq_length. apply Forall_forall. intros l L. apply in_seq in L. lia.
  - rewrite Nat.ltb_irrefl. rewrite Nat.sub_diag. cbn [firstn skipn]. rewrite rev_involutive. rewrite SA. eexists. eexists. eexists. split; [reflexivity|]. split.
    + exists 0. split; [lia|]. cbn [rev]. rewrite app_nil_r. unfold rotation. cbn [skipn firstn app]. now rewrite app_nil_r.
    + unfold gathered. cbn [rev]. rewrite app_nil_r. rewrite NM. split; [now apply Permutation_sym|]. split; [exists 0; now rewrite LG|]. replace (hd 0 g <? nc) with true by (symmetry; apply Nat.ltb_lt; lia).
      rewrite seq_length. apply Forall_forall. intros l L. apply in_seq in L. lia.
Qed.

(** groups that do not cross an end: nothing is bent *)
Lemma nothing_bent nc nd which : Forall (contiguous (nc + nd)) which -> Forall (fun g => (Forall (fun l => l < nc) g \/ Forall (fun l => nc <= l) g) /\ ~ around_the_left (nc + nd) g) which ->
  exists which', planar_combine_args nc nd which = POk (seq 0 nc, rev (seq nc nd), which').
Proof.
  intros C F. destruct (sort_ok C) as (ss & ES & _). exists ss. unfold planar_combine_args. destruct (corners nc (nc + nd) which) as [R L]. rewrite Forall_forall in F.
  assert (NR : forall g, In g which -> at_right nc g = false).
  { intros g G. destruct (at_right nc g) eqn:E; [|reflexivity]. apply at_right_spec in E. destruct E as (P & X & Y). destruct (F g G) as [[Z|Z] _]; rewrite Forall_forall in Z; [specialize (Z _ Y)|specialize (Z _ X)]; lia. }
  destruct (find_corners nc (nc + nd) which) as [[[i d]|] [[j d']|]]; cbn [fst snd] in *.
  - destruct R as (I & X & _). rewrite NR in X by (now apply nth_In). discriminate.
  - destruct R as (I & X & _). rewrite NR in X by (now apply nth_In). discriminate.
  - destruct L as (J & _ & X & _). apply at_left_spec in X. exfalso. exact (proj2 (F _ (nth_In which [] J)) X).
  - rewrite ES. unfold bend_at_right, bend_at_left, range, reversed_range, range. rewrite Nat.sub_0_r. now replace (nc + nd - nc) with nd by lia.
Qed.
