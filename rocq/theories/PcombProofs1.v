(** Lemmas for C74: shapes of groups. *)
From Coq Require Import List Bool Arith Lia Permutation.
From Verif Require Import Util PlanarModel PlanarSpec PlanarProofs1 PlanarProofs4 PlanarProofs7 PlanarProofs8 PlanarProps PcombModel PcombSpec.
Import ListNotations.
Set Implicit Arguments. Unset Strict Implicit.
Open Scope nat_scope.

Lemma at_right_spec nc g : at_right nc g = true <-> 0 < nc /\ around_the_right nc g.
Proof. unfold at_right, around_the_right. rewrite !andb_true_iff, Nat.ltb_lt, !contains_In. tauto. Qed.
Lemma at_left_spec n g : at_left n g = true <-> around_the_left n g.
Proof. unfold at_left, around_the_left. rewrite andb_true_iff, !contains_In. tauto. Qed.

(** an arc of the circle *)
Definition arc_shape (n : nat) (s : list nat) : Prop := (exists a m, 0 < m /\ a + m <= n /\ s = seq a m) \/ (exists a b, 0 < b < a /\ a < n /\ s = seq a (n - a) ++ seq 0 b).
Lemma shape n g : contiguous n g -> exists s o, parse_leg_bipartition g n = Some (s, o) /\ Permutation s g /\ arc_shape n s.
Proof.
  intros (NE & c & o & k & P & K & E). destruct (parse_leg_bipartition g n) as [[s o']|] eqn:Q.
  2:{ exfalso. apply (proj1 (C69_bipartition_found g n)); [now exists c, o, k|exact Q]. }
  exists s, o'. split; [reflexivity|]. destruct (C69_bipartition _ _ _ _ Q) as (P' & k' & K' & E'). split; [exact P'|].
  assert (LS : 0 < length s). { rewrite (Permutation_length P'). destruct g; [contradiction|cbn; lia]. }
  rewrite rotation_seq in E' by exact K'. assert (LT : length (s ++ o') = n) by (rewrite E', app_length, !seq_length; lia). rewrite app_length in LT.
  assert (ES : s = firstn (length s) (seq k' (n - k') ++ seq 0 k')) by (rewrite <- E', firstn_app, firstn_all, Nat.sub_diag; cbn [firstn]; now rewrite app_nil_r).
  rewrite firstn_app, seq_length, !firstn_seq in ES. destruct (le_lt_dec (length s) (n - k')) as [L|L].
  - left. exists k', (length s). repeat split; [lia|lia|]. replace (length s - (n - k')) with 0 in ES by lia. cbn [Nat.min seq] in ES. rewrite app_nil_r in ES. now rewrite (Nat.min_l _ _ L) in ES.
  - rewrite (Nat.min_r (length s)) in ES by lia. destruct (Nat.eq_dec k' n) as [->|NK].
    + left. exists 0, (length s). rewrite Nat.sub_diag in ES. cbn [seq app] in ES. repeat split; try lia. now rewrite Nat.sub_0_r, Nat.min_l in ES by lia.
    + destruct (Nat.eq_dec (length s) n) as [EN|NN].
      * (* all the legs: the function returns them in order *)
        left. exists 0, n. repeat split; try lia. unfold parse_leg_bipartition in Q. destruct (has_dup g || existsb (fun l => n <=? l) g); [discriminate|]. destruct g as [|x g]; [contradiction|].
        rewrite <- (Permutation_length P'), EN, Nat.eqb_refl in Q. unfold range in Q. rewrite Nat.sub_0_r in Q. now injection Q as <- <-.
      * right. exists k', (length s - (n - k')). rewrite Nat.min_l in ES by lia. repeat split; try lia. exact ES.
Qed.

Lemma sort_ok n which : Forall (contiguous n) which -> exists sorted, sort_groups n which = Some sorted /\ Forall2 (fun g s => Permutation s g /\ arc_shape n s) which sorted.
Proof.
  induction 1 as [|g which C F (sorted & E & R)]; [exists []; split; [reflexivity|constructor]|]. destruct (shape C) as (s & o & Q & P & S). exists (s :: sorted). cbn [sort_groups]. rewrite Q, E.
  split; [reflexivity|]. constructor; [now split|exact R].
Qed.

(** the groups found at the corners *)
Section Corners.
Variable nc n : nat.
Let F (st : option (nat * bool) * option (nat * bool)) (p : nat * list nat) :=
  if at_right nc (snd p) then (Some (fst p, nc <=? hd 0 (snd p)), snd st)
  else if at_left n (snd p) then (fst st, Some (fst p, nc <=? hd 0 (snd p))) else st.
Lemma corners_gen l : forall k st, let st' := fold_left F (combine (seq k (length l)) l) st in
  (match fst st' with
   | Some (i, d) => (fst st = Some (i, d) /\ Forall (fun g => at_right nc g = false) l) \/
       (k <= i < k + length l /\ at_right nc (nth (i - k) l []) = true /\ d = (nc <=? hd 0 (nth (i - k) l [])))
   | None => fst st = None /\ Forall (fun g => at_right nc g = false) l end) /\
  (match snd st' with
   | Some (i, d) => (snd st = Some (i, d) /\ Forall (fun g => at_right nc g = false -> at_left n g = false) l) \/
       (k <= i < k + length l /\ at_right nc (nth (i - k) l []) = false /\ at_left n (nth (i - k) l []) = true /\ d = (nc <=? hd 0 (nth (i - k) l [])))
   | None => snd st = None /\ Forall (fun g => at_right nc g = false -> at_left n g = false) l end).
Proof.
  induction l as [|g l IH]; intros k st; cbn [length seq combine fold_left].
  - cbn zeta. split; [destruct (fst st) as [[i d]|]|destruct (snd st) as [[i d]|]]; auto.
  - specialize (IH (S k) (F st (k, g))). cbn zeta in *. destruct IH as [IR IL]. set (st' := fold_left F _ _) in *. split.
    + destruct (fst st') as [[i d]|].
      * destruct IR as [[E A]|(B & R & D)].
        -- unfold F in E. cbn [fst snd] in E. destruct (at_right nc g) eqn:G.
           ++ cbn [fst] in E. injection E as <- <-. right. rewrite Nat.sub_diag. cbn [nth]. repeat split; auto; lia.
           ++ destruct (at_left n g); cbn [fst] in E; left; auto.
        -- right. replace (i - k) with (S (i - S k)) by lia. cbn [nth]. repeat split; auto; lia.
      * destruct IR as [E A]. unfold F in E. cbn [fst snd] in E. destruct (at_right nc g) eqn:G; [discriminate E|]. destruct (at_left n g); cbn [fst] in E; auto.
    + destruct (snd st') as [[i d]|].
      * destruct IL as [[E A]|(B & R & L & D)].
        -- unfold F in E. cbn [fst snd] in E. destruct (at_right nc g) eqn:G; [|destruct (at_left n g) eqn:GL].
           ++ cbn [snd] in E. left. split; [exact E|]. constructor; [congruence|exact A].
           ++ cbn [snd] in E. injection E as <- <-. right. rewrite Nat.sub_diag. cbn [nth]. repeat split; auto; lia.
           ++ left. split; [exact E|]. constructor; auto.
        -- right. replace (i - k) with (S (i - S k)) by lia. cbn [nth]. repeat split; auto; lia.
      * destruct IL as [E A]. unfold F in E. cbn [fst snd] in E. destruct (at_right nc g) eqn:G; [|destruct (at_left n g) eqn:GL]; cbn [snd] in E; try discriminate E; (split; [exact E|]; constructor; [congruence|exact A]).
Qed.
Lemma corners which : let st := find_corners nc n which in
  (match fst st with Some (i, d) => i < length which /\ at_right nc (nth i which []) = true /\ d = (nc <=? hd 0 (nth i which []))
   | None => Forall (fun g => at_right nc g = false) which end) /\
  (match snd st with Some (i, d) => i < length which /\ at_right nc (nth i which []) = false /\ at_left n (nth i which []) = true /\ d = (nc <=? hd 0 (nth i which []))
   | None => Forall (fun g => at_right nc g = false -> at_left n g = false) which end).
Proof.
  cbn zeta. destruct (corners_gen which 0 (None, None)) as [R L]. fold (find_corners nc n which) in R, L. change (fold_left F (combine (seq 0 (length which)) which) (None, None)) with (find_corners nc n which) in R, L. split.
  - destruct (fst (find_corners nc n which)) as [[i d]|]; [|now destruct R]. destruct R as [[E _]|(B & H1 & H2)]; [discriminate E|]. rewrite Nat.sub_0_r in *. repeat split; auto; lia.
  - destruct (snd (find_corners nc n which)) as [[i d]|]; [|now destruct L]. destruct L as [[E _]|(B & H1 & H2 & H3)]; [discriminate E|]. rewrite Nat.sub_0_r in *. repeat split; auto; lia.
Qed.
End Corners.

Lemma disjoint_groups (L : list (list nat)) : NoDup (concat L) -> forall i j x, i < length L -> j < length L -> In x (nth i L []) -> In x (nth j L []) -> i = j.
Proof.
  induction L as [|g L IH]; intros N i j x Hi Hj Xi Xj; [cbn in Hi; lia|]. cbn [concat] in N.
  assert (D : forall y, In y g -> ~ In y (concat L)).
  { intros y Y1 Y2. clear - N Y1 Y2. induction g as [|z g IH]; [destruct Y1|]. cbn [app] in N. apply NoDup_cons_iff in N. destruct N as [N1 N2]. destruct Y1 as [ <-|Y1]; [apply N1; apply in_app_iff; now right|now apply IH]. }
  assert (NL : NoDup (concat L)) by (clear - N; induction g as [|z g IH]; [exact N|cbn [app] in N; apply NoDup_cons_iff in N; now apply IH]).
  assert (C : forall k y, k < length L -> In y (nth k L []) -> In y (concat L)) by (intros k y K Y; apply in_concat; exists (nth k L []); split; [now apply nth_In|exact Y]).
  cbn [length] in Hi, Hj. destruct i as [|i], j as [|j]; cbn [nth] in Xi, Xj; [reflexivity| | |f_equal; apply (IH NL i j x); auto; lia].
  - exfalso. apply (D x Xi). apply (C j); [lia|exact Xj].
  - exfalso. apply (D x Xj). apply (C i); [lia|exact Xi].
Qed.
