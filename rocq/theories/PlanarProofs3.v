(** C69, part 3: every planar rearrangement is reduced to calls that need no crossing. *)
From Coq Require Import ZArith List Bool Lia Permutation.
From Verif Require Import Util GridModel PermLegsModel PermLegsSpec PermLegsProps PlanarModel PlanarSpec PlanarProofs1 PlanarProofs2.
Import ListNotations.
Set Implicit Arguments. Unset Strict Implicit.
Open Scope nat_scope.

(** what the calls achieve *)
Definition achieves (nc nd : nat) (co dom : list nat) (steps : list call) : Prop :=
  forall triv sym, (triv = true -> sym = true) -> exists ev, do_calls triv sym (legs0 nc nd) steps = POk ((co, dom), ev) /\
    (triv = false -> forall (G H : Type) gz gadd gopp hz hadd hopp (beta : G -> G -> H) (q : nat -> G),
      abelian_group gz gadd gopp -> abelian_group hz hadd hopp -> bicharacter G H gadd hadd beta -> charge gz gadd q (seq 0 (nc + nd)) = gz -> phase gz gadd hz hadd hopp beta q ev = hz).

Lemma legs0_length nc nd : length (seq 0 nc) = nc /\ length (rev (seq nc nd)) = nd.
Proof. now rewrite rev_length, !seq_length. Qed.
Lemma legs0_order nc nd : seq 0 nc ++ rev (rev (seq nc nd)) = seq 0 (nc + nd).
Proof. now rewrite rev_involutive, seq_app. Qed.
Lemma map_name0 nc nd l : Forall (fun i => i < nc + nd) l -> map (name (seq 0 nc, rev (seq nc nd))) l = l.
Proof.
  intros F. rewrite <- (map_id l) at 2. apply map_ext_in. intros i I. rewrite Forall_forall in F. unfold name. cbn [fst snd]. rewrite legs0_order. now rewrite seq_nth by now apply F.
Qed.

Definition six (lo sc ro ri sd li : nat) : list (option bool) :=
  times lo (Some false) ++ times sc None ++ times ro (Some true) ++ times ri (Some true) ++ times sd None ++ times li (Some false).
Lemma six_length lo sc ro ri sd li : length (six lo sc ro ri sd li) = lo + sc + ro + (ri + sd + li).
Proof. unfold six, times. rewrite !app_length, !repeat_length. lia. Qed.
Lemma nth_times_app a b l i : nth i (times a b ++ l) None = if i <? a then b else nth (i - a) l None.
Proof. unfold times. destruct (Nat.ltb_spec i a); [rewrite app_nth1 by now rewrite repeat_length|rewrite app_nth2 by now rewrite repeat_length]; [now apply nth_repeat_lt|now rewrite repeat_length]. Qed.
Lemma six_nth lo sc ro ri sd li i :
  (i < lo \/ lo + sc + ro + ri + sd <= i < lo + sc + ro + (ri + sd + li) -> nth i (six lo sc ro ri sd li) None = Some false) /\
  (lo + sc <= i < lo + sc + ro + ri -> nth i (six lo sc ro ri sd li) None = Some true).
Proof.
  unfold six. rewrite <- (app_nil_r (times li _)). rewrite !nth_times_app.
  destruct (Nat.ltb_spec i lo), (Nat.ltb_spec (i - lo) sc), (Nat.ltb_spec (i - lo - sc) ro), (Nat.ltb_spec (i - lo - sc - ro) ri), (Nat.ltb_spec (i - lo - sc - ro - ri) sd), (Nat.ltb_spec (i - lo - sc - ro - ri - sd) li);
    split; intros X; try lia; reflexivity.
Qed.

(** one call *)
Lemma one_achieves nc nd co dom lo sc ro ri sd li : nc = lo + sc + ro -> nd = ri + sd + li -> ro = 0 \/ ri = 0 -> lo = 0 \/ li = 0 ->
  co = seq (nc + ri + sd) li ++ seq lo sc ++ seq nc ri -> rev dom = seq (lo + sc) ro ++ seq (nc + ri) sd ++ seq 0 lo ->
  achieves nc nd co dom [Call co dom (BendList (six lo sc ro ri sd li))].
Proof.
  intros NC ND RR LL Ec Ed triv sym TS. destruct (legs0_length nc nd) as [L1 L2].
  destruct (@do_call_step lo sc ro ri sd li (seq 0 nc) (rev (seq nc nd)) (Call co dom (BendList (six lo sc ro ri sd li)))) with (triv := triv) (sym := sym) as (ev & E & PH); rewrite ?L1, ?L2; auto.
  - cbn [c_bend]. rewrite six_length. lia.
  - cbn [c_bend]. intros i Hi. apply six_nth. lia.
  - cbn [c_bend]. intros i Hi. apply six_nth. lia.
  - exists ev. cbn [do_calls]. unfold legs0. rewrite E. cbn [c_cod c_dom] in *. rewrite app_nil_r. split.
    + rewrite !map_name0; [reflexivity| |].
      * apply Forall_forall. intros i I. rewrite in_rev, Ed, !in_app_iff, !in_seq in I. lia.
      * apply Forall_forall. intros i I. rewrite Ec, !in_app_iff, !in_seq in I. lia.
    + intros T G H gz gadd gopp hz hadd hopp beta q A1 A2 A3 Q. apply (PH T G H gz gadd gopp hz hadd hopp beta q A1 A2 A3). now rewrite legs0_order.
Qed.
Lemma nil_achieves nc nd : achieves nc nd (seq 0 nc) (rev (seq nc nd)) [].
Proof. intros triv sym _. exists []. split; [reflexivity|]. reflexivity. Qed.

(** two calls with a single direction each *)
Lemma all_achieves (b : bool) nc nd co dom lo sc ro ri sd li : nc = lo + sc + ro -> nd = ri + sd + li -> ro = 0 \/ ri = 0 -> lo = 0 \/ li = 0 ->
  (if b then lo = 0 /\ li = 0 else ro = 0 /\ ri = 0) ->
  co = seq (nc + ri + sd) li ++ seq lo sc ++ seq nc ri -> rev dom = seq (lo + sc) ro ++ seq (nc + ri) sd ++ seq 0 lo ->
  forall c d, length c = nc -> length d = nd -> forall triv sym, (triv = true -> sym = true) ->
  exists ev, do_call triv sym (c, d) (Call co dom (BendAll b)) = POk ((map (name (c, d)) co, map (name (c, d)) dom), ev) /\
    (triv = false -> forall (G H : Type) gz gadd gopp hz hadd hopp (beta : G -> G -> H) (q : nat -> G),
      abelian_group gz gadd gopp -> abelian_group hz hadd hopp -> bicharacter G H gadd hadd beta -> charge gz gadd q (c ++ rev d) = gz -> phase gz gadd hz hadd hopp beta q ev = hz).
Proof.
  intros NC ND RR LL B Ec Ed c d Lc Ld triv sym TS.
  destruct (@do_call_step lo sc ro ri sd li c d (Call co dom (BendAll b))) with (triv := triv) (sym := sym) as (ev & E & PH); rewrite ?Lc, ?Ld; auto; cbn [c_bend].
  - apply repeat_length.
  - intros i Hi. rewrite nth_repeat_lt by lia. destruct b; [lia|reflexivity].
  - intros i Hi. rewrite nth_repeat_lt by lia. destruct b; [reflexivity|lia].
  - exists ev. now split.
Qed.
Lemma phase_app (G H : Type) gz (gadd : G -> G -> G) hz (hadd : H -> H -> H) hopp (beta : G -> G -> H) q e1 e2 :
  (forall x y z, hadd x (hadd y z) = hadd (hadd x y) z) -> (forall x, hadd hz x = x) ->
  phase gz gadd hz hadd hopp beta q (e1 ++ e2) = hadd (phase gz gadd hz hadd hopp beta q e1) (phase gz gadd hz hadd hopp beta q e2).
Proof. intros A Z. unfold phase, gsum. rewrite map_app. induction (map _ e1) as [|x l IH]; cbn [app fold_right]; [now rewrite Z|]. now rewrite IH, A. Qed.

Lemma Forall_seq n a m : a + m <= n -> Forall (fun i => i < n) (seq a m).
Proof. intros L. apply Forall_forall. intros i I. apply in_seq in I. lia. Qed.
Lemma two_achieves nc nd co1 dom1 b1 co2 dom2 b2 co dom lo sc ro ri sd li lo' sc' ro' ri' sd' li' :
  nc = lo + sc + ro -> nd = ri + sd + li -> ro = 0 \/ ri = 0 -> lo = 0 \/ li = 0 -> (if b1 : bool then lo = 0 /\ li = 0 else ro = 0 /\ ri = 0) ->
  co1 = seq (nc + ri + sd) li ++ seq lo sc ++ seq nc ri -> rev dom1 = seq (lo + sc) ro ++ seq (nc + ri) sd ++ seq 0 lo ->
  length co1 = lo' + sc' + ro' -> length dom1 = ri' + sd' + li' -> ro' = 0 \/ ri' = 0 -> lo' = 0 \/ li' = 0 -> (if b2 : bool then lo' = 0 /\ li' = 0 else ro' = 0 /\ ri' = 0) ->
  co2 = seq (length co1 + ri' + sd') li' ++ seq lo' sc' ++ seq (length co1) ri' -> rev dom2 = seq (lo' + sc') ro' ++ seq (length co1 + ri') sd' ++ seq 0 lo' ->
  co = map (name (co1, dom1)) co2 -> dom = map (name (co1, dom1)) dom2 ->
  achieves nc nd co dom [Call co1 dom1 (BendAll b1); Call co2 dom2 (BendAll b2)].
Proof.
  intros A1 A2 A3 A4 A5 A6 A7 B1 B2 B3 B4 B5 B6 B7 -> -> triv sym TS. destruct (legs0_length nc nd) as [L1 L2].
  destruct (@all_achieves b1 nc nd co1 dom1 lo sc ro ri sd li A1 A2 A3 A4 A5 A6 A7 (seq 0 nc) (rev (seq nc nd)) L1 L2 triv sym TS) as (e1 & E1 & P1).
  destruct (@all_achieves b2 (length co1) (length dom1) co2 dom2 lo' sc' ro' ri' sd' li' B1 B2 B3 B4 B5 B6 B7 co1 dom1 eq_refl eq_refl triv sym TS) as (e2 & E2 & P2).
  assert (M1 : map (name (seq 0 nc, rev (seq nc nd))) co1 = co1).
  { apply map_name0. apply Forall_forall. intros i I. rewrite A6, !in_app_iff, !in_seq in I. lia. }
  assert (M2 : map (name (seq 0 nc, rev (seq nc nd))) dom1 = dom1).
  { apply map_name0. apply Forall_forall. intros i I. rewrite in_rev, A7, !in_app_iff, !in_seq in I. lia. }
  rewrite M1, M2 in E1. exists (e1 ++ e2 ++ []). cbn [do_calls]. unfold legs0. rewrite E1, E2. split; [reflexivity|].
  intros T G H gz gadd gopp hz hadd hopp beta q C1 C2 C3 Q. rewrite app_nil_r. rewrite phase_app by apply C2.
  rewrite (P1 T G H gz gadd gopp hz hadd hopp beta q C1 C2 C3) by now rewrite legs0_order. rewrite (P2 T G H gz gadd gopp hz hadd hopp beta q C1 C2 C3).
  - apply C2.
  - etransitivity; [|exact Q]. apply (PermLegsProofs6.ch_perm C1 q).
    rewrite A6, A7. set (rq := Request nc nd co1 dom1 (repeat None (nc + nd)) (repeat None (nc + nd)) true).
    assert (X := @step_perm nc nd lo sc ro ri sd li rq A1 A2 A3 A4 eq_refl eq_refl A6 A7 (repeat_length _ _) (repeat_length _ _)). cbn [rq r_cod r_dom] in X. now rewrite A6, A7 in X.
Qed.
