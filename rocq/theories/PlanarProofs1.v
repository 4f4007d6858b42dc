(** C69, part 1: a call whose bending legs lie at the ends needs no crossing. *)
From Coq Require Import ZArith List Bool Lia Permutation.
From Verif Require Import Util GridModel PermLegsModel PermLegsSpec PermLegsProofs PermLegsProofs2 PermLegsProofs3 PermLegsProofs4 PermLegsProofs5 PermLegsProofs6 PermLegsProofs7 PermLegsProps PlanarModel PlanarSpec.
Import ListNotations.
Set Implicit Arguments. Unset Strict Implicit.
Open Scope nat_scope.

Lemma memb_In i l : memb i l = true <-> In i l.
Proof. unfold memb. rewrite existsb_exists. split; [intros (x & H & E); apply Nat.eqb_eq in E; now subst|intros H; exists i; now rewrite Nat.eqb_refl]. Qed.
Lemma contains_In l i : contains l i = true <-> In i l.
Proof. exact (memb_In i l). Qed.

Lemma filter_ext_in' A (f g : A -> bool) l : (forall x, In x l -> f x = g x) -> filter f l = filter g l.
Proof. apply filter_ext_in. Qed.
Lemma filter_range f a m lo hi : (forall x, a <= x < a + m -> f x = true <-> lo <= x < hi) -> a <= lo -> lo <= hi -> hi <= a + m -> filter f (seq a m) = seq lo (hi - lo).
Proof.
  intros H A B C. replace m with ((lo - a) + ((hi - lo) + (a + m - hi))) at 1 by lia. rewrite !seq_app, !filter_app.
  rewrite filter_none, filter_all, filter_none.
  - cbn [app]. rewrite app_nil_r. f_equal. lia.
  - intros x I. apply in_seq in I. destruct (f x) eqn:E; [|reflexivity]. apply H in E; lia.
  - intros x I. apply in_seq in I. apply H; lia.
  - intros x I. apply in_seq in I. destruct (f x) eqn:E; [|reflexivity]. apply H in E; lia.
Qed.
Lemma inverted_same l l' a b : NoDup l -> l = l' -> ~ inverted l l' a b.
Proof. intros N <- [H1 H2]. exact (before_asym N H1 H2). Qed.

Section Step.
  Variables (nc nd lo sc ro ri sd li : nat) (r : request).
  Hypothesis NC : nc = lo + sc + ro.
  Hypothesis ND : nd = ri + sd + li.
  Hypothesis RR : ro = 0 \/ ri = 0.
  Hypothesis LL : lo = 0 \/ li = 0.
  Hypothesis Rnc : r_nc r = nc.
  Hypothesis Rnd : r_nd r = nd.
  Hypothesis Rcod : r_cod r = seq (nc + ri + sd) li ++ seq lo sc ++ seq nc ri.
  Hypothesis Rdom : rev (r_dom r) = seq (lo + sc) ro ++ seq (nc + ri) sd ++ seq 0 lo.
  Hypothesis Rlev : length (r_levels r) = nc + nd.
  Hypothesis Rben : length (r_bend r) = nc + nd.
  Hypothesis BL : forall i, i < lo \/ nc + ri + sd <= i < nc + nd -> nth i (r_bend r) None = Some false.
  Hypothesis BR : forall i, lo + sc <= i < nc + ri -> nth i (r_bend r) None = Some true.

  Lemma step_perm : is_perm (nc + nd) (r_cod r ++ rev (r_dom r)).
  Proof.
    rewrite Rcod, Rdom. unfold is_perm.
    assert (E : seq 0 (nc + nd) = seq 0 lo ++ seq lo sc ++ seq (lo + sc) ro ++ seq nc ri ++ seq (nc + ri) sd ++ seq (nc + ri + sd) li).
    { rewrite ND, NC. replace (lo + sc + ro + (ri + sd + li)) with (lo + (sc + (ro + (ri + (sd + li))))) by lia. rewrite !seq_app. cbn [plus]. repeat f_equal; lia. }
    rewrite E. rewrite <- !app_assoc.
    rewrite (Permutation_app_comm (seq (nc + ri + sd) li)). rewrite <- !app_assoc.
    rewrite (Permutation_app_comm (seq 0 lo) (seq lo sc ++ _)). rewrite <- !app_assoc. apply Permutation_app_head.
    rewrite !app_assoc. rewrite (Permutation_app_comm (seq nc ri) (seq (lo + sc) ro)). rewrite <- !app_assoc. do 3 apply Permutation_app_head. apply Permutation_app_comm.
  Qed.
  Lemma in_dom i : In i (r_dom r) <-> lo + sc <= i < nc \/ nc + ri <= i < nc + ri + sd \/ i < lo.
  Proof. rewrite in_rev, Rdom, !in_app_iff, !in_seq. lia. Qed.
  Lemma in_cod i : In i (r_cod r) <-> nc + ri + sd <= i < nc + nd \/ lo <= i < lo + sc \/ nc <= i < nc + ri.
  Proof. rewrite Rcod, !in_app_iff, !in_seq. lia. Qed.
  Lemma step_changes i : i < nc + nd -> changes_side r i = true <-> i < lo \/ lo + sc <= i < nc + ri \/ nc + ri + sd <= i.
  Proof.
    intros L. unfold changes_side. rewrite Rnc. destruct (Nat.ltb_spec i nc); rewrite memb_In; [rewrite in_dom|rewrite in_cod]; lia.
  Qed.
  Lemma step_valid : valid_request r.
  Proof.
    unfold valid_request. rewrite Rnc, Rnd. split; [exact step_perm|]. split; [exact Rlev|]. split; [exact Rben|]. intros i L C. apply (step_changes L) in C.
    destruct C as [C|[C|C]]; [rewrite BL|rewrite BR|rewrite BL]; try discriminate; lia.
  Qed.
  Lemma step_left i : i < nc + nd -> bends_left r i = true <-> i < lo \/ nc + ri + sd <= i.
  Proof.
    intros L. unfold bends_left. rewrite andb_true_iff, (step_changes L). split.
    - intros [[C|[C|C]] E]; [lia| |lia]. rewrite BR in E by lia. discriminate.
    - intros C. split; [lia|]. rewrite BL by lia. reflexivity.
  Qed.
  Lemma step_right i : i < nc + nd -> bends_right r i = true <-> lo + sc <= i < nc + ri.
  Proof.
    intros L. unfold bends_right. rewrite andb_true_iff, (step_changes L). split.
    - intros [[C|[C|C]] E]; [|lia|]; rewrite BL in E by lia; discriminate.
    - intros C. split; [lia|]. rewrite BR by lia. reflexivity.
  Qed.
  Lemma step_lists : left_out r = seq 0 lo /\ left_in r = seq (nc + ri + sd) li /\ right_in r = seq nc ri /\ stay_cod r = seq lo sc /\ filter (bends_right r) (seq 0 nc) = seq (lo + sc) ro.
  Proof.
    unfold left_out, left_in, right_in, stay_cod. rewrite Rnc, Rnd. repeat match goal with |- _ /\ _ => split end.
    - replace lo with (lo - 0) at 1 by lia. apply filter_range; try lia. intros x Hx. rewrite step_left; lia.
    - replace li with (nc + nd - (nc + ri + sd)) at 1 by lia. apply filter_range; try lia. intros x Hx. rewrite step_left; lia.
    - replace ri with (nc + ri - nc) at 1 by lia. apply filter_range; try lia. intros x Hx. rewrite step_right; lia.
    - replace sc with (lo + sc - lo) at 1 by lia. apply filter_range; try lia. intros x Hx. unfold neither.
      rewrite negb_true_iff, <- not_true_iff_false, step_changes by lia. lia.
    - replace ro with (nc - (lo + sc)) at 1 by lia. apply filter_range; try lia. intros x Hx. rewrite step_right; lia.
  Qed.
  Lemma step_no_cross a b : ~ must_cross r a b.
  Proof.
    destruct step_lists as (E1 & E2 & E3 & E4 & E5). unfold must_cross, rest1, rest2. rewrite E1, E2, E3, E4, Rnc, Rnd, E5, Rcod, Rdom.
    assert (N : seq 0 nc = seq 0 lo ++ seq lo sc ++ seq (lo + sc) ro) by (rewrite NC, <- Nat.add_assoc, !seq_app; reflexivity).
    assert (N' : seq nc nd = seq nc ri ++ seq (nc + ri) sd ++ seq (nc + ri + sd) li) by (rewrite ND, <- Nat.add_assoc, !seq_app; reflexivity).
    assert (P : is_perm (nc + nd) (seq 0 (nc + nd))) by apply Permutation_refl.
    assert (P' := step_perm). rewrite Rcod, Rdom in P'.
    intros [H|[H|H]]; revert H; apply inverted_same.
    - apply seq_NoDup.
    - rewrite seq_app. cbn [plus]. rewrite N at 1. now rewrite <- !app_assoc.
    - eapply Permutation_NoDup; [|apply (seq_NoDup (nc + nd) 0)]. rewrite seq_app. cbn [plus]. rewrite N at 1. rewrite <- !app_assoc. rewrite (Permutation_app_comm (seq 0 lo)). now rewrite <- !app_assoc.
    - rewrite N'. destruct RR as [ -> | -> ], LL as [ -> | -> ]; cbn [seq app]; rewrite ?app_nil_r, <- ?app_assoc; reflexivity.
    - eapply Permutation_NoDup; [|apply (seq_NoDup (nc + nd) 0)]. rewrite <- P'. now rewrite <- !app_assoc.
    - now rewrite <- !app_assoc.
  Qed.

  Lemma step_run : exists instrs events, run r = Ok instrs /\ exec (legs0 nc nd) instrs = Some ((r_cod r, r_dom r), events).
  Proof.
    rewrite <- Rnc, <- Rnd. apply C22_instructions_realise_request; [exact step_valid|]. right. intros a b H. now apply step_no_cross in H.
  Qed.
  Lemma step_phase (G H : Type) gz gadd gopp hz hadd hopp (beta : G -> G -> H) (q : nat -> G) instrs legs events :
    abelian_group gz gadd gopp -> abelian_group hz hadd hopp -> bicharacter G H gadd hadd beta -> charge gz gadd q (seq 0 (nc + nd)) = gz ->
    run r = Ok instrs -> exec (legs0 nc nd) instrs = Some (legs, events) -> phase gz gadd hz hadd hopp beta q events = hz.
  Proof.
    intros GG HG [B1 B2] Q E X. rewrite <- Rnc, <- Rnd in Q, X.
    assert (T := @phase_total G H gz gadd gopp hz hadd hopp GG HG beta B1 B2 q r step_valid Q (fun _ _ => false)).
    assert (Z : forall l, potential hz hadd beta q (fun _ _ : nat => false) l = hz).
    { destruct HG as (_ & _ & Hz & _). intros l. induction l as [|x l IH]; cbn [potential]; [reflexivity|]. rewrite IH.
      assert (Z0 : forall l', gsum hz hadd (map (fun _ : nat => hz) l') = hz). { intros l'. induction l' as [|y l' IH']; [reflexivity|]. cbn [map]. unfold gsum in *. cbn [fold_right]. rewrite IH'. apply Hz. }
      rewrite Z0. apply Hz. }
    assert (T' := T (fun p _ M => match step_no_cross M with end) instrs legs events E X). rewrite !Z in T'.
    destruct HG as (Ha & Hc & Hz & Ho). assert (Z2 : hadd hz hz = hz) by apply Hz. rewrite !Z2 in T'. rewrite <- !Ha, !Z2 in T'. now rewrite Hc, Hz in T'.
  Qed.
End Step.
