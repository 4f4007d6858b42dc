(** C68, part 5: errors, explicit crossings, composition. *)
From Coq Require Import ZArith List Bool Lia Permutation Sorted Arith.
From Verif Require Import Util GridModel GridProofs PermLegsSpec PermLegsProofs CPermModel CPermSpec CPermProofs1 CPermProofs2 CPermProofs3.
Import ListNotations.
Open Scope nat_scope.
Set Implicit Arguments. Unset Strict Implicit.

Section Chirality.
  Variable T : Type.
  Variable PL : list nat -> list nat -> list (option Z) -> T -> T.
  Variable n : nat.
  Lemma chirality_undecided lv o pos : S pos < length o -> undecided lv (nth pos o 0) (nth (S pos) o 0) -> chirality (map lv o) pos None = Err EChirality.
  Proof.
    intros H U. unfold chirality. rewrite !nth_map_lt with (d := 0) by lia. destruct U as [U|[U|U]].
    - now rewrite U.
    - rewrite U. now destruct (lv (nth pos o 0)).
    - rewrite U. destruct (lv (nth (S pos) o 0)) as [z|]; [|reflexivity]. now rewrite Z.eqb_refl.
  Qed.
  Lemma chirality_decided lv o pos : S pos < length o -> ~ undecided lv (nth pos o 0) (nth (S pos) o 0) -> exists b, chirality (map lv o) pos None = Ok b.
  Proof.
    intros H U. unfold chirality. rewrite !nth_map_lt with (d := 0) by lia. unfold undecided in U. destruct (lv (nth pos o 0)) as [z|] eqn:E1; [|exfalso; apply U; now left]. destruct (lv (nth (S pos) o 0)) as [z'|] eqn:E2; [|exfalso; apply U; right; now left].
    destruct (Z.eqb_spec z z') as [Q|Q]; [exfalso; apply U; right; right; now subst|]. now eexists.
  Qed.
  Lemma rbraid_error lv a b w : forall o x, letters n w -> length o = n -> In (a, b) (crossings o w) -> undecided lv a b -> rbraid PL n lv w [] o x = Err EChirality.
  Proof.
    induction w as [|pos w IH]; intros o x L Lo I0 U; [destruct I0|]. inversion L as [|? ? L1 L2]; subst. cbn [rbraid nth tl]. 
    destruct (chirality (map lv o) pos None) as [c|e] eqn:E.
    - destruct I0 as [I0|I0]; [injection I0 as <- <-; rewrite chirality_undecided in E; [discriminate E|lia|exact U]|]. apply IH; [exact L2|apply swap_at_length|exact I0|exact U].
    - unfold chirality in E. destruct (nth pos (map lv o) None); [|injection E as <-; reflexivity]. destruct (nth (S pos) (map lv o) None); [|injection E as <-; reflexivity]. destruct (_ =? _)%Z; [injection E as <-; reflexivity|discriminate E].
  Qed.
  Lemma rbraid_fine lv w : forall o x, letters n w -> length o = n -> (forall a b, In (a, b) (crossings o w) -> ~ undecided lv a b) -> exists y, rbraid PL n lv w [] o x = Ok y.
  Proof.
    induction w as [|pos w IH]; intros o x L Lo H; [now eexists|]. inversion L as [|? ? L1 L2]; subst. cbn [rbraid nth tl]. destruct (@chirality_decided lv o pos L1) as [c E]; [apply H; now left|]. rewrite E.
    apply IH; [exact L2|apply swap_at_length|]. intros a b I0. apply H. now right.
  Qed.
  Lemma rbraid_explicit lv w : forall bs o x, length bs = length w -> rbraid PL n lv w (map (fun b => Some b) bs) o x = Ok (explicit_braid (site_braid PL n) w bs x).
  Proof. induction w as [|pos w IH]; intros [|b bs] o x L; try discriminate L; [reflexivity|]. cbn [map rbraid nth tl chirality explicit_braid]. apply IH. cbn in L. lia. Qed.
End Chirality.
Lemma crossings_adjacent n q : is_perm n q -> NoDup (crossings (seq 0 n) (adjacent_transpositions q)) /\ (forall a b, In (a, b) (crossings (seq 0 n) (adjacent_transpositions q)) <-> a < b /\ before q b a).
Proof.
  intros Hq. rewrite !crossings_log. rewrite (adjacent_rounds Hq). destruct (@rounds_spec q [] (seq 0 n) (seq_sorted 0 n) ltac:(symmetry; exact Hq)) as [E [L [_ [I0 ND]]]]. cbn [app length] in *.
  split; [apply ND, seq_NoDup|]. intros a b. split; [apply I0|]. intros [Hab Hb]. 
  assert (Hin : forall x, In x q -> In x (seq 0 n)) by (intros x; apply Permutation_in, Hq).
  apply inverted_in_log; [apply seq_NoDup| |  |rewrite E; exact Hb].
  - rewrite seq_length in *. apply (Forall_impl _ (P := fun j => 0 <= j /\ S j < n)); [|exact L]. intros; lia.
  - destruct Hb as [l1 [l2 [l3 Eb]]]. assert (Hb' : b < n). { assert (Q : In b (seq 0 n)) by (apply Hin; rewrite Eb; apply in_or_app; right; now left). apply in_seq in Q. lia. }
    exists (seq 0 a), (seq (S a) (b - S a)), (seq (S b) (n - S b)). replace n with (a + S ((b - S a) + S (n - S b))) at 1 by lia. rewrite seq_app. cbn [Nat.add seq]. f_equal. f_equal. rewrite seq_app. f_equal. cbn [seq]. f_equal; [lia|f_equal; lia].
Qed.
Lemma do_swaps_map A B (f : A -> B) w : forall l, do_swaps (map f l) w = map f (do_swaps l w).
Proof. induction w as [|j w IH]; intros l; [reflexivity|]. rewrite !do_swaps_cons, swap_at_map. apply IH. Qed.
Lemma map_nth_seq q : map (fun i => nth i q 0) (seq 0 (length q)) = q.
Proof. apply list_eq_nth with (d := 0); [now rewrite map_length, seq_length|]. intros i Hi. rewrite map_length, seq_length in Hi. rewrite nth_map_lt with (d := 0) by (rewrite seq_length; exact Hi). now rewrite seq_nth by exact Hi. Qed.
Lemma compose_perm n q p : is_perm n q -> is_perm n p -> is_perm n (map (fun i => nth i q 0) p).
Proof. intros Hq Hp. unfold is_perm in *. rewrite (Permutation_map (fun i => nth i q 0) Hp). rewrite <- (is_perm_length Hq). rewrite map_nth_seq. rewrite (is_perm_length Hq). exact Hq. Qed.
Lemma compose_braid T (B : nat -> bool -> T -> T) n h q p wq wp w x : braid_relations B n -> is_perm n q -> is_perm n p -> letters n wq -> letters n wp -> letters n w ->
  do_swaps (seq 0 n) wq = q -> do_swaps (seq 0 n) wp = p -> do_swaps (seq 0 n) w = map (fun i => nth i q 0) p -> NoDup (map h (seq 0 n)) ->
  level_braid B (fun i => h (nth i q 0)) wp (seq 0 n) (level_braid B h wq (seq 0 n) x) = level_braid B h w (seq 0 n) x.
Proof.
  intros R Hq Hp Lq Lp Lw Eq Ep Ew ND. rewrite (@level_braid_words T B n R h w (wq ++ wp)); [|exact Lw|apply Forall_app; now split|apply seq_length|exact ND|].
  - rewrite level_braid_app, Eq. generalize (level_braid B h wq (seq 0 n) x) as z. intros z. assert (Em : map (fun i => nth i q 0) (seq 0 n) = q) by (rewrite <- (is_perm_length Hq); apply map_nth_seq).
    assert (Q := @level_braid_rename T B (fun i => h (nth i q 0)) h (fun i => nth i q 0) wp (seq 0 n) z ltac:(now rewrite seq_length) ltac:(reflexivity)). rewrite Em in Q. now rewrite Q.
  - assert (Em : map (fun i => nth i q 0) (seq 0 n) = q) by (rewrite <- (is_perm_length Hq); apply map_nth_seq). rewrite Ew. unfold do_swaps. rewrite fold_left_app. change (map (fun i => nth i q 0) p = do_swaps (do_swaps (seq 0 n) wq) wp). rewrite Eq. assert (Q := do_swaps_map (fun i => nth i q 0) wp (seq 0 n)). rewrite Em, Ep in Q. now rewrite Q.
Qed.
