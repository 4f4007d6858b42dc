From Coq Require Import String.
From Verif Require Import Util SymEqModel.
Set Implicit Arguments.
Unset Strict Implicit.
Open Scope nat_scope.

Lemma Forall2_length A B (P : A -> B -> Prop) l l' : Forall2 P l l' -> length l = length l'.
Proof. induction 1; cbn; congruence. Qed.
Lemma Forall2_impl' A B (P Q : A -> B -> Prop) : (forall a b, P a b -> Q a b) ->
  forall l l', Forall2 P l l' -> Forall2 Q l l'.
Proof. intros H l l'. induction 1; constructor; auto. Qed.

(** canonical representative of the class of a factor: the toric code is D(Z_2) *)
Definition canon (f : fkind) : fkind := match f with KToricCode => KQuantumDouble 2 | _ => f end.

Lemma is_equivalent_factor_canon f g : is_equivalent_factor f g = true <-> canon f = canon g.
Proof.
  split.
  - destruct f, g; cbn [is_equivalent_factor as_quantum_double canon]; try discriminate; auto;
      rewrite ?andb_true_iff, ?Z.eqb_eq, ?Bool.eqb_true_iff;
      intros H; try (match type of H with _ /\ _ => destruct H end); congruence.
  - destruct f, g; cbn [is_equivalent_factor as_quantum_double canon]; intros E; try discriminate; auto; injection E; intros; subst;
      rewrite ?Z.eqb_refl, ?Bool.eqb_reflx; auto.
Qed.

Record equivalence_test (A : Type) (eqv : A -> A -> bool) : Prop := {
  et_refl : forall a, eqv a a = true;
  et_sym : forall a b, eqv a b = true -> eqv b a = true;
  et_trans : forall a b c, eqv a b = true -> eqv b c = true -> eqv a c = true;
}.

Lemma factor_test : equivalence_test (fun f g => is_equivalent_factor (nf_kind f) (nf_kind g)).
Proof.
  constructor; intros *; rewrite ?is_equivalent_factor_canon; congruence.
Qed.
Lemma opt_string_eqb_eq a b : opt_string_eqb a b = true <-> a = b.
Proof.
  destruct a, b; cbn; split; try discriminate; auto.
  - rewrite String.eqb_eq. congruence.
  - intros E. injection E as ->. apply String.eqb_refl.
Qed.
Lemma factor_equals_iff f g :
  factor_equals f g = true <-> nf_name f = nf_name g /\ canon (nf_kind f) = canon (nf_kind g).
Proof.
  unfold factor_equals. rewrite <- opt_string_eqb_eq, <- is_equivalent_factor_canon.
  destruct (opt_string_eqb _ _); cbn [negb]; split; try easy.
Qed.

Section Greedy.
  Variable A : Type.
  Variable eqv : A -> A -> bool.
  Hypothesis E : equivalence_test eqv.
  Notation "a ~ b" := (eqv a b = true) (at level 70).
  Notation R := (fun a b => eqv a b = true).

  Lemma all_match_spec fs gs : length fs = length gs -> (all_match eqv fs gs = true <-> Forall2 R fs gs).
  Proof.
    revert gs. induction fs as [|f fs IH]; intros [|g gs] L; try discriminate; cbn [all_match].
    - split; [constructor|auto].
    - destruct (eqv f g) eqn:Q; cbn [negb].
      + rewrite IH by (now injection L). split; [now constructor|]. intros F. now inversion F.
      + split; [discriminate|]. intros F. inversion F. congruence.
  Qed.

  Fixpoint unmatched (m : list bool) (gs : list A) : list A :=
    match m, gs with
    | b :: m', g :: gs' => if b then unmatched m' gs' else g :: unmatched m' gs'
    | _, _ => []
    end.

  Lemma find_match_some f m gs i : length m = length gs -> find_match eqv f m gs = Some i ->
    i < length m /\ exists l1 g l2, unmatched m gs = l1 ++ g :: l2 /\ f ~ g /\
      unmatched (upd m i true) gs = l1 ++ l2.
  Proof.
    revert gs i. induction m as [|b m IH]; intros [|g gs] i L; try discriminate.
    cbn [find_match]. destruct b.
    - destruct (find_match eqv f m gs) as [j|] eqn:F; [|discriminate]. intros H.
      injection H as <-. destruct (IH gs j ltac:(now injection L) F) as (Hj & l1 & g' & l2 & U & S & V).
      split; [cbn; lia|]. exists l1, g', l2. cbn [unmatched upd]. auto.
    - destruct (eqv f g) eqn:Q.
      + intros H. injection H as <-. split; [cbn; lia|]. exists [], g, (unmatched m gs). cbn. auto.
      + destruct (find_match eqv f m gs) as [j|] eqn:F; [|discriminate]. intros H.
        injection H as <-. destruct (IH gs j ltac:(now injection L) F) as (Hj & l1 & g' & l2 & U & S & V).
        split; [cbn; lia|]. exists (g :: l1), g', l2. cbn [unmatched upd]. rewrite U, V. auto.
  Qed.
  Lemma find_match_none f m gs : find_match eqv f m gs = None -> length m = length gs ->
    forall g, In g (unmatched m gs) -> eqv f g = false.
  Proof.
    revert gs. induction m as [|b m IH]; intros [|g gs]; cbn [find_match unmatched]; try easy.
    destruct b; [|destruct (eqv f g) eqn:Q]; try easy;
      destruct (find_match eqv f m gs) eqn:F; try easy; intros _ L x H.
    - apply (IH gs F ltac:(now injection L)). auto.
    - destruct H as [<-|H]; auto. apply (IH gs F ltac:(now injection L)). auto.
  Qed.

  (** two lists match up to the equivalence and the order *)
  Definition matches (fs gs : list A) : Prop := exists gs', Permutation gs gs' /\ Forall2 R fs gs'.

  Lemma matches_remove f fs l1 g l2 : f ~ g -> matches (f :: fs) (l1 ++ g :: l2) -> matches fs (l1 ++ l2).
  Proof.
    intros Q (gs' & P & F). inversion F as [|? h ? t Hh Ft]; subst.
    assert (P1 : Permutation (g :: l1 ++ l2) (h :: t)).
    { etransitivity; [apply Permutation_middle|exact P]. }
    (* either g = h or g occurs in t; replace *)
    assert (Hg : In g (h :: t)) by (eapply Permutation_in; [exact P1|now left]).
    destruct Hg as [->|Hg].
    - exists t. split; auto. now apply Permutation_cons_inv in P1.
    - apply in_split in Hg. destruct Hg as (t1 & t2 & ->).
      apply Forall2_app_inv_r in Ft. destruct Ft as (f1 & f2 & F1 & F2 & ->).
      inversion F2 as [|f0 ? f2' ? H0 F2']; subst.
      exists (t1 ++ h :: t2). split.
      + apply Permutation_cons_inv with g. etransitivity; [exact P1|].
        etransitivity; [|apply perm_skip, Permutation_middle].
        etransitivity; [apply perm_skip; symmetry; apply Permutation_middle|]. apply perm_swap.
      + apply Forall2_app; auto. constructor; auto.
        apply (et_trans E) with g; [exact H0|]. apply (et_trans E) with f; auto. now apply (et_sym E).
  Qed.

  Lemma upd_len (m : list bool) i : length (upd m i true) = length m.
  Proof. apply upd_length. Qed.

  Lemma match_loop_spec fs m gs : length m = length gs -> length fs = length (unmatched m gs) ->
    (match_loop eqv fs m gs = true <-> matches fs (unmatched m gs)).
  Proof.
    revert m. induction fs as [|f fs IH]; intros m L1 L2; cbn [match_loop].
    - split; auto. intros _. destruct (unmatched m gs); [|discriminate]. exists []. split; auto.
    - destruct (find_match eqv f m gs) as [i|] eqn:F.
      + destruct (find_match_some L1 F) as (Hi & l1 & g & l2 & U & Q & V).
        rewrite IH, V, U.
        * split.
          -- intros (gs' & P & F2). exists (g :: gs'). split; [|now constructor].
             etransitivity; [symmetry; apply Permutation_middle|]. now apply perm_skip.
          -- apply matches_remove. exact Q.
        * now rewrite upd_len.
        * rewrite V. rewrite U in L2. rewrite app_length in *. cbn [length] in *. lia.
      + split; [discriminate|]. intros (gs' & P & F2). inversion F2 as [|? h ? t Hh Ft]; subst.
        rewrite (find_match_none F L1 (g := h)) in Hh; [discriminate|].
        eapply Permutation_in; [symmetry; exact P|now left].
  Qed.

  Lemma unmatched_all gs : unmatched (repeat false (length gs)) gs = gs.
  Proof. induction gs; cbn; congruence. Qed.

  Lemma matches_length fs gs : matches fs gs -> length fs = length gs.
  Proof.
    intros (gs' & P & F). rewrite (Permutation_length P). eapply Forall2_length. exact F.
  Qed.
  Lemma Forall2_R_refl l : Forall2 R l l.
  Proof. induction l; constructor; auto. apply (et_refl E). Qed.
  Lemma Forall2_R_sym l l' : Forall2 R l l' -> Forall2 R l' l.
  Proof. induction 1; constructor; auto. now apply (et_sym E). Qed.
  Lemma Forall2_R_trans l l' l'' : Forall2 R l l' -> Forall2 R l' l'' -> Forall2 R l l''.
  Proof.
    intros H. revert l''. induction H; intros l'' H'; inversion H'; subst; constructor; auto.
    now apply (et_trans E) with y.
  Qed.
  Lemma Forall2_perm (l l' m : list A) : Forall2 R l l' -> Permutation l' m ->
    exists k, Permutation l k /\ Forall2 R k m.
  Proof.
    intros F P. revert l F. induction P; intros k F.
    - inversion F; subst. exists []. auto.
    - inversion F; subst. destruct (IHP _ H3) as (k' & P' & F'). exists (x0 :: k'). split; auto.
    - inversion F as [|? ? ? ? R1 F1]; subst. inversion F1 as [|? ? ? ? R2 F2]; subst.
      eexists. split; [apply perm_swap|]. repeat constructor; auto.
    - destruct (IHP1 _ F) as (k1 & Q1 & F1). destruct (IHP2 _ F1) as (k2 & Q2 & F2).
      exists k2. split; auto. now transitivity k1.
  Qed.
  Lemma matches_refl l : matches l l.
  Proof. exists l. split; auto. apply Forall2_R_refl. Qed.
  Lemma matches_sym l l' : matches l l' -> matches l' l.
  Proof.
    intros (k & P & F). destruct (Forall2_perm F (Permutation_sym P)) as (k' & P' & F').
    exists k'. split; auto. now apply Forall2_R_sym.
  Qed.
  Lemma matches_trans l l' l'' : matches l l' -> matches l' l'' -> matches l l''.
  Proof.
    intros (k & P & F) (k' & P' & F').
    (* l ~ k, k perm l', l' ~ k', k' perm l'' *)
    destruct (Forall2_perm (Forall2_R_sym F') P) as (m & Pm & Fm).
    exists m. split; [now transitivity k'|]. apply Forall2_R_trans with k; auto.
    now apply Forall2_R_sym.
  Qed.
End Greedy.

Lemma matches_perm_r A (eqv : A -> A -> bool) fs gs gs' : Permutation gs gs' ->
  matches eqv fs gs -> matches eqv fs gs'.
Proof. intros P (k & P' & F). exists k. split; auto. now transitivity gs. Qed.

Lemma equiv_loose fs gs : is_equivalent_to fs gs false = true <->
  matches (fun f g => is_equivalent_factor (nf_kind f) (nf_kind g)) fs gs.
Proof.
  unfold is_equivalent_to. destruct (Nat.eqb_spec (length fs) (length gs)) as [L|L]; cbn [negb].
  - rewrite (match_loop_spec factor_test).
    + now rewrite unmatched_all.
    + apply repeat_length.
    + now rewrite unmatched_all.
  - split; [discriminate|]. intros M. elim L. now apply matches_length in M.
Qed.
Lemma equiv_strict fs gs : is_equivalent_to fs gs true = true <->
  Forall2 (fun f g => canon (nf_kind f) = canon (nf_kind g)) fs gs.
Proof.
  unfold is_equivalent_to. destruct (Nat.eqb_spec (length fs) (length gs)) as [L|L]; cbn [negb].
  - rewrite all_match_spec by auto. split; apply Forall2_impl'; intros a b; apply is_equivalent_factor_canon.
  - split; [discriminate|]. intros F. elim L. eapply Forall2_length. exact F.
Qed.
Lemma equals_spec fs gs : sym_equals fs gs = true <->
  Forall2 (fun f g => nf_name f = nf_name g /\ canon (nf_kind f) = canon (nf_kind g)) fs gs.
Proof.
  unfold sym_equals. destruct (Nat.eqb_spec (length fs) (length gs)) as [L|L]; cbn [negb].
  - rewrite all_match_spec by auto. split; apply Forall2_impl'; intros a b; apply factor_equals_iff.
  - split; [discriminate|]. intros F. elim L. eapply Forall2_length. exact F.
Qed.
