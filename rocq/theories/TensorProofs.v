(** TensorProduct: the sectors of a product. *)
From Verif Require Import Util StableSort RowModel RowProofs GridModel GridProofs SymModel SymProofs SpaceModel SpaceSpec SpaceProofs2 SpaceProofs7
  PipeModel PipeProofs TreeModel TreeProofs FormalSum TensorModel TensorSpec.
Set Implicit Arguments. Unset Strict Implicit.
Open Scope nat_scope.

(** all ways of picking one element from every list *)
Fixpoint combos (A : Type) (l : list (list A)) : list (list A) :=
  match l with [] => [[]] | x :: r => flat_map (fun a => map (cons a) (combos r)) x end.
Definition sp_pairs (V : space) : list (sector * nat) := combine (sp_secs V) (sp_mults V).

(** ** unique_sorted on natural multiplicities *)
Lemma zsum_of_nat l : zsum (map Z.of_nat l) = Z.of_nat (nsum l).
Proof. induction l as [|a l IH]; [easy|]. cbn [map]. rewrite nsum_cons. change (zsum (Z.of_nat a :: map Z.of_nat l)) with (Z.of_nat a + zsum (map Z.of_nat l))%Z. rewrite IH. lia. Qed.
Lemma total_mult_nat rows mults r : total_mult rows (map Z.of_nat mults) r = Z.of_nat (mult_of rows mults r).
Proof.
  unfold total_mult, mult_of. rewrite <- zsum_of_nat. f_equal. revert mults. induction rows as [|a rows IH]; intros mults; [easy|].
  destruct mults as [|m mults]; [easy|]. cbn [map combine filter fst snd]. destruct (row_eqb a r); cbn [map snd]; now rewrite IH.
Qed.
Lemma unique_sorted_nat_spec w rows mults : same_width w rows -> length mults = length rows ->
  exists u m, unique_sorted_nat rows mults = Some (u, m) /\ strictly_sorted u /\ (forall r, In r u <-> In r rows) /\ length m = length u /\
    feq (combine u m) (combine rows mults).
Proof.
  intros W L. unfold unique_sorted_nat.
  destruct (unique_sorted rows (map Z.of_nat mults)) as [[[u m] p]|] eqn:E.
  2:{ apply unique_sorted_None in E. rewrite map_length in E. congruence. }
  destruct (unique_sorted_correct W E) as (_ & _ & SS & I & LM & M).
  exists u, (map Z.to_nat m). split; [reflexivity|]. split; [exact SS|]. split; [exact I|]. rewrite map_length. split; [exact LM|].
  assert (N : NoDup u). { eapply StronglySorted_NoDup; [|exact SS]. intros a. apply lex_lt_irrefl. }
  intros c. rewrite !fmult_mult_of. destruct (in_dec row_dec c u) as [Ic|Ic].
  - destruct (In_nth _ _ [] Ic) as (i & Hi & <-). rewrite (mult_of_nth (mults := map Z.to_nat m) N) by (rewrite ?map_length; auto).
    rewrite nth_map_lt with (d := 0%Z) by lia. rewrite M by auto. rewrite total_mult_nat. apply Nat2Z.id.
  - rewrite !mult_of_notin; auto. now rewrite <- I.
Qed.
Lemma feq_pos rows mults u m : (forall x, In x mults -> 0 < x) -> length mults = length rows -> NoDup u -> (forall r, In r u <-> In r rows) -> length m = length u ->
  feq (combine u m) (combine rows mults) -> forall x, In x m -> 0 < x.
Proof.
  intros P L N I LM F x Ix. destruct (In_nth _ _ 0 Ix) as (i & Hi & <-). rewrite LM in Hi.
  rewrite <- (mult_of_nth N LM Hi). rewrite <- fmult_mult_of, F.
  set (s := nth i u []). assert (Is : In s rows) by (apply I, nth_In, Hi). destruct (In_nth _ _ [] Is) as (j & Hj & Ej).
  rewrite fmult_weight. apply weight_pos with (p := (s, nth j mults 0)).
  - rewrite <- Ej. rewrite <- combine_nth by auto. apply nth_In. rewrite combine_length. lia.
  - cbn [snd]. apply P, nth_In. lia.
  - cbn [fst]. unfold delta. rewrite row_eqb_refl. lia.
Qed.

(** ** hypotheses *)

Lemma space_ok_valids (S : symm) V : space_ok S V -> valids S (sp_pairs V).
Proof. intros OK. apply Forall_forall. intros [s m] I. cbn [fst]. apply (sk_valid OK). eapply in_combine_l; eauto. Qed.

Lemma weakly_strictly rows : weakly_sorted rows -> NoDup rows -> strictly_sorted rows.
Proof.
  unfold weakly_sorted, strictly_sorted. induction 1 as [|a l H IH F]; intros N; constructor; inversion N; subst; auto.
  rewrite Forall_forall in *. intros x Ix. destruct (F x Ix) as [K| ->]; [exact K|easy].
Qed.

Section Calc.
  Variable S : tsymm.
  Hypothesis OK : tsymm_ok S.
  Let RING := to_ring OK.

  (** *** the recursive case *)
  Lemma combined_weight partial V g : length (snd partial) = length (fst partial) -> length (sp_mults V) = length (sp_secs V) ->
    valids S (combine (fst partial) (snd partial)) -> valids S (sp_pairs V) ->
    weight (combined S partial V) g = weight (conv S (combine (fst partial) (snd partial)) (sp_pairs V)) g.
  Proof.
    intros L1 L2 V1 V2. rewrite weight_conv, weight_swap. unfold combined.
    unfold weight at 1. rewrite nsum_flat_map. unfold sp_pairs. unfold weight at 1.
    assert (E : forall (l : list sector) (m : list nat) (h : sector * nat -> nat), length m = length l ->
      nsum (map (fun i => h (nth i l [], nth i m 0)) (seq 0 (length l))) = nsum (map h (combine l m))).
    { clear. induction l as [|a l IH]; intros m h L; [easy|]. destruct m as [|b m]; [discriminate|]. cbn [length seq map combine]. rewrite !nsum_cons.
      cbn [nth]. f_equal. rewrite <- seq_shift, map_map. cbn [nth]. apply IH. now injection L. }
    rewrite <- E by auto. apply nsum_map_ext. intros j Hj. apply in_seq in Hj. cbn [fst snd].
    set (s2 := nth j (sp_secs V) []). set (m2 := nth j (sp_mults V) 0).
    rewrite nsum_flat_map. unfold weight. rewrite <- nsum_map_mul.
    rewrite <- (E (fst partial) (snd partial) (fun p => m2 * (snd p * nsum (map (fun c => sym_n S (fst p) s2 c * g c) (sym_outcomes S (fst p) s2))))) by auto.
    apply nsum_map_ext. intros i Hi. apply in_seq in Hi. cbn [fst snd].
    set (s1 := nth i (fst partial) []). set (m1 := nth i (snd partial) 0). rewrite map_map. cbn [fst snd].
    rewrite Nat.mul_assoc, (Nat.mul_comm m2 m1), <- nsum_map_mul. apply nsum_map_ext. intros c Ic.
    assert (Vs1 : sym_valid S s1 = true).
    { assert (I : In (s1, m1) (combine (fst partial) (snd partial))).
      { unfold s1, m1. rewrite <- combine_nth by auto. apply nth_In. rewrite combine_length. lia. }
      exact (proj1 (Forall_forall _ _) V1 _ I). }
    assert (Vs2 : sym_valid S s2 = true).
    { assert (I : In (s2, m2) (sp_pairs V)).
      { unfold s2, m2, sp_pairs. rewrite <- combine_nth by auto. apply nth_In. rewrite combine_length. lia. }
      exact (proj1 (Forall_forall _ _) V2 _ I). }
    destruct (Bool.bool_dec (ts_unique S) true) as [U|U].
    - rewrite U. rewrite (to_unique OK U Vs1 Vs2 Ic). lia.
    - apply Bool.not_true_is_false in U. rewrite U. lia.
  Qed.
  Lemma combined_In partial V p : In p (combined S partial V) -> length (snd partial) = length (fst partial) -> length (sp_mults V) = length (sp_secs V) ->
    exists s1 m1 s2 m2, In (s1, m1) (combine (fst partial) (snd partial)) /\ In (s2, m2) (sp_pairs V) /\ In (fst p) (sym_outcomes S s1 s2) /\
      snd p = if ts_unique S then m1 * m2 else m1 * m2 * sym_n S s1 s2 (fst p).
  Proof.
    intros I L1 L2. unfold combined in I. apply in_flat_map in I. destruct I as (j & Hj & I). apply in_flat_map in I. destruct I as (i & Hi & I).
    apply in_map_iff in I. destruct I as (c & <- & Ic). apply in_seq in Hi. apply in_seq in Hj. cbn [fst snd].
    exists (nth i (fst partial) []), (nth i (snd partial) 0), (nth j (sp_secs V) []), (nth j (sp_mults V) 0). split; [|split; [|split; [exact Ic|reflexivity]]].
    - rewrite <- combine_nth by auto. apply nth_In. rewrite combine_length. lia.
    - unfold sp_pairs. rewrite <- combine_nth by auto. apply nth_In. rewrite combine_length. lia.
  Qed.
  Lemma calc_step partial V : space_ok S (Sp (fst partial) (snd partial) (Some Sorted)) -> space_ok S V ->
    exists u m, unique_sorted_nat (map fst (combined S partial V)) (map snd (combined S partial V)) = Some (u, m) /\
      space_ok S (Sp u m (Some Sorted)) /\ feq (combine u m) (conv S (combine (fst partial) (snd partial)) (sp_pairs V)).
  Proof.
    intros O1 O2. assert (L1 := sk_len O1). assert (L2 := sk_len O2). cbn [sp_secs sp_mults] in L1.
    assert (V1 : valids S (combine (fst partial) (snd partial))) by exact (space_ok_valids O1).
    assert (V2 := space_ok_valids O2).
    assert (VAL : forall r, In r (map fst (combined S partial V)) -> sym_valid S r = true).
    { intros r Ir. apply in_map_iff in Ir. destruct Ir as (p & <- & Ip). destruct (combined_In Ip L1 L2) as (s1 & m1 & s2 & m2 & I1 & I2 & I3 & _).
      eapply (fr_closed RING); [| |exact I3]; [exact (proj1 (Forall_forall _ _) V1 _ I1)|exact (proj1 (Forall_forall _ _) V2 _ I2)]. }
    assert (W : same_width (sym_len S) (map fst (combined S partial V))).
    { apply Forall_forall. intros r Ir. apply (fr_len RING). now apply VAL. }
    destruct (unique_sorted_nat_spec W (mults := map snd (combined S partial V))) as (u & m & E & SS & I & L & F); [now rewrite !map_length|].
    exists u, m. split; [exact E|].
    assert (N : NoDup u). { eapply StronglySorted_NoDup; [|exact SS]. intros a. apply lex_lt_irrefl. }
    assert (CE : combine (map fst (combined S partial V)) (map snd (combined S partial V)) = combined S partial V).
    { clear. induction (combined S partial V) as [|[a b] l IH]; [easy|]. cbn [map combine fst snd]. now rewrite IH. }
    split.
    - constructor; cbn [sp_secs sp_mults sp_order]; auto.
      + intros s Is. apply VAL. now apply I.
      + eapply feq_pos; [| |exact N|exact I|exact L|exact F]; [|now rewrite !map_length].
        intros x Ix. apply in_map_iff in Ix. destruct Ix as (p & <- & Ip). destruct (combined_In Ip L1 L2) as (s1 & m1 & s2 & m2 & I1 & I2 & I3 & ->).
        assert (0 < m1) by (apply (sk_pos O1); cbn [sp_mults]; eapply in_combine_r; exact I1).
        assert (0 < m2) by (apply (sk_pos O2); eapply in_combine_r; exact I2).
        assert (0 < sym_n S s1 s2 (fst p)).
        { apply (fr_pos RING); auto; [exact (proj1 (Forall_forall _ _) V1 _ I1)|exact (proj1 (Forall_forall _ _) V2 _ I2)]. }
        destruct (ts_unique S); nia.
    - eapply feq_trans; [exact F|]. rewrite CE. intros c. rewrite !fmult_weight. now apply combined_weight.
  Qed.

  (** *** one space *)
  Lemma calc_single V : space_ok S V -> exists u m, calc_rev S [V] = Some (u, m) /\ space_ok S (Sp u m (Some Sorted)) /\ feq (combine u m) (sp_pairs V).
  Proof.
    intros O.
    assert (G : exists u m, Some (take [] (sp_secs V) (lexsort_indices (sp_secs V)), gather_or_all (sp_mults V) (Some (lexsort_indices (sp_secs V)))) = Some (u, m) /\
      space_ok S (Sp u m (Some Sorted)) /\ feq (combine u m) (sp_pairs V)).
    { eexists _, _. split; [reflexivity|]. cbn [gather_or_all]. set (p := lexsort_indices (sp_secs V)).
      assert (W : same_width (sym_len S) (sp_secs V)).
      { apply Forall_forall. intros r Ir. apply (fr_len RING). now apply (sk_valid O). }
      assert (P : is_perm (length (sp_secs V)) p) by apply lexsort_perm.
      assert (PT : Permutation (take [] (sp_secs V) p) (sp_secs V)) by (now apply take_Permutation).
      assert (N := sk_nodup O). assert (L := sk_len O).
      assert (CT : combine (take [] (sp_secs V) p) (take 0 (sp_mults V) p) = take ([], 0) (sp_pairs V) p).
      { unfold sp_pairs, take. clear -L. induction p as [|i p IH]; [easy|]. cbn [map combine]. rewrite IH. f_equal. now rewrite combine_nth. }
      split.
      - constructor; cbn [sp_secs sp_mults sp_order].
        + intros s Is. apply (sk_valid O). eapply Permutation_in; [exact PT|exact Is].
        + eapply Permutation_NoDup; [symmetry; exact PT|exact N].
        + unfold take. now rewrite !map_length.
        + intros m Im. apply (sk_pos O). eapply Permutation_in; [|exact Im]. apply take_Permutation. now rewrite L.
        + assert (WS : weakly_sorted (take [] (sp_secs V) p)) by exact (sorted_weakly W).
          apply weakly_strictly; [exact WS|]. eapply Permutation_NoDup; [symmetry; exact PT|exact N].
      - apply feq_perm. rewrite CT. apply take_Permutation. unfold sp_pairs. rewrite combine_length, L, Nat.min_id. exact P. }
    cbn [calc_rev]. destruct (sp_order V) as [[|]|] eqn:E; auto.
    exists (sp_secs V), (sp_mults V). split; [reflexivity|]. split; [|apply feq_refl].
    constructor; cbn [sp_secs sp_mults sp_order]; [apply (sk_valid O)|apply (sk_nodup O)|apply (sk_len O)|apply (sk_pos O)|].
    generalize (sk_order O). now rewrite E.
  Qed.
End Calc.
