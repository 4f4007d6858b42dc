(** Deciding the fusion-ring laws of a symmetry with finitely many sectors. *)
From Verif Require Import Util RowModel RowProofs SymModel SymProofs.
Set Implicit Arguments.
Unset Strict Implicit.
Open Scope nat_scope.

Fixpoint nodupb (l : list (list Z)) : bool :=
  match l with
  | [] => true
  | x :: r => negb (existsb (row_eqb x) r) && nodupb r
  end.
Lemma nodupb_spec l : nodupb l = true -> NoDup l.
Proof.
  induction l as [|x l IH]; cbn [nodupb]; intros H; constructor; apply andb_true_iff in H; destruct H as [A B]; auto.
  intros C. apply negb_true_iff in A. assert (existsb (row_eqb x) l = true); [|congruence].
  apply existsb_exists. exists x. split; auto. apply row_eqb_refl.
Qed.

Section Fin.
  Variable S : symmetry.
  Variable secs : list sector.
  Hypothesis secs_ok : forall a, sym_valid S a = true -> In a secs.
  Notation all := (fun f => forallb f secs).
  Definition check_ring : bool :=
    all (fun a => length a =? sym_len S) && sym_valid S (sym_trivial S) &&
    all (fun a => sym_valid S (sym_dual S a)) &&
    all (fun a => all (fun b => forallb (sym_valid S) (sym_outcomes S a b))) &&
    all (fun a => all (fun b => nodupb (sym_outcomes S a b))) &&
    all (fun a => all (fun b => forallb (fun c => 0 <? sym_n S a b c) (sym_outcomes S a b))) &&
    all (fun a => match sym_outcomes S (sym_trivial S) a with
                  | [x] => row_eqb x a && (n_symbol S (sym_trivial S) a a =? 1) | _ => false end) &&
    all (fun a => all (fun b => all (fun c => n_symbol S a b c =? n_symbol S b a c))) &&
    all (fun a => all (fun b => all (fun c => all (fun d => left_count S a b c d =? right_count S a b c d)))) &&
    all (fun a => all (fun b => n_symbol S a b (sym_trivial S) =? (if row_eqb b (sym_dual S a) then 1 else 0))) &&
    all (fun a => row_eqb (sym_dual S (sym_dual S a)) a) &&
    row_eqb (sym_dual S (sym_trivial S)) (sym_trivial S) &&
    all (fun a => all (fun b => all (fun c =>
      n_symbol S (sym_dual S a) (sym_dual S b) (sym_dual S c) =? n_symbol S a b c))).
  Lemma ring_check : check_ring = true -> fusion_ring S.
  Proof.
    unfold check_ring. rewrite !andb_true_iff, !forallb_forall.
    intros [[[[[[[[[[[[H1 H2] H3] H4] H5] H6] H7] H8] H9] H10] H11] H12] H13].
    constructor.
    - intros a A. apply Nat.eqb_eq, H1; auto.
    - exact H2.
    - intros a A. apply H3; auto.
    - intros a b c A B Hc. specialize (H4 a (secs_ok A)). rewrite forallb_forall in H4.
      specialize (H4 b (secs_ok B)). rewrite forallb_forall in H4. auto.
    - intros a b A B. specialize (H5 a (secs_ok A)). rewrite forallb_forall in H5.
      apply nodupb_spec; auto.
    - intros a b c A B Hc. specialize (H6 a (secs_ok A)). rewrite forallb_forall in H6.
      specialize (H6 b (secs_ok B)). rewrite forallb_forall in H6. apply Nat.ltb_lt; auto.
    - intros a A. specialize (H7 a (secs_ok A)).
      destruct (sym_outcomes S (sym_trivial S) a) as [|x [|]]; try discriminate.
      apply andb_true_iff in H7. destruct H7 as [E1 E2].
      apply row_eqb_eq in E1. apply Nat.eqb_eq in E2. subst. auto.
    - intros a b c A B D. specialize (H8 a (secs_ok A)). rewrite forallb_forall in H8.
      specialize (H8 b (secs_ok B)). rewrite forallb_forall in H8. apply Nat.eqb_eq; auto.
    - intros a b c d A B D E. specialize (H9 a (secs_ok A)). rewrite forallb_forall in H9.
      specialize (H9 b (secs_ok B)). rewrite forallb_forall in H9.
      specialize (H9 c (secs_ok D)). rewrite forallb_forall in H9. apply Nat.eqb_eq; auto.
    - intros a b A B. specialize (H10 a (secs_ok A)). rewrite forallb_forall in H10.
      apply Nat.eqb_eq; auto.
    - intros a A. apply row_eqb_eq; auto.
    - now apply row_eqb_eq.
    - intros a b c A B D. specialize (H13 a (secs_ok A)). rewrite forallb_forall in H13.
      specialize (H13 b (secs_ok B)). rewrite forallb_forall in H13. apply Nat.eqb_eq; auto.
  Qed.
End Fin.
