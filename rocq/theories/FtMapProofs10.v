(** The legs of the trees that the instructions produce. *)
From Verif Require Import Util StableSort RowModel RowProofs GridModel GridProofs SymModel SymProofs CatSpec Sums StarMat SpaceModel SpaceSpec SpaceProofs SpaceProofs2 SpaceProofs3 SpaceProofs7
  PipeModel PipeProofs PipeProofs4 TreeModel TreeProofs TreeProofs5 TensorModel TensorSpec FormalSum TensorProofs TensorProofs2 TensorProofs3 TensorProofs4 TensorProofs5 TensorProofs6 BlockModel BlockProofs
  SparseModel ConvertModel ConvertSpec ConvertProofs3 FtOpsModel FtOpsSpec FtOpsProofs2 FtOpsProofs3 FtOpsProofs4 MappingModel MappingProofs PermLegsModel PermLegsSpec MoveModel FtMapModel FtMapSpec FtMapProofs FtMapProofs2 FtMapProofs3 FtMapProofs4 FtMapProofs5 FtMapProofs6 FtMapProofs7 FtMapProofs8 FtMapProofs9.
Set Implicit Arguments. Unset Strict Implicit.
Open Scope nat_scope.

Lemma app_inj_length (T : Type) (a b c d : list T) : a ++ b = c ++ d -> length a = length c -> a = c /\ b = d.
Proof. revert c. induction a as [|x a IH]; intros [|y c] E L; try discriminate L; [auto|]. cbn [app] in E. injection E as -> E. destruct (IH c E) as [-> ->]; auto. Qed.
Lemma Forall2_rev' (A B : Type) (R : A -> B -> Prop) l l' : Forall2 R l l' -> Forall2 R (rev l) (rev l').
Proof. induction 1 as [|a b l l' H F IH]; [constructor|]. cbn [rev]. apply Forall2_app; [exact IH|repeat constructor; exact H]. Qed.

Section Legs.
  Variable S : tsymm.
  Hypothesis OK : tsymm_ok S.
  Notation RING := (to_ring OK).
  Notation nospace := (ES [] [] false None).

  Lemma decomp_valid' E a : es_ok S E -> In a (es_decomp S E) -> sym_valid S a = true.
  Proof. intros O I. exact (sk_valid (es_space_ok' OK O) I). Qed.
  Lemma dual_inj a b : sym_valid S a = true -> sym_valid S b = true -> row_eqb (sym_dual S a) (sym_dual S b) = row_eqb a b.
  Proof.
    intros Va Vb. apply Bool.eq_true_iff_eq. rewrite !row_eqb_eq. split; [|congruence]. intros E. rewrite <- (fr_dual_invol RING Va), <- (fr_dual_invol RING Vb). now f_equal.
  Qed.
  Lemma mult_dual secs ms a : (forall s, In s secs -> sym_valid S s = true) -> sym_valid S a = true -> mult_of (map (sym_dual S) secs) ms (sym_dual S a) = mult_of secs ms a.
  Proof.
    intros V Va. unfold mult_of. revert ms. induction secs as [|s secs IH]; intros [|m ms]; try reflexivity. cbn [map combine filter fst]. rewrite dual_inj by (auto; apply V; now left).
    destruct (row_eqb s a); cbn [map snd]; rewrite ?nsum_cons; [|apply IH; intros; apply V; now right]. change (nsum (m :: ?r)) with (m + nsum r). f_equal. apply IH. intros; apply V; now right.
  Qed.
  Definition def_valid (E : espace) : Prop := forall s, In s (es_def E) -> sym_valid S s = true.
  Lemma ok_def_valid E : es_ok S E -> def_valid E.
  Proof. intros O s. apply (ok_valid O). Qed.
  Lemma decomp_dual' E : def_valid E -> es_decomp S (dual_es E) = map (sym_dual S) (es_decomp S E).
  Proof.
    intros O. unfold es_decomp, es_space, dual_es. cbn [sp_secs es_def es_mults es_dual es_perm]. destruct (es_dual E); cbn [negb]; auto.
    unfold dual_sectors. rewrite map_map. rewrite <- (map_id (es_def E)) at 1. apply map_ext_in. intros s Hs. symmetry. apply (fr_dual_invol RING). apply (O _ Hs).
  Qed.
  Lemma es_mult_dual E a : def_valid E -> sym_valid S a = true -> es_mult S (dual_es E) (sym_dual S a) = es_mult S E a.
  Proof. intros O Va. unfold es_mult. rewrite decomp_dual' by exact O. apply mult_dual; [|exact Va]. intros s Hs. unfold es_decomp, es_space in Hs. cbn [sp_secs] in Hs. destruct (es_dual E); [|exact (O _ Hs)]. apply in_map_iff in Hs. destruct Hs as [x [ <- Ix]]. apply (fr_dual_valid RING), O, Ix. Qed.

  Variables P Q P' Q' : tprod.
  Hypothesis HP : tp_ok S P.
  Hypothesis HQ : tp_ok S Q.
  Variables ci di : list nat.
  Notation J := (length (tp_flat_legs P)).
  Notation Kn := (length (tp_flat_legs Q)).
  Hypothesis PM : is_perm (J + Kn) (leg_order ci di).
  Hypothesis PP : permuted_products ci di P Q P' Q'.

  Definition legs : list espace := tp_flat_legs P ++ rev (map dual_es (tp_flat_legs Q)).
  Definition leg_at (l : nat) : espace := nth l legs nospace.
  Definition sec_at (XY : tree * tree) (l : nat) : sector := nth l (t_unc (fst XY) ++ rev (map (sym_dual S) (t_unc (snd XY)))) (sym_trivial S).
  Definition dual_at (l : nat) : bool := es_dual (leg_at l).
  Definition mult_at (XY : tree * tree) (l : nat) : nat := es_mult S (leg_at l) (sec_at XY l).

  Lemma map_nth_seq (T : Type) (d : T) l : map (fun i => nth i l d) (seq 0 (length l)) = l.
  Proof. exact (take_seq d l). Qed.
  Lemma map_nth_app1 (T : Type) (d : T) l l' : map (fun i => nth i (l ++ l') d) (seq 0 (length l)) = l.
  Proof. transitivity (map (fun i => nth i l d) (seq 0 (length l))); [|apply map_nth_seq]. apply map_ext_in. intros i I. apply in_seq in I. apply app_nth1. lia. Qed.
  Lemma map_nth_app2 (T : Type) (d : T) l l' : map (fun i => nth i (l ++ l') d) (rev (seq (length l) (length l'))) = rev l'.
  Proof.
    rewrite map_rev. f_equal. apply list_eq_nth with (d := d); rewrite ?map_length, ?seq_length; [reflexivity|]. intros i Hi. rewrite nth_map_lt with (d := 0) by (now rewrite seq_length).
    rewrite seq_nth by exact Hi. rewrite app_nth2 by lia. f_equal. lia.
  Qed.
  Lemma legs_ok l : l < J + Kn -> def_valid (leg_at l).
  Proof.
    intros H. unfold leg_at, legs. destruct (Nat.lt_ge_cases l J) as [L|L].
    - rewrite app_nth1 by exact L. apply ok_def_valid. exact (proj1 (Forall_forall _ _) (proj1 HP) _ (nth_In _ _ L)).
    - rewrite app_nth2 by exact L. assert (I : In (nth (l - J) (rev (map dual_es (tp_flat_legs Q))) nospace) (rev (map dual_es (tp_flat_legs Q)))) by (apply nth_In; rewrite rev_length, map_length; lia).
      apply in_rev in I. apply in_map_iff in I. destruct I as [E [EE I]]. rewrite <- EE. change (def_valid E). apply ok_def_valid. exact (proj1 (Forall_forall _ _) (proj1 HQ) _ I).
  Qed.

  Section Key.
    Variables (X Y : tree) (c : sector).
    Hypothesis TX : tree_of S P c X.
    Hypothesis TY : tree_of S Q c Y.
    Notation sec := (sec_at (X, Y)).
    Lemma unc_len : length (t_unc X) = J /\ length (t_unc Y) = Kn.
    Proof. split; [exact (Forall2_len (proj2 TX))|exact (Forall2_len (proj2 TY))]. Qed.
    Lemma unc_valid R t : tp_ok S R -> tree_of S R c t -> Forall (fun a => sym_valid S a = true) (t_unc t).
    Proof.
      intros [F _] [_ H]. revert F. induction H as [|a E l l' Ia H IH]; intros F; [constructor|]. inversion F; subst. constructor; [|now apply IH]. eapply decomp_valid'; eauto.
    Qed.
    Lemma tree_of_ok R t : tp_ok S R -> tree_of S R c t -> tree_ok S t.
    Proof.
      intros H T. split; [exact (unc_valid H T)|]. destruct T as [V _]. assert (E := valid_tree_fields V). destruct E as (E1 & E2 & E3). rewrite E2, E3. exact V.
    Qed.
    Lemma sec_valid l : sym_valid S (sec l) = true.
    Proof.
      unfold sec_at. cbn [fst snd]. destruct (Nat.lt_ge_cases l (length (t_unc X ++ rev (map (sym_dual S) (t_unc Y))))) as [L|L].
      - assert (I := nth_In _ (sym_trivial S) L). apply in_app_iff in I. destruct I as [I|I]; [exact (proj1 (Forall_forall _ _) (unc_valid HP TX) _ I)|]. apply in_rev in I. apply in_map_iff in I. destruct I as [a [ <- I]].
        apply (fr_dual_valid RING). exact (proj1 (Forall_forall _ _) (unc_valid HQ TY) _ I).
      - rewrite nth_overflow by exact L. apply (fr_trivial_valid RING).
    Qed.
    Lemma sec_X : map sec (seq 0 J) = t_unc X.
    Proof. destruct unc_len as [L _]. rewrite <- L. apply map_nth_app1. Qed.
    Lemma sec_Y : map sec (rev (seq J Kn)) = map (sym_dual S) (t_unc Y).
    Proof.
      destruct unc_len as [L L']. unfold sec_at. cbn [fst snd]. rewrite <- L. replace Kn with (length (rev (map (sym_dual S) (t_unc Y)))) by (rewrite rev_length, map_length; exact L'). rewrite map_nth_app2. apply rev_involutive.
    Qed.
    Lemma leg_X : map leg_at (seq 0 J) = tp_flat_legs P.
    Proof. apply map_nth_app1. Qed.
    Lemma leg_Y : map leg_at (rev (seq J Kn)) = map dual_es (tp_flat_legs Q).
    Proof. unfold leg_at, legs. replace Kn with (length (rev (map dual_es (tp_flat_legs Q)))) by now rewrite rev_length, map_length. rewrite map_nth_app2. apply rev_involutive. Qed.
    Lemma key_at : pair_at S sec dual_at (legs0 J Kn) (X, Y).
    Proof.
      unfold pair_at, tree_at, tree_at', legs0. cbn [fst snd]. assert (VY := unc_valid HQ TY). destruct TX as [VX SX], TY as [VY0 SY]. assert (EX := valid_tree_fields VX). assert (EY := valid_tree_fields VY0). destruct EX as (EX1 & EX2 & EX3), EY as (EY1 & EY2 & EY3).
      split; [|split].
      - split; [exact (tree_of_ok HP TX)|]. split; [symmetry; apply sec_X|]. rewrite EX3. unfold dual_at. rewrite <- (map_map leg_at es_dual). now rewrite leg_X.
      - split; [exact (tree_of_ok HQ TY)|]. split.
        + rewrite <- (map_map sec (sym_dual S)), sec_Y, map_map. rewrite <- (map_id (t_unc Y)) at 1. apply map_ext_in. intros a Ia. symmetry. apply (fr_dual_invol RING). exact (proj1 (Forall_forall _ _) VY _ Ia).
        + rewrite EY3. unfold dual_at. rewrite <- (map_map leg_at (fun E => negb (es_dual E))), leg_Y, map_map. apply map_ext. intros E. cbn [dual_es es_dual]. now rewrite negb_involutive.
      - congruence.
    Qed.
    Lemma mults_key : tree_mults S P X = map (mult_at (X, Y)) (seq 0 J) /\ tree_mults S Q Y = map (mult_at (X, Y)) (rev (seq J Kn)).
    Proof.
      assert (G : forall (l : list nat) , map (fun p => es_mult S (fst p) (snd p)) (combine (map leg_at l) (map sec l)) = map (mult_at (X, Y)) l).
      { induction l as [|a l IH]; [reflexivity|]. cbn [map combine fst snd]. now rewrite IH. }
      unfold tree_mults. split.
      - rewrite <- G, leg_X, sec_X. reflexivity.
      - rewrite <- G, leg_Y, sec_Y. assert (F := proj1 HQ). assert (VY := unc_valid HQ TY). destruct unc_len as [_ L]. revert F VY L. generalize (tp_flat_legs Q), (t_unc Y). induction l as [|E l IH]; intros [|a u] F VY L; try discriminate L; [reflexivity|].
        cbn [map combine fst snd]. inversion F; inversion VY; subst. rewrite es_mult_dual by auto using ok_def_valid. f_equal. apply IH; auto.
    Qed.

    Variables X' Y' : tree.
    Hypothesis AT : pair_at S sec dual_at (ci, di) (X', Y').
    Lemma parts : tp_flat_legs P' = map leg_at ci /\ map dual_es (tp_flat_legs Q') = map leg_at di.
    Proof.
      destruct PP as [LC EQ]. unfold permuted_legs in EQ. unfold leg_order, take in EQ. fold legs in EQ. rewrite map_app, map_rev in EQ. change (map (fun i => nth i legs nospace)) with (map leg_at) in EQ.
      apply app_inj_length in EQ; [|rewrite map_length; lia]. destruct EQ as [E1 E2]. split; [exact E1|]. rewrite <- (rev_involutive (map dual_es (tp_flat_legs Q'))), E2. now rewrite rev_involutive.
    Qed.
    Lemma idx_lt l : In l ci \/ In l di -> l < J + Kn.
    Proof. intros H. apply (is_perm_In l PM). unfold leg_order. rewrite in_app_iff, <- in_rev. exact H. Qed.
    Lemma mult_new : tree_mults S P' X' = map (mult_at (X, Y)) ci /\ tree_mults S Q' Y' = map (mult_at (X, Y)) di.
    Proof.
      destruct AT as ((_ & UX & _) & (_ & UY & _) & _). cbn [fst snd] in *. destruct parts as [E1 E2]. unfold tree_mults. rewrite UX, UY, E1.
      assert (E3 : tp_flat_legs Q' = map (fun l => dual_es (leg_at l)) di). { rewrite <- (map_id (tp_flat_legs Q')), <- (map_map leg_at dual_es), <- E2, map_map. apply map_ext. intros E. symmetry. apply dual_es_invol. } rewrite E3. split.
      - clear. induction ci as [|a l IH]; [reflexivity|]. cbn [map combine fst snd]. now rewrite IH.
      - assert (LT : forall l, In l di -> l < J + Kn) by (intros; apply idx_lt; now right). clear -OK LT HP HQ TX TY. induction di as [|a l IH]; [reflexivity|]. cbn [map combine fst snd]. rewrite IH by (intros; apply LT; now right). f_equal.
        unfold mult_at. apply es_mult_dual; [apply legs_ok; apply LT; now left|apply sec_valid].
    Qed.
    Lemma mults_permuted : permuted_legs 0 ci di (tree_mults S P X) (tree_mults S Q Y) (tree_mults S P' X') (tree_mults S Q' Y').
    Proof.
      destruct mult_new as [-> ->]. destruct mults_key as [-> ->]. unfold permuted_legs, leg_order. rewrite !map_rev, rev_involutive, <- map_app, <- seq_app, <- map_rev, <- map_app. unfold take.
      apply map_ext_in. intros l I. assert (L : l < J + Kn) by (apply idx_lt; apply in_app_iff in I; rewrite <- in_rev in I; exact I). rewrite nth_map_lt with (d := 0) by (now rewrite seq_length). now rewrite seq_nth.
    Qed.
    (** the new trees are trees of the new tensor *)
    Lemma sec_in l : l < J + Kn -> In (sec l) (es_decomp S (leg_at l)).
    Proof.
      destruct unc_len as [L1 L2]. intros H. unfold sec_at, leg_at, legs. cbn [fst snd]. destruct (Nat.lt_ge_cases l J) as [L|L].
      - rewrite !app_nth1 by lia. destruct TX as [_ F]. clear -F L. revert l L. induction F as [|a E u v Ia F IH]; intros [|l] L; cbn [length nth] in *; [lia|lia|exact Ia|apply IH; lia].
      - rewrite !app_nth2 by lia. rewrite L1. assert (FD : Forall2 (fun a E => In a (es_decomp S E)) (map (sym_dual S) (t_unc Y)) (map dual_es (tp_flat_legs Q))).
        { destruct TY as [_ F]. assert (FO := proj1 HQ). clear -OK F FO. induction F as [|a E u v Ia F IH]; [constructor|]. inversion FO; subst. cbn [map]. constructor; [|now apply IH]. rewrite decomp_dual' by (auto using ok_def_valid). now apply in_map. }
        apply Forall2_rev' in FD. assert (LL : l - J < length (rev (map (sym_dual S) (t_unc Y)))) by (rewrite rev_length, map_length; lia). revert LL. generalize (l - J). clear -FD. induction FD as [|a E u v Ia F IH]; intros [|l] L; cbn [length nth] in *; [lia|lia|exact Ia|apply IH; lia].
    Qed.
    Lemma new_trees : tree_of S P' (t_coup X') X' /\ tree_of S Q' (t_coup X') Y'.
    Proof.
      destruct AT as ((TX' & UX & DX) & (TY' & UY & DY) & EC). cbn [fst snd] in *. destruct parts as [E1 E2].
      assert (E3 : tp_flat_legs Q' = map (fun l => dual_es (leg_at l)) di). { rewrite <- (map_id (tp_flat_legs Q')), <- (map_map leg_at dual_es), <- E2, map_map. apply map_ext. intros E. symmetry. apply dual_es_invol. }
      split; split.
      - replace (map es_dual (tp_flat_legs P')) with (t_dual X'); [apply TX'|]. rewrite DX, E1, map_map. reflexivity.
      - rewrite UX, E1. assert (LT : forall l, In l ci -> l < J + Kn) by (intros; apply idx_lt; now left). clear -LT TX TY HP HQ OK. induction ci as [|a l IH]; [constructor|]. cbn [map]. constructor; [apply sec_in; apply LT; now left|apply IH; intros; apply LT; now right].
      - rewrite EC. replace (map es_dual (tp_flat_legs Q')) with (t_dual Y'); [apply TY'|]. rewrite DY, E3, map_map. reflexivity.
      - rewrite UY, E3. assert (LT : forall l, In l di -> l < J + Kn) by (intros; apply idx_lt; now right). clear -LT TX TY HP HQ OK. induction di as [|a l IH]; [constructor|]. cbn [map]. constructor; [|apply IH; intros; apply LT; now right].
        assert (La : a < J + Kn) by (apply LT; now left). rewrite decomp_dual' by (apply legs_ok; exact La). apply in_map. now apply sec_in.
    Qed.
  End Key.
End Legs.
