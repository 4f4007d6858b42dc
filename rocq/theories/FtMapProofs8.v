(** From instructions to mappings: pair_mapping represents [moved]. *)
From Verif Require Import Util SymModel CatSpec Sums TreeModel TreeProofs5 MappingModel MappingProofs PermLegsModel PermLegsSpec MoveModel FtMapModel FtMapSpec FtMapProofs7.
Set Implicit Arguments. Unset Strict Implicit.
Open Scope nat_scope.

Section Steps.
  Variable K : Type.
  Variable o : ops K.
  Hypothesis SR : semi_ring_theory (o0 o) (o1 o) (oadd o) (omul o) (@eq K).
  Variable braid_tree : tree -> nat -> bool -> bool -> option (list (tree * K)).
  Variable twist_tree : tree -> list nat -> bool -> option (list (tree * K)).
  Variable bend_pair : tree -> tree -> bool -> option (list ((tree * tree) * K)).
  Variable big : K -> bool.
  Hypothesis BIG : forall c, big c = false -> c = o0 o.
  Notation pair_map := (list ((tree * tree) * list ((tree * tree) * K))).
  Notation move := (move braid_tree twist_tree bend_pair).
  Notation moved := (moved o braid_tree twist_tree bend_pair).

  Lemma fold_left_ext_in (A B : Type) (f g : A -> B -> A) l : (forall a b, In b l -> f a b = g a b) -> forall a, fold_left f l a = fold_left g l a.
  Proof. induction l as [|b l IH]; intros H a; [reflexivity|]. cbn [fold_left]. rewrite H by now left. apply IH. intros; apply H; now right. Qed.
  Lemma fold_left_map (A B D : Type) (f : A -> B -> A) (g : D -> B) l : forall a, fold_left f (map g l) a = fold_left (fun a x => f a (g x)) l a.
  Proof. induction l as [|b l IH]; intros a; [reflexivity|]. cbn [map fold_left]. apply IH. Qed.

  Lemma compose_left (m : pair_map) f t : table tree_dec (map fst (nonzero_rows m)) f = Some t ->
    exists T, table pair_dec (nonzero_rows m) (left_map f) = Some T /\ compose_side o false m t = pre_compose pair_dec o m T.
  Proof.
    intros E. destruct (@table_defined _ _ pair_dec (nonzero_rows m) (left_map f)) as [T ET].
    { intros XY I. unfold left_map. assert (D := table_total E (in_map fst _ _ I)). destruct (f (fst XY)); [discriminate|easy]. }
    exists T. split; [exact ET|]. unfold compose_side, pre_compose. apply map_ext_in. intros [k col] I. cbn [fst snd]. f_equal. apply fold_left_ext_in. intros acc [XY c] Ie.
    assert (IR : In XY (nonzero_rows m)) by (apply (in_rows I); apply (in_map fst col (XY, c) Ie)). unfold compose_column. cbn [fst snd].
    rewrite (table_find E (in_map fst _ _ IR)), (table_find ET IR). unfold left_map. destruct (f (fst XY)) as [r|]; [|reflexivity]. cbn [option_map]. rewrite fold_left_map. reflexivity.
  Qed.
  Lemma compose_right (m : pair_map) f t : table tree_dec (map snd (nonzero_rows m)) f = Some t ->
    exists T, table pair_dec (nonzero_rows m) (right_map f) = Some T /\ compose_side o true m t = pre_compose pair_dec o m T.
  Proof.
    intros E. destruct (@table_defined _ _ pair_dec (nonzero_rows m) (right_map f)) as [T ET].
    { intros XY I. unfold right_map. assert (D := table_total E (in_map snd _ _ I)). destruct (f (snd XY)); [discriminate|easy]. }
    exists T. split; [exact ET|]. unfold compose_side, pre_compose. apply map_ext_in. intros [k col] I. cbn [fst snd]. f_equal. apply fold_left_ext_in. intros acc [XY c] Ie.
    assert (IR : In XY (nonzero_rows m)) by (apply (in_rows I); apply (in_map fst col (XY, c) Ie)). unfold compose_column. cbn [fst snd].
    rewrite (table_find E (in_map snd _ _ IR)), (table_find ET IR). unfold right_map. destruct (f (snd XY)) as [r|]; [|reflexivity]. cbn [option_map]. rewrite fold_left_map. reflexivity.
  Qed.
  Lemma left_defined (rows : list (tree * tree)) (f : tree -> option (list (tree * K))) : (forall XY, In XY rows -> left_map f XY <> None) -> exists t, table tree_dec (map fst rows) f = Some t.
  Proof. intros H. apply table_defined. intros X I. apply in_map_iff in I. destruct I as [XY [ <- I]]. specialize (H XY I). unfold left_map in H. now destruct (f (fst XY)). Qed.
  Lemma right_defined (rows : list (tree * tree)) (f : tree -> option (list (tree * K))) : (forall XY, In XY rows -> right_map f XY <> None) -> exists t, table tree_dec (map snd rows) f = Some t.
  Proof. intros H. apply table_defined. intros X I. apply in_map_iff in I. destruct I as [XY [ <- I]]. specialize (H XY I). unfold right_map in H. now destruct (f (snd XY)). Qed.
  Lemma pair_step_spec (m : pair_map) i : (forall XY, In XY (nonzero_rows m) -> move i XY <> None) ->
    exists T, table pair_dec (nonzero_rows m) (move i) = Some T /\ pair_step o braid_tree twist_tree bend_pair big m i = Some (prune big (pre_compose pair_dec o m T)).
  Proof.
    intros D. destruct i as [[] idx over|down|[] idcs over]; cbn [FtMapSpec.move] in *; unfold pair_step; cbv zeta.
    - destruct (left_defined D) as [t E]. destruct (compose_left E) as [T [ET EC]]. exists T. split; [exact ET|]. rewrite E. cbn [option_map]. now rewrite EC.
    - destruct (right_defined D) as [t E]. destruct (compose_right E) as [T [ET EC]]. exists T. split; [exact ET|]. rewrite E. cbn [option_map]. now rewrite EC.
    - destruct (table_defined pair_dec D) as [T E]. exists T. split; [exact E|]. rewrite E. reflexivity.
    - destruct (left_defined D) as [t E]. destruct (compose_left E) as [T [ET EC]]. exists T. split; [exact ET|]. rewrite E. cbn [option_map]. now rewrite EC.
    - destruct (right_defined D) as [t E]. destruct (compose_right E) as [T [ET EC]]. exists T. split; [exact ET|]. rewrite E. cbn [option_map]. now rewrite EC.
  Qed.

  (** an invariant of the pairs of trees reached from key [k] when the legs are as in [st] *)
  Variable Inv : list nat * list nat -> tree * tree -> tree * tree -> Prop.
  Variable good : instruction -> Prop.
  Hypothesis STEP : forall st i st' ev k XY, exec1 st i = Some (st', ev) -> good i -> Inv st k XY ->
    exists r, move i XY = Some r /\ NoDup (map fst r) /\ forall XY', In XY' (map fst r) -> Inv st' k XY'.
  (** and a set of coefficients *)
  Variable Pk : K -> Prop.
  Hypothesis P0 : Pk (o0 o).
  Hypothesis P1 : Pk (o1 o).
  Hypothesis PA : forall a b, Pk a -> Pk b -> Pk (oadd o a b).
  Hypothesis PM : forall a b, Pk a -> Pk b -> Pk (omul o a b).
  Hypothesis PC : forall st i st' ev k XY r XY' c, exec1 st i = Some (st', ev) -> good i -> Inv st k XY -> move i XY = Some r -> In (XY', c) r -> Pk c.

  Definition cols_inv st (m : pair_map) : Prop := forall k col x, In (k, col) m -> In x (map fst col) -> Inv st k x.
  Lemma rows_col (m : pair_map) x : In x (nonzero_rows m) -> exists k col, In (k, col) m /\ In x (map fst col).
  Proof. unfold nonzero_rows. intros I. apply in_flat_map in I. destruct I as [[k col] [I J]]. exists k, col. auto. Qed.
  Lemma pair_steps l : forall st st' ev m keys L, exec st l = Some (st', ev) -> Forall good l -> represents pair_dec o m keys L -> cols_inv st m -> coefs_in Pk m ->
    exists m', fold_left (fun m i => match m with Some m => pair_step o braid_tree twist_tree bend_pair big m i | None => None end) l (Some m) = Some m' /\
      represents pair_dec o m' keys (fun k => fold_left (fun acc i => apply_linear o (move i) acc) l (L k)) /\ cols_inv st' m' /\ coefs_in Pk m'.
  Proof.
    induction l as [|i l IH]; intros st st' ev m keys L EX G RP CI CP.
    - cbn [exec] in EX. injection EX as <- <-. exists m. auto.
    - cbn [exec] in EX. destruct (exec1 st i) as [[st1 ev1]|] eqn:E1; [|discriminate]. destruct (exec st1 l) as [[st2 ev2]|] eqn:E2; [|discriminate]. injection EX as <- _.
      inversion G as [|? ? G1 G2]; subst. assert (ROW : forall x, In x (nonzero_rows m) -> exists k, Inv st k x) by (intros x I; destruct (rows_col I) as (k & col & Ik & Ix); exists k; now apply (CI k col)).
      destruct (@pair_step_spec m i) as (T & ET & EP). { intros XY I. destruct (ROW _ I) as [k Hk]. destruct (STEP E1 G1 Hk) as (r & -> & _). discriminate. }
      assert (ND : forall x r, In x (nonzero_rows m) -> move i x = Some r -> NoDup (map fst r)). { intros x r I Er. destruct (ROW _ I) as [k Hk]. destruct (STEP E1 G1 Hk) as (r' & Er' & H & _). congruence. }
      assert (RP' := step_represents SR BIG RP ET ND). cbn [fold_left]. rewrite EP. refine (IH st1 st2 ev2 _ keys _ E2 G2 RP' _ _).
      + intros k col' x I J. destruct (pre_compose_from SR I J) as (col & j & r & I1 & J1 & F1 & X1). assert (IR : In j (nonzero_rows m)) by (apply (in_rows I1); exact J1). rewrite (table_find ET IR) in F1.
        destruct (STEP E1 G1 (CI k col j I1 J1)) as (r' & Er' & _ & H). apply H. congruence.
      + apply pre_compose_coefs; auto. intros k col x c I J. destruct (table_spec ET) as [_ HT]. apply HT in I. destruct I as [IR Er]. destruct (ROW _ IR) as [k0 Hk]. exact (PC E1 G1 Hk Er J).
  Qed.
  Lemma identity_coefs keys : coefs_in Pk (from_identity pair_dec o keys).
  Proof.
    intros k col i c I J. assert (F : find pair_dec (from_identity pair_dec o keys) k = Some col) by (apply find_NoDup; [apply from_identity_wf|exact I]).
    rewrite from_identity_find in F. destruct (in_dec pair_dec k keys); [|discriminate]. injection F as <-. destruct J as [J|[]]. injection J as _ <-. exact P1.
  Qed.
  Lemma pair_mapping_spec S P Q rows l st st' ev : exec st l = Some (st', ev) -> Forall good l -> (forall k, In k (pair_keys S P Q rows) -> Inv st k k) ->
    exists m, pair_mapping S o braid_tree twist_tree bend_pair big P Q rows l = Some m /\ represents pair_dec o m (pair_keys S P Q rows) (moved l) /\ cols_inv st' m /\ coefs_in Pk m.
  Proof.
    intros EX G H. unfold pair_mapping, FtMapSpec.moved. refine (pair_steps (L := fun k => [(k, o1 o)]) EX G (identity_represents pair_dec SR _) _ (@identity_coefs _)).
    intros k col x I J. assert (F : find pair_dec (from_identity pair_dec o (pair_keys S P Q rows)) k = Some col) by (apply find_NoDup; [apply from_identity_wf|exact I]).
    rewrite from_identity_find in F. destruct (in_dec pair_dec k _); [|discriminate]. injection F as <-. destruct J as [ <- |[]]. now apply H.
  Qed.
End Steps.
