(** compose: grouping, sorting, coupled charges. *)
From Coq Require Import Ring.
From Verif Require Import Util StableSort RowModel RowProofs GridModel GridProofs SymModel SymProofs CatSpec Sums SpaceModel SpaceSpec SpaceProofs SpaceProofs2 SpaceProofs3
  PipeModel PipeProofs PipeProofs2 PipeProofs4 BlockModel BlockProofs SparseModel SparseSpec SparseProofs SparseProofs2 SparseProofs3 SparseProofs4 SparseProofs5 SparseProofs6 SparseCharge SparseCompose.
Set Implicit Arguments. Unset Strict Implicit.
Open Scope nat_scope.

Lemma weak_strict l : weakly_sorted l -> NoDup l -> strictly_sorted l.
Proof.
  intros Q N. unfold strictly_sorted. induction Q as [|x l Q IH F]; constructor.
  - apply IH. now inversion N.
  - inversion N as [|? ? NI _]; subst. rewrite Forall_forall in *. intros y Hy. destruct (F y Hy) as [L| ->]; auto. contradiction.
Qed.
(** last columns are most significant *)
Lemma lex_lt_app (r r' s s' : row) : length r = length r' -> length s = length s' -> (lex_lt (r ++ s) (r' ++ s') <-> lex_lt s s' \/ (s = s' /\ lex_lt r r')).
Proof.
  intros L. revert r' L. induction r as [|x r IH]; intros [|x' r'] L Ls; try discriminate; cbn [app].
  - split; [now left|]. intros [H|[-> H]]; auto. exfalso. exact (lex_lt_irrefl H).
  - injection L as L. rewrite (@lex_lt_cons_iff x (r ++ s) x' (r' ++ s')) by (rewrite !app_length; lia). rewrite (@lex_lt_cons_iff x r x' r') by auto. rewrite IH by auto. split.
    + intros [[H|[E H]]|[E H]]; auto. apply app_inj in E; auto. destruct E as [-> ->]. auto.
    + intros [H|[E [H|[E' H]]]]; subst; auto.
Qed.
Lemma sorted_flat_map X Y (Q : X -> X -> Prop) (R : Y -> Y -> Prop) (f : X -> list Y) l : StronglySorted Q l ->
  (forall x, In x l -> StronglySorted R (f x)) -> (forall x x' y y', In x l -> In x' l -> Q x x' -> In y (f x) -> In y' (f x') -> R y y') -> StronglySorted R (flat_map f l).
Proof.
  intros SQ. induction SQ as [|x l SQ IH F]; intros H1 H2; cbn [flat_map]; [constructor|]. apply StronglySorted_app. split; [|split].
  - apply H1; now left.
  - apply IH; [intros; apply H1; now right|]. intros x1 x2 y y' I1 I2. apply H2; now right.
  - intros y y' Hy Hy'. apply in_flat_map in Hy'. destruct Hy' as (x' & Hx' & Hy'). rewrite Forall_forall in F. apply (H2 x x'); auto; [now left|now right].
Qed.

Section Groups.
  Variable X : Type.
  Implicit Types l : list (list nat * X).
  Lemma group_entries_eq l : map (fun g => (map Z.of_nat (fst g), snd g)) (group_entries l) = groups row_eqb (combine (zrows (map fst l)) (map snd l)).
  Proof.
    unfold group_entries. rewrite map_map. rewrite <- (frd_groups row_eqb_eq []) by (rewrite zrows_length, !map_length; auto).
    unfold adj. apply map_ext. intros [i j]. cbn [fst snd]. now rewrite zrows_nth.
  Qed.
  Lemma group_sorted l : weakly_sorted (zrows (map fst l)) -> strictly_sorted (zrows (map fst (group_entries l))).
  Proof.
    intros W. unfold zrows. rewrite map_map. replace (map (fun g => map Z.of_nat (fst g)) (group_entries l)) with (map fst (map (fun g => (map Z.of_nat (fst g), snd g)) (group_entries l))) by (rewrite map_map; reflexivity).
    rewrite group_entries_eq. apply (groups_sorted row_eqb_eq lex_lt_trans). rewrite combine_fst by (rewrite zrows_length, !map_length; auto). exact W.
  Qed.
  Lemma zcombine l : combine (zrows (map fst l)) (map snd l) = map (fun e => (map Z.of_nat (fst e), snd e)) l.
  Proof. induction l as [|[r x] l IH]; cbn; auto. f_equal. exact IH. Qed.
  Lemma group_content l g : weakly_sorted (zrows (map fst l)) -> In g (group_entries l) -> snd g = map snd (filter (fun e => if row_dec (fst e) (fst g) then true else false) l).
  Proof.
    intros W Hg. assert (S' := group_sorted W).
    rewrite (@groups_content _ _ row_eqb_eq _ (combine (zrows (map fst l)) (map snd l)) (map Z.of_nat (fst g)) (snd g)).
    - rewrite zcombine. clear. induction l as [|e l IH]; cbn; auto. destruct (row_dec (fst e) (fst g)) as [E|E].
      + rewrite E, row_eqb_refl. cbn. now f_equal.
      + destruct (row_eqb (map Z.of_nat (fst e)) (map Z.of_nat (fst g))) eqn:E'; auto. apply row_eqb_eq in E'. apply zrow_inj in E'. contradiction.
    - rewrite <- group_entries_eq, map_map. cbn [fst]. unfold strictly_sorted, zrows in S'. rewrite map_map in S'. exact (StronglySorted_NoDup lex_lt_irrefl S').
    - rewrite <- group_entries_eq. exact (in_map (fun g => (map Z.of_nat (fst g), snd g)) _ _ Hg).
  Qed.
  Lemma group_keys l r : In r (map fst (group_entries l)) <-> In r (map fst l).
  Proof.
    rewrite <- !zrows_In. replace (zrows (map fst (group_entries l))) with (map fst (map (fun g => (map Z.of_nat (fst g), snd g)) (group_entries l))) by (unfold zrows; rewrite !map_map; reflexivity).
    rewrite group_entries_eq, (groups_keys_In row_eqb_eq). rewrite combine_fst by (rewrite zrows_length, !map_length; auto). reflexivity.
  Qed.
  Lemma group_nonempty l g : In g (group_entries l) -> snd g <> [].
  Proof.
    intros Hg. assert (N := groups_nonempty row_eqb (combine (zrows (map fst l)) (map snd l))). rewrite <- group_entries_eq, Forall_forall in N.
    exact (N _ (in_map (fun g => (map Z.of_nat (fst g), snd g)) _ _ Hg)).
  Qed.
End Groups.

Section Coupled.
  Variable S : symm.
  Variable fuse : sector -> sector -> sector.
  Hypothesis G : abelian_group_laws S fuse.
  Notation fall := (fuse_all S fuse).
  Lemma coupled_spec factors rows : (forall L, In L factors -> es_ok S L) -> (forall r, In r rows -> valid_idx (map nsec factors) r) ->
    coupled S factors rows = Some (map (fun r => fall (row_sectors S factors r)) rows).
  Proof.
    intros OK V. unfold coupled. destruct factors as [|L0 fs] eqn:EF.
    - f_equal. induction rows as [|r rows IH]; cbn [length repeat map]; auto. f_equal. apply IH; intros; apply V; now right.
    - rewrite <- EF in *.
      set (h := fun f r => nth (nth f r 0) (es_decomp S (nth f factors (ES [] [] false None))) []).
      assert (M := mfb_cols G (xs := rows) (cols := map h (seq 0 (length factors)))). rewrite map_map in M. unfold h in M at 1. etransitivity; [apply M|].
      + rewrite EF. discriminate.
      + intros g r Hg Hr. apply in_map_iff in Hg. destruct Hg as (f & <- & Hf). apply in_seq in Hf. apply (psec_valid G OK (V r Hr)). lia.
      + f_equal. apply map_ext_in. intros r Hr. rewrite map_map. rewrite (row_sectors_psec S (r := r) (legs := factors)); auto. rewrite (valid_length (V r Hr)). apply map_length.
  Qed.
End Coupled.
