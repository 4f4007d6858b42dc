(** Inner products and full traces. *)
From Coq Require Import Ring.
From Verif Require Import Util StableSort RowModel RowProofs GridModel GridProofs SymModel SymProofs CatSpec Sums SpaceModel SpaceSpec SpaceProofs SpaceProofs2 SpaceProofs3
  PipeModel PipeProofs PipeProofs2 PipeProofs4 BlockModel BlockProofs SparseModel SparseSpec SparseProofs SparseProofs2 SparseProofs3.
Set Implicit Arguments. Unset Strict Implicit.
Open Scope nat_scope.

(** the key of a row in F-style *)
Definition fkey (shape r : list nat) : nat := flat_index shape false r.
Lemma pack_fkey shape r : valid_idx shape r -> pack_row r (make_stride shape false) = fkey shape r.
Proof. intros V. unfold pack_row. apply dot_make_stride. now apply valid_length. Qed.
Lemma pack_fkey_rev shape r : valid_idx (rev shape) r -> pack_row r (rev (make_stride shape false)) = fkey shape (rev r).
Proof.
  intros V. unfold pack_row. assert (V' : valid_idx shape (rev r)) by (apply valid_rev; now rewrite rev_involutive). 
  rewrite <- (rev_involutive r) at 1. rewrite dot_rev.
  - apply dot_make_stride. now apply valid_length.
  - rewrite make_stride_length. now apply valid_length in V'.
Qed.
Lemma fkey_lt shape r r' : valid_idx shape r -> valid_idx shape r' -> (fkey shape r < fkey shape r' <-> lex_lt (map Z.of_nat r) (map Z.of_nat r')).
Proof. intros V V'. exact (fval_order V V'). Qed.
Lemma fkey_inj shape r r' : valid_idx shape r -> valid_idx shape r' -> fkey shape r = fkey shape r' -> r = r'.
Proof. apply flat_index_inj. Qed.
Lemma sorted_map_lt T (k : T -> nat) (rw : T -> list nat) l :
  (forall x y, In x l -> In y l -> lex_lt (map Z.of_nat (rw x)) (map Z.of_nat (rw y)) -> k x < k y) ->
  StronglySorted lex_lt (zrows (map rw l)) -> StronglySorted lt (map k l).
Proof.
  intros H SS. unfold zrows in SS. rewrite map_map in SS. induction l as [|x l IH]; [constructor|]. cbn [map] in *. inversion SS as [|? ? S1 F]; subst. constructor.
  - apply IH; auto. intros a b Ha Hb. apply H; now right.
  - rewrite Forall_forall in *. intros y Hy. apply in_map_iff in Hy. destruct Hy as (z & <- & Hz). apply H; [now left|now right|]. apply F. now apply in_map with (f := fun x => map Z.of_nat (rw x)) in Hz.
Qed.
(** sorting distinct keys *)
Lemma sort_keys (keys : list nat) : NoDup keys ->
  let order := stable_sort (fun i j => nth i keys 0 <? nth j keys 0) (seq 0 (length keys)) in
  is_perm (length keys) order /\ StronglySorted lt (take 0 keys order).
Proof.
  intros ND order. assert (P : is_perm (length keys) order) by (apply stable_sort_perm). split; [exact P|].
  assert (Q : StronglySorted (stab_lt (fun i j => nth i keys 0 <? nth j keys 0) lt) order).
  { apply (@stable_sort_sorted nat (fun i j => nth i keys 0 <? nth j keys 0) (fun _ => True)).
    - intros x y z _ _ _ H1 H2. apply Nat.ltb_lt in H1, H2. apply Nat.ltb_lt. lia.
    - intros x y z _ _ _ H1. apply Nat.ltb_lt in H1. destruct (Nat.ltb_spec (nth x keys 0) (nth y keys 0)); [now left|right]. apply Nat.ltb_lt. lia.
    - apply Forall_forall. auto.
    - apply (proj2 (StronglySorted_nth lt 0 _)). rewrite seq_length. intros i j H. rewrite !seq_nth by lia. lia. }
  unfold take. assert (N : NoDup order) by (apply (is_perm_NoDup P)). assert (F := is_perm_Forall P). clearbody order. clear P.
  induction Q as [|x l Q IH FQ]; [constructor|]. cbn [map]. inversion N as [|? ? NI N']; subst. inversion F as [|? ? Fx F']; subst. constructor; [now apply IH|].
  rewrite Forall_forall in *. intros y Hy. apply in_map_iff in Hy. destruct Hy as (z & <- & Hz). destruct (FQ z Hz) as [E|[E _]].
  - now apply Nat.ltb_lt in E.
  - apply Nat.ltb_ge in E. assert (x <> z) by congruence. rewrite (NoDup_nth _ 0) in ND. specialize (F' z Hz). specialize (ND x z Fx F'). lia.
Qed.
Lemma grid_rev_perm s : Permutation (make_grid (rev s) true) (map (@rev nat) (make_grid s true)).
Proof.
  apply NoDup_Permutation.
  - apply make_grid_NoDup.
  - apply NoDup_map_inj; [|apply make_grid_NoDup]. intros x y _ _. apply rev_inj.
  - intros r. rewrite make_grid_In, in_map_iff. split.
    + intros V. exists (rev r). rewrite rev_involutive. split; auto. apply make_grid_In. apply valid_rev. now rewrite rev_involutive.
    + intros (x & <- & V). apply make_grid_In in V. now apply (proj1 (valid_rev _ _)) in V.
Qed.

Section Inner.
  Variable K : Type.
  Variable o : ops K.
  Hypothesis SR : semi_ring_theory (o0 o) (o1 o) (oadd o) (omul o) (@eq K).
  Add Ring Kring : SR.
  Notation block := (blk K).
  Notation adata := (list (list nat * blk K)).
  Notation sval := (sval o).
  Implicit Types D A B V W : adata.

  (** Sum over matching pairs of rows *)
  Lemma inner_pairs legs A B (dg : bool) (x : K) : data_ok legs A -> data_ok (if dg then legs else rev legs) B -> inner_data o (map nsec legs) A B dg = Some x ->
    x = osum o (map (fun ea => osum o (map (fun eb => if row_dec (fst eb) (if dg then fst ea else rev (fst ea)) then binner o (snd ea) (snd eb) dg else o0 o) B)) A).
  Proof.
    intros HA HB. unfold inner_data. destruct (map nsec legs) as [|n0 ns] eqn:EN; [discriminate|]. rewrite <- EN. intros E. injection E as <-. 
    set (shape := map nsec legs). set (strides := make_stride shape false).
    set (kb := fun e : list nat * block => pack_row (fst e) (if dg then strides else rev strides)). set (ka := fun e : list nat * block => pack_row (fst e) strides).
    set (order := if dg then seq 0 (length B) else stable_sort (fun i j => nth i (map kb B) 0 <? nth j (map kb B) 0) (seq 0 (length B))).
    assert (VA : forall e, In e A -> valid_idx shape (fst e)) by (apply (do_valid HA)).
    assert (VB : forall e, In e B -> valid_idx (if dg then shape else rev shape) (fst e)).
    { intros e He. assert (V := do_valid HB He). destruct dg; auto. now rewrite map_rev in V. }
    assert (KA : forall e, In e A -> ka e = fkey shape (fst e)) by (intros e He; apply pack_fkey; auto).
    assert (KB : forall e, In e B -> kb e = fkey shape (if dg then fst e else rev (fst e))).
    { intros e He. unfold kb. specialize (VB e He). destruct dg; [now apply pack_fkey|now apply pack_fkey_rev]. }
    assert (VB' : forall e, In e B -> valid_idx shape (if dg then fst e else rev (fst e))).
    { intros e He. specialize (VB e He). destruct dg; auto. apply valid_rev. now rewrite rev_involutive. }
    assert (SA : StronglySorted lt (map ka A)).
    { apply (sorted_map_lt (rw := fst)); [|apply (do_sorted HA)]. intros e e' He He' L. rewrite !KA by auto. apply fkey_lt; auto. }
    assert (P : is_perm (length B) order /\ StronglySorted lt (take 0 (map kb B) order)).
    { unfold order. destruct dg eqn:ED.
      - split; [apply Permutation_refl|]. rewrite <- (map_length kb) at 1. rewrite take_seq. apply (sorted_map_lt (rw := fst)); [|apply (do_sorted HB)].
        intros e e' He He' L. rewrite !KB by auto. apply fkey_lt; auto.
      - rewrite <- (map_length kb B). apply sort_keys. apply NoDup_map_inj.
        + intros e e' He He' E. rewrite !KB in E by auto. apply fkey_inj in E; auto. apply rev_inj in E. exact (entry_eq HB He He' E).
        + apply (NoDup_map_inv fst). apply (data_ok_NoDup HB). }
    destruct P as [P SB]. set (B' := take (noentry K) B order) in *.
    assert (EB : take 0 (map kb B) order = map kb B').
    { unfold B', take. rewrite map_map. apply map_ext_in. intros i Hi. apply nth_map_lt. assert (F := is_perm_Forall P). rewrite Forall_forall in F. auto. }
    assert (PB : Permutation B' B) by now apply take_Permutation.
    rewrite EB in SB. rewrite (fold_oadd SR).
    assert (W := @walk_1d_sum K o SR _ _ ka kb (noentry K) (noentry K) (fun ea eb => binner o (snd ea) (snd eb) dg) A [] B' [] SA SB). cbn [app length] in W. rewrite <- EB in W.
    etransitivity; [apply f_equal; exact W|]. rewrite (SRadd_0_l SR). apply (sum_ext o). intros ea Ha.
    rewrite (sum_perm SR (Permutation_map (fun y => if ka ea =? kb y then binner o (snd ea) (snd y) dg else o0 o) PB)). apply (sum_ext o). intros eb Hb.
    rewrite KA, KB by auto. destruct (row_dec (fst eb) (if dg then fst ea else rev (fst ea))) as [E|E].
    - replace (if dg then fst eb else rev (fst eb)) with (fst ea); [now rewrite Nat.eqb_refl|]. rewrite E. destruct dg; auto. now rewrite rev_involutive.
    - destruct (Nat.eqb_spec (fkey shape (fst ea)) (fkey shape (if dg then fst eb else rev (fst eb)))) as [E'|]; auto. apply fkey_inj in E'; auto. exfalso. apply E. rewrite E'. destruct dg; auto. now rewrite rev_involutive.
  Qed.
  Lemma inner_ok legs A B (dg : bool) (x : K) : data_ok legs A -> data_ok (if dg then legs else rev legs) B -> (dg = true -> oconj o (o0 o) = o0 o) -> inner_data o (map nsec legs) A B dg = Some x ->
    x = osum o (map (fun b => osum o (map (fun q => if dg then omul o (oconj o (sval A b q)) (sval B b q) else omul o (sval A b q) (sval B (rev b) (rev q)))
                                      (make_grid (shp (mults legs) b) true))) (make_grid (map nsec legs) true)).
  Proof.
    intros HA HB C0 E. rewrite (inner_pairs HA HB E). clear E x. symmetry. rewrite (sum_stored SR HA).
    2:{ intros b _ NI. apply (sum_zero SR). intros q _. rewrite !(sval_notin o _ NI). destruct dg; [rewrite C0 by auto|]; ring. }
    apply (sum_ext o). intros ea Ha. set (rb := if dg then fst ea else rev (fst ea)).
    assert (SH := do_shape HA Ha).
    destruct (in_dec row_dec rb (map fst B)) as [I|I].
    - destruct (in_rows I) as [Y HY]. rewrite (sum_single SR (f := fun eb => if row_dec (fst eb) rb then binner o (snd ea) (snd eb) dg else o0 o) (x := (rb, Y))).
      + cbn [fst snd]. destruct (row_dec rb rb); [|congruence]. unfold binner. rewrite SH. apply (sum_ext o). intros q Hq.
        rewrite !(sval_in' o _ (data_ok_NoDup HA) Ha). unfold rb in HY. destruct dg; now rewrite (sval_in o _ (data_ok_NoDup HB) HY).
      + apply (NoDup_map_inv fst), (data_ok_NoDup HB).
      + exact HY.
      + intros y Hy NE. destruct (row_dec (fst y) rb) as [E|]; auto. exfalso. apply NE. apply (entry_eq HB); auto.
    - transitivity (o0 o); [|symmetry]; apply (sum_zero SR).
      + intros q _. unfold rb in I. destruct dg; rewrite (sval_notin o _ I); ring.
      + intros y Hy. destruct (row_dec (fst y) rb) as [E|]; auto. exfalso. apply I. rewrite <- E. now apply in_map.
  Qed.
End Inner.
