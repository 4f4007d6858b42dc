(** Traces. *)
From Coq Require Import Ring.
From Verif Require Import Util StableSort RowModel RowProofs GridModel GridProofs SymModel SymProofs CatSpec Sums SpaceModel SpaceSpec SpaceProofs SpaceProofs2 SpaceProofs3
  PipeModel PipeProofs PipeProofs2 PipeProofs4 BlockModel BlockProofs SparseModel SparseSpec SparseProofs SparseProofs2 SparseProofs3 SparseProofs4.
Set Implicit Arguments. Unset Strict Implicit.
Open Scope nat_scope.

Section Trace.
  Variable K : Type.
  Variable o : ops K.
  Hypothesis SR : semi_ring_theory (o0 o) (o1 o) (oadd o) (omul o) (@eq K).
  Add Ring Kring : SR.
  Notation block := (blk K).
  Notation adata := (list (list nat * blk K)).
  Notation sval := (sval o).

  Lemma sumn_grid s (f : nat -> K) : sumn o (prod s) f = osum o (map (fun q => f (flat_index s true q)) (make_grid s true)).
  Proof. unfold sumn. rewrite <- (map_map (flat_index s true) f), make_grid_index. reflexivity. Qed.
  (** the trace over the last two axes, after the axes were merged *)
  Lemma bat_trace_merged (B : block) s t q : bshape B = s ++ t ++ t -> valid_idx s q ->
    bat o (btrace o (breshape B (s ++ [prod t; prod t]))) q = osum o (map (fun u => bat o B (q ++ u ++ u)) (make_grid t true)).
  Proof.
    intros SB V. unfold btrace, bndim, breshape. cbn [bshape]. rewrite app_length. cbn [length]. replace (length s + 2 - 2) with (length s) by lia.
    rewrite firstn_len. rewrite bat_bmk by auto. rewrite !app_nth2 by lia. replace (length s - length s) with 0 by lia. replace (length s + 1 - length s) with 1 by lia. cbn [nth].
    rewrite Nat.min_id, sumn_grid. apply (sum_ext o). intros u Hu. apply make_grid_In in Hu. assert (L := valid_length V). assert (Lu := valid_length Hu).
    apply (@bat_reshape K o B (s ++ [prod t; prod t]) (q ++ u ++ u)).
    - rewrite SB, !app_length. lia.
    - rewrite !app_length. cbn [length]. lia.
    - rewrite SB. rewrite !flat_index_app by (rewrite ?app_length; cbn [length]; lia). rewrite flat_index_2, !prod_cons, prod_app, Nat.mul_1_r. reflexivity.
  Qed.
  Lemma btrace_wf (B : block) : bwf (btrace o B).
  Proof. apply bmk_wf. Qed.

  (** full trace of one block *)
  Lemma half n : (n + n) / 2 = n.
  Proof. replace (n + n) with (n * 2) by lia. apply Nat.div_mul. lia. Qed.
  Lemma square_perm n : is_perm (n + n) (seq 0 n ++ rev (seq n n)).
  Proof. unfold is_perm. rewrite seq_app. cbn [Nat.add]. apply Permutation_app_head. symmetry. apply Permutation_rev. Qed.
  Lemma take_square (T : Type) (d : T) (l l' : list T) : length l' = length l -> take d (l ++ l') (seq 0 (length l) ++ rev (seq (length l) (length l))) = l ++ rev l'.
  Proof.
    intros L. rewrite take_app_idx, take_seq_slice by (rewrite app_length; lia). cbn [skipn]. rewrite firstn_len. f_equal.
    unfold take. rewrite map_rev. f_equal. change (take d (l ++ l') (seq (length l) (length l)) = l'). rewrite take_seq_slice by (rewrite app_length; lia). rewrite skipn_len, <- L. apply firstn_all.
  Qed.
  Lemma trace_full_block (B : block) s : bshape B = s ++ rev s -> btrace_full o B = osum o (map (fun q => bat o B (q ++ rev q)) (make_grid s true)).
  Proof.
    intros SB. unfold btrace_full, bndim. rewrite SB, app_length, rev_length, half, firstn_len.
    set (p := seq 0 (length s) ++ rev (seq (length s) (length s))).
    assert (ST : bshape (btranspose o B p) = [] ++ s ++ s).
    { rewrite btranspose_shape, SB. cbn [app]. unfold p. rewrite take_square by apply rev_length. now rewrite rev_involutive. }
    assert (Q := @bat_trace_merged (btranspose o B p) [] s [] ST ltac:(constructor)). cbn [app] in Q. etransitivity; [exact Q|].
    apply (sum_ext o). intros u Hu. apply make_grid_In in Hu.
    assert (Lu := valid_length Hu).
    replace (u ++ u) with (take 0 (u ++ rev u) p).
    2:{ unfold p. rewrite <- Lu, take_square by apply rev_length. now rewrite rev_involutive. }
    apply bat_transpose_take.
    - unfold bndim. rewrite SB, app_length, rev_length. apply square_perm.
    - rewrite SB. apply valid_app; auto. split; auto. now apply valid_rev in Hu.
  Qed.

  Lemma rev_halves (b c : list nat) k : length b = k -> length c = k ->
    forallb (fun i => nth i (b ++ c) 0 =? nth (length (b ++ c) - 1 - i) (b ++ c) 0) (seq 0 k) = true <-> c = rev b.
  Proof.
    intros Lb Lc. rewrite forallb_forall. split.
    - intros H. apply list_eq_nth with (d := 0); [rewrite rev_length; lia|]. intros i Hi. rewrite rev_nth by lia.
      specialize (H (k - 1 - i)). rewrite in_seq in H. specialize (H ltac:(lia)). apply Nat.eqb_eq in H. rewrite app_length in H. rewrite app_nth1 in H by lia.
      rewrite app_nth2 in H by lia. replace (length b + length c - 1 - (k - 1 - i) - length b) with i in H by lia. rewrite <- H. f_equal. lia.
    - intros -> i Hi. apply in_seq in Hi. apply Nat.eqb_eq. rewrite app_length, rev_length. rewrite app_nth1 by lia. rewrite app_nth2 by lia. rewrite rev_nth by lia. f_equal. lia.
  Qed.
  Lemma trace_full_ok cod A : data_ok (cod ++ rev cod) A ->
    trace_full_data o (length cod) A = osum o (map (fun b => osum o (map (fun q => sval A (b ++ rev b) (q ++ rev q)) (make_grid (shp (mults cod) b) true))) (make_grid (map nsec cod) true)).
  Proof.
    intros H. unfold trace_full_data.
    assert (F : forall D a, fold_left (fun res (e : list nat * block) => if forallb (fun c => nth c (fst e) 0 =? nth (length (fst e) - 1 - c) (fst e) 0) (seq 0 (length cod)) then oadd o res (btrace_full o (snd e)) else res) D a
      = oadd o a (osum o (map (fun e => if forallb (fun c => nth c (fst e) 0 =? nth (length (fst e) - 1 - c) (fst e) 0) (seq 0 (length cod)) then btrace_full o (snd e) else o0 o) D))).
    { induction D as [|e D IH]; intros a; cbn [fold_left map].
      - rewrite (sum_nil o). ring.
      - rewrite IH, (sum_cons o). destruct (forallb _ _); ring. }
    etransitivity; [apply F|]. clear F. rewrite (SRadd_0_l SR).
    (* every stored row that counts is b ++ rev b *)
    set (diag := fun b : list nat => b ++ rev b).
    assert (LC : forall b, valid_idx (map nsec cod) b -> length b = length cod) by (intros b V; rewrite (valid_length V); apply map_length).
    assert (VD : forall b, valid_idx (map nsec cod) b -> valid_idx (map nsec (cod ++ rev cod)) (diag b)).
    { intros b V. apply valid_row_app; auto. rewrite map_rev. now apply valid_rev in V. }
    transitivity (osum o (map (fun e => osum o (map (fun b => if row_dec (fst e) (diag b) then btrace_full o (snd e) else o0 o) (make_grid (map nsec cod) true))) A)).
    { apply (sum_ext o). intros e He. destruct (row_parts (do_valid H He)) as (b & c & E & Vb & Vc & Lb).
      assert (Lc : length c = length cod) by (rewrite (valid_length Vc), map_length; apply rev_length).
      assert (Q := @rev_halves b c (length cod) Lb Lc). rewrite E in *.
      destruct (forallb (fun c0 => nth c0 (b ++ c) 0 =? nth (length (b ++ c) - 1 - c0) (b ++ c) 0) (seq 0 (length cod))) eqn:EF.
      - assert (EC : c = rev b) by now apply Q. clear EF Q. subst c. symmetry. etransitivity; [apply (sum_single SR (f := fun b0 => if row_dec (b ++ rev b) (diag b0) then btrace_full o (snd e) else o0 o) (x := b))|].
        + apply make_grid_NoDup.
        + now apply make_grid_In.
        + intros y Hy NE. apply make_grid_In in Hy. destruct (row_dec (b ++ rev b) (diag y)) as [E'|]; auto. exfalso. apply NE. unfold diag in E'. apply app_inj in E'; [|rewrite (LC y Hy); auto]. symmetry; apply E'.
        + cbv beta. destruct (row_dec (b ++ rev b) (diag b)); [auto|]. exfalso. apply n. reflexivity.
      - symmetry. apply (sum_zero SR). intros y Hy. apply make_grid_In in Hy. destruct (row_dec (b ++ c) (diag y)) as [E'|]; auto. exfalso. unfold diag in E'. apply app_inj in E'; [|rewrite (LC y Hy); auto].
        destruct E' as [-> ->]. assert (X : false = true) by (now apply Q). discriminate. }
    rewrite (sum_swap SR). apply (sum_ext o). intros b Hb. apply make_grid_In in Hb.
    destruct (in_dec row_dec (diag b) (map fst A)) as [I|I].
    - destruct (in_rows I) as [X HX]. etransitivity; [apply (sum_single SR (f := fun e => if row_dec (fst e) (diag b) then btrace_full o (snd e) else o0 o) (x := (diag b, X)))|].
      + apply (NoDup_map_inv fst), (data_ok_NoDup H).
      + exact HX.
      + intros y Hy NE. destruct (row_dec (fst y) (diag b)) as [E|]; auto. exfalso. apply NE. apply (entry_eq H); auto.
      + cbn [fst snd]. destruct (row_dec (diag b) (diag b)); [|congruence]. assert (SX := do_shape H HX). cbn [fst snd] in SX.
        unfold mults in SX. rewrite map_app, map_rev in SX. fold (mults cod) in SX. unfold diag in SX.
        assert (LM : length b = length (mults cod)) by (unfold mults; rewrite map_length; auto).
        rewrite shp_app, (@shp_rev (mults cod)) in SX by auto. rewrite (trace_full_block SX). apply (sum_ext o). intros q Hq. now rewrite (sval_in o _ (data_ok_NoDup H) HX).
    - transitivity (o0 o); [|symmetry]; apply (sum_zero SR).
      + intros e He. destruct (row_dec (fst e) (diag b)) as [E|]; auto. exfalso. apply I. rewrite <- E. now apply in_map.
      + intros q _. apply (sval_notin o _ I).
  Qed.

  (** ** partial traces *)
  Lemma map_add_spec (F : list nat -> list nat) key (X : block) m :
    NoDup (map fst m) -> (forall e, In e m -> bshape (snd e) = F (fst e) /\ bwf (snd e)) -> bshape X = F key -> bwf X ->
    NoDup (map fst (map_add o key X m)) /\ (forall e, In e (map_add o key X m) -> bshape (snd e) = F (fst e) /\ bwf (snd e)) /\
    (forall r, In r (map fst (map_add o key X m)) <-> r = key \/ In r (map fst m)) /\
    (forall r q, valid_idx (F r) q -> sval (map_add o key X m) r q = oadd o (sval m r q) (if row_dec key r then bat o X q else o0 o)).
  Proof.
    induction m as [|e m IH]; intros ND H SX WX; cbn [map_add].
    - split; [|split; [|split]].
      + cbn. constructor; [auto|constructor].
      + intros e [<-|[]]. auto.
      + intros r. cbn. split; [intros [E|[]]; auto|intros [E|[]]; auto].
      + intros r q _. cbn [SparseProofs.sval fst snd]. destruct (row_dec key r); ring.
    - cbn [map] in ND. inversion ND as [|? ? NI ND']; subst. destruct (list_eq_dec Nat.eq_dec key (fst e)) as [E|E].
      + subst key. destruct (H e (or_introl eq_refl)) as [S1 W1]. split; [|split; [|split]].
        * exact ND.
        * intros e' [<-|He']; [|apply H; now right]. cbn [fst snd]. split; [exact S1|]. apply badd_wf; auto. congruence.
        * intros r. cbn [map fst In]. intuition.
        * intros r q V. cbn [SparseProofs.sval fst snd]. destruct (row_dec (fst e) r) as [<-|].
          -- rewrite bat_add; auto; [congruence|]. now rewrite S1.
          -- ring.
      + destruct (IH ND' ltac:(intros; apply H; now right) SX WX) as (A1 & A2 & A3 & A4). split; [|split; [|split]].
        * cbn [map]. constructor; auto. intros I. apply A3 in I. destruct I; [congruence|contradiction].
        * intros e' [<-|He']; [apply H; now left|auto].
        * intros r. cbn [map In]. rewrite A3. intuition.
        * intros r q V. cbn [SparseProofs.sval]. destruct (row_dec (fst e) r) as [<-|].
          -- destruct (row_dec key (fst e)); [contradiction|ring].
          -- now apply A4.
  Qed.
  Lemma map_add_all (F : list nat -> list nat) (L : adata) : (forall e, In e L -> bshape (snd e) = F (fst e) /\ bwf (snd e)) -> forall m,
    NoDup (map fst m) -> (forall e, In e m -> bshape (snd e) = F (fst e) /\ bwf (snd e)) ->
    let m' := fold_left (fun m e => map_add o (fst e) (snd e) m) L m in
    NoDup (map fst m') /\ (forall e, In e m' -> bshape (snd e) = F (fst e) /\ bwf (snd e)) /\
    (forall r, In r (map fst m') <-> In r (map fst L) \/ In r (map fst m)) /\
    (forall r q, valid_idx (F r) q -> sval m' r q = oadd o (sval m r q) (osum o (map (fun e => if row_dec (fst e) r then bat o (snd e) q else o0 o) L))).
  Proof.
    induction L as [|e L IH]; intros HL m ND H; cbv zeta; cbn [fold_left map].
    - split; [auto|]. split; [auto|]. split; [cbn; tauto|]. intros r q _. rewrite (sum_nil o). ring.
    - destruct (HL e (or_introl eq_refl)) as [S1 W1]. destruct (@map_add_spec F (fst e) (snd e) m ND H S1 W1) as (A1 & A2 & A3 & A4).
      destruct (IH ltac:(intros; apply HL; now right) _ A1 A2) as (B1 & B2 & B3 & B4). split; [auto|]. split; [auto|]. split.
      + intros r. rewrite B3, A3. cbn [In]. intuition.
      + intros r q V. rewrite B4, A4, (sum_cons o) by auto. ring.
  Qed.
  Lemma fold_cond (A : adata) (c : list nat -> bool) (g : list nat * block -> list nat * block) : forall m,
    fold_left (fun m e => if c (fst e) then map_add o (fst (g e)) (snd (g e)) m else m) A m = fold_left (fun m e => map_add o (fst e) (snd e) m) (map g (filter (fun e => c (fst e)) A)) m.
  Proof. induction A as [|e A IH]; intros m; cbn [fold_left filter map]; auto. destruct (c (fst e)); cbn [map fold_left]; apply IH. Qed.

  (** one block *)
  Lemma trace_partial_block (B : block) rem i1 i2 : is_perm (bndim B) (rem ++ i1 ++ i2) -> take 0 (bshape B) i1 = take 0 (bshape B) i2 ->
    bshape (btrace_partial o B i1 i2 rem) = take 0 (bshape B) rem /\
    forall q, valid_idx (take 0 (bshape B) rem) q ->
    bat o (btrace_partial o B i1 i2 rem) q = osum o (map (fun u => bat o B (take 0 (q ++ u ++ u) (inverse_permutation (rem ++ i1 ++ i2)))) (make_grid (take 0 (bshape B) i1) true)).
  Proof.
    intros P E. unfold btrace_partial. set (p := rem ++ i1 ++ i2) in *. set (t := take 0 (bshape B) i1) in *. set (s := take 0 (bshape B) rem).
    assert (ST : bshape (btranspose o B p) = s ++ t ++ t) by (rewrite btranspose_shape; unfold p; rewrite !take_app_idx, <- E; reflexivity).
    assert (LS : length s = length rem) by apply take_length.
    rewrite ST, <- LS, firstn_len. split.
    - unfold btrace, bndim. cbn [bshape breshape bmk]. rewrite app_length. cbn [length]. replace (length s + 2 - 2) with (length s) by lia. apply firstn_len.
    - intros q V. rewrite (bat_trace_merged ST V). apply (sum_ext o). intros u Hu. apply make_grid_In in Hu. apply bat_transpose. rewrite <- (btranspose_shape o), ST.
      apply valid_app; [apply (valid_length V)|]. split; auto. apply valid_app; [apply (valid_length Hu)|]. auto.
  Qed.
End Trace.
