(** Diagonal tensors of the abelian backend: conversions, reductions, elements. *)
From Coq Require Import Ring.
From Verif Require Import Util StableSort RowModel RowProofs GridModel GridProofs SymModel SymProofs CatSpec Sums SpaceModel SpaceSpec SpaceProofs SpaceProofs2 SpaceProofs3 TensorModel TensorSpec
  PipeModel PipeProofs PipeProofs2 BlockModel BlockProofs SparseModel SparseSpec SparseProofs SparseDense2 FtOpsModel FtOpsSpec AbDecModel AbDecSpec AbDecProofs AbDecProofs2 AbDecProofs3 AbDecProofs4 AbDiagModel AbDiagProofs AbDiagProofs2.
Set Implicit Arguments. Unset Strict Implicit.
Open Scope nat_scope.

Section Diag.
  Variable K : Type.
  Variable o : ops K.
  Notation adata := (list (list nat * blk K)).
  Variable S : tsymm.
  Variable fuse : sector -> sector -> sector.
  Hypothesis G : abelian_group_laws S fuse.
  Variable L : espace.
  Hypothesis OL : es_ok S L.
  Notation ms := (es_mults L).
  Notation vecl := (vec_list o S L).

  (** ** from a vector *)
  Lemma grid_one m : make_grid [m] true = map (fun i => [i]) (seq 0 m).
  Proof.
    unfold make_grid. cbn [rev app cgrid]. rewrite flat_map_concat_map. cbn [map]. induction (seq 0 m) as [|x l IH]; [reflexivity|]. cbn [map concat app]. rewrite <- IH. reflexivity.
  Qed.
  Lemma bmk_vec m (f : list nat -> K) c : c < m -> nth c (bdata (bmk [m] f)) (o0 o) = f [c].
  Proof. intros Hc. unfold bmk. cbn [bdata]. rewrite grid_one, map_map. rewrite nth_map_lt with (d := 0) by (now rewrite seq_length). now rewrite seq_nth. Qed.
  Lemma bmk_len m (f : list nat -> K) : length (bdata (bmk [m] f)) = m.
  Proof. unfold bmk. cbn [bdata]. now rewrite grid_one, !map_length, seq_length. Qed.
  Theorem from_block_ok (a : blk K) : bshape a = [es_dim S L] -> length (bdata a) = es_dim S L -> diag_data_ok L (ab_diag_from_block o S L a) /\ vecl (ab_diag_from_block o S L a) = bdata a.
  Proof.
    intros SH LE. rewrite (dim_sum G OL) in SH, LE.
    assert (E : ab_diag_from_block o S L a = all_data (nsec L) (fun i => bmk [nth i ms 0] (fun r => bat o a [nsum (firstn i ms) + nth 0 r 0]))).
    { unfold ab_diag_from_block, all_data. apply map_ext_in. intros i Ii. apply in_seq in Ii. rewrite (slice_at G OL) by lia. cbn [fst snd]. f_equal. unfold bslice, bmk. cbn [combine map fst snd].
      replace (nsum (firstn i ms) + nth i ms 0 - nsum (firstn i ms)) with (nth i ms 0) by lia. f_equal. rewrite grid_one, !map_map. apply map_ext. intros c. reflexivity. }
    rewrite E. assert (FO : forall n, n < nsec L -> bshape (bmk [nth n ms 0] (fun r => bat o a [nsum (firstn n ms) + nth 0 r 0])) = [nth n ms 0] /\ length (bdata (bmk [nth n ms 0] (fun r => bat o a [nsum (firstn n ms) + nth 0 r 0]))) = nth n ms 0) by (intros n Hn; split; [reflexivity|apply bmk_len]).
    split; [now apply all_ok|]. rewrite (all_vec o G OL FO). symmetry. apply concat_eq_nth with (d := o0 o) (ms := ms); [exact LE| |].
    - apply list_eq_nth with (d := 0); [now rewrite !map_length, seq_length|]. intros i Hi. rewrite !map_length, seq_length in Hi. rewrite nth_map_lt with (d := @nil _) by (now rewrite map_length, seq_length). rewrite nth_map_lt with (d := 0) by (now rewrite seq_length). rewrite seq_nth by exact Hi. apply bmk_len.
    - intros n c Hn Hc. rewrite nth_map_lt with (d := 0) by (now rewrite seq_length). rewrite seq_nth by exact Hn. cbn [plus]. rewrite (bmk_vec _ Hc). cbn [nth]. symmetry. apply (bat_vec o _ SH).
  Qed.
  Theorem from_func_ok (func : nat -> sector -> blk K) : (forall m c, bshape (func m c) = [m] /\ length (bdata (func m c)) = m) ->
    diag_data_ok L (ab_diag_from_func S func L) /\ vecl (ab_diag_from_func S func L) = concat (map (fun mc => bdata (func (fst mc) (snd mc))) (combine ms (es_decomp S L))).
  Proof.
    intros FS. assert (E : ab_diag_from_func S func L = all_data (nsec L) (fun i => func (nth i ms 0) (nth i (es_decomp S L) []))) by (unfold ab_diag_from_func; apply zip_all).
    rewrite E. assert (FO : forall n, n < nsec L -> bshape (func (nth n ms 0) (nth n (es_decomp S L) [])) = [nth n ms 0] /\ length (bdata (func (nth n ms 0) (nth n (es_decomp S L) []))) = nth n ms 0) by (intros n _; apply FS).
    split; [now apply all_ok|]. rewrite (all_vec o G OL FO). f_equal. assert (LL : length (es_decomp S L) = nsec L) by (rewrite ok_decomp_len; symmetry; apply (ok_len OL)).
    apply list_eq_nth with (d := @nil K); [rewrite !map_length, seq_length, combine_length, LL; unfold nsec; lia|]. intros i Hi. rewrite map_length, seq_length in Hi. rewrite nth_map_lt with (d := 0) by (now rewrite seq_length). rewrite seq_nth by exact Hi.
    rewrite nth_map_lt with (d := (0, @nil Z)) by (rewrite combine_length, LL; unfold nsec in *; lia). rewrite combine_nth_lt with (x := 0) (y := @nil Z) by (rewrite ?LL; auto). reflexivity.
  Qed.

  (** ** full and back *)
  Theorem full_ok (A : adata) : diag_data_ok L A -> tensor_ok S [L] [L] (ab_diag_full o A) /\
    forall x y, x < es_dim S L -> y < es_dim S L -> entry o S [L] [L] (ab_diag_full o A) [x; y] = if x =? y then nth x (vecl A) (o0 o) else o0 o.
  Proof.
    intros OA. assert (R : forall e, In e (ab_diag_full o A) -> exists n B, n < nsec L /\ In ([n; n], B) A /\ bshape B = [nth n ms 0] /\ e = ([n; n], bdiag o B)).
    { intros e I. apply in_map_iff in I. destruct I as (e0 & <- & I). destruct (dd_rows OA I) as (n & Hn & E & SH). exists n, (snd e0). rewrite <- E. split; [exact Hn|]. split; [now destruct e0|]. auto. }
    assert (DO : data_ok [L; L] (ab_diag_full o A)).
    { constructor.
      - unfold ab_diag_full. rewrite map_map. cbn [fst]. apply (dd_sorted OA).
      - intros e I. destruct (R e I) as (n & B & Hn & _ & _ & ->). cbn [fst]. repeat constructor; exact Hn.
      - intros e I. destruct (R e I) as (n & B & Hn & _ & SB & ->). cbn [fst snd bdiag bmk bshape]. rewrite SB. reflexivity.
      - intros e I. destruct (R e I) as (n & B & Hn & _ & SB & ->). cbn [snd]. apply bmk_wf. }
    assert (TO : tensor_ok S [L] [L] (ab_diag_full o A)).
    { constructor; [intros E [ <- |[ <- |[]]]; exact OL|exact DO|]. intros e I. destruct (R e I) as (n & B & Hn & _ & _ & ->). cbn [fst]. now apply charge_two. }
    split; [exact TO|]. intros x y Hx Hy. rewrite (dim_sum G OL) in Hx, Hy. destruct (pos_surj Hx) as (j & a & Hj & Ha & ->). destruct (pos_surj Hy) as (n & c & Hn & Hc & ->).
    rewrite (two_entry o G OL OL DO Hj Ha Hn Hc). assert (PE : (pos ms j a =? pos ms n c) = ((j =? n) && (a =? c))%bool).
    { destruct (Nat.eqb_spec j n) as [ -> |NE]; [destruct (Nat.eqb_spec a c) as [ -> |NE]|]; cbn [andb].
      - apply Nat.eqb_refl.
      - apply Nat.eqb_neq. unfold pos. lia.
      - apply Nat.eqb_neq. intros E. destruct (loc_inj (ms := ms) Hj Ha Hn Hc E) as [E1 _]. contradiction. }
    rewrite PE. destruct (Nat.eqb_spec j n) as [ -> |NE]; cbn [andb].
    - rewrite (vec_nth o G OL OA Hn Ha), (dg_sval o n [a] (dd_from OA)). destruct (dg A n) as [B|] eqn:EB.
      + apply (dg_In n B (dd_from OA)) in EB. destruct (dd_rows OA EB) as (n' & _ & E' & SB). cbn [fst snd] in E', SB. injection E' as <-.
        assert (I : In ([n; n], bdiag o B) (ab_diag_full o A)) by (apply in_map_iff; exists ([n; n], B); split; [reflexivity|exact EB]). rewrite (sval_in o [a; c] (data_ok_NoDup DO) I). unfold bdiag. rewrite SB. cbn [nth]. rewrite bat_bmk by (repeat constructor; assumption). cbn [nth]. reflexivity.
      + rewrite sval_notin; [now destruct (a =? c)|]. intros I. unfold ab_diag_full in I. rewrite map_map in I. cbn [fst] in I. apply (dg_none n (dd_from OA)) in EB. now apply EB.
    - apply sval_notin. intros I. apply in_map_iff in I. destruct I as (e & E & I). destruct (R e I) as (k & B & _ & _ & _ & ->). cbn [fst] in E. injection E as -> ->. contradiction.
  Qed.
  Lemma A_from (A : adata) : tensor_ok S [L] [L] A -> from 0 A.
  Proof.
    intros TA. split.
    - pose proof (do_sorted (to_data TA)) as SS. unfold strictly_sorted, zrows in SS. assert (R : forall e, In e A -> fst e = [dcol e; dcol e]) by (intros e I; apply (A_diag G OL TA I)). clear TA. induction A as [|e W IH]; [constructor|]. cbn [map] in *. apply StronglySorted_inv in SS. destruct SS as [SS FA]. constructor; [apply IH; [exact SS|intros e' I; apply R; now right]|].
      rewrite Forall_forall in *. intros x Ix. apply in_map_iff in Ix. destruct Ix as (e' & <- & I). assert (Q := FA (map Z.of_nat (fst e')) (in_map _ _ _ (in_map _ _ _ I))). rewrite (R e (or_introl eq_refl)), (R e' (or_intror I)) in Q. destruct Q as (_ & k & Hk & Lk & _). cbn in Hk. destruct k as [|[|k]]; cbn in Lk; lia.
    - intros e I. destruct (A_diag G OL TA I) as [E _]. split; [exact E|lia].
  Qed.
  Lemma square_block (A : adata) n B : tensor_ok S [L] [L] A -> In ([n; n], B) A -> n < nsec L /\ bshape B = [nth n ms 0; nth n ms 0] /\ bwf B.
  Proof.
    intros TA I. destruct (A_diag G OL TA I) as [_ Hn]. split; [exact Hn|]. split; [exact (do_shape (to_data TA) I)|exact (do_wf (to_data TA) I)].
  Qed.
  Theorem full_diag_ok (ok : blk K -> bool) (A : adata) W : tensor_ok S [L] [L] A -> ab_full_diag o ok A = Some W -> diag_data_ok L W /\ (forall B, In B (map snd A) -> ok B = true) /\
    forall x, x < es_dim S L -> nth x (vecl W) (o0 o) = entry o S [L] [L] A [x; x].
  Proof.
    intros TA. unfold ab_full_diag. destruct (forallb _ A) eqn:E; [|discriminate]. intros [= <-]. rewrite forallb_forall in E. set (W := map (fun e => (fst e, bdiagonal o (snd e))) A).
    assert (R : forall e, In e W -> exists n B, In ([n; n], B) A /\ e = ([n; n], bdiagonal o B)).
    { intros e I. apply in_map_iff in I. destruct I as (e0 & <- & I). exists (col0 e0), (snd e0). rewrite <- (proj1 (A_diag G OL TA I)). split; [now destruct e0|reflexivity]. }
    assert (OW : diag_data_ok L W).
    { constructor.
      - unfold W. rewrite map_map. cbn [fst]. apply (do_sorted (to_data TA)).
      - intros e I. destruct (R e I) as (n & B & J & ->). destruct (square_block TA J) as (Hn & SB & _). exists n. cbn [fst snd]. split; [exact Hn|]. split; [reflexivity|]. unfold bdiagonal. cbn [bmk bshape]. rewrite SB. cbn [nth]. now rewrite Nat.min_id.
      - intros e I. destruct (R e I) as (n & B & J & ->). cbn [snd]. apply bmk_wf. }
    split; [exact OW|]. split; [intros B I; apply in_map_iff in I; destruct I as (e & <- & I); now apply E|]. intros x Hx. rewrite (dim_sum G OL) in Hx. destruct (pos_surj Hx) as (n & c & Hn & Hc & ->).
    rewrite (vec_nth o G OL OW Hn Hc), (two_entry o G OL OL (to_data TA) Hn Hc Hn Hc), (dg_sval o n [c] (dd_from OW)), (dg_sval o n [c; c] (A_from TA)). unfold W. rewrite (dg_map (bdiagonal o)). destruct (dg A n) as [B|] eqn:EB; cbn [option_map]; [|reflexivity].
    apply (dg_In n B (A_from TA)) in EB. destruct (square_block TA EB) as (_ & SB & _). unfold bdiagonal. rewrite SB. cbn [nth]. rewrite Nat.min_id, bat_bmk by (repeat constructor; exact Hc). reflexivity.
  Qed.
  (** if the test accepts only blocks without entries off the diagonal, the tensor was diagonal *)
  Theorem full_diag_zero (ok : blk K -> bool) (A : adata) W : tensor_ok S [L] [L] A -> (forall B m, bshape B = [m; m] -> ok B = true -> forall a c, a < m -> c < m -> a <> c -> bat o B [a; c] = o0 o) -> ab_full_diag o ok A = Some W ->
    forall x y, x < es_dim S L -> y < es_dim S L -> entry o S [L] [L] A [x; y] = if x =? y then nth x (vecl W) (o0 o) else o0 o.
  Proof.
    intros TA HO EW x y Hx Hy. destruct (full_diag_ok TA EW) as (OW & HB & EN). destruct (Nat.eqb_spec x y) as [ <- |NE]; [symmetry; now apply EN|]. rewrite (dim_sum G OL) in Hx, Hy. destruct (pos_surj Hx) as (j & a & Hj & Ha & ->). destruct (pos_surj Hy) as (n & c & Hn & Hc & ->).
    rewrite (two_entry o G OL OL (to_data TA) Hj Ha Hn Hc). destruct (Nat.eq_dec j n) as [ -> |NJ].
    - rewrite (dg_sval o n [a; c] (A_from TA)). destruct (dg A n) as [B|] eqn:EB; [|reflexivity]. apply (dg_In n B (A_from TA)) in EB. destruct (square_block TA EB) as (_ & SB & _). apply (HO B (nth n ms 0) SB (HB B (in_map snd _ _ EB)) a c Ha Hc). intros ->. now apply NE.
    - apply sval_notin. intros I. apply in_map_iff in I. destruct I as (e & E & I). destruct (A_diag G OL TA I) as [F _]. rewrite F in E. injection E as E1 E2. apply NJ. congruence.
  Qed.

  (** ** reductions *)
  Lemma reduce_fills : forall n i (A : adata), i + n = length ms -> from i A -> reduce_loop o (skipn i ms) i A = map (fun k => fills o [nth k ms 0] A k) (seq i n).
  Proof.
    induction n as [|n IH]; intros i A Hi FA; [rewrite skipn_all2 by lia; reflexivity|]. rewrite skipn_cons by lia. cbn [reduce_loop seq map]. replace (Datatypes.S i) with (i + 1) by lia.
    destruct (step FA) as [(e & A' & -> & Ed & F' & D & DS)|(NE & F' & D)].
    - unfold dcol in Ed. rewrite (proj2 (Nat.eqb_eq _ _) Ed). rewrite (fills_shift o (fun k => [nth k ms 0]) n DS). f_equal; [unfold fills; now rewrite D|]. apply IH; [lia|exact F'].
    - replace (fills o [nth i ms 0] A i) with (bzeros o [nth i ms 0]) by (unfold fills; now rewrite D). rewrite <- IH by (auto; lia). destruct A as [|e A']; [reflexivity|]. assert (X := NE e A' eq_refl). unfold dcol in X. now rewrite (proj2 (Nat.eqb_neq _ _) X).
  Qed.
  Theorem reduce_ok (R : Type) (block_func : blk K -> R) (func : list R -> R) (A : adata) : diag_data_ok L A -> exists parts, concat parts = vecl A /\ map (@length K) parts = ms /\
    ab_reduce o block_func func L A = func (map (fun p => block_func (Blk [length p] p)) parts).
  Proof.
    intros OA. exists (map (segm o ms A) (seq 0 (nsec L))). split; [symmetry; exact (vec_concat o G OL OA)|]. split; [now apply segms_length|]. unfold ab_reduce. pose proof (reduce_fills (n := nsec L) (i := 0) eq_refl (dd_from OA)) as E. cbn [skipn] in E. rewrite E, !map_map. f_equal.
    apply map_ext_in. intros n In_. apply in_seq in In_. f_equal. destruct (fills_ok o OA (n := n) ltac:(lia)) as [SH LE]. rewrite <- fills_segm, LE. generalize dependent (fills o [nth n ms 0] A n). intros [sh dt]. cbn. now intros -> _.
  Qed.
  Theorem all_test (test : K -> bool) (A : adata) : diag_data_ok L A -> test (o0 o) = false -> ab_all test L A = forallb test (vecl A).
  Proof.
    intros OA T0. rewrite (vec_concat o G OL OA). assert (X : forall n i (W : adata), i + n = nsec L -> from i W -> (forall e, In e W -> dcol e < i + n) -> length W <= n /\
      forallb test (concat (map (segm o ms W) (seq i n))) = if length W <? n then false else forallb (fun e => forallb test (bdata (snd e))) W).
    { induction n as [|n IH]; intros i W Hi F HB.
      - destruct W as [|e W]; [split; reflexivity|]. exfalso. destruct F as [_ F]. pose proof (HB e (or_introl eq_refl)). destruct (F e (or_introl eq_refl)). lia.
      - cbn [seq map concat]. rewrite forallb_app. replace (Datatypes.S i) with (i + 1) by lia. destruct (step F) as [(e & W' & -> & Ed & F' & D & DS)|(NE & F' & D)].
        + destruct (IH (i + 1) W' ltac:(lia) F') as [LE FB]; [intros e' I; specialize (HB e' (or_intror I)); lia|]. cbn [length]. split; [lia|]. rewrite map_ext_in with (g := segm o ms W') by (intros k Ik; apply in_seq in Ik; unfold segm; now rewrite DS by lia). rewrite FB.
          replace (segm o ms (e :: W') i) with (bdata (snd e)) by (unfold segm; now rewrite D). change (Datatypes.S (length W') <? Datatypes.S n) with (length W' <? n). destruct (length W' <? n); [apply andb_false_r|reflexivity].
        + destruct (IH (i + 1) W ltac:(lia) F') as [LE FB]; [intros e' I; specialize (HB e' I); lia|]. split; [lia|]. rewrite (proj2 (Nat.ltb_lt (length W) (Datatypes.S n))) by lia. replace (segm o ms W i) with (repeat (o0 o) (nth i ms 0)) by (unfold segm; now rewrite D).
          assert (P : 0 < nth i ms 0) by (apply (ok_pos OL); apply nth_In; unfold nsec in *; lia). destruct (nth i ms 0); [lia|]. cbn [repeat forallb]. now rewrite T0. }
    destruct (X (nsec L) 0 A eq_refl (dd_from OA) (dd_bound OA)) as [_ ->]. reflexivity.
  Qed.
  Lemma loop_exists (test : K -> bool) : test (o0 o) = false -> forall n i (W : adata), from i W -> (forall e, In e W -> dcol e < i + n) ->
    existsb test (concat (map (segm o ms W) (seq i n))) = existsb (fun e => existsb test (bdata (snd e))) W.
  Proof.
    intros T0. induction n as [|n IH]; intros i W F HB.
    - destruct W as [|e W]; [reflexivity|]. exfalso. destruct F as [_ F]. pose proof (HB e (or_introl eq_refl)). destruct (F e (or_introl eq_refl)). lia.
    - cbn [seq map concat]. rewrite existsb_app. replace (Datatypes.S i) with (i + 1) by lia. destruct (step F) as [(e & W' & -> & Ed & F' & D & DS)|(NE & F' & D)].
      + rewrite map_ext_in with (g := segm o ms W') by (intros k Ik; apply in_seq in Ik; unfold segm; now rewrite DS by lia). rewrite IH; [|exact F'|intros e' I; specialize (HB e' (or_intror I)); lia]. unfold segm. rewrite D. reflexivity.
      + rewrite IH; [|exact F'|intros e' I; specialize (HB e' I); lia]. unfold segm. rewrite D. replace (existsb test (repeat (o0 o) (nth i ms 0))) with false; [reflexivity|]. symmetry. induction (nth i ms 0) as [|m IHm]; [reflexivity|]. cbn. now rewrite T0.
  Qed.
  Theorem any_test (test : K -> bool) (A : adata) : diag_data_ok L A -> test (o0 o) = false -> ab_any test A = existsb test (vecl A).
  Proof. intros OA T0. rewrite (vec_concat o G OL OA). symmetry. exact (loop_exists T0 (n := nsec L) (dd_from OA) (dd_bound OA)). Qed.

  (** ** elements *)
  Theorem get_diag_ok (A : adata) idx j : s_drop S = true -> diag_data_ok L A -> internal_position S L idx j -> ab_get_diag o S L A idx = Some (nth j (vecl A) (o0 o)).
  Proof.
    intros HD OA HP. destruct (parse_position G HD OL HP) as (s & m & E & Hs & Hm & ->). unfold ab_get_diag. rewrite E. change (nsum (firstn s ms) + m) with (pos ms s m). rewrite (vec_nth o G OL OA Hs Hm).
    pose proof (get_block_spec [s; s] (from_NoDup (dd_from OA))) as GB. destruct (get_block A [s; s]) as [B|].
    - now rewrite (sval_in o [m] (from_NoDup (dd_from OA)) GB).
    - now rewrite (sval_notin o [m] GB).
  Qed.

  (** ** functions of the blocks of a matrix *)
  Theorem act_ok (f : blk K -> blk K) (A : adata) : tensor_ok S [L] [L] A -> (forall B m, bshape B = [m; m] -> bwf B -> bshape (f B) = [m; m] /\ bwf (f B)) ->
    tensor_ok S [L] [L] (ab_act o f L A) /\
    forall n k a c, n < nsec L -> k < nsec L -> a < nth n ms 0 -> c < nth k ms 0 -> entry o S [L] [L] (ab_act o f L A) [pos ms n a; pos ms k c] =
      if n =? k then bat o (f (bmk [nth n ms 0; nth n ms 0] (fun r => entry o S [L] [L] A [pos ms n (nth 0 r 0); pos ms n (nth 1 r 0)]))) [a; c] else o0 o.
  Proof.
    intros TA FS. pose (F n := f (fills o [nth n ms 0; nth n ms 0] A n)).
    assert (E : ab_act o f L A = all_data (nsec L) F).
    { unfold ab_act. rewrite <- zip_all. f_equal. rewrite <- map_map with (g := f) (f := right_block o (fun j => [nth j ms 0; nth j ms 0]) A). unfold F. rewrite <- (map_map (fun n => fills o [nth n ms 0; nth n ms 0] A n) f). f_equal.
      apply (@walk_right K o (fun j => [nth j ms 0; nth j ms 0]) A (nsec L) 0 A []); [reflexivity|apply (A_from TA)|]. intros e I. apply (A_diag G OL TA I). }
    assert (FB : forall n, n < nsec L -> bshape (fills o [nth n ms 0; nth n ms 0] A n) = [nth n ms 0; nth n ms 0] /\ bwf (fills o [nth n ms 0; nth n ms 0] A n)).
    { intros n Hn. unfold fills. destruct (dg A n) as [B|] eqn:EB; [|split; [reflexivity|apply bmk_wf]]. apply (dg_In n B (A_from TA)) in EB. apply (square_block TA EB). }
    assert (DO : data_ok [L; L] (all_data (nsec L) F)).
    { constructor.
      - apply sorted_diag; [|intros e I; apply in_map_iff in I; destruct I as (n & <- & _); reflexivity]. unfold all_data. rewrite map_map. rewrite map_ext with (g := fun n => n) by reflexivity. rewrite map_id. apply seq_sorted.
      - intros e I. apply in_map_iff in I. destruct I as (n & <- & Hn). apply in_seq in Hn. repeat constructor; cbn; lia.
      - intros e I. apply in_map_iff in I. destruct I as (n & <- & Hn). apply in_seq in Hn. destruct (FB n ltac:(lia)) as [SH WF]. apply (FS _ _ SH WF).
      - intros e I. apply in_map_iff in I. destruct I as (n & <- & Hn). apply in_seq in Hn. destruct (FB n ltac:(lia)) as [SH WF]. apply (FS _ _ SH WF). }
    rewrite E. split.
    { constructor; [intros X [ <- |[ <- |[]]]; exact OL|exact DO|]. intros e I. apply in_map_iff in I. destruct I as (n & <- & Hn). cbn [fst]. now apply charge_two. }
    intros n k a c Hn Hk Ha Hc. rewrite (two_entry o G OL OL DO Hn Ha Hk Hc). destruct (Nat.eqb_spec n k) as [ <- |NE].
    - assert (I : In ([n; n], F n) (all_data (nsec L) F)) by (apply in_map_iff; exists n; split; [reflexivity|apply in_seq; lia]). rewrite (sval_in o [a; c] (data_ok_NoDup DO) I). unfold F. f_equal. f_equal. destruct (FB n Hn) as [SH WF].
      apply (blk_ext (o := o)); [exact WF|apply bmk_wf|exact SH|]. intros r Vr. rewrite SH in Vr. rewrite bat_bmk by exact Vr. inversion Vr as [|i m r' s' Hi Vr']; subst. inversion Vr' as [|i' m' r'' s'' Hi' Vr'']; subst. inversion Vr''; subst. cbn [nth].
      rewrite (two_entry o G OL OL (to_data TA) Hn Hi Hn Hi'), (dg_sval o n _ (A_from TA)). unfold fills. destruct (dg A n) as [B|]; [reflexivity|]. unfold bzeros. now rewrite bat_bmk by exact Vr.
    - apply sval_notin. intros I. apply in_map_iff in I. destruct I as (e & Ee & I). apply in_map_iff in I. destruct I as (n' & <- & _). cbn [fst] in Ee. injection Ee as -> ->. now apply NE.
  Qed.

  (** ** trace *)
  Hypothesis SR : semi_ring_theory (o0 o) (o1 o) (oadd o) (omul o) (@eq K).
  Add Ring Kr : SR.
  Lemma osum_app l1 l2 : osum o (l1 ++ l2) = oadd o (osum o l1) (osum o l2).
  Proof. unfold osum. induction l1 as [|x l1 IH]; cbn [app fold_right]; [ring|]. rewrite IH. ring. Qed.
  Lemma osum_zeros m : osum o (repeat (o0 o) m) = o0 o.
  Proof. induction m as [|m IH]; [reflexivity|]. cbn [repeat osum fold_right]. fold (osum o (repeat (o0 o) m)). rewrite IH. ring. Qed.
  Lemma trace_fold (W : adata) : forall t, fold_left (fun t e => oadd o t (osum o (bdata (snd e)))) W t = oadd o t (osum o (map (fun e => osum o (bdata (snd e))) W)).
  Proof. clear -SR. induction W as [|e W IH]; intros t; cbn [fold_left map osum fold_right]; [ring|]. rewrite IH. unfold osum. ring. Qed.
  Theorem trace_ok (A : adata) : diag_data_ok L A -> ab_diag_trace o A = osum o (vecl A).
  Proof.
    intros OA. unfold ab_diag_trace. rewrite trace_fold, (vec_concat o G OL OA). assert (X : forall n i (W : adata), from i W -> (forall e, In e W -> dcol e < i + n) -> osum o (concat (map (segm o ms W) (seq i n))) = osum o (map (fun e => osum o (bdata (snd e))) W)).
    { induction n as [|n IH]; intros i W F HB.
      - destruct W as [|e W]; [reflexivity|]. exfalso. destruct F as [_ F]. pose proof (HB e (or_introl eq_refl)). destruct (F e (or_introl eq_refl)). lia.
      - cbn [seq map concat]. rewrite osum_app. replace (Datatypes.S i) with (i + 1) by lia. destruct (step F) as [(e & W' & -> & Ed & F' & D & DS)|(NE & F' & D)].
        + rewrite map_ext_in with (g := segm o ms W') by (intros k Ik; apply in_seq in Ik; unfold segm; now rewrite DS by lia). rewrite IH; [|exact F'|intros e' I; specialize (HB e' (or_intror I)); lia]. unfold segm. rewrite D. reflexivity.
        + rewrite IH; [|exact F'|intros e' I; specialize (HB e' I); lia]. unfold segm. rewrite D, osum_zeros. ring. }
    rewrite (X (nsec L) 0 A (dd_from OA) (dd_bound OA)). ring.
  Qed.
End Diag.
