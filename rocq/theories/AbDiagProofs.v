(** The vector of a diagonal tensor is the concatenation of its blocks; the loops over all sectors. *)
From Coq Require Import Ring.
From Verif Require Import Util StableSort RowModel RowProofs GridModel GridProofs SymModel SymProofs CatSpec Sums SpaceModel SpaceSpec SpaceProofs SpaceProofs2 SpaceProofs3 TensorModel
  PipeModel PipeProofs PipeProofs2 BlockModel BlockProofs SparseModel SparseSpec SparseProofs FtOpsModel FtOpsSpec AbDecModel AbDecSpec AbDecProofs2 AbDecProofs3 AbDiagModel.
Set Implicit Arguments. Unset Strict Implicit.
Open Scope nat_scope.

(** ** concatenations *)
Lemma concat_length_nsum (A : Type) (ll : list (list A)) : length (concat ll) = nsum (map (@length A) ll).
Proof. induction ll as [|l ll IH]; [reflexivity|]. cbn [concat map nsum fold_right]. rewrite app_length, IH. reflexivity. Qed.
Lemma concat_nth (A : Type) (d : A) (ll : list (list A)) n c : n < length ll -> c < length (nth n ll []) -> nth (pos (map (@length A) ll) n c) (concat ll) d = nth c (nth n ll []) d.
Proof.
  revert n. induction ll as [|l ll IH]; intros n Hn Hc; cbn in Hn; [lia|]. destruct n as [|n]; cbn [nth] in *.
  - unfold pos. cbn [firstn nsum fold_right]. cbn [concat]. now rewrite app_nth1 by lia.
  - cbn [concat]. rewrite <- (IH n) by (auto; lia). unfold pos. cbn [map firstn]. change (nsum (length l :: ?x)) with (length l + nsum x).
    rewrite app_nth2 by lia. f_equal. lia.
Qed.
Lemma pos_surj ms : forall g, g < nsum ms -> exists n c, n < length ms /\ c < nth n ms 0 /\ g = pos ms n c.
Proof.
  induction ms as [|m ms IH]; intros g Hg; [cbn in Hg; lia|]. change (nsum (m :: ms)) with (m + nsum ms) in Hg.
  destruct (Nat.lt_ge_cases g m) as [L|L].
  - exists 0, g. cbn. repeat split; lia.
  - destruct (IH (g - m) ltac:(lia)) as (n & c & Hn & Hc & E). exists (S n), c. cbn [length nth]. split; [lia|]. split; [exact Hc|]. unfold pos in *. cbn [firstn]. change (nsum (m :: ?x)) with (m + nsum x). lia.
Qed.
Lemma pos_lt ms n c : n < length ms -> c < nth n ms 0 -> pos ms n c < nsum ms.
Proof.
  revert n. induction ms as [|m ms IH]; intros n Hn Hc; cbn in Hn; [lia|]. unfold pos in *. change (nsum (m :: ms)) with (m + nsum ms). destruct n as [|n]; cbn [firstn nth] in *; [cbn; lia|].
  change (nsum (m :: ?x)) with (m + nsum x). specialize (IH n ltac:(lia) Hc). lia.
Qed.
Lemma concat_eq_nth (A : Type) (d : A) ms (v : list A) (ll : list (list A)) : length v = nsum ms -> map (@length A) ll = ms ->
  (forall n c, n < length ms -> c < nth n ms 0 -> nth (pos ms n c) v d = nth c (nth n ll []) d) -> v = concat ll.
Proof.
  intros L E H. subst ms. apply list_eq_nth with (d := d); [now rewrite concat_length_nsum|]. intros g Hg. rewrite L in Hg. destruct (pos_surj Hg) as (n & c & Hn & Hc & ->).
  rewrite (H n c Hn Hc). rewrite map_length in Hn. symmetry. apply concat_nth; [exact Hn|]. rewrite nth_map_lt with (d := @nil _) in Hc by exact Hn. exact Hc.
Qed.
Lemma concat_map2 (A B C : Type) (f : A -> B -> C) : forall (la : list (list A)) (lb : list (list B)), map (@length A) la = map (@length B) lb ->
  map (fun xy => f (fst xy) (snd xy)) (combine (concat la) (concat lb)) = concat (map (fun p => map (fun xy => f (fst xy) (snd xy)) (combine (fst p) (snd p))) (combine la lb)).
Proof.
  induction la as [|a la IH]; intros [|b lb] E; try discriminate; [reflexivity|]. cbn [map] in E. injection E as E1 E2. cbn [concat combine map fst snd]. rewrite <- (IH lb E2).
  assert (X : forall (x : list A) (y : list B) u w, length x = length y -> combine (x ++ u) (y ++ w) = combine x y ++ combine u w).
  { clear. induction x as [|x0 x IH]; intros [|y0 y] u w E; try discriminate; [reflexivity|]. cbn. f_equal. apply IH. now injection E. }
  rewrite X by exact E1. apply map_app.
Qed.

Section Diag.
  Variable K : Type.
  Variable o : ops K.
  Notation adata := (list (list nat * blk K)).
  Definition dcol (e : list nat * blk K) : nat := nth 0 (fst e) 0.
  Definition dg (W : adata) (n : nat) : option (blk K) := match find (fun e => dcol e =? n) W with Some e => Some (snd e) | None => None end.
  (** a sorted part of the data that starts at sector [i] *)
  Definition from (i : nat) (W : adata) : Prop := StronglySorted lt (map dcol W) /\ forall e, In e W -> fst e = [dcol e; dcol e] /\ i <= dcol e.
  Lemma zlt a b : lex_lt (map Z.of_nat [a]) (map Z.of_nat [b]) <-> a < b.
  Proof.
    split.
    - intros (_ & k & Hk & Lk & _). cbn in Hk. destruct k as [|k]; [cbn in Lk; lia|lia].
    - intros H. split; [reflexivity|]. exists 0. cbn. split; [lia|]. split; [lia|]. intros j Hj. lia.
  Qed.
  Lemma dd_from N (W : adata) : diag_data_ok N W -> from 0 W.
  Proof.
    intros OW. split.
    - pose proof (do_sorted (diag_vector OW)) as SS. clear OW. rewrite map_map in SS. unfold zrows in SS. rewrite map_map in SS. cbn [fst] in SS. induction W as [|e W IH]; [constructor|]. cbn [map] in *. apply StronglySorted_inv in SS. destruct SS as [SS FA].
      constructor; [now apply IH|]. rewrite Forall_forall in *. intros x Ix. apply in_map_iff in Ix. destruct Ix as (e' & <- & Ie). apply zlt. apply FA. apply in_map_iff. exists e'. split; [reflexivity|exact Ie].
    - intros e I. destruct (dd_rows OW I) as (n & _ & E & _). unfold dcol. rewrite E. cbn. split; [reflexivity|lia].
  Qed.
  Lemma from_tl i e (W : adata) : from i (e :: W) -> dcol e = i -> from (i + 1) W.
  Proof.
    intros [SS F] E. cbn [map] in SS. apply StronglySorted_inv in SS. destruct SS as [SS FA]. split; [exact SS|]. intros e' I. split; [apply F; now right|]. rewrite Forall_forall in FA. specialize (FA (dcol e') (in_map _ _ _ I)). lia.
  Qed.
  Lemma from_skip i (W : adata) : from i W -> (forall e W', W = e :: W' -> dcol e <> i) -> from (i + 1) W.
  Proof.
    intros [SS F] H. split; [exact SS|]. intros e I. split; [apply F, I|]. destruct W as [|x W]; [contradiction|]. specialize (H x W eq_refl). cbn [map] in SS. apply StronglySorted_inv in SS. destruct SS as [_ FA].
    destruct (F x (or_introl eq_refl)) as [_ Lx]. destruct I as [ <- |I]; [lia|]. rewrite Forall_forall in FA. specialize (FA (dcol e) (in_map _ _ _ I)). lia.
  Qed.
  Lemma dg_cons_other i e (W : adata) : dcol e <> i -> dg (e :: W) i = dg W i.
  Proof. intros H. unfold dg. cbn [find]. rewrite (proj2 (Nat.eqb_neq _ _) H). reflexivity. Qed.
  Lemma dg_cons_same i e (W : adata) : dcol e = i -> dg (e :: W) i = Some (snd e).
  Proof. intros H. unfold dg. cbn [find]. rewrite (proj2 (Nat.eqb_eq _ _) H). reflexivity. Qed.
  Lemma dg_below i (W : adata) n : from i W -> n < i -> dg W n = None.
  Proof.
    intros [_ F] H. unfold dg. destruct (find _ W) as [e|] eqn:E; [|reflexivity]. apply find_some in E. destruct E as [I E]. apply Nat.eqb_eq in E. destruct (F e I). lia.
  Qed.
  Lemma dg_In i (W : adata) n B : from i W -> (dg W n = Some B <-> In ([n; n], B) W).
  Proof.
    intros [SS F]. unfold dg. split.
    - destruct (find _ W) as [e|] eqn:E; [|discriminate]. intros [= <-]. apply find_some in E. destruct E as [I E]. apply Nat.eqb_eq in E. destruct (F e I) as [R _]. rewrite E in R. rewrite <- R. now destruct e.
    - intros I. assert (ND : NoDup (map dcol W)) by (apply StronglySorted_NoDup with (R := lt); [intros x Hx; lia|exact SS]).
      destruct (find (fun e => dcol e =? n) W) as [e|] eqn:E.
      + apply find_some in E. destruct E as [I' E]. apply Nat.eqb_eq in E. assert (X : e = ([n; n], B)); [|now rewrite X]. clear -I I' E ND. induction W as [|w W IH]; [contradiction|]. cbn [map] in ND. apply NoDup_cons_iff in ND. destruct ND as [NI ND'].
        destruct I as [ -> |I], I' as [ -> |I']; [reflexivity| | |now apply IH].
        * exfalso. apply NI. cbn. replace n with (dcol e) by exact E. now apply in_map.
        * exfalso. apply NI. rewrite E. change n with (dcol ([n; n], B)). now apply in_map.
      + exfalso. pose proof (find_none _ _ E _ I) as H. cbn in H. unfold dcol in H. cbn in H. rewrite Nat.eqb_refl in H. discriminate.
  Qed.
  Lemma dg_none i (W : adata) n : from i W -> (dg W n = None <-> ~ In [n; n] (map fst W)).
  Proof.
    intros F. destruct (dg W n) as [B|] eqn:E.
    - split; [discriminate|]. intros H. exfalso. apply H. apply (dg_In n B F) in E. change [n; n] with (fst ([n; n], B)). now apply in_map.
    - split; [|reflexivity]. intros _ I. apply in_map_iff in I. destruct I as ([r B] & E' & I). cbn in E'. subst r. apply (dg_In n B F) in I. congruence.
  Qed.
  Lemma from_NoDup i (W : adata) : from i W -> NoDup (map fst W).
  Proof.
    intros [SS F]. assert (ND : NoDup (map dcol W)) by (apply StronglySorted_NoDup with (R := lt); [intros x Hx; lia|exact SS]).
    assert (E : map dcol W = map (fun r => nth 0 r 0) (map fst W)) by (rewrite map_map; reflexivity). rewrite E in ND. now apply NoDup_map_inv in ND.
  Qed.
  Lemma dg_sval i (W : adata) n q : from i W -> sval o W [n; n] q = match dg W n with Some B => bat o B q | None => o0 o end.
  Proof.
    intros F. destruct (dg W n) as [B|] eqn:E.
    - apply (sval_in o q (from_NoDup F)). now apply (dg_In n B F).
    - apply sval_notin. now apply (dg_none n F).
  Qed.
  (** one step of a loop over the sectors *)
  Lemma step i (W : adata) : from i W -> (exists e W', W = e :: W' /\ dcol e = i /\ from (i + 1) W' /\ dg W i = Some (snd e) /\ forall n, i < n -> dg W n = dg W' n) \/
    ((forall e W', W = e :: W' -> dcol e <> i) /\ from (i + 1) W /\ dg W i = None).
  Proof.
    intros F. destruct W as [|e W].
    - right. split; [discriminate|]. split; [|reflexivity]. split; [constructor|intros e []].
    - destruct (Nat.eq_dec (dcol e) i) as [E|E].
      + left. exists e, W. split; [reflexivity|]. split; [exact E|]. split; [exact (from_tl F E)|]. split; [now apply dg_cons_same|]. intros n Hn. apply dg_cons_other. lia.
      + right. assert (F' : from (i + 1) (e :: W)) by (apply from_skip; [exact F|]; intros e' W' [= <- <-]; exact E). split; [intros e' W' [= <- <-]; exact E|]. split; [exact F'|]. apply (dg_below F'). lia.
  Qed.
  (** the segments of the vector *)
  Definition segm (ms : list nat) (W : adata) (n : nat) : list K := match dg W n with Some B => bdata B | None => repeat (o0 o) (nth n ms 0) end.
  Lemma bat_vec (B : blk K) m c : bshape B = [m] -> bat o B [c] = nth c (bdata B) (o0 o).
  Proof. intros E. unfold bat. rewrite E. f_equal. cbn. lia. Qed.
  Variable S : tsymm.
  Variable fuse : sector -> sector -> sector.
  Hypothesis G : abelian_group_laws S fuse.
  Variable L : espace.
  Hypothesis OL : es_ok S L.
  Notation ms := (es_mults L).
  Definition vec_list (W : adata) : list K := bdata (ab_diag_block S o L W).
  Lemma dense_shape (W : list (list nat * blk K)) : bshape (to_dense o S [L] W) = [es_dim S L] /\ length (bdata (to_dense o S [L] W)) = es_dim S L.
  Proof.
    unfold to_dense. assert (H : forall (W : adata) (B : blk K), bshape B = [es_dim S L] /\ length (bdata B) = es_dim S L ->
      bshape (fold_left (fun res e => let sl := row_slices S [L] (fst e) in bset_slice o res (map fst sl) (map snd sl) (snd e)) W B) = [es_dim S L] /\
      length (bdata (fold_left (fun res e => let sl := row_slices S [L] (fst e) in bset_slice o res (map fst sl) (map snd sl) (snd e)) W B)) = es_dim S L).
    { induction W0 as [|e W0 IH]; intros B HB; [exact HB|]. cbn [fold_left]. apply IH. unfold bset_slice, bmk. cbn [bshape bdata]. split; [apply HB|]. rewrite map_length, make_grid_length, (proj1 HB). cbn. lia. }
    apply H. unfold bzeros, bmk. cbn [bshape bdata map]. split; [reflexivity|]. rewrite map_length, make_grid_length. cbn. lia.
  Qed.
  Lemma dim_sum : es_dim S L = nsum ms.
  Proof. exact (p_dim_one G OL). Qed.
  Lemma vec_length W : length (vec_list W) = nsum ms.
  Proof. rewrite <- dim_sum. apply dense_shape. Qed.
  Lemma segm_length W n : diag_data_ok L W -> n < nsec L -> length (segm ms W n) = nth n ms 0.
  Proof.
    intros OW Hn. unfold segm. destruct (dg W n) as [B|] eqn:E; [|apply repeat_length]. apply (dg_In n B (dd_from OW)) in E. pose proof (dd_full OW E) as F. destruct (dd_rows OW E) as (n' & _ & E' & SH). cbn [fst snd] in *. injection E' as <-. rewrite F, SH. cbn. lia.
  Qed.
  Lemma segms_length W : diag_data_ok L W -> map (@length K) (map (segm ms W) (seq 0 (nsec L))) = ms.
  Proof.
    intros OW. apply list_eq_nth with (d := 0); [rewrite !map_length, seq_length; reflexivity|]. intros i Hi. rewrite !map_length, seq_length in Hi.
    rewrite nth_map_lt with (d := @nil _) by (now rewrite map_length, seq_length). rewrite nth_map_lt with (d := 0) by (now rewrite seq_length). rewrite seq_nth by exact Hi. now apply segm_length.
  Qed.
  Theorem vec_concat W : diag_data_ok L W -> vec_list W = concat (map (segm ms W) (seq 0 (nsec L))).
  Proof.
    intros OW. apply concat_eq_nth with (d := o0 o) (ms := ms); [apply vec_length|now apply segms_length|]. intros n c Hn Hc.
    rewrite nth_map_lt with (d := 0) by (now rewrite seq_length). rewrite seq_nth by exact Hn. cbn [plus].
    destruct (dense_shape (map (fun e => ([nth 0 (fst e) 0], snd e)) W)) as [SH _]. rewrite <- (bat_vec _ SH). unfold ab_diag_block.
    rewrite (one_entry o G OL (diag_vector OW) Hn Hc). unfold segm. pose proof (dd_from OW) as F.
    assert (E : sval o (map (fun e => ([nth 0 (fst e) 0], snd e)) W) [n] [c] = sval o W [n; n] [c]).
    { rewrite (dg_sval n [c] F). destruct (dg W n) as [B|] eqn:E.
      - apply (dg_In n B F) in E. apply (sval_in o [c] (data_ok_NoDup (diag_vector OW))). apply in_map_iff. exists ([n; n], B). split; [reflexivity|exact E].
      - apply sval_notin. intros I. rewrite map_map in I. apply in_map_iff in I. destruct I as (e & E' & I). cbn [fst] in E'. injection E' as E'. apply (dg_none n F) in E. apply E. apply in_map_iff. exists e. split; [|exact I]. rewrite (proj1 (proj2 F e I)). unfold dcol. now rewrite E'. }
    rewrite E, (dg_sval n [c] F). destruct (dg W n) as [B|] eqn:EB; [|now rewrite nth_repeat].
    apply (dg_In n B F) in EB. destruct (dd_rows OW EB) as (n' & _ & E' & SB). cbn [snd] in SB. apply (bat_vec _ SB).
  Qed.
  (** the value at a position *)
  Lemma vec_nth W n c : diag_data_ok L W -> n < nsec L -> c < nth n ms 0 -> nth (pos ms n c) (vec_list W) (o0 o) = sval o W [n; n] [c].
  Proof.
    intros OW Hn Hc. rewrite (vec_concat OW). rewrite <- (segms_length OW) at 1. rewrite concat_nth; [|now rewrite map_length, seq_length|].
    - rewrite nth_map_lt with (d := 0) by (now rewrite seq_length). rewrite seq_nth by exact Hn. cbn [plus]. rewrite (dg_sval n [c] (dd_from OW)). unfold segm. destruct (dg W n) as [B|] eqn:EB; [|now rewrite nth_repeat].
      apply (dg_In n B (dd_from OW)) in EB. destruct (dd_rows OW EB) as (n' & _ & E' & SB). cbn [snd] in SB. symmetry. apply (bat_vec _ SB).
    - rewrite nth_map_lt with (d := 0) by (now rewrite seq_length). rewrite seq_nth by exact Hn. cbn [plus]. now rewrite (segm_length OW Hn).
  Qed.
End Diag.
