(** Diagonal tensors of the abelian backend: the operations on the vectors. *)
From Coq Require Import Ring.
From Verif Require Import Util StableSort RowModel RowProofs GridModel GridProofs SymModel SymProofs CatSpec Sums SpaceModel SpaceSpec SpaceProofs SpaceProofs2 SpaceProofs3 TensorModel
  PipeModel PipeProofs PipeProofs2 BlockModel BlockProofs SparseModel SparseSpec SparseProofs FtOpsModel FtOpsSpec AbDecModel AbDecSpec AbDecProofs2 AbDecProofs3 AbDiagModel AbDiagProofs.
Set Implicit Arguments. Unset Strict Implicit.
Open Scope nat_scope.

(** ** the walk *)
Lemma nc_nil_l i j b : noncommon_walk i [] j b = map (fun k => (None, Some k)) (seq j (length b)).
Proof. reflexivity. Qed.
Lemma nc_nil_r i a j : noncommon_walk i a j [] = map (fun k => (Some k, None)) (seq i (length a)).
Proof. destruct a; reflexivity. Qed.
Lemma nc_cons i x a j y b : noncommon_walk i (x :: a) j (y :: b) =
  match cmp_lexsort x y with Lt => (Some i, None) :: noncommon_walk (S i) a j (y :: b) | Gt => (None, Some j) :: noncommon_walk i (x :: a) (S j) b | Eq => (Some i, Some j) :: noncommon_walk (S i) a (S j) b end.
Proof. reflexivity. Qed.
Lemma cmp_diag a b : cmp_lexsort [Z.of_nat a; Z.of_nat a] [Z.of_nat b; Z.of_nat b] = Nat.compare a b.
Proof.
  change [Z.of_nat a; Z.of_nat a] with (map Z.of_nat [a; a]). change [Z.of_nat b; Z.of_nat b] with (map Z.of_nat [b; b]).
  destruct (cmp_lexsort_spec (a := map Z.of_nat [a; a]) (b := map Z.of_nat [b; b]) eq_refl) as [E|E|E]; symmetry.
  - apply Nat.compare_eq_iff. cbn in E. injection E. lia.
  - apply Nat.compare_lt_iff. destruct E as (_ & k & Hk & Lk & _). cbn in Hk. destruct k as [|[|k]]; cbn in Lk; lia.
  - apply Nat.compare_gt_iff. destruct E as (_ & k & Hk & Lk & _). cbn in Hk. destruct k as [|[|k]]; cbn in Lk; lia.
Qed.

Section Data.
  Variable K : Type.
  Variable o : ops K.
  Notation adata := (list (list nat * blk K)).
  Variable ms : list nat.
  (** the block of a sector, zeros if it is not stored *)
  Definition fills (z : list nat) (W : adata) (n : nat) : blk K := match dg W n with Some B => B | None => bzeros o z end.
  Definition drows (i n : nat) : list (list nat) := map (fun k => [k; k]) (seq i n).
  Definition left_block (z : nat -> list nat) (A : adata) (ij : option nat * option nat) : blk K := match ij with (Some i, None) => bzeros o (z i) | (_, Some j) => snd (nth j A (noentry K)) | (None, None) => bnone K end.
  Definition right_block (z : nat -> list nat) (A : adata) (ij : option nat * option nat) : blk K := match ij with (None, Some j) => bzeros o (z j) | (Some i, _) => snd (nth i A (noentry K)) | (None, None) => bnone K end.
  Lemma fills_shift z i n (W W' : adata) : (forall k, i < k -> dg W k = dg W' k) -> map (fun k => fills (z k) W k) (seq (i + 1) n) = map (fun k => fills (z k) W' k) (seq (i + 1) n).
  Proof. intros H. apply map_ext_in. intros k Ik. apply in_seq in Ik. unfold fills. now rewrite H by lia. Qed.
  Lemma walk_left z (A : adata) : forall n i W pre, A = pre ++ W -> from i W -> (forall e, In e W -> dcol e < i + n) ->
    map (left_block z A) (noncommon_walk i (zrows (drows i n)) (length pre) (zrows (map fst W))) = map (fun k => fills (z k) W k) (seq i n).
  Proof.
    induction n as [|n IH]; intros i W pre EA F HB.
    - destruct W as [|e W]; [reflexivity|]. exfalso. destruct F as [_ F]. pose proof (HB e (or_introl eq_refl)). destruct (F e (or_introl eq_refl)). lia.
    - cbn [seq drows map]. fold (drows (S i) n). change (zrows ([i; i] :: drows (S i) n)) with (map Z.of_nat [i; i] :: zrows (drows (S i) n)). replace (S i) with (i + 1) by lia. destruct (step F) as [(e & W' & EW & Ed & F' & D & DS)|(ND & F' & D)].
      + subst W. cbn [map]. change (zrows (fst e :: map fst W')) with (map Z.of_nat (fst e) :: zrows (map fst W')). rewrite (proj1 (proj2 F e (or_introl eq_refl))), Ed, nc_cons; cbn [map]; rewrite cmp_diag, Nat.compare_refl. cbn [map]. f_equal.
        * cbn [left_block]. unfold fills. rewrite D, EA, app_nth2, Nat.sub_diag by lia. reflexivity.
        * rewrite (fills_shift z n (W' := W')) by exact DS. replace (S i) with (i + 1) by lia. replace (S (length pre)) with (length (pre ++ [e])) by (rewrite app_length; cbn; lia).
          apply IH; [rewrite <- app_assoc; exact EA|exact F'|]. intros e' I. specialize (HB e' (or_intror I)). lia.
      + replace (fills (z i) W i) with (bzeros o (z i)) by (unfold fills; now rewrite D).
        assert (REC : map (left_block z A) (noncommon_walk (i + 1) (zrows (drows (i + 1) n)) (length pre) (zrows (map fst W))) = map (fun k => fills (z k) W k) (seq (i + 1) n)) by (apply IH; [exact EA|exact F'|intros e' I; specialize (HB e' I); lia]).
        rewrite <- REC. destruct W as [|e W'].
        * cbn [map]. change (zrows []) with (@nil row). rewrite !nc_nil_r. cbn [length seq map left_block]. now replace (S i) with (i + 1) by lia.
        * assert (NE := ND e W' eq_refl). destruct (proj2 F e (or_introl eq_refl)) as [R GE]. cbn [map]. change (zrows (fst e :: map fst W')) with (map Z.of_nat (fst e) :: zrows (map fst W')). rewrite R, nc_cons; cbn [map]; rewrite cmp_diag.
          replace (i ?= dcol e) with Lt by (symmetry; apply Nat.compare_lt_iff; lia). cbn [map]. now replace (S i) with (i + 1) by lia.
  Qed.
  Lemma walk_right z (A : adata) : forall n i W pre, A = pre ++ W -> from i W -> (forall e, In e W -> dcol e < i + n) ->
    map (right_block z A) (noncommon_walk (length pre) (zrows (map fst W)) i (zrows (drows i n))) = map (fun k => fills (z k) W k) (seq i n).
  Proof.
    induction n as [|n IH]; intros i W pre EA F HB.
    - destruct W as [|e W]; [reflexivity|]. exfalso. destruct F as [_ F]. pose proof (HB e (or_introl eq_refl)). destruct (F e (or_introl eq_refl)). lia.
    - cbn [seq drows map]. fold (drows (S i) n). change (zrows ([i; i] :: drows (S i) n)) with (map Z.of_nat [i; i] :: zrows (drows (S i) n)). replace (S i) with (i + 1) by lia. destruct (step F) as [(e & W' & EW & Ed & F' & D & DS)|(ND & F' & D)].
      + subst W. cbn [map]. change (zrows (fst e :: map fst W')) with (map Z.of_nat (fst e) :: zrows (map fst W')). rewrite (proj1 (proj2 F e (or_introl eq_refl))), Ed, nc_cons; cbn [map]; rewrite cmp_diag, Nat.compare_refl. cbn [map]. f_equal.
        * cbn [right_block]. unfold fills. rewrite D, EA, app_nth2, Nat.sub_diag by lia. reflexivity.
        * rewrite (fills_shift z n (W' := W')) by exact DS. replace (S i) with (i + 1) by lia. replace (S (length pre)) with (length (pre ++ [e])) by (rewrite app_length; cbn; lia).
          apply IH; [rewrite <- app_assoc; exact EA|exact F'|]. intros e' I. specialize (HB e' (or_intror I)). lia.
      + replace (fills (z i) W i) with (bzeros o (z i)) by (unfold fills; now rewrite D).
        assert (REC : map (right_block z A) (noncommon_walk (length pre) (zrows (map fst W)) (i + 1) (zrows (drows (i + 1) n))) = map (fun k => fills (z k) W k) (seq (i + 1) n)) by (apply IH; [exact EA|exact F'|intros e' I; specialize (HB e' I); lia]).
        rewrite <- REC. destruct W as [|e W'].
        * cbn [map]. change (zrows []) with (@nil row). rewrite !nc_nil_l. cbn [length seq map right_block]. now replace (S i) with (i + 1) by lia.
        * assert (NE := ND e W' eq_refl). destruct (proj2 F e (or_introl eq_refl)) as [R GE]. cbn [map]. change (zrows (fst e :: map fst W')) with (map Z.of_nat (fst e) :: zrows (map fst W')). rewrite R, nc_cons; cbn [map]; rewrite cmp_diag.
          replace (dcol e ?= i) with Gt by (symmetry; apply Nat.compare_gt_iff; lia). cbn [map]. now replace (S i) with (i + 1) by lia.
  Qed.

  (** ** data with all sectors *)
  Definition all_data (N : nat) (F : nat -> blk K) : adata := map (fun n => ([n; n], F n)) (seq 0 N).
  Lemma zip_all N (F : nat -> blk K) : zip_data (arange_diag N) (map F (seq 0 N)) = all_data N F.
  Proof. unfold zip_data, arange_diag, all_data. induction (seq 0 N) as [|x l IH]; [reflexivity|]. cbn. now rewrite IH. Qed.
  Lemma sorted_diag (W : adata) : StronglySorted lt (map (@dcol K) W) -> (forall e, In e W -> fst e = [dcol e; dcol e]) -> strictly_sorted (zrows (map fst W)).
  Proof.
    unfold strictly_sorted, zrows. induction W as [|e W IH]; intros SS R; [constructor|]. cbn [map] in *. apply StronglySorted_inv in SS. destruct SS as [SS FA]. constructor; [apply IH; [exact SS|]; intros e' I; apply R; now right|].
    rewrite Forall_forall in *. intros z Iz. rewrite map_map in Iz. apply in_map_iff in Iz. destruct Iz as (e' & <- & I). specialize (FA _ (in_map _ _ _ I)). rewrite (R e (or_introl eq_refl)), (R e' (or_intror I)).
    split; [reflexivity|]. exists 1. cbn [map length nth]. split; [lia|]. split; [lia|]. intros k' Hk. lia.
  Qed.
  Lemma dg_all N F n : n < N -> dg (all_data N F) n = Some (F n).
  Proof.
    intros Hn. unfold all_data, dg. rewrite <- (app_nil_r (map _ _)). replace (seq 0 N) with (seq 0 n ++ n :: seq (S n) (N - n - 1)) by (change (n :: seq (S n) (N - n - 1)) with (seq n (S (N - n - 1))); rewrite <- seq_app; f_equal; lia).
    rewrite map_app, <- app_assoc. cbn [map app]. assert (X : forall l r, (forall x, In x l -> x <> n) -> find (fun e => dcol e =? n) (map (fun n => ([n; n], F n)) l ++ r) = find (fun e : list nat * blk K => dcol e =? n) r).
    { induction l as [|x l IH]; intros r H; [reflexivity|]. cbn [map app find]. change (dcol ([x; x], F x)) with x. rewrite (proj2 (Nat.eqb_neq x n)) by (apply H; now left). apply IH. intros y Iy. apply H. now right. }
    rewrite X by (intros x Ix; apply in_seq in Ix; lia). cbn [find]. change (dcol ([n; n], F n)) with n. now rewrite Nat.eqb_refl.
  Qed.
End Data.

Section Diag.
  Variable K : Type.
  Variable o : ops K.
  Notation adata := (list (list nat * blk K)).
  Variable S : tsymm.
  Variable fuse : sector -> sector -> sector.
  Hypothesis G : abelian_group_laws S fuse.
  Variable L : espace.
  Hypothesis OL : es_ok S L.
  Notation ms := (es_mults L).
  Notation vecl := (vec_list o S L).
  Lemma all_ok (F : nat -> blk K) : (forall n, n < nsec L -> bshape (F n) = [nth n ms 0] /\ length (bdata (F n)) = nth n ms 0) -> diag_data_ok L (all_data (nsec L) F).
  Proof.
    intros H. constructor.
    - apply sorted_diag.
      + unfold all_data. rewrite map_map. cbn [fst nth]. rewrite map_ext with (g := fun n => n) by reflexivity. rewrite map_id. apply seq_sorted.
      + intros e I. apply in_map_iff in I. destruct I as (n & <- & _). reflexivity.
    - intros e I. apply in_map_iff in I. destruct I as (n & <- & Hn). apply in_seq in Hn. exists n. cbn [fst snd]. split; [lia|]. split; [reflexivity|]. apply H. lia.
    - intros e I. apply in_map_iff in I. destruct I as (n & <- & Hn). apply in_seq in Hn. cbn [fst snd]. destruct (H n ltac:(lia)) as [H1 H2]. rewrite H1, H2. cbn. lia.
  Qed.
  Lemma all_vec (F : nat -> blk K) : (forall n, n < nsec L -> bshape (F n) = [nth n ms 0] /\ length (bdata (F n)) = nth n ms 0) -> vecl (all_data (nsec L) F) = concat (map (fun n => bdata (F n)) (seq 0 (nsec L))).
  Proof.
    intros H. rewrite (vec_concat o G OL (all_ok H)). f_equal. apply map_ext_in. intros n In_. apply in_seq in In_. unfold segm. now rewrite dg_all by lia.
  Qed.
  Lemma zeros_vec m : bdata (bzeros o [m]) = repeat (o0 o) m.
  Proof.
    unfold bzeros, bmk. cbn [bdata]. assert (E : length (make_grid [m] true) = m) by (rewrite make_grid_length; cbn; lia). rewrite <- E at 2. generalize (make_grid [m] true). induction l as [|x l IH]; [reflexivity|]. cbn. now rewrite IH.
  Qed.
  Lemma fills_segm W n : bdata (fills o [nth n ms 0] W n) = segm o ms W n.
  Proof. unfold fills, segm. destruct (dg W n); [reflexivity|apply zeros_vec]. Qed.
  Lemma fills_ok W n : diag_data_ok L W -> n < nsec L -> bshape (fills o [nth n ms 0] W n) = [nth n ms 0] /\ length (bdata (fills o [nth n ms 0] W n)) = nth n ms 0.
  Proof.
    intros OW Hn. rewrite fills_segm, (segm_length o OW Hn). split; [|reflexivity]. unfold fills. destruct (dg W n) as [B|] eqn:E; [|reflexivity].
    apply (dg_In n B (dd_from OW)) in E. destruct (dd_rows OW E) as (n' & _ & E' & SB). cbn in E', SB. injection E' as <-. exact SB.
  Qed.
  Lemma dd_bound (W : adata) : diag_data_ok L W -> forall e, In e W -> dcol e < nsec L.
  Proof. intros OW e I. destruct (dd_rows OW I) as (n & Hn & E & _). unfold dcol. rewrite E. exact Hn. Qed.

  (** ** unary *)
  Lemma dg_map (g : blk K -> blk K) (W : adata) n : dg (map (fun e => (fst e, g (snd e))) W) n = option_map g (dg W n).
  Proof.
    unfold dg. induction W as [|e W IH]; [reflexivity|]. cbn [map find]. change (dcol (fst e, g (snd e))) with (dcol e). destruct (dcol e =? n); [reflexivity|exact IH].
  Qed.
  Lemma map_ok (g : blk K -> blk K) (W : adata) : diag_data_ok L W -> (forall B, In B (map snd W) -> bshape (g B) = bshape B /\ length (bdata (g B)) = length (bdata B)) -> diag_data_ok L (map (fun e => (fst e, g (snd e))) W).
  Proof.
    intros OW H. constructor.
    - rewrite map_map. cbn [fst]. apply (dd_sorted OW).
    - intros e I. apply in_map_iff in I. destruct I as (e0 & <- & I). cbn [fst snd]. rewrite (proj1 (H _ (in_map snd _ _ I))). exact (dd_rows OW I).
    - intros e I. apply in_map_iff in I. destruct I as (e0 & <- & I). cbn [fst snd]. destruct (H _ (in_map snd _ _ I)) as [-> ->]. exact (dd_full OW I).
  Qed.
  Theorem unary_ok (f : K -> K) mz (A : adata) : diag_data_ok L A -> (mz = true -> f (o0 o) = o0 o) -> diag_data_ok L (ab_unary o f mz L A) /\ vecl (ab_unary o f mz L A) = map f (vecl A).
  Proof.
    intros OA HZ. unfold ab_unary. destruct mz.
    - assert (OB : diag_data_ok L (map (fun e => (fst e, bunary f (snd e))) A)) by (apply (map_ok (g := bunary f) OA); intros B _; cbn; split; [reflexivity|apply map_length]).
      split; [exact OB|]. rewrite (vec_concat o G OL OB), (vec_concat o G OL OA), concat_map, map_map. f_equal. apply map_ext. intros n. unfold segm. rewrite dg_map. destruct (dg A n) as [B|]; cbn [option_map bunary bdata]; [reflexivity|].
      specialize (HZ eq_refl). induction (nth n ms 0) as [|m IH]; [reflexivity|]. cbn. now rewrite HZ, <- IH.
    - cbv zeta. assert (E : map (fun ij => bunary f match ij with (Some i, None) => bzeros o [nth i ms 0] | (_, Some j) => snd (nth j A (noentry K)) | (None, None) => bnone K end)
          (noncommon_walk 0 (zrows (arange_diag (nsec L))) 0 (zrows (map fst A))) = map (fun n => bunary f (fills o [nth n ms 0] A n)) (seq 0 (nsec L))).
      { rewrite <- map_map with (g := bunary f) (f := left_block o (fun i => [nth i ms 0]) A). rewrite <- (map_map (fun n => fills o [nth n ms 0] A n) (bunary f)). f_equal.
        apply (@walk_left K o (fun i => [nth i ms 0]) A (nsec L) 0 A []); [reflexivity|apply (dd_from OA)|apply (dd_bound OA)]. }
      rewrite E, zip_all. assert (FO : forall n, n < nsec L -> bshape (bunary f (fills o [nth n ms 0] A n)) = [nth n ms 0] /\ length (bdata (bunary f (fills o [nth n ms 0] A n))) = nth n ms 0).
      { intros n Hn. cbn [bunary bshape bdata]. rewrite map_length. now apply fills_ok. }
      split; [now apply all_ok|]. rewrite (all_vec FO), (vec_concat o G OL OA), concat_map, map_map. f_equal. apply map_ext. intros n. cbn [bunary bdata]. now rewrite fills_segm.
  Qed.

  (** ** binary *)
  Definition first_is (i : nat) (D : adata) : bool := match D with e :: _ => nth 0 (fst e) 0 =? i | [] => false end.
  Lemma first_true i (D : adata) e D' : D = e :: D' -> dcol e = i -> first_is i D = true.
  Proof. intros -> E. cbn. now apply Nat.eqb_eq. Qed.
  Lemma first_false i (D : adata) : (forall e D', D = e :: D' -> dcol e <> i) -> first_is i D = false.
  Proof. intros H. destruct D as [|e D]; [reflexivity|]. cbn. apply Nat.eqb_neq. exact (H e D eq_refl). Qed.
  Lemma skipn_cons i : i < length ms -> skipn i ms = nth i ms 0 :: skipn (i + 1) ms.
  Proof. generalize ms. intros l. revert i. induction l as [|x l IH]; intros [|i] H; cbn in *; try lia; [reflexivity|]. apply IH. lia. Qed.
  Lemma binary_false f : forall n i (A B : adata), i + n = length ms -> from i A -> from i B ->
    binary_loop o f false (skipn i ms) i A B = map (fun k => (k, bbinary f (fills o [nth k ms 0] A k) (fills o [nth k ms 0] B k))) (seq i n).
  Proof.
    induction n as [|n IH]; intros i A B Hi FA FB.
    - rewrite skipn_all2 by lia. reflexivity.
    - rewrite skipn_cons by lia. cbn [binary_loop seq map]. fold (first_is i A) (first_is i B). rewrite !andb_false_r. cbv beta iota zeta. replace (Datatypes.S i) with (i + 1) by lia.
      assert (XA : exists A', (if first_is i A then tl A else A) = A' /\ from (i + 1) A' /\ (if first_is i A then match A with e :: _ => snd e | [] => bnone K end else bzeros o [nth i ms 0]) = fills o [nth i ms 0] A i /\ forall k, i < k -> dg A k = dg A' k).
      { destruct (step FA) as [(e & A' & -> & Ed & F' & D & DS)|(NE & F' & D)].
        - exists A'. rewrite (first_true eq_refl Ed). unfold fills. rewrite D. auto.
        - exists A. rewrite (first_false NE). unfold fills. rewrite D. auto. }
      assert (XB : exists B', (if first_is i B then tl B else B) = B' /\ from (i + 1) B' /\ (if first_is i B then match B with e :: _ => snd e | [] => bnone K end else bzeros o [nth i ms 0]) = fills o [nth i ms 0] B i /\ forall k, i < k -> dg B k = dg B' k).
      { destruct (step FB) as [(e & B' & -> & Ed & F' & D & DS)|(NE & F' & D)].
        - exists B'. rewrite (first_true eq_refl Ed). unfold fills. rewrite D. auto.
        - exists B. rewrite (first_false NE). unfold fills. rewrite D. auto. }
      destruct XA as (A' & -> & FA' & -> & DA). destruct XB as (B' & -> & FB' & -> & DB). f_equal. rewrite (IH (i + 1) A' B') by (auto; lia). apply map_ext_in. intros k Ik. apply in_seq in Ik. unfold fills. now rewrite DA, DB by lia.
  Qed.
  Lemma bbinary_ok (f : K -> K -> K) X Y m : bshape X = [m] -> length (bdata X) = m -> length (bdata Y) = m -> bshape (bbinary f X Y) = [m] /\ length (bdata (bbinary f X Y)) = m.
  Proof. intros E LX LY. cbn [bbinary bshape bdata]. split; [exact E|]. rewrite map_length, combine_length. lia. Qed.
  Lemma combine_map2 (X : Type) (f g : nat -> X) l : combine (map f l) (map g l) = map (fun k => (f k, g k)) l.
  Proof. induction l as [|x l IH]; [reflexivity|]. cbn. now rewrite IH. Qed.
  Theorem binary_ok (f : K -> K -> K) (A B : adata) : diag_data_ok L A -> diag_data_ok L B ->
    diag_data_ok L (ab_binary o f false L A B) /\ vecl (ab_binary o f false L A B) = map (fun xy => f (fst xy) (snd xy)) (combine (vecl A) (vecl B)).
  Proof.
    intros OA OB. assert (E : ab_binary o f false L A B = all_data (nsec L) (fun k => bbinary f (fills o [nth k ms 0] A k) (fills o [nth k ms 0] B k))).
    { unfold ab_binary. pose proof (@binary_false f (nsec L) 0 A B eq_refl (dd_from OA) (dd_from OB)) as E. cbn [skipn] in E. rewrite E, map_map. reflexivity. }
    rewrite E.
    assert (FO : forall n, n < nsec L -> bshape (bbinary f (fills o [nth n ms 0] A n) (fills o [nth n ms 0] B n)) = [nth n ms 0] /\ length (bdata (bbinary f (fills o [nth n ms 0] A n) (fills o [nth n ms 0] B n))) = nth n ms 0).
    { intros n Hn. destruct (fills_ok OA Hn) as [SA LA]. destruct (fills_ok OB Hn) as [SB LB]. now apply bbinary_ok. }
    split; [now apply all_ok|]. rewrite (all_vec FO), (vec_concat o G OL OA), (vec_concat o G OL OB).
    rewrite concat_map2 by (now rewrite !segms_length). f_equal. rewrite combine_map2, map_map. cbn [fst snd]. apply map_ext. intros k. cbn [bbinary bdata]. now rewrite !fills_segm.
  Qed.
  (** with partial_zero_is_zero, if every stored sector of the second tensor is stored in the first *)
  Lemma binary_true f : forall n i (A B : adata), i + n = length ms -> from i A -> from i B -> (forall k, dg A k = None -> dg B k = None) ->
    binary_loop o f true (skipn i ms) i A B = flat_map (fun k => match dg B k with Some Y => [(k, bbinary f (fills o [nth k ms 0] A k) Y)] | None => [] end) (seq i n).
  Proof.
    induction n as [|n IH]; intros i A B Hi FA FB SUB.
    - rewrite skipn_all2 by lia. reflexivity.
    - rewrite skipn_cons by lia. cbn [binary_loop seq flat_map]. fold (first_is i A) (first_is i B). rewrite !andb_true_r. cbv beta iota zeta. replace (Datatypes.S i) with (i + 1) by lia.
      destruct (step FA) as [(e & A' & EA & Ed & FA' & DA & DSA)|(NEA & FA' & DA)].
      + rewrite (first_true EA Ed). cbn [negb]. rewrite EA. cbn [tl]. rewrite <- EA.
        assert (SA' : forall k, i < k -> dg A' k = None -> dg B k = None) by (intros k Hk H; apply SUB; now rewrite DSA).
        destruct (step FB) as [(e' & B' & EB & Ed' & FB' & DB & DSB)|(NEB & FB' & DB)].
        * rewrite (first_true EB Ed'). cbn [negb]. rewrite EB. cbn [tl]. rewrite <- EB. rewrite DB. cbn [app]. f_equal.
          -- unfold fills. rewrite DA. reflexivity.
          -- rewrite (IH (i + 1) A' B') by (auto; try lia; intros k H; (destruct (Nat.lt_ge_cases i k) as [Hk|Hk]; [rewrite <- DSB by exact Hk; now apply SA'|apply (dg_below FB'); lia])).
             rewrite !flat_map_concat_map. f_equal. apply map_ext_in. intros k Ik. apply in_seq in Ik. unfold fills. now rewrite DSA, DSB by lia.
        * rewrite (first_false NEB). cbn [negb]. rewrite DB. cbn [app].
          rewrite (IH (i + 1) A' B) by (auto; try lia; intros k H; (destruct (Nat.lt_ge_cases i k) as [Hk|Hk]; [now apply SA'|apply (dg_below FB'); lia])).
          rewrite !flat_map_concat_map. f_equal. apply map_ext_in. intros k Ik. apply in_seq in Ik. unfold fills. now rewrite DSA by lia.
      + rewrite (first_false NEA). cbn [negb]. rewrite (SUB i DA). cbn [app]. destruct (step FB) as [(e' & B' & EB & Ed' & FB' & DB & DSB)|(NEB & FB' & DB)]; [rewrite (SUB i DA) in DB; discriminate|]. apply IH; auto; lia.
  Qed.
  (** data with some sectors *)
  Definition some_data (N : nat) (F : nat -> option (blk K)) : adata := flat_map (fun n => match F n with Some B => [([n; n], B)] | None => [] end) (seq 0 N).
  Lemma some_dg N F n : dg (some_data N F) n = if n <? N then F n else None.
  Proof.
    unfold some_data, dg. assert (X : forall l, NoDup l -> (match find (fun e => dcol e =? n) (flat_map (fun n => match F n with Some B => [([n; n], B)] | None => [] end) l) with Some e => Some (snd e) | None => None end) = if in_dec Nat.eq_dec n l then F n else None).
    { induction l as [|x l IH]; intros ND; [reflexivity|]. apply NoDup_cons_iff in ND. destruct ND as [NI ND]. specialize (IH ND). cbn [flat_map]. destruct (F x) as [B|] eqn:E.
      - cbn [app find]. cbn [dcol fst nth]. destruct (Nat.eqb_spec x n) as [ -> |NE].
        + cbn [snd]. destruct (in_dec Nat.eq_dec n (n :: l)) as [_|C]; [now rewrite E|exfalso; apply C; now left].
        + rewrite IH. destruct (in_dec Nat.eq_dec n l) as [Y|Y], (in_dec Nat.eq_dec n (x :: l)) as [Z|Z]; try reflexivity; exfalso; [apply Z; now right|destruct Z; contradiction].
      - cbn [app]. rewrite IH. destruct (in_dec Nat.eq_dec n l) as [Y|Y], (in_dec Nat.eq_dec n (x :: l)) as [Z|Z]; try reflexivity; [exfalso; apply Z; now right|destruct Z as [ -> |Z]; [now rewrite E|contradiction]]. }
    rewrite X by apply seq_NoDup. destruct (Nat.ltb_spec n N) as [H|H]; destruct (in_dec Nat.eq_dec n (seq 0 N)) as [Y|Y]; try reflexivity; rewrite in_seq in Y; lia.
  Qed.
  Lemma some_In N F e : In e (some_data N F) <-> exists n B, n < N /\ F n = Some B /\ e = ([n; n], B).
  Proof.
    unfold some_data. rewrite in_flat_map. split.
    - intros (n & I & J). apply in_seq in I. destruct (F n) as [B|] eqn:E; [|destruct J]. destruct J as [ <- |[]]. exists n, B. repeat split; auto; lia.
    - intros (n & B & Hn & E & ->). exists n. rewrite in_seq, E. split; [lia|now left].
  Qed.
  Lemma some_ok F : (forall n B, n < nsec L -> F n = Some B -> bshape B = [nth n ms 0] /\ length (bdata B) = nth n ms 0) -> diag_data_ok L (some_data (nsec L) F).
  Proof.
    intros H. constructor.
    - apply sorted_diag.
      + unfold some_data. pose proof (seq_sorted 0 (nsec L)) as SS. induction (seq 0 (nsec L)) as [|x l IH]; [constructor|]. apply StronglySorted_inv in SS. destruct SS as [SS FA]. cbn [flat_map]. rewrite map_app. destruct (F x); cbn [map app]; [|now apply IH].
        constructor; [now apply IH|]. rewrite Forall_forall in *. intros y Iy. apply in_map_iff in Iy. destruct Iy as (e & <- & I). apply in_flat_map in I. destruct I as (z & Iz & J). destruct (F z); [|destruct J]. destruct J as [ <- |[]]. exact (FA z Iz).
      + intros e I. apply some_In in I. destruct I as (n & B & _ & _ & ->). reflexivity.
    - intros e I. apply some_In in I. destruct I as (n & B & Hn & E & ->). exists n. cbn [fst snd]. split; [exact Hn|]. split; [reflexivity|]. now apply (H n B Hn E).
    - intros e I. apply some_In in I. destruct I as (n & B & Hn & E & ->). cbn [fst snd]. destruct (H n B Hn E) as [-> ->]. cbn. lia.
  Qed.
  Theorem binary_true_ok (f : K -> K -> K) (A B : adata) : diag_data_ok L A -> diag_data_ok L B -> (forall e, In e B -> In (fst e) (map fst A)) -> (forall x, f x (o0 o) = o0 o) ->
    diag_data_ok L (ab_binary o f true L A B) /\ vecl (ab_binary o f true L A B) = map (fun xy => f (fst xy) (snd xy)) (combine (vecl A) (vecl B)).
  Proof.
    intros OA OB SUB F0. assert (SUB' : forall k, dg A k = None -> dg B k = None).
    { intros k H. apply (dg_none k (dd_from OA)) in H. apply (dg_none k (dd_from OB)). intros I. apply H. apply in_map_iff in I. destruct I as (e & <- & I). now apply SUB. }
    pose (F k := match dg B k with Some Y => Some (bbinary f (fills o [nth k ms 0] A k) Y) | None => None end).
    assert (E : ab_binary o f true L A B = some_data (nsec L) F).
    { unfold ab_binary. pose proof (@binary_true f (nsec L) 0 A B eq_refl (dd_from OA) (dd_from OB) SUB') as E. cbn [skipn] in E. rewrite E. unfold some_data. rewrite !flat_map_concat_map, concat_map, map_map. f_equal. apply map_ext. intros k. unfold F. destruct (dg B k); reflexivity. }
    rewrite E. assert (HB : forall n Y, n < nsec L -> dg B n = Some Y -> Y = fills o [nth n ms 0] B n) by (intros n Y _ H; unfold fills; now rewrite H).
    assert (OF : forall n X, n < nsec L -> F n = Some X -> bshape X = [nth n ms 0] /\ length (bdata X) = nth n ms 0).
    { intros n X Hn. unfold F. destruct (dg B n) as [Y|] eqn:EB; [|discriminate]. intros [= <-]. rewrite (HB n Y Hn EB). apply bbinary_ok; now apply fills_ok. }
    split; [now apply some_ok|]. rewrite (vec_concat o G OL (some_ok OF)), (vec_concat o G OL OA), (vec_concat o G OL OB), concat_map2 by (now rewrite !segms_length). f_equal. rewrite combine_map2, map_map. cbn [fst snd].
    apply map_ext_in. intros k Ik. apply in_seq in Ik. unfold segm at 1. rewrite some_dg, (proj2 (Nat.ltb_lt k (nsec L))) by lia. unfold F. destruct (dg B k) as [Y|] eqn:EB.
    - cbn [bbinary bdata]. rewrite fills_segm. unfold segm at 3. now rewrite EB.
    - unfold segm at 2. rewrite EB. pose proof (segm_length o OA (n := k) ltac:(lia)) as LA. revert LA. generalize (segm o ms A k) (nth k ms 0). induction l as [|x l IH]; intros [|m] LL; try discriminate; [reflexivity|]. cbn. rewrite F0. f_equal. apply IH. now injection LL.
  Qed.
End Diag.
