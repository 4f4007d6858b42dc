(** Looking up the block of a coupled sector; zero_data. *)
From Verif Require Import Util StableSort RowModel RowProofs GridModel GridProofs SymModel SymProofs CatSpec Sums SpaceModel SpaceSpec SpaceProofs SpaceProofs2 SpaceProofs3 SpaceProofs7
  PipeModel PipeProofs PipeProofs2 PipeProofs4 TreeModel TreeProofs TensorModel TensorSpec FormalSum TensorProofs TensorProofs2 TensorProofs3 TensorProofs4 TensorProofs5 BlockModel BlockProofs SparseModel SparseSpec SparseProofs
  SparseProofs6 SparseCharge ConvertModel ConvertSpec ConvertProofs ConvertProofs2.
Set Implicit Arguments. Unset Strict Implicit.
Open Scope nat_scope.

Lemma search_spec col v : StronglySorted lt col -> forall fuel lo hi, hi <= length col -> lo <= hi -> hi - lo <= fuel ->
  (forall i, i < lo -> nth i col 0 < v) -> (forall i, hi <= i < length col -> v <= nth i col 0) ->
  let r := search fuel col v lo hi in r <= length col /\ (forall i, i < r -> nth i col 0 < v) /\ (forall i, r <= i < length col -> v <= nth i col 0).
Proof.
  intros ST. assert (ST' := proj1 (StronglySorted_nth lt 0 col) ST). induction fuel as [|fuel IH]; intros lo hi Hh Hl Hf A B; cbn [search].
  - assert (lo = hi) by lia. subst. split; [lia|]. split; assumption.
  - destruct (Nat.ltb_spec lo hi) as [L|L]; [|assert (lo = hi) by lia; subst; split; [lia|split; assumption]].
    assert (HM : (hi - lo) / 2 < hi - lo) by (apply Nat.div_lt; lia). set (mid := lo + (hi - lo) / 2) in *. assert (M : lo <= mid < hi) by (unfold mid; lia).
    destruct (Nat.ltb_spec (nth mid col 0) v) as [X|X].
    + apply IH; try lia; [|exact B]. intros i Hi. destruct (Nat.eq_dec i mid) as [-> |N]; [exact X|]. assert (nth i col 0 < nth mid col 0) by (apply ST'; lia). lia.
    + apply IH; try lia; [exact A|]. intros i Hi. destruct (Nat.eq_dec i mid) as [-> |N]; [exact X|]. assert (nth mid col 0 < nth i col 0) by (apply ST'; lia). lia.
Qed.
Lemma lookup_spec rows j : StronglySorted lt (map snd rows) ->
  (exists k, block_ind_from_domain_sector_ind rows j = Some (Some k) /\ k < length rows /\ nth k (map snd rows) 0 = j) \/
  (block_ind_from_domain_sector_ind rows j = Some None /\ ~ In j (map snd rows)).
Proof.
  intros ST. unfold block_ind_from_domain_sector_ind. cbv zeta. set (col := map snd rows) in *. assert (LC : length col = length rows) by apply map_length.
  destruct (search_spec (v := j) ST (fuel := length col) (lo := 0) (hi := length col)) as [A [B D]]; try lia. fold (searchsorted_column col j) in *. set (ind := searchsorted_column col j) in *.
  assert (ST' := proj1 (StronglySorted_nth lt 0 col) ST).
  destruct (Nat.leb_spec (length rows) ind) as [L|L]; cbn [orb].
  - right. split; [reflexivity|]. intros I. apply In_nth with (d := 0) in I. destruct I as [i [Hi E]]. specialize (B i ltac:(lia)). lia.
  - destruct (Nat.eqb_spec (nth ind col 0) j) as [E|E]; cbn [negb].
    + left. exists ind. destruct (Nat.ltb_spec (ind + 1) (length rows)) as [X|X]; cbn [andb]; [|split; [reflexivity|split; [exact L|exact E]]].
      assert (nth ind col 0 < nth (ind + 1) col 0) by (apply ST'; lia). destruct (Nat.eqb_spec (nth (ind + 1) col 0) j); [lia|]. split; [reflexivity|split; [exact L|exact E]].
    + right. split; [reflexivity|]. intros I. apply In_nth with (d := 0) in I. destruct I as [i [Hi E']]. destruct (Nat.lt_ge_cases i ind) as [Y|Y]; [specialize (B i Y); lia|].
      assert (D1 := D ind ltac:(lia)). destruct (Nat.eq_dec i ind) as [-> |N]; [lia|]. assert (nth ind col 0 < nth i col 0) by (apply ST'; lia). lia.
Qed.

Section Look.
  Variable S : tsymm.
  Hypothesis OK : tsymm_ok S.
  Variable K : Type.
  Variable o : ops K.
  Notation fdata := (list (nat * nat * blk K)).
  Definition noblk : blk K := Blk [] [].
  Definition norow : nat * nat * blk K := ((0, 0), noblk).
  Variables P Q : tprod.
  Hypothesis HP : tp_ok S P.
  Hypothesis HQ : tp_ok S Q.
  Lemma secs_NoDup R : tp_ok S R -> NoDup (tp_secs R).
  Proof. intros H. destruct (tp_ok_spec OK H) as [O _]. apply (sk_nodup O). Qed.
  (** the coupled sector of block [k] *)
  Definition fsec (F : fdata) (k : nat) : sector := nth (snd (fst (nth k F norow))) (tp_secs Q) [].
  Lemma coupled_spec F c : ft_ok P Q F ->
    (exists k, block_ind_from_coupled (map fst F) c Q = Some (Some k) /\ k < length F /\ fsec F k = c) \/
    (block_ind_from_coupled (map fst F) c Q = Some None /\ forall k, k < length F -> fsec F k <> c).
  Proof.
    intros FO. unfold block_ind_from_coupled. assert (R := row_where_spec (tp_secs Q) c). destruct (row_where (tp_secs Q) c) as [j|].
    - destruct R as [Hj [Ej _]]. assert (ST : StronglySorted lt (map snd (map fst F))) by (rewrite map_map; apply (fo_sorted FO)).
      assert (ES : forall k, k < length F -> nth k (map snd (map fst F)) 0 = snd (fst (nth k F norow))) by (intros k Hk; rewrite map_map; now rewrite nth_map_lt with (d := norow)).
      destruct (lookup_spec j ST) as [[k [E [Hk Ek]]]|[E NI]].
      + left. exists k. rewrite map_length in Hk. split; [exact E|]. split; [exact Hk|]. unfold fsec. rewrite <- ES by exact Hk. now rewrite Ek.
      + right. split; [exact E|]. intros k Hk X. apply NI. rewrite <- Ej in X. unfold fsec in X.
        apply (proj1 (NoDup_nth _ []) (secs_NoDup HQ)) in X; [|apply (fo_range FO); now apply nth_In|exact Hj]. rewrite <- X, <- ES by exact Hk. apply nth_In. now rewrite !map_length.
    - right. split; [reflexivity|]. intros k Hk X. apply R. rewrite <- X. apply nth_In. apply (fo_range FO). now apply nth_In.
  Qed.
  Lemma fsec_inj F k k' : ft_ok P Q F -> k < length F -> k' < length F -> fsec F k = fsec F k' -> k = k'.
  Proof.
    intros FO Hk Hk' E. unfold fsec in E. apply (proj1 (NoDup_nth _ []) (secs_NoDup HQ)) in E; [|apply (fo_range FO); now apply nth_In|apply (fo_range FO); now apply nth_In].
    assert (ND : NoDup (map (fun e => snd (fst e)) F)) by (apply StronglySorted_NoDup with (R := lt); [intros x; lia|apply (fo_sorted FO)]).
    apply (proj1 (NoDup_nth _ 0) ND); rewrite ?map_length; auto. rewrite !nth_map_lt with (d := norow) by assumption. exact E.
  Qed.
  Lemma block_size_nth R i : tp_ok S R -> i < length (tp_secs R) -> nth i (tp_mults R) 0 = block_size R (nth i (tp_secs R) []).
  Proof.
    intros H Hi. unfold block_size, sector_multiplicity. cbn [tp_space sp_secs sp_mults]. assert (W := row_where_spec (tp_secs R) (nth i (tp_secs R) [])). destruct (row_where _ _) as [k|].
    - destruct W as [Hk [E _]]. apply (proj1 (NoDup_nth _ []) (secs_NoDup H)) in E; auto. now subst.
    - exfalso. apply W. now apply nth_In.
  Qed.
  Lemma ft_shape F k : ft_ok P Q F -> k < length F -> bshape (snd (nth k F norow)) = [block_size P (fsec F k); block_size Q (fsec F k)].
  Proof.
    intros FO Hk. assert (I : In (nth k F norow) F) by now apply nth_In. rewrite (fo_shape FO I). destruct (fo_range FO I) as [R1 R2]. rewrite (block_size_nth HP R1), (block_size_nth HQ R2).
    rewrite (fo_sector FO I). reflexivity.
  Qed.
  Lemma ft_wf F k : ft_ok P Q F -> k < length F -> bwf (snd (nth k F norow)).
  Proof. intros FO Hk. unfold bwf. apply (fo_full FO). now apply nth_In. Qed.
  Lemma ft_entry_at F k x y : ft_ok P Q F -> k < length F -> ft_entry o Q F (fsec F k) x y = bat o (snd (nth k F norow)) [x; y].
  Proof.
    intros FO Hk. unfold ft_entry. destruct (find _ F) as [e|] eqn:FD.
    - apply find_some in FD. destruct FD as [I R]. apply row_eqb_eq in R. apply In_nth with (d := norow) in I. destruct I as [k' [Hk' E]]. rewrite <- E in R. fold (fsec F k') in R.
      apply fsec_inj in R; auto. subst. reflexivity.
    - exfalso. assert (X := find_none _ _ FD (nth k F norow) (nth_In _ _ Hk)). cbn beta in X. fold (fsec F k) in X. rewrite (proj2 (row_eqb_eq _ _) eq_refl) in X. discriminate.
  Qed.
  Lemma ft_entry_none F c x y : ft_ok P Q F -> (forall k, k < length F -> fsec F k <> c) -> ft_entry o Q F c x y = o0 o.
  Proof.
    intros FO H. unfold ft_entry. destruct (find _ F) as [e|] eqn:FD; [|reflexivity]. apply find_some in FD. destruct FD as [I R]. apply row_eqb_eq in R. apply In_nth with (d := norow) in I. destruct I as [k' [Hk' E]].
    exfalso. apply (H k' Hk'). unfold fsec. now rewrite E.
  Qed.
  (** *** zero_data *)
  Lemma zero_ok : ft_ok P Q (ft_zero_data o P Q).
  Proof.
    assert (IN : forall e, In e (ft_zero_data o P Q) -> exists i j, e = ((i, j), bzeros o [nth i (tp_mults P) 0; nth j (tp_mults Q) 0]) /\ i < length (tp_secs P) /\ j < length (tp_secs Q) /\ nth i (tp_secs P) [] = nth j (tp_secs Q) []).
    { intros e I. unfold ft_zero_data in I. apply in_flat_map in I. destruct I as [j [Hj I]]. apply in_seq in Hj. assert (W := row_where_spec (tp_secs P) (nth j (tp_secs Q) [])). destruct (row_where _ _) as [i|]; [|destruct I].
      destruct I as [<- |[]]. destruct W as [Hi [Ei _]]. exists i, j. split; [reflexivity|]. split; [exact Hi|]. split; [lia|exact Ei]. }
    constructor.
    - unfold ft_zero_data. rewrite map_flat_map'. clear IN. generalize (length (tp_secs Q)) as n. intros n. assert (GEN : forall m s, StronglySorted lt (flat_map (fun x => map (fun e : nat * nat * blk K => snd (fst e)) match row_where (tp_secs P) (nth x (tp_secs Q) []) with Some i => [((i, x), bzeros o [nth i (tp_mults P) 0; nth x (tp_mults Q) 0])] | None => [] end) (seq s m))).
      { induction m as [|m IH]; intros s; [constructor|]. cbn [seq flat_map]. apply StronglySorted_app. split; [destruct (row_where _ _); repeat constructor|]. split; [apply IH|]. intros x y Ix Iy.
        assert (E : x = s) by (destruct (row_where _ _); [destruct Ix as [<- |[]]; reflexivity|destruct Ix]). rewrite E. clear Ix E. apply in_flat_map in Iy. destruct Iy as [z [Iz Iy]]. apply in_seq in Iz. revert Iy. destruct (row_where _ _); [intros [<- |[]]; cbn; lia|intros []]. }
      apply GEN.
    - intros e I. destruct (IN e I) as [i [j [-> [A [B D]]]]]. cbn. auto.
    - intros e I. destruct (IN e I) as [i [j [-> [A [B D]]]]]. exact D.
    - intros e I. destruct (IN e I) as [i [j [-> [A [B D]]]]]. reflexivity.
    - intros e I. destruct (IN e I) as [i [j [-> [A [B D]]]]]. cbn [snd]. apply bmk_wf.
  Qed.
  Lemma zero_bat k x y : k < length (ft_zero_data o P Q) -> valid_idx (bshape (snd (nth k (ft_zero_data o P Q) norow))) [x; y] -> bat o (snd (nth k (ft_zero_data o P Q) norow)) [x; y] = o0 o.
  Proof.
    intros Hk V. assert (I : In (nth k (ft_zero_data o P Q) norow) (ft_zero_data o P Q)) by now apply nth_In. revert V. destruct (nth k _ _) as [[i j] B] eqn:E. intros V. clear E. unfold ft_zero_data in I. apply in_flat_map in I. destruct I as [j' [_ I]].
    destruct (row_where _ _); [|destruct I]. destruct I as [I|[]]. injection I as <- <- <-. cbn [snd] in *. unfold bzeros in *. now rewrite bat_bmk.
  Qed.
  (** every sector of both sides has a block *)
  Lemma zero_all c : In c (tp_secs P) -> In c (tp_secs Q) -> exists k, k < length (ft_zero_data o P Q) /\ fsec (ft_zero_data o P Q) k = c.
  Proof.
    intros I1 I2. apply In_nth with (d := []) in I2. destruct I2 as [j [Hj Ej]]. assert (W := row_where_spec (tp_secs P) (nth j (tp_secs Q) [])). destruct (row_where (tp_secs P) (nth j (tp_secs Q) [])) as [i|] eqn:RW; [|rewrite Ej in W; contradiction].
    assert (I : In ((i, j), bzeros o [nth i (tp_mults P) 0; nth j (tp_mults Q) 0]) (ft_zero_data o P Q)).
    { unfold ft_zero_data. apply in_flat_map. exists j. split; [apply in_seq; lia|]. rewrite RW. now left. }
    apply In_nth with (d := norow) in I. destruct I as [k [Hk E]]. exists k. split; [exact Hk|]. unfold fsec. rewrite E. exact Ej.
  Qed.
End Look.
