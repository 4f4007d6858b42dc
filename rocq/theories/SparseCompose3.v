(** compose_worker computes the contraction. *)
From Coq Require Import Ring.
From Verif Require Import Util StableSort RowModel RowProofs GridModel GridProofs SymModel SymProofs CatSpec Sums SpaceModel SpaceSpec SpaceProofs SpaceProofs2 SpaceProofs3
  PipeModel PipeProofs PipeProofs2 PipeProofs4 BlockModel BlockProofs SparseModel SparseSpec SparseProofs SparseProofs2 SparseProofs3 SparseProofs4 SparseProofs5 SparseProofs6 SparseCharge SparseCompose SparseCompose2.
Set Implicit Arguments. Unset Strict Implicit.
Open Scope nat_scope.

Lemma sorted_group X (key : X -> nat) (l : list (list nat * X)) :
  StronglySorted (fun e e' => lex_lt (map Z.of_nat (fst e)) (map Z.of_nat (fst e')) \/ (fst e = fst e' /\ key (snd e) < key (snd e'))) l ->
  weakly_sorted (zrows (map fst l)) /\ forall g, In g (group_entries l) -> StronglySorted lt (map key (snd g)).
Proof.
  intros Q. assert (W : weakly_sorted (zrows (map fst l))).
  { unfold weakly_sorted, zrows. rewrite map_map. apply StronglySorted_map. eapply StronglySorted_impl; [|exact Q]. intros e e' _ _ [H|[E _]]; [now left|right; now rewrite E]. }
  split; auto. intros g Hg. rewrite (group_content W Hg). rewrite map_map.
  assert (Q' := StronglySorted_filter (fun e => if row_dec (fst e) (fst g) then true else false) Q). apply StronglySorted_map.
  assert (F : forall e, In e (filter (fun e => if row_dec (fst e) (fst g) then true else false) l) -> fst e = fst g).
  { intros e He. apply filter_In in He. destruct He as [_ He]. destruct (row_dec (fst e) (fst g)); auto. discriminate. }
  revert Q' F. generalize (filter (fun e => if row_dec (fst e) (fst g) then true else false) l). intros l' Q'. induction Q' as [|e l' Q' IH H]; intros F; constructor.
  - apply IH. intros; apply F; now right.
  - rewrite Forall_forall in *. intros e' He'. destruct (H e' He') as [L|[_ L]]; auto. exfalso. rewrite (F e), (F e') in L by (auto; now (left + right)). exact (lex_lt_irrefl L).
Qed.

Lemma prod_pos s : Forall (fun n => 0 < n) s -> 0 < prod s.
Proof. induction 1; [unfold prod; simpl; lia|]. rewrite prod_cons. nia. Qed.
Lemma shp_pos (S : symm) legs : (forall L, In L legs -> es_ok S L) -> forall r, valid_idx (map nsec legs) r -> 0 < prod (shp (mults legs) r).
Proof.
  intros OK r V. apply prod_pos. revert r V. induction legs as [|L legs IH]; intros r V; inversion V as [|i n r' s Hi Hr]; subst; [constructor|].
  unfold mults, shp in *. cbn [map zipw]. constructor; [|apply IH; auto; intros; apply OK; now right].
  apply (ok_pos (OK L (or_introl eq_refl))), nth_In. exact Hi.
Qed.

Lemma map_take X Y (f : X -> Y) d d' l p : Forall (fun i => i < length l) p -> map f (take d l p) = take d' (map f l) p.
Proof. intros F. unfold take. rewrite map_map. apply map_ext_in. intros i Hi. symmetry. apply nth_map_lt. rewrite Forall_forall in F. auto. Qed.

Lemma walk_1d_In : forall a i b j k1 k2, In (k1, k2) (walk_1d i a j b) -> k1 - i < length a /\ k2 - j < length b /\ nth (k1 - i) a 0 = nth (k2 - j) b 0.
Proof.
  assert (ST : forall x a i y b j, walk_1d i (x :: a) j (y :: b) = if x <? y then walk_1d (S i) a j (y :: b) else if y <? x then walk_1d i (x :: a) (S j) b else (i, j) :: walk_1d (S i) a (S j) b) by reflexivity.
  assert (Q : forall a i b j k1 k2, In (k1, k2) (walk_1d i a j b) -> i <= k1 /\ j <= k2 /\ k1 - i < length a /\ k2 - j < length b /\ nth (k1 - i) a 0 = nth (k2 - j) b 0).
  { induction a as [|x a IH]; intros i b; [intros j k1 k2 []|]. induction b as [|y b IHb]; intros j k1 k2 H; [destruct H|]. rewrite ST in H.
    destruct (Nat.ltb_spec x y) as [C1|C1].
    - apply IH in H. destruct H as (H1 & H2 & H3 & H4 & H5). cbn [length] in *. replace (k1 - i) with (S (k1 - S i)) by lia. cbn [nth]. split; [|split; [|split; [|split]]]; auto; lia.
    - destruct (Nat.ltb_spec y x) as [C2|C2].
      + apply IHb in H. destruct H as (H1 & H2 & H3 & H4 & H5). cbn [length] in *. replace (k2 - j) with (S (k2 - S j)) by lia. cbn [nth]. split; [|split; [|split; [|split]]]; auto; lia.
      + destruct H as [H|H].
        * injection H as -> ->. rewrite !Nat.sub_diag. cbn [length nth]. split; [|split; [|split; [|split]]]; lia.
        * apply IH in H. destruct H as (H1 & H2 & H3 & H4 & H5). cbn [length] in *. replace (k1 - i) with (S (k1 - S i)) by lia. replace (k2 - j) with (S (k2 - S j)) by lia.
          cbn [nth]. split; [|split; [|split; [|split]]]; auto; lia. }
  intros a i b j k1 k2 H. apply Q in H. tauto.
Qed.

Section Worker.
  Variable K : Type.
  Variable o : ops K.
  Hypothesis SR : semi_ring_theory (o0 o) (o1 o) (oadd o) (omul o) (@eq K).
  Add Ring Kring : SR.
  Notation block := (blk K).
  Notation adata := (list (list nat * blk K)).
  Notation sval := (sval o).
  Variable S : symm.
  Variable fuse : sector -> sector -> sector.
  Hypothesis G : abelian_group_laws S fuse.
  Notation fall := (fuse_all S fuse).
  Variables (cod mid dom : list espace) (A B : adata).
  Hypothesis OKc : forall L, In L cod -> es_ok S L.
  Hypothesis OKd : forall L, In L dom -> es_ok S L.
  Hypothesis HA : data_ok (cod ++ rev mid) A.
  Hypothesis HB : data_ok (mid ++ rev dom) B.
  Let ncod := length cod. Let nc := length mid. Let ndom := length dom.
  Hypothesis CH : forall ea eb, In ea A -> In eb B -> rev (skipn ncod (fst ea)) = firstn nc (fst eb) ->
    fall (row_sectors S cod (firstn ncod (fst ea))) = fall (row_sectors S dom (rev (skipn nc (fst eb)))).
  (** the intermediate values of the code *)
  Definition cw_strides := make_stride (map nsec mid) false.
  Definition cw_a (e : list nat * block) := (firstn ncod (fst e), (pack_row (skipn ncod (fst e)) (rev cw_strides), snd e)).
  Definition cw_b (e : list nat * block) := (skipn nc (fst e), (pack_row (firstn nc (fst e)) cw_strides, snd e)).
  Definition cw_aent := take ([], (0, snd (noentry K))) (map cw_a A) (lexsort_indices (map (fun e => Z.of_nat (fst (snd e)) :: map Z.of_nat (fst e)) (map cw_a A))).
  Definition cw_bent := map cw_b B.
  Definition cw_ashape (g : list nat * list (nat * block)) := firstn ncod (bshape (snd (nth 0 (snd g) (0, snd (noentry K))))).
  Definition cw_bshape (g : list nat * list (nat * block)) := skipn nc (bshape (snd (nth 0 (snd g) (0, snd (noentry K))))).
  Definition cw_amat g (X : block) : block := if ncod =? 0 then bflat X else bfold_last X (prod (cw_ashape g)).
  Definition cw_bmat g (X : block) : block := let Xp := btranspose o X (rev (seq 0 nc) ++ seq nc ndom) in if ndom =? 0 then bflat Xp else bfold_first Xp (prod (cw_bshape g)).
  Definition cw_entry (ga gb : list nat * list (nat * block)) : adata :=
    match walk_1d 0 (map fst (snd ga)) 0 (map fst (snd gb)) with
    | [] => []
    | (k1, k2) :: more =>
        let ax k := cw_amat ga (snd (nth k (snd ga) (0, snd (noentry K)))) in
        let bx k := cw_bmat gb (snd (nth k (snd gb) (0, snd (noentry K)))) in
        let blk := fold_left (fun acc kk => badd o acc (bdot o (ax (fst kk)) (bx (snd kk)))) more (bdot o (ax k1) (bx k2)) in
        [(fst ga ++ fst gb, breshape blk (cw_ashape ga ++ cw_bshape gb))]
    end.
  Let GA := group_entries cw_aent.
  Let GB := group_entries cw_bent.
  Lemma compose_worker_eq : A <> [] -> B <> [] -> compose_worker o S cod mid dom A B =
    match coupled S cod (map fst GA), coupled S dom (map (fun g => rev (fst g)) GB) with
    | Some ac, Some bc => Some (make_data (flat_map (fun j => flat_map (fun i => cw_entry (nth i GA ([], [])) (nth j GB ([], [])))
          (filter (fun i => row_eqb (nth i ac []) (nth j bc [])) (seq 0 (length GA)))) (seq 0 (length GB))) true)
    | _, _ => None
    end.
  Proof.
    intros NA NB. assert (M : forall T (l : adata) (x y : T), l <> [] -> match l with [] => x | _ :: _ => y end = y) by (intros T [|e l] x y N; congruence).
    unfold compose_worker. etransitivity; [exact (M _ A _ _ NA)|]. exact (M _ B _ _ NB).
  Qed.

  (** rows of the arguments *)
  Lemma rowA e : In e A -> valid_idx (map nsec cod) (firstn ncod (fst e)) /\ valid_idx (map nsec mid) (rev (skipn ncod (fst e))) /\
    bshape (snd e) = shp (mults cod) (firstn ncod (fst e)) ++ rev (shp (mults mid) (rev (skipn ncod (fst e)))) /\ bwf (snd e).
  Proof.
    intros He. assert (V := do_valid HA He). destruct (row_parts V) as (r1 & r2 & E & V1 & V2 & L1). assert (F : firstn ncod (fst e) = r1) by (unfold ncod; rewrite E, <- L1; apply firstn_len).
    assert (F2 : skipn ncod (fst e) = r2) by (unfold ncod; rewrite E, <- L1; apply skipn_len). rewrite F, F2. rewrite map_rev in V2.
    assert (V2' : valid_idx (map nsec mid) (rev r2)) by (apply valid_rev; now rewrite rev_involutive). assert (L2 := valid_length V2'). rewrite rev_length, map_length in L2.
    split; [|split; [|split]]; auto; [|exact (do_wf HA He)].
    rewrite (do_shape HA He), E. unfold mults. rewrite map_app, shp_app by now rewrite map_length. f_equal. rewrite map_rev. rewrite <- (rev_involutive r2) at 1. apply shp_rev. now rewrite rev_length, map_length.
  Qed.
  Lemma rowB e : In e B -> valid_idx (map nsec mid) (firstn nc (fst e)) /\ valid_idx (map nsec (rev dom)) (skipn nc (fst e)) /\
    bshape (snd e) = shp (mults mid) (firstn nc (fst e)) ++ shp (mults (rev dom)) (skipn nc (fst e)) /\ bwf (snd e).
  Proof.
    intros He. assert (V := do_valid HB He). destruct (row_parts V) as (r1 & r2 & E & V1 & V2 & L1). assert (F : firstn nc (fst e) = r1) by (unfold nc; rewrite E, <- L1; apply firstn_len).
    assert (F2 : skipn nc (fst e) = r2) by (unfold nc; rewrite E, <- L1; apply skipn_len). rewrite F, F2.
    split; [|split; [|split]]; auto; [|exact (do_wf HB He)].
    rewrite (do_shape HB He), E. unfold mults. now rewrite map_app, shp_app by now rewrite map_length.
  Qed.
  Lemma keyA e : In e A -> fst (snd (cw_a e)) = fkey (map nsec mid) (rev (skipn ncod (fst e))).
  Proof. intros He. destruct (rowA He) as (_ & V & _). cbn [cw_a fst snd]. apply pack_fkey_rev. apply valid_rev. now rewrite rev_involutive. Qed.
  Lemma keyB e : In e B -> fst (snd (cw_b e)) = fkey (map nsec mid) (firstn nc (fst e)).
  Proof. intros He. destruct (rowB He) as (V & _). cbn [cw_b fst snd]. now apply pack_fkey. Qed.

  (** the sorted list of a *)
  Lemma aent_perm : Permutation cw_aent (map cw_a A).
  Proof. apply take_Permutation. set (l := map (fun e => _) (map cw_a A)). replace (length (map cw_a A)) with (length l) by (unfold l; apply map_length). apply lexsort_perm. Qed.
  Lemma aent_sorted : StronglySorted (fun e e' => lex_lt (map Z.of_nat (fst e)) (map Z.of_nat (fst e')) \/ (fst e = fst e' /\ fst (snd e) < fst (snd e'))) cw_aent.
  Proof.
    set (zk := fun e : list nat * (nat * block) => Z.of_nat (fst (snd e)) :: map Z.of_nat (fst e)).
    assert (W : same_width (Datatypes.S ncod) (map zk (map cw_a A))).
    { apply Forall_forall. intros r Hr. rewrite map_map in Hr. apply in_map_iff in Hr. destruct Hr as (e & <- & He). unfold zk. cbn [length]. rewrite map_length. cbn [cw_a fst].
      destruct (rowA He) as (V & _). rewrite (valid_length V). now rewrite map_length. }
    assert (N : NoDup (map zk (map cw_a A))).
    { rewrite map_map. apply NoDup_map_inj; [|exact (NoDup_map_inv _ _ (data_ok_NoDup HA))]. intros e e' He He' E.
      assert (E1 : Z.of_nat (fst (snd (cw_a e))) = Z.of_nat (fst (snd (cw_a e')))) by exact (f_equal (hd 0%Z) E).
      assert (E2 : map Z.of_nat (fst (cw_a e)) = map Z.of_nat (fst (cw_a e'))) by exact (f_equal (@tl Z) E).
      apply Nat2Z.inj in E1. rewrite !keyA in E1 by auto. apply zrow_inj in E2. cbn [cw_a fst] in E2.
      destruct (rowA He) as (_ & V & _). destruct (rowA He') as (_ & V' & _). apply fkey_inj in E1; auto. apply rev_inj in E1.
      apply (entry_eq HA He He'). rewrite <- (firstn_skipn ncod (fst e)), <- (firstn_skipn ncod (fst e')). now rewrite E1, E2. }
    assert (P := lexsort_perm (map zk (map cw_a A))).
    assert (Q := sorted_weakly W). cbn [sorted fst] in Q. apply weak_strict in Q.
    2:{ eapply Permutation_NoDup; [symmetry; apply take_Permutation; exact P|exact N]. }
    assert (E : take [] (map zk (map cw_a A)) (lexsort_indices (map zk (map cw_a A))) = map zk cw_aent).
    { unfold cw_aent. change (map (fun e => Z.of_nat (fst (snd e)) :: map Z.of_nat (fst e)) (map cw_a A)) with (map zk (map cw_a A)). symmetry. apply map_take. rewrite <- (map_length zk). exact (is_perm_Forall P). }
    rewrite E in Q. unfold strictly_sorted in Q. rewrite StronglySorted_map in Q.
    assert (LW : forall e, In e cw_aent -> length (fst e) = ncod).
    { intros e He. apply (Permutation_in _ aent_perm) in He. apply in_map_iff in He. destruct He as (x & <- & Hx). cbn [cw_a fst]. destruct (rowA Hx) as (V & _). rewrite (valid_length V). apply map_length. }
    eapply StronglySorted_impl; [|exact Q]. intros e e' He He' H. unfold zk in H. apply lex_lt_cons_iff in H; [|rewrite !map_length, !LW; auto].
    destruct H as [H|[E' H]]; [now left|right]. split; [now apply zrow_inj|lia].
  Qed.
  Lemma bent_sorted : StronglySorted (fun e e' => lex_lt (map Z.of_nat (fst e)) (map Z.of_nat (fst e')) \/ (fst e = fst e' /\ fst (snd e) < fst (snd e'))) cw_bent.
  Proof.
    assert (Q := do_sorted HB). unfold strictly_sorted, zrows in Q. rewrite map_map, StronglySorted_map in Q. unfold cw_bent. apply StronglySorted_map.
    eapply StronglySorted_impl; [|exact Q]. intros e e' He He' H. cbn beta in H. rewrite !keyB by auto. cbn [cw_b fst].
    destruct (rowB He) as (V1 & V2 & _). destruct (rowB He') as (V1' & V2' & _). 
    rewrite <- (firstn_skipn nc (fst e)), <- (firstn_skipn nc (fst e')), !map_app in H. apply lex_lt_app in H.
    - destruct H as [H|[E H]]; [now left|right]. split; [now apply zrow_inj|]. now apply fkey_lt.
    - rewrite !map_length. now rewrite (valid_length V1), (valid_length V1').
    - rewrite !map_length. now rewrite (valid_length V2), (valid_length V2').
  Qed.
  Let WA := proj1 (sorted_group (key := fst) aent_sorted).
  Let WB := proj1 (sorted_group (key := fst) bent_sorted).
  (** members of the groups *)
  Lemma groupA g : In g GA -> (forall x, In x (snd g) -> exists e, In e A /\ cw_a e = (fst g, x)) /\ snd g <> [] /\ StronglySorted lt (map fst (snd g)) /\
    forall (F : nat * block -> K), osum o (map F (snd g)) = osum o (map (fun e => if row_dec (firstn ncod (fst e)) (fst g) then F (snd (cw_a e)) else o0 o) A).
  Proof.
    intros Hg. split; [|split; [|split]].
    - intros x Hx. rewrite (group_content WA Hg) in Hx. apply in_map_iff in Hx. destruct Hx as ([r y] & E & Hx). cbn [snd] in E. subst y. apply filter_In in Hx. destruct Hx as [Hx E]. cbn [fst] in E.
      destruct (row_dec r (fst g)) as [->|]; [|discriminate]. apply (Permutation_in _ aent_perm) in Hx. apply in_map_iff in Hx. destruct Hx as (e & E' & He). now exists e.
    - exact (group_nonempty Hg).
    - exact (proj2 (sorted_group (key := fst) aent_sorted) g Hg).
    - intros F. rewrite (group_content WA Hg), map_map, (sum_filter SR). rewrite (sum_perm SR (Permutation_map _ aent_perm)), map_map. apply (sum_ext o). intros e He. cbn [cw_a fst]. now destruct (row_dec _ _).
  Qed.
  Lemma groupB g : In g GB -> (forall x, In x (snd g) -> exists e, In e B /\ cw_b e = (fst g, x)) /\ snd g <> [] /\ StronglySorted lt (map fst (snd g)) /\
    forall (F : nat * block -> K), osum o (map F (snd g)) = osum o (map (fun e => if row_dec (skipn nc (fst e)) (fst g) then F (snd (cw_b e)) else o0 o) B).
  Proof.
    intros Hg. split; [|split; [|split]].
    - intros x Hx. rewrite (group_content WB Hg) in Hx. apply in_map_iff in Hx. destruct Hx as ([r y] & E & Hx). cbn [snd] in E. subst y. apply filter_In in Hx. destruct Hx as [Hx E]. cbn [fst] in E.
      destruct (row_dec r (fst g)) as [->|]; [|discriminate]. apply in_map_iff in Hx. destruct Hx as (e & E' & He). now exists e.
    - exact (group_nonempty Hg).
    - exact (proj2 (sorted_group (key := fst) bent_sorted) g Hg).
    - intros F. rewrite (group_content WB Hg), map_map, (sum_filter SR). unfold cw_bent. rewrite map_map. apply (sum_ext o). intros e He. cbn [cw_b fst]. now destruct (row_dec _ _).
  Qed.
  Lemma keysA r : In r (map fst GA) <-> exists e, In e A /\ firstn ncod (fst e) = r.
  Proof.
    unfold GA. rewrite group_keys. rewrite (Permutation_in' (eq_refl r) (Permutation_map fst aent_perm)), map_map, in_map_iff. cbn [cw_a fst]. split; intros (e & E1 & E2); exists e; auto.
  Qed.
  Lemma keysB r : In r (map fst GB) <-> exists e, In e B /\ skipn nc (fst e) = r.
  Proof. unfold GB. rewrite group_keys. unfold cw_bent. rewrite map_map, in_map_iff. cbn [cw_b fst]. split; intros (e & E1 & E2); exists e; auto. Qed.

  (** sum over the pairs of stored blocks that contribute *)
  Definition pairsum (ra rb qa qb : list nat) : K :=
    osum o (map (fun ea => osum o (map (fun eb =>
      if row_dec (firstn ncod (fst ea)) ra then if row_dec (skipn nc (fst eb)) rb then if row_dec (rev (skipn ncod (fst ea))) (firstn nc (fst eb))
      then bcontract o (shp (mults mid) (firstn nc (fst eb))) (snd ea) (snd eb) qa qb else o0 o else o0 o else o0 o) B)) A).
  Lemma shapeA g : In g GA -> cw_ashape g = shp (mults cod) (fst g) /\ valid_idx (map nsec cod) (fst g) /\ length (cw_ashape g) = ncod /\ 0 < prod (cw_ashape g).
  Proof.
    intros Hg. destruct (groupA Hg) as (M & NE & _). destruct (snd g) as [|x xs] eqn:E; [congruence|]. destruct (M x (or_introl eq_refl)) as (e & He & Ex).
    destruct (rowA He) as (V1 & V2 & SH & _). assert (E1 := f_equal fst Ex). assert (E2 := f_equal (fun t => snd (snd t)) Ex). cbn [cw_a fst snd] in E1, E2.
    rewrite E1 in *. assert (LS : length (shp (mults cod) (fst g)) = ncod).
    { unfold ncod, mults. rewrite shp_len; rewrite map_length; auto. rewrite (valid_length V1). apply map_length. }
    assert (Q : cw_ashape g = shp (mults cod) (fst g)).
    { unfold cw_ashape. rewrite E. cbn [nth]. rewrite <- E2, SH. rewrite <- LS at 1. apply firstn_len. }
    rewrite Q. split; [|split; [|split]]; auto. exact (shp_pos OKc V1).
  Qed.
  Lemma OKr : forall L, In L (rev dom) -> es_ok S L.
  Proof. intros L H. apply OKd. now apply in_rev. Qed.
  Lemma shapeB g : In g GB -> cw_bshape g = shp (mults (rev dom)) (fst g) /\ valid_idx (map nsec (rev dom)) (fst g) /\ length (cw_bshape g) = ndom /\ 0 < prod (cw_bshape g).
  Proof.
    intros Hg. destruct (groupB Hg) as (M & NE & _). destruct (snd g) as [|x xs] eqn:E; [congruence|]. destruct (M x (or_introl eq_refl)) as (e & He & Ex).
    destruct (rowB He) as (V1 & V2 & SH & _). assert (E1 := f_equal fst Ex). assert (E2 := f_equal (fun t => snd (snd t)) Ex). cbn [cw_b fst snd] in E1, E2.
    rewrite E1 in *. assert (LS : length (shp (mults mid) (firstn nc (fst e))) = nc).
    { unfold nc at 2, mults. rewrite shp_len; rewrite map_length; auto. rewrite (valid_length V1). apply map_length. }
    assert (Q : cw_bshape g = shp (mults (rev dom)) (fst g)).
    { unfold cw_bshape. rewrite E. cbn [nth]. rewrite <- E2, SH. rewrite <- LS at 1. apply skipn_len. }
    rewrite Q. split; [|split; [|split]]; auto; [|exact (shp_pos OKr V2)]. unfold ndom, mults. rewrite shp_len; rewrite map_length, rev_length; auto. rewrite (valid_length V2). now rewrite map_length, rev_length.
  Qed.
  (** the blocks of one pair of groups *)
  Lemma pair_value (ga gb : list nat * list (nat * block)) (x y : nat * block) : In ga GA -> In gb GB -> In x (snd ga) -> In y (snd gb) -> fst x = fst y ->
    let D := bdot o (cw_amat ga (snd x)) (cw_bmat gb (snd y)) in
    bwf D /\ bshape D = side (cw_ashape ga) ++ side (cw_bshape gb) /\
    exists ea eb, In ea A /\ In eb B /\ cw_a ea = (fst ga, x) /\ cw_b eb = (fst gb, y) /\ rev (skipn ncod (fst ea)) = firstn nc (fst eb) /\
    forall qa qb, valid_idx (cw_ashape ga) qa -> valid_idx (cw_bshape gb) qb ->
      bat o D (sidx (cw_ashape ga) qa ++ sidx (cw_bshape gb) qb) = bcontract o (shp (mults mid) (firstn nc (fst eb))) (snd x) (snd y) qa qb.
  Proof.
    intros Hga Hgb Hx Hy E. destruct (shapeA Hga) as (SA & VA & LA & PA). destruct (shapeB Hgb) as (SB & VB & LB & PB).
    destruct (proj1 (groupA Hga) x Hx) as (ea & Hea & Ea). destruct (proj1 (groupB Hgb) y Hy) as (eb & Heb & Eb).
    destruct (rowA Hea) as (VA1 & VA2 & SHA & WFA). destruct (rowB Heb) as (VB1 & VB2 & SHB & _).
    assert (Ea1 := f_equal fst Ea). assert (Ea2 := f_equal (fun t => snd (snd t)) Ea). assert (Ea3 := f_equal (fun t => fst (snd t)) Ea). cbn [fst snd] in Ea3. rewrite keyA in Ea3 by auto. cbn [cw_a fst snd] in Ea1, Ea2.
    assert (Eb1 := f_equal fst Eb). assert (Eb2 := f_equal (fun t => snd (snd t)) Eb). assert (Eb3 := f_equal (fun t => fst (snd t)) Eb). cbn [fst snd] in Eb3. rewrite keyB in Eb3 by auto. cbn [cw_b fst snd] in Eb1, Eb2.
    rewrite <- Ea3, <- Eb3 in E. apply fkey_inj in E; auto. rewrite Ea1, <- SA, E, Ea2 in SHA. rewrite Eb1, <- SB, Eb2 in SHB. rewrite Ea2 in WFA.
    set (sc := shp (mults mid) (firstn nc (fst eb))) in *.
    assert (Lsc : length sc = nc). { unfold sc, nc at 2, mults. rewrite shp_len; rewrite map_length; auto. rewrite (valid_length VB1). apply map_length. }
    assert (EA' : cw_amat ga (snd x) = a_mat (cw_ashape ga) (snd x)) by (unfold cw_amat, a_mat; now rewrite LA).
    assert (EB' : cw_bmat gb (snd y) = b_mat o (length sc) (cw_bshape gb) (snd y)) by (unfold cw_bmat, b_mat; now rewrite LB, Lsc).
    cbn zeta. rewrite EA', EB'. split; [apply bdot_wf|]. split; [exact (dot_shape o WFA SHA SHB PA PB)|].
    exists ea, eb. split; [|split; [|split; [|split; [|split]]]]; auto. intros qa qb Va Vb. exact (dot_at SR WFA SHA SHB PA PB Va Vb).
  Qed.
  Lemma walk_pairs (ga gb : list nat * list (nat * block)) i j : In (i, j) (walk_1d 0 (map fst (snd ga)) 0 (map fst (snd gb))) ->
    let dz := (0, snd (noentry K)) in In (nth i (snd ga) dz) (snd ga) /\ In (nth j (snd gb) dz) (snd gb) /\ fst (nth i (snd ga) dz) = fst (nth j (snd gb) dz).
  Proof.
    intros H. destruct (walk_1d_In H) as (Hi & Hj & E). rewrite !Nat.sub_0_r in *. rewrite map_length in Hi, Hj. rewrite !nth_map_lt with (d := (0, snd (noentry K))) in E by auto. cbn zeta. split; [|split]; auto; now apply nth_In.
  Qed.
  Lemma walk_value ga gb qa qb : In ga GA -> In gb GB -> valid_idx (cw_ashape ga) qa -> valid_idx (cw_bshape gb) qb ->
    let dz := (0, snd (noentry K)) in
    osum o (map (fun kk => bat o (bdot o (cw_amat ga (snd (nth (fst kk) (snd ga) dz))) (cw_bmat gb (snd (nth (snd kk) (snd gb) dz)))) (sidx (cw_ashape ga) qa ++ sidx (cw_bshape gb) qb))
                (walk_1d 0 (map fst (snd ga)) 0 (map fst (snd gb)))) = pairsum (fst ga) (fst gb) qa qb.
  Proof.
    intros Hga Hgb Va Vb dz. destruct (groupA Hga) as (MA & NA & SSA & FA). destruct (groupB Hgb) as (MB & NB & SSB & FB).
    set (f := fun x y : nat * block => bat o (bdot o (cw_amat ga (snd x)) (cw_bmat gb (snd y))) (sidx (cw_ashape ga) qa ++ sidx (cw_bshape gb) qb)).
    assert (W := @walk_1d_sum K o SR _ _ fst fst dz dz f (snd ga) [] (snd gb) [] SSA SSB). cbn [app length] in W. etransitivity; [exact W|]. clear W.
    rewrite FA. unfold pairsum. apply (sum_ext o). intros ea Hea. destruct (row_dec (firstn ncod (fst ea)) (fst ga)) as [Ea|Ea].
    2:{ symmetry. apply (sum_zero SR). auto. }
    rewrite FB. apply (sum_ext o). intros eb Heb. destruct (row_dec (skipn nc (fst eb)) (fst gb)) as [Eb|Eb]; auto.
    rewrite keyA, keyB by auto. destruct (rowA Hea) as (VA1 & VA2 & _). destruct (rowB Heb) as (VB1 & VB2 & _).
    destruct (row_dec (rev (skipn ncod (fst ea))) (firstn nc (fst eb))) as [E|E].
    - rewrite E, Nat.eqb_refl.
      assert (Ix : In (snd (cw_a ea)) (snd ga)).
      { rewrite (group_content WA Hga). apply in_map. apply filter_In. split; [|cbn [cw_a fst]; destruct (row_dec _ _); auto]. apply (Permutation_in _ (Permutation_sym aent_perm)). now apply in_map. }
      assert (Iy : In (snd (cw_b eb)) (snd gb)).
      { rewrite (group_content WB Hgb). apply in_map. apply filter_In. split; [|cbn [cw_b fst]; destruct (row_dec _ _); auto]. unfold cw_bent. now apply in_map. }
      assert (Ek : fst (snd (cw_a ea)) = fst (snd (cw_b eb))) by (rewrite keyA, keyB by auto; now rewrite E).
      destruct (pair_value Hga Hgb Ix Iy Ek) as (_ & _ & ea' & eb' & Hea' & Heb' & Ea' & Eb' & E' & V). unfold f. etransitivity; [exact (V qa qb Va Vb)|].
      f_equal. f_equal. assert (Q : fst (snd (cw_b eb')) = fst (snd (cw_b eb))) by now rewrite Eb'. rewrite !keyB in Q by auto. destruct (rowB Heb') as (VB1' & _). apply fkey_inj in Q; auto.
    - destruct (Nat.eqb_spec (fkey (map nsec mid) (rev (skipn ncod (fst ea)))) (fkey (map nsec mid) (firstn nc (fst eb)))) as [E'|]; auto. apply fkey_inj in E'; auto. contradiction.
  Qed.
  Lemma entry_spec ga gb : In ga GA -> In gb GB ->
    (cw_entry ga gb = [] /\ forall qa qb, valid_idx (cw_ashape ga) qa -> valid_idx (cw_bshape gb) qb -> pairsum (fst ga) (fst gb) qa qb = o0 o) \/
    (exists X, cw_entry ga gb = [(fst ga ++ fst gb, X)] /\ bwf X /\ bshape X = cw_ashape ga ++ cw_bshape gb /\
      (forall qa qb, valid_idx (cw_ashape ga) qa -> valid_idx (cw_bshape gb) qb -> bat o X (qa ++ qb) = pairsum (fst ga) (fst gb) qa qb) /\
      exists ea eb, In ea A /\ In eb B /\ firstn ncod (fst ea) = fst ga /\ skipn nc (fst eb) = fst gb /\ rev (skipn ncod (fst ea)) = firstn nc (fst eb)).
  Proof.
    intros Hga Hgb. assert (WV := fun qa qb => @walk_value ga gb qa qb Hga Hgb). cbn zeta in WV. assert (WP := @walk_pairs ga gb). cbn zeta in WP. unfold cw_entry.
    destruct (walk_1d 0 (map fst (snd ga)) 0 (map fst (snd gb))) as [|[k1 k2] more].
    - left. split; auto. intros qa qb Va Vb. symmetry. exact (WV qa qb Va Vb).
    - right. set (dz := (0, snd (noentry K))) in *.
      set (f := fun kk : nat * nat => bdot o (cw_amat ga (snd (nth (fst kk) (snd ga) dz))) (cw_bmat gb (snd (nth (snd kk) (snd gb) dz)))).
      destruct (@sum_dots K o SR _ (side (cw_ashape ga) ++ side (cw_bshape gb)) f (k1, k2) more) as (WF & SH & VAL).
      { intros [i j] Hij. destruct (WP i j Hij) as (Ix & Iy & E). destruct (pair_value Hga Hgb Ix Iy E) as (W1 & W2 & _). split; auto. }
      set (X := fold_left (fun acc kk => badd o acc (f kk)) more (f (k1, k2))) in *.
      exists (breshape X (cw_ashape ga ++ cw_bshape gb)). split; [reflexivity|]. split; [|split; [reflexivity|split]].
      + apply breshape_wf; auto. rewrite SH, !prod_app, !side_prod. reflexivity.
      + intros qa qb Va Vb.
        assert (VS : valid_idx (side (cw_ashape ga) ++ side (cw_bshape gb)) (sidx (cw_ashape ga) qa ++ sidx (cw_bshape gb) qb)) by (apply valid_app; [apply sidx_len|]; split; now apply sidx_valid).
        etransitivity; [|exact (WV qa qb Va Vb)]. etransitivity; [|exact (VAL _ VS)]. apply bat_reshape.
        * rewrite SH, !app_length, !sidx_len. reflexivity.
        * rewrite !app_length. now rewrite (valid_length Va), (valid_length Vb).
        * rewrite SH. rewrite !flat_index_app by (try apply sidx_len; now apply valid_length). now rewrite !sidx_flat, side_prod by auto.
      + destruct (WP k1 k2 (or_introl eq_refl)) as (Ix & Iy & E). destruct (pair_value Hga Hgb Ix Iy E) as (_ & _ & ea & eb & Hea & Heb & Ea & Eb & E' & _).
        exists ea, eb. split; [|split; [|split; [|split]]]; auto; [exact (f_equal fst Ea)|exact (f_equal fst Eb)].
  Qed.

  Let chA i := fall (row_sectors S cod (fst (nth i GA ([], [])))).
  Let chB j := fall (row_sectors S dom (rev (fst (nth j GB ([], []))))).
  Definition cw_result : adata := flat_map (fun j => flat_map (fun i => cw_entry (nth i GA ([], [])) (nth j GB ([], [])))
    (filter (fun i => row_eqb (chA i) (chB j)) (seq 0 (length GA)))) (seq 0 (length GB)).
  Lemma inGA i : i < length GA -> In (nth i GA ([], [])) GA.
  Proof. apply nth_In. Qed.
  Lemma inGB j : j < length GB -> In (nth j GB ([], [])) GB.
  Proof. apply nth_In. Qed.
  Lemma worker_result : A <> [] -> B <> [] -> compose_worker o S cod mid dom A B = Some cw_result.
  Proof.
    intros NA NB. rewrite compose_worker_eq by auto.
    rewrite (coupled_spec G OKc) by (intros r Hr; apply in_map_iff in Hr; destruct Hr as (g & <- & Hg); now destruct (shapeA Hg) as (_ & V & _)).
    rewrite (coupled_spec G OKd). 2:{ intros r Hr. apply in_map_iff in Hr. destruct Hr as (g & <- & Hg). destruct (shapeB Hg) as (_ & V & _). rewrite map_rev in V. apply valid_rev. now rewrite rev_involutive. }
    cbn [make_data]. f_equal. unfold cw_result. apply flat_map_ext_in. intros j Hj. apply in_seq in Hj. f_equal. apply filter_ext_in. intros i Hi. apply in_seq in Hi.
    rewrite !map_map. rewrite !nth_map_lt with (d := ([], []) : list nat * list (nat * block)) by lia. reflexivity.
  Qed.
  Lemma result_In e : In e cw_result <-> exists i j, i < length GA /\ j < length GB /\ chA i = chB j /\ In e (cw_entry (nth i GA ([], [])) (nth j GB ([], []))).
  Proof.
    unfold cw_result. rewrite in_flat_map. split.
    - intros (j & Hj & H). apply in_seq in Hj. apply in_flat_map in H. destruct H as (i & Hi & H). apply filter_In in Hi. destruct Hi as [Hi C]. apply in_seq in Hi. apply row_eqb_eq in C.
      exists i, j. split; [|split; [|split]]; auto; lia.
    - intros (i & j & Hi & Hj & C & H). exists j. split; [apply in_seq; lia|]. apply in_flat_map. exists i. split; auto. apply filter_In. split; [apply in_seq; lia|]. now apply row_eqb_eq.
  Qed.
  Lemma entry_row i j e : i < length GA -> j < length GB -> In e (cw_entry (nth i GA ([], [])) (nth j GB ([], []))) ->
    fst e = fst (nth i GA ([], [])) ++ fst (nth j GB ([], [])) /\ cw_entry (nth i GA ([], [])) (nth j GB ([], [])) = [e].
  Proof.
    intros Hi Hj H. destruct (entry_spec (inGA Hi) (inGB Hj)) as [[E _]|(X & E & _)]; rewrite E in *; [destruct H|]. destruct H as [<-|[]]. auto.
  Qed.
  Lemma rowGA i : i < length GA -> length (fst (nth i GA ([], []))) = ncod.
  Proof. intros Hi. destruct (shapeA (inGA Hi)) as (_ & V & _). rewrite (valid_length V). apply map_length. Qed.
  Lemma rowGB j : j < length GB -> length (fst (nth j GB ([], []))) = ndom.
  Proof. intros Hj. destruct (shapeB (inGB Hj)) as (_ & V & _). rewrite (valid_length V). now rewrite map_length, rev_length. Qed.
  Lemma ltGA i i' : i < i' -> i' < length GA -> lex_lt (map Z.of_nat (fst (nth i GA ([], [])))) (map Z.of_nat (fst (nth i' GA ([], [])))).
  Proof.
    intros Hi Hi'. assert (Q := group_sorted WA). fold GA in Q. unfold strictly_sorted, zrows in Q. rewrite map_map, StronglySorted_map in Q. rewrite (StronglySorted_nth _ ([], [])) in Q. apply Q. lia.
  Qed.
  Lemma ltGB i i' : i < i' -> i' < length GB -> lex_lt (map Z.of_nat (fst (nth i GB ([], [])))) (map Z.of_nat (fst (nth i' GB ([], [])))).
  Proof.
    intros Hi Hi'. assert (Q := group_sorted WB). fold GB in Q. unfold strictly_sorted, zrows in Q. rewrite map_map, StronglySorted_map in Q. rewrite (StronglySorted_nth _ ([], [])) in Q. apply Q. lia.
  Qed.
  Lemma result_sorted : strictly_sorted (zrows (map fst cw_result)).
  Proof.
    unfold strictly_sorted, zrows. rewrite map_map. apply StronglySorted_map. unfold cw_result. apply sorted_flat_map with (Q := lt).
    - apply seq_sorted.
    - intros j Hj. apply in_seq in Hj. apply sorted_flat_map with (Q := lt).
      + apply StronglySorted_filter, seq_sorted.
      + intros i Hi. apply filter_In in Hi. destruct Hi as [Hi _]. apply in_seq in Hi.
        destruct (entry_spec (inGA (i := i) ltac:(lia)) (inGB (j := j) ltac:(lia))) as [[E _]|(X & E & _)]; rewrite E; repeat constructor.
      + intros i i' e e' Hi Hi' L He He'. apply filter_In in Hi. apply filter_In in Hi'. destruct Hi as [Hi _]. destruct Hi' as [Hi' _]. apply in_seq in Hi. apply in_seq in Hi'.
        rewrite (proj1 (entry_row (i := i) (j := j) ltac:(lia) ltac:(lia) He)), (proj1 (entry_row (i := i') (j := j) ltac:(lia) ltac:(lia) He')), !map_app.
        apply lex_lt_app; auto; [rewrite !map_length, !rowGA; lia|]. right. split; auto. apply ltGA; lia.
    - intros j j' e e' Hj Hj' L He He'. apply in_seq in Hj. apply in_seq in Hj'. apply in_flat_map in He. apply in_flat_map in He'. destruct He as (i & Hi & He). destruct He' as (i' & Hi' & He').
      apply filter_In in Hi. apply filter_In in Hi'. destruct Hi as [Hi _]. destruct Hi' as [Hi' _]. apply in_seq in Hi. apply in_seq in Hi'.
      rewrite (proj1 (entry_row (i := i) (j := j) ltac:(lia) ltac:(lia) He)), (proj1 (entry_row (i := i') (j := j') ltac:(lia) ltac:(lia) He')), !map_app.
      apply lex_lt_app; [rewrite !map_length, !rowGA; lia|rewrite !map_length, !rowGB; lia|]. left. apply ltGB; lia.
  Qed.
  Lemma pairsum_zero ra rb qa qb : ~ (In ra (map fst GA) /\ In rb (map fst GB)) -> pairsum ra rb qa qb = o0 o.
  Proof.
    intros N. unfold pairsum. apply (sum_zero SR). intros ea Hea. apply (sum_zero SR). intros eb Heb.
    destruct (row_dec (firstn ncod (fst ea)) ra) as [Ea|]; auto. destruct (row_dec (skipn nc (fst eb)) rb) as [Eb|]; auto.
    exfalso. apply N. rewrite keysA, keysB. split; [now exists ea|now exists eb].
  Qed.
  Lemma worker_ok : exists R, compose_worker o S cod mid dom A B = Some R /\ data_ok (cod ++ rev dom) R /\
    (forall ra rb qa qb, valid_idx (map nsec cod) ra -> valid_idx (map nsec (rev dom)) rb -> valid_idx (shp (mults cod) ra) qa -> valid_idx (shp (mults (rev dom)) rb) qb ->
       sval R (ra ++ rb) (qa ++ qb) = pairsum ra rb qa qb) /\
    (forall e, In e R -> exists ea eb, In ea A /\ In eb B /\ fst e = firstn ncod (fst ea) ++ skipn nc (fst eb) /\ rev (skipn ncod (fst ea)) = firstn nc (fst eb)).
  Proof.
    assert (TR : A = [] \/ B = [] -> exists R, compose_worker o S cod mid dom A B = Some R /\ R = [] /\ forall ra rb qa qb, pairsum ra rb qa qb = o0 o).
    { intros H. exists []. split; [|split; auto].
      - unfold compose_worker. destruct H as [E|E].
        + assert (M : forall T (l : adata) (x y : T), l = [] -> match l with [] => x | _ :: _ => y end = x) by (intros T [|e l] x y N; congruence). exact (M _ A _ _ E).
        + assert (M : forall T (l : adata) (x y : T), l = [] -> match l with [] => x | _ :: _ => y end = x) by (intros T [|e l] x y N; congruence).
          assert (M' : forall T (l l' : adata) (x y : T), l' = [] -> match l with [] => x | _ :: _ => match l' with [] => x | _ :: _ => y end end = x) by (intros T [|e l] [|e' l'] x y N; congruence).
          exact (M' _ A B _ _ E).
      - intros ra rb qa qb. apply pairsum_zero. rewrite keysA, keysB. intros [(ea & Ha & _) (eb & Hb & _)]. destruct H as [E|E]; rewrite E in *; contradiction. }
    assert (ND : forall l : adata, {l = []} + {l <> []}) by (intros [|x l]; [left|right]; congruence).
    destruct (ND A) as [EA|NA].
    1:{ destruct (TR (or_introl EA)) as (R & E & -> & Z0). exists []. split; [exact E|]. split; [split; [constructor|..]; intros e []|]. split; [|intros e []]. intros. now rewrite Z0. }
    destruct (ND B) as [EB|NB].
    1:{ destruct (TR (or_intror EB)) as (R & E & -> & Z0). exists []. split; [exact E|]. split; [split; [constructor|..]; intros e []|]. split; [|intros e []]. intros. now rewrite Z0. }
    clear TR. exists cw_result. split; [now apply worker_result|].
    assert (SP : forall e, In e cw_result -> exists i j X, i < length GA /\ j < length GB /\ e = (fst (nth i GA ([], [])) ++ fst (nth j GB ([], [])), X) /\ bwf X /\ bshape X = cw_ashape (nth i GA ([], [])) ++ cw_bshape (nth j GB ([], [])) /\
      exists ea eb, In ea A /\ In eb B /\ firstn ncod (fst ea) = fst (nth i GA ([], [])) /\ skipn nc (fst eb) = fst (nth j GB ([], [])) /\ rev (skipn ncod (fst ea)) = firstn nc (fst eb)).
    { intros e He. apply result_In in He. destruct He as (i & j & Hi & Hj & C & He). exists i, j.
      destruct (entry_spec (inGA Hi) (inGB Hj)) as [[E _]|(X & E & WX & SX & _ & M)]; rewrite E in He; [destruct He|]. destruct He as [<-|[]]. exists X. split; [|split; [|split; [|split; [|split]]]]; auto. }
    assert (DOK : data_ok (cod ++ rev dom) cw_result).
    { split.
      - exact result_sorted.
      - intros e He. destruct (SP e He) as (i & j & X & Hi & Hj & -> & _). cbn [fst]. destruct (shapeA (inGA Hi)) as (_ & V & _). destruct (shapeB (inGB Hj)) as (_ & V' & _). now apply valid_row_app.
      - intros e He. destruct (SP e He) as (i & j & X & Hi & Hj & -> & WX & SX & _). cbn [fst snd]. rewrite SX. destruct (shapeA (inGA Hi)) as (-> & V & _). destruct (shapeB (inGB Hj)) as (-> & V' & _).
        unfold mults at 3. rewrite map_app. symmetry. apply shp_app. rewrite (valid_length V). unfold mults. now rewrite !map_length.
      - intros e He. destruct (SP e He) as (i & j & X & Hi & Hj & -> & WX & _). exact WX. }
    split; [exact DOK|]. split.
    - intros ra rb qa qb Va Vb Wa Wb.
      assert (LA : length ra = ncod) by (rewrite (valid_length Va); apply map_length).
      assert (NF : forall i j, i < length GA -> j < length GB -> ra = fst (nth i GA ([], [])) -> rb = fst (nth j GB ([], [])) -> cw_entry (nth i GA ([], [])) (nth j GB ([], [])) = [] -> ~ In (ra ++ rb) (map fst cw_result)).
      { intros i j Hi Hj Ei Ej E H. apply in_map_iff in H. destruct H as (e & Ee & He). apply result_In in He. destruct He as (i' & j' & Hi' & Hj' & C & He).
        destruct (entry_row Hi' Hj' He) as [Er _]. rewrite Ee in Er. apply app_inj in Er; [|now rewrite rowGA]. destruct Er as [Er1 Er2].
        assert (i' = i). { destruct (lt_eq_lt_dec i i') as [[L|L]|L]; auto; exfalso; [assert (Q := ltGA L Hi')|assert (Q := ltGA L Hi)]; rewrite <- Ei, <- Er1 in Q; exact (lex_lt_irrefl Q). }
        assert (j' = j). { destruct (lt_eq_lt_dec j j') as [[L|L]|L]; auto; exfalso; [assert (Q := ltGB L Hj')|assert (Q := ltGB L Hj)]; rewrite <- Ej, <- Er2 in Q; exact (lex_lt_irrefl Q). }
        subst i' j'. rewrite E in He. destruct He. }
      destruct (in_dec row_dec ra (map fst GA)) as [Ia|Ia].
      + destruct (in_dec row_dec rb (map fst GB)) as [Ib|Ib].
        * apply (In_nth _ _ []) in Ia. apply (In_nth _ _ []) in Ib. destruct Ia as (i & Hi & Ei). destruct Ib as (j & Hj & Ej). rewrite map_length in Hi, Hj.
          rewrite nth_map_lt with (d := ([], []) : list nat * list (nat * block)) in Ei by auto. rewrite nth_map_lt with (d := ([], []) : list nat * list (nat * block)) in Ej by auto. symmetry in Ei, Ej.
          destruct (shapeA (inGA Hi)) as (SA & _). destruct (shapeB (inGB Hj)) as (SB & _). rewrite <- Ei in SA. rewrite <- Ej in SB.
          destruct (entry_spec (inGA Hi) (inGB Hj)) as [[E Z0]|(X & E & WX & SX & V & ea & eb & Hea & Heb & Eea & Eeb & M)].
          -- rewrite (sval_notin o _ (NF i j Hi Hj Ei Ej E)). symmetry. rewrite Ei, Ej. apply Z0; [now rewrite SA|now rewrite SB].
          -- rewrite (sval_in o (B := X) _ (data_ok_NoDup DOK)).
             ++ rewrite Ei, Ej. apply V; [now rewrite SA|now rewrite SB].
             ++ apply result_In. exists i, j. split; [|split; [|split]]; auto.
                ** unfold chA, chB. rewrite <- Eea, <- Eeb. now apply CH.
                ** rewrite E, Ei, Ej. now left.
        * rewrite pairsum_zero by tauto. apply sval_notin. intros H. apply in_map_iff in H. destruct H as (e & Ee & He). destruct (SP e He) as (i & j & X & Hi & Hj & -> & _). cbn [fst] in Ee.
          apply app_inj in Ee; [|now rewrite LA, rowGA]. destruct Ee as [_ Ee]. apply Ib. rewrite <- Ee. apply in_map, inGB, Hj.
      + rewrite pairsum_zero by tauto. apply sval_notin. intros H. apply in_map_iff in H. destruct H as (e & Ee & He). destruct (SP e He) as (i & j & X & Hi & Hj & -> & _). cbn [fst] in Ee.
        apply app_inj in Ee; [|now rewrite LA, rowGA]. destruct Ee as [Ee _]. apply Ia. rewrite <- Ee. apply in_map, inGA, Hi.
    - intros e He. destruct (SP e He) as (i & j & X & Hi & Hj & -> & _ & _ & ea & eb & Hea & Heb & Ea & Eb & M). exists ea, eb. cbn [fst]. rewrite Ea, Eb. auto.
  Qed.
End Worker.
