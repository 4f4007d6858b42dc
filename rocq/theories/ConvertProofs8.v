(** fusion trees -> abelian: the three branches; round trips. *)
From Verif Require Import Util StableSort RowModel RowProofs GridModel GridProofs SymModel SymProofs CatSpec Sums SpaceModel SpaceSpec SpaceProofs SpaceProofs2 SpaceProofs3 SpaceProofs7
  PipeModel PipeProofs PipeProofs2 PipeProofs4 TreeModel TreeProofs TensorModel TensorSpec FormalSum TensorProofs TensorProofs2 TensorProofs3 TensorProofs4 TensorProofs5 BlockModel BlockProofs SparseModel SparseSpec SparseProofs
  SparseProofs2 SparseProofs3 SparseProofs6 SparseCharge SparseDense ConvertModel ConvertSpec ConvertProofs ConvertProofs2 ConvertProofs3 ConvertProofs4 ConvertProofs5 ConvertProofs6 ConvertProofs7.
Set Implicit Arguments. Unset Strict Implicit.
Open Scope nat_scope.

Section Branches.
  Variable S : tsymm.
  Hypothesis OK : tsymm_ok S.
  Variable fuse : sector -> sector -> sector.
  Hypothesis G : abelian_group_laws S fuse.
  Variable K : Type.
  Variable o : ops K.
  Variables P Q : tprod.
  Hypothesis HP : tp_ok S P.
  Hypothesis HQ : tp_ok S Q.
  Notation block := (blk K).
  Notation cod := (tp_flat_legs P).
  Notation dom := (tp_flat_legs Q).
  Notation gP := (grid cod).
  Notation gQ := (grid dom).
  Notation fusP := (fus S fuse cod).
  Notation fusQ := (fus S fuse dom).
  Let cod_ok := proj1 HP.
  Let dom_ok := proj1 HQ.
  Section Data.
  Variable F : list (nat * nat * blk K).
  Hypothesis FO : ft_ok P Q F.
  Lemma fsec_in_P k : k < length F -> In (fsec Q F k) (tp_secs P).
  Proof. intros Hk. unfold fsec. assert (I := nth_In F (norow K) Hk). rewrite <- (fo_sector FO I). apply nth_In. apply (fo_range FO I). Qed.

  Definition spl2 (V : block) (s1 s2 : list nat) : option block := bsplit_legs o V [0; 1] [s1; s2] [true; false].
  Definition spl_dom (V : block) (s1 s2 : list nat) : option block := bsplit_legs o (breshape V (tl (bshape V))) [0] [s2] [false].
  Definition spl_cod (V : block) (s1 s2 : list nat) : option block := bsplit_legs o (breshape V (removelast (bshape V))) [0] [s1] [true].
  Notation spl_spec spl := (forall a b V, In a gP -> In b gQ -> bwf V -> bshape V = [hgt cod a; hgt dom b] ->
    exists B, spl V (shp (mults cod) a) (shp (mults dom) b) = Some B /\ unfolded o (shp (mults cod) a) (shp (mults dom) b) V B).
  Lemma spl2_ok : cod <> [] -> dom <> [] -> spl_spec spl2.
  Proof. intros N1 N2 a b V Ia Ib WV SV. apply split2_spec; auto; now apply shp_nonempty. Qed.
  Lemma spl_dom_ok : cod = [] -> dom <> [] -> spl_spec spl_dom.
  Proof.
    intros N1 N2 a b V Ia Ib WV SV. assert (EA : shp (mults cod) a = []) by (rewrite N1; destruct a; reflexivity). unfold hgt in SV. rewrite EA in *. apply split_dom_spec; auto. now apply shp_nonempty.
  Qed.
  Lemma spl_cod_ok : cod <> [] -> dom = [] -> spl_spec spl_cod.
  Proof.
    intros N1 N2 a b V Ia Ib WV SV. assert (EB : shp (mults dom) b = []) by (rewrite N2; destruct b; reflexivity). unfold hgt in SV. rewrite EB in *. apply split_cod_spec; auto. now apply shp_nonempty.
  Qed.
  Notation result spl := (match fold_left (gab_dom_step S o P Q F spl) gQ (Some ([], repeat 0 (length F))) with Some (out, _) => Some (make_data out false) | None => None end).
  Lemma ab_branch2 : cod <> [] -> dom <> [] -> convert_FT_to_abelian S o P Q F = result spl2.
  Proof.
    intros N1 N2. unfold grid; rewrite <- (odo_all_eq (map nsec dom)). unfold convert_FT_to_abelian. revert N1 N2. change (ab_dom_step S o P Q F) with (gab_dom_step S o P Q F spl2). case cod; [intros X; now destruct X|]. intros x1 l1 _. case dom; [intros X; now destruct X|]. reflexivity.
  Qed.
  Lemma ab_branch_dom : cod = [] -> convert_FT_to_abelian S o P Q F = result spl_dom.
  Proof.
    intros EC. assert (E0 : convert_FT_to_abelian S o P Q F = match fold_left (ab_dom_step0 S o Q F) gQ (Some ([], repeat 0 (length F))) with Some (out, _) => Some (make_data out false) | None => None end).
    { unfold grid; rewrite <- (odo_all_eq (map nsec dom)); unfold convert_FT_to_abelian; rewrite EC; reflexivity. }
    rewrite E0. assert (EF : forall l x, (forall b, In b l -> In b gQ) -> fold_left (ab_dom_step0 S o Q F) l x = fold_left (gab_dom_step S o P Q F spl_dom) l x); [|now rewrite EF by auto].
    induction l as [|b l IH]; intros x IN; [reflexivity|]. cbn [fold_left]. rewrite <- IH by (intros b' I'; apply IN; now right). f_equal. assert (Ib : In b gQ) by (apply IN; now left).
    unfold ab_dom_step0, gab_dom_step. destruct x as [[out i2s]|]; [|reflexivity]. rewrite sectors_at_row. fold (row_sectors S dom b). rewrite (mf_at G dom_ok Ib).
    destruct (row_eqb (fusQ b) (sym_trivial S)) eqn:R; cbn [negb].
    - apply row_eqb_eq in R. destruct (block_ind_from_coupled (map fst F) (fusQ b) Q) as [[k|]|]; [|reflexivity|reflexivity]. rewrite EC. cbn [map]. change (odo_all []) with [@nil nat]. cbn [fold_left]. unfold gab_cod_step. rewrite EC. cbn [sectors_at combine map].
      change (multiple_fusion S []) with (Some (sym_trivial S)). rewrite <- R, (proj2 (row_eqb_eq _ _) eq_refl). cbn [negb]. change (prod (mults_at [] [])) with 1. change (0 + 1) with 1. unfold spl_dom. destruct (bsplit_legs o _ [0] [mults_at dom b] [false]) as [B|]; reflexivity.
    - destruct (coupled_spec OK HQ (fusQ b) FO) as [[k [EK [Hk Sk]]]|[EK NK]]; rewrite EK; [|reflexivity]. exfalso. assert (I := fsec_in_P Hk). rewrite (empty_secs HP EC) in I. destruct I as [I|[]]. rewrite Sk in I. rewrite <- I, (proj2 (row_eqb_eq _ _) eq_refl) in R. discriminate.
  Qed.
  Lemma ab_branch_cod : cod <> [] -> dom = [] -> convert_FT_to_abelian S o P Q F = result spl_cod.
  Proof.
    intros NC ED. assert (E0 : convert_FT_to_abelian S o P Q F = match fold_left (ab_cod_step0 S o P Q F) gP (Some ([], repeat 0 (length F))) with Some (out, _) => Some (make_data out false) | None => None end).
    { unfold grid; rewrite <- (odo_all_eq (map nsec cod)); unfold convert_FT_to_abelian; rewrite ED; revert NC; case cod; [intros X; now destruct X|]; reflexivity. }
    rewrite E0, (empty_grid ED). cbn [fold_left]. unfold gab_dom_step. rewrite ED. cbn [sectors_at combine map]. change (multiple_fusion S []) with (Some (sym_trivial S)). change (prod (mults_at [] [])) with 1. cbv zeta.
    rewrite odo_all_eq. change (make_grid (map nsec cod) true) with gP. destruct (coupled_spec OK HQ (sym_trivial S) FO) as [[k [EK [Hk Sk]]]|[EK NK]]; rewrite EK.
    - rewrite nth_repeat_lt by exact Hk.
      assert (EF : forall l out i1s, length i1s = length F -> exists i1s', fold_left (ab_cod_step0 S o P Q F) l (Some (out, i1s)) = match fold_left (gab_cod_step S o P Q F spl_cod [] (sym_trivial S) k 0 1) l (Some (out, nth k i1s 0)) with Some (out, _) => Some (out, i1s') | None => None end).
      { induction l as [|a l IH]; intros out i1s L; [exists i1s; reflexivity|]. cbn [fold_left]. unfold ab_cod_step0 at 2. unfold gab_cod_step at 2. destruct (multiple_fusion S (sectors_at S cod a)) as [c|].
        - destruct (row_eqb c (sym_trivial S)) eqn:R; cbn [negb]; [|now apply IH]. apply row_eqb_eq in R. subst c. rewrite EK. cbv zeta. unfold spl_cod at 2. cbn [rev]. rewrite app_nil_r, !Nat.add_0_l.
          destruct (bsplit_legs o _ [0] [mults_at cod a] [true]) as [B|].
          + destruct (IH (out ++ [(a, B)]) (upd i1s k (nth k i1s 0 + prod (mults_at cod a)))) as [i1s' E]; [now rewrite upd_length|]. exists i1s'. rewrite E. rewrite nth_upd_eq by lia. reflexivity.
          + exists []. assert (N1 : forall l, fold_left (ab_cod_step0 S o P Q F) l None = None) by (induction l0; auto). assert (N2 : forall l, fold_left (gab_cod_step S o P Q F spl_cod [] (sym_trivial S) k 0 1) l None = None) by (induction l0; auto). now rewrite N1, N2.
        - exists []. assert (N1 : forall l, fold_left (ab_cod_step0 S o P Q F) l None = None) by (induction l0; auto). assert (N2 : forall l, fold_left (gab_cod_step S o P Q F spl_cod [] (sym_trivial S) k 0 1) l None = None) by (induction l0; auto). now rewrite N1, N2. }
      destruct (EF gP [] (repeat 0 (length F)) (repeat_length _ _)) as [i1s' E]. rewrite E. rewrite nth_repeat_lt by exact Hk. clear E. lazymatch goal with |- match match ?t with _ => _ end with _ => _ end = _ => change (match match t with Some (out, _) => Some (out, i1s') | None => None end with Some (out, _) => Some (make_data out false) | None => None end = match match t with Some (out, _) => Some (out, upd (repeat 0 (length F)) k (0 + 1)) | None => None end with Some (out, _) => Some (make_data out false) | None => None end); destruct t as [[out i]|]; reflexivity end.
    - assert (EF : forall l x, (forall a, In a l -> In a gP) -> fold_left (ab_cod_step0 S o P Q F) l (Some x) = Some x); [|now rewrite EF by auto].
      induction l as [|a l IH]; intros x IN; [reflexivity|]. cbn [fold_left]. assert (Ia : In a gP) by (apply IN; now left). unfold ab_cod_step0 at 2. destruct x as [out i1s]. rewrite sectors_at_row. fold (row_sectors S cod a). rewrite (mf_at G cod_ok Ia).
      destruct (row_eqb (fusP a) (sym_trivial S)) eqn:R; cbn [negb]; [apply row_eqb_eq in R; rewrite R, EK|]; apply IH; intros a' I'; apply IN; now right.
  Qed.
  Theorem to_abelian_backend : cod <> [] \/ dom <> [] -> exists D, convert_FT_to_abelian S o P Q F = Some D /\ tensor_ok S cod dom D /\
    forall a p b q, In a gP -> In b gQ -> valid_idx (shp (mults cod) a) p -> valid_idx (shp (mults dom) b) q -> sval o D (a ++ rev b) (p ++ rev q) = ft_value S o P Q F a p b q.
  Proof.
    intros NE. assert (EM : forall l : list espace, l = [] \/ l <> []) by (intros l; destruct l; [now left|right; discriminate]). assert (EC := EM cod). assert (ED := EM dom). clear EM.
    assert (FIN : forall spl, convert_FT_to_abelian S o P Q F = result spl -> spl_spec spl -> exists D, convert_FT_to_abelian S o P Q F = Some D /\ tensor_ok S cod dom D /\
      forall a p b q, In a gP -> In b gQ -> valid_idx (shp (mults cod) a) p -> valid_idx (shp (mults dom) b) q -> sval o D (a ++ rev b) (p ++ rev q) = ft_value S o P Q F a p b q).
    { intros spl E C. destruct (gab_succeeds OK G HP HQ FO C) as [out [i2s EF]]. rewrite E, EF. eexists. split; [reflexivity|]. apply (gab_result OK G HP HQ FO C EF). }
    destruct EC as [EC|EC], ED as [ED|ED].
    - destruct NE; contradiction.
    - apply (FIN spl_dom); [now apply ab_branch_dom|now apply spl_dom_ok].
    - apply (FIN spl_cod); [now apply ab_branch_cod|now apply spl_cod_ok].
    - apply (FIN spl2); [now apply ab_branch2|now apply spl2_ok].
  Qed.
  Lemma ft_value_at a p b q c : In a gP -> In b gQ -> fusP a = c -> fusQ b = c ->
    ft_value S o P Q F a p b q = ft_entry o Q F c (off S fuse cod c gP a + flat_index (shp (mults cod) a) true p) (off S fuse dom c gQ b + flat_index (shp (mults dom) b) true q).
  Proof.
    intros Ia Ib Fa Fb. unfold ft_value. rewrite (mf_at G cod_ok Ia), (mf_at G dom_ok Ib), Fa, Fb, (proj2 (row_eqb_eq _ _) eq_refl).
    destruct (forest_slice_at OK G HP c Ia) as [e1 ->]. destruct (forest_slice_at OK G HQ c Ib) as [e2 ->]. reflexivity.
  Qed.
  End Data.
  (** every position of a coupled block belongs to sectors and multiplicity indices *)
  Lemma ft_position R c x : tp_ok S R -> x < block_size R c -> exists a p, In a (grid (tp_flat_legs R)) /\ valid_idx (shp (mults (tp_flat_legs R)) a) p /\ fus S fuse (tp_flat_legs R) a = c /\
    x = off S fuse (tp_flat_legs R) c (grid (tp_flat_legs R)) a + flat_index (shp (mults (tp_flat_legs R)) a) true p.
  Proof.
    intros HR Hx. rewrite (block_size_tot OK G HR) in Hx. destruct (off_cover Hx) as [a [Ia [Fa [L1 L2]]]]. set (l := tp_flat_legs R) in *. assert (X : x - off S fuse l c (grid l) a < prod (shp (mults l) a)) by (unfold hgt in L2; lia).
    destruct (flat_index_surj true X) as [p [Vp Ep]]. exists a, p. split; [exact Ia|]. split; [exact Vp|]. split; [exact Fa|]. lia.
  Qed.
End Branches.
