(** abelian -> fusion trees: the loops. *)
From Verif Require Import Util StableSort RowModel RowProofs GridModel GridProofs SymModel SymProofs CatSpec Sums SpaceModel SpaceSpec SpaceProofs SpaceProofs2 SpaceProofs3 SpaceProofs7
  PipeModel PipeProofs PipeProofs2 PipeProofs4 TreeModel TreeProofs TensorModel TensorSpec FormalSum TensorProofs TensorProofs2 TensorProofs3 TensorProofs4 TensorProofs5 BlockModel BlockProofs SparseModel SparseSpec SparseProofs
  SparseProofs6 SparseCharge ConvertModel ConvertSpec ConvertProofs ConvertProofs2 ConvertProofs3.
Set Implicit Arguments. Unset Strict Implicit.
Open Scope nat_scope.

Lemma valid2 h w x y : x < h -> y < w -> valid_idx [h; w] [x; y].
Proof. intros. repeat constructor; assumption. Qed.

Section Loop.
  Variable S : tsymm.
  Hypothesis OK : tsymm_ok S.
  Variable fuse : sector -> sector -> sector.
  Hypothesis G : abelian_group_laws S fuse.
  Variable K : Type.
  Variable o : ops K.
  Variables P Q : tprod.
  Hypothesis HP : tp_ok S P.
  Hypothesis HQ : tp_ok S Q.
  Variable D : list (list nat * blk K).
  Hypothesis ND : NoDup (map fst D).
  Notation block := (blk K).
  Notation cod := (tp_flat_legs P).
  Notation dom := (tp_flat_legs Q).
  Notation gP := (grid cod).
  Notation gQ := (grid dom).
  Notation fusP := (fus S fuse cod).
  Notation fusQ := (fus S fuse dom).
  Notation totP := (tot S fuse cod).
  Notation totQ := (tot S fuse dom).
  Notation offP := (off S fuse cod).
  Notation offQ := (off S fuse dom).
  Notation nob := (noblk K).
  Notation sv := (sval o).
  Let cod_ok := proj1 HP.
  Let dom_ok := proj1 HQ.
  Definition has (r : list nat) : bool := match get_block D r with Some _ => true | None => false end.
  Lemma has_false r q : has r = false -> sv D r q = o0 o.
  Proof. unfold has. assert (X := get_block_spec r ND). destruct (get_block D r); [discriminate|]. intros _. now apply sval_notin. Qed.

  (** folding the legs of a block into a matrix, in the three branches *)
  Variable cmb : block -> option block.
  Hypothesis CMB : forall a b B, In a gP -> In b gQ -> In (a ++ rev b, B) D ->
    exists V, cmb B = Some V /\ bshape V = [hgt cod a; hgt dom b] /\ bwf V /\
      forall p q, valid_idx (shp (mults cod) a) p -> valid_idx (shp (mults dom) b) q ->
        bat o V [flat_index (shp (mults cod) a) true p; flat_index (shp (mults dom) b) true q] = bat o B (p ++ rev q).

  Definition gcod_step (b : list nat) (c : sector) (k i2 width : nat) (acc : option (list block * list bool * nat)) (a : list nat) : option (list block * list bool * nat) :=
    match acc with
    | None => None
    | Some (blocks, touched, i1) =>
      match multiple_fusion S (sectors_at S cod a) with
      | None => None
      | Some c2 =>
        let height := prod (mults_at cod a) in
        if negb (row_eqb c2 c) then acc else
        match get_block D (a ++ rev b) with
        | None => Some (blocks, touched, i1 + height)
        | Some B =>
          match cmb B with
          | None => None
          | Some V => match assign_at o blocks k [i1; i2] [i1 + height; i2 + width] V with
                      | None => None
                      | Some blocks => Some (blocks, upd touched k true, i1 + height)
                      end
          end
        end
      end
    end.

  Lemma assign_at_ok blocks k i1 h i2 w (V : block) : k < length blocks -> bshape V = [h; w] -> (exists H W, bshape (nth k blocks nob) = [H; W] /\ i1 + h <= H /\ i2 + w <= W) ->
    assign_at o blocks k [i1; i2] [i1 + h; i2 + w] V = Some (upd blocks k (bset_slice o (nth k blocks nob) [i1; i2] [i1 + h; i2 + w] V)).
  Proof.
    intros Hk SV [H [W [SB [L1 L2]]]]. unfold assign_at. rewrite (nth_error_nth' _ nob) by exact Hk. unfold assign. rewrite SV, SB. cbn [combine map fst snd forallb].
    replace (i1 + h - i1) with h by lia. replace (i2 + w - i2) with w by lia. destruct (list_eq_dec _ _ _) as [_|X]; [|now destruct X]. destruct (Nat.leb_spec (i1 + h) H); [|lia]. destruct (Nat.leb_spec (i2 + w) W); [|lia]. reflexivity.
  Qed.

  Lemma gcod_loop b c k i2 : In b gQ -> forall rest done blocks touched B0 W,
    gP = done ++ rest -> k < length blocks -> k < length touched -> nth k blocks nob = B0 -> bshape B0 = [totP c gP; W] -> bwf B0 -> i2 + hgt dom b <= W ->
    exists blocks1 touched1 B1, fold_left (gcod_step b c k i2 (hgt dom b)) rest (Some (blocks, touched, totP c done)) = Some (blocks1, touched1, totP c gP) /\
      length blocks1 = length blocks /\ length touched1 = length touched /\
      (forall m, m <> k -> nth m blocks1 nob = nth m blocks nob) /\ (forall m, m <> k -> nth m touched1 false = nth m touched false) /\
      nth k blocks1 nob = B1 /\ bshape B1 = bshape B0 /\ bwf B1 /\
      nth k touched1 false = orb (nth k touched false) (existsb (fun a => row_eqb (fusP a) c && has (a ++ rev b)) rest) /\
      (forall x y, x < totP c gP -> y < W -> x < totP c done \/ y < i2 \/ i2 + hgt dom b <= y -> bat o B1 [x; y] = bat o B0 [x; y]) /\
      (forall a p q, In a rest -> fusP a = c -> valid_idx (shp (mults cod) a) p -> valid_idx (shp (mults dom) b) q ->
         let x := offP c gP a + flat_index (shp (mults cod) a) true p in let y := i2 + flat_index (shp (mults dom) b) true q in
         bat o B1 [x; y] = if has (a ++ rev b) then sv D (a ++ rev b) (p ++ rev q) else bat o B0 [x; y]).
  Proof.
    intros Ib. induction rest as [|a rest IH]; intros done blocks touched B0 W EG Hk Ht EB SB WF LW.
    - exists blocks, touched, B0. cbn [fold_left existsb]. rewrite app_nil_r in EG. rewrite orb_false_r. rewrite EG. repeat (split; [first [reflexivity|assumption|intros; reflexivity]|]). intros a p q [].
    - assert (Ia : In a gP) by (rewrite EG; apply in_app_iff; right; now left).
      assert (EG' : gP = (done ++ [a]) ++ rest) by (now rewrite <- app_assoc).
      assert (OA := off_grid S fuse c EG). assert (OB := off_bound S fuse c Ia).
      cbn [fold_left]. unfold gcod_step at 2. rewrite sectors_at_row. fold (row_sectors S cod a). rewrite (mf_at G cod_ok Ia). rewrite mults_at_shp. fold (hgt cod a). cbv zeta.
      assert (TA : totP c (done ++ [a]) = totP c done + (if row_eqb (fusP a) c then hgt cod a else 0)) by (rewrite tot_app, tot_cons; unfold tot at 2, wd; cbn; lia).
      destruct (row_eqb (fusP a) c) eqn:R; cbn [negb].
      + assert (Ra := proj1 (row_eqb_eq _ _) R). unfold wd in OB. rewrite R in OB. assert (GB := get_block_spec (a ++ rev b) ND). destruct (get_block D (a ++ rev b)) as [B|] eqn:EGB.
        * assert (HB : has (a ++ rev b) = true) by (unfold has; now rewrite EGB). destruct (CMB Ia Ib GB) as [V [EV [SV [WV VV]]]]. rewrite EV.
          rewrite (assign_at_ok (V := V)) by (first [exact Hk|exact SV|exists (totP c gP), W; rewrite EB; repeat split; [exact SB|lia|exact LW]]).
          rewrite EB. set (B0' := bset_slice o B0 [totP c done; i2] [totP c done + hgt cod a; i2 + hgt dom b] V).
          assert (SB' : bshape B0' = bshape B0) by reflexivity. assert (WF' : bwf B0') by apply bmk_wf.
          destruct (IH (done ++ [a]) (upd blocks k B0') (upd touched k true) B0' W) as [bl [to [B1 [E1 [L1 [L2 [M1 [M2 [N1 [S1 [W1 [T1 [O1 I1]]]]]]]]]]]]]; auto; try (rewrite upd_length; assumption); [now rewrite nth_upd_eq by exact Hk|].
          rewrite TA in E1. exists bl, to, B1. split; [exact E1|]. rewrite upd_length in L1, L2. split; [exact L1|]. split; [exact L2|].
          split; [intros m Hm; rewrite M1, nth_upd_neq by auto; reflexivity|]. split; [intros m Hm; rewrite M2, nth_upd_neq by auto; reflexivity|]. split; [exact N1|]. split; [exact S1|]. split; [exact W1|].
          split; [rewrite T1, nth_upd_eq by exact Ht; cbn [existsb]; rewrite R, HB; cbn; now rewrite orb_true_r|].
          split.
          { intros x y Hx Hy C. rewrite O1; [|exact Hx|exact Hy|destruct C as [C|[C|C]]; [left; lia|right; left; exact C|right; right; exact C]].
            unfold B0'. apply bat_set_slice_out; [rewrite SB; now apply valid2|]. cbn [in_box]. lia. }
          { intros a' p q Ia' Fa' Vp Vq; cbv zeta. destruct Ia' as [<- |Ia'].
            - assert (FP := flat_index_lt true Vp). assert (FQ := flat_index_lt true Vq). fold (hgt cod a) in FP. fold (hgt dom b) in FQ. rewrite HB.
              rewrite O1; [|lia|lia|left; lia]. unfold B0'. rewrite bat_set_slice_in; [|rewrite SB; apply valid2; lia|cbn [in_box]; lia].
              cbn [combine map fst snd]. replace (offP c gP a + flat_index (shp (mults cod) a) true p - totP c done) with (flat_index (shp (mults cod) a) true p) by lia.
              replace (i2 + flat_index (shp (mults dom) b) true q - i2) with (flat_index (shp (mults dom) b) true q) by lia. rewrite VV by assumption. symmetry. now apply sval_in.
            - rewrite I1 by assumption. destruct (has (a' ++ rev b)); [reflexivity|].
              assert (FP := flat_index_lt true Vp). assert (FQ := flat_index_lt true Vq). assert (Ga' : In a' gP) by (rewrite EG; apply in_app_iff; right; now right). assert (OB' := off_bound S fuse c Ga'). unfold wd in OB'. rewrite Fa', (proj2 (row_eqb_eq c c) eq_refl) in OB'. fold (hgt cod a') in FP. fold (hgt dom b) in FQ.
              unfold B0'. apply bat_set_slice_out; [rewrite SB; apply valid2; lia|]. cbn [in_box].
              assert (LE : totP c done + hgt cod a <= offP c gP a').
              { apply in_split in Ia'. destruct Ia' as [r1 [r2 Er]]. assert (EG2 : gP = (done ++ a :: r1) ++ a' :: r2) by (rewrite EG, Er, <- app_assoc; reflexivity). rewrite (off_grid S fuse c EG2), tot_app, tot_cons. unfold wd. rewrite R. lia. }
              lia. }
        * assert (HB : has (a ++ rev b) = false) by (unfold has; now rewrite EGB).
          destruct (IH (done ++ [a]) blocks touched B0 W) as [bl [to [B1 [E1 [L1 [L2 [M1 [M2 [N1 [S1 [W1 [T1 [O1 I1]]]]]]]]]]]]]; auto.
          rewrite TA in E1. exists bl, to, B1. split; [exact E1|]. split; [exact L1|]. split; [exact L2|]. split; [exact M1|]. split; [exact M2|]. split; [exact N1|]. split; [exact S1|]. split; [exact W1|].
          split; [rewrite T1; cbn [existsb]; rewrite R, HB; reflexivity|]. split; [intros x y Hx Hy C; apply O1; auto; destruct C as [C|C]; [left; lia|now right]|].
          intros a' p q Ia' Fa' Vp Vq; cbv zeta. destruct Ia' as [<- |Ia']; [|now apply I1]. rewrite HB. assert (FP := flat_index_lt true Vp). assert (FQ := flat_index_lt true Vq). fold (hgt cod a) in FP. fold (hgt dom b) in FQ. apply O1; [lia|lia|left; lia].
      + rewrite <- (Nat.add_0_r (totP c done)). rewrite <- TA.
        destruct (IH (done ++ [a]) blocks touched B0 W) as [bl [to [B1 [E1 [L1 [L2 [M1 [M2 [N1 [S1 [W1 [T1 [O1 I1]]]]]]]]]]]]]; auto.
        exists bl, to, B1. split; [exact E1|]. split; [exact L1|]. split; [exact L2|]. split; [exact M1|]. split; [exact M2|]. split; [exact N1|]. split; [exact S1|]. split; [exact W1|].
        split; [rewrite T1; cbn [existsb]; rewrite R; reflexivity|]. split; [intros x y Hx Hy C; apply O1; auto|].
        intros a' p q Ia' Fa' Vp Vq; cbv zeta. destruct Ia' as [<- |Ia']; [|now apply I1]. rewrite Fa', (proj2 (row_eqb_eq c c) eq_refl) in R. discriminate.
  Qed.
End Loop.
