(** TensorProduct: calc_sectors_of_spaces computes the fusion product of its arguments. *)
From Verif Require Import Util StableSort RowModel RowProofs GridModel GridProofs SymModel SymProofs SpaceModel SpaceSpec SpaceProofs SpaceProofs2 SpaceProofs7
  PipeModel PipeProofs TreeModel TreeProofs FormalSum TensorModel TensorSpec TensorProofs TensorProofs2.
Set Implicit Arguments. Unset Strict Implicit.
Open Scope nat_scope.

Section Calc.
  Variable S : tsymm.
  Hypothesis OK : tsymm_ok S.
  Let RING := to_ring OK.
  Notation valid a := (sym_valid S a = true).

  Fixpoint gcols (stride : nat) (spaces : list space) : list (nat -> sector) :=
    match spaces with
    | [] => []
    | V :: r => (fun m => nth ((m / stride) mod length (sp_secs V)) (sp_secs V) []) :: gcols (stride * length (sp_secs V)) r
    end.
  Lemma grid_columns_eq ncomb spaces : forall stride, grid_columns ncomb stride spaces = map (fun h : nat -> sector => map h (seq 0 ncomb)) (gcols stride spaces).
  Proof. induction spaces as [|V r IH]; intros stride; [easy|]. cbn [grid_columns gcols map]. now rewrite IH. Qed.

  Definition lens_ok (spaces : list space) : Prop := Forall (fun V => length (sp_mults V) = length (sp_secs V)) spaces.
  Lemma pairs_length V : length (sp_mults V) = length (sp_secs V) -> length (sp_pairs V) = length (sp_secs V).
  Proof. intros L. unfold sp_pairs. rewrite combine_length. lia. Qed.
  Lemma pairs_nth V i : length (sp_mults V) = length (sp_secs V) -> nth i (sp_pairs V) nomult = (nth i (sp_secs V) [], nth i (sp_mults V) 0).
  Proof. intros L. unfold sp_pairs, nomult. apply combine_nth. auto. Qed.
  Lemma div_stride m s n : 0 < s -> m / (s * n) = m / s / n.
  Proof.
    intros H. destruct n as [|n]; [rewrite Nat.mul_0_r; reflexivity|]. rewrite Nat.div_div by lia. reflexivity.
  Qed.
  Lemma gcols_fpick spaces : lens_ok spaces -> forall stride m, 0 < stride -> (forall V, In V spaces -> 0 < length (sp_secs V)) ->
    map (fun h => h m) (gcols stride spaces) = map fst (fpick (m / stride) (map sp_pairs spaces)).
  Proof.
    induction 1 as [|V r L LL IH]; intros stride m Hs P; [easy|]. cbn [gcols map fpick]. rewrite pairs_length, pairs_nth by auto. cbn [fst]. f_equal.
    assert (0 < length (sp_secs V)) by (apply P; now left).
    rewrite IH; [|nia|intros; apply P; now right]. now rewrite div_stride.
  Qed.
  Lemma grid_mult_fpick spaces : lens_ok spaces -> forall stride acc m, 0 < stride -> (forall V, In V spaces -> 0 < length (sp_secs V)) ->
    grid_mult m stride acc spaces = acc * cprod (fpick (m / stride) (map sp_pairs spaces)).
  Proof.
    induction 1 as [|V r L LL IH]; intros stride acc m Hs P; [cbn; lia|]. cbn [grid_mult map fpick]. rewrite pairs_length, pairs_nth by auto.
    assert (0 < length (sp_secs V)) by (apply P; now left).
    rewrite IH; [|nia|intros; apply P; now right]. rewrite div_stride by auto.
    unfold cprod. cbn [map snd prod fold_right]. fold (prod (map snd (fpick (m / stride / length (sp_secs V)) (map sp_pairs r)))). lia.
  Qed.
  Lemma ncomb_csize spaces : lens_ok spaces -> forall acc, fold_left (fun n V => n * length (sp_secs V)) spaces acc = acc * csize (map sp_pairs spaces).
  Proof.
    induction 1 as [|V r L LL IH]; intros acc; [cbn; lia|]. cbn [fold_left map csize]. rewrite IH, pairs_length by auto. lia.
  Qed.

  Lemma csize_0 ll : csize ll <> 0 -> forall l, In l ll -> 0 < length l.
  Proof. induction ll as [|l r IH]; [easy|]. cbn [csize]. intros H k [<-|I]; [|apply IH; auto]; nia. Qed.
  Lemma combos_nil_csize ll : length (combos ll) = csize ll.
  Proof. rewrite <- cpick_combos, map_length, seq_length. reflexivity. Qed.
  Lemma fpick_In ll m : m < csize ll -> In (fpick m ll) (combos ll).
  Proof. intros H. eapply Permutation_in; [apply fpick_perm|]. apply (in_map (fun m => fpick m ll)). apply in_seq. lia. Qed.

  Lemma cprod_pos ll : (forall l p, In l ll -> In p l -> 0 < snd p) -> forall cb, In cb (combos ll) -> 0 < cprod cb.
  Proof.
    induction ll as [|l r IH]; intros P cb I.
    - destruct I as [<-|[]]. cbn. lia.
    - cbn [combos] in I. apply in_flat_map in I. destruct I as (a & Ia & I). apply in_map_iff in I. destruct I as (cb' & <- & I).
      change (cprod (a :: cb')) with (snd a * cprod cb'). assert (0 < snd a) by (eapply P; [now left|exact Ia]).
      assert (0 < cprod cb') by (apply IH; auto; intros l' p' H1 H2; apply (P l' p'); [now right|exact H2]). nia.
  Qed.

  Lemma calc_abelian_spec spaces : s_abelian S = true -> spaces <> [] -> Forall (space_ok S) spaces ->
    exists u m, calc_abelian S spaces = Some (u, m) /\ space_ok S (Sp u m (Some Sorted)) /\ feq (combine u m) (convs S (map sp_pairs spaces)).
  Proof.
    intros AB NE SO. destruct (to_abelian OK AB) as [fuse G].
    assert (LO : lens_ok spaces). { eapply Forall_impl; [|exact SO]. intros V. apply sk_len. }
    assert (VL : Forall (valids S) (map sp_pairs spaces)).
    { apply Forall_map. eapply Forall_impl; [|exact SO]. intros V. apply space_ok_valids. }
    unfold calc_abelian. rewrite (ncomb_csize LO), Nat.mul_1_l, grid_columns_eq. set (ll := map sp_pairs spaces). set (n := csize ll).
    assert (NZ : forall m, m < n -> forall V, In V spaces -> 0 < length (sp_secs V)).
    { intros m Hm V IV. rewrite <- pairs_length by (exact (proj1 (Forall_forall _ _) LO V IV)). apply (@csize_0 ll); [unfold n in Hm; lia|]. now apply in_map. }
    assert (GC : forall m, m < n -> map (fun h => h m) (gcols 1 spaces) = map fst (fpick m ll)).
    { intros m Hm. rewrite gcols_fpick by (eauto; lia). now rewrite Nat.div_1_r. }
    assert (CV : forall m, m < n -> all_valid S (fpick m ll)).
    { intros m Hm. apply (combos_valid VL). apply fpick_In, Hm. }
    rewrite (mfb_cols G).
    2:{ destruct spaces; [easy|]. discriminate. }
    2:{ intros h m Ih Im. apply in_seq in Im. assert (Hm : m < n) by lia. specialize (CV m Hm). specialize (GC m Hm).
        assert (I : In (h m) (map (fun h => h m) (gcols 1 spaces))) by (now apply (in_map (fun h : nat -> sector => h m))). rewrite GC in I. apply in_map_iff in I. destruct I as (p & E & Ip).
        rewrite <- E. exact (proj1 (Forall_forall _ _) CV p Ip). }
    rewrite (map_ext_in _ (fun m => fuse_all S fuse (map fst (fpick m ll)))).
    2:{ intros m Im. apply in_seq in Im. rewrite GC by lia. reflexivity. }
    rewrite (map_ext_in (fun m => grid_mult m 1 1 spaces) (fun m => cprod (fpick m ll))).
    2:{ intros m Im. apply in_seq in Im. rewrite grid_mult_fpick; auto; [|intros V IV; apply (NZ m); auto; lia]. rewrite Nat.div_1_r. fold ll. lia. }
    set (rows := map (fun m => fuse_all S fuse (map fst (fpick m ll))) (seq 0 n)).
    set (mults := map (fun m => cprod (fpick m ll)) (seq 0 n)).
    assert (VR : forall r, In r rows -> valid r).
    { intros r Ir. apply in_map_iff in Ir. destruct Ir as (m & <- & Im). apply in_seq in Im. apply (fuse_all_valid G).
      apply Forall_map. apply CV. lia. }
    assert (W : same_width (sym_len S) rows). { apply Forall_forall. intros r Ir. apply (fr_len RING). now apply VR. }
    assert (LR : length mults = length rows) by (unfold rows, mults; now rewrite !map_length).
    destruct (unique_sorted_nat_spec W LR) as (u & m & E & SS & I & L & F). exists u, m. split; [exact E|].
    assert (N : NoDup u). { eapply StronglySorted_NoDup; [|exact SS]. intros a. apply lex_lt_irrefl. }
    split.
    - constructor; cbn [sp_secs sp_mults sp_order]; auto.
      + intros s Is. apply VR. now apply I.
      + eapply feq_pos; [|exact LR|exact N|exact I|exact L|exact F]. intros x Ix. apply in_map_iff in Ix. destruct Ix as (k & <- & Ik). apply in_seq in Ik.
        apply cprod_pos with (ll := ll); [|apply fpick_In; lia].
        intros l p Il Ip. apply in_map_iff in Il. destruct Il as (V & <- & IV). apply (sk_pos (proj1 (Forall_forall _ _) SO V IV)).
        destruct p. eapply in_combine_r. exact Ip.
    - eapply feq_trans; [exact F|]. intros c. rewrite (@convs_combos S RING c ll VL).
      rewrite <- (nsum_perm (Permutation_map (fun cb => cprod cb * num_trees S (map fst cb) c) (fpick_perm ll))). rewrite map_map. fold n.
      unfold rows, mults. rewrite fmult_weight. unfold weight.
      assert (CE : forall l : list nat, combine (map (fun m => fuse_all S fuse (map fst (fpick m ll))) l) (map (fun m => cprod (fpick m ll)) l) =
        map (fun m => (fuse_all S fuse (map fst (fpick m ll)), cprod (fpick m ll))) l).
      { induction l as [|x l IH]; [easy|]. cbn [map combine]. now rewrite IH. }
      rewrite CE, map_map. cbn [fst snd]. apply nsum_map_ext. intros k Ik. apply in_seq in Ik.
      rewrite (num_trees_abelian RING G); [reflexivity|]. apply Forall_map. apply CV. lia.
  Qed.

  Lemma calc_rev_spec rspaces : Forall (space_ok S) rspaces ->
    exists u m, calc_rev S rspaces = Some (u, m) /\ space_ok S (Sp u m (Some Sorted)) /\ feq (combine u m) (convs S (map sp_pairs (rev rspaces))).
  Proof.
    intros H. induction H as [|V rest HV HR IH].
    - exists [sym_trivial S], [1]. split; [reflexivity|]. split; [|apply feq_refl]. constructor; cbn [sp_secs sp_mults sp_order].
      + intros s [<-|[]]. apply (fr_trivial_valid RING).
      + repeat constructor. intros [].
      + reflexivity.
      + intros m [<-|[]]. lia.
      + repeat constructor.
    - destruct rest as [|V2 rest].
      + destruct (calc_single OK HV) as (u & m & E & O & F). exists u, m. split; [exact E|]. split; [exact O|].
        eapply feq_trans; [exact F|]. apply feq_sym. apply (convs_one RING). now apply space_ok_valids.
      + remember (V2 :: rest) as R eqn:ER.
        assert (VR : Forall (valids S) (map sp_pairs (rev R))).
        { apply Forall_map, Forall_rev. eapply Forall_impl; [|exact HR]. intros X. apply space_ok_valids. }
        assert (EQ : calc_rev S (V :: R) = if s_abelian S then calc_abelian S (rev (V :: R)) else
          match calc_rev S R with None => None | Some partial => let l := combined S partial V in unique_sorted_nat (map fst l) (map snd l) end) by (subst R; reflexivity).
        rewrite EQ. destruct (Bool.bool_dec (s_abelian S) true) as [AB|AB].
        * rewrite AB. apply calc_abelian_spec; auto.
          -- cbn [rev]. intros X. apply app_eq_nil in X. easy.
          -- apply Forall_rev. constructor; auto.
        * apply Bool.not_true_is_false in AB. rewrite AB. destruct IH as (u & m & E & O & F). rewrite E.
          destruct (calc_step OK (partial := (u, m)) O HV) as (u' & m' & E' & O' & F'). exists u', m'. split; [exact E'|]. split; [exact O'|].
          eapply feq_trans; [exact F'|]. cbn [fst snd rev]. rewrite map_app.
          assert (V1 := space_ok_valids HV). assert (V2' := space_ok_valids O).
          eapply feq_trans; [|apply feq_sym, (convs_app RING VR); repeat constructor; exact V1].
          apply (conv_feq RING); auto; [exact (valids_convs RING VR)|apply (valids_convs RING); repeat constructor; exact V1|].
          apply feq_sym, (convs_one RING V1).
  Qed.
  Theorem calc_spec spaces : Forall (space_ok S) spaces ->
    exists u m, calc_sectors_of_spaces S spaces = Some (u, m) /\ space_ok S (Sp u m (Some Sorted)) /\ feq (combine u m) (convs S (map sp_pairs spaces)).
  Proof.
    intros H. unfold calc_sectors_of_spaces. destruct (@calc_rev_spec (rev spaces)) as (u & m & E & O & F); [now apply Forall_rev|].
    rewrite rev_involutive in F. eauto.
  Qed.
End Calc.
