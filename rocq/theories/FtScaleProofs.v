(** scale_axis on one of several legs. *)
From Verif Require Import Util StableSort RowModel RowProofs GridModel GridProofs SymModel SymProofs CatSpec Sums SpaceModel SpaceSpec SpaceProofs SpaceProofs2 SpaceProofs7
  PipeModel PipeProofs PipeProofs4 TreeModel TreeProofs TreeProofs5 TensorModel TensorSpec FormalSum TensorProofs TensorProofs2 TensorProofs3 TensorProofs4 TensorProofs5 TensorProofs6 BlockModel BlockProofs
  SparseModel ConvertModel ConvertSpec ConvertProofs3 FtOpsModel FtOpsSpec FtOpsProofs2 FtOpsProofs3 FtMapModel FtMapSpec FtMapProofs FtScaleModel.
Set Implicit Arguments. Unset Strict Implicit.
Open Scope nat_scope.

(** ** The loop: each forest writes its own part of the block of its coupled sector *)
Section Scatter.
  Variable K : Type.
  Variable o : ops K.
  Notation block := (blk K).
  Notation fdata := (list (nat * nat * blk K)).
  Variable A : fdata.
  Variable V : fb_item -> option block.
  Variable lo hi : fb_item -> list nat.
  Definition step (st : option (sstate K)) (x : fb_item) : option (sstate K) :=
    match st with
    | None => None
    | Some st =>
        match V x with
        | None => Some st
        | Some v =>
            let st := scale_row o A (fb_ind x) st in
            match find (fun p => fst p =? fb_ind x) (ss_map st) with
            | None => None
            | Some (_, k) => let row := frow (ss_rows st) k in Some (SState (upd (ss_rows st) k (fst row, bset_slice o (snd row) (lo x) (hi x) v)) (ss_map st) (ss_seen st))
            end
        end
    end.
  Variable l : list fb_item.
  Hypothesis SORTA : StronglySorted lt (map (fun e : nat * nat * blk K => snd (fst e)) A).
  Hypothesis IND : forall x, In x l -> fb_ind x < length A.
  Hypothesis SORTL : StronglySorted le (map fb_ind l).
  Hypothesis ND : NoDup l.
  Hypothesis DISJ : forall x y r, In x l -> In y l -> fb_ind x = fb_ind y -> valid_idx (bshape (snd (frow A (fb_ind x)))) r -> in_box (lo x) (hi x) r -> in_box (lo y) (hi y) r -> x = y.
  Record inv (done : list fb_item) (st : sstate K) (js : list nat) : Prop := {
    iv_sorted : StronglySorted lt js;
    iv_range : forall j, In j js -> j < length A;
    iv_keys : map fst (ss_rows st) = map (fun j => fst (frow A j)) js;
    iv_map : ss_map st = rev (combine js (seq 0 (length js)));
    iv_seen : forall j, j < length A -> existsb (Nat.eqb (snd (fst (frow A j)))) (ss_seen st) = true <-> In j js;
    iv_hit : forall j, In j js <-> exists x, In x done /\ V x <> None /\ fb_ind x = j;
    iv_wf : forall k, k < length js -> bshape (snd (frow (ss_rows st) k)) = bshape (snd (frow A (nth k js 0))) /\ bwf (snd (frow (ss_rows st) k));
    iv_val : forall k x r, k < length js -> In x l -> fb_ind x = nth k js 0 -> valid_idx (bshape (snd (frow A (nth k js 0)))) r -> in_box (lo x) (hi x) r ->
      (In x done -> bat o (snd (frow (ss_rows st) k)) r = match V x with Some v => bat o v (map (fun p => snd p - fst p) (combine (lo x) r)) | None => o0 o end) /\
      (~ In x done -> bat o (snd (frow (ss_rows st) k)) r = o0 o);
  }.
  Lemma rows_len done st js : inv done st js -> length (ss_rows st) = length js.
  Proof. intros IV. rewrite <- (map_length fst), (iv_keys IV). apply map_length. Qed.
  Lemma key_inj i j : i < length A -> j < length A -> snd (fst (frow A i)) = snd (fst (frow A j)) -> i = j.
  Proof.
    intros Hi Hj E. assert (N : NoDup (map (fun e : nat * nat * blk K => snd (fst e)) A)) by (apply StronglySorted_NoDup with (R := lt); [intros x; lia|exact SORTA]).
    apply (proj1 (NoDup_nth _ 0) N); rewrite ?map_length; auto. rewrite !nth_map_lt with (d := ((0, 0), Blk [] [])) by assumption. exact E.
  Qed.
  Lemma find_pos js k : NoDup js -> k < length js -> find (fun p => fst p =? nth k js 0) (rev (combine js (seq 0 (length js)))) = Some (nth k js 0, k).
  Proof.
    intros N Hk. assert (LC : length (combine js (seq 0 (length js))) = length js) by (rewrite combine_length, seq_length; lia).
    assert (I : In (nth k js 0, k) (rev (combine js (seq 0 (length js))))).
    { apply in_rev. rewrite rev_involutive. assert (E : nth k (combine js (seq 0 (length js))) (0, 0) = (nth k js 0, k)) by (rewrite combine_nth by (now rewrite seq_length); now rewrite seq_nth). rewrite <- E. apply nth_In. lia. }
    destruct (find _ _) as [[a b]|] eqn:F.
    - apply find_some in F. destruct F as [I2 E]. cbn [fst] in E. apply Nat.eqb_eq in E. subst a. apply in_rev in I2. rewrite rev_involutive in I2 || idtac.
      apply (In_nth _ _ (0, 0)) in I2. destruct I2 as (m & Hm & E). rewrite LC in Hm. rewrite combine_nth, seq_nth in E by (try rewrite seq_length; lia). injection E as E1 <-. apply (proj1 (NoDup_nth js 0) N) in E1; auto. subst m. reflexivity.
    - exfalso. apply find_none with (x := (nth k js 0, k)) in F; [|exact I]. cbn [fst] in F. rewrite Nat.eqb_refl in F. discriminate.
  Qed.
  Lemma scale_row_inv done st js x : inv done st js -> In x l -> (forall y, In y done -> In y l /\ fb_ind y <= fb_ind x) -> ~ In x done -> V x <> None ->
    exists js', In (fb_ind x) js' /\ StronglySorted lt js' /\ (forall j, In j js' <-> In j js \/ j = fb_ind x) /\
      let st' := scale_row o A (fb_ind x) st in
      map fst (ss_rows st') = map (fun j => fst (frow A j)) js' /\ ss_map st' = rev (combine js' (seq 0 (length js'))) /\
      (forall j, j < length A -> existsb (Nat.eqb (snd (fst (frow A j)))) (ss_seen st') = true <-> In j js') /\
      (forall k, k < length js' -> bshape (snd (frow (ss_rows st') k)) = bshape (snd (frow A (nth k js' 0))) /\ bwf (snd (frow (ss_rows st') k))) /\
      (forall k y r, k < length js' -> In y l -> fb_ind y = nth k js' 0 -> valid_idx (bshape (snd (frow A (nth k js' 0)))) r -> in_box (lo y) (hi y) r ->
        (In y done -> bat o (snd (frow (ss_rows st') k)) r = match V y with Some v => bat o v (map (fun p => snd p - fst p) (combine (lo y) r)) | None => o0 o end) /\
        (~ In y done -> bat o (snd (frow (ss_rows st') k)) r = o0 o)).
  Proof.
    intros IV Ix BEF NI HV. set (i := fb_ind x). assert (Hi : i < length A) by now apply IND. unfold scale_row. fold i.
    destruct (existsb (Nat.eqb (snd (fst (frow A i)))) (ss_seen st)) eqn:SEEN.
    - assert (Ij := proj1 (iv_seen IV Hi) SEEN). exists js. split; [exact Ij|]. split; [exact (iv_sorted IV)|]. split; [intros j; split; [now left|intros [H|H]; [exact H|subst j; exact Ij]]|]. cbv zeta.
      split; [exact (iv_keys IV)|]. split; [exact (iv_map IV)|]. split; [exact (iv_seen IV)|]. split; [exact (iv_wf IV)|exact (iv_val IV)].
    - assert (Nj : ~ In i js) by (intros H; apply (iv_seen IV Hi) in H; congruence). set (js' := js ++ [i]). assert (LR := rows_len IV).
      assert (LJ : length js' = length js + 1) by (unfold js'; rewrite app_length; reflexivity).
      assert (BELOW : forall j, In j js -> j < i). { intros j Ij. assert (Ij' := Ij). apply (iv_hit IV) in Ij'. destruct Ij' as (y & Iy & _ & <-). destruct (BEF y Iy) as [_ LE]. fold i in LE. assert (fb_ind y <> i) by (intros E; apply Nj; rewrite <- E; exact Ij). lia. }
      exists js'. split; [unfold js'; apply in_or_app; right; now left|]. split.
      { unfold js'. assert (SS := iv_sorted IV). clear -SS BELOW. induction js as [|a t IH]; cbn [app]; [repeat constructor|]. inversion SS as [|? ? S1 F1]; subst. constructor; [apply IH; [intros; apply BELOW; now right|exact S1]|]. apply Forall_app. split; [exact F1|]. constructor; [apply BELOW; now left|constructor]. }
      split; [intros j; unfold js'; rewrite in_app_iff; cbn [In]; split; [intros [H|[H|[]]]; auto|intros [H|H]; auto]|]. cbv zeta. cbn [ss_rows ss_map ss_seen].
      assert (LAST : nth (length js) js' 0 = i) by (unfold js'; rewrite app_nth2, Nat.sub_diag by lia; reflexivity).
      assert (FIRST : forall k, k < length js -> nth k js' 0 = nth k js 0) by (intros k Hk; unfold js'; now rewrite app_nth1).
      assert (ROW1 : forall k, k < length js -> frow (ss_rows st ++ [(fst (frow A i), bzeros o (bshape (snd (frow A i))))]) k = frow (ss_rows st) k) by (intros k Hk; unfold frow; now rewrite app_nth1 by lia).
      assert (ROW2 : frow (ss_rows st ++ [(fst (frow A i), bzeros o (bshape (snd (frow A i))))]) (length js) = (fst (frow A i), bzeros o (bshape (snd (frow A i))))) by (unfold frow; rewrite app_nth2, LR, Nat.sub_diag by lia; reflexivity).
      split; [rewrite map_app, (iv_keys IV); unfold js'; rewrite map_app; reflexivity|]. split.
      { rewrite (iv_map IV), LR, LJ. unfold js'. rewrite seq_app. cbn [seq Nat.add]. rewrite combine_app' by now rewrite seq_length. cbn [combine]. rewrite rev_app_distr. reflexivity. }
      split.
      { intros j Hj. cbn [existsb]. rewrite orb_true_iff, Nat.eqb_eq, (iv_seen IV Hj). unfold js'. rewrite in_app_iff. cbn [In]. split.
        - intros [H|H]; [right; left; symmetry; now apply key_inj|now left].
        - intros [H|[H|[]]]; [now right|left; now subst j]. }
      split.
      { intros k Hk. destruct (Nat.eq_dec k (length js)) as [ -> |NE]; [rewrite LAST, ROW2; cbn [snd]; split; [reflexivity|apply bmk_wf]|]. rewrite FIRST, ROW1 by lia. apply (iv_wf IV). lia. }
      intros k y r Hk Iy Ey Vr BX. destruct (Nat.eq_dec k (length js)) as [ -> |NE].
      + rewrite LAST in *. rewrite ROW2. cbn [snd]. split; [|intros _; now apply bat_zeros]. intros Dy. rewrite bat_zeros by exact Vr. destruct (V y) as [v|] eqn:EV; [|reflexivity].
        exfalso. apply Nj. apply (iv_hit IV). exists y. split; [exact Dy|]. split; [congruence|exact Ey].
      + rewrite ROW1 by lia. rewrite FIRST in * by lia. apply (iv_val IV); auto. lia.
  Qed.
  Lemma step_inv done st js x : inv done st js -> In x l -> (forall y, In y done -> In y l /\ fb_ind y <= fb_ind x) -> ~ In x done -> exists st' js', step (Some st) x = Some st' /\ inv (done ++ [x]) st' js'.
  Proof.
    intros IV Ix BEF NI. unfold step. assert (DN : forall y, In y (done ++ [x]) <-> In y done \/ y = x) by (intros y; rewrite in_app_iff; cbn [In]; split; [intros [H|[H|[]]]; auto|intros [H|H]; auto]). destruct (V x) as [v|] eqn:EV.
    - assert (HV : V x <> None) by congruence. destruct (scale_row_inv IV Ix BEF NI HV) as (js' & Ii & SS & EQ & KEYS & MAP & SEEN & WF & VAL). cbv zeta. set (st' := scale_row o A (fb_ind x) st) in *.
      assert (NDJ : NoDup js') by (apply StronglySorted_NoDup with (R := lt); [intros z; lia|exact SS]). apply (In_nth _ _ 0) in Ii. destruct Ii as (k0 & Hk0 & Ek0). rewrite MAP, <- Ek0, (find_pos NDJ Hk0). exists (SState (upd (ss_rows st') k0 (fst (frow (ss_rows st') k0), bset_slice o (snd (frow (ss_rows st') k0)) (lo x) (hi x) v)) (ss_map st') (ss_seen st')), js'. split; [now rewrite MAP|].
      assert (LR : length (ss_rows st') = length js') by (rewrite <- (map_length fst), KEYS; apply map_length).
      assert (ROWE : frow (upd (ss_rows st') k0 (fst (frow (ss_rows st') k0), bset_slice o (snd (frow (ss_rows st') k0)) (lo x) (hi x) v)) k0 = (fst (frow (ss_rows st') k0), bset_slice o (snd (frow (ss_rows st') k0)) (lo x) (hi x) v)) by (unfold frow; apply nth_upd_eq; lia).
      assert (ROWN : forall k, k <> k0 -> frow (upd (ss_rows st') k0 (fst (frow (ss_rows st') k0), bset_slice o (snd (frow (ss_rows st') k0)) (lo x) (hi x) v)) k = frow (ss_rows st') k) by (intros k NE; unfold frow; apply nth_upd_neq; congruence).
      constructor; cbn [ss_rows ss_map ss_seen]; auto.
      + intros j Ij. apply EQ in Ij. destruct Ij as [Ij|Ij]; [now apply (iv_range IV)|subst j; now apply IND].
      + rewrite <- KEYS. apply list_eq_nth with (d := (0, 0)); [now rewrite !map_length, upd_length|]. intros k Hk. rewrite map_length, upd_length in Hk. rewrite !nth_map_lt with (d := ((0, 0), Blk [] [])) by (rewrite ?upd_length; exact Hk).
        fold (frow (ss_rows st') k). destruct (Nat.eq_dec k k0) as [ -> |NE]; [change (nth k0 (upd (ss_rows st') k0 ?z) ((0, 0), Blk [] [])) with (frow (upd (ss_rows st') k0 z) k0); unfold frow at 1; rewrite nth_upd_eq by lia; reflexivity|]. unfold frow. rewrite nth_upd_neq by congruence. reflexivity.
      + intros j. rewrite EQ, (iv_hit IV). split.
        * intros [(y & Iy & Hy & Ey)| -> ]; [exists y; split; [apply DN; now left|now split]|exists x; split; [apply DN; now right|now split]].
        * intros (y & Iy & Hy & Ey). apply DN in Iy. destruct Iy as [Iy| -> ]; [left; exists y; auto|right; now symmetry].
      + intros k Hk. destruct (Nat.eq_dec k k0) as [ -> |NE]; [|rewrite ROWN by exact NE; now apply WF]. rewrite ROWE. cbn [snd]. split; [exact (proj1 (WF k0 Hk))|apply bmk_wf].
      + intros k y r Hk Iy Ey Vr BX. destruct (Nat.eq_dec k k0) as [ -> |NE].
        * rewrite ROWE. cbn [snd]. assert (Vr' : valid_idx (bshape (snd (frow (ss_rows st') k0))) r) by (rewrite (proj1 (WF k0 Hk)); exact Vr). destruct (VAL k0 y r Hk Iy Ey Vr BX) as [V1 V2]. split.
          -- intros Dy. apply DN in Dy. destruct Dy as [Dy| -> ].
             ++ rewrite bat_set_slice_out; [now apply V1|exact Vr'|]. intros BX'. assert (y = x) by (apply (DISJ Iy Ix (r := r)); [congruence|rewrite Ey; exact Vr|exact BX|exact BX']). subst y. contradiction.
             ++ rewrite EV. now apply bat_set_slice_in.
          -- intros Ny. rewrite bat_set_slice_out; [apply V2; intros H; apply Ny, DN; now left|exact Vr'|]. intros BX'. assert (y = x) by (apply (DISJ Iy Ix (r := r)); [congruence|rewrite Ey; exact Vr|exact BX|exact BX']). subst y. apply Ny, DN. now right.
        * rewrite ROWN by exact NE. destruct (VAL k y r Hk Iy Ey Vr BX) as [V1 V2]. split.
          -- intros Dy. apply DN in Dy. destruct Dy as [Dy| -> ]; [now apply V1|]. exfalso. apply NE. apply (proj1 (NoDup_nth js' 0) NDJ); auto. congruence.
          -- intros Ny. apply V2. intros H. apply Ny, DN. now left.
    - exists st, js. split; [reflexivity|]. destruct IV as [I1 I2 I3 I4 I5 I6 I7 I8]. constructor; auto.
      + intros j. rewrite I6. split; intros (y & Iy & Hy & Ey); exists y.
        * split; [apply DN; now left|now split].
        * apply DN in Iy. destruct Iy as [Iy| -> ]; [now split|congruence].
      + intros k y r Hk Iy Ey Vr BX. destruct (I8 k y r Hk Iy Ey Vr BX) as [V1 V2]. split.
        * intros Dy. apply DN in Dy. destruct Dy as [Dy| -> ]; [now apply V1|]. rewrite EV. now apply V2.
        * intros Ny. apply V2. intros H. apply Ny, DN. now left.
  Qed.
  Lemma loop_inv : exists st js, fold_left step l (Some (SState [] [] [])) = Some st /\ inv l st js.
  Proof.
    assert (W : forall rest done st js, l = done ++ rest -> inv done st js -> exists st' js', fold_left step rest (Some st) = Some st' /\ inv l st' js').
    { induction rest as [|x rest IH]; intros done st js E IV; [rewrite app_nil_r in E; subst done; exists st, js; now split|]. cbn [fold_left].
      assert (ND' := ND). rewrite E in ND'. assert (NI : ~ In x done) by (apply NoDup_remove_2 in ND'; intros H; apply ND'; apply in_or_app; now left).
      assert (BEF : forall y, In y done -> In y l /\ fb_ind y <= fb_ind x).
      { intros y Iy. split; [rewrite E; apply in_or_app; now left|]. assert (SS := SORTL). rewrite E, map_app in SS. clear -SS Iy. induction done as [|z t IH]; [easy|]. cbn [map app] in SS. inversion SS as [|? ? S1 F1]; subst. destruct Iy as [ -> |Iy]; [|now apply IH].
        rewrite Forall_forall in F1. apply F1. apply in_or_app. right. now left. }
      destruct (step_inv IV (x := x) ltac:(rewrite E; apply in_elt) BEF NI) as (st' & js' & E' & IV'). rewrite E'. apply (IH (done ++ [x]) st' js'); [rewrite <- app_assoc; exact E|exact IV']. }
    apply (W l [] (SState [] [] []) []); [reflexivity|]. constructor; cbn [ss_rows ss_map ss_seen existsb map rev combine seq length In]; try easy; [constructor|intros j; split; [easy|intros (x & [] & _)]].
  Qed.
End Scatter.
