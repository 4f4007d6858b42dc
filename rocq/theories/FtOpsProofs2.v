(** Sorted fusion tree data and the blocks they store. *)
From Verif Require Import Util StableSort RowModel RowProofs GridModel GridProofs SymModel SymProofs CatSpec Sums SpaceModel SpaceSpec SpaceProofs SpaceProofs7
  PipeModel TreeModel TensorModel TensorSpec TensorProofs5 BlockModel BlockProofs SparseModel SparseProofs SparseProofs3 ConvertModel ConvertSpec ConvertProofs3 FtOpsModel FtOpsSpec FtOpsProofs.
Set Implicit Arguments. Unset Strict Implicit.
Open Scope nat_scope.

Section Data.
  Variable K : Type.
  Variable o : ops K.
  Notation block := (blk K).
  Notation fdata := (list (nat * nat * blk K)).
  Notation key1 := (fun e : nat * nat * blk K => snd (fst e)).
  Notation key0 := (fun e : nat * nat * blk K => fst (fst e)).

  Lemma ft_make_true (F : fdata) : ft_make F true = F.
  Proof. unfold ft_make, make_data. rewrite map_map. rewrite <- (map_id F) at 2. apply map_ext. intros [[i j] B]. reflexivity. Qed.
  Lemma ft_make_perm (F : fdata) s : Permutation (ft_make F s) F.
  Proof.
    unfold ft_make. etransitivity; [apply Permutation_map; apply make_data_perm|]. rewrite map_map. replace (map _ F) with F; [reflexivity|].
    rewrite <- (map_id F) at 1. apply map_ext. intros [[i j] B]. reflexivity.
  Qed.
  Lemma ft_make_In (F : fdata) s e : In e (ft_make F s) <-> In e F.
  Proof. split; apply Permutation_in; [|symmetry]; apply ft_make_perm. Qed.
  Lemma ft_make_sorted (F : fdata) : NoDup (map key1 F) -> StronglySorted lt (map key1 (ft_make F false)).
  Proof.
    intros ND. set (D := map (fun e : nat * nat * block => ([fst (fst e); snd (fst e)], snd e)) F).
    assert (E1 : map (fun e : list nat * block => nth 1 (fst e) 0) D = map key1 F) by (unfold D; rewrite map_map; reflexivity).
    assert (ND' : NoDup (map (fun e : list nat * block => nth 1 (fst e) 0) (make_data D false))).
    { eapply Permutation_NoDup; [apply Permutation_map; symmetry; apply make_data_perm|]. now rewrite E1. }
    assert (W : forall e, In e D -> length (fst e) = 2) by (intros e I; apply in_map_iff in I; destruct I as [e' [<- _]]; reflexivity).
    assert (NF : NoDup (map fst D)).
    { apply (NoDup_map_inv (fun r => nth 1 r 0)). rewrite map_map. now rewrite E1. }
    assert (SS := make_data_sorted W NF). unfold ft_make. fold D. rewrite map_map. cbn [fst snd].
    assert (W' : forall e, In e (make_data D false) -> length (fst e) = 2) by (intros e I; apply make_data_In in I; auto). revert SS ND' W'. generalize (make_data D false). clear.
    induction l as [|e l IH]; intros SS ND W; [constructor|]. cbn [map zrows] in *. apply StronglySorted_inv in SS. destruct SS as [SS FA]. apply NoDup_cons_iff in ND. destruct ND as [NI ND].
    constructor; [apply IH; auto; intros e' I; apply W; now right|]. apply Forall_forall. intros k I. apply in_map_iff in I. destruct I as [e' [<- I]].
    rewrite Forall_forall in FA. assert (L := FA (map Z.of_nat (fst e')) ltac:(unfold zrows; rewrite map_map; apply in_map_iff; now exists e')).
    assert (We := W e (or_introl eq_refl)). assert (We' := W e' (or_intror I)). destruct (fst e) as [|a0 [|a1 [|? ?]]] eqn:Ee; try discriminate. destruct (fst e') as [|b0 [|b1 [|? ?]]] eqn:Ee'; try discriminate.
    cbn [nth]. destruct L as [_ [k [Hk [Lk Gk]]]]. cbn [map length] in Hk. destruct k as [|[|k]]; [|cbn in Lk; lia|lia].
    exfalso. apply NI. specialize (Gk 1 ltac:(cbn; lia)). cbn in Gk. apply in_map_iff. exists e'. rewrite Ee'. split; [cbn [nth]; lia|exact I].
  Qed.
  Lemma lt_NoDup l : StronglySorted lt l -> NoDup l.
  Proof. apply StronglySorted_NoDup. intros x; lia. Qed.

  (** rows in range and pairwise different *)
  Definition keyed (Q : tprod) (F : fdata) : Prop := NoDup (map key1 F) /\ forall e, In e F -> snd (fst e) < length (tp_secs Q).
  Definition stored (Q : tprod) (F : fdata) (c : sector) (B : block) : Prop := exists e, In e F /\ nth (snd (fst e)) (tp_secs Q) [] = c /\ snd e = B.
  Definition hit (Q : tprod) (c : sector) (e : nat * nat * block) : bool := row_eqb (nth (snd (fst e)) (tp_secs Q) []) c.
  Lemma find_stored Q F c B : NoDup (tp_secs Q) -> keyed Q F -> stored Q F c B -> exists e, find (hit Q c) F = Some e /\ snd e = B.
  Proof.
    intros NS [ND R] [e [I [E EB]]]. destruct (find (hit Q c) F) as [e'|] eqn:FD.
    - apply find_some in FD. destruct FD as [I' H]. unfold hit in H. apply row_eqb_eq in H. exists e'. split; [reflexivity|].
      assert (X : snd (fst e') = snd (fst e)) by (apply (proj1 (NoDup_nth _ []) NS); [now apply R|now apply R|congruence]).
      assert (e' = e). { revert ND I I' X. clear. induction F as [|f F IH]; intros ND I I' X; [destruct I|]. cbn [map] in ND. apply NoDup_cons_iff in ND. destruct ND as [NI ND].
        destruct I as [-> |I], I' as [-> |I']; auto; exfalso; apply NI; apply in_map_iff; eexists; split; try eassumption; congruence. }
      subst. reflexivity.
    - exfalso. assert (X := find_none _ _ FD e I). unfold hit in X. rewrite E, (proj2 (row_eqb_eq _ _) eq_refl) in X. discriminate.
  Qed.
  Lemma find_missing Q (F : fdata) c : (forall B, ~ stored Q F c B) -> find (hit Q c) F = None.
  Proof.
    intros H. destruct (find (hit Q c) F) as [e|] eqn:FD; [|reflexivity]. exfalso. apply find_some in FD. destruct FD as [I X]. unfold hit in X. apply row_eqb_eq in X. apply (H (snd e)). now exists e.
  Qed.
  Lemma stored_dec Q (F : fdata) c : (exists B, stored Q F c B) \/ forall B, ~ stored Q F c B.
  Proof.
    destruct (find (hit Q c) F) as [e|] eqn:FD.
    - left. apply find_some in FD. destruct FD as [I X]. unfold hit in X. apply row_eqb_eq in X. exists (snd e), e. auto.
    - right. intros B [e [I [E _]]]. assert (X := find_none _ _ FD e I). unfold hit in X. rewrite E, (proj2 (row_eqb_eq _ _) eq_refl) in X. discriminate.
  Qed.
  Lemma stored_unique Q F c B B' : NoDup (tp_secs Q) -> keyed Q F -> stored Q F c B -> stored Q F c B' -> B = B'.
  Proof. intros NS KF H H'. destruct (find_stored NS KF H) as [e [E <-]]. destruct (find_stored NS KF H') as [e' [E' <-]]. congruence. Qed.
  Lemma stored_perm Q (F G : fdata) c B : Permutation F G -> stored Q F c B -> stored Q G c B.
  Proof. intros HP [e [I E]]. exists e. split; [|exact E]. eapply Permutation_in; eauto. Qed.
  Lemma stored_make Q (F : fdata) s c B : stored Q (ft_make F s) c B <-> stored Q F c B.
  Proof. split; apply stored_perm; [|symmetry]; apply ft_make_perm. Qed.
  Lemma ft_keyed P Q F : ft_ok P Q F -> keyed Q F.
  Proof. intros O. split; [apply lt_NoDup; apply (fo_sorted O)|]. intros e I. apply (fo_range O I). Qed.
  Lemma diag_keyed P D : diag_ok P D -> keyed P D.
  Proof. intros O. split; [apply lt_NoDup; apply (go_sorted O)|]. intros e I. apply (go_range O I). Qed.
  Lemma ft_entry_stored P Q F c B x y : NoDup (tp_secs Q) -> ft_ok P Q F -> stored Q F c B -> ft_entry o Q F c x y = bat o B [x; y].
  Proof. intros NS O H. destruct (find_stored NS (ft_keyed O) H) as [e [E <-]]. unfold ft_entry. unfold hit in E. now rewrite E. Qed.
  Lemma ft_entry_missing Q (F : fdata) c x y : (forall B, ~ stored Q F c B) -> ft_entry o Q F c x y = o0 o.
  Proof. intros H. apply find_missing in H. unfold ft_entry. unfold hit in H. now rewrite H. Qed.
  Lemma diag_entry_stored P D c B x : NoDup (tp_secs P) -> diag_ok P D -> stored P D c B -> diag_entry o P D c x = bat o B [x].
  Proof. intros NS O H. destruct (find_stored NS (diag_keyed O) H) as [e [E <-]]. unfold diag_entry. unfold hit in E. now rewrite E. Qed.
  Lemma diag_entry_missing P (D : fdata) c x : (forall B, ~ stored P D c B) -> diag_entry o P D c x = o0 o.
  Proof. intros H. apply find_missing in H. unfold diag_entry. unfold hit in H. now rewrite H. Qed.

  Lemma ft_ok_make P Q F : NoDup (map key1 F) ->
    (forall e, In e F -> fst (fst e) < length (tp_secs P) /\ snd (fst e) < length (tp_secs Q) /\ nth (fst (fst e)) (tp_secs P) [] = nth (snd (fst e)) (tp_secs Q) [] /\
      bshape (snd e) = [nth (fst (fst e)) (tp_mults P) 0; nth (snd (fst e)) (tp_mults Q) 0] /\ length (bdata (snd e)) = prod (bshape (snd e))) -> ft_ok P Q (ft_make F false).
  Proof.
    intros ND H. constructor; [now apply ft_make_sorted| | | |]; intros e I; apply ft_make_In in I; specialize (H e I); tauto.
  Qed.
  Lemma ft_ok_sorted P Q F : StronglySorted lt (map key1 F) ->
    (forall e, In e F -> fst (fst e) < length (tp_secs P) /\ snd (fst e) < length (tp_secs Q) /\ nth (fst (fst e)) (tp_secs P) [] = nth (snd (fst e)) (tp_secs Q) [] /\
      bshape (snd e) = [nth (fst (fst e)) (tp_mults P) 0; nth (snd (fst e)) (tp_mults Q) 0] /\ length (bdata (snd e)) = prod (bshape (snd e))) -> ft_ok P Q F.
  Proof. intros ST H. constructor; [exact ST| | | |]; intros e I; specialize (H e I); tauto. Qed.
  Lemma diag_ok_make P F : NoDup (map key1 F) ->
    (forall e, In e F -> fst (fst e) = snd (fst e) /\ snd (fst e) < length (tp_secs P) /\ bshape (snd e) = [nth (snd (fst e)) (tp_mults P) 0] /\ length (bdata (snd e)) = prod (bshape (snd e))) -> diag_ok P (ft_make F false).
  Proof. intros ND H. constructor; [now apply ft_make_sorted| | | |]; intros e I; apply ft_make_In in I; specialize (H e I); tauto. Qed.
  Lemma diag_ok_sorted P F : StronglySorted lt (map key1 F) ->
    (forall e, In e F -> fst (fst e) = snd (fst e) /\ snd (fst e) < length (tp_secs P) /\ bshape (snd e) = [nth (snd (fst e)) (tp_mults P) 0] /\ length (bdata (snd e)) = prod (bshape (snd e))) -> diag_ok P F.
  Proof. intros ND H. constructor; [exact ND| | | |]; intros e I; specialize (H e I); tauto. Qed.

  (** *** the first column is sorted as well *)
  Variable S : tsymm.
  Hypothesis OK : tsymm_ok S.
  Lemma tp_sorted P : tp_ok S P -> strictly_sorted (tp_secs P).
  Proof. intros H. destruct (tp_ok_spec OK H) as [O _]. exact (sk_order O). Qed.
  Lemma tp_len P : tp_ok S P -> length (tp_mults P) = length (tp_secs P).
  Proof. intros H. destruct (tp_ok_spec OK H) as [O _]. apply (sk_len O). Qed.
  Lemma strictly_lt l i j : strictly_sorted l -> i < length l -> j < length l -> lex_lt (nth i l []) (nth j l []) -> i < j.
  Proof.
    intros ST Hi Hj L. destruct (Nat.lt_trichotomy i j) as [H|[H|H]]; [exact H| |]; exfalso.
    - subst. exact (lex_lt_irrefl L).
    - assert (L' := proj1 (StronglySorted_nth lex_lt [] l) ST j i (conj H Hi)). exact (lex_lt_irrefl (lex_lt_trans L L')).
  Qed.
  Lemma col0_sorted P Q F : tp_ok S P -> tp_ok S Q -> ft_ok P Q F -> StronglySorted lt (map key0 F).
  Proof.
    intros HP HQ O. assert (ST := fo_sorted O). assert (R : forall e, In e F -> fst (fst e) < length (tp_secs P) /\ snd (fst e) < length (tp_secs Q)) by (intros e; apply (fo_range O)).
    assert (E : forall e, In e F -> nth (fst (fst e)) (tp_secs P) [] = nth (snd (fst e)) (tp_secs Q) []) by (intros e; apply (fo_sector O)). clear O.
    induction F as [|e l IH]; [constructor|]. cbn [map] in *. apply StronglySorted_inv in ST. destruct ST as [ST FA]. constructor; [apply IH; auto; intros e' I; [apply R|apply E]; now right|].
    apply Forall_forall. intros k I. apply in_map_iff in I. destruct I as [e' [<- I]]. rewrite Forall_forall in FA. assert (L : snd (fst e) < snd (fst e')) by (apply FA; apply in_map_iff; now exists e').
    destruct (R e (or_introl eq_refl)) as [R1 R2]. destruct (R e' (or_intror I)) as [R1' R2']. apply (strictly_lt (tp_sorted HP)); auto. rewrite (E e (or_introl eq_refl)), (E e' (or_intror I)).
    apply (proj1 (StronglySorted_nth lex_lt [] (tp_secs Q)) (tp_sorted HQ)). now split.
  Qed.
End Data.
