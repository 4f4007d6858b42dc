(** Composition, dagger, scaling, linear combination, identity: which blocks the results store, and their entries. *)
From Verif Require Import Util StableSort RowModel RowProofs GridModel GridProofs SymModel SymProofs CatSpec Sums SpaceModel SpaceSpec SpaceProofs SpaceProofs7
  PipeModel TreeModel TensorModel TensorSpec TensorProofs5 BlockModel BlockProofs SparseModel SparseProofs SparseProofs3 ConvertModel ConvertSpec ConvertProofs3 FtOpsModel FtOpsSpec FtOpsProofs FtOpsProofs2.
Set Implicit Arguments. Unset Strict Implicit.
Open Scope nat_scope.

Section Get.
  Variable K : Type.
  Variable o : ops K.
  Notation block := (blk K).
  Notation fdata := (list (nat * nat * blk K)).
  Notation key1 := (fun e : nat * nat * blk K => snd (fst e)).
  Notation key0 := (fun e : nat * nat * blk K => fst (fst e)).
  Definition ft_get (Q : tprod) (F : fdata) (c : sector) : option block := option_map snd (find (hit Q c) F).
  Lemma ft_entry_get Q F c x y : ft_entry o Q F c x y = match ft_get Q F c with Some B => bat o B [x; y] | None => o0 o end.
  Proof. unfold ft_entry, ft_get. fold (hit (K := K) Q c). destruct (find _ F); reflexivity. Qed.
  Lemma diag_entry_get Q F c x : diag_entry o Q F c x = match ft_get Q F c with Some B => bat o B [x] | None => o0 o end.
  Proof. unfold diag_entry, ft_get. fold (hit (K := K) Q c). destruct (find _ F); reflexivity. Qed.
  Lemma get_iff Q F c B : NoDup (tp_secs Q) -> keyed Q F -> (ft_get Q F c = Some B <-> stored Q F c B).
  Proof.
    intros NS KF. split.
    - unfold ft_get. intros H. destruct (find (hit Q c) F) as [e|] eqn:E; [|discriminate]. injection H as <-. apply find_some in E. destruct E as [I X]. apply row_eqb_eq in X. now exists e.
    - intros H. destruct (find_stored NS KF H) as [e [E <-]]. unfold ft_get. now rewrite E.
  Qed.
  Lemma get_eq Q F c X : NoDup (tp_secs Q) -> keyed Q F -> (forall B, stored Q F c B <-> X = Some B) -> ft_get Q F c = X.
  Proof.
    intros NS KF H. destruct (ft_get Q F c) as [B|] eqn:E.
    - apply get_iff in E; auto. symmetry. now apply H.
    - destruct X as [B|]; [|reflexivity]. exfalso. assert (Y := proj2 (H B) eq_refl). apply (get_iff c B NS KF) in Y. congruence.
  Qed.
  Variable S : tsymm.
  Hypothesis OK : tsymm_ok S.
  Lemma inj_idx Q i j : tp_ok S Q -> i < length (tp_secs Q) -> j < length (tp_secs Q) -> nth i (tp_secs Q) [] = nth j (tp_secs Q) [] -> i = j.
  Proof. intros HQ Hi Hj E. apply (proj1 (NoDup_nth _ []) (secs_NoDup OK HQ)); auto. Qed.
  Lemma get_ok P Q (F : fdata) c B : tp_ok S Q -> ft_ok P Q F -> (ft_get Q F c = Some B <-> stored Q F c B).
  Proof. intros HQ O. apply get_iff; [apply (secs_NoDup OK HQ)|apply (ft_keyed O)]. Qed.
  Lemma get_diag_ok P (F : fdata) c B : tp_ok S P -> diag_ok P F -> (ft_get P F c = Some B <-> stored P F c B).
  Proof. intros HQ O. apply get_iff; [apply (secs_NoDup OK HQ)|apply (diag_keyed O)]. Qed.
  Lemma row_shape P Q (F : fdata) e : tp_ok S P -> tp_ok S Q -> ft_ok P Q F -> In e F -> is_matrix (block_size P (nth (snd (fst e)) (tp_secs Q) [])) (block_size Q (nth (snd (fst e)) (tp_secs Q) [])) (snd e).
  Proof.
    intros HP HQ O I. destruct (fo_range O I) as [R1 R2]. split; [|apply (fo_full O I)]. rewrite (fo_shape O I), (block_size_nth OK HP R1), (block_size_nth OK HQ R2), (fo_sector O I). reflexivity.
  Qed.
  Lemma get_matrix P Q (F : fdata) c B : tp_ok S P -> tp_ok S Q -> ft_ok P Q F -> ft_get Q F c = Some B -> is_matrix (block_size P c) (block_size Q c) B.
  Proof. intros HP HQ O H. apply (get_ok c B HQ O) in H. destruct H as [e [I [<- <-]]]. now apply (row_shape HP HQ O). Qed.
  Lemma get_vector P (F : fdata) c B : tp_ok S P -> diag_ok P F -> ft_get P F c = Some B -> is_vector (block_size P c) B.
  Proof.
    intros HP O H. apply (get_diag_ok c B HP O) in H. destruct H as [e [I [<- <-]]]. split; [|apply (go_full O I)]. rewrite (go_shape O I), (block_size_nth OK HP); [reflexivity|apply (go_range O I)].
  Qed.
  Lemma matrix_valid m n (B : block) x y : is_matrix m n B -> x < m -> y < n -> valid_idx (bshape B) [x; y].
  Proof. intros [-> _] Hx Hy. constructor; [exact Hx|]. constructor; [exact Hy|constructor]. Qed.
  Lemma same_row (F : fdata) e e' : NoDup (map key1 F) -> In e F -> In e' F -> snd (fst e) = snd (fst e') -> e = e'.
  Proof.
    induction F as [|f F IH]; intros ND I I' X; [destruct I|]. cbn [map] in ND. apply NoDup_cons_iff in ND. destruct ND as [NI ND].
    destruct I as [<-|I], I' as [<-|I']; auto; exfalso; apply NI; apply in_map_iff; eexists; split; try eassumption; congruence.
  Qed.

  Lemma mul_0_r (SR : is_semiring o) x : omul o x (o0 o) = o0 o.
  Proof. rewrite (SRmul_comm SR). apply (SRmul_0_l SR). Qed.

  (** *** compose *)
  Lemma map_frow (X : Type) (f : nat * nat * block -> nat * nat * block -> X) (A B : fdata) (ka kb : nat * nat * block -> nat) :
    map (fun ij => f (frow A (fst ij)) (frow B (snd ij))) (walk_1d 0 (map ka A) 0 (map kb B)) = map (fun p => f (fst p) (snd p)) (wpairs ka kb ((0, 0), Blk [] []) ((0, 0), Blk [] []) [] A [] B).
  Proof. unfold wpairs. rewrite map_map. reflexivity. Qed.
  Definition cpairs (A B : fdata) := wpairs key1 key0 ((0, 0), Blk [] []) ((0, 0), Blk [] []) [] A [] B.
  Lemma walk_nil_l b : forall i j, walk_1d i [] j b = [].
  Proof. reflexivity. Qed.
  Lemma ft_compose_eq A B : ft_compose o A B = ft_make (map (fun p => ((fst (fst (fst p)), snd (fst (snd p))), bdot o (snd (fst p)) (snd (snd p)))) (cpairs A B)) false.
  Proof.
    unfold ft_compose. unfold cpairs. rewrite <- (map_frow (fun a b => ((fst (fst a), snd (fst b)), bdot o (snd a) (snd b)))).
    destruct A as [|a A]; [reflexivity|]. destruct B as [|b B]; reflexivity.
  Qed.
  Section Compose.
    Variables P M Q : tprod.
    Hypothesis HP : tp_ok S P.
    Hypothesis HM : tp_ok S M.
    Hypothesis HQ : tp_ok S Q.
    Variables A B : fdata.
    Hypothesis OA : ft_ok P M A.
    Hypothesis OB : ft_ok M Q B.
    Lemma cpairs_In a b : In (a, b) (cpairs A B) <-> In a A /\ In b B /\ snd (fst a) = fst (fst b).
    Proof. apply wpairs_spec; [apply (fo_sorted OA)|apply (col0_sorted OK HM HQ OB)]. Qed.
    Lemma cpairs_sorted : StronglySorted lt (map (fun p => snd (fst (fst p))) (cpairs A B)).
    Proof. apply (@wpairs_spec _ _ key1 key0 ((0, 0), Blk [] []) ((0, 0), Blk [] []) A [] B [] (fo_sorted OA) (col0_sorted OK HM HQ OB)). Qed.
    Lemma cpairs_NoDup : NoDup (cpairs A B).
    Proof. apply (NoDup_map_inv (fun p => snd (fst (fst p)))). apply lt_NoDup. apply cpairs_sorted. Qed.
    Lemma compose_NoDup : NoDup (map key1 (map (fun p => ((fst (fst (fst p)), snd (fst (snd p))), bdot o (snd (fst p)) (snd (snd p)))) (cpairs A B))).
    Proof.
      rewrite map_map. cbn [fst snd]. apply NoDup_map_inj; [|apply cpairs_NoDup]. intros [a b] [a' b'] I I' E. cbn [fst snd] in E. apply cpairs_In in I, I'. destruct I as (Ia & Ib & Ik), I' as (Ia' & Ib' & Ik').
      assert (b = b') by (apply (same_row (lt_NoDup (fo_sorted OB))); auto). subst b'. assert (a = a') by (apply (same_row (lt_NoDup (fo_sorted OA))); auto; congruence). now subst.
    Qed.
    Lemma dot_matrix m k n (X Y : block) : is_matrix m k X -> is_matrix k n Y -> is_matrix m n (bdot o X Y).
    Proof. intros [E1 _] [E2 _]. split; [|apply bdot_wf]. unfold bdot. cbn [bmk bshape]. rewrite E1, E2. reflexivity. Qed.
    Lemma compose_ok : ft_ok P Q (ft_compose o A B).
    Proof.
      rewrite ft_compose_eq. apply ft_ok_make; [apply compose_NoDup|]. intros e I. apply in_map_iff in I. destruct I as [[a b] [<- I]]. cbn [fst snd]. apply cpairs_In in I. destruct I as (Ia & Ib & Ik).
      destruct (fo_range OA Ia) as [R1 R2], (fo_range OB Ib) as [R3 R4]. split; [exact R1|]. split; [exact R4|]. split; [rewrite (fo_sector OA Ia), Ik; apply (fo_sector OB Ib)|].
      split; [|apply bdot_wf]. unfold bdot. cbn [bmk bshape]. rewrite (fo_shape OA Ia), (fo_shape OB Ib). reflexivity.
    Qed.
    Lemma compose_get c : ft_get Q (ft_compose o A B) c = match ft_get M A c, ft_get Q B c with Some a, Some b => Some (bdot o a b) | _, _ => None end.
    Proof.
      apply get_eq; [apply (secs_NoDup OK HQ)|apply (ft_keyed compose_ok)|]. intros X. rewrite ft_compose_eq, stored_make. split.
      - intros [e [I [E EX]]]. apply in_map_iff in I. destruct I as [[a b] [<- I]]. cbn [fst snd] in E, EX. apply cpairs_In in I. destruct I as (Ia & Ib & Ik).
        assert (GA : ft_get M A c = Some (snd a)) by (apply (get_ok c _ HM OA); exists a; split; [exact Ia|]; split; [rewrite Ik, (fo_sector OB Ib); exact E|reflexivity]).
        assert (GB : ft_get Q B c = Some (snd b)) by (apply (get_ok c _ HQ OB); exists b; auto). rewrite GA, GB. now subst.
      - destruct (ft_get M A c) as [xa|] eqn:GA; [|discriminate]. destruct (ft_get Q B c) as [xb|] eqn:GB; [|discriminate]. intros [= <-]. apply (get_ok c _ HM OA) in GA. apply (get_ok c _ HQ OB) in GB.
        destruct GA as [a [Ia [Ea <-]]], GB as [b [Ib [Eb <-]]]. exists ((fst (fst a), snd (fst b)), bdot o (snd a) (snd b)). split; [|split; [exact Eb|reflexivity]].
        apply in_map_iff. exists (a, b). split; [reflexivity|]. apply cpairs_In. split; [exact Ia|]. split; [exact Ib|]. apply (inj_idx HM); [apply (fo_range OA Ia)|apply (fo_range OB Ib)|]. rewrite Ea, (fo_sector OB Ib). auto.
    Qed.
    Lemma dot_entry m k n (X Y : block) x y : is_matrix m k X -> is_matrix k n Y -> x < m -> y < n -> bat o (bdot o X Y) [x; y] = sumn o k (fun z => omul o (bat o X [x; z]) (bat o Y [z; y])).
    Proof.
      intros [E1 _] [E2 _] Hx Hy. apply (@bat_dot K o X Y [m] k [n] [x] [y]); auto; constructor; auto; constructor.
    Qed.
    Hypothesis SR : is_semiring o.
    Lemma compose_entry c x y : x < block_size P c -> y < block_size Q c ->
      ft_entry o Q (ft_compose o A B) c x y = sumn o (block_size M c) (fun z => omul o (ft_entry o M A c x z) (ft_entry o Q B c z y)).
    Proof.
      intros Hx Hy. rewrite ft_entry_get, compose_get. destruct (ft_get M A c) as [a|] eqn:GA; [destruct (ft_get Q B c) as [b|] eqn:GB|].
      - rewrite (dot_entry (get_matrix HP HM OA GA) (get_matrix HM HQ OB GB) Hx Hy). unfold sumn. apply sum_ext. intros z _. now rewrite !ft_entry_get, GA, GB.
      - symmetry. unfold sumn. apply (sum_zero SR). intros z _. rewrite (ft_entry_get Q B), GB. apply (mul_0_r SR).
      - symmetry. unfold sumn. apply (sum_zero SR). intros z _. rewrite (ft_entry_get M A), GA. apply (SRmul_0_l SR).
    Qed.
  End Compose.

  (** *** dagger *)
  Section One.
    Variables P Q : tprod.
    Hypothesis HP : tp_ok S P.
    Hypothesis HQ : tp_ok S Q.
    Variable A : fdata.
    Hypothesis OA : ft_ok P Q A.
    Lemma dagger_ok : ft_ok Q P (ft_dagger o A).
    Proof.
      unfold ft_dagger. apply ft_ok_make.
      - rewrite map_map. cbn [fst snd]. apply lt_NoDup. apply (col0_sorted OK HP HQ OA).
      - intros e I. apply in_map_iff in I. destruct I as [a [<- I]]. cbn [fst snd]. destruct (fo_range OA I) as [R1 R2]. split; [exact R2|]. split; [exact R1|]. split; [symmetry; apply (fo_sector OA I)|].
        split; [rewrite bdagger_shape, (fo_shape OA I); reflexivity|apply bdagger_wf].
    Qed.
    Lemma dagger_get c : ft_get P (ft_dagger o A) c = option_map (bdagger o) (ft_get Q A c).
    Proof.
      apply get_eq; [apply (secs_NoDup OK HP)|apply (ft_keyed dagger_ok)|]. intros X. unfold ft_dagger. rewrite stored_make. split.
      - intros [e [I [E EX]]]. apply in_map_iff in I. destruct I as [a [<- I]]. cbn [fst snd] in E, EX. assert (G : ft_get Q A c = Some (snd a)) by (apply (get_ok c _ HQ OA); exists a; split; [exact I|]; rewrite <- (fo_sector OA I); auto).
        rewrite G. cbn [option_map]. now subst.
      - destruct (ft_get Q A c) as [xa|] eqn:G; [|discriminate]. cbn [option_map]. intros [= <-]. apply (get_ok c _ HQ OA) in G. destruct G as [a [I [E <-]]]. eexists. split; [apply in_map_iff; exists a; split; [reflexivity|exact I]|].
        cbn [fst snd]. rewrite (fo_sector OA I). auto.
    Qed.
    Lemma dagger_entry c x y : oconj o (o0 o) = o0 o -> x < block_size P c -> y < block_size Q c -> ft_entry o P (ft_dagger o A) c y x = oconj o (ft_entry o Q A c x y).
    Proof.
      intros Z Hx Hy. rewrite !ft_entry_get, dagger_get. destruct (ft_get Q A c) as [a|] eqn:G; cbn [option_map]; [|auto]. assert (M := get_matrix HP HQ OA G).
      apply (@bat_dagger K o a [x; y]); [apply M|now apply (matrix_valid M)].
    Qed.
    (** *** mul *)
    Variable is_zero : K -> bool.
    Lemma mul_ok a : ft_ok P Q (ft_mul o is_zero a A).
    Proof.
      unfold ft_mul. destruct (is_zero a); rewrite ?ft_make_true.
      - apply ft_ok_make; [constructor|intros e []].
      - apply ft_ok_sorted; [rewrite map_map; apply (fo_sorted OA)|]. intros e I. apply in_map_iff in I. destruct I as [e' [<- I]]. cbn [fst snd]. destruct (fo_range OA I) as [R1 R2]. split; [exact R1|]. split; [exact R2|].
        split; [apply (fo_sector OA I)|]. split; [apply (fo_shape OA I)|]. apply bmul_wf. apply (fo_full OA I).
    Qed.
    Lemma find_map_keys (g : block -> block) (F : fdata) c : ft_get Q (map (fun e => (fst e, g (snd e))) F) c = option_map g (ft_get Q F c).
    Proof. unfold ft_get. induction F as [|e F IH]; [reflexivity|]. cbn [map find]. unfold hit at 1 3. cbn [fst snd]. destruct (row_eqb _ c); [reflexivity|exact IH]. Qed.
    Lemma mul_get a c : ft_get Q (ft_mul o is_zero a A) c = if is_zero a then None else option_map (bmul o a) (ft_get Q A c).
    Proof. unfold ft_mul. destruct (is_zero a); [reflexivity|]. rewrite ft_make_true. apply find_map_keys. Qed.
    Lemma mul_entry a c x y : is_semiring o -> (is_zero a = true -> a = o0 o) -> x < block_size P c -> y < block_size Q c -> ft_entry o Q (ft_mul o is_zero a A) c x y = omul o a (ft_entry o Q A c x y).
    Proof.
      intros SR Z Hx Hy. rewrite !ft_entry_get, mul_get. destruct (is_zero a) eqn:E.
      - rewrite (Z eq_refl). symmetry. apply (SRmul_0_l SR).
      - destruct (ft_get Q A c) as [B|] eqn:G; cbn [option_map]; [|symmetry; apply (mul_0_r SR)]. assert (M := get_matrix HP HQ OA G). apply bat_mul; [apply M|now apply (matrix_valid M)].
    Qed.
    Lemma discard_ok small : ft_ok P Q (ft_discard small A).
    Proof.
      unfold ft_discard. apply ft_ok_sorted.
      - assert (ST := fo_sorted OA). induction A as [|e l IH]; [constructor|]. cbn [filter map] in *. apply StronglySorted_inv in ST. destruct ST as [ST FA].
        assert (T := IH ltac:(destruct OA as [? O1 O2 O3 O4]; constructor; [exact ST| | | |]; intros e' I'; [apply O1|apply O2|apply O3|apply O4]; now right) ST).
        destruct (negb (small (snd e))); [|exact T]. cbn [map]. constructor; [exact T|]. apply Forall_forall. intros k I. apply in_map_iff in I. destruct I as [e' [<- I]]. apply filter_In in I. rewrite Forall_forall in FA. apply FA. apply (in_map key1). tauto.
      - intros e I. apply filter_In in I. destruct I as [I _]. destruct (fo_range OA I). repeat split; auto; [apply (fo_sector OA I)|apply (fo_shape OA I)|apply (fo_full OA I)].
    Qed.
    Lemma discard_get small c : ft_get Q (ft_discard small A) c = match ft_get Q A c with Some B => if small B then None else Some B | None => None end.
    Proof.
      apply get_eq; [apply (secs_NoDup OK HQ)|apply (ft_keyed (discard_ok small))|]. intros X. split.
      - intros [e [I [E EX]]]. apply filter_In in I. destruct I as [I N]. assert (G : ft_get Q A c = Some (snd e)) by (apply (get_ok c _ HQ OA); now exists e). rewrite G. destruct (small (snd e)); [discriminate|now subst].
      - destruct (ft_get Q A c) as [B|] eqn:G; [|discriminate]. destruct (small B) eqn:N; [discriminate|]. intros [= <-]. apply (get_ok c _ HQ OA) in G. destruct G as [e [I [E <-]]]. exists e. split; [|auto]. apply filter_In. split; [exact I|now rewrite N].
    Qed.
  End One.
End Get.
