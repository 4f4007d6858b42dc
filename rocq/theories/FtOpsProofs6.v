(** Diagonal tensors, functions of square tensors, scaling. *)
From Verif Require Import Util StableSort RowModel RowProofs GridModel GridProofs SymModel SymProofs CatSpec Sums SpaceModel SpaceSpec SpaceProofs SpaceProofs7
  PipeModel TreeModel TensorModel TensorSpec TensorProofs TensorProofs5 BlockModel BlockProofs SparseModel SparseProofs SparseProofs3 SparseProofs5 ConvertModel ConvertSpec ConvertProofs3 FtOpsModel FtOpsSpec FtOpsProofs FtOpsProofs2 FtOpsProofs3 FtOpsProofs4 FtOpsProofs5.
Set Implicit Arguments. Unset Strict Implicit.
Open Scope nat_scope.

Section Six.
  Variable K : Type.
  Variable o : ops K.
  Notation block := (blk K).
  Notation fdata := (list (nat * nat * blk K)).
  Notation key1 := (fun e : nat * nat * blk K => snd (fst e)).
  Notation key0 := (fun e : nat * nat * blk K => fst (fst e)).
  Notation nob := ((0, 0), Blk [] []).
  Variable S : tsymm.
  Hypothesis OK : tsymm_ok S.
  Variable P : tprod.
  Hypothesis HP : tp_ok S P.

  Lemma diag_key0 (D : fdata) : diag_ok P D -> map key0 D = map key1 D.
  Proof. intros O. apply map_ext_in. intros e I. apply (go_diag O I). Qed.
  Lemma vector_valid n (B : block) x : is_vector n B -> x < n -> valid_idx (bshape B) [x].
  Proof. intros [-> _] Hx. constructor; [exact Hx|constructor]. Qed.
  Lemma bat_vec n (B : block) x : is_vector n B -> x < n -> bat o B [x] = nth x (bdata B) (o0 o).
  Proof. intros [E _] Hx. rewrite bat_flat by (rewrite E; reflexivity). rewrite E. now rewrite flat_index_1. Qed.
  Lemma row_vec (D : fdata) e : diag_ok P D -> In e D -> is_vector (block_size P (nth (snd (fst e)) (tp_secs P) [])) (snd e).
  Proof. intros O I. split; [|apply (go_full O I)]. rewrite (go_shape O I), (block_size_nth OK HP); [reflexivity|apply (go_range O I)]. Qed.

  (** *** to and from full tensors *)
  Lemma to_full_ok D : diag_ok P D -> ft_ok P P (diag_to_full o D).
  Proof.
    intros O. unfold diag_to_full. rewrite ft_make_true. apply ft_ok_sorted; [rewrite map_map; apply (go_sorted O)|]. intros e I. apply in_map_iff in I. destruct I as [d [<- I]]. cbn [fst snd].
    assert (R := go_range O I). assert (E := go_diag O I). rewrite E. repeat split; auto; [|apply bmk_wf]. unfold bdiag. cbn [bmk bshape]. rewrite (go_shape O I). reflexivity.
  Qed.
  Lemma to_full_get D c : ft_get P (diag_to_full o D) c = option_map (bdiag o) (ft_get P D c).
  Proof. unfold diag_to_full. rewrite ft_make_true. apply find_map_keys. Qed.
  Lemma to_full_entry D c x y : diag_ok P D -> x < block_size P c -> y < block_size P c -> ft_entry o P (diag_to_full o D) c x y = if x =? y then diag_entry o P D c x else o0 o.
  Proof.
    intros O Hx Hy. rewrite ft_entry_get, to_full_get, diag_entry_get. destruct (ft_get P D c) as [B|] eqn:G; cbn [option_map]; [|now destruct (x =? y)].
    assert (V := get_vector OK HP O G). unfold bdiag. cbv zeta. destruct V as [E _]. rewrite E. cbn [nth]. rewrite bat_bmk; [reflexivity|]. constructor; [exact Hx|]. constructor; [exact Hy|constructor].
  Qed.
  Lemma from_full_some okf A D : ft_ok P P A -> diag_from_full o okf A = Some D -> (forall e, In e A -> okf (snd e) = true) /\ diag_ok P D /\ (forall c, ft_get P D c = option_map (bdiagonal o) (ft_get P A c)).
  Proof.
    intros O. unfold diag_from_full. destruct (forallb _ A) eqn:F; [|discriminate]. intros [= <-]. split; [intros e I; rewrite forallb_forall in F; now apply F|]. rewrite ft_make_true. split.
    - apply diag_ok_sorted; [rewrite map_map; apply (fo_sorted O)|]. intros e I. apply in_map_iff in I. destruct I as [d [<- I]]. cbn [fst snd]. destruct (fo_range O I) as [R1 R2].
      assert (E : fst (fst d) = snd (fst d)) by (apply (inj_idx OK HP); auto; apply (fo_sector O I)). repeat split; auto; [|apply bmk_wf]. unfold bdiagonal. cbn [bmk bshape]. rewrite (fo_shape O I), E. cbn [nth]. now rewrite Nat.min_id.
    - intros c. apply find_map_keys.
  Qed.
  Lemma from_full_none okf A : diag_from_full o okf A = None <-> exists e, In e A /\ okf (snd e) = false.
  Proof.
    unfold diag_from_full. destruct (forallb _ A) eqn:F; split; try discriminate; try reflexivity.
    - intros [e [I E]]. rewrite forallb_forall in F. specialize (F e I). cbn in F. congruence.
    - intros _. assert (X : existsb (fun e => negb (okf (snd e))) A = true).
      { destruct (existsb _ A) eqn:X; [reflexivity|]. exfalso. assert (forallb (fun e => okf (snd e)) A = true); [|congruence]. apply forallb_forall. intros e I. destruct (okf (snd e)) eqn:Q; [reflexivity|].
        assert (existsb (fun e => negb (okf (snd e))) A = true) by (apply existsb_exists; exists e; rewrite Q; auto). congruence. }
      apply existsb_exists in X. destruct X as [e [I X]]. exists e. split; [exact I|]. now destruct (okf (snd e)).
  Qed.
  Lemma from_full_entry okf A D c x : ft_ok P P A -> diag_from_full o okf A = Some D -> x < block_size P c -> diag_entry o P D c x = ft_entry o P A c x x.
  Proof.
    intros O E Hx. destruct (from_full_some O E) as (_ & OD & G). rewrite diag_entry_get, ft_entry_get, G. destruct (ft_get P A c) as [B|] eqn:GA; cbn [option_map]; [|reflexivity].
    destruct (get_matrix OK HP HP O GA) as [EB _]. unfold bdiagonal. rewrite EB. cbn [nth]. rewrite Nat.min_id. rewrite bat_bmk; [reflexivity|]. constructor; [exact Hx|constructor].
  Qed.

  (** *** one block per sector *)
  Lemma fill_spec dflt : forall k i (F : fdata), StronglySorted lt (map key0 F) -> (forall e, In e F -> i <= fst (fst e) < i + k) ->
    length (fill_from dflt i k F) = k /\
    forall t, t < k -> (forall e, In e F -> fst (fst e) = i + t -> nth t (fill_from dflt i k F) (Blk [] []) = snd e) /\ ((forall e, In e F -> fst (fst e) <> i + t) -> nth t (fill_from dflt i k F) (Blk [] []) = dflt (i + t)).
  Proof.
    induction k as [|k IH]; intros i F ST R; [split; [reflexivity|lia]|]. cbn [fill_from]. destruct F as [|e F].
    - destruct (IH (i + 1) [] ST ltac:(intros e [])) as [L H]. split; [cbn [length]; lia|]. intros [|t] Ht; cbn [nth].
      + split; [intros e []|]. intros _. f_equal. lia.
      + destruct (H t ltac:(lia)) as [_ H2]. split; [intros e []|]. intros _. rewrite H2 by (intros e []). f_equal. lia.
    - cbn [map] in ST. assert (ST' := ST). apply StronglySorted_inv in ST'. destruct ST' as [ST' FA]. rewrite Forall_forall in FA. destruct (Nat.eqb_spec (fst (fst e)) i) as [E|E].
      + destruct (IH (i + 1) F ST') as [L H]. { intros f If. assert (X := FA _ (in_map key0 _ _ If)). cbn in X. specialize (R f (or_intror If)). lia. }
        split; [cbn [length]; lia|]. intros [|t] Ht; cbn [nth].
        * split; [|intros N; exfalso; apply (N e (or_introl eq_refl)); lia]. intros f [<-|If] Ef; [reflexivity|]. assert (X := FA _ (in_map key0 _ _ If)). cbn in X. lia.
        * destruct (H t ltac:(lia)) as [H1 H2]. split.
          -- intros f [<-|If] Ef; [lia|]. apply H1; [exact If|lia].
          -- intros N. rewrite H2 by (intros f If; specialize (N f (or_intror If)); lia). f_equal. lia.
      + destruct (IH (i + 1) (e :: F) ST) as [L H]. { intros f If. assert (Rf := R f If). assert (Re := R e (or_introl eq_refl)). destruct If as [<-|If]; [lia|]. assert (X := FA _ (in_map key0 _ _ If)). cbn in X. lia. }
        split; [cbn [length]; lia|]. intros [|t] Ht; cbn [nth].
        * split; [|intros _; f_equal; lia]. intros f If Ef. exfalso. assert (Re := R e (or_introl eq_refl)). destruct If as [<-|If]; [lia|]. assert (X := FA _ (in_map key0 _ _ If)). cbn in X. lia.
        * destruct (H t ltac:(lia)) as [H1 H2]. split.
          -- intros f If Ef. apply H1; [exact If|lia].
          -- intros N. rewrite H2 by (intros f If; specialize (N f If); lia). f_equal. lia.
  Qed.
  (** data whose rows are (k, k): full tensors from P to P, or diagonal tensors *)
  Definition square_rows (F : fdata) : Prop := StronglySorted lt (map key1 F) /\ forall e, In e F -> fst (fst e) = snd (fst e) /\ snd (fst e) < length (tp_secs P).
  Lemma square_ft F : ft_ok P P F -> square_rows F.
  Proof. intros O. split; [apply (fo_sorted O)|]. intros e I. destruct (fo_range O I) as [R1 R2]. split; [apply (inj_idx OK HP); auto; apply (fo_sector O I)|exact R2]. Qed.
  Lemma square_diag D : diag_ok P D -> square_rows D.
  Proof. intros O. split; [apply (go_sorted O)|]. intros e I. split; [apply (go_diag O I)|apply (go_range O I)]. Qed.
  Lemma fill_get dflt F : square_rows F -> length (fill dflt P F) = length (tp_secs P) /\
    forall i, i < length (tp_secs P) -> nth i (fill dflt P F) (Blk [] []) = match ft_get P F (nth i (tp_secs P) []) with Some B => B | None => dflt i end.
  Proof.
    intros [ST R]. assert (E0 : map key0 F = map key1 F) by (apply map_ext_in; intros e I; apply (R e I)).
    destruct (@fill_spec dflt (length (tp_secs P)) 0 F) as [L H]; [rewrite E0; exact ST|intros e I; destruct (R e I); lia|]. split; [exact L|]. intros i Hi. unfold fill. destruct (H i Hi) as [H1 H2].
    assert (KF : keyed P F) by (split; [apply lt_NoDup; exact ST|intros e I; apply (R e I)]). destruct (ft_get P F (nth i (tp_secs P) [])) as [B|] eqn:G.
    - apply (get_iff _ _ (secs_NoDup OK HP) KF) in G. destruct G as [e [I [E <-]]]. destruct (R e I) as [R1 R2]. apply H1; [exact I|]. rewrite R1. apply (inj_idx OK HP); auto.
    - apply H2. intros e I X. destruct (R e I) as [R1 R2]. assert (ft_get P F (nth i (tp_secs P) []) = Some (snd e)); [|congruence]. apply (get_iff _ _ (secs_NoDup OK HP) KF). exists e. split; [exact I|]. split; [|reflexivity]. f_equal. lia.
  Qed.
  Lemma on_diag_In (blocks : list block) e : In e (on_diag blocks) <-> exists i, i < length blocks /\ e = ((i, i), nth i blocks (Blk [] [])).
  Proof.
    unfold on_diag. rewrite ft_make_In, in_map_iff. split.
    - intros [[i B] [<- I]]. apply In_nth with (d := (0, Blk [] [])) in I. destruct I as [k [Hk E]]. rewrite combine_length, seq_length, Nat.min_id in Hk. rewrite combine_nth in E by now rewrite seq_length. rewrite seq_nth in E by exact Hk. injection E as <- <-. exists k. auto.
    - intros [i [Hi ->]]. exists (i, nth i blocks (Blk [] [])). split; [reflexivity|]. replace (i, nth i blocks (Blk [] [])) with (nth i (combine (seq 0 (length blocks)) blocks) (0, Blk [] [])).
      + apply nth_In. rewrite combine_length, seq_length. lia.
      + rewrite combine_nth by now rewrite seq_length. now rewrite seq_nth.
  Qed.
  Lemma on_diag_NoDup (blocks : list block) : NoDup (map key1 (map (fun p => ((fst p, fst p), snd p)) (combine (seq 0 (length blocks)) blocks))).
  Proof. rewrite map_map. cbn [fst snd]. rewrite map_fst_combine by now rewrite seq_length. apply seq_NoDup. Qed.
  Lemma on_diag_get (blocks : list block) : length blocks = length (tp_secs P) -> keyed P (on_diag blocks) -> forall i, i < length (tp_secs P) -> ft_get P (on_diag blocks) (nth i (tp_secs P) []) = Some (nth i blocks (Blk [] [])).
  Proof.
    intros L KF i Hi. apply (get_iff _ _ (secs_NoDup OK HP) KF). exists ((i, i), nth i blocks (Blk [] [])). split; [apply on_diag_In; exists i; split; [lia|reflexivity]|]. auto.
  Qed.
  Lemma on_diag_vec (blocks : list block) : length blocks = length (tp_secs P) -> (forall i, i < length (tp_secs P) -> is_vector (nth i (tp_mults P) 0) (nth i blocks (Blk [] []))) -> diag_ok P (on_diag blocks).
  Proof.
    intros L H. apply diag_ok_make; [apply on_diag_NoDup|]. intros e I. apply (ft_make_In _ false) in I. apply on_diag_In in I. destruct I as [i [Hi ->]]. cbn [fst snd]. rewrite L in Hi. destruct (H i Hi). auto.
  Qed.
  Lemma on_diag_mat (blocks : list block) : length blocks = length (tp_secs P) -> (forall i, i < length (tp_secs P) -> is_matrix (nth i (tp_mults P) 0) (nth i (tp_mults P) 0) (nth i blocks (Blk [] []))) -> ft_ok P P (on_diag blocks).
  Proof.
    intros L H. apply ft_ok_make; [apply on_diag_NoDup|]. intros e I. apply (ft_make_In _ false) in I. apply on_diag_In in I. destruct I as [i [Hi ->]]. cbn [fst snd]. rewrite L in Hi. destruct (H i Hi). auto.
  Qed.
  Lemma sec_nth c : 0 < block_size P c -> exists i, i < length (tp_secs P) /\ nth i (tp_secs P) [] = c /\ nth i (tp_mults P) 0 = block_size P c.
  Proof. intros H. apply (In_secs OK c HP) in H. apply In_nth with (d := []) in H. destruct H as [i [Hi E]]. exists i. split; [exact Hi|]. split; [exact E|]. now rewrite (block_size_nth OK HP Hi), E. Qed.

  (** *** elementwise functions *)
  Lemma unary_vec f n (B : block) : is_vector n B -> is_vector n (bunary f B).
  Proof. intros [E W]. split; [exact E|]. cbn [bunary bshape bdata]. now rewrite map_length. Qed.
  Lemma unary_at f n (B : block) x : is_vector n B -> x < n -> bat o (bunary f B) [x] = f (bat o B [x]).
  Proof.
    intros V Hx. rewrite (bat_vec (unary_vec f V) Hx), (bat_vec V Hx). cbn [bunary bdata]. destruct V as [E W]. rewrite nth_map_lt with (d := o0 o); [reflexivity|]. rewrite W, E, prod_one. exact Hx.
  Qed.
  Lemma zeros_vec n : is_vector n (bzeros o [n]).
  Proof. split; [reflexivity|apply bmk_wf]. Qed.
  Lemma zeros_at n x : x < n -> bat o (bzeros o [n]) [x] = o0 o.
  Proof. intros H. apply bat_zeros. constructor; [exact H|constructor]. Qed.
  Lemma fill_vec A i : diag_ok P A -> i < length (tp_secs P) -> is_vector (nth i (tp_mults P) 0) (nth i (fill (fun i => bzeros o [nth i (tp_mults P) 0]) P A) (Blk [] [])) /\
    forall x, x < nth i (tp_mults P) 0 -> bat o (nth i (fill (fun i => bzeros o [nth i (tp_mults P) 0]) P A) (Blk [] [])) [x] = diag_entry o P A (nth i (tp_secs P) []) x.
  Proof.
    intros O Hi. destruct (fill_get (fun i => bzeros o [nth i (tp_mults P) 0]) (square_diag O)) as [_ H]. rewrite (H i Hi). destruct (ft_get P A (nth i (tp_secs P) [])) as [B|] eqn:G.
    - split; [rewrite (block_size_nth OK HP Hi); apply (get_vector OK HP O G)|]. intros x _. now rewrite diag_entry_get, G.
    - split; [apply zeros_vec|]. intros x Hx. rewrite diag_entry_get, G. now apply zeros_at.
  Qed.
  Lemma nth_map_blk (f : block -> block) l i : i < length l -> nth i (map f l) (Blk [] []) = f (nth i l (Blk [] [])).
  Proof. intros H. now rewrite nth_map_lt with (d := Blk [] []). Qed.
  Lemma diag_unary_spec f mz A : diag_ok P A -> (mz = true -> f (o0 o) = o0 o) ->
    diag_ok P (diag_unary o f mz P A) /\ forall c x, x < block_size P c -> diag_entry o P (diag_unary o f mz P A) c x = f (diag_entry o P A c x).
  Proof.
    intros O Z. unfold diag_unary. destruct mz.
    - assert (R : diag_ok P (ft_make (map (fun e => (fst e, bunary f (snd e))) A) false)).
      { apply diag_ok_make; [rewrite map_map; apply lt_NoDup, (go_sorted O)|]. intros e I. apply in_map_iff in I. destruct I as [d [<- I]]. cbn [fst snd]. split; [apply (go_diag O I)|]. split; [apply (go_range O I)|].
        split; [apply (go_shape O I)|]. cbn [bunary bshape bdata]. rewrite map_length. apply (go_full O I). }
      split; [exact R|]. intros c x Hx. rewrite !diag_entry_get. replace (ft_get P (ft_make _ false) c) with (option_map (bunary f) (ft_get P A c)).
      + destruct (ft_get P A c) as [B|] eqn:G; cbn [option_map]; [|symmetry; now apply Z]. apply (unary_at f (get_vector OK HP O G) Hx).
      + symmetry. apply get_eq; [apply (secs_NoDup OK HP)|apply (diag_keyed R)|]. intros B. rewrite stored_make, <- find_map_keys. symmetry. apply get_iff; [apply (secs_NoDup OK HP)|].
        split; [rewrite map_map; apply lt_NoDup, (go_sorted O)|]. intros e I. apply in_map_iff in I. destruct I as [d [<- I]]. apply (go_range O I).
    - set (z := fun i => bzeros o [nth i (tp_mults P) 0]). destruct (fill_get z (square_diag O)) as [L _]. assert (LM : length (map (bunary f) (fill z P A)) = length (tp_secs P)) by now rewrite map_length.
      assert (R : diag_ok P (on_diag (map (bunary f) (fill z P A)))).
      { apply on_diag_vec; [exact LM|]. intros i Hi. rewrite nth_map_blk by lia. apply unary_vec. now apply fill_vec. }
      split; [exact R|]. intros c x Hx. destruct (@sec_nth c) as [i [Hi [<- Em]]]; [lia|]. rewrite (diag_entry_get o P (on_diag _)), (on_diag_get LM (diag_keyed R) Hi). rewrite nth_map_blk by lia. destruct (fill_vec O Hi) as [V E]. fold z in V, E. rewrite <- Em in Hx. rewrite (unary_at f V Hx). f_equal. now apply E.
  Qed.
  Lemma binary_vec f n (B B' : block) : is_vector n B -> is_vector n B' -> is_vector n (bbinary f B B').
  Proof. intros [E W] [E' W']. split; [exact E|]. cbn [bbinary bshape bdata]. rewrite map_length, combine_length, W, W', E, E'. apply Nat.min_id. Qed.
  Lemma binary_at f n (B B' : block) x : is_vector n B -> is_vector n B' -> x < n -> bat o (bbinary f B B') [x] = f (bat o B [x]) (bat o B' [x]).
  Proof.
    intros V V' Hx. rewrite (bat_vec (binary_vec f V V') Hx), (bat_vec V Hx), (bat_vec V' Hx). cbn [bbinary bdata]. destruct V as [E W], V' as [E' W']. rewrite E, prod_one in W. rewrite E', prod_one in W'.
    rewrite nth_map_lt with (d := (o0 o, o0 o)) by (rewrite combine_length; lia). rewrite combine_nth by lia. reflexivity.
  Qed.
  Lemma diag_binary_spec f pz A B : diag_ok P A -> diag_ok P B -> (pz = true -> forall x, f (o0 o) x = o0 o /\ f x (o0 o) = o0 o) ->
    diag_ok P (diag_binary o f pz P A B) /\ forall c x, x < block_size P c -> diag_entry o P (diag_binary o f pz P A B) c x = f (diag_entry o P A c x) (diag_entry o P B c x).
  Proof.
    intros OA OB Z. unfold diag_binary. destruct pz.
    - unfold col0. rewrite (map_frow (fun a b => (fst a, bbinary f (snd a) (snd b))) A B key0 key0).
      assert (SA : StronglySorted lt (map key0 A)) by (rewrite (diag_key0 OA); apply (go_sorted OA)). assert (SB : StronglySorted lt (map key0 B)) by (rewrite (diag_key0 OB); apply (go_sorted OB)).
      destruct (@wpairs_spec _ _ key0 key0 nob nob A [] B [] SA SB) as [IN SS]. set (L := wpairs key0 key0 nob nob [] A [] B) in *.
      assert (R : diag_ok P (ft_make (map (fun p => (fst (fst p), bbinary f (snd (fst p)) (snd (snd p)))) L) false)).
      { apply diag_ok_make.
        - rewrite map_map. cbn [fst snd]. apply (NoDup_map_from (f := fun p => fst (fst (fst p)))); [apply lt_NoDup; exact SS|]. intros [a b] [a' b'] I I' E. cbn [fst snd] in *. apply IN in I, I'. rewrite (go_diag OA (proj1 I)), (go_diag OA (proj1 I')). exact E.
        - intros e I. apply in_map_iff in I. destruct I as [[a b] [<- I]]. apply IN in I. cbn [fst snd]. destruct I as (Ia & Ib & E). split; [apply (go_diag OA Ia)|]. split; [apply (go_range OA Ia)|]. split; [apply (go_shape OA Ia)|].
          apply (@binary_vec f (nth (snd (fst a)) (tp_mults P) 0)); [split; [apply (go_shape OA Ia)|apply (go_full OA Ia)]|]. split; [|apply (go_full OB Ib)]. rewrite (go_shape OB Ib). f_equal. f_equal. rewrite <- (go_diag OB Ib), <- (go_diag OA Ia). auto. }
      split; [exact R|]. intros c x Hx. rewrite !diag_entry_get.
      replace (ft_get P (ft_make _ false) c) with (match ft_get P A c, ft_get P B c with Some a, Some b => Some (bbinary f a b) | _, _ => None end).
      + destruct (ft_get P A c) as [a|] eqn:GA; [destruct (ft_get P B c) as [b|] eqn:GB|].
        * apply (binary_at f (get_vector OK HP OA GA) (get_vector OK HP OB GB) Hx).
        * symmetry. now apply Z.
        * symmetry. now apply Z.
      + symmetry. apply get_eq; [apply (secs_NoDup OK HP)|apply (diag_keyed R)|]. intros X. rewrite stored_make. split.
        * intros [e [I [E EX]]]. apply in_map_iff in I. destruct I as [[a b] [<- I]]. cbn [fst snd] in E, EX. apply IN in I. destruct I as (Ia & Ib & Ek).
          assert (GA : ft_get P A c = Some (snd a)) by (apply (get_diag_ok OK c _ HP OA); now exists a).
          assert (GB : ft_get P B c = Some (snd b)) by (apply (get_diag_ok OK c _ HP OB); exists b; split; [exact Ib|]; split; [|reflexivity]; rewrite <- (go_diag OB Ib), <- Ek, (go_diag OA Ia); exact E). rewrite GA, GB. now subst.
        * destruct (ft_get P A c) as [xa|] eqn:GA; [|discriminate]. destruct (ft_get P B c) as [xb|] eqn:GB; [|discriminate]. intros [= <-]. apply (get_diag_ok OK c _ HP OA) in GA. apply (get_diag_ok OK c _ HP OB) in GB.
          destruct GA as [a [Ia [Ea <-]]], GB as [b [Ib [Eb <-]]]. eexists. split; [apply in_map_iff; exists (a, b); split; [reflexivity|]; apply IN|].
          -- split; [exact Ia|]. split; [exact Ib|]. rewrite (go_diag OA Ia), (go_diag OB Ib). apply (inj_idx OK HP); [apply (go_range OA Ia)|apply (go_range OB Ib)|congruence].
          -- cbn [fst snd]. auto.
    - cbv zeta. set (z := fun i => bzeros o [nth i (tp_mults P) 0]). destruct (fill_get z (square_diag OA)) as [LA _]. destruct (fill_get z (square_diag OB)) as [LB _].
      set (l := map (fun p => bbinary f (fst p) (snd p)) (combine (fill z P A) (fill z P B))). assert (LM : length l = length (tp_secs P)) by (unfold l; rewrite map_length, combine_length; lia).
      assert (NT : forall i, i < length (tp_secs P) -> nth i l (Blk [] []) = bbinary f (nth i (fill z P A) (Blk [] [])) (nth i (fill z P B) (Blk [] []))).
      { intros i Hi. unfold l. rewrite nth_map_lt with (d := (Blk [] [], Blk [] [])) by (rewrite combine_length; lia). rewrite combine_nth by lia. reflexivity. }
      assert (R : diag_ok P (on_diag l)). { apply on_diag_vec; [exact LM|]. intros i Hi. rewrite (NT i Hi). apply binary_vec; now apply fill_vec. }
      split; [exact R|]. intros c x Hx. destruct (@sec_nth c) as [i [Hi [<- Em]]]; [lia|]. rewrite (diag_entry_get o P (on_diag _)), (on_diag_get LM (diag_keyed R) Hi), (NT i Hi).
      destruct (fill_vec OA Hi) as [VA EA], (fill_vec OB Hi) as [VB EB]. fold z in VA, EA, VB, EB. rewrite <- Em in Hx. rewrite (binary_at f VA VB Hx). f_equal; [now apply EA|now apply EB].
  Qed.
  (** *** reductions *)
  Lemma diag_all_spec test A : diag_ok P A -> test (o0 o) = false -> (diag_all test P A = true <-> forall c x, x < block_size P c -> test (diag_entry o P A c x) = true).
  Proof.
    intros O Z. unfold diag_all. destruct (Nat.ltb_spec (length A) (length (tp_secs P))) as [H|H].
    - split; [discriminate|]. intros X. exfalso. assert (XX : exists i, i < length (tp_secs P) /\ ~ In i (map key1 A)).
      { destruct (Forall_Exists_dec (fun i => In i (map key1 A)) (fun i => in_dec Nat.eq_dec i _) (seq 0 (length (tp_secs P)))) as [F|E].
        - exfalso. rewrite Forall_forall in F. assert (LL := NoDup_incl_length (seq_NoDup (length (tp_secs P)) 0) F). rewrite seq_length, map_length in LL. lia.
        - apply Exists_exists in E. destruct E as [i [Ii E]]. apply in_seq in Ii. exists i. split; [lia|exact E]. }
      destruct XX as [i [Hi NI]]. assert (B0 : 0 < block_size P (nth i (tp_secs P) [])) by (apply (In_secs OK _ HP); now apply nth_In). specialize (X _ 0 B0). rewrite diag_entry_get in X.
      destruct (ft_get P A (nth i (tp_secs P) [])) as [B|] eqn:G; [|congruence]. apply (get_diag_ok OK _ _ HP O) in G. destruct G as [e [I [E _]]]. apply NI. apply in_map_iff. exists e. split; [|exact I]. apply (inj_idx OK HP); auto. apply (go_range O I).
    - rewrite forallb_forall. split.
      + intros F c x Hx. destruct (@sec_nth c) as [i [Hi [Ec _]]]; [lia|]. assert (I : In i (map key1 A)).
        { assert (incl (seq 0 (length (tp_secs P))) (map key1 A)) as IC.
          { apply NoDup_length_incl; [apply lt_NoDup, (go_sorted O)|rewrite seq_length, map_length; lia|]. intros k Ik. apply in_map_iff in Ik. destruct Ik as [e [<- Ie]]. apply in_seq. assert (R := go_range O Ie). lia. }
          apply IC. apply in_seq. lia. }
        apply in_map_iff in I. destruct I as [e [Ee Ie]]. assert (G : ft_get P A c = Some (snd e)) by (apply (get_diag_ok OK _ _ HP O); exists e; rewrite Ee; auto). rewrite diag_entry_get, G. assert (V := get_vector OK HP O G). rewrite (bat_vec V Hx).
        specialize (F e Ie). rewrite forallb_forall in F. apply F. apply nth_In. destruct V as [E W]. rewrite W, E, prod_one. exact Hx.
      + intros X e I. apply forallb_forall. intros v Iv. apply In_nth with (d := o0 o) in Iv. destruct Iv as [x [Hx <-]]. assert (V := row_vec O I). assert (W := V). destruct W as [E W]. rewrite W, E, prod_one in Hx.
        assert (G : ft_get P A (nth (snd (fst e)) (tp_secs P) []) = Some (snd e)) by (apply (get_diag_ok OK _ _ HP O); now exists e). specialize (X _ x Hx). rewrite diag_entry_get, G, (bat_vec V Hx) in X. exact X.
  Qed.
  Lemma diag_any_spec test A : diag_ok P A -> test (o0 o) = false -> (diag_any test A = true <-> exists c x, x < block_size P c /\ test (diag_entry o P A c x) = true).
  Proof.
    intros O Z. unfold diag_any. rewrite existsb_exists. split.
    - intros [e [I H]]. apply existsb_exists in H. destruct H as [v [Iv T]]. apply In_nth with (d := o0 o) in Iv. destruct Iv as [x [Hx <-]]. assert (V := row_vec O I). assert (W := V). destruct W as [E W]. rewrite W, E, prod_one in Hx.
      exists (nth (snd (fst e)) (tp_secs P) []), x. split; [exact Hx|]. assert (G : ft_get P A (nth (snd (fst e)) (tp_secs P) []) = Some (snd e)) by (apply (get_diag_ok OK _ _ HP O); now exists e). rewrite diag_entry_get, G, (bat_vec V Hx). exact T.
    - intros [c [x [Hx T]]]. rewrite diag_entry_get in T. destruct (ft_get P A c) as [B|] eqn:G; [|congruence]. assert (V := get_vector OK HP O G). apply (get_diag_ok OK _ _ HP O) in G. destruct G as [e [I [_ <-]]]. exists e. split; [exact I|].
      apply existsb_exists. rewrite (bat_vec V Hx) in T. exists (nth x (bdata (snd e)) (o0 o)). split; [|exact T]. apply nth_In. destruct V as [E W]. rewrite W, E, prod_one. exact Hx.
  Qed.
  Lemma osum_vec n (B : block) : is_vector n B -> osum o (bdata B) = sumn o n (fun x => bat o B [x]).
  Proof.
    intros V. unfold sumn. f_equal. destruct V as [E W]. assert (LB : length (bdata B) = n) by (rewrite W, E; apply prod_one). apply list_eq_nth with (d := o0 o).
    - now rewrite map_length, seq_length.
    - intros i Hi. rewrite nth_map_lt with (d := 0) by (rewrite seq_length; lia). rewrite seq_nth by lia. symmetry. apply (@bat_vec n); [split; assumption|lia].
  Qed.
  Hypothesis SR : is_semiring o.
  Lemma diag_trace_entry qdim A : diag_ok P A -> diag_trace o (map qdim (tp_secs P)) A = osum o (map (fun c => omul o (qdim c) (sumn o (block_size P c) (fun x => diag_entry o P A c x))) (tp_secs P)).
  Proof.
    intros O. unfold diag_trace. rewrite (fold_sum SR), (SRadd_0_l SR). apply (sum_sectors SR (key := fun e => nth (fst (fst e)) (tp_secs P) [])); [apply (secs_NoDup OK HP)| | |].
    - apply (NoDup_map_from (f := key1)); [apply lt_NoDup, (go_sorted O)|]. intros a b Ia Ib X. rewrite (go_diag O Ia), (go_diag O Ib) in X. apply (inj_idx OK HP); auto; [apply (go_range O Ia)|apply (go_range O Ib)].
    - intros e I. assert (R := go_range O I). rewrite (go_diag O I). split; [now apply nth_In|]. rewrite (qdims_nth o qdim R). f_equal.
      assert (G : ft_get P A (nth (snd (fst e)) (tp_secs P) []) = Some (snd e)) by (apply (get_diag_ok OK _ _ HP O); now exists e). rewrite (osum_vec (row_vec O I)). unfold sumn. apply sum_ext. intros x _. now rewrite diag_entry_get, G.
    - intros c Ic N. replace (sumn o _ _) with (o0 o); [apply (mul_0_r SR)|]. symmetry. apply (sum_zero SR). intros x _. rewrite diag_entry_get. destruct (ft_get P A c) as [B|] eqn:G'; [|reflexivity]. exfalso.
      apply (get_diag_ok OK _ _ HP O) in G'. destruct G' as [e [I [Ee _]]]. apply N. apply in_map_iff. exists e. split; [rewrite (go_diag O I); exact Ee|exact I].
  Qed.
  (** *** functions of square tensors *)
  Lemma act_square_spec f A : ft_ok P P A -> (forall n B, is_matrix n n B -> is_matrix n n (f B)) -> ft_ok P P (act_square o f P A) /\
    forall c, 0 < block_size P c -> exists B, is_matrix (block_size P c) (block_size P c) B /\ (forall x y, x < block_size P c -> y < block_size P c -> mat o B x y = ft_entry o P A c x y) /\
      forall x y, x < block_size P c -> y < block_size P c -> ft_entry o P (act_square o f P A) c x y = mat o (f B) x y.
  Proof.
    intros O FM. unfold act_square. set (z := fun i => bzeros o [nth i (tp_mults P) 0; nth i (tp_mults P) 0]). destruct (fill_get z (square_ft O)) as [L H].
    assert (LM : length (map f (fill z P A)) = length (tp_secs P)) by now rewrite map_length.
    assert (FB : forall i, i < length (tp_secs P) -> is_matrix (nth i (tp_mults P) 0) (nth i (tp_mults P) 0) (nth i (fill z P A) (Blk [] [])) /\ forall x y, x < nth i (tp_mults P) 0 -> y < nth i (tp_mults P) 0 ->
      mat o (nth i (fill z P A) (Blk [] [])) x y = ft_entry o P A (nth i (tp_secs P) []) x y).
    { intros i Hi. rewrite (H i Hi). destruct (ft_get P A (nth i (tp_secs P) [])) as [B|] eqn:G.
      - split; [rewrite (block_size_nth OK HP Hi); apply (get_matrix OK HP HP O G)|]. intros x y _ _. unfold mat. now rewrite ft_entry_get, G.
      - split; [split; [reflexivity|apply bmk_wf]|]. intros x y Hx Hy. unfold mat. rewrite ft_entry_get, G. apply bat_zeros. constructor; [exact Hx|]. constructor; [exact Hy|constructor]. }
    assert (R : ft_ok P P (on_diag (map f (fill z P A)))). { apply on_diag_mat; [exact LM|]. intros i Hi. rewrite nth_map_blk by lia. apply FM. now apply FB. }
    split; [exact R|]. intros c Hc. destruct (sec_nth Hc) as [i [Hi [<- Em]]]. exists (nth i (fill z P A) (Blk [] [])). rewrite <- Em. split; [now apply FB|]. split; [now apply FB|].
    intros x y _ _. rewrite (ft_entry_get o P (on_diag _)), (on_diag_get LM (ft_keyed R) Hi). rewrite nth_map_blk by lia. reflexivity.
  Qed.
End Six.
