(** fusion_trees.index: the position in the enumeration (C17). *)
From Verif Require Import Util RowModel RowProofs SymModel SymProofs CatSpec SpaceModel SpaceProofs SpaceProofs2 SpaceProofs7 TreeModel TreeProofs.
Set Implicit Arguments.
Unset Strict Implicit.
Open Scope nat_scope.

Lemma nth_error_flat_map A B (f : A -> list B) l1 x l2 k : k < length (f x) ->
  nth_error (flat_map f (l1 ++ x :: l2)) (length (flat_map f l1) + k) = nth_error (f x) k.
Proof.
  intros H. rewrite flat_map_app. cbn [flat_map]. rewrite nth_error_app2 by lia. replace (length (flat_map f l1) + k - length (flat_map f l1)) with k by lia.
  now rewrite nth_error_app1.
Qed.

Section Index.
  Variable S : symmetry.
  Variable c : sector.
  Notation N := (n_symbol S).
  Notation out := (sym_outcomes S).
  Notation path := (path S).
  Notation valid_tree := (valid_tree S).

  (** the trees of the outcomes before [e] *)
  Fixpoint before (a u : sector) (us' : list sector) (outs : list sector) (e : sector) : option (nat * nat) :=
    match outs with
    | [] => None
    | f :: r => if row_eqb f e then Some (0, sym_n S a u f)
                else match before a u us' r e with
                     | None => None
                     | Some (s, m) => Some (sym_n S a u f * num_trees1 S c f us' + s, m)
                     end
    end.
  Fixpoint secR (a : sector) (us inners : list sector) : option (nat * list nat) :=
    match us with
    | [] => None
    | u :: us' =>
      match us' with
      | [] => Some (0, [])
      | _ :: _ => match inners with
                  | [] => None
                  | e :: inn => match before a u us' (out a u) e with
                                | None => None
                                | Some (s, m) => match secR e us' inn with
                                                 | None => None
                                                 | Some (s', ms) => Some (s + m * s', m :: ms)
                                                 end
                                end
                  end
      end
    end.
  Fixpoint multR (mus ms : list nat) : nat :=
    match mus, ms with
    | mu :: mus', m :: ms' => mu + m * multR mus' ms'
    | _, _ => 0
    end.

  Lemma index_vertex_eq unc i L left target outs : Datatypes.S i < length unc -> forall idx,
    index_vertex S unc c i L idx left target outs =
    match before left (nth (i + 1) unc []) (skipn (i + 2) unc) outs target with
    | None => None | Some (s, m) => Some (idx + L * s, m) end.
  Proof.
    intros Hi. induction outs as [|f r IH]; intros idx; cbn [index_vertex before]; [reflexivity|]. destruct (row_eqb f target); [now rewrite Nat.mul_0_r, Nat.add_0_r|].
    rewrite IH. rewrite slice_end. unfold num_trees.
    destruct (before left (nth (i + 1) unc []) (skipn (i + 2) unc) r target) as [[s m]|]; [|reflexivity].
    f_equal. f_equal. lia.
  Qed.

  (** the fold over the vertices *)
  Lemma index_fold unc t : length (t_inner t) = length unc - 2 -> forall n i idx L ms, i + n + 2 = length unc ->
    fold_left (index_step S unc c t) (seq i n) (Some (idx, L, ms)) =
    match secR (if i =? 0 then nth 0 unc [] else nth (i - 1) (t_inner t) []) (skipn (i + 1) unc) (skipn i (t_inner t)) with
    | None => None
    | Some (s, ms') => Some (idx + L * s, L * fold_right Nat.mul 1 ms', ms ++ ms')
    end.
  Proof.
    intros LI. induction n as [|n IH]; intros i idx L ms E.
    - cbn [seq fold_left]. destruct (skipn (i + 1) unc) as [|u [|u' us]] eqn:ES.
      + apply (f_equal (@length _)) in ES. rewrite skipn_length in ES. cbn in ES. lia.
      + cbn [secR fold_right]. now rewrite Nat.mul_0_r, Nat.add_0_r, Nat.mul_1_r, app_nil_r.
      + apply (f_equal (@length _)) in ES. rewrite skipn_length in ES. cbn in ES. lia.
    - cbn [seq fold_left index_step].
      assert (NS : forall st, st = None -> fold_left (index_step S unc c t) (seq (Datatypes.S i) n) st = None).
      { intros st ->. generalize (seq (Datatypes.S i) n). induction l as [|x l IHl]; [reflexivity|]. cbn [fold_left index_step]. exact IHl. }
      replace (if i =? 0 then nth i unc [] else nth (i - 1) (t_inner t) []) with (if i =? 0 then nth 0 unc [] else nth (i - 1) (t_inner t) [])
        by (destruct i; reflexivity).
      set (left := if i =? 0 then nth 0 unc [] else nth (i - 1) (t_inner t) []).
      rewrite index_vertex_eq by lia.
      assert (E1 : skipn (i + 1) unc = nth (i + 1) unc [] :: skipn (i + 2) unc).
      { replace (i + 2) with (Datatypes.S (i + 1)) by lia. apply (skipn_cons_nth []). lia. }
      assert (E2 : skipn (i + 2) unc <> []). { intros X. apply (f_equal (@length _)) in X. rewrite skipn_length in X. cbn in X. lia. }
      assert (E3 : skipn i (t_inner t) = nth i (t_inner t) [] :: skipn (Datatypes.S i) (t_inner t)) by (apply (skipn_cons_nth []); lia).
      rewrite E1, E3. cbn [secR]. destruct (skipn (i + 2) unc) as [|u' us'] eqn:ES; [congruence|].
      destruct (before left (nth (i + 1) unc []) (u' :: us') (out left (nth (i + 1) unc [])) (nth i (t_inner t) [])) as [[s m]|]; [|now apply NS].
      rewrite IH by lia. cbn [Nat.eqb]. replace (Datatypes.S i + 1) with (i + 2) by lia. rewrite ES. replace (Datatypes.S i - 1) with i by lia.
      destruct (secR (nth i (t_inner t) []) (u' :: us') (skipn (Datatypes.S i) (t_inner t))) as [[s' ms']|]; [|reflexivity].
      cbn [fold_right]. rewrite <- app_assoc. cbn [app]. f_equal. f_equal. f_equal; lia.
  Qed.

  (** the multiplicity shift *)
  Lemma fold_prod (ms : list nat) : forall n i p, i + n <= length ms ->
    fold_left (fun p j => p * nth j ms 0) (seq i n) p = p * fold_right Nat.mul 1 (firstn n (skipn i ms)).
  Proof.
    induction n as [|n IH]; intros i p H; [cbn; lia|]. cbn [seq fold_left]. rewrite IH by lia.
    rewrite (skipn_cons_nth 0 (l := ms) (i := i)) by lia. cbn [firstn fold_right]. lia.
  Qed.
  Lemma mult_fold (mus ms : list nat) : length mus = length ms -> forall idx,
    fold_left (fun idx i => idx + nth i mus 0 * fold_left (fun p j => p * nth j ms 0) (seq 0 i) 1) (seq 0 (length mus)) idx = idx + multR mus ms.
  Proof.
    intros LM idx.
    assert (G : forall n i idx, i + n = length mus -> fold_left (fun idx i => idx + nth i mus 0 * fold_left (fun p j => p * nth j ms 0) (seq 0 i) 1) (seq i n) idx
                = idx + fold_right Nat.mul 1 (firstn i ms) * multR (skipn i mus) (skipn i ms)).
    { clear idx. induction n as [|n IH]; intros i idx E.
      - rewrite (skipn_all2 mus) by lia. cbn [seq fold_left multR]. lia.
      - cbn [seq fold_left]. rewrite IH by lia. rewrite (skipn_cons_nth 0 (l := mus) (i := i)) by lia. rewrite (skipn_cons_nth 0 (l := ms) (i := i)) by lia. cbn [multR].
        rewrite fold_prod by lia. cbn [skipn]. rewrite (firstn_S_nth 0 (l := ms) (i := i)) by lia.
        assert (X : forall l x, fold_right Nat.mul 1 (l ++ [x]) = fold_right Nat.mul 1 l * x).
        { induction l as [|y l IHl]; intros x; cbn [app fold_right]; [lia|]. rewrite IHl. lia. }
        rewrite X. nia. }
    rewrite G by lia. cbn [firstn skipn fold_right]. lia.
  Qed.

  Lemma before_In a u us' e outs s m : before a u us' outs e = Some (s, m) -> In e outs /\ m = sym_n S a u e.
  Proof.
    revert s m. induction outs as [|f r IH]; intros s m; cbn [before]; [discriminate|]. destruct (row_eqb f e) eqn:E.
    - apply row_eqb_eq in E. subst. intros [= <- <-]. split; [now left|reflexivity].
    - destruct (before a u us' r e) as [[s' m']|]; [|discriminate]. intros [= <- <-]. destruct (IH s' m' eq_refl). split; [now right|assumption].
  Qed.
  Lemma before_spec a u us' e outs : In e outs -> exists l1 l2, outs = l1 ++ e :: l2 /\
    before a u us' outs e = Some (nsum (map (fun f => sym_n S a u f * num_trees1 S c f us') l1), sym_n S a u e).
  Proof.
    induction outs as [|f r IH]; [intros []|]. intros H. cbn [before]. destruct (row_eqb f e) eqn:E.
    - apply row_eqb_eq in E. subst. exists [], r. split; reflexivity.
    - destruct H as [->|H]; [rewrite row_eqb_refl in E; discriminate|]. destruct (IH H) as (l1 & l2 & -> & B). exists (f :: l1), l2. split; [reflexivity|].
      rewrite B. reflexivity.
  Qed.
  Definition final_left (a : sector) (us inners : list sector) : sector := if length us =? 1 then a else last inners [].
  Lemma all_trees1_cons a1 a2 a3 us dual : all_trees1 S c a1 (a2 :: a3 :: us) dual = flat_map (fun b =>
          flat_map (fun rest => map (set_mult0 (insert rest (Tree [a1; a2] b (slice dual 0 2) [] [0]))) (seq 0 (sym_n S a1 a2 b)))
                   (all_trees1 S c b (a3 :: us) (false :: slice dual 2 (length dual)))) (out a1 a2).
  Proof. reflexivity. Qed.
  Lemma insert_eq b a1 a2 us dual inners mus mu : set_mult0 (insert (Tree (b :: us) c (false :: slice dual 2 (length dual)) inners mus)
            (Tree [a1; a2] b (slice dual 0 2) [] [0])) mu = Tree (a1 :: a2 :: us) c dual (b :: inners) (mu :: mus).
  Proof.
    unfold insert, set_mult0. cbn [t_unc t_coup t_dual t_inner t_mult skipn app upd].
    replace (slice (b :: us) 1 (num_uncoupled (Tree (b :: us) c (false :: slice dual 2 (length dual)) inners mus))) with us
      by (symmetry; unfold num_uncoupled; cbn [t_unc]; rewrite slice_end; reflexivity).
    change (slice (b :: us) 0 1) with [b]. rewrite slice_join. reflexivity.
  Qed.
  Lemma path_index a us inners mus : path a us inners mus c -> forall dual, length dual = Datatypes.S (length us) ->
    exists s ms, secR a us inners = Some (s, ms) /\ In c (out (final_left a us inners) (last us [])) /\
      let ms' := ms ++ [sym_n S (final_left a us inners) (last us []) c] in Forall2 lt mus ms' /\
      nth_error (all_trees1 S c a us dual) (s + multR mus ms') = Some (Tree (a :: us) c dual inners mus).
  Proof.
    remember c as c0 eqn:EC. intros P. revert EC.
    induction P as [a u mu c0 H1 H2|a u us e inners mu mus c0 H1 H2 P IH]; intros EC dual LD; subst c0.
    - exists 0, []. cbn [secR final_left last length Nat.eqb app multR]. split; [reflexivity|]. split; [exact H1|]. split; [constructor; [exact H2|constructor]|].
      rewrite Nat.mul_0_r, !Nat.add_0_r. cbn [Nat.add all_trees1]. rewrite nth_error_map.
      assert (X : mu < n_symbol S a u c) by now apply n_symbol_lt.
      replace (nth_error (seq 0 (n_symbol S a u c)) mu) with (Some mu) by (symmetry; rewrite (nth_error_nth' _ 0) by (rewrite seq_length; exact X); now rewrite seq_nth). reflexivity.
    - destruct (path_lengths P) as (NE & LI & LM). destruct us as [|a3 us]; [congruence|].
      assert (LD' : length (false :: slice dual 2 (length dual)) = Datatypes.S (length (a3 :: us))).
      { rewrite slice_end. cbn [length]. rewrite skipn_length. cbn [length] in LD. lia. }
      destruct (IH eq_refl _ LD') as (s' & ms' & ER & HC & HL & HN). clear IH.
      destruct (before_spec a u (a3 :: us) H1) as (l1 & l2 & EO & EB).
      assert (FL : final_left a (u :: a3 :: us) (e :: inners) = final_left e (a3 :: us) inners).
      { unfold final_left. cbn [length Nat.eqb]. destruct us as [|a4 us]; [destruct inners; [reflexivity|discriminate]|].
        destruct inners; [discriminate|]. reflexivity. }
      assert (LL : last (u :: a3 :: us) [] = last (a3 :: us) []) by reflexivity.
      exists (nsum (map (fun f => sym_n S a u f * num_trees1 S c f (a3 :: us)) l1) + sym_n S a u e * s'), (sym_n S a u e :: ms').
      split; [cbn [secR]; cbn [secR] in ER; rewrite EB, ER; reflexivity|]. rewrite FL, LL. split; [exact HC|]. cbv zeta in *.
      split; [cbn [app]; constructor; assumption|].
      rewrite all_trees1_cons, EO. cbn [app multR].
      set (M := multR mus (ms' ++ [sym_n S (final_left e (a3 :: us) inners) (last (a3 :: us) []) c])) in *.
      destruct (nth_error_split _ _ HN) as (r1 & r2 & ERS & L1).
      set (g := fun b => flat_map (fun rest => map (set_mult0 (insert rest (Tree [a; u] b (slice dual 0 2) [] [0]))) (seq 0 (sym_n S a u b)))
                   (all_trees1 S c b (a3 :: us) (false :: slice dual 2 (length dual)))).
      assert (LG : forall f, length (g f) = sym_n S a u f * num_trees1 S c f (a3 :: us)).
      { intros f. unfold g. rewrite flat_map_const with (n := sym_n S a u f) by (intros; now rewrite map_length, seq_length).
        rewrite all_trees1_length. apply Nat.mul_comm. }
      assert (EL : length (flat_map g l1) = nsum (map (fun f => sym_n S a u f * num_trees1 S c f (a3 :: us)) l1)).
      { rewrite length_flat_map. f_equal. apply map_ext. exact LG. }
      replace (nsum (map (fun f => sym_n S a u f * num_trees1 S c f (a3 :: us)) l1) + sym_n S a u e * s' + (mu + sym_n S a u e * M))
        with (length (flat_map g l1) + ((s' + M) * sym_n S a u e + mu)) by (rewrite EL; lia).
      assert (LB : (s' + M) * sym_n S a u e + mu < length (g e)).
      { rewrite LG, <- (all_trees1_length S c (a3 :: us) e (false :: slice dual 2 (length dual))).
        assert (X : s' + M < length (all_trees1 S c e (a3 :: us) (false :: slice dual 2 (length dual)))) by (apply nth_error_Some; congruence). nia. }
      rewrite nth_error_flat_map by exact LB. unfold g. rewrite ERS.
      set (h := fun rest => map (set_mult0 (insert rest (Tree [a; u] e (slice dual 0 2) [] [0]))) (seq 0 (sym_n S a u e))).
      assert (EH : length (flat_map h r1) = (s' + M) * sym_n S a u e).
      { rewrite flat_map_const with (n := sym_n S a u e) by (intros; unfold h; now rewrite map_length, seq_length). now rewrite L1. }
      rewrite <- EH, nth_error_flat_map by (unfold h; rewrite map_length, seq_length; exact H2).
      unfold h. rewrite nth_error_map.
      replace (nth_error (seq 0 (sym_n S a u e)) mu) with (Some mu) by (symmetry; rewrite (nth_error_nth' _ 0) by (rewrite seq_length; exact H2); now rewrite seq_nth).
      cbn [option_map]. f_equal. apply insert_eq.
  Qed.
  Lemma secR_path us : forall a inners mus s ms, length inners = length us - 1 -> us <> [] -> secR a us inners = Some (s, ms) ->
    In c (out (final_left a us inners) (last us [])) -> Forall2 lt mus (ms ++ [sym_n S (final_left a us inners) (last us []) c]) ->
    path a us inners mus c.
  Proof.
    induction us as [|u us IH]; intros a inners mus s ms LI NE ER HC HF; [congruence|]. destruct us as [|a3 us].
    - destruct inners; [|discriminate]. cbn [secR] in ER. injection ER as <- <-. cbn [app final_left length Nat.eqb last] in *.
      inversion HF as [|mu ? ? ? H1 H2]; subst. inversion H2; subst. now apply path_one.
    - cbn [length] in LI. destruct inners as [|e inners]; [discriminate|].
      assert (FL : final_left a (u :: a3 :: us) (e :: inners) = final_left e (a3 :: us) inners).
      { unfold final_left. cbn [length Nat.eqb]. destruct us as [|a4 us]; [destruct inners; [reflexivity|discriminate]|].
        destruct inners; [discriminate|]. reflexivity. }
      change (secR a (u :: a3 :: us) (e :: inners)) with (match before a u (a3 :: us) (out a u) e with None => None | Some (s, m) => match secR e (a3 :: us) inners with
                                                 | None => None | Some (s', ms) => Some (s + m * s', m :: ms) end end) in ER.
      destruct (before a u (a3 :: us) (out a u) e) as [[s1 m]|] eqn:EB; [|discriminate]. destruct (secR e (a3 :: us) inners) as [[s' ms']|] eqn:ES; [|discriminate].
      injection ER as <- <-. apply before_In in EB. destruct EB as [HE ->]. rewrite FL in *. change (last (u :: a3 :: us) []) with (last (a3 :: us) []) in *.
      cbn [app] in HF. inversion HF as [|mu ? mus' ? H1 H2]; subst. apply path_cons; [exact HE|exact H1|].
      apply (IH e inners mus' s' ms'); auto; [|discriminate]. cbn [length] in *. lia.
  Qed.
End Index.

Lemma Forall2_lt_nth (a b : list nat) : Forall2 lt a b <-> length a = length b /\ forall i, i < length a -> nth i a 0 < nth i b 0.
Proof.
  split.
  - induction 1 as [|x y a b H F [IH1 IH2]]; [split; [reflexivity|cbn; lia]|]. cbn [length]. split; [lia|]. intros [|i] Hi; cbn [nth]; [exact H|]. apply IH2. lia.
  - revert b. induction a as [|x a IH]; intros [|y b] [L H]; try discriminate; constructor.
    + apply (H 0). cbn. lia.
    + apply IH. split; [cbn in L; lia|]. intros i Hi. apply (H (S i)). cbn. lia.
Qed.
Lemma multR_zero mus ms : (forall m, In m mus -> m = 0) -> multR mus ms = 0.
Proof.
  revert ms. induction mus as [|m mus IH]; intros ms H; [reflexivity|]. destruct ms as [|n ms]; [reflexivity|]. cbn [multR].
  rewrite IH by (intros; apply H; now right). rewrite (H m) by now left. lia.
Qed.
Lemma last_nth A (l : list A) d : nth (length l - 1) l d = last l d.
Proof. induction l as [|x [|y l] IH]; [reflexivity|reflexivity|]. cbn [length Nat.sub] in *. rewrite Nat.sub_0_r in IH. exact IH. Qed.
Section IndexTop.
  Variable S : symmetry.
  Variable abelian : bool.
  Hypothesis AB : abelian = true -> forall a b c, sym_n S a b c <= 1.
  Lemma secR_ones c us : forall a inners s ms, secR S c a us inners = Some (s, ms) -> abelian = true -> forall m, In m ms -> m <= 1.
  Proof.
    induction us as [|u us IH]; intros a inners s ms; cbn [secR]; [discriminate|]. destruct us as [|a3 us]; [intros [= <- <-] _ m []|].
    destruct inners as [|e inners]; [discriminate|]. destruct (before S c a u (a3 :: us) (sym_outcomes S a u) e) as [[s1 m1]|] eqn:EB; [|discriminate].
    destruct (secR S c e (a3 :: us) inners) as [[s' ms']|] eqn:ES; [|discriminate]. intros [= <- <-] HA m [<-|Hm].
    - apply before_In in EB. destruct EB as [_ ->]. now apply AB.
    - eapply IH; eauto.
  Qed.
  Lemma compute_index_eq unc c t : length unc >= 2 -> length (t_inner t) = length unc - 2 -> length (t_mult t) = length unc - 1 ->
    let a := hd [] unc in let us := tl unc in let fl := final_left a us (t_inner t) in
    compute_index S abelian unc c t =
    match secR S c a us (t_inner t) with
    | None => None
    | Some (s, ms) => let ms' := ms ++ [sym_n S fl (last us []) c] in
       if can_fuse_to S fl (last us []) c && forallb (fun i => nth i (t_mult t) 0 <? nth i ms' 0) (seq 0 (length (t_mult t)))
          && (length (t_mult t) =? length ms')
       then Some (s + multR (t_mult t) ms') else None
    end.
  Proof.
    intros L2 LI LM. destruct unc as [|a [|u us]]; cbn [length] in L2; try lia. cbn [hd tl]. cbv zeta. unfold compute_index.
    replace (length (a :: u :: us) <? 2) with false by (symmetry; apply Nat.ltb_ge; cbn; lia).
    rewrite index_fold by (cbn [length] in *; lia). change (0 =? 0) with true. change (skipn (0 + 1) (a :: u :: us)) with (u :: us). change (skipn 0 (t_inner t)) with (t_inner t). change (nth 0 (a :: u :: us) []) with a. cbv iota.
    destruct (secR S c a (u :: us) (t_inner t)) as [[s ms]|] eqn:ER; [|reflexivity].
    replace (if length (a :: u :: us) =? 2 then a else last (t_inner t) []) with (final_left a (u :: us) (t_inner t)) by reflexivity.
    replace (nth (length (a :: u :: us) - 1) (a :: u :: us) []) with (last (u :: us) []) by (rewrite <- (last_nth (u :: us) []); cbn [length Nat.sub]; rewrite Nat.sub_0_r; reflexivity).
    set (fl := final_left a (u :: us) (t_inner t)). destruct (can_fuse_to S fl (last (u :: us) []) c); [|reflexivity]. cbn [negb app andb]. replace (0 + 1 * s) with s by lia. set (ms' := ms ++ [sym_n S fl (last (u :: us) []) c]).
    destruct (length (t_mult t) =? length ms') eqn:E; [|now rewrite Bool.andb_false_r]. cbn [negb]. apply Nat.eqb_eq in E. rewrite Bool.andb_true_r.
    destruct (forallb (fun i => nth i (t_mult t) 0 <? nth i ms' 0) (seq 0 (length (t_mult t)))) eqn:EF; [|reflexivity]. cbn [negb]. f_equal.
    destruct (Bool.bool_dec abelian true) as [EA|EA]; [|apply Bool.not_true_is_false in EA; rewrite EA; now rewrite mult_fold].
    rewrite EA. rewrite multR_zero; [lia|]. intros m Hm. destruct (In_nth _ _ 0 Hm) as (i & Hi & <-). rewrite forallb_forall in EF.
    assert (X := EF i (proj2 (in_seq _ _ _) (conj (Nat.le_0_l i) Hi))). apply Nat.ltb_lt in X.
    assert (Y : nth i ms' 0 <= 1).
    { assert (In (nth i ms' 0) ms') by (apply nth_In; lia). unfold ms' in H at 2. apply in_app_or in H. destruct H as [H|[H|[]]].
      - exact (secR_ones ER EA H).
      - rewrite <- H. now apply AB. }
    lia.
  Qed.
  (** index is the position in the enumeration *)
  Lemma index_iff unc c dual t k : length dual = length unc -> Forall (fun a => sym_valid S a = true) unc -> fusion_ring S ->
    length (t_inner t) = length unc - 2 -> length (t_mult t) = length unc - 1 ->
    (index S abelian unc c dual t = Some k <-> nth_error (all_trees S unc c dual) k = Some t).
  Proof.
    intros LD VU RING LI LM.
    assert (KEY : valid_tree S unc c dual t -> exists k', index S abelian unc c dual t = Some k' /\ nth_error (all_trees S unc c dual) k' = Some t).
    { intros V. unfold index. destruct (valid_tree_fields V) as (E1 & E2 & E3). rewrite E1, E2, E3.
      replace (rows_eqb unc unc) with true by (symmetry; now apply rows_eqb_eq). rewrite row_eqb_refl. replace (bools_eqb dual dual) with true by (symmetry; now apply bools_eqb_eq).
      cbn [negb]. destruct V as [|a d|a us c dual inners mus LD' P].
      - exists 0. unfold compute_index. cbn [length Nat.ltb Nat.leb Nat.eqb andb]. rewrite row_eqb_refl. split; [reflexivity|]. unfold all_trees. rewrite row_eqb_refl. reflexivity.
      - exists 0. unfold compute_index. cbn [length Nat.ltb Nat.leb Nat.eqb andb nth]. rewrite row_eqb_refl. split; [reflexivity|]. unfold all_trees, all_trees1. rewrite row_eqb_refl. reflexivity.
      - destruct (path_index P LD') as (s & ms & ER & HC & HF & HN). cbv zeta in *. eexists. split; [|exact HN].
        destruct us as [|u us]; [now apply path_nil in P|].
        rewrite compute_index_eq; [|cbn; lia|exact LI|exact LM]. cbn [hd tl t_inner t_mult]. rewrite ER. cbv zeta.
        rewrite (proj2 (can_fuse_to_In S _ _ c) HC). apply Forall2_lt_nth in HF. destruct HF as [HF1 HF2].
        rewrite HF1, Nat.eqb_refl, Bool.andb_true_r. rewrite <- HF1. cbn [andb].
        replace (forallb _ _) with true; [reflexivity|]. symmetry. apply forallb_forall. intros i Hi. apply in_seq in Hi. apply Nat.ltb_lt. apply HF2. lia. }
    split.
    - intros HI. assert (V : valid_tree S unc c dual t).
      { unfold index in HI. destruct (rows_eqb unc (t_unc t)) eqn:E1; [|discriminate]. apply rows_eqb_eq in E1. cbn [negb] in HI.
        destruct (row_eqb c (t_coup t)) eqn:E2; [|discriminate]. apply row_eqb_eq in E2. cbn [negb] in HI.
        destruct (bools_eqb dual (t_dual t)) eqn:E3; [|discriminate]. apply bools_eqb_eq in E3. cbn [negb] in HI.
        destruct t as [tu tc td ti tm]. cbn [t_unc t_coup t_dual t_inner t_mult] in *. subst tu tc td.
        destruct unc as [|a [|u us]].
        - unfold compute_index in HI. cbn [length Nat.ltb Nat.leb Nat.eqb andb] in HI. destruct (row_eqb c (sym_trivial S)) eqn:E; [|discriminate].
          apply row_eqb_eq in E. subst c. destruct dual, ti, tm; try discriminate. constructor.
        - unfold compute_index in HI. cbn [length Nat.ltb Nat.leb Nat.eqb andb nth] in HI. destruct (row_eqb a c) eqn:E; [|discriminate].
          apply row_eqb_eq in E. subst c. destruct dual as [|d [|]], ti, tm; try discriminate. constructor.
        - rewrite compute_index_eq in HI; [|cbn; lia|exact LI|exact LM]. cbn [hd tl t_inner t_mult] in HI.
          destruct (secR S c a (u :: us) ti) as [[s ms]|] eqn:ER; [|discriminate]. cbv zeta in HI.
          match type of HI with (if ?b then _ else _) = _ => destruct b eqn:EB end; [|discriminate].
          apply Bool.andb_true_iff in EB. destruct EB as [EB EB3]. apply Bool.andb_true_iff in EB. destruct EB as [EB1 EB2].
          apply Nat.eqb_eq in EB3. apply vt_more; [exact LD|]. eapply secR_path; [|discriminate|exact ER| |].
          + cbn [length] in *. lia.
          + now apply can_fuse_to_In.
          + apply Forall2_lt_nth. split; [exact EB3|]. intros i Hi. rewrite forallb_forall in EB2. apply Nat.ltb_lt. apply EB2. apply in_seq. lia. }
      destruct (KEY V) as (k' & EI & EN). congruence.
    - intros HN. assert (V : valid_tree S unc c dual t) by (apply all_trees_In; [exact LD|]; eapply nth_error_In; exact HN).
      destruct (KEY V) as (k' & EI & EN). rewrite EI. f_equal.
      assert (ND := all_trees_NoDup RING c LD VU). rewrite NoDup_nth_error in ND. apply ND; [|congruence]. apply nth_error_Some. congruence.
  Qed.
End IndexTop.
