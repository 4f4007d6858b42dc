From Verif Require Import Util StableSort RowModel.
Set Implicit Arguments. Unset Strict Implicit.

(** ** the order *)
Lemma lex_lt_irrefl a : ~ lex_lt a a.
Proof. intros [_ [k [_ [H _]]]]. lia. Qed.

Lemma lex_lt_trans a b c : lex_lt a b -> lex_lt b c -> lex_lt a c.
Proof.
  intros [L1 [k1 [K1 [H1 G1]]]] [L2 [k2 [K2 [H2 G2]]]]. split; [lia|].
  destruct (lt_eq_lt_dec k1 k2) as [[C|C]|C].
  - exists k2. split; [lia|]. split.
    + rewrite (G1 k2) by lia. exact H2.
    + intros k' Hk. rewrite (G1 k') by lia. apply G2. lia.
  - subst. exists k2. split; [lia|]. split; [lia|].
    intros k' Hk. rewrite (G1 k') by lia. apply G2. lia.
  - exists k1. split; [lia|]. split.
    + rewrite <- (G2 k1) by lia. exact H1.
    + intros k' Hk. rewrite (G1 k') by lia. apply G2. lia.
Qed.

Lemma lex_lt_asym a b : lex_lt a b -> ~ lex_lt b a.
Proof. intros H H'. apply (lex_lt_irrefl (lex_lt_trans H H')). Qed.

Lemma lex_lt_neq a b : lex_lt a b -> a <> b.
Proof. intros H E. subst. now apply (lex_lt_irrefl H). Qed.

Lemma lex_le_trans a b c : lex_le a b -> lex_le b c -> lex_le a c.
Proof. intros [H|H] [H'|H']; subst; try (now left); try (now right). left; eapply lex_lt_trans; eauto. Qed.

Lemma lex_lt_le_trans a b c : lex_lt a b -> lex_le b c -> lex_lt a c.
Proof. intros H [H'|H']; subst; auto. eapply lex_lt_trans; eauto. Qed.
Lemma lex_le_lt_trans a b c : lex_le a b -> lex_lt b c -> lex_lt a c.
Proof. intros [H|H] H'; subst; auto. eapply lex_lt_trans; eauto. Qed.

Lemma cmp_down_spec k a b :
  match cmp_down k a b with
  | Eq => forall i, i < k -> nth i a 0%Z = nth i b 0%Z
  | Lt => exists i, i < k /\ (nth i a 0 < nth i b 0)%Z /\ forall j, i < j < k -> nth j a 0%Z = nth j b 0%Z
  | Gt => exists i, i < k /\ (nth i b 0 < nth i a 0)%Z /\ forall j, i < j < k -> nth j a 0%Z = nth j b 0%Z
  end.
Proof.
  induction k as [|k IH]; simpl; [intros; lia|].
  destruct (Z.compare_spec (nth k a 0%Z) (nth k b 0%Z)) as [E|E|E].
  - destruct (cmp_down k a b).
    + intros i Hi. destruct (Nat.eq_dec i k); [now subst|]. apply IH; lia.
    + destruct IH as [i [Hi [H G]]]. exists i. repeat split; [lia|lia|].
      intros j Hj. destruct (Nat.eq_dec j k); [now subst|]. apply G; lia.
    + destruct IH as [i [Hi [H G]]]. exists i. repeat split; [lia|lia|].
      intros j Hj. destruct (Nat.eq_dec j k); [now subst|]. apply G; lia.
  - exists k. repeat split; [lia|lia|intros; lia].
  - exists k. repeat split; [lia|lia|intros; lia].
Qed.

Lemma cmp_lexsort_spec a b :
  length a = length b -> CompareSpec (a = b) (lex_lt a b) (lex_lt b a) (cmp_lexsort a b).
Proof.
  intros L. unfold cmp_lexsort. rewrite <- L, Nat.min_id.
  pose proof (cmp_down_spec (length a) a b) as S. destruct (cmp_down (length a) a b).
  - rewrite Nat.compare_refl. constructor. apply list_eq_nth with (d := 0%Z); auto.
  - constructor. split; [exact L|]. exact S.
  - constructor. split; [now symmetry|]. destruct S as [k [K [H G]]].
    exists k. rewrite <- L. repeat split; auto. intros; symmetry; auto.
Qed.

Lemma cmp_lexsort_Eq a b : length a = length b -> (cmp_lexsort a b = Eq <-> a = b).
Proof.
  intros L. destruct (cmp_lexsort_spec L) as [E|E|E]; split; intros H; auto; try discriminate; subst;
  exfalso; eapply lex_lt_irrefl; eauto.
Qed.
Lemma cmp_lexsort_Lt a b : length a = length b -> (cmp_lexsort a b = Lt <-> lex_lt a b).
Proof.
  intros L. destruct (cmp_lexsort_spec L) as [E|E|E]; split; intros H; auto; try discriminate; subst.
  - exfalso; eapply lex_lt_irrefl; eauto.
  - exfalso; eapply lex_lt_asym; eauto.
Qed.
Lemma row_ltb_lt a b : length a = length b -> (row_ltb a b = true <-> lex_lt a b).
Proof.
  intros L. rewrite <- (cmp_lexsort_Lt L). unfold row_ltb. destruct (cmp_lexsort a b); split; congruence.
Qed.
Lemma lex_total a b : length a = length b -> lex_lt a b \/ a = b \/ lex_lt b a.
Proof. intros L. destruct (cmp_lexsort_spec L); auto. Qed.
Lemma row_ltb_false a b : length a = length b -> (row_ltb a b = false <-> lex_le b a).
Proof.
  intros L. pose proof (row_ltb_lt L) as H. destruct (row_ltb a b).
  - split; [discriminate|]. intros [C|C]; exfalso.
    + apply (lex_lt_asym C). now apply H.
    + subst. apply (@lex_lt_irrefl a). now apply H.
  - split; auto. intros _. destruct (lex_total L) as [C|[C|C]].
    + apply H in C. discriminate.
    + now right.
    + now left.
Qed.

Lemma row_eqb_eq a b : row_eqb a b = true <-> a = b.
Proof.
  revert b; induction a as [|x a IH]; destruct b; simpl; split; try discriminate; auto.
  - intros H. apply andb_true_iff in H. destruct H as [H H']. apply Z.eqb_eq in H. apply IH in H'. congruence.
  - intros H. inversion H; subst. rewrite Z.eqb_refl. now apply IH.
Qed.
Lemma row_eqb_refl a : row_eqb a a = true.
Proof. now apply row_eqb_eq. Qed.
Lemma row_eqb_neq a b : row_eqb a b = false <-> a <> b.
Proof. rewrite <- row_eqb_eq. destruct (row_eqb a b); split; congruence. Qed.
Definition row_eq_dec (a b : row) : {a = b} + {a <> b}.
Proof. destruct (row_eqb a b) eqn:E; [left; now apply row_eqb_eq|right; now apply row_eqb_neq]. Defined.

(** ** lexsort *)
Lemma same_width_nth w rows i : same_width w rows -> i < length rows -> length (nth i rows []) = w.
Proof. intros H Hi. unfold same_width in H. rewrite Forall_nth_iff with (d := []) in H. auto. Qed.
Lemma same_width_In w rows r : same_width w rows -> In r rows -> length r = w.
Proof. intros H Hi. unfold same_width in H. rewrite Forall_forall in H. auto. Qed.

Lemma lexsort_perm rows : is_perm (length rows) (lexsort_indices rows).
Proof. apply stable_sort_perm. Qed.

Lemma seq_sorted s n : StronglySorted lt (seq s n).
Proof.
  revert s; induction n; simpl; constructor; auto.
  apply Forall_forall. intros x Hx. apply in_seq in Hx. lia.
Qed.

Definition idx_lt (rows : list row) (i j : nat) : Prop :=
  lex_lt (nth i rows []) (nth j rows []) \/ (nth i rows [] = nth j rows [] /\ i < j).

Lemma lexsort_sorted w rows :
  same_width w rows -> StronglySorted (idx_lt rows) (lexsort_indices rows).
Proof.
  intros W. unfold lexsort_indices.
  set (f := fun i j => row_ltb (nth i rows []) (nth j rows [])).
  set (P := fun i => i < length rows).
  assert (L : forall i j, P i -> P j -> length (nth i rows []) = length (nth j rows [])).
  { intros i j Hi Hj. unfold P in *. now rewrite !(same_width_nth W). }
  eapply StronglySorted_impl; [|apply (stable_sort_sorted (ltb := f) (P := P)) with (R := lt)].
  - intros i j Hi Hj H.
    apply (Permutation_in _ (stable_sort_perm f _)) in Hi. apply in_seq in Hi.
    apply (Permutation_in _ (stable_sort_perm f _)) in Hj. apply in_seq in Hj.
    unfold stab_lt, f in H. unfold idx_lt.
    assert (E : length (nth i rows []) = length (nth j rows [])) by (apply L; unfold P; lia).
    rewrite (row_ltb_lt E), (row_ltb_false (eq_sym E)) in H.
    destruct H as [H|[H H']]; auto. destruct H as [H|H]; auto.
  - intros x y z Hx Hy Hz H H'. unfold f in *. rewrite row_ltb_lt in *; auto. eapply lex_lt_trans; eauto.
  - intros x y z Hx Hy Hz H. unfold f in *. rewrite row_ltb_lt in *; auto.
    rewrite !row_ltb_lt; auto. destruct (@lex_total (nth x rows []) (nth y rows [])) as [C|[C|C]]; auto.
    + rewrite <- C. auto.
    + right. eapply lex_lt_trans; eauto.
  - apply Forall_forall. intros i Hi. apply in_seq in Hi. unfold P; lia.
  - apply seq_sorted.
Qed.

Lemma sorted_weakly w rows : same_width w rows -> weakly_sorted (fst (sorted rows)).
Proof.
  intros W. simpl. unfold weakly_sorted, take. apply StronglySorted_map.
  eapply StronglySorted_impl; [|apply (lexsort_sorted W)].
  intros i j _ _ [H|[H _]]; [now left|now right].
Qed.

Lemma sorted_Permutation rows : Permutation (fst (sorted rows)) rows.
Proof. simpl. apply take_Permutation, lexsort_perm. Qed.

Lemma same_width_perm w rows rows' : Permutation rows rows' -> same_width w rows -> same_width w rows'.
Proof. intros H W. unfold same_width in *. now rewrite <- H. Qed.

(** ** grouping runs of equal keys *)
Section Runs.
  Variable K : Type.
  Variable eqb : K -> K -> bool.
  Hypothesis eqb_eq : forall x y, eqb x y = true <-> x = y.
  Variable A : Type.

  Fixpoint runs (prev : K) (acc : list A) (l : list (K * A)) : list (K * list A) :=
    match l with
    | [] => [(prev, acc)]
    | (r, x) :: t => if eqb prev r then runs r (acc ++ [x]) t else (prev, acc) :: runs r [x] t
    end.
  Definition groups (l : list (K * A)) : list (K * list A) :=
    match l with [] => [] | (r, x) :: t => runs r [x] t end.

  Definition ungroup (g : list (K * list A)) : list (K * A) :=
    flat_map (fun p => map (fun x => (fst p, x)) (snd p)) g.

  Lemma runs_ungroup l : forall prev acc,
    ungroup (runs prev acc l) = map (fun x => (prev, x)) acc ++ l.
  Proof.
    induction l as [|[r x] t IH]; intros; simpl; auto.
    destruct (eqb prev r) eqn:E.
    - apply eqb_eq in E. subst. rewrite IH, map_app, <- app_assoc. reflexivity.
    - simpl. f_equal. apply IH.
  Qed.
  Lemma groups_ungroup l : ungroup (groups l) = l.
  Proof. destruct l as [|[r x] t]; simpl; auto. rewrite runs_ungroup. reflexivity. Qed.

  Lemma runs_nonempty l : forall prev acc, acc <> [] -> Forall (fun p => snd p <> []) (runs prev acc l).
  Proof.
    induction l as [|[r x] t IH]; intros prev acc Ha; simpl.
    - constructor; auto.
    - destruct (eqb prev r); [apply IH; destruct acc; discriminate|].
      constructor; auto. apply IH; discriminate.
  Qed.
  Lemma groups_nonempty l : Forall (fun p => snd p <> []) (groups l).
  Proof. destruct l as [|[r x] t]; simpl; [constructor|]. apply runs_nonempty; discriminate. Qed.

  Lemma runs_cons l : forall prev acc, exists acc' t, runs prev acc l = (prev, acc') :: t.
  Proof.
    induction l as [|[r x] t IH]; intros prev acc; simpl; eauto.
    destruct (eqb prev r) eqn:E; eauto. apply eqb_eq in E; subst; auto.
  Qed.

  Variable lt : K -> K -> Prop.
  Hypothesis lt_trans : forall x y z, lt x y -> lt y z -> lt x z.

  Lemma runs_sorted l : forall prev acc,
    StronglySorted (fun a b => lt a b \/ a = b) (prev :: map fst l) ->
    StronglySorted lt (map fst (runs prev acc l)).
  Proof.
    induction l as [|[r x] t IH]; intros prev acc H; simpl.
    - repeat constructor.
    - simpl in H. inversion H as [|? ? Hs Hf]; subst. destruct (eqb prev r) eqn:E.
      + apply IH. exact Hs.
      + simpl. constructor; [now apply IH|].
        assert (Hpr : lt prev r).
        { inversion Hf as [|? ? C _]; subst. destruct C as [C|C]; auto. subst.
          assert (eqb r r = true) by now apply eqb_eq. congruence. }
        pose proof (IH r [x] Hs) as Hs'. destruct (runs_cons t r [x]) as [acc' [tl' E']].
        rewrite E' in *. simpl in *. inversion Hs' as [|? ? _ Hf']; subst.
        constructor; auto. rewrite Forall_forall in *. intros y Hy. apply lt_trans with r; auto.
  Qed.
  Lemma groups_sorted l :
    StronglySorted (fun a b => lt a b \/ a = b) (map fst l) -> StronglySorted lt (map fst (groups l)).
  Proof. destruct l as [|[r x] t]; simpl; intros H; [constructor|]. now apply runs_sorted. Qed.

  Lemma groups_keys_In l k : In k (map fst (groups l)) <-> In k (map fst l).
  Proof.
    rewrite <- (groups_ungroup l) at 2. pose proof (groups_nonempty l) as Hne.
    rewrite Forall_forall in Hne. unfold ungroup. rewrite !in_map_iff. split.
    - intros [[k' xs] [<- Hin]]. simpl. specialize (Hne _ Hin). simpl in Hne.
      destruct xs as [|x xs]; [congruence|]. exists (k', x). split; auto.
      apply in_flat_map. exists (k', x :: xs). split; auto. simpl; auto.
    - intros [[k' x] [<- Hin]]. simpl. apply in_flat_map in Hin. destruct Hin as [[k'' xs] [Hin H]].
      simpl in H. apply in_map_iff in H. destruct H as [y [E _]]. inversion E; subst. exists (k', xs); auto.
  Qed.

  (** with duplicate-free keys a group holds exactly the entries of that key, in order *)
  Lemma groups_content l k xs :
    NoDup (map fst (groups l)) -> In (k, xs) (groups l) ->
    xs = map snd (filter (fun p => eqb (fst p) k) l).
  Proof.
    intros Hnd Hin. rewrite <- (groups_ungroup l) at 1.
    generalize dependent (groups l). intros g Hnd Hin. unfold ungroup.
    induction g as [|[k' ys] g IH]; simpl in *; [tauto|].
    inversion Hnd as [|? ? Hni Hnd']; subst. rewrite filter_app, map_app.
    assert (F : forall c, filter (fun p => eqb (fst p) k) (map (fun x : A => (c, x)) ys) =
                if eqb c k then map (fun x => (c, x)) ys else []).
    { intros c. clear. induction ys; simpl; [now destruct (eqb c k)|]. rewrite IHys. now destruct (eqb c k). }
    rewrite F. destruct Hin as [E|Hin].
    - inversion E; subst. assert (Ek : eqb k k = true) by now apply eqb_eq. rewrite Ek.
      rewrite map_map. simpl. rewrite map_id.
      assert (G : filter (fun p => eqb (fst p) k)
                    (flat_map (fun p => map (fun x => (fst p, x)) (snd p)) g) = []).
      { apply filter_none. intros [c x] Hc. apply in_flat_map in Hc. destruct Hc as [[c' zs] [Hc' Hx]].
        simpl in Hx. apply in_map_iff in Hx. destruct Hx as [? [E2 _]]. inversion E2; subst. simpl.
        destruct (eqb c k) eqn:Eck; auto. apply eqb_eq in Eck. subst. exfalso. apply Hni.
        apply in_map_iff. exists (k, zs). auto. }
      rewrite G. simpl. now rewrite app_nil_r.
    - destruct (eqb k' k) eqn:Ek.
      + apply eqb_eq in Ek. subst. exfalso. apply Hni. apply in_map_iff. exists (k, xs); auto.
      + simpl. auto.
  Qed.

  (** the code's formulation: slice the list at the row differences *)
  Definition adj (D : list nat) : list (nat * nat) := combine D (tl D).

  Lemma adj_seq B (f : nat -> nat -> B) D :
    map (fun u => f (nth u D 0) (nth (S u) D 0)) (seq 0 (length D - 1)) =
    map (fun p => f (fst p) (snd p)) (adj D).
  Proof.
    unfold adj. destruct D as [|d D]; auto. simpl. rewrite Nat.sub_0_r.
    revert d. induction D as [|e D IH]; intros d; simpl; auto. f_equal.
    rewrite <- seq_shift, map_map. simpl. rewrite <- IH. apply map_ext_in. intros u Hu.
    apply in_seq in Hu. destruct u; auto.
  Qed.

  Lemma skipn_S_cons (B : Type) n (l : list B) x t : skipn n l = x :: t -> skipn (S n) l = t.
  Proof.
    revert l; induction n; intros l H; [simpl in H; now subst|].
    destruct l; [discriminate|]. simpl in *. now apply IHn.
  Qed.
  Lemma slice_snoc (B : Type) (l : list B) s i x t :
    s <= i -> skipn i l = x :: t -> slice l s (S i) = slice l s i ++ [x].
  Proof.
    intros Hs H. unfold slice. replace (S i - s) with (S (i - s)) by lia.
    assert (H' : skipn (i - s) (skipn s l) = x :: t).
    { rewrite <- H. clear H. revert l i Hs. induction s; intros l i Hs; simpl; [now rewrite Nat.sub_0_r|].
      destruct l; [now rewrite !skipn_nil|]. destruct i; [lia|]. simpl. apply IHs. lia. }
    revert H'. generalize (skipn s l) (i - s). clear. intros l n. revert l.
    induction n; intros l H; simpl in *; [subst; auto|]. destruct l; [discriminate|]. simpl. f_equal. now apply IHn.
  Qed.

  Lemma frd_from_runs d (rows : list K) (l : list A) n : forall t i s prev,
    s < i -> length l = n -> length rows = n -> skipn i rows = t -> nth s rows d = prev -> n = i + length t ->
    map (fun p => (nth (fst p) rows d, slice l (fst p) (snd p))) (adj (s :: frd_from eqb i prev t ++ [n]))
    = runs prev (slice l s i) (combine t (skipn i l)).
  Proof.
    induction t as [|x t IH]; intros i s prev Hs Hl Hr Hsk Hp Hn; simpl in *.
    - rewrite Hp. unfold adj. simpl. repeat f_equal; lia.
    - assert (Hil : exists y t', skipn i l = y :: t').
      { destruct (skipn i l) eqn:E; eauto. apply (f_equal (@length _)) in E. rewrite skipn_length in E.
        simpl in E. lia. }
      destruct Hil as [y [t' E]]. rewrite E. simpl.
      pose proof (skipn_S_cons Hsk) as Hsk'. pose proof (skipn_S_cons E) as E'.
      assert (Hx : nth i rows d = x).
      { transitivity (nth 0 (skipn i rows) d); [|now rewrite Hsk]. rewrite nth_skipn'. f_equal; lia. }
      destruct (eqb prev x) eqn:Epx.
      + apply eqb_eq in Epx. rewrite <- (slice_snoc (l := l) (s := s) (i := i) (x := y) (t := t')) by (auto; lia).
        rewrite <- E'. apply IH; auto; try lia. congruence.
      + change (adj (s :: (i :: frd_from eqb (S i) x t) ++ [n])) with
          ((s, i) :: adj (i :: frd_from eqb (S i) x t ++ [n])).
        simpl. rewrite Hp. f_equal. rewrite <- E'.
        replace [y] with (slice l i (S i)).
        * apply IH; auto; lia.
        * unfold slice. replace (S i - i) with 1 by lia. rewrite E. reflexivity.
  Qed.

  Lemma frd_groups d (rows : list K) (l : list A) :
    length l = length rows ->
    map (fun p => (nth (fst p) rows d, slice l (fst p) (snd p))) (adj (frd eqb true rows)) =
    groups (combine rows l).
  Proof.
    intros Hl. destruct rows as [|x t]; simpl; auto.
    destruct l as [|y l]; [discriminate|]. simpl groups.
    pose proof (@frd_from_runs d (x :: t) (y :: l) (length (x :: t)) t 1 0 x) as H.
    specialize (H Nat.lt_0_1 Hl eq_refl eq_refl eq_refl eq_refl). exact H.
  Qed.
End Runs.

Lemma ungroup_fst K A (g : list (K * list A)) :
  map snd (ungroup g) = concat (map snd g).
Proof.
  unfold ungroup. rewrite flat_map_concat_map, concat_map, map_map. f_equal. apply map_ext.
  intros [k xs]. simpl. rewrite map_map. simpl. apply map_id.
Qed.

(** ** unique_sorted *)
Lemma unique_sorted_groups rows mults :
  length mults = length rows ->
  let p := lexsort_indices rows in
  let g := groups row_eqb (combine (take [] rows p) (take 0%Z mults p)) in
  unique_sorted rows mults = Some (map fst g, map (fun q => zsum (snd q)) g, p).
Proof.
  intros Hl p g. unfold unique_sorted. rewrite (proj2 (Nat.eqb_eq _ _) Hl). simpl. fold p.
  set (S := take [] rows p). set (M := take 0%Z mults p).
  assert (HM : length M = length S) by (unfold S, M; now rewrite !take_length).
  pose proof (@frd_groups _ _ row_eqb_eq Z [] S M HM) as G. change (groups row_eqb (combine S M)) with g in G.
  unfold find_row_differences. f_equal. f_equal. f_equal.
  - rewrite (adj_seq (fun a _ => nth a S [])). rewrite <- G. rewrite map_map. reflexivity.
  - rewrite (adj_seq (fun a b => zsum (slice M a b))). rewrite <- G. rewrite map_map. reflexivity.
Qed.

Lemma combine_fst A B (l : list A) (l' : list B) : length l = length l' -> map fst (combine l l') = l.
Proof. revert l'; induction l; destruct l'; simpl; intros; try discriminate; auto. f_equal; auto. Qed.
Lemma combine_snd A B (l : list A) (l' : list B) : length l = length l' -> map snd (combine l l') = l'.
Proof. revert l'; induction l; destruct l'; simpl; intros; try discriminate; auto. f_equal; auto. Qed.

Lemma combine_take A B (da : A) (db : B) l l' p :
  length l = length l' -> Forall (fun i => i < length l) p ->
  combine (take da l p) (take db l' p) = take (da, db) (combine l l') p.
Proof.
  intros Hl Hp. unfold take. induction Hp; simpl; auto. f_equal; auto.
  rewrite combine_nth; auto.
Qed.

Lemma combine_take_perm A B (da : A) (db : B) l l' p :
  length l = length l' -> is_perm (length l) p ->
  Permutation (combine (take da l p) (take db l' p)) (combine l l').
Proof.
  intros Hl Hp. rewrite combine_take; auto; [|now apply is_perm_Forall].
  apply take_Permutation. now rewrite combine_length, <- Hl, Nat.min_id.
Qed.

(** total multiplicity of [r] in the list of (row, multiplicity) *)
Definition total_mult (rows : list row) (mults : list Z) (r : row) : Z :=
  zsum (map snd (filter (fun p => row_eqb (fst p) r) (combine rows mults))).

Lemma unique_sorted_correct w rows mults U M p :
  same_width w rows -> unique_sorted rows mults = Some (U, M, p) ->
  length mults = length rows /\ p = lexsort_indices rows /\
  strictly_sorted U /\ (forall r, In r U <-> In r rows) /\
  length M = length U /\
  (forall u, u < length U -> nth u M 0%Z = total_mult rows mults (nth u U [])).
Proof.
  intros W H.
  destruct (Nat.eq_dec (length mults) (length rows)) as [Hl|Hl].
  2:{ unfold unique_sorted in H. rewrite (proj2 (Nat.eqb_neq _ _) Hl) in H. discriminate. }
  rewrite (unique_sorted_groups Hl) in H. inversion H; subst; clear H.
  set (p := lexsort_indices rows) in *. set (S := take [] rows p) in *. set (Ms := take 0%Z mults p) in *.
  assert (HM : length S = length Ms) by (unfold S, Ms; now rewrite !take_length).
  set (g := groups row_eqb (combine S Ms)).
  assert (SS : strictly_sorted (map fst g)).
  { apply (groups_sorted row_eqb_eq lex_lt_trans). rewrite combine_fst by auto.
    apply (sorted_weakly W). }
  repeat split; auto.
  - intros Hr. apply groups_keys_In in Hr; [|apply row_eqb_eq]. rewrite combine_fst in Hr by auto.
    apply (Permutation_in _ (sorted_Permutation rows)). exact Hr.
  - intros Hr. apply groups_keys_In; [apply row_eqb_eq|]. rewrite combine_fst by auto.
    apply (Permutation_in _ (Permutation_sym (sorted_Permutation rows))). exact Hr.
  - now rewrite !map_length.
  - intros u Hu. rewrite map_length in Hu.
    pose (d0 := ([] : row, [] : list Z)).
    fold g. rewrite !nth_map_lt with (d := d0) by exact Hu.
    assert (Hin : In (nth u g d0) g) by now apply nth_In.
    destruct (nth u g d0) as [k xs].
    cbn [fst snd]. rewrite (@groups_content _ _ row_eqb_eq _ (combine S Ms) k xs); auto.
    + unfold total_mult. apply zsum_perm, Permutation_map, Permutation_filter'.
      apply combine_take_perm; auto. apply lexsort_perm.
    + eapply StronglySorted_NoDup; [|exact SS]. apply lex_lt_irrefl.
Qed.

Lemma unique_sorted_None rows mults : unique_sorted rows mults = None <-> length mults <> length rows.
Proof.
  unfold unique_sorted. destruct (Nat.eqb_spec (length mults) (length rows)); simpl; split; intros; try easy.
Qed.

(** ** row_where *)
Lemma row_where_from_spec rows : forall i s,
  match row_where_from i rows s with
  | Some k => i <= k < i + length rows /\ nth (k - i) rows [] = s /\
              forall k', i <= k' < k -> nth (k' - i) rows [] <> s
  | None => ~ In s rows
  end.
Proof.
  induction rows as [|r rows IH]; intros i s; simpl; auto.
  destruct (row_eqb r s) eqn:E.
  - apply row_eqb_eq in E. subst. rewrite Nat.sub_diag. repeat split; auto; lia.
  - apply row_eqb_neq in E. specialize (IH (S i) s). destruct (row_where_from (S i) rows s).
    + destruct IH as [H [H' H'']]. repeat split; try lia.
      * replace (n - i) with (S (n - S i)) by lia. exact H'.
      * intros k' Hk'. destruct (Nat.eq_dec k' i); [subst; now rewrite Nat.sub_diag|].
        replace (k' - i) with (S (k' - S i)) by lia. apply H''. lia.
    + intros [C|C]; auto.
Qed.
Lemma row_where_spec rows s :
  match row_where rows s with
  | Some k => k < length rows /\ nth k rows [] = s /\ forall k', k' < k -> nth k' rows [] <> s
  | None => ~ In s rows
  end.
Proof.
  unfold row_where. pose proof (row_where_from_spec rows 0 s). destruct (row_where_from 0 rows s); auto.
  rewrite Nat.sub_0_r in H. destruct H as [H [H' H'']]. repeat split; auto; try lia.
  intros k' Hk'. specialize (H'' k'). rewrite Nat.sub_0_r in H''. apply H''; lia.
Qed.

Lemma take_mask_In A (l : list A) mask x :
  length mask = length l ->
  (In x (take_mask l mask) <-> exists i, nth i mask false = true /\ nth_error l i = Some x).
Proof.
  revert mask; induction l as [|y l IH]; destruct mask as [|m mask]; simpl; intros H; try discriminate.
  - split; [tauto|]. intros [i [C _]]. destruct i; discriminate.
  - assert (Hl : length mask = length l) by lia. specialize (IH mask Hl).
    assert (E : (exists i, nth i (m :: mask) false = true /\ nth_error (y :: l) i = Some x) <->
                (m = true /\ y = x) \/ (exists i, nth i mask false = true /\ nth_error l i = Some x)).
    { split.
      - intros [[|i] [H1 H2]]; simpl in *; [left; split; congruence|right; eauto].
      - intros [[-> ->]|[i Hi]]; [exists 0; auto|exists (S i); auto]. }
    simpl in E. rewrite E, <- IH. destruct m; simpl; intuition congruence.
Qed.

Lemma is_lexsorted_from_spec w rows : forall prev,
  length prev = w -> same_width w rows ->
  (is_lexsorted_from prev rows = true <-> weakly_sorted (prev :: rows)).
Proof.
  induction rows as [|r rows IH]; intros prev Hp W; simpl.
  - split; auto. intros _. repeat constructor.
  - inversion W; subst. assert (L : length prev = length r) by congruence.
    assert (IH' := IH r (eq_sym L) H2).
    destruct (cmp_lexsort_spec L) as [E|E|E].
    + subst. rewrite IH'. split; intros S.
      * constructor; auto. inversion S; subst. constructor; [now right|auto].
      * inversion S; auto.
    + rewrite IH'. split; intros S.
      * constructor; auto. constructor; [now left|]. inversion S; subst. rewrite Forall_forall in *.
        intros x Hx. eapply lex_le_trans; [left; exact E|auto].
      * inversion S; auto.
    + split; [discriminate|]. intros S. inversion S; subst. inversion H4; subst.
      exfalso. destruct H5 as [C|C]; [now apply (lex_lt_asym C)|subst; now apply (lex_lt_irrefl E)].
Qed.
Lemma is_lexsorted_spec w rows : same_width w rows -> (is_lexsorted rows = true <-> weakly_sorted rows).
Proof.
  destruct rows as [|r rows]; simpl; intros W.
  - split; auto. intros _; constructor.
  - inversion W; subst. now apply is_lexsorted_from_spec with (w := length r).
Qed.

(** ** merge walks *)
Lemma common_walk_spec w sa sb : sa = true \/ sb = true -> forall a i b j,
  same_width w a -> same_width w b ->
  weakly_sorted a -> weakly_sorted b ->
  (sa = true -> strictly_sorted a) -> (sb = true -> strictly_sorted b) ->
  (forall p q, In (p, q) (common_walk sa sb i a j b) <->
     i <= p < i + length a /\ j <= q < j + length b /\ nth (p - i) a [] = nth (q - j) b []) /\
  NoDup (common_walk sa sb i a j b).
Proof.
  intros Hss. induction a as [|x a IHa]; intros i b j Wa.
  { intros. simpl. split; [|constructor]. intros p q; split; [tauto|lia]. }
  revert j. induction b as [|y b IHb]; intros j Wb Sa Sb Sta Stb.
  { simpl. split; [|constructor]. intros p q; split; [tauto|lia]. }
  assert (Hx : length x = w) by (inversion Wa; auto).
  assert (Hy : length y = w) by (inversion Wb; auto).
  assert (Wa' : same_width w a) by (inversion Wa; auto).
  assert (Wb' : same_width w b) by (inversion Wb; auto).
  inversion Sa as [|? ? Sa' Fa]; subst. inversion Sb as [|? ? Sb' Fb]; subst.
  assert (Sta' : sa = true -> strictly_sorted a) by (intros E; specialize (Sta E); inversion Sta; auto).
  assert (Stb' : sb = true -> strictly_sorted b) by (intros E; specialize (Stb E); inversion Stb; auto).
  assert (Na : forall n, In (nth n a []) a \/ n >= length a).
  { intros n. destruct (le_lt_dec (length a) n); [right; lia|left; now apply nth_In]. }
  rewrite Forall_forall in Fa, Fb.
  simpl. destruct (cmp_lexsort_spec (a := x) (b := y)) as [E|E|E]; [congruence| | |].
  - (* equal *) subst y.
    assert (Key : forall (T : list (nat * nat)),
      (forall p q, In (p, q) T <->
         (i <= p < i + S (length a) /\ j <= q < j + S (length b) /\
          nth (p - i) (x :: a) [] = nth (q - j) (x :: b) []) /\ (p, q) <> (i, j)) ->
      NoDup T ->
      (forall p q, (i, j) = (p, q) \/ In (p, q) T <->
         i <= p < i + S (length a) /\ j <= q < j + S (length b) /\
         nth (p - i) (x :: a) [] = nth (q - j) (x :: b) []) /\ NoDup ((i, j) :: T)).
    { intros T HT HN. split.
      - intros p q. rewrite HT. split.
        + intros [C|[C _]]; auto. inversion C; subst. rewrite !Nat.sub_diag. repeat split; auto; lia.
        + intros C. destruct (Nat.eq_dec p i), (Nat.eq_dec q j); subst; auto; right; split; auto; congruence.
      - constructor; auto. rewrite HT. intros [_ C]. congruence. }
    assert (Shift1 : forall p, p <> i -> i <= p -> nth (p - i) (x :: a) [] = nth (p - S i) a []).
    { intros p Hp Hp'. replace (p - i) with (S (p - S i)) by lia. reflexivity. }
    assert (Shift2 : forall q, q <> j -> j <= q -> nth (q - j) (x :: b) [] = nth (q - S j) b []).
    { intros p Hp Hp'. replace (p - j) with (S (p - S j)) by lia. reflexivity. }
    destruct sb, sa; try (destruct Hss; discriminate).
    + (* both strict *)
      destruct (IHa (S i) b (S j) Wa' Wb' Sa' Sb' Sta' Stb') as [I N]. apply Key; auto.
      specialize (Sta eq_refl). specialize (Stb eq_refl).
      inversion Sta as [|? ? _ Fa']; subst. inversion Stb as [|? ? _ Fb']; subst. rewrite Forall_forall in Fa', Fb'.
      intros p q. rewrite I. split.
      * intros [Hp [Hq Heq]]. rewrite Shift1, Shift2 by lia. repeat split; auto; try lia.
        intros C; inversion C; lia.
      * intros [[Hp [Hq Heq]] Hne].
        destruct (Nat.eq_dec p i) as [->|Dp].
        { assert (Dq : q <> j) by congruence. rewrite Nat.sub_diag, Shift2 in Heq by lia. simpl in Heq. exfalso.
          apply (@lex_lt_irrefl x). rewrite Heq at 2. apply Fb', nth_In. lia. }
        destruct (Nat.eq_dec q j) as [->|Dq].
        { rewrite Nat.sub_diag, Shift1 in Heq by lia. simpl in Heq. exfalso.
          apply (@lex_lt_irrefl x). rewrite <- Heq at 2. apply Fa', nth_In. lia. }
        rewrite Shift1, Shift2 in Heq by lia. repeat split; auto; lia.
    + (* b strict only: advance i *)
      destruct (IHa (S i) (x :: b) j Wa' Wb Sa' Sb Sta' Stb) as [I N]. apply Key; auto.
      specialize (Stb eq_refl). inversion Stb as [|? ? _ Fb']; subst. rewrite Forall_forall in Fb'.
      intros p q. rewrite I. simpl length. split.
      * intros [Hp [Hq Heq]]. rewrite Shift1 by lia. repeat split; auto; try lia. intros C; inversion C; lia.
      * intros [[Hp [Hq Heq]] Hne].
        destruct (Nat.eq_dec p i) as [->|Dp].
        { assert (Dq : q <> j) by congruence. rewrite Nat.sub_diag, Shift2 in Heq by lia. simpl in Heq. exfalso.
          apply (@lex_lt_irrefl x). rewrite Heq at 2. apply Fb', nth_In. lia. }
        rewrite Shift1 in Heq by lia. repeat split; auto; lia.
    + (* a strict only: advance j *)
      destruct (IHb (S j) Wb' Sa Sb' Sta Stb') as [I N]. apply Key; auto.
      specialize (Sta eq_refl). inversion Sta as [|? ? _ Fa']; subst. rewrite Forall_forall in Fa'.
      intros p q. rewrite (I p q). simpl length. split.
      * intros [Hp [Hq Heq]]. rewrite Shift2 by lia. repeat split; auto; try lia. intros C; inversion C; lia.
      * intros [[Hp [Hq Heq]] Hne].
        destruct (Nat.eq_dec q j) as [->|Dq].
        { assert (Dp : p <> i) by congruence. rewrite Nat.sub_diag, Shift1 in Heq by lia. simpl in Heq. exfalso.
          apply (@lex_lt_irrefl x). rewrite <- Heq at 2. apply Fa', nth_In. lia. }
        rewrite Shift2 in Heq by lia. repeat split; auto; lia.
  - (* x < y : advance i *)
    destruct (IHa (S i) (y :: b) j Wa' Wb Sa' Sb Sta' Stb) as [I N]. split; auto.
    intros p q. rewrite I. simpl length. split.
    + intros [Hp [Hq Heq]]. repeat split; try lia.
      replace (p - i) with (S (p - S i)) by lia. exact Heq.
    + intros [Hp [Hq Heq]]. destruct (Nat.eq_dec p i) as [->|Dp].
      * exfalso. rewrite Nat.sub_diag in Heq. change (x = nth (q - j) (y :: b) []) in Heq.
        assert (lex_le y (nth (q - j) (y :: b) [])).
        { destruct (q - j) eqn:Eq; [now right|]. simpl. apply Fb, nth_In. lia. }
        rewrite <- Heq in H. apply (lex_lt_irrefl (lex_lt_le_trans E H)).
      * replace (p - i) with (S (p - S i)) in Heq by lia. repeat split; auto; lia.
  - (* y < x : advance j *)
    destruct (IHb (S j) Wb' Sa Sb' Sta Stb') as [I N]. split; auto.
    intros p q. rewrite (I p q). simpl length. split.
    + intros [Hp [Hq Heq]]. repeat split; try lia.
      replace (q - j) with (S (q - S j)) by lia. exact Heq.
    + intros [Hp [Hq Heq]]. destruct (Nat.eq_dec q j) as [->|Dq].
      * exfalso. rewrite Nat.sub_diag in Heq. change (nth (p - i) (x :: a) [] = y) in Heq.
        assert (lex_le x (nth (p - i) (x :: a) [])).
        { destruct (p - i) eqn:Eq; [now right|]. simpl. apply Fa, nth_In. lia. }
        rewrite Heq in H. apply (lex_lt_irrefl (lex_lt_le_trans E H)).
      * replace (q - j) with (S (q - S j)) in Heq by lia. repeat split; auto; lia.
Qed.

Lemma noncommon_walk_spec w : forall a i b j,
  same_width w a -> same_width w b -> strictly_sorted a -> strictly_sorted b ->
  let out := noncommon_walk i a j b in
  NoDup out /\ ~ In (None, None) out /\
  (forall p q, In (Some p, Some q) out <->
     i <= p < i + length a /\ j <= q < j + length b /\ nth (p - i) a [] = nth (q - j) b []) /\
  (forall p, In (Some p, None) out <-> i <= p < i + length a /\ ~ In (nth (p - i) a []) b) /\
  (forall q, In (None, Some q) out <-> j <= q < j + length b /\ ~ In (nth (q - j) b []) a).
Proof.
  induction a as [|x a IHa]; intros i b j Wa.
  { intros Wb Sa Sb out. unfold out. simpl. clear. split; [|split; [|split; [|split]]].
    - apply NoDup_map_inj; [congruence|apply seq_NoDup].
    - rewrite in_map_iff. intros [? [? ?]]; discriminate.
    - intros p q. rewrite in_map_iff. split; [intros [? [? ?]]; discriminate|lia].
    - intros p. rewrite in_map_iff. split; [intros [? [? ?]]; discriminate|lia].
    - intros q. rewrite in_map_iff. split.
      + intros [k [E Hk]]. inversion E; subst. apply in_seq in Hk. split; [lia|tauto].
      + intros [Hq _]. exists q. split; auto. apply in_seq. lia. }
  revert j. induction b as [|y b IHb]; intros j Wb Sa Sb.
  { change (noncommon_walk i (x :: a) j []) with
      (map (fun k : nat => (Some k, None : option nat)) (seq i (length (x :: a)))).
    cbv zeta. generalize (x :: a). intros l. clear. split; [|split; [|split; [|split]]].
    - apply NoDup_map_inj; [congruence|apply seq_NoDup].
    - rewrite in_map_iff. intros [? [? ?]]; discriminate.
    - intros p q. rewrite in_map_iff. split; [intros [? [? ?]]; discriminate|simpl; lia].
    - intros q. rewrite in_map_iff. split.
      + intros [k [E Hk]]. inversion E; subst. apply in_seq in Hk. split; [lia|tauto].
      + intros [Hq _]. exists q. split; auto. apply in_seq. lia.
    - intros p. rewrite in_map_iff. split; [intros [? [? ?]]; discriminate|simpl; lia]. }
  assert (Hx : length x = w) by (inversion Wa; auto).
  assert (Hy : length y = w) by (inversion Wb; auto).
  assert (Wa' : same_width w a) by (inversion Wa; auto).
  assert (Wb' : same_width w b) by (inversion Wb; auto).
  inversion Sa as [|? ? Sa' Fa]; subst. inversion Sb as [|? ? Sb' Fb]; subst.
  rewrite Forall_forall in Fa, Fb.
  assert (ShA : forall p, S i <= p -> nth (p - i) (x :: a) [] = nth (p - S i) a []).
  { intros p Hp. replace (p - i) with (S (p - S i)) by lia. reflexivity. }
  assert (ShB : forall q, S j <= q -> nth (q - j) (y :: b) [] = nth (q - S j) b []).
  { intros q Hq. replace (q - j) with (S (q - S j)) by lia. reflexivity. }
  cbn [noncommon_walk length]. destruct (cmp_lexsort_spec (a := x) (b := y)) as [E|E|E]; [congruence| | |].
  - subst y. destruct (IHa (S i) b (S j) Wa' Wb' Sa' Sb') as [N [NN [I1 [I2 I3]]]].
    split; [|split; [|split; [|split]]].
    + constructor; auto. rewrite I1. lia.
    + intros [C|C]; [discriminate|auto].
    + intros p q. split.
      * intros [C|C]; [inversion C; subst; rewrite !Nat.sub_diag; repeat split; auto; lia|].
        apply I1 in C. rewrite ShA, ShB by lia. repeat split; try lia. tauto.
      * intros [Hp [Hq Heq]]. destruct (Nat.eq_dec p i) as [->|Dp], (Nat.eq_dec q j) as [->|Dq]; [now left| | |].
        -- exfalso. rewrite Nat.sub_diag, ShB in Heq by lia. simpl in Heq.
           apply (@lex_lt_irrefl x). rewrite Heq at 2. apply Fb, nth_In. lia.
        -- exfalso. rewrite Nat.sub_diag, ShA in Heq by lia. simpl in Heq.
           apply (@lex_lt_irrefl x). rewrite <- Heq at 2. apply Fa, nth_In. lia.
        -- right. apply I1. rewrite ShA, ShB in Heq by lia. repeat split; auto; lia.
    + intros p. split.
      * intros [C|C]; [discriminate|]. apply I2 in C. destruct C as [Hp Hn]. split; [lia|].
        rewrite ShA by lia. intros [C|C]; auto.
        apply (@lex_lt_irrefl x). rewrite C at 2. apply Fa, nth_In. lia.
      * intros [Hp Hn]. right. apply I2. destruct (Nat.eq_dec p i) as [->|Dp].
        { exfalso. apply Hn. rewrite Nat.sub_diag. now left. }
        split; [lia|]. rewrite <- ShA by lia. intros C. apply Hn. now right.
    + intros q. split.
      * intros [C|C]; [discriminate|]. apply I3 in C. destruct C as [Hp Hn]. split; [lia|].
        rewrite ShB by lia. intros [C|C]; auto.
        apply (@lex_lt_irrefl x). rewrite C at 2. apply Fb, nth_In. lia.
      * intros [Hp Hn]. right. apply I3. destruct (Nat.eq_dec q j) as [->|Dp].
        { exfalso. apply Hn. rewrite Nat.sub_diag. now left. }
        split; [lia|]. rewrite <- ShB by lia. intros C. apply Hn. now right.
  - destruct (IHa (S i) (y :: b) j Wa' Wb Sa' Sb) as [N [NN [I1 [I2 I3]]]].
    assert (Nx : ~ In x (y :: b)).
    { intros [C|C]; [subst; now apply (lex_lt_irrefl E)|].
      apply (lex_lt_irrefl (lex_lt_trans E (Fb x C))). }
    split; [|split; [|split; [|split]]].
    + constructor; auto. rewrite I2. lia.
    + intros [C|C]; [discriminate|auto].
    + intros p q. split.
      * intros [C|C]; [discriminate|]. apply I1 in C. rewrite ShA by lia. simpl length in *. repeat split; try lia; tauto.
      * intros [Hp [Hq Heq]]. right. apply I1. simpl length. destruct (Nat.eq_dec p i) as [->|Dp].
        { exfalso. apply Nx. rewrite Nat.sub_diag in Heq. simpl in Heq. rewrite Heq. apply (nth_In (y :: b)). simpl; lia. }
        rewrite ShA in Heq by lia. repeat split; auto; lia.
    + intros p. split.
      * intros [C|C]; [inversion C; subst; rewrite Nat.sub_diag; split; auto; lia|].
        apply I2 in C. rewrite ShA by lia. split; [lia|tauto].
      * intros [Hp Hn]. destruct (Nat.eq_dec p i) as [->|Dp]; [now left|].
        right. apply I2. rewrite ShA in Hn by lia. split; auto; lia.
    + intros q. split.
      * intros [C|C]; [discriminate|]. apply I3 in C. destruct C as [Hq Hn]. simpl length in Hq. split; [lia|].
        intros [C|C]; auto. apply Nx. rewrite C. apply (nth_In (y :: b)). simpl; lia.
      * intros [Hq Hn]. right. apply I3. simpl length. split; [lia|]. intros C. apply Hn. now right.
  - destruct (IHb (S j) Wb' Sa Sb') as [N [NN [I1 [I2 I3]]]].
    assert (Ny : ~ In y (x :: a)).
    { intros [C|C]; [subst; now apply (lex_lt_irrefl E)|].
      apply (lex_lt_irrefl (lex_lt_trans E (Fa y C))). }
    split; [|split; [|split; [|split]]].
    + constructor; auto. rewrite (I3 j). lia.
    + intros [C|C]; [discriminate|auto].
    + intros p q. split.
      * intros [C|C]; [discriminate|]. apply (I1 p q) in C. rewrite ShB by lia. simpl length in *. repeat split; try lia; tauto.
      * intros [Hp [Hq Heq]]. right. apply (I1 p q). simpl length. destruct (Nat.eq_dec q j) as [->|Dp].
        { exfalso. apply Ny. rewrite Nat.sub_diag in Heq. simpl in Heq. rewrite <- Heq.
          apply (nth_In (x :: a)). simpl; lia. }
        rewrite ShB in Heq by lia. repeat split; auto; lia.
    + intros p. split.
      * intros [C|C]; [discriminate|]. apply (I2 p) in C. destruct C as [Hq Hn]. simpl length in Hq. split; [lia|].
        intros [C|C]; auto. apply Ny. rewrite C. apply (nth_In (x :: a)). simpl; lia.
      * intros [Hq Hn]. right. apply (I2 p). simpl length. split; [lia|]. intros C. apply Hn. now right.
    + intros q. split.
      * intros [C|C]; [inversion C; subst; rewrite Nat.sub_diag; split; auto; lia|].
        apply (I3 q) in C. rewrite ShB by lia. split; [lia|tauto].
      * intros [Hp Hn]. destruct (Nat.eq_dec q j) as [->|Dp]; [now left|].
        right. apply (I3 q). rewrite ShB in Hn by lia. split; auto; lia.
Qed.

Lemma strictly_weakly rows : strictly_sorted rows -> weakly_sorted rows.
Proof. apply StronglySorted_impl. intros; now left. Qed.

(** ** searchsorted *)
Lemma searchsorted_loop_spec fuel col v : forall lo hi,
  StronglySorted Z.le col -> lo <= hi <= length col -> hi - lo <= fuel ->
  (forall i, i < lo -> (nth i col 0 < v)%Z) -> (forall i, hi <= i < length col -> (v <= nth i col 0)%Z) ->
  let r := searchsorted_loop fuel col v lo hi in
  lo <= r <= hi /\ (forall i, i < r -> (nth i col 0 < v)%Z) /\ (forall i, r <= i < length col -> (v <= nth i col 0)%Z).
Proof.
  induction fuel as [|f IH]; intros lo hi S Hb Hf Hlo Hhi; cbn [searchsorted_loop]; cbv zeta.
  - assert (lo = hi) by lia. subst. auto.
  - destruct (Nat.ltb_spec lo hi); [|assert (lo = hi) by lia; subst; auto].
    assert (Hm : lo <= lo + (hi - lo) / 2 < hi).
    { split; [lia|]. assert ((hi - lo) / 2 < hi - lo) by (apply Nat.div_lt; lia). lia. }
    set (mid := lo + (hi - lo) / 2) in *.
    rewrite StronglySorted_nth with (d := 0%Z) in S.
    assert (Mono : forall i j, i <= j < length col -> (nth i col 0 <= nth j col 0)%Z).
    { intros i j Hij. destruct (Nat.eq_dec i j); [subst; lia|]. apply S; lia. }
    destruct (Z.ltb_spec (nth mid col 0%Z) v).
    + destruct (IH (mid + 1) hi) as [A [B C]]; try lia.
      * now rewrite StronglySorted_nth with (d := 0%Z).
      * intros i Hi. pose proof (Mono i mid). lia.
      * auto.
      * split; [lia|split; auto].
    + destruct (IH lo mid) as [A [B C]]; try lia.
      * now rewrite StronglySorted_nth with (d := 0%Z).
      * auto.
      * intros i Hi. pose proof (Mono mid i). lia.
      * split; [lia|split; auto].
Qed.
