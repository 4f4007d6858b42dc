(** test_sanity, split / insert / extended / split_bottom_vertex (C18), the order on trees (C19), abelian trees. *)
From Verif Require Import Util RowModel RowProofs SymModel SymProofs CatSpec LexOrder SpaceModel SpaceProofs SpaceProofs2 SpaceProofs7 TreeModel TreeProofs TreeProofs2.
Set Implicit Arguments.
Unset Strict Implicit.
Open Scope nat_scope.

Section T.
  Variable S : symmetry.
  Notation N := (n_symbol S).
  Notation out := (sym_outcomes S).
  Notation path := (path S).
  Notation valid_tree := (valid_tree S).
  Notation valid a := (sym_valid S a = true).
  Notation tree_ok := (tree_ok S).

  Definition lsec (a : sector) (inners : list sector) (n : nat) : sector := if n =? 0 then a else nth (n - 1) inners [].
  Definition osec (m : nat) (inners : list sector) (c : sector) (n : nat) : sector := if n =? m - 1 then c else nth n inners [].
  Lemma path_nth us : forall a inners mus c, path a us inners mus c <->
    us <> [] /\ length inners = length us - 1 /\ length mus = length us /\
    forall n, n < length us -> let e := osec (length us) inners c n in
      In e (out (lsec a inners n) (nth n us [])) /\ nth n mus 0 < sym_n S (lsec a inners n) (nth n us []) e.
  Proof.
    induction us as [|u us IH]; intros a inners mus c.
    - split; [intros H; now apply path_nil in H|]. intros (H & _). congruence.
    - split.
      + intros P. destruct (path_lengths P) as (H1 & H2 & H3). repeat (split; [assumption|]). intros n Hn. cbv zeta.
        inversion P as [? ? mu ? A1 A2|? ? ? e inn mu mus' ? A1 A2 P']; subst.
        * cbn [length] in Hn. replace n with 0 by lia. cbn. auto.
        * apply IH in P'. destruct P' as (B1 & B2 & B3 & B4). destruct n as [|n].
          -- unfold osec. replace (0 =? length (u :: us) - 1) with false by (symmetry; apply Nat.eqb_neq; destruct us; [congruence|cbn [length]; lia]).
             cbn. auto.
          -- cbn [length] in Hn. specialize (B4 n ltac:(lia)). cbv zeta in B4.
             replace (osec (length (u :: us)) (e :: inn) c (Datatypes.S n)) with (osec (length us) inn c n).
             2:{ unfold osec. destruct us; [congruence|]. cbn [length]. replace (Datatypes.S n =? Datatypes.S (Datatypes.S (length us)) - 1) with (n =? Datatypes.S (length us) - 1); [reflexivity|].
                 apply Bool.eq_true_iff_eq. rewrite !Nat.eqb_eq. lia. }
             replace (lsec a (e :: inn) (Datatypes.S n)) with (lsec e inn n); [exact B4|]. unfold lsec. destruct n; [reflexivity|]. cbn. now rewrite Nat.sub_0_r.
      + intros (H1 & H2 & H3 & H4). destruct us as [|u' us].
        * destruct inners; [|discriminate]. destruct mus as [|mu [|]]; try discriminate. specialize (H4 0 ltac:(cbn; lia)). cbn in H4. now apply path_one.
        * destruct inners as [|e inn]; [discriminate|]. destruct mus as [|mu mus]; [discriminate|].
          assert (A := H4 0 ltac:(cbn; lia)). cbn in A. destruct A as [A1 A2]. apply path_cons; [exact A1|exact A2|].
          apply IH. split; [discriminate|]. cbn [length] in *. split; [lia|]. split; [lia|]. intros n Hn. cbv zeta.
          specialize (H4 (Datatypes.S n) ltac:(lia)). cbv zeta in H4.
          replace (osec (Datatypes.S (length us)) inn c n) with (osec (Datatypes.S (Datatypes.S (length us))) (e :: inn) c (Datatypes.S n)).
          2:{ unfold osec. replace (Datatypes.S n =? Datatypes.S (Datatypes.S (length us)) - 1) with (n =? Datatypes.S (length us) - 1); [reflexivity|].
              apply Bool.eq_true_iff_eq. rewrite !Nat.eqb_eq. lia. }
          replace (lsec e inn n) with (lsec a (e :: inn) (Datatypes.S n)); [exact H4|]. unfold lsec. destruct n; [reflexivity|]. cbn. now rewrite Nat.sub_0_r.
  Qed.
  Lemma path_app us1 : forall a in1 m1 e us2 in2 m2 c, us1 <> [] -> us2 <> [] -> length in1 = length us1 - 1 -> length m1 = length us1 ->
    (path a (us1 ++ us2) (in1 ++ e :: in2) (m1 ++ m2) c <-> path a us1 in1 m1 e /\ path e us2 in2 m2 c).
  Proof.
    induction us1 as [|u us1 IH]; intros a in1 m1 e us2 in2 m2 c N1 N2 L1 L2; [congruence|]. destruct m1 as [|mu m1]; [discriminate|].
    destruct us1 as [|u' us1].
    - destruct in1; [|discriminate]. destruct m1; [|discriminate]. cbn [app]. split.
      + intros P. inversion P; subst. split; [now apply path_one|assumption].
      + intros [P1 P2]. inversion P1; subst. now apply path_cons.
    - destruct in1 as [|e1 in1]; [discriminate|]. cbn [app length] in *. split.
      + intros P. inversion P as [|? ? ? ? ? ? ? ? A1 A2 P']; subst. change (u' :: us1 ++ us2) with ((u' :: us1) ++ us2) in P'. apply IH in P'; try (discriminate || assumption || cbn [length]; lia).
        destruct P' as [P1 P2]. split; [now apply path_cons|exact P2].
      + intros [P1 P2]. inversion P1 as [|? ? ? ? ? ? ? ? A1 A2 P']; subst. apply path_cons; [exact A1|exact A2|].
        change (u' :: us1 ++ us2) with ((u' :: us1) ++ us2). apply IH; try (discriminate || assumption || cbn [length]; lia). auto.
  Qed.
  Lemma path_valid (RING : fusion_ring S) a us inners mus c : path a us inners mus c -> valid a -> Forall (fun x => valid x) us ->
    Forall (fun x => valid x) inners /\ valid c.
  Proof.
    induction 1 as [a u mu c H1 H2|a u us e inners mu mus c H1 H2 P IH]; intros Va VU; inversion VU; subst.
    - split; [constructor|]. now apply (fr_closed RING) with (a := a) (b := u).
    - assert (Ve : valid e) by now apply (fr_closed RING) with (a := a) (b := u). destruct (IH Ve) as [IH1 IH2]; auto.
  Qed.

  (** ** test_sanity *)
  Lemma tree_ok_path t : 2 <= num_uncoupled t -> (tree_ok t <-> Forall (fun a => valid a) (t_unc t) /\ length (t_dual t) = num_uncoupled t /\
    path (hd [] (t_unc t)) (tl (t_unc t)) (t_inner t) (t_mult t) (t_coup t)).
  Proof.
    intros H. destruct t as [unc coup dual inner mult]. unfold num_uncoupled, TreeModel.tree_ok in *. cbn [t_unc t_coup t_dual t_inner t_mult] in *.
    destruct unc as [|a [|u us]]; cbn [length] in H; try lia. cbn [hd tl]. split; intros [V H'].
    - split; [exact V|]. inversion H'; subst. auto.
    - split; [exact V|]. destruct H' as [L P]. now apply vt_more.
  Qed.
  Lemma vertex_labels_path t n : vertex_labels t n = (lsec (hd [] (t_unc t)) (t_inner t) n, nth n (tl (t_unc t)) [], nth n (t_mult t) 0,
    osec (num_vertices t) (t_inner t) (t_coup t) n).
  Proof.
    unfold vertex_labels, lsec, osec. destruct (t_unc t) as [|a us]; cbn [hd tl].
    - destruct n; [reflexivity|]. cbn. destruct n; reflexivity.
    - destruct n as [|n]; [reflexivity|]. rewrite Nat.add_1_r. reflexivity.
  Qed.
  Lemma test_sanity_iff (RING : fusion_ring S) t : test_sanity S t = true <-> tree_ok t.
  Proof.
    destruct (le_lt_dec 2 (num_uncoupled t)) as [L2|L2].
    - rewrite (tree_ok_path L2). unfold test_sanity. replace (num_uncoupled t =? 0) with false by (symmetry; apply Nat.eqb_neq; lia).
      replace (num_uncoupled t =? 1) with false by (symmetry; apply Nat.eqb_neq; lia). rewrite !Bool.andb_true_r, !Bool.andb_true_iff, !Nat.eqb_eq.
      unfold are_valid_sectors. rewrite !forallb_forall, Forall_forall, path_nth.
      assert (LT : length (tl (t_unc t)) = num_vertices t). { unfold num_vertices, num_uncoupled. destruct (t_unc t); cbn; lia. }
      rewrite LT. unfold num_vertices, num_inner. split.
      + intros ((((((V1 & V2) & LD) & LI) & V3) & LM) & HV). split; [exact V1|]. split; [exact LD|]. split.
        { intros E. rewrite E in LT. unfold num_vertices in LT. cbn in LT. lia. }
        split; [lia|]. split; [lia|]. intros n Hn. specialize (HV n). rewrite vertex_labels_path in HV. rewrite Bool.andb_true_iff, !Nat.ltb_lt in HV. unfold num_vertices in HV.
        destruct HV as [_ HV]; [apply in_seq; lia|]. cbv zeta. now apply n_symbol_lt.
      + intros (V1 & LD & NE & LI & LM & HV). assert (P : path (hd [] (t_unc t)) (tl (t_unc t)) (t_inner t) (t_mult t) (t_coup t)).
        { apply path_nth. rewrite LT. unfold num_vertices. auto. }
        destruct (path_valid RING P) as [V3 V2].
        { apply V1. unfold num_uncoupled in L2. destruct (t_unc t); [cbn in L2; lia|]. now left. }
        { apply Forall_forall. intros x Hx. apply V1. destruct (t_unc t); [destruct Hx|]. now right. }
        rewrite Forall_forall in V3. split; [|]. 
        * repeat split; auto; lia.
        * intros n Hn. rewrite vertex_labels_path. apply in_seq in Hn. specialize (HV n ltac:(lia)). cbv zeta in HV. apply n_symbol_lt in HV. unfold num_vertices.
          rewrite Bool.andb_true_iff, !Nat.ltb_lt. lia.
    - destruct t as [unc coup dual inner mult]. unfold num_uncoupled in L2. cbn [t_unc] in L2.
      unfold test_sanity, num_uncoupled, num_vertices, num_inner, num_uncoupled, TreeModel.tree_ok. cbn [t_unc t_coup t_dual t_inner t_mult].
      destruct unc as [|a [|? ?]]; cbn [length] in L2; try lia.
      + cbn [length Nat.sub Nat.eqb seq forallb are_valid_sectors andb]. rewrite !Bool.andb_true_r, !Bool.andb_true_iff, !Nat.eqb_eq. split.
        * intros (((((V2 & LD) & LI) & V3) & LM) & E). apply row_eqb_eq in E. subst. split; [constructor|]. destruct dual, inner, mult; try discriminate. constructor.
        * intros [_ H]. inversion H; subst. rewrite row_eqb_refl. repeat split; auto. apply (fr_trivial_valid RING).
      + cbn [length Nat.sub Nat.eqb seq forallb are_valid_sectors andb nth]. rewrite !Bool.andb_true_r, !Bool.andb_true_iff, !Nat.eqb_eq. split.
        * intros ((((((V1 & V2) & LD) & LI) & V3) & LM) & E). apply row_eqb_eq in E. subst. split; [constructor; [exact V1|constructor]|].
          destruct dual as [|d [|]], inner, mult; try discriminate. constructor.
        * intros [V H]. inversion V; subst. inversion H; subst; [|exfalso; eapply path_nil; eassumption]. rewrite row_eqb_refl. repeat split; auto.
  Qed.
End T.
