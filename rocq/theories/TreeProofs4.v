(** split / insert / extended / split_bottom_vertex (C18), the order on trees (C19), abelian trees (C17). *)
From Verif Require Import Util RowModel RowProofs SymModel SymProofs CatSpec LexOrder SpaceModel SpaceProofs SpaceProofs2 SpaceProofs7
  TreeModel TreeProofs TreeProofs2 TreeProofs3.
Set Implicit Arguments.
Unset Strict Implicit.
Open Scope nat_scope.

(** the shape that the constructor arguments of every FusionTree have *)
Definition tree_shape (t : tree) : Prop :=
  length (t_dual t) = num_uncoupled t /\ length (t_inner t) = num_inner t /\ length (t_mult t) = num_vertices t.

Lemma slice_full A (l : list A) n m : m = length l -> slice l n m = skipn n l.
Proof. intros ->. apply slice_end. Qed.

Section T.
  Variable S : symmetry.
  Notation out := (sym_outcomes S).
  Notation path := (path S).
  Notation valid a := (sym_valid S a = true).
  Notation tree_ok := (tree_ok S).

  Lemma tree_ok_shape t : tree_ok t -> tree_shape t.
  Proof.
    intros [_ V]. unfold tree_shape, num_inner, num_vertices, num_uncoupled. destruct V as [|a d|a us c dual inners mus L P].
    - cbn. auto.
    - cbn. auto.
    - destruct (path_lengths P) as (A & B & D). subst. cbn [length] in *. split; [cbn [t_unc t_dual t_inner t_mult length]; lia|]. cbn [t_unc t_dual t_inner t_mult length]; split; lia.
  Qed.
  Lemma tree_cases t : tree_ok t -> t = Tree [] (sym_trivial S) [] [] [] \/ (exists a d, t = Tree [a] a [d] [] []) \/
    (exists a us c dual inners mus, t = Tree (a :: us) c dual inners mus /\ length dual = Datatypes.S (length us) /\ path a us inners mus c).
  Proof.
    intros [_ V]. destruct V as [|a d|a us c dual inners mus L P]; [auto|eauto|]. right. right. exists a, us, c, dual, inners, mus. auto.
  Qed.
  Lemma split_insert t n t1 t2 : tree_shape t -> split t n = Some (t1, t2) -> insert t2 t1 = t.
  Proof.
    intros (LD & LI & LM). unfold split. destruct (n <? 2) eqn:E1; [discriminate|]. apply Nat.ltb_ge in E1.
    destruct (num_uncoupled t <=? n) eqn:E2; [discriminate|]. apply Nat.leb_gt in E2. intros [= <- <-].
    destruct t as [unc coup dual inner mult]. unfold tree_shape, num_inner, num_vertices, num_uncoupled in *. cbn [t_unc t_coup t_dual t_inner t_mult] in *.
    unfold insert, num_uncoupled. cbn [t_unc t_coup t_dual t_inner t_mult]. f_equal.
    - rewrite (slice_full 1 (l := nth (n - 2) inner [] :: slice unc n (length unc))) by reflexivity. cbn [skipn]. apply slice_join.
    - cbn [skipn]. apply slice_join.
    - change (slice (nth (n - 2) inner [] :: slice unc n (length unc)) 0 1) with [nth (n - 2) inner []]. cbn [app].
      rewrite slice_0, (slice_full (n - 1)) by lia. replace (n - 1) with (Datatypes.S (n - 2)) by lia. rewrite <- (skipn_cons_nth []) by lia. apply firstn_skipn.
    - apply slice_join.
  Qed.
  Lemma split_defined t n : 2 <= n < num_uncoupled t <-> exists p, split t n = Some p.
  Proof.
    unfold split. split.
    - intros [A B]. replace (n <? 2) with false by (symmetry; apply Nat.ltb_ge; lia). replace (num_uncoupled t <=? n) with false by (symmetry; apply Nat.leb_gt; lia). eauto.
    - intros [p H]. destruct (n <? 2) eqn:E1; [discriminate|]. apply Nat.ltb_ge in E1. destruct (num_uncoupled t <=? n) eqn:E2; [discriminate|]. apply Nat.leb_gt in E2. lia.
  Qed.
  (** inserting and splitting again *)
  Lemma insert_split t1 t2 : tree_shape t1 -> tree_shape t2 -> 2 <= num_uncoupled t1 -> 2 <= num_uncoupled t2 ->
    nth 0 (t_unc t2) [] = t_coup t1 -> nth 0 (t_dual t2) true = false -> split (insert t2 t1) (num_uncoupled t1) = Some (t1, t2).
  Proof.
    destruct t1 as [u1 c1 d1 i1 m1], t2 as [u2 c2 d2 i2 m2]. unfold tree_shape, num_inner, num_vertices, num_uncoupled. cbn [t_unc t_coup t_dual t_inner t_mult].
    intros (A1 & A2 & A3) (B1 & B2 & B3) N1 N2 EC ED. destruct u2 as [|b u2]; [cbn in N2; lia|]. cbn [nth] in EC. subst b.
    destruct d2 as [|d d2]; [cbn in B1; lia|]. cbn [nth] in ED. subst d. unfold insert, split, num_inner, num_uncoupled. cbn [t_unc t_coup t_dual t_inner t_mult skipn].
    change (slice (c1 :: u2) 0 1) with [c1]. rewrite (slice_full 1 (l := c1 :: u2)) by reflexivity. cbn [skipn app]. cbn [length] in *.
    replace (length u1 <? 2) with false by (symmetry; apply Nat.ltb_ge; lia). rewrite app_length.
    replace (length u1 + length u2 <=? length u1) with false by (symmetry; apply Nat.leb_gt; lia).
    assert (X : forall A (l1 l2 : list A) n, n = length l1 -> slice (l1 ++ l2) 0 n = l1).
    { intros A l1 l2 n ->. rewrite slice_0, firstn_app, Nat.sub_diag, firstn_all. cbn. apply app_nil_r. }
    assert (Y : forall A (l1 l2 : list A) n m, n = length l1 -> m = length (l1 ++ l2) -> slice (l1 ++ l2) n m = l2).
    { intros A l1 l2 n m -> ->. rewrite slice_end, skipn_app, skipn_all, Nat.sub_diag. reflexivity. }
    assert (EN : nth (length u1 - 2) (i1 ++ c1 :: i2) [] = c1). { rewrite app_nth2 by lia. replace (length u1 - 2 - length i1) with 0 by lia. reflexivity. }
    rewrite EN. rewrite !X by lia. rewrite (Y _ u1 u2) by (rewrite ?app_length; lia). rewrite (Y _ d1 d2) by (rewrite ?app_length; lia).
    rewrite (Y _ m1 m2) by (rewrite ?app_length; lia).
    replace (i1 ++ c1 :: i2) with ((i1 ++ [c1]) ++ i2) by (rewrite <- app_assoc; reflexivity).
    rewrite (Y _ (i1 ++ [c1]) i2) by (rewrite ?app_length; cbn [length]; lia). reflexivity.
  Qed.
  (** validity *)
  Lemma insert_ok t1 t2 : tree_ok t1 -> tree_ok t2 -> 2 <= num_uncoupled t1 -> 2 <= num_uncoupled t2 -> nth 0 (t_unc t2) [] = t_coup t1 -> tree_ok (insert t2 t1).
  Proof.
    intros K1 K2 N1 N2 EC. apply (proj1 (tree_ok_path S N1)) in K1. apply (proj1 (tree_ok_path S N2)) in K2. destruct K1 as (V1 & D1 & P1), K2 as (V2 & D2 & P2).
    destruct t1 as [u1 c1 d1 i1 m1], t2 as [u2 c2 d2 i2 m2]. unfold num_uncoupled in *. cbn [t_unc t_coup t_dual t_inner t_mult] in *.
    destruct u1 as [|a1 u1]; [cbn in N1; lia|]. destruct u2 as [|b u2]; [cbn in N2; lia|]. cbn [nth hd tl length] in *. subst b.
    assert (EI : insert (Tree (c1 :: u2) c2 d2 i2 m2) (Tree (a1 :: u1) c1 d1 i1 m1) = Tree (a1 :: u1 ++ u2) c2 (d1 ++ skipn 1 d2) (i1 ++ c1 :: i2) (m1 ++ m2)).
    { unfold insert, num_uncoupled. cbn [t_unc t_coup t_dual t_inner t_mult]. rewrite (slice_full 1 (l := c1 :: u2)) by reflexivity. reflexivity. }
    rewrite EI. apply tree_ok_path; [unfold num_uncoupled; cbn [t_unc length]; rewrite app_length; lia|]. cbn [t_unc t_coup t_dual t_inner t_mult hd tl].
    unfold num_uncoupled. cbn [t_unc length]. split; [|split].
    - inversion V1; subst. inversion V2; subst. constructor; [assumption|]. apply Forall_app. auto.
    - rewrite !app_length, skipn_length. lia.
    - destruct (path_lengths P1) as (X1 & X2 & X3), (path_lengths P2) as (Y1 & Y2 & Y3). apply path_app; auto.
  Qed.
  Lemma split_ok (RING : fusion_ring S) t n t1 t2 : tree_ok t -> split t n = Some (t1, t2) -> tree_ok t1 /\ tree_ok t2 /\
    num_uncoupled t1 = n /\ num_uncoupled t2 + n = num_uncoupled t + 1 /\ nth 0 (t_unc t2) [] = t_coup t1 /\ nth 0 (t_dual t2) true = false /\ t_coup t2 = t_coup t.
  Proof.
    intros K ES. assert (SH := tree_ok_shape K). destruct (proj2 (split_defined t n) (ex_intro _ _ ES)) as [B1 B2].
    assert (N2 : 2 <= num_uncoupled t) by lia. apply (proj1 (tree_ok_path S N2)) in K. destruct K as (V & D & P).
    unfold split in ES. replace (n <? 2) with false in ES by (symmetry; apply Nat.ltb_ge; lia). replace (num_uncoupled t <=? n) with false in ES by (symmetry; apply Nat.leb_gt; lia).
    injection ES as <- <-. destruct t as [unc coup dual inner mult]. unfold tree_shape, num_inner, num_vertices, num_uncoupled in *. cbn [t_unc t_coup t_dual t_inner t_mult] in *.
    destruct SH as (SD & SI & SM). destruct unc as [|a us]; [cbn in N2; lia|]. cbn [hd tl length] in *.
    rewrite !slice_0. rewrite (slice_full n (l := a :: us)) by reflexivity. rewrite slice_end, (slice_full (n - 1) (l := inner)), slice_end by lia.
    destruct n as [|n]; [lia|]. change (firstn (Datatypes.S n) (a :: us)) with (a :: firstn n us). change (skipn (Datatypes.S n) (a :: us)) with (skipn n us).
    replace (Datatypes.S n - 2) with (n - 1) by lia. replace (Datatypes.S n - 1) with n by lia.
    assert (PE : path a (firstn n us ++ skipn n us) (firstn (n - 1) inner ++ nth (n - 1) inner [] :: skipn n inner) (firstn n mult ++ skipn n mult) coup).
    { rewrite !firstn_skipn. replace (skipn n inner) with (skipn (Datatypes.S (n - 1)) inner) by (f_equal; lia). rewrite <- (skipn_cons_nth []) by lia. now rewrite firstn_skipn. }
    apply path_app in PE; [|intros X; apply (f_equal (@length _)) in X; rewrite firstn_length in X; cbn in X; lia
      |intros X; apply (f_equal (@length _)) in X; rewrite skipn_length in X; cbn in X; lia|rewrite !firstn_length; lia|rewrite !firstn_length; lia].
    destruct PE as [P1 P2]. inversion V as [|? ? Va Vus]; subst.
    assert (VS : Forall (fun x => valid x) (firstn n us) /\ Forall (fun x => valid x) (skipn n us)) by (rewrite <- (firstn_skipn n us) in Vus; now apply Forall_app in Vus).
    destruct VS as [VS1 VS2]. assert (Vc := proj2 (path_valid RING P1 Va VS1)).
    split; [|split].
    - apply tree_ok_path; [unfold num_uncoupled; cbn [t_unc length]; rewrite firstn_length; lia|]. unfold num_uncoupled. cbn [t_unc t_coup t_dual t_inner t_mult hd tl length].
      split; [now constructor|]. split; [rewrite !firstn_length; lia|exact P1].
    - apply tree_ok_path; [unfold num_uncoupled; cbn [t_unc length]; rewrite skipn_length; lia|]. unfold num_uncoupled. cbn [t_unc t_coup t_dual t_inner t_mult hd tl length].
      split; [now constructor|]. split; [rewrite !skipn_length; lia|exact P2].
    - cbn [length nth]. rewrite firstn_length, skipn_length. repeat split; try reflexivity; lia.
  Qed.
  (** ** extended / split_bottom_vertex *)
  Lemma split_bottom_extended t r c mu z : tree_ok t -> split_bottom_vertex S t = Some (r, c, mu, z) ->
    tree_ok r /\ num_uncoupled r + 1 = num_uncoupled t /\ c = t_coup t /\ extended r z mu c (last (t_dual t) false) = Some t.
  Proof.
    intros K. assert (SH := tree_ok_shape K). assert (KC := tree_cases K). destruct K as [V K]. unfold split_bottom_vertex.
    destruct KC as [ET|[(a & d & ET)|(a & us & c0 & dual & inners & mus & ET & L & P)]]; subst t; cbn [t_unc t_coup t_dual] in V.
    - discriminate.
    - cbn [num_uncoupled t_unc length t_coup]. intros [= <- <- <- <-]. split; [split; [constructor|constructor]|]. repeat split.
    - unfold num_uncoupled. cbn [t_unc t_coup t_dual t_inner t_mult length] in *. unfold tree_shape, num_inner, num_vertices, num_uncoupled in *. cbn [t_unc t_coup t_dual t_inner t_mult length] in SH.
      destruct SH as (SD & SI & SM). destruct us as [|u us]; [now apply path_nil in P|]. destruct us as [|u' us].
      + cbn [length nth]. intros [= <- <- <- <-]. destruct dual as [|d0 [|d1 [|]]]; try discriminate. destruct inners; [|discriminate]. destruct mus as [|mu' [|]]; try discriminate.
        cbn [nth last]. inversion V; subst. split; [split; [now constructor|constructor]|]. repeat split.
      + cbn [length]. rewrite !slice_0. intros HS. set (us' := u :: u' :: us) in *.
        assert (NE : forall B (l : list B), l <> [] -> forall dd, l = firstn (length l - 1) l ++ [last l dd]).
        { intros B l H dd. rewrite (app_removelast_last dd H) at 1. f_equal. rewrite removelast_firstn_len. f_equal. lia. }
        assert (LU : Datatypes.S (Datatypes.S (length us)) = length us') by reflexivity. rewrite LU in *. assert (L1 : 2 <= length us') by lia.
        assert (EI : inners = firstn (length inners - 1) inners ++ [nth (length inners - 1) inners []]).
        { rewrite last_nth. apply NE. intros ->. unfold us' in SI. cbn in SI. lia. }
        assert (EM : mus = firstn (length mus - 1) mus ++ [last mus 0]). { apply NE. intros ->. unfold us' in SM. cbn in SM. lia. }
        assert (ED : dual = firstn (length dual - 1) dual ++ [last dual false]). { apply NE. intros ->. cbn in SD. lia. }
        assert (EU : us' = firstn (length us' - 1) us' ++ [last us' []]). { apply NE. discriminate. }
        assert (HS' : r = Tree (a :: firstn (length us' - 1) us') (nth (length inners - 1) inners []) (firstn (length dual - 1) dual)
                              (firstn (length inners - 1) inners) (firstn (length mus - 1) mus) /\ c = c0 /\ mu = last mus 0 /\ z = last us' []).
        { apply (f_equal (fun x => match x with Some y => y | None => (Tree [] [] [] [] [], [], 0, []) end)) in HS. injection HS as H1 H2 H3 H4.
          rewrite <- H1, <- H2, <- H3, <- H4. split; [|split; [reflexivity|split; [reflexivity|]]].
          - f_equal; try reflexivity; f_equal; cbn [length] in *; lia.
          - rewrite <- (last_nth us' []). unfold us'. cbn [length Nat.sub nth]. reflexivity. }
        clear HS. destruct HS' as (-> & -> & -> & ->).
        assert (PE := P). rewrite EU, EI, EM in PE. apply path_app in PE; [| | discriminate | |].
        2:{ intros X. apply (f_equal (@length _)) in X. rewrite firstn_length in X. unfold us' in X. cbn in X. lia. }
        2:{ rewrite !firstn_length. lia. }
        2:{ rewrite !firstn_length. lia. }
        destruct PE as [P1 P2].
        split; [|split].
        * split; [cbn [t_unc]; inversion V as [|? ? Va Vu]; subst; constructor; [exact Va|]; rewrite EU in Vu; now apply Forall_app in Vu|].
          cbn [t_unc t_coup t_dual]. apply vt_more; [rewrite !firstn_length; lia|exact P1].
        * unfold num_uncoupled. cbn [t_unc length]. rewrite firstn_length. unfold us'. cbn [length]. lia.
        * split; [reflexivity|]. unfold extended, num_uncoupled. cbn [t_unc t_coup t_dual t_inner t_mult length].
          cbn [Nat.eqb andb]. replace (2 <=? Datatypes.S (length (firstn (length us' - 1) us'))) with true
            by (symmetry; apply Nat.leb_le; rewrite firstn_length; unfold us'; cbn [length]; lia).
          cbn [app]. rewrite <- EU, <- ED, <- EI, <- EM. reflexivity.
  Qed.
  Lemma extended_split_bottom t u mu c d t' : tree_ok t -> num_uncoupled t >= 1 -> extended t u mu c d = Some t' ->
    split_bottom_vertex S t' = Some (t, c, mu, u) /\ last (t_dual t') true = d /\
    (sym_valid S u = true -> In c (out (t_coup t) u) -> mu < sym_n S (t_coup t) u c -> tree_ok t').
  Proof.
    intros K N1. assert (SH := tree_ok_shape K). unfold extended. replace (num_uncoupled t =? 0) with false by (symmetry; apply Nat.eqb_neq; lia).
    cbn [andb]. intros [= <-]. split; [|split; [apply last_last|]].
    - unfold split_bottom_vertex, num_uncoupled. cbn [t_unc t_coup t_dual t_inner t_mult]. rewrite app_length. cbn [length].
      assert (KC := tree_cases K). destruct KC as [ET|[(a & d0 & ET)|(a & us & c0 & dual & inners & mus & ET & L & P)]]; subst t.
      + cbn in N1. lia.
      + cbn [t_unc t_coup t_dual t_inner t_mult length app Nat.add nth]. reflexivity.
      + destruct (path_lengths P) as (X1 & X2 & X3). cbn [t_unc t_coup t_dual t_inner t_mult length Nat.add] in *. destruct us as [|u' us]; [congruence|].
        cbn [length Nat.add]. replace (length us + 1) with (Datatypes.S (length us)) by lia.
        unfold num_inner, num_uncoupled. cbn [t_unc t_coup t_dual t_inner t_mult length]. rewrite !slice_0, !app_length. cbn [length Nat.leb].
        replace (Datatypes.S (Datatypes.S (length us)) =? 0) with false by reflexivity.
        assert (Q : forall B (l : list B) x n, n = length l -> firstn n (l ++ [x]) = l).
        { intros B l x n ->. rewrite firstn_app, Nat.sub_diag, firstn_all. cbn. apply app_nil_r. }
        rewrite last_last.
        assert (LI : length inners + 1 = length (a :: u' :: us) - 1) by (cbn [length] in *; lia).
        rewrite (Q _ (a :: u' :: us)) by (cbn [length]; lia). rewrite (Q _ dual) by lia. rewrite (Q _ mus) by lia.
        rewrite (Q _ inners) by (cbn [length] in *; rewrite ?app_length; cbn [length]; lia).
        do 2 f_equal; [do 2 f_equal|].
        * f_equal. rewrite app_nth2 by (cbn [length] in *; rewrite ?app_length; cbn [length]; lia).
          match goal with |- nth ?k _ _ = _ => replace k with 0 by (cbn [length] in *; rewrite ?app_length; cbn [length]; lia) end. reflexivity.
        * rewrite app_nth2 by (cbn [length]; lia). match goal with |- nth ?k _ _ = _ => replace k with 0 by (cbn [length]; lia) end. reflexivity.
    - intros Vu Hc Hmu. assert (KC := tree_cases K). destruct K as [V K]. destruct KC as [ET|[(a & d0 & ET)|(a & us & c0 & dual & inners & mus & ET & L & P)]]; subst t; cbn [t_unc] in V.
      + cbn in N1. lia.
      + cbn [t_unc t_coup t_dual t_inner t_mult length app Nat.add nth Nat.leb num_uncoupled] in *. inversion V; subst. split; [now repeat constructor|].
        cbn [t_unc t_coup t_dual]. apply vt_more; [reflexivity|]. now apply path_one.
      + destruct (path_lengths P) as (X1 & X2 & X3). unfold num_uncoupled. cbn [t_unc t_coup t_dual t_inner t_mult app length] in *. destruct us as [|u' us]; [congruence|].
        cbn [length Nat.leb]. split.
        * cbn [t_unc]. inversion V; subst. constructor; [assumption|]. apply Forall_app. split; [assumption|]. now repeat constructor.
        * cbn [t_unc t_coup t_dual]. apply vt_more; [rewrite !app_length; cbn [length] in *; lia|]. apply path_app; auto; [discriminate|]. split; [exact P|]. now apply path_one.
  Qed.
End T.
