(** The order on trees (C19), trees of abelian symmetries (C17). *)
From Verif Require Import Util RowModel RowProofs SymModel SymProofs CatSpec LexOrder SpaceModel SpaceProofs SpaceProofs2 SpaceProofs7
  TreeModel TreeProofs TreeProofs2 TreeProofs3 TreeProofs4.
Set Implicit Arguments.
Unset Strict Implicit.
Open Scope nat_scope.

Lemma sector_cmp_laws : cmp_laws sector_cmp.
Proof. apply list_cmp. apply Z_cmp. Qed.
Lemma cmp_inj A B (f : A -> B) (c : B -> B -> comparison) : (forall x y, f x = f y -> x = y) -> cmp_laws c -> cmp_laws (fun x y => c (f x) (f y)).
Proof.
  intros I L. constructor.
  - intros x y. rewrite (cmp_eq L). split; [apply I|congruence].
  - intros x y. apply (cmp_sym L).
  - intros x y z. apply (cmp_trans L).
Qed.
Definition secs_cmp (a b : list sector) : comparison := pair_compare Nat.compare (list_compare sector_cmp) (length a, a) (length b, b).
Lemma secs_cmp_laws : cmp_laws secs_cmp.
Proof.
  apply (@cmp_inj _ _ (fun a : list sector => (length a, a))).
  - intros x y [= _ H]. exact H.
  - apply pair_cmp; [apply nat_cmp|apply list_cmp, sector_cmp_laws].
Qed.
Definition tree_key (t : tree) := (t_dual t, (t_coup t, (t_unc t, (t_inner t, t_mult t)))).
Definition tree_cmp (t u : tree) : comparison :=
  pair_compare (list_compare bool_compare) (pair_compare sector_cmp (pair_compare secs_cmp (pair_compare secs_cmp (list_compare Nat.compare)))) (tree_key t) (tree_key u).
Lemma tree_cmp_laws : cmp_laws tree_cmp.
Proof.
  apply (@cmp_inj _ _ tree_key).
  - intros [] [] [= -> -> -> -> ->]. reflexivity.
  - repeat apply pair_cmp; try apply sector_cmp_laws; try apply secs_cmp_laws; apply list_cmp; [apply bool_cmp|apply nat_cmp].
Qed.
Lemma sectors_lt_spec a : forall b, length a = length b ->
  match sectors_lt a b with
  | None => a = b
  | Some r => a <> b /\ (r = true <-> list_compare sector_cmp a b = Lt)
  end.
Proof.
  induction a as [|x a IH]; intros [|y b] L; try discriminate; cbn [sectors_lt]; [reflexivity|]. destruct (row_eqb x y) eqn:E.
  - apply row_eqb_eq in E. subst y. specialize (IH b ltac:(cbn in L; lia)). destruct (sectors_lt a b).
    + destruct IH as [N IH]. split; [congruence|]. rewrite IH. cbn [list_compare]. now rewrite (cmp_refl sector_cmp_laws).
    + now subst.
  - apply row_eqb_neq in E. split; [congruence|]. cbn [list_compare]. unfold sector_lt. destruct (sector_cmp x y) eqn:EC; [|tauto|intuition discriminate].
    apply (cmp_eq sector_cmp_laws) in EC. congruence.
Qed.
Lemma tree_lt_cmp t u : tree_lt t u = true <-> tree_cmp t u = Lt.
Proof.
  unfold tree_lt, tree_cmp, tree_key, pair_compare. cbn [fst snd].
  destruct (bools_eqb (t_dual t) (t_dual u)) eqn:E1; cbn [negb].
  2:{ unfold bools_lt. destruct (list_compare bool_compare (t_dual t) (t_dual u)) eqn:EC; try (intuition discriminate).
      apply (cmp_eq (list_cmp bool_cmp)) in EC. apply bools_eqb_eq in EC. congruence. }
  apply bools_eqb_eq in E1. rewrite E1, (cmp_refl (list_cmp bool_cmp)).
  destruct (row_eqb (t_coup t) (t_coup u)) eqn:E2; cbn [negb].
  2:{ unfold sector_lt. destruct (sector_cmp (t_coup t) (t_coup u)) eqn:EC; try (intuition discriminate). apply (cmp_eq sector_cmp_laws) in EC. apply row_eqb_neq in E2. congruence. }
  apply row_eqb_eq in E2. rewrite E2, (cmp_refl sector_cmp_laws).
  assert (STEP : forall (a b : list sector) (rest : bool) (rc : comparison), (rest = true <-> rc = Lt) ->
    ((if negb (length a =? length b) then length a <? length b else match sectors_lt a b with Some r => r | None => rest end) = true <->
     match secs_cmp a b with Eq => rc | r => r end = Lt)).
  { intros a b rest rc HR. unfold secs_cmp, pair_compare. cbn [fst snd]. destruct (length a =? length b) eqn:EL; cbn [negb].
    - apply Nat.eqb_eq in EL. rewrite EL, Nat.compare_refl. assert (SP := sectors_lt_spec EL). destruct (sectors_lt a b) as [r|].
      + destruct SP as [N SP]. rewrite SP. destruct (list_compare sector_cmp a b) eqn:EC; try tauto. apply (cmp_eq (list_cmp sector_cmp_laws)) in EC. congruence.
      + subst b. rewrite (cmp_refl (list_cmp sector_cmp_laws)). exact HR.
    - apply Nat.eqb_neq in EL. rewrite Nat.ltb_lt. destruct (Nat.compare_spec (length a) (length b)); intuition (try discriminate; lia). }
  apply STEP. apply STEP. unfold nats_lt. destruct (list_compare Nat.compare (t_mult t) (t_mult u)); intuition discriminate.
Qed.
Lemma tree_eqb_eq t u : tree_eqb t u = true <-> t = u.
Proof.
  unfold tree_eqb. rewrite !Bool.andb_true_iff, bools_eqb_eq, row_eqb_eq, !rows_eqb_eq, nats_eqb_eq. destruct t, u. cbn. split.
  - intros ((((-> & ->) & ->) & ->) & ->). reflexivity.
  - intros [= -> -> -> -> ->]. auto.
Qed.
Definition tree_dec (t u : tree) : {t = u} + {t <> u} :=
  match Bool.bool_dec (tree_eqb t u) true with
  | left E => left (proj1 (tree_eqb_eq t u) E)
  | right N => right (fun E => N (proj2 (tree_eqb_eq t u) E))
  end.

(** ** abelian symmetries: one tree *)
Section Ab.
  Variable S : symmetry.
  Variable fuse : sector -> sector -> sector.
  Hypothesis G : abelian_group_laws S fuse.
  Notation valid a := (sym_valid S a = true).
  Lemma abelian_outcomes_eq us : forall a, valid a -> Forall (fun x => valid x) us ->
    exists f, abelian_outcomes S a us = Some f /\ length f = length us /\ (us <> [] -> last f [] = fold_left fuse us a) /\
      (us <> [] -> path S a us (firstn (length f - 1) f) (repeat 0 (length us)) (last f [])).
  Proof.
    induction us as [|u us IH]; intros a Va VU.
    - exists []. split; [reflexivity|]. split; [reflexivity|]. split; congruence.
    - inversion VU as [|? ? Vu Vus]; subst. cbn [abelian_outcomes]. rewrite (ag_outcomes G Va Vu).
      assert (Vf := ag_closed G Va Vu). destruct (IH (fuse a u) Vf Vus) as (f & -> & LF & EF & PF).
      exists (fuse a u :: f). split; [reflexivity|]. split; [cbn [length]; lia|].
      assert (HO : In (fuse a u) (sym_outcomes S a u)) by (rewrite (ag_outcomes G Va Vu); now left).
      assert (HN : 0 < sym_n S a u (fuse a u)) by (rewrite (ag_n G); lia).
      destruct us as [|u' us].
      + destruct f; [|discriminate]. split; [reflexivity|]. intros _. cbn. now apply path_one.
      + destruct f as [|x f]; [discriminate|]. split; [intros _; exact (EF ltac:(discriminate))|]. intros _.
        specialize (PF ltac:(discriminate)). change (last (fuse a u :: x :: f) []) with (last (x :: f) []).
        replace (firstn (length (fuse a u :: x :: f) - 1) (fuse a u :: x :: f)) with (fuse a u :: firstn (length (x :: f) - 1) (x :: f))
          by (cbn [length Nat.sub firstn]; now rewrite Nat.sub_0_r).
        change (repeat 0 (length (u :: u' :: us))) with (0 :: repeat 0 (length (u' :: us))). now apply path_cons.
  Qed.
  Lemma from_abelian_valid unc dual : Forall (fun x => valid x) unc -> length dual = length unc ->
    exists t, from_abelian S unc dual = Some t /\ valid_tree S unc (match unc with [] => sym_trivial S | a :: us => fold_left fuse us a end) dual t.
  Proof.
    intros VU LD. destruct unc as [|a [|u us]].
    - destruct dual; [|discriminate]. eexists. split; [reflexivity|constructor].
    - destruct dual as [|d [|]]; try discriminate. eexists. split; [reflexivity|constructor].
    - inversion VU as [|? ? Va Vus]; subst. destruct (abelian_outcomes_eq (us := u :: us) Va Vus) as (f & EF & LF & EL & PF).
      unfold from_abelian. rewrite EF. eexists. split; [reflexivity|]. rewrite <- EL by discriminate. unfold mk_tree. cbn [length Nat.sub].
      apply vt_more; [exact LD|]. apply PF. discriminate.
  Qed.
  Lemma path_ab us : forall a inners mus c inners' mus' c', valid a -> Forall (fun x => valid x) us -> path S a us inners mus c -> path S a us inners' mus' c' ->
    inners = inners' /\ mus = mus' /\ c = c'.
  Proof.
    induction us as [|u us IH]; intros a inners mus c inners' mus' c' Va VU P P'; [now apply path_nil in P|]. inversion VU as [|? ? Vu Vus]; subst.
    assert (U : forall x, In x (sym_outcomes S a u) -> x = fuse a u) by (intros x; rewrite (ag_outcomes G Va Vu); intros [<-|[]]; reflexivity).
    assert (Z : forall m x, m < sym_n S a u x -> m = 0) by (intros m x; rewrite (ag_n G); lia).
    inversion P as [? ? m1 ? A1 A2|? ? ? e1 i1 m1 s1 ? A1 A2 P1]; subst; inversion P' as [? ? m2 ? B1 B2|? ? ? e2 i2 m2 s2 ? B1 B2 P2]; subst;
      try (exfalso; eapply path_nil; eassumption); apply Z in A2; apply Z in B2; apply U in A1; apply U in B1; subst; [auto|].
    destruct (IH _ _ _ _ _ _ _ (ag_closed G Va Vu) Vus P1 P2) as (-> & -> & ->). auto.
  Qed.
  Lemma abelian_unique unc dual c t t' : Forall (fun x => valid x) unc -> valid_tree S unc c dual t -> from_abelian S unc dual = Some t' -> t = t'.
  Proof.
    intros VU V EF. destruct (from_abelian_valid VU (valid_tree_dual V)) as (t2 & E2 & V2). rewrite EF in E2. injection E2 as <-.
    destruct V as [|a d|a us c dual inners mus LD P].
    - inversion V2. reflexivity.
    - inversion V2; subst; [reflexivity|]. exfalso. eapply path_nil. eassumption.
    - inversion V2; subst; [exfalso; eapply path_nil; eassumption|]. inversion VU; subst.
      match goal with P' : path S a us _ _ (fold_left fuse us a) |- _ => destruct (path_ab ltac:(eassumption) ltac:(eassumption) P P') as (-> & -> & ->) end. reflexivity.
  Qed.
End Ab.
