(** braid: shape of the result, and the inverse braid (C20). *)
From Coq Require Import Ring.
From Verif Require Import Util RowModel RowProofs SymModel SymProofs CatSpec Sums StarMat LexOrder SpaceModel SpaceProofs SpaceProofs2 SpaceProofs7 TreeModel TreeProofs TreeProofs2 TreeProofs3 TreeProofs4 TreeProofs5 TreeProofs6.
Set Implicit Arguments.
Unset Strict Implicit.
Open Scope nat_scope.

Section Lin.
  Variable K : Type.
  Variable o : ops K.
  Hypothesis ST : star_laws o.
  Add Ring Kr7 : (st_ring ST).
  Notation SR := (st_semi ST).
  Infix "**" := (omul o) (at level 40, left associativity).
  Lemma coef_extend f l u : coef o (extend_linear o f l) u = osum o (map (fun p => snd p ** coef o (f (fst p)) u) l).
  Proof.
    unfold coef at 1, extend_linear. rewrite (sum_flat_map SR). apply sum_ext. intros p _. rewrite map_map. unfold coef. rewrite <- (sum_mul_l SR). apply sum_ext.
    intros q _. cbn [fst snd]. destruct (tree_eqb (fst q) u); ring.
  Qed.
  (* terms with zero coefficient do not matter *)
  Lemma sum_filter_zero (p : tree * K -> bool) (h : tree * K -> K) l : (forall x, In x l -> p x = false -> h x = o0 o) ->
    osum o (map h (filter p l)) = osum o (map h l).
  Proof.
    induction l as [|x l IH]; intros H; [reflexivity|]. cbn [filter]. destruct (p x) eqn:E; cbn [map]; rewrite ?sum_cons.
    - f_equal. apply IH. intros y Hy. apply H. now right.
    - rewrite IH by (intros y Hy; apply H; now right). rewrite (H x (or_introl eq_refl) E). ring.
  Qed.
  (* the sum over an injective family of trees *)
  Lemma coef_family A (T : A -> tree) (x : A -> K) l i : NoDup l -> In i l -> (forall k k', In k l -> In k' l -> T k = T k' -> k = k') ->
    coef o (map (fun k => (T k, x k)) l) (T i) = x i.
  Proof.
    intros ND Hi INJ. unfold coef. rewrite map_map. cbn [fst snd]. rewrite (sum_single SR (f := fun k => if tree_eqb (T k) (T i) then x k else o0 o) ND Hi).
    - now replace (tree_eqb (T i) (T i)) with true by (symmetry; now apply tree_eqb_eq).
    - intros y Hy NE. destruct (tree_eqb (T y) (T i)) eqn:E; [|reflexivity]. apply tree_eqb_eq in E. apply INJ in E; congruence.
  Qed.
  Lemma coef_notin l u : ~ In u (map fst l) -> coef o l u = o0 o.
  Proof.
    intros H. unfold coef. apply (sum_zero SR). intros p Hp. destruct (tree_eqb (fst p) u) eqn:E; [|reflexivity]. apply tree_eqb_eq in E. subst. exfalso. apply H. now apply in_map.
  Qed.
End Lin.

Lemma upd_upd A (l : list A) i x y : upd (upd l i x) i y = upd l i y.
Proof. revert i. induction l as [|z l IH]; intros [|i]; cbn; congruence. Qed.
Lemma upd_comm A (l : list A) i j x y : i <> j -> upd (upd l i x) j y = upd (upd l j y) i x.
Proof. revert i j. induction l as [|z l IH]; intros [|i] [|j] H; cbn; try congruence. f_equal. apply IH. lia. Qed.
Lemma upd_nth A (d : A) l i : upd l i (nth i l d) = l.
Proof. revert i. induction l as [|z l IH]; intros [|i]; cbn; congruence. Qed.
Definition swap2 A (d : A) (l : list A) (j : nat) : list A := upd (upd l j (nth (j + 1) l d)) (j + 1) (nth j l d).
Lemma swap2_swap2 A (d : A) l j : j + 1 < length l -> swap2 d (swap2 d l j) j = l.
Proof.
  intros H. unfold swap2. set (x := nth j l d). set (y := nth (j + 1) l d).
  rewrite (@nth_upd_eq _ _ _ (j + 1)) by (rewrite !upd_length; lia).
  rewrite (@nth_upd_neq _ _ _ (j + 1) j) by lia. rewrite nth_upd_eq by lia.
  rewrite (@upd_comm _ _ (j + 1) j) by lia. rewrite (@upd_upd _ l). replace (upd l j x) with l by (symmetry; apply upd_nth). rewrite upd_upd. apply upd_nth.
Qed.
Lemma swap2_length A (d : A) l j : length (swap2 d l j) = length l.
Proof. unfold swap2. now rewrite !upd_length. Qed.

Definition bshape (t : tree) (j : nat) : Prop :=
  1 <= j /\ j + 1 < num_uncoupled t /\ length (t_dual t) = num_uncoupled t /\ length (t_inner t) = num_uncoupled t - 2 /\ length (t_mult t) = num_uncoupled t - 1.
(** the tree with legs j, j+1 exchanged and new labels (f, kappa, lambda) *)
Definition btree (t : tree) (j : nat) (p : sector * nat * nat) : tree :=
  match p with (f, k, l) =>
    Tree (swap2 [] (t_unc t) j) (t_coup t) (swap2 false (t_dual t) j) (upd (t_inner t) (j - 1) f) (upd (upd (t_mult t) (j - 1) k) j l) end.
Definition alab (t : tree) (j : nat) : sector := if j =? 1 then nth 0 (t_unc t) [] else nth (j - 2) (t_inner t) [].
Definition dlab (t : tree) (j : nat) : sector := if j =? num_vertices t - 1 then t_coup t else nth j (t_inner t) [].
Definition llab (t : tree) (j : nat) : sector * nat * nat := (nth (j - 1) (t_inner t) [], nth (j - 1) (t_mult t) 0, nth j (t_mult t) 0).
Section B.
  Variable t : tree.
  Variable j : nat.
  Hypothesis SH : bshape t j.
  Lemma vl_lo : vertex_labels t (j - 1) = (alab t j, nth j (t_unc t) [], nth (j - 1) (t_mult t) 0, nth (j - 1) (t_inner t) []).
  Proof.
    destruct SH as (H1 & H2 & H3 & H4 & H5). unfold vertex_labels, alab, num_vertices, num_uncoupled in *.
    replace (j - 1 =? length (t_unc t) - 1 - 1) with false by (symmetry; apply Nat.eqb_neq; lia).
    destruct j as [|[|n]]; [lia|reflexivity|]. cbn [Nat.sub Nat.eqb]. rewrite !Nat.sub_0_r, Nat.add_1_r. reflexivity.
  Qed.
  Lemma vl_hi : vertex_labels t j = (nth (j - 1) (t_inner t) [], nth (j + 1) (t_unc t) [], nth j (t_mult t) 0, dlab t j).
  Proof.
    destruct SH as (H1 & H2 & H3 & H4 & H5). unfold vertex_labels, dlab. replace (j =? 0) with false by (symmetry; apply Nat.eqb_neq; lia). reflexivity.
  Qed.
  Lemma btree_nu p : num_uncoupled (btree t j p) = num_uncoupled t.
  Proof. destruct p as [[f k] l]. unfold num_uncoupled, btree. cbn [t_unc]. apply swap2_length. Qed.
  Lemma btree_shape p : bshape (btree t j p) j.
  Proof.
    destruct SH as (H1 & H2 & H3 & H4 & H5). unfold bshape. rewrite btree_nu. destruct p as [[f k] l]. cbn [btree t_dual t_inner t_mult]. rewrite swap2_length, !upd_length.
    repeat split; assumption.
  Qed.
  Lemma btree_unc p : t_unc (btree t j p) = swap2 [] (t_unc t) j.
  Proof. now destruct p as [[f k] l]. Qed.
  Lemma btree_coup p : t_coup (btree t j p) = t_coup t.
  Proof. now destruct p as [[f k] l]. Qed.
  Lemma btree_dual p : t_dual (btree t j p) = swap2 false (t_dual t) j.
  Proof. now destruct p as [[f k] l]. Qed.
  Lemma swap_nth_j : nth j (swap2 [] (t_unc t) j) [] = nth (j + 1) (t_unc t) [].
  Proof.
    destruct SH as (H1 & H2 & _). unfold num_uncoupled in H2. unfold swap2. rewrite nth_upd_neq by lia. apply nth_upd_eq. lia.
  Qed.
  Lemma swap_nth_j1 : nth (j + 1) (swap2 [] (t_unc t) j) [] = nth j (t_unc t) [].
  Proof.
    destruct SH as (H1 & H2 & _). unfold num_uncoupled in H2. unfold swap2. apply nth_upd_eq. rewrite upd_length. lia.
  Qed.
  Lemma btree_a p : alab (btree t j p) j = alab t j.
  Proof.
    destruct SH as (H1 & H2 & _). destruct p as [[f k] l]. unfold alab, btree. cbn [t_unc t_inner]. destruct (j =? 1) eqn:E.
    - unfold swap2. rewrite !nth_upd_neq by lia. reflexivity.
    - apply Nat.eqb_neq in E. now rewrite nth_upd_neq by lia.
  Qed.
  Lemma btree_d p : dlab (btree t j p) j = dlab t j.
  Proof.
    destruct SH as (H1 & H2 & _). unfold dlab, num_vertices. rewrite btree_nu. destruct p as [[f k] l]. unfold btree. cbn [t_coup t_inner].
    now rewrite nth_upd_neq by lia.
  Qed.
  Lemma btree_l p : llab (btree t j p) j = p.
  Proof.
    destruct SH as (H1 & H2 & H3 & H4 & H5). destruct p as [[f k] l]. unfold llab, btree. cbn [t_inner t_mult]. rewrite nth_upd_eq by lia.
    rewrite (@nth_upd_neq _ _ _ j (j - 1)) by lia. rewrite nth_upd_eq by lia. rewrite nth_upd_eq by (rewrite upd_length; lia). reflexivity.
  Qed.
  Lemma btree_btree p q : btree (btree t j p) j q = btree (btree t j (llab t j)) j q.
  Proof.
    destruct SH as (H1 & H2 & H3 & H4 & H5). destruct p as [[f k] l], q as [[f' k'] l']. unfold btree, llab. cbn [t_unc t_coup t_dual t_inner t_mult].
    f_equal; [now rewrite !upd_upd|]. rewrite !(@upd_comm _ _ j (j - 1)) by lia. rewrite !upd_upd. reflexivity.
  Qed.
  Lemma btree_id : btree (btree t j (llab t j)) j (llab t j) = t.
  Proof.
    destruct SH as (H1 & H2 & H3 & H4 & H5). unfold num_uncoupled in *. unfold btree, llab. cbn [t_unc t_coup t_dual t_inner t_mult]. rewrite !swap2_swap2 by lia.
    rewrite !(@upd_nth _ []), !(@upd_nth _ 0). now destruct t.
  Qed.
  Lemma btree_inj p q : btree t j p = btree t j q -> p = q.
  Proof. intros H. rewrite <- (btree_l p), <- (btree_l q). now rewrite H. Qed.
End B.
