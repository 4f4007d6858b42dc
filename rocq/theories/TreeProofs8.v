(** braid: validity of the resulting trees and the inverse braid (C20). *)
From Coq Require Import Ring.
From Verif Require Import Util RowModel RowProofs SymModel SymProofs CatSpec Sums StarMat LexOrder SpaceModel SpaceProofs SpaceProofs2 SpaceProofs7 TreeModel TreeProofs TreeProofs2 TreeProofs3 TreeProofs4 TreeProofs5 TreeProofs6 TreeProofs7.
Set Implicit Arguments.
Unset Strict Implicit.
Open Scope nat_scope.

Section Br.
  Variable S : symmetry.
  Variable K : Type.
  Variable o : ops K.
  Hypothesis ST : star_laws o.
  Hypothesis RING : fusion_ring S.
  Variables (R : Rsym K) (C : Fsym K).
  Notation N := (n_symbol S).
  Notation out := (sym_outcomes S).
  Notation valid a := (sym_valid S a = true).
  Notation tree_ok := (tree_ok S).
  Add Ring Kr8 : (st_ring ST).
  Notation SR := (st_semi ST).
  Infix "**" := (omul o) (at level 40, left associativity).
  Variable small : K -> bool.

  Definition cj (b : bool) (x : K) : K := if b then oconj o x else x.
  Definition bcoef (over dc : bool) (a b c d : sector) (i p : sector * nat * nat) : K :=
    cj dc (if over then Cmat C a b c d i p else oconj o (Cmat C a c b d p i)).
  Lemma flat_map_filter A B (p : B -> bool) (f : A -> B) l :
    flat_map (fun x => if p (f x) then [] else [f x]) l = filter (fun y => negb (p y)) (map f l).
  Proof. induction l as [|x l IH]; [reflexivity|]. cbn [flat_map map filter]. rewrite IH. now destruct (p (f x)). Qed.
  Lemma filter_flat_map A B (q : B -> bool) (f : A -> list B) l : filter q (flat_map f l) = flat_map (fun x => filter q (f x)) l.
  Proof. induction l as [|x l IH]; [reflexivity|]. cbn [flat_map]. now rewrite filter_app, IH. Qed.
  Lemma map_fm A B D (h : B -> D) (f : A -> list B) l : map h (flat_map f l) = flat_map (fun x => map h (f x)) l.
  Proof. induction l as [|x l IH]; [reflexivity|]. cbn [flat_map]. now rewrite map_app, IH. Qed.
  Lemma braid_eq t j over dc : bshape t j -> braid S o R C small t j over dc =
    filter (fun y => negb (small (snd y))) (map (fun p => (btree t j p, bcoef over dc (alab t j) (nth j (t_unc t) []) (nth (j + 1) (t_unc t) []) (dlab t j) (llab t j) p))
      (vidx S (alab t j) (nth (j + 1) (t_unc t) []) (nth j (t_unc t) []) (dlab t j))).
  Proof.
    intros SH. unfold braid. replace (j =? 0) with false by (symmetry; apply Nat.eqb_neq; destruct SH; lia). rewrite (vl_lo SH), (vl_hi SH).
    set (a := alab t j). set (b := nth j (t_unc t) []). set (c := nth (j + 1) (t_unc t) []). set (d := dlab t j).
    unfold vidx. rewrite map_fm, filter_flat_map.
    apply flat_map_ext. intros f. destruct (can_fuse_to S f b d) eqn:E; cbn [negb].
    - unfold for_each2d. rewrite map_fm, filter_flat_map.
      apply flat_map_ext. intros k. rewrite map_map.
      rewrite <- (flat_map_filter (fun y => small (snd y)) (fun l => (btree t j (f, k, l), bcoef over dc a b c d (llab t j) (f, k, l)))).
      apply flat_map_ext. intros l. cbn [snd]. unfold bcoef, cj, Cmat, llab. destruct (small _); reflexivity.
    - replace (N f b d) with 0 by (unfold n_symbol; now rewrite E). symmetry. induction (seq 0 (N a c f)); [reflexivity|]. cbn. assumption.
  Qed.
  Lemma tree_ok_bshape t j : tree_ok t -> 1 <= j -> j + 1 < num_uncoupled t -> bshape t j.
  Proof.
    intros OK H1 H2. apply tree_ok_path in OK; [|lia]. destruct OK as (_ & LD & P). apply path_lengths in P. destruct P as (_ & L1 & L2).
    unfold bshape, num_uncoupled in *. destruct (t_unc t); [cbn in H2; lia|]. cbn [length tl] in *. repeat split; lia.
  Qed.
  (** all labels at the two vertices *)
  Lemma tree_ok_labels t j : tree_ok t -> 1 <= j -> j + 1 < num_uncoupled t ->
    valid (alab t j) /\ valid (nth j (t_unc t) []) /\ valid (nth (j + 1) (t_unc t) []) /\ valid (dlab t j) /\
    In (llab t j) (vidx S (alab t j) (nth j (t_unc t) []) (nth (j + 1) (t_unc t) []) (dlab t j)).
  Proof.
    intros OK H1 H2. assert (SH := tree_ok_bshape OK H1 H2). apply (test_sanity_iff RING) in OK. unfold test_sanity in OK.
    rewrite !Bool.andb_true_iff in OK. destruct OK as ((((((((V1 & V2) & _) & _) & V3) & _) & _) & _) & HV).
    unfold are_valid_sectors in V1, V3. rewrite forallb_forall in V1, V3, HV. destruct SH as (_ & _ & L1 & L2 & L3).
    assert (SH : bshape t j) by (unfold bshape; auto). unfold num_uncoupled in *.
    assert (A1 := HV (j - 1)). assert (A2 := HV j). unfold num_vertices, num_uncoupled in A1, A2.
    specialize (A1 ltac:(apply in_seq; lia)). specialize (A2 ltac:(apply in_seq; lia)). rewrite (vl_lo SH) in A1. rewrite (vl_hi SH) in A2.
    rewrite !Bool.andb_true_iff, !Nat.ltb_lt in A1, A2.
    assert (Va : valid (alab t j)).
    { unfold alab. destruct (j =? 1) eqn:E; [apply V1, nth_In; lia|]. apply Nat.eqb_neq in E. apply V3, nth_In. lia. }
    split; [exact Va|]. split; [apply V1, nth_In; lia|]. split; [apply V1, nth_In; lia|]. split.
    { unfold dlab, num_vertices, num_uncoupled. destruct (j =? length (t_unc t) - 1 - 1) eqn:E; [exact V2|]. apply Nat.eqb_neq in E. apply V3, nth_In. lia. }
    unfold llab. apply vidx_In. split; [|split; [apply A1|apply A2]]. apply (n_symbol_pos _ RING); [exact Va|apply V1, nth_In; lia|apply A1].
  Qed.
  Lemma swap2_nth A (d : A) l j n : j + 1 < length l -> nth n (swap2 d l j) d = nth (if n =? j then j + 1 else if n =? j + 1 then j else n) l d.
  Proof.
    intros H. unfold swap2. destruct (n =? j) eqn:E1.
    - apply Nat.eqb_eq in E1. subst. rewrite nth_upd_neq by lia. apply nth_upd_eq. lia.
    - apply Nat.eqb_neq in E1. destruct (n =? j + 1) eqn:E2.
      + apply Nat.eqb_eq in E2. subst. apply nth_upd_eq. rewrite upd_length. lia.
      + apply Nat.eqb_neq in E2. rewrite !nth_upd_neq by lia. reflexivity.
  Qed.
  Lemma btree_ok t j p : tree_ok t -> 1 <= j -> j + 1 < num_uncoupled t ->
    In p (vidx S (alab t j) (nth (j + 1) (t_unc t) []) (nth j (t_unc t) []) (dlab t j)) -> tree_ok (btree t j p).
  Proof.
    intros OK H1 H2 Hp. assert (SH := tree_ok_bshape OK H1 H2). assert (SH' := btree_shape SH p). destruct SH as (_ & _ & L1 & L2 & L3).
    assert (SH : bshape t j) by (unfold bshape; auto).
    apply (test_sanity_iff RING) in OK. apply (test_sanity_iff RING). unfold test_sanity in *.
    rewrite !Bool.andb_true_iff in OK. destruct OK as ((((((((V1 & V2) & LD) & LI) & V3) & LM) & _) & _) & HV).
    unfold are_valid_sectors in *. rewrite forallb_forall in V1, V3, HV.
    assert (NU : num_uncoupled (btree t j p) = num_uncoupled t) by apply btree_nu.
    assert (NV : num_vertices (btree t j p) = num_vertices t) by (unfold num_vertices; now rewrite NU).
    rewrite !Bool.andb_true_iff. unfold num_inner. rewrite NU, NV.
    replace (num_uncoupled t =? 0) with false by (symmetry; apply Nat.eqb_neq; lia). replace (num_uncoupled t =? 1) with false by (symmetry; apply Nat.eqb_neq; lia).
    destruct p as [[f k] l]. apply vidx_In in Hp. destruct Hp as (P1 & P2 & P3). cbn [btree t_unc t_coup t_dual t_inner t_mult] in *. rewrite !upd_length, swap2_length.
    assert (Va : valid (alab t j)).
    { unfold alab, num_uncoupled in *. destruct (j =? 1) eqn:E; [apply V1, nth_In; lia|]. apply Nat.eqb_neq in E. apply V3, nth_In. lia. }
    assert (Vc : valid (nth (j + 1) (t_unc t) [])) by (unfold num_uncoupled in *; apply V1, nth_In; lia).
    assert (Vf : valid f) by (apply (fr_closed RING Va Vc P1)).
    repeat split; auto.
    - apply forallb_forall. intros x Hx. apply (In_nth _ _ []) in Hx. destruct Hx as (n & Hn & <-). rewrite swap2_length in Hn. unfold num_uncoupled in *.
      rewrite swap2_nth by lia. apply V1, nth_In. destruct (n =? j); [lia|]. destruct (n =? j + 1); lia.
    - apply forallb_forall. intros x Hx. apply (In_nth _ _ []) in Hx. destruct Hx as (n & Hn & <-). rewrite upd_length in Hn. destruct (Nat.eq_dec (j - 1) n) as [<-|NE].
      + now rewrite nth_upd_eq by lia.
      + rewrite nth_upd_neq by lia. now apply V3, nth_In.
    - apply forallb_forall. intros n Hn. specialize (HV n Hn). apply in_seq in Hn. unfold num_vertices in Hn.
      set (t' := Tree (swap2 [] (t_unc t) j) (t_coup t) (swap2 false (t_dual t) j) (upd (t_inner t) (j - 1) f) (upd (upd (t_mult t) (j - 1) k) j l)) in *.
      change t' with (btree t j (f, k, l)) in *. clear t'.
      destruct (Nat.eq_dec n (j - 1)) as [->|N1]; [|destruct (Nat.eq_dec n j) as [->|N2]].
      + rewrite (vl_lo SH'). rewrite (btree_a SH), btree_unc, (swap_nth_j SH).
        assert (Q := btree_l SH (f, k, l)). unfold llab in Q. assert (Q1 := f_equal (fun x => fst (fst x)) Q). assert (Q2 := f_equal (fun x => snd (fst x)) Q). cbn [fst snd] in Q1, Q2. rewrite Q1, Q2. rewrite Bool.andb_true_iff, !Nat.ltb_lt. lia.
      + rewrite (vl_hi SH'). rewrite (btree_d SH), btree_unc, (swap_nth_j1 SH).
        assert (Q := btree_l SH (f, k, l)). unfold llab in Q. assert (Q1 := f_equal (fun x => fst (fst x)) Q). assert (Q3 := f_equal snd Q). cbn [fst snd] in Q1, Q3. rewrite Q1, Q3. rewrite Bool.andb_true_iff, !Nat.ltb_lt. lia.
      + replace (vertex_labels (btree t j (f, k, l)) n) with (vertex_labels t n); [exact HV|]. unfold vertex_labels. rewrite NV, btree_unc, btree_coup. cbn [btree t_inner t_mult].
        unfold num_uncoupled in *. rewrite !swap2_nth by lia.
        assert (G1 : (if n =? 0 then nth 0 (t_unc t) [] else nth (n - 1) (t_inner t) []) =
          (if n =? 0 then nth (if 0 =? j then j + 1 else if 0 =? j + 1 then j else 0) (t_unc t) [] else nth (n - 1) (upd (t_inner t) (j - 1) f) [])).
        { destruct (n =? 0) eqn:E0; [|rewrite nth_upd_neq; [reflexivity|apply Nat.eqb_neq in E0; lia]]. apply Nat.eqb_eq in E0.
          replace (0 =? j) with false by (symmetry; apply Nat.eqb_neq; lia). replace (0 =? j + 1) with false by (symmetry; apply Nat.eqb_neq; lia). reflexivity. }
        assert (G2 : (if n =? 0 then nth 1 (t_unc t) [] else nth (n + 1) (t_unc t) []) =
          (if n =? 0 then nth (if 1 =? j then j + 1 else if 1 =? j + 1 then j else 1) (t_unc t) []
           else nth (if n + 1 =? j then j + 1 else if n + 1 =? j + 1 then j else n + 1) (t_unc t) [])).
        { destruct (n =? 0) eqn:E0.
          -- apply Nat.eqb_eq in E0. f_equal. destruct (1 =? j) eqn:E1; [apply Nat.eqb_eq in E1; lia|]. destruct (1 =? j + 1) eqn:E2; [apply Nat.eqb_eq in E2; lia|]. reflexivity.
          -- f_equal. destruct (n + 1 =? j) eqn:E1; [apply Nat.eqb_eq in E1; lia|]. destruct (n + 1 =? j + 1) eqn:E2; [apply Nat.eqb_eq in E2; lia|]. reflexivity. }
        rewrite <- G1, <- G2. rewrite !(@nth_upd_neq _ 0) by lia. rewrite (@nth_upd_neq _ [] (t_inner t) (j - 1) n) by lia. reflexivity.
  Qed.
  (** ** the first vertex *)
  Definition swap0 (t : tree) : tree := Tree (swap2 [] (t_unc t) 0) (t_coup t) (swap2 false (t_dual t) 0) (t_inner t) (t_mult t).
  Lemma braid_0 t over dc : braid S o R C small t 0 over dc =
    match vertex_labels t 0 with (a, b, mu, c) => [(swap0 t, cj dc (if over then R a b c mu else oconj o (R b a c mu)))] end.
  Proof. unfold braid. cbn [Nat.eqb]. unfold vertex_labels, swap0, swap2, cj. cbn [Nat.eqb Nat.add]. reflexivity. Qed.
  Lemma swap0_ok t : tree_ok t -> 2 <= num_uncoupled t -> tree_ok (swap0 t).
  Proof.
    intros OK H2. apply tree_ok_path in OK; [|exact H2]. destruct OK as (V & LD & P).
    destruct t as [unc coup dual inner mult]. unfold num_uncoupled in *. cbn [t_unc t_coup t_dual t_inner t_mult] in *. destruct unc as [|a [|b unc]]; cbn [length] in H2; try lia.
    apply tree_ok_path; [unfold num_uncoupled, swap0; cbn; lia|]. unfold swap0, num_uncoupled. cbn [t_unc t_coup t_dual t_inner t_mult]. rewrite !swap2_length.
    cbn [swap2 nth upd Nat.add hd tl] in *. inversion V as [|? ? Va V']; subst. inversion V' as [|? ? Vb V'']; subst. split; [auto|]. split; [exact LD|].
    assert (SW : forall e mu, In e (out a b) -> mu < sym_n S a b e -> In e (out b a) /\ mu < sym_n S b a e).
    { intros e mu E1 E2. apply (n_symbol_lt S b a e mu). rewrite <- (fr_comm RING Va Vb (fr_closed RING Va Vb E1)). now apply n_symbol_lt. }
    inversion P; subst.
    - destruct (SW coup mu) as [Q1 Q2]; try assumption. now apply path_one.
    - destruct (SW e mu) as [Q1 Q2]; try assumption. now apply path_cons.
  Qed.
  Lemma swap0_swap0 t : tree_ok t -> 2 <= num_uncoupled t -> swap0 (swap0 t) = t.
  Proof.
    intros OK H2. apply tree_ok_path in OK; [|exact H2]. destruct OK as (_ & LD & _). unfold num_uncoupled in *. unfold swap0. cbn [t_unc t_coup t_dual t_inner t_mult].
    rewrite !swap2_swap2 by lia. now destruct t.
  Qed.

  (** ** results of braid *)
  Lemma braid_valid t j over dc : tree_ok t -> j + 1 < num_uncoupled t ->
    NoDup (map fst (braid S o R C small t j over dc)) /\
    forall u x, In (u, x) (braid S o R C small t j over dc) ->
      tree_ok u /\ t_unc u = swap2 [] (t_unc t) j /\ t_dual u = swap2 false (t_dual t) j /\ t_coup u = t_coup t.
  Proof.
    intros OK H2. destruct (Nat.eq_dec j 0) as [->|NZ].
    - rewrite braid_0. destruct (vertex_labels t 0) as [[[a b] mu] c]. split; [constructor; [intros []|constructor]|]. intros u x [E|[]]. inversion E; subst.
      split; [apply swap0_ok; [exact OK|lia]|]. auto.
    - assert (H1 : 1 <= j) by lia. assert (SH := tree_ok_bshape OK H1 H2). rewrite (braid_eq over dc SH).
      destruct (tree_ok_labels OK H1 H2) as (Va & Vb & Vc & Vd & _). split.
      + assert (NDm : forall (l : list (tree * K)) q, NoDup (map fst l) -> NoDup (map fst (filter q l))).
        { induction l as [|y l IH]; intros q ND; [exact ND|]. cbn [map filter] in *. inversion ND; subst. destruct (q y); [|now apply IH]. cbn [map]. constructor; [|now apply IH].
          intros I. match goal with H : ~ In _ _ |- _ => apply H end. apply in_map_iff in I. destruct I as (z & <- & I). apply filter_In in I. apply in_map. apply I. }
        apply NDm. rewrite map_map. cbn [fst]. apply NoDup_map_inj; [|now apply vidx_NoDup]. intros p q _ _ E. now apply (btree_inj SH).
      + intros u x H. apply filter_In in H. destruct H as [H _]. apply in_map_iff in H. destruct H as (p & E & Hp). inversion E; subst.
        split; [now apply btree_ok|]. rewrite btree_unc, btree_dual, btree_coup. auto.
  Qed.

  (** ** braiding back *)
  Hypothesis RU : R_unitary S o R.
  Hypothesis CU : C_unitary S o C.
  Hypothesis SM : forall x, small x = true -> x = o0 o.
  Lemma cj_mul dc x y : cj dc x ** cj dc y = cj dc (x ** y).
  Proof. destruct dc; [symmetry; apply (st_mul ST)|reflexivity]. Qed.
  Lemma cj_sum dc A (f : A -> K) l : osum o (map (fun x => cj dc (f x)) l) = cj dc (osum o (map f l)).
  Proof. destruct dc; [symmetry; apply (conj_sum ST)|reflexivity]. Qed.
  Lemma cj_delta dc (b : bool) : cj dc (if b then o1 o else o0 o) = if b then o1 o else o0 o.
  Proof. destruct dc, b; cbn; auto using (conj_1 ST), (conj_0 ST). Qed.
  Lemma coef_filter l u : coef o (filter (fun y => negb (small (snd y))) l) u = coef o l u.
  Proof.
    unfold coef. apply (sum_filter_zero ST). intros x _ E. apply Bool.negb_false_iff in E. apply SM in E. destruct (tree_eqb (fst x) u); [exact E|reflexivity].
  Qed.
  Lemma braid_inverse t j over dc u : tree_ok t -> j + 1 < num_uncoupled t ->
    coef o (extend_linear o (fun v => braid S o R C small v j (negb over) dc) (braid S o R C small t j over dc)) u =
    if tree_eqb t u then o1 o else o0 o.
  Proof.
    intros OK H2. destruct (Nat.eq_dec j 0) as [->|NZ].
    - rewrite (coef_extend ST), braid_0. destruct (vertex_labels t 0) as [[[a b] mu] c] eqn:VL. cbn [map fst snd]. rewrite braid_0.
      assert (H2' : 2 <= num_uncoupled t) by lia.
      assert (VL' : vertex_labels (swap0 t) 0 = (b, a, mu, c)).
      { unfold vertex_labels, swap0, num_vertices, num_uncoupled in *. cbn [t_unc t_coup t_inner t_mult Nat.eqb]. rewrite swap2_length. 
        destruct (t_unc t) as [|x [|y l]]; cbn [length] in H2'; try lia. cbn [swap2 nth upd Nat.add Nat.eqb] in *. inversion VL; subst. reflexivity. }
      rewrite VL'. rewrite (swap0_swap0 OK H2'). unfold coef. cbn [map fst snd osum fold_right].
      assert (RR : (if over then R a b c mu else oconj o (R b a c mu)) ** (if negb over then R b a c mu else oconj o (R a b c mu)) = o1 o).
      { assert (VU : forall n, n < num_uncoupled t -> valid (nth n (t_unc t) [])).
        { intros n Hn. destruct OK as [V _]. rewrite Forall_forall in V. apply V, nth_In. exact Hn. }
        apply (test_sanity_iff RING) in OK. unfold test_sanity in OK. rewrite !Bool.andb_true_iff in OK. destruct OK as ((_ & _) & HV). rewrite forallb_forall in HV.
        assert (OK' := HV 0 ltac:(apply in_seq; unfold num_vertices; lia)). rewrite VL in OK'. rewrite Bool.andb_true_iff, !Nat.ltb_lt in OK'. destruct OK' as [_ MU].
        assert (Va : valid a). { unfold vertex_labels in VL. inversion VL. apply VU. lia. }
        assert (Vb : valid b). { unfold vertex_labels in VL. inversion VL. apply VU. lia. }
        assert (HC : In c (out a b)) by (apply (n_symbol_pos c RING Va Vb); lia). assert (Vc := fr_closed RING Va Vb HC).
        destruct over; cbn [negb].
        - rewrite (RU Va Vb HC MU). reflexivity.
        - assert (HC' : In c (out b a)) by (apply (Permutation_in _ (out_comm RING Va Vb)); exact HC).
          rewrite (fr_comm RING Va Vb Vc) in MU. rewrite <- (RU Vb Va HC' MU). ring. }
      destruct (tree_eqb t u); [|ring]. transitivity (cj dc (o1 o)); [rewrite <- RR, <- cj_mul; ring|exact (cj_delta dc true)].
    - assert (H1 : 1 <= j) by lia. assert (SH := tree_ok_bshape OK H1 H2). destruct (tree_ok_labels OK H1 H2) as (Va & Vb & Vc & Vd & HL).
      rewrite (coef_extend ST). rewrite (braid_eq over dc SH).
      set (a := alab t j) in *. set (b := nth j (t_unc t) []) in *. set (c := nth (j + 1) (t_unc t) []) in *. set (d := dlab t j) in *. set (i0 := llab t j) in *.
      assert (BI : btree (btree t j i0) j i0 = t) by apply (btree_id SH).
      rewrite (sum_filter_zero ST).
      2:{ intros x _ E. apply Bool.negb_false_iff in E. apply SM in E. rewrite E. ring. }
      rewrite map_map. cbn [fst snd].
      assert (IN : forall p, coef o (braid S o R C small (btree t j p) j (negb over) dc) u =
        coef o (map (fun i => (btree (btree t j i0) j i, bcoef (negb over) dc a c b d p i)) (vidx S a b c d)) u).
      { intros p. rewrite (braid_eq (negb over) dc (btree_shape SH p)). rewrite coef_filter. rewrite (btree_a SH), (btree_d SH), (btree_l SH), btree_unc, (swap_nth_j SH), (swap_nth_j1 SH).
        f_equal. apply map_ext. intros i. f_equal. apply (btree_btree SH). }
      destruct (in_dec tree_dec u (map (fun i => btree (btree t j i0) j i) (vidx S a b c d))) as [Hu|Hu].
      + apply in_map_iff in Hu. destruct Hu as (i & <- & Hi).
        transitivity (osum o (map (fun p => cj dc ((if over then Cmat C a b c d i0 p else oconj o (Cmat C a c b d p i0)) **
             (if negb over then Cmat C a c b d p i else oconj o (Cmat C a b c d i p)))) (vidx S a c b d))).
        { apply sum_ext. intros p _. rewrite IN. rewrite (coef_family ST (T := fun i => btree (btree t j i0) j i) (fun i => bcoef (negb over) dc a c b d p i)
             (vidx_NoDup RING c d Va Vb) Hi).
          - unfold bcoef. now rewrite cj_mul.
          - intros k k' _ _ E. apply (btree_inj (btree_shape SH i0)) in E. exact E. }
        rewrite cj_sum. transitivity (if vidx_eqb i0 i then o1 o else o0 o).
        * rewrite <- (cj_delta dc). f_equal. destruct over; cbn [negb].
          -- apply (proj1 (C_unitary_iff S ST C) CU a b c d Va Vb Vc Vd i0 i HL Hi).
          -- apply (C_cols ST RING CU Va Vc Vb Vd HL Hi).
        * destruct (vidx_eqb i0 i) eqn:E.
          -- apply vidx_eqb_eq in E. subst i. rewrite BI. now replace (tree_eqb t t) with true by (symmetry; now apply tree_eqb_eq).
          -- destruct (tree_eqb t (btree (btree t j i0) j i)) eqn:E'; [|reflexivity]. apply tree_eqb_eq in E'. rewrite <- BI in E' at 1.
             apply (btree_inj (btree_shape SH i0)) in E'. rewrite (proj2 (vidx_eqb_eq i0 i)) in E; [discriminate|exact E'].
      + rewrite (sum_zero (st_semi ST)).
        * destruct (tree_eqb t u) eqn:E; [|reflexivity]. apply tree_eqb_eq in E. exfalso. apply Hu. apply in_map_iff. exists i0. split; [now rewrite BI|exact HL].
        * intros p _. rewrite IN. rewrite (coef_notin ST); [ring|]. rewrite map_map. exact Hu.
  Qed.
End Br.
