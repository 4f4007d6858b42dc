(** One instruction: which trees it produces. *)
From Verif Require Import Util SymModel SymProofs RowModel RowProofs CatSpec Sums StarMat SpaceModel TreeModel TreeProofs TreeProofs3 TreeProofs4 TreeProofs5 TreeProofs7 TreeProofs8 MappingModel MappingProofs PermLegsModel PermLegsSpec PermLegsProofs PermLegsProofs2 MoveModel FtMapModel FtMapSpec FtMapProofs7 FtMapProofs8.
Set Implicit Arguments. Unset Strict Implicit.
Open Scope nat_scope.

Lemma last_map (A B : Type) (f : A -> B) l d d' : l <> [] -> last (map f l) d' = f (last l d).
Proof. induction l as [|a l IH]; intros N; [easy|]. destruct l as [|b l]; [reflexivity|]. change (last (map f (b :: l)) d' = f (last (b :: l) d)). apply IH. discriminate. Qed.
Lemma exchange_inv (l : list nat) i a b l' : exchange l i = Some (a, b, l') -> i + 1 < length l /\ a = nth i l 0 /\ b = nth (i + 1) l 0 /\ forall (B : Type) (f : nat -> B) d, map f l' = swap2 d (map f l) i.
Proof.
  unfold exchange. intros E. destruct (skipn i l) as [|x [|y t]] eqn:SK; try discriminate. injection E as <- <- <-.
  assert (L : length (skipn i l) = length l - i) by apply skipn_length. rewrite SK in L. cbn [length] in L. assert (EL : l = firstn i l ++ x :: y :: t) by (rewrite <- SK; symmetry; apply firstn_skipn).
  assert (L1 : length (firstn i l) = i) by (rewrite firstn_length; lia). split; [lia|]. set (l1 := firstn i l) in *. clearbody l1. clear SK L. subst l i.
  split; [rewrite app_nth2 by lia; now rewrite Nat.sub_diag|]. split; [rewrite app_nth2 by lia; replace (length l1 + 1 - length l1) with 1 by lia; reflexivity|].
  intros B f d. apply list_eq_nth with (d := d); [now rewrite swap2_length, !map_length, !app_length|]. intros n Hn. rewrite map_length, app_length in Hn. cbn [length] in Hn. rewrite swap2_nth by (rewrite map_length, app_length; cbn [length]; lia).
  rewrite !map_app. cbn [map]. destruct (Nat.eqb_spec n (length l1)) as [ -> |N1].
  - rewrite !app_nth2 by (rewrite map_length; lia). rewrite map_length, Nat.sub_diag. replace (length l1 + 1 - length l1) with 1 by lia. reflexivity.
  - destruct (Nat.eqb_spec n (length l1 + 1)) as [ -> |N2].
    + rewrite !app_nth2 by (rewrite map_length; lia). rewrite map_length, Nat.sub_diag. replace (length l1 + 1 - length l1) with 1 by lia. reflexivity.
    + destruct (Nat.lt_ge_cases n (length l1)).
      * now rewrite !app_nth1 by (rewrite map_length; lia).
      * rewrite !app_nth2 by (rewrite map_length; lia). rewrite map_length. destruct (n - length l1) as [|[|k]] eqn:EN; [lia|lia|reflexivity].
Qed.

(** ** sorting indices *)
Lemma insert_nat_perm x l : Permutation (insert_nat x l) (x :: l).
Proof. induction l as [|y l IH]; [reflexivity|]. cbn [insert_nat]. destruct (x <=? y); [reflexivity|]. rewrite IH. apply perm_swap. Qed.
Lemma sort_nat_perm l : Permutation (sort_nat l) l.
Proof. induction l as [|x l IH]; [reflexivity|]. cbn [sort_nat fold_right]. change (fold_right insert_nat [] l) with (sort_nat l). rewrite insert_nat_perm. now constructor. Qed.
Lemma insert_nat_sorted x l : StronglySorted le l -> StronglySorted le (insert_nat x l).
Proof.
  induction l as [|y l IH]; intros H; [repeat constructor|]. cbn [insert_nat]. apply StronglySorted_inv in H. destruct H as [H1 H2]. destruct (Nat.leb_spec x y).
  - constructor; [now constructor|]. constructor; [assumption|]. eapply Forall_impl; [|exact H2]. cbn. intros. lia.
  - constructor; [now apply IH|]. rewrite Forall_forall in *. intros z Hz. apply (Permutation_in _ (insert_nat_perm x l)) in Hz. destruct Hz as [ <- |Hz]; [lia|auto].
Qed.
Lemma sort_nat_sorted l : StronglySorted le (sort_nat l).
Proof. induction l as [|x l IH]; [constructor|]. cbn [sort_nat fold_right]. now apply insert_nat_sorted. Qed.
Lemma sorted_le_unique l : forall l', StronglySorted le l -> StronglySorted le l' -> Permutation l l' -> l = l'.
Proof.
  induction l as [|x l IH]; intros l' H H' P; [apply Permutation_nil in P; now subst|]. destruct l' as [|y l']; [apply Permutation_sym, Permutation_nil in P; discriminate|].
  apply StronglySorted_inv in H. destruct H as [H1 H2]. apply StronglySorted_inv in H'. destruct H' as [H1' H2']. rewrite Forall_forall in *.
  assert (x = y). { assert (Ix := Permutation_in x P (or_introl eq_refl)). assert (Iy := Permutation_in y (Permutation_sym P) (or_introl eq_refl)). destruct Ix as [E|Ix]; [now symmetry|]. destruct Iy as [E|Iy]; [exact E|]. assert (x <= y) by auto. assert (y <= x) by auto. lia. }
  subst y. f_equal. apply IH; auto. now apply Permutation_cons_inv in P.
Qed.
Lemma sort_nat_seq n l : is_perm n l -> sort_nat l = seq 0 n.
Proof.
  intros H. apply sorted_le_unique; [apply sort_nat_sorted| |rewrite sort_nat_perm; exact H].
  clear. generalize 0. induction n as [|n IH]; intros s; [constructor|]. cbn [seq]. constructor; [apply IH|]. rewrite Forall_forall. intros x Hx. apply in_seq in Hx. lia.
Qed.
Lemma strictly_up_seq n : forall s, strictly_up (seq s n) = true.
Proof. induction n as [|n IH]; intros s; [reflexivity|]. cbn [seq strictly_up]. destruct n; [reflexivity|]. cbn [seq]. rewrite (proj2 (Nat.ltb_lt _ _)) by lia. exact (IH (Datatypes.S s)). Qed.
Lemma seq_eqb_seq n : forall s, forallb (fun p => fst p =? snd p) (combine (seq s n) (seq s n)) = true.
Proof. induction n as [|n IH]; intros s; [reflexivity|]. cbn [seq combine forallb fst snd]. now rewrite Nat.eqb_refl, IH. Qed.

Section Step.
  Variable S : symmetry.
  Hypothesis RING : fusion_ring S.
  Variable K : Type.
  Variable o : ops K.
  Hypothesis ST : star_laws o.
  Variable B : Bsym K.
  Variables sqrt_qdim inv_sqrt_qdim fs theta : sector -> K.
  Variable trivial_braid : bool.
  Variable R : Rsym K.
  Variable C : Fsym K.
  Variable small : K -> bool.
  Notation braid_tree := (braid_tree S o R C small).
  Notation twist_tree := (twist o theta trivial_braid).
  Notation bend_pair := (fun X Y down => bend_leg S o B sqrt_qdim inv_sqrt_qdim fs X Y down false).
  Notation move := (move braid_tree twist_tree bend_pair).

  (** the sector and the duality flag of every leg, flowing out of the tensor; legs in the domain have the dual ones *)
  Variables (sec : nat -> sector) (dual : nat -> bool).
  Hypothesis VAL : forall l, sym_valid S (sec l) = true.
  Definition tree_at (t : tree) (legs : list nat) : Prop := tree_ok S t /\ t_unc t = map sec legs /\ t_dual t = map dual legs.
  Definition tree_at' (t : tree) (legs : list nat) : Prop := tree_ok S t /\ t_unc t = map (fun l => sym_dual S (sec l)) legs /\ t_dual t = map (fun l => negb (dual l)) legs.
  Definition pair_at (st : list nat * list nat) (XY : tree * tree) : Prop := tree_at (fst XY) (fst st) /\ tree_at' (snd XY) (snd st) /\ t_coup (fst XY) = t_coup (snd XY).

  Lemma twist_result t idcs over : (length idcs = 1 \/ is_perm (length idcs) idcs) -> forallb (fun k => k <? num_uncoupled t) idcs = true -> exists c, twist_tree t idcs over = Some [(t, c)].
  Proof.
    intros SUP FB. unfold twist. destruct trivial_braid; [eauto|]. destruct idcs as [|i [|j idcs]]; [eauto| |].
    - cbn [forallb] in FB. rewrite andb_true_r in FB. rewrite FB. eauto.
    - set (l := i :: j :: idcs) in *. rewrite FB. cbn [negb]. destruct SUP as [E|P]; [discriminate|]. rewrite (sort_nat_seq P), strictly_up_seq. cbn [negb]. rewrite seq_length, seq_eqb_seq. destruct (length l =? num_uncoupled t); eauto.
  Qed.

  Lemma braid_at (f : nat -> sector) (g : nat -> bool) t legs idx a b legs' over dc : tree_ok S t -> t_unc t = map f legs -> t_dual t = map g legs -> exchange legs idx = Some (a, b, legs') ->
    exists r, braid_tree t idx over dc = Some r /\ NoDup (map fst r) /\ forall u, In u (map fst r) -> tree_ok S u /\ t_unc u = map f legs' /\ t_dual u = map g legs' /\ t_coup u = t_coup t.
  Proof.
    intros TO EU ED EX. destruct (exchange_inv EX) as (LT & _ & _ & SW). assert (H : idx + 1 < num_uncoupled t) by (unfold num_uncoupled; rewrite EU, map_length; exact LT).
    unfold MoveModel.braid_tree. rewrite (proj2 (Nat.ltb_lt _ _) H). eexists. split; [reflexivity|]. destruct (braid_valid o RING R C small over dc TO H) as [ND V]. split; [exact ND|].
    intros u I. apply in_map_iff in I. destruct I as [[u' x] [ <- I]]. destruct (V _ _ I) as (V1 & V2 & V3 & V4). cbn [fst]. split; [exact V1|]. rewrite V2, V3, EU, ED. rewrite (SW _ f []), (SW _ g false). auto.
  Qed.

  Lemma trivial_outcome a : sym_valid S a = true -> In (sym_trivial S) (sym_outcomes S a (sym_dual S a)) /\ 0 < sym_n S a (sym_dual S a) (sym_trivial S).
  Proof.
    intros V. assert (V' := fr_dual_valid RING V). assert (E := fr_dual RING V V'). rewrite (proj2 (row_eqb_eq _ _) eq_refl) in E. unfold n_symbol in E. destruct (can_fuse_to S a (sym_dual S a) (sym_trivial S)) eqn:CF; [|discriminate].
    split; [|lia]. unfold can_fuse_to in CF. apply existsb_exists in CF. destruct CF as [c [I E']]. apply row_eqb_eq in E'. now subst.
  Qed.
  Lemma fuse_trivial a b : sym_valid S a = true -> sym_valid S b = true -> In (sym_trivial S) (sym_outcomes S a b) -> a = sym_dual S b.
  Proof.
    intros Va Vb I. assert (E := fr_dual RING Va Vb). assert (P := fr_pos RING Va Vb I). unfold n_symbol in E. assert (CF : can_fuse_to S a b (sym_trivial S) = true) by (unfold can_fuse_to; apply existsb_exists; eexists; split; [exact I|now apply row_eqb_eq]).
    rewrite CF in E. destruct (row_eqb b (sym_dual S a)) eqn:EB; [|lia]. apply row_eqb_eq in EB. subst b. symmetry. apply (fr_dual_invol RING Va).
  Qed.
  Lemma n_symbol_lt a b c nu : nu < n_symbol S a b c -> In c (sym_outcomes S a b) /\ nu < sym_n S a b c.
  Proof.
    unfold n_symbol. destruct (can_fuse_to S a b c) eqn:CF; [|lia]. intros H. split; [|exact H]. unfold can_fuse_to in CF. apply existsb_exists in CF. destruct CF as [c' [I E']]. apply row_eqb_eq in E'. now subst.
  Qed.

  Lemma path_snoc us : forall a inners mus c z e mu, us <> [] -> path S a (us ++ [z]) (inners ++ [e]) (mus ++ [mu]) c -> In c (sym_outcomes S e z) /\ mu < sym_n S e z c.
  Proof.
    intros a inners mus c z e mu N P. destruct (path_lengths P) as (_ & LI & LM). rewrite !app_length in LI, LM. cbn [length] in LI, LM. assert (length us <> 0) by now destruct us.
    apply (@path_app S us) in P; [|exact N|discriminate|lia|lia]. destruct P as [_ P]. inversion P; subst. auto.
  Qed.
  Lemma bottom_vertex r z mu c d t : tree_ok S r -> 1 <= num_uncoupled r -> tree_ok S t -> extended r z mu c d = Some t -> In (t_coup t) (sym_outcomes S (t_coup r) z) /\ mu < sym_n S (t_coup r) z (t_coup t).
  Proof.
    intros TR N TT E. unfold extended in E. replace (num_uncoupled r =? 0) with false in E by (symmetry; apply Nat.eqb_neq; lia). cbn [andb] in E. injection E as <-. cbn [t_coup].
    apply tree_ok_path in TT; [|unfold num_uncoupled in *; cbn [t_unc]; rewrite app_length; cbn [length]; lia]. cbn [t_unc t_inner t_mult t_coup] in TT. destruct TT as (_ & _ & P).
    destruct (tree_cases TR) as [ET|[(a & d0 & ET)|(a & us & c0 & du & inn & mus & ET & L & P0)]]; subst r; cbn [t_unc t_coup t_inner t_mult num_uncoupled length] in *; [cbn in N; lia| |].
    - cbn in P. inversion P; subst. auto.
    - assert (NE : us <> []) by (intros ->; now apply (path_nil (S := S)) in P0). cbn [hd tl app] in P. destruct us as [|u0 us0]; [easy|]. cbn [length] in P.
      exact (path_snoc NE P).
  Qed.
  Lemma coup_valid t : tree_ok S t -> sym_valid S (t_coup t) = true.
  Proof.
    intros TR. destruct (tree_cases TR) as [ET|[(a & d0 & ET)|(a & us & c0 & du & inn & mus & ET & L & P0)]]; subst t; cbn [t_coup]; [apply (fr_trivial_valid RING)| |]; destruct TR as [V _]; cbn [t_unc] in V; apply Forall_cons_iff in V; destruct V as [V1 V2]; [exact V1|].
    exact (proj2 (path_valid RING P0 V1 V2)).
  Qed.

  (** bending the last leg of Y down; the sectors of X are [f] and [g], those of Y their duals *)
  Lemma bend_down_at (f f' : nat -> sector) (g g' : nat -> bool) X Y lx ly x dc : (forall l, sym_valid S (f' l) = true) -> (forall l, f l = sym_dual S (f' l)) -> (forall l, g l = negb (g' l)) ->
    tree_ok S X -> t_unc X = map f lx -> t_dual X = map g lx -> tree_ok S Y -> t_unc Y = map f' (ly ++ [x]) -> t_dual Y = map g' (ly ++ [x]) -> t_coup X = t_coup Y ->
    exists r, bend_down S o B sqrt_qdim inv_sqrt_qdim fs X Y dc = Some r /\ NoDup (map fst r) /\ forall XY, In XY (map fst r) ->
      tree_ok S (fst XY) /\ t_unc (fst XY) = map f (lx ++ [x]) /\ t_dual (fst XY) = map g (lx ++ [x]) /\ tree_ok S (snd XY) /\ t_unc (snd XY) = map f' ly /\ t_dual (snd XY) = map g' ly /\ t_coup (fst XY) = t_coup (snd XY).
  Proof.
    intros VF EF EG TX UX DX TY UY DY EC. unfold bend_down. assert (NY : num_uncoupled Y = Datatypes.S (length ly)) by (unfold num_uncoupled; rewrite UY, map_length, app_length; cbn [length]; lia). rewrite NY. cbn [Nat.eqb].
    assert (LD : last (t_dual Y) false = g' x) by (rewrite DY, map_app; cbn [map]; apply last_last). rewrite LD. destruct ly as [|y0 ly0] eqn:ELY.
    - cbn [length Nat.eqb app map] in *. assert (CY : t_coup Y = f' x). { destruct TY as [_ V]. rewrite UY in V. inversion V; subst; [reflexivity|]. exfalso; match goal with H : path _ _ [] _ _ _ |- _ => now apply (path_nil (S := S)) in H end. }
      assert (UX' : t_unc X ++ [sym_dual S (f' x)] = map f (lx ++ [x])) by (rewrite map_app; cbn [map]; now rewrite UX, EF).
      assert (DX' : t_dual X ++ [negb (g' x)] = map g (lx ++ [x])) by (rewrite map_app; cbn [map]; now rewrite DX, EG).
      destruct (extended X (sym_dual S (t_coup Y)) 0 (sym_trivial S) (negb (g' x))) as [Z|] eqn:EX.
      2:{ unfold extended in EX. cbn [Nat.eqb negb] in EX. rewrite andb_false_r in EX. discriminate. }
      assert (EU : t_unc Z = t_unc X ++ [sym_dual S (t_coup Y)] /\ t_dual Z = t_dual X ++ [negb (g' x)] /\ t_coup Z = sym_trivial S).
      { unfold extended in EX. cbn [Nat.eqb negb] in EX. rewrite andb_false_r in EX. injection EX as <-. auto. } destruct EU as (EU1 & EU2 & EU3).
      eexists. split; [reflexivity|]. split; [repeat constructor; intros []|]. intros XY [ <- |[]]. cbn [fst snd]. split.
      { destruct (Nat.eq_dec (num_uncoupled X) 0) as [Z0|NZ].
        - destruct (tree_cases TX) as [ET|[(a & d & ET)|(a & us & c & du & inn & mus & ET & _)]]; subst X; try discriminate Z0. cbn [t_coup] in EC. unfold extended in EX. cbn in EX. rewrite <- EC, (fr_dual_trivial RING) in EX. injection EX as <-.
          split; [repeat constructor; apply (fr_trivial_valid RING)|]. apply vt_one.
        - destruct (extended_split_bottom TX (ltac:(lia)) EX) as (_ & _ & H). apply H; rewrite CY; [apply (fr_dual_valid RING); apply VF| |]; rewrite EC, CY; apply trivial_outcome; apply VF. }
      rewrite EU1, EU2, EU3, CY. rewrite UX', DX'. split; [reflexivity|]. split; [reflexivity|]. split; [split; [constructor|constructor]|]. auto.
    - rewrite <- ELY in *. assert (NL : length ly <> 0) by (rewrite ELY; discriminate). rewrite (proj2 (Nat.eqb_neq _ _) NL).
      assert (SB : exists v, split_bottom_vertex S Y = Some v). { unfold split_bottom_vertex. rewrite NY. destruct (length ly) as [|[|n]]; [easy|eauto|eauto]. }
      destruct SB as [[[[Xi c] mu] z] SB]. rewrite SB. destruct (split_bottom_extended TY SB) as (TXi & NXi & -> & EXi). rewrite LD in EXi.
      assert (NX1 : 1 <= num_uncoupled Xi) by lia.
      assert (EY : t_unc Y = t_unc Xi ++ [z] /\ t_dual Y = t_dual Xi ++ [g' x]). { unfold extended in EXi. destruct ((num_uncoupled Xi =? 0) && negb (mu =? 0)); [discriminate|]. injection EXi as <-. auto. }
      destruct EY as [EY1 EY2]. rewrite UY, map_app in EY1. cbn [map] in EY1. apply app_inj_tail in EY1. destruct EY1 as [EY1 EZ]. rewrite DY, map_app in EY2. cbn [map] in EY2. apply app_inj_tail in EY2. destruct EY2 as [EY2 _].
      destruct (bottom_vertex TXi NX1 TY EXi) as [BV1 BV2]. assert (VE := coup_valid TXi). assert (Vz : sym_valid S z = true) by (rewrite <- EZ; apply VF).
      destruct (num_uncoupled X =? 0) eqn:NX.
      + apply Nat.eqb_eq in NX. destruct (tree_cases TX) as [ET|[(a & d & ET)|(a & us & c & du & inn & mus & ET & _)]]; subst X; try discriminate NX. cbn [t_coup t_unc t_dual] in *. destruct lx; [|discriminate].
        rewrite <- EC in BV1. assert (EE := fuse_trivial VE Vz BV1). eexists. split; [reflexivity|]. split; [repeat constructor; intros []|]. intros XY [ <- |[]]. cbn [fst snd from_sector t_unc t_coup t_dual app map].
        split; [split; [cbn [t_unc]; repeat constructor; exact VE|apply vt_one]|]. split; [now rewrite EE, <- EZ, EF|]. split; [now rewrite EG|]. split; [exact TXi|]. auto.
      + apply Nat.eqb_neq in NX. match goal with |- context [all_some (map ?g0 (seq 0 _))] => set (gen := g0) end.
        assert (EXT : forall nu, nu < n_symbol S (t_coup Y) (sym_dual S z) (t_coup Xi) -> exists Z, extended X (sym_dual S z) nu (t_coup Xi) (negb (g' x)) = Some Z /\ tree_ok S Z /\ t_unc Z = map f (lx ++ [x]) /\ t_dual Z = map g (lx ++ [x]) /\ t_coup Z = t_coup Xi /\ last (t_mult Z) 0 = nu).
        { intros nu Hn. destruct (extended X (sym_dual S z) nu (t_coup Xi) (negb (g' x))) as [Z|] eqn:EX.
          2:{ exfalso. unfold extended in EX. rewrite (proj2 (Nat.eqb_neq _ _) NX) in EX. discriminate EX. }
          exists Z. split; [reflexivity|]. destruct (n_symbol_lt Hn) as [H1 H2]. rewrite <- EC in H1, H2. destruct (extended_split_bottom TX (ltac:(lia)) EX) as (_ & _ & H).
          split; [apply H; auto; apply (fr_dual_valid RING Vz)|]. unfold extended in EX. rewrite (proj2 (Nat.eqb_neq _ _) NX) in EX. cbn [andb] in EX. injection EX as <-. cbn [t_unc t_dual t_coup t_mult].
          rewrite !map_app. cbn [map]. rewrite UX, DX, EF, EG, EZ. rewrite last_last. auto. }
        assert (GEN : forall nu, nu < n_symbol S (t_coup Y) (sym_dual S z) (t_coup Xi) -> exists Z b, gen nu = Some ((Z, Xi), b) /\ tree_ok S Z /\ t_unc Z = map f (lx ++ [x]) /\ t_dual Z = map g (lx ++ [x]) /\ t_coup Z = t_coup Xi /\ last (t_mult Z) 0 = nu).
        { intros nu Hn. destruct (EXT nu Hn) as (Z & EZ1 & HZ). unfold gen. rewrite EZ1. eexists Z, _. split; [reflexivity|exact HZ]. }
        clearbody gen. clear EXT. destruct (all_some (map gen (seq 0 (n_symbol S (t_coup Y) (sym_dual S z) (t_coup Xi))))) as [r|] eqn:AS.
        2:{ exfalso. revert AS. apply all_some_total. intros nu I. apply in_seq in I. destruct (GEN nu) as (Z & b & E & _); [lia|]. rewrite E. discriminate. }
        apply all_some_spec in AS. exists r. split; [reflexivity|].
        assert (IR : forall XY, In XY (map fst r) -> exists nu, nu < n_symbol S (t_coup Y) (sym_dual S z) (t_coup Xi) /\ snd XY = Xi /\ tree_ok S (fst XY) /\ t_unc (fst XY) = map f (lx ++ [x]) /\ t_dual (fst XY) = map g (lx ++ [x]) /\ t_coup (fst XY) = t_coup Xi).
        { intros XY I. apply in_map_iff in I. destruct I as [e [ <- I]]. assert (HL : exists nu, In nu (seq 0 (n_symbol S (t_coup Y) (sym_dual S z) (t_coup Xi))) /\ gen nu = Some e).
          { clear -AS I. induction AS as [|a b l l' H AS IH]; [destruct I|]. destruct I as [ <- |I]; [exists a; split; [now left|exact H]|]. destruct (IH I) as (nu & J & E). exists nu. split; [now right|exact E]. }
          destruct HL as (nu & J & E). apply in_seq in J. destruct (GEN nu) as (Z & b & E' & H1 & H2 & H3 & H4 & _); [lia|]. rewrite E in E'. injection E' as ->. exists nu. cbn [fst snd]. split; [lia|]. auto. }
        split.
        * assert (LM : map (fun e => last (t_mult (fst (fst e))) 0) r = seq 0 (n_symbol S (t_coup Y) (sym_dual S z) (t_coup Xi))).
          { assert (GEN' : forall nu e, In nu (seq 0 (n_symbol S (t_coup Y) (sym_dual S z) (t_coup Xi))) -> gen nu = Some e -> last (t_mult (fst (fst e))) 0 = nu).
            { intros nu e I E. apply in_seq in I. destruct (GEN nu) as (Z & b & E' & _ & _ & _ & _ & H); [lia|]. rewrite E in E'. injection E' as ->. exact H. }
            clear -AS GEN'. revert GEN'. induction AS as [|a b l l' H AS IH]; intros GEN'; [reflexivity|]. cbn [map]. rewrite (GEN' a b) by (auto; now left). f_equal. apply IH. intros nu e I. apply GEN'. now right. }
          apply (NoDup_map_inv (fun XY : tree * tree => last (t_mult (fst XY)) 0)). rewrite map_map, LM. apply seq_NoDup.
        * intros XY I. destruct (IR XY I) as (nu & Hn & E & H1 & H2 & H3 & H4). rewrite E. split; [exact H1|]. split; [exact H2|]. split; [exact H3|]. split; [exact TXi|]. auto.
  Qed.

  Lemma step_at st i st' ev XY : exec1 st i = Some (st', ev) -> (forall c idcs over, i = Twist c idcs over -> length idcs = 1 \/ is_perm (length idcs) idcs) -> pair_at st XY ->
    exists r, move i XY = Some r /\ NoDup (map fst r) /\ forall XY', In XY' (map fst r) -> pair_at st' XY'.
  Proof.
    destruct st as [cod dom], XY as [X Y]. intros EX SUP ((TX & UX & DX) & (TY & UY & DY) & EC). cbn [fst snd] in *. destruct i as [[] idx over|[]|[] idcs over]; cbn [exec1 FtMapSpec.move] in *.
    - destruct (exchange cod idx) as [[[a b] cod']|] eqn:E; [|discriminate]. injection EX as <- _. destruct (@braid_at sec dual X cod idx a b cod' (negb over) true TX UX DX E) as (r & Er & ND & V).
      unfold left_map. cbn [fst snd]. rewrite Er. eexists. split; [reflexivity|]. rewrite map_map. cbn [fst]. split.
      + rewrite <- (map_map fst (fun x => (x, Y))). apply NoDup_map_inj; [|exact ND]. intros p q _ _ E'. congruence.
      + intros XY' I. apply in_map_iff in I. destruct I as [q [ <- I]]. destruct (V _ (in_map fst _ _ I)) as (V1 & V2 & V3 & V4). split; [split; auto|]. split; [split; auto|]. cbn [fst snd]. congruence.
    - destruct (exchange dom idx) as [[[a b] dom']|] eqn:E; [|discriminate]. injection EX as <- _. destruct (@braid_at _ _ Y dom idx a b dom' over false TY UY DY E) as (r & Er & ND & V).
      unfold right_map. cbn [fst snd]. rewrite Er. eexists. split; [reflexivity|]. rewrite map_map. cbn [fst]. split.
      + rewrite <- (map_map fst (fun x => (X, x))). apply NoDup_map_inj; [|exact ND]. intros p q _ _ E'. congruence.
      + intros XY' I. apply in_map_iff in I. destruct I as [q [ <- I]]. destruct (V _ (in_map fst _ _ I)) as (V1 & V2 & V3 & V4). split; [split; auto|]. split; [split; auto|]. cbn [fst snd]. congruence.
    - destruct (rev dom) as [|x r0] eqn:ER; [discriminate|]. injection EX as <- _. assert (ED : dom = rev r0 ++ [x]) by (rewrite <- (rev_involutive dom), ER; reflexivity). rewrite ED in UY, DY.
      destruct (@bend_down_at sec (fun l => sym_dual S (sec l)) dual (fun l => negb (dual l)) X Y cod (rev r0) x false) as (r & Er & ND & V); auto.
      { intros l. apply (fr_dual_valid RING). apply VAL. } { intros l. symmetry. apply (fr_dual_invol RING). apply VAL. } { intros l. now rewrite negb_involutive. }
      cbn [fst snd]. unfold bend_leg. rewrite Er. exists r. split; [reflexivity|]. split; [exact ND|]. intros XY' I. destruct (V _ I) as (V1 & V2 & V3 & V4 & V5 & V6 & V7). split; [split; auto|]. split; [split; auto|]. exact V7.
    - destruct (rev cod) as [|x r0] eqn:ER; [discriminate|]. injection EX as <- _. assert (ED : cod = rev r0 ++ [x]) by (rewrite <- (rev_involutive cod), ER; reflexivity). rewrite ED in UX, DX.
      destruct (@bend_down_at (fun l => sym_dual S (sec l)) sec (fun l => negb (dual l)) dual Y X dom (rev r0) x true) as (r & Er & ND & V); auto.
      cbn [fst snd]. unfold bend_leg. cbn [negb]. rewrite Er. eexists. split; [reflexivity|]. rewrite map_map. cbn [fst]. split.
      + rewrite <- (map_map fst (fun p : tree * tree => (snd p, fst p))). apply NoDup_map_inj; [|exact ND]. intros p q _ _ E'. injection E' as E1 E2. now apply injective_projections.
      + intros XY' I. apply in_map_iff in I. destruct I as [q [ <- I]]. destruct (V _ (in_map fst _ _ I)) as (V1 & V2 & V3 & V4 & V5 & V6 & V7). split; [split; auto|]. split; [split; auto|]. cbn [fst snd]. congruence.
    - destruct idcs as [|i0 idcs0] eqn:EI; [discriminate|]. rewrite <- EI in *. destruct (forallb (fun k => k <? length cod) idcs) eqn:FB; [|discriminate]. injection EX as <- _.
      assert (FB' : forallb (fun k => k <? num_uncoupled X) idcs = true) by (unfold num_uncoupled; rewrite UX, map_length; exact FB).
      destruct (twist_result over (SUP _ _ _ eq_refl) FB') as [c Ec]. unfold left_map. cbn [fst snd]. rewrite Ec. eexists. split; [reflexivity|]. split; [repeat constructor; intros []|]. intros XY' [ <- |[]]. split; [split; auto|]. split; [split; auto|]. exact EC.
    - destruct idcs as [|i0 idcs0] eqn:EI; [discriminate|]. rewrite <- EI in *. destruct (forallb (fun k => k <? length dom) idcs) eqn:FB; [|discriminate]. injection EX as <- _.
      assert (FB' : forallb (fun k => k <? num_uncoupled Y) idcs = true) by (unfold num_uncoupled; rewrite UY, map_length; exact FB).
      destruct (twist_result over (SUP _ _ _ eq_refl) FB') as [c Ec]. unfold right_map. cbn [fst snd]. rewrite Ec. eexists. split; [reflexivity|]. split; [repeat constructor; intros []|]. intros XY' [ <- |[]]. split; [split; auto|]. split; [split; auto|]. exact EC.
  Qed.
End Step.
