(** apply_instructions with a FactorizedTreeMapping. *)
From Verif Require Import Util StableSort RowModel RowProofs GridModel GridProofs SymModel SymProofs CatSpec Sums StarMat SpaceModel SpaceSpec SpaceProofs SpaceProofs2 SpaceProofs3 SpaceProofs7
  PipeModel PipeProofs PipeProofs4 TreeModel TreeProofs TreeProofs5 TensorModel TensorSpec FormalSum TensorProofs TensorProofs2 TensorProofs3 TensorProofs4 TensorProofs5 TensorProofs6 BlockModel BlockProofs
  SparseModel ConvertModel ConvertSpec ConvertProofs3 FtOpsModel FtOpsSpec FtOpsProofs2 FtOpsProofs3 FtOpsProofs4 MappingModel MappingProofs PermLegsModel PermLegsSpec MoveModel FtMapModel FtMapSpec FtMapProofs FtMapProofs2 FtMapProofs3 FtMapProofs4 FtMapProofs5 FtMapProofs6 FtMapProofs7 FtMapProofs8 FtMapProofs9 FtMapProofs10 FtMapProofs11 FtMapProofs12.
Set Implicit Arguments. Unset Strict Implicit.
Open Scope nat_scope.

(** ** The trees of one side *)
Section Side.
  Variable S : tsymm.
  Hypothesis OK : tsymm_ok S.
  Variable K : Type.
  Variable o : ops K.
  Variables (R : Rsym K) (C : Fsym K) (theta : sector -> K) (small : K -> bool) (trivial_braid : bool).
  Notation braid_tree := (braid_tree S o R C small).
  Notation twist_tree := (twist o theta trivial_braid).
  Variable A : tprod.
  Hypothesis HA : tp_ok S A.
  (** leg [l] is at position [pos l] of the legs of [A] *)
  Variable pos : nat -> nat.
  Notation nospace := (ES [] [] false None).
  Definition side_inv (legs : list nat) (X0 X : tree) : Prop :=
    (exists c, tree_of S A c X0 /\ t_coup X = c) /\ tree_ok S X /\ t_unc X = map (fun l => nth (pos l) (t_unc X0) []) legs /\ t_dual X = map (fun l => nth (pos l) (map es_dual (tp_flat_legs A)) false) legs.
  Lemma side_start legs c X : map pos legs = seq 0 (length (tp_flat_legs A)) -> tree_of S A c X -> side_inv legs X X.
  Proof.
    intros E T. split; [exists c; split; [exact T|apply (tree_of_coup T)]|]. split.
    - exact (tree_of_ok OK HA T).
    - assert (L := tree_of_len T). destruct T as [V _]. destruct (valid_tree_fields V) as (E1 & E2 & E3). rewrite E3. split.
      + rewrite <- (map_map pos (fun i => nth i (t_unc X) [])), E, <- L. symmetry. apply (take_seq []).
      + rewrite <- (map_map pos (fun i => nth i (map es_dual (tp_flat_legs A)) false)), E. rewrite <- (map_length es_dual (tp_flat_legs A)). symmetry. apply (take_seq false).
  Qed.
  Lemma side_braid legs idx a b legs' over dc X0 X : exchange legs idx = Some (a, b, legs') -> side_inv legs X0 X ->
    exists r, braid_tree X idx over dc = Some r /\ NoDup (map fst r) /\ forall y, In y (map fst r) -> side_inv legs' X0 y.
  Proof.
    intros E ((c & T & EC) & TO & U & D). destruct (@braid_at S (to_ring OK) K o R C small _ _ X legs idx a b legs' over dc TO U D E) as (r & Er & ND & H). exists r. split; [exact Er|]. split; [exact ND|].
    intros y I. destruct (H y I) as (H1 & H2 & H3 & H4). split; [exists c; split; [exact T|congruence]|]. auto.
  Qed.
  Lemma side_twist legs idcs over X0 X : (length idcs = 1 \/ is_perm (length idcs) idcs) -> forallb (fun k => k <? length legs) idcs = true -> side_inv legs X0 X ->
    exists r, twist_tree X idcs over = Some r /\ NoDup (map fst r) /\ forall y, In y (map fst r) -> side_inv legs X0 y.
  Proof.
    intros SUP FB IX. destruct (@twist_result K o theta trivial_braid X idcs over SUP) as [x E].
    - destruct IX as (_ & _ & U & _). unfold num_uncoupled. rewrite U, map_length. exact FB.
    - exists [(X, x)]. split; [exact E|]. split; [repeat constructor; intros []|]. intros y [ <- |[]]. exact IX.
  Qed.
  (** the legs at the end *)
  Variable A' : tprod.
  Lemma side_mults legs X0 X : (forall l, In l legs -> pos l < length (tp_flat_legs A)) -> tp_flat_legs A' = map (fun l => nth (pos l) (tp_flat_legs A) nospace) legs -> side_inv legs X0 X ->
    tree_mults S A' X = take 0 (tree_mults S A X0) (map pos legs).
  Proof.
    intros LT E ((c & T & _) & _ & U & _). unfold tree_mults at 1. rewrite E, U. unfold take. rewrite map_map.
    assert (L := tree_of_len T). revert LT. clear -L. induction legs as [|a l IH]; intros LT; [reflexivity|]. cbn [map combine fst snd]. rewrite IH by (intros; apply LT; now right). f_equal.
    unfold tree_mults. assert (La := LT a (or_introl eq_refl)). rewrite nth_map_lt with (d := (nospace, [])) by (rewrite combine_length; lia). rewrite combine_nth by (symmetry; exact L). reflexivity.
  Qed.
End Side.

(** ** Both sides *)
Section Sides.
  Variable K : Type.
  Variable o : ops K.
  Hypothesis SR : semi_ring_theory (o0 o) (o1 o) (oadd o) (omul o) (@eq K).
  Variable braid_tree : tree -> nat -> bool -> bool -> option (list (tree * K)).
  Variable twist_tree : tree -> list nat -> bool -> option (list (tree * K)).
  Variable bend_pair : tree -> tree -> bool -> option (list ((tree * tree) * K)).
  Notation move := (move braid_tree twist_tree bend_pair).
  Notation moved := (moved o braid_tree twist_tree bend_pair).
  Definition lstep (acc : list (tree * K)) (i : instruction) : list (tree * K) :=
    match i with
    | Braid true idx over => apply_linear o (fun X => braid_tree X idx (negb over) true) acc
    | Twist true idcs over => apply_linear o (fun X => twist_tree X idcs over) acc
    | _ => acc
    end.
  Definition rstep (acc : list (tree * K)) (i : instruction) : list (tree * K) :=
    match i with
    | Braid false idx over => apply_linear o (fun Y => braid_tree Y idx over false) acc
    | Twist false idcs over => apply_linear o (fun Y => twist_tree Y idcs over) acc
    | _ => acc
    end.
  Definition no_bend (i : instruction) : Prop := match i with Bend _ => False | _ => True end.
  Lemma moved_factor l : Forall no_bend l -> forall acc A B, (forall k, amount pair_dec o acc k = amount pair_dec o (tens o A B) k) ->
    forall k, amount pair_dec o (fold_left (fun acc i => apply_linear o (move i) acc) l acc) k = amount pair_dec o (tens o (fold_left lstep l A) (fold_left rstep l B)) k.
  Proof.
    induction 1 as [|i l NB _ IH]; intros acc A B H k; [apply H|]. cbn [fold_left]. apply IH. destruct i as [[] idx over|d|[] idcs over]; cbn [FtMapSpec.move lstep rstep]; try (now destruct NB);
      [apply (apply_left SR)|apply (apply_right SR)|apply (apply_left SR)|apply (apply_right SR)]; exact H.
  Qed.
  Lemma moved_product l X0 Y0 X Y : Forall no_bend l -> amount pair_dec o (moved l (X0, Y0)) (X, Y) = omul o (amount tree_dec o (fold_left lstep l [(X0, o1 o)]) X) (amount tree_dec o (fold_left rstep l [(Y0, o1 o)]) Y).
  Proof.
    intros NB. unfold FtMapSpec.moved. rewrite (@moved_factor l NB _ [(X0, o1 o)] [(Y0, o1 o)]); [apply (amount_tens SR)|]. intros k. unfold tens. cbn [flat_map map fst snd app]. unfold amount. cbn [map fst snd].
    rewrite (SRmul_1_l SR). reflexivity.
  Qed.

  Variable big : K -> bool.
  Hypothesis BIG : forall c, big c = false -> c = o0 o.
  Variable Pk : K -> Prop.
  Hypothesis P0 : Pk (o0 o).
  Hypothesis PA : forall a b, Pk a -> Pk b -> Pk (oadd o a b).
  Hypothesis PMu : forall a b, Pk a -> Pk b -> Pk (omul o a b).
  Hypothesis BR : forall X idx over dc r y c, braid_tree X idx over dc = Some r -> In (y, c) r -> Pk c.
  Hypothesis TW : forall X idcs over r y c, twist_tree X idcs over = Some r -> In (y, c) r -> Pk c.
  Variables InvL InvR : list nat -> tree -> tree -> Prop.
  Hypothesis BL : forall legs idx a b legs' over dc X0 X, exchange legs idx = Some (a, b, legs') -> InvL legs X0 X -> exists r, braid_tree X idx over dc = Some r /\ NoDup (map fst r) /\ forall y, In y (map fst r) -> InvL legs' X0 y.
  Hypothesis BRr : forall legs idx a b legs' over dc X0 X, exchange legs idx = Some (a, b, legs') -> InvR legs X0 X -> exists r, braid_tree X idx over dc = Some r /\ NoDup (map fst r) /\ forall y, In y (map fst r) -> InvR legs' X0 y.
  Hypothesis TL : forall legs idcs over X0 X, (length idcs = 1 \/ is_perm (length idcs) idcs) -> forallb (fun k => k <? length legs) idcs = true -> InvL legs X0 X -> exists r, twist_tree X idcs over = Some r /\ NoDup (map fst r) /\ forall y, In y (map fst r) -> InvL legs X0 y.
  Hypothesis TRr : forall legs idcs over X0 X, (length idcs = 1 \/ is_perm (length idcs) idcs) -> forallb (fun k => k <? length legs) idcs = true -> InvR legs X0 X -> exists r, twist_tree X idcs over = Some r /\ NoDup (map fst r) /\ forall y, In y (map fst r) -> InvR legs X0 y.
  Notation variant := (list tree + list (tree * list (tree * K)))%type.
  Record vstate (Inv : list nat -> tree -> tree -> Prop) (legs0 legs : list nat) (v : variant) (keys : list tree) (L : tree -> list (tree * K)) : Prop := {
    vs_rep : vrep o v keys L;
    vs_all : vall (Inv legs) v;
    vs_coefs : vcoefs Pk v;
    vs_id : match v with inl _ => legs = legs0 | inr _ => True end;
  }.
  Lemma vstate_prune Inv legs0 legs v keys L : vstate Inv legs0 legs v keys L -> vstate Inv legs0 legs (variant_prune big v) keys L.
  Proof. intros [H1 H2 H3 H4]. destruct (vprune BIG H1 H2 H3) as (G1 & G2 & G3). constructor; auto. now destruct v. Qed.
  Lemma vstate_compose (Inv : list nat -> tree -> tree -> Prop) l0 legs legs' v keys L f : vstate Inv l0 legs v keys L ->
    (forall k x, Inv legs k x -> exists r, f x = Some r /\ NoDup (map fst r) /\ (forall y, In y (map fst r) -> Inv legs' k y)) -> (forall x r y c, f x = Some r -> In (y, c) r -> Pk c) ->
    exists v', variant_compose o big v f = Some v' /\ vstate Inv l0 legs' v' keys (fun k => apply_linear o f (L k)).
  Proof.
    intros [H1 H2 H3 H4] HF HC. destruct (@vcompose K o SR big BIG Pk P0 PA PMu v keys L f (Inv legs) (Inv legs') H1 H2 H3) as (m' & E & G1 & G2 & G3).
    - intros k x Hk. destruct (HF k x Hk) as (r & Er & ND & HI). exists r. repeat split; auto. intros y c I. exact (HC x r y c Er I).
    - exists (inr m'). split; [exact E|]. now constructor.
  Qed.
  Lemma fact_steps l : forall cod dom ci di ev s f cod0 dom0 keysL keysR LL LR, exec (cod, dom) l = Some ((ci, di), ev) -> Forall no_bend l -> Forall supported l ->
    vstate InvL cod0 cod s keysL LL -> vstate InvR dom0 dom f keysR LR ->
    exists s' f', fold_left (fun sf i => match sf with Some sf => factorized_step o braid_tree twist_tree big sf i | None => None end) l (Some (s, f)) = Some (s', f') /\
      vstate InvL cod0 ci s' keysL (fun k => fold_left lstep l (LL k)) /\ vstate InvR dom0 di f' keysR (fun k => fold_left rstep l (LR k)).
  Proof.
    induction l as [|i l IH]; intros cod dom ci di ev s f cod0 dom0 keysL keysR LL LR EX NB SUP VL VR.
    - cbn [exec] in EX. injection EX as <- <- <-. exists s, f. auto.
    - cbn [exec] in EX. destruct (exec1 (cod, dom) i) as [[[cod1 dom1] ev1]|] eqn:E1; [|discriminate]. destruct (exec (cod1, dom1) l) as [[st2 ev2]|] eqn:E2; [|discriminate]. injection EX as -> _. inversion NB as [|? ? N1 N2]; inversion SUP as [|? ? S1 S2]; subst.
      cbn [fold_left]. destruct i as [[] idx over|d|[] idcs over]; cbn [exec1 factorized_step] in *; [| |destruct N1| |].
      + destruct (exchange cod idx) as [[[a b] cod']|] eqn:E; [|discriminate]. injection E1 as <- <- _.
        destruct (@vstate_compose InvL cod0 cod cod' s keysL LL (fun X => braid_tree X idx (negb over) true) VL) as (s' & Es & VL'); [intros k x Hk; exact (BL _ _ E Hk)|intros x r y c; apply BR|].
        rewrite Es. cbn [option_map]. exact (IH _ _ _ _ _ _ _ _ _ _ _ _ _ E2 N2 S2 VL' (vstate_prune VR)).
      + destruct (exchange dom idx) as [[[a b] dom']|] eqn:E; [|discriminate]. injection E1 as <- <- _.
        destruct (@vstate_compose InvR dom0 dom dom' f keysR LR (fun Y => braid_tree Y idx over false) VR) as (f' & Ef & VR'); [intros k x Hk; exact (BRr _ _ E Hk)|intros x r y c; apply BR|].
        rewrite Ef. cbn [option_map]. exact (IH _ _ _ _ _ _ _ _ _ _ _ _ _ E2 N2 S2 (vstate_prune VL) VR').
      + destruct idcs as [|i0 idcs]; [discriminate|]. set (ii := i0 :: idcs) in *. destruct (forallb _ ii) eqn:FB; [|discriminate]. injection E1 as <- <- _.
        destruct (@vstate_compose InvL cod0 cod cod s keysL LL (fun X => twist_tree X ii over) VL) as (s' & Es & VL'); [intros k x Hk; exact (TL _ S1 FB Hk)|intros x r y c; apply TW|].
        rewrite Es. cbn [option_map]. exact (IH _ _ _ _ _ _ _ _ _ _ _ _ _ E2 N2 S2 VL' (vstate_prune VR)).
      + destruct idcs as [|i0 idcs]; [discriminate|]. set (ii := i0 :: idcs) in *. destruct (forallb _ ii) eqn:FB; [|discriminate]. injection E1 as <- <- _.
        destruct (@vstate_compose InvR dom0 dom dom f keysR LR (fun Y => twist_tree Y ii over) VR) as (f' & Ef & VR'); [intros k x Hk; exact (TRr _ S1 FB Hk)|intros x r y c; apply TW|].
        rewrite Ef. cbn [option_map]. exact (IH _ _ _ _ _ _ _ _ _ _ _ _ _ E2 N2 S2 (vstate_prune VL) VR').
  Qed.
End Sides.
