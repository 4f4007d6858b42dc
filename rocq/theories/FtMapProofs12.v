(** FactorizedTreeMapping: one side at a time. *)
From Verif Require Import Util SymModel CatSpec Sums TreeModel TreeProofs5 MappingModel MappingProofs PermLegsModel PermLegsSpec MoveModel FtMapModel FtMapSpec FtMapProofs7 FtMapProofs8.
Set Implicit Arguments. Unset Strict Implicit.
Open Scope nat_scope.

Section Variant.
  Variable K : Type.
  Variable o : ops K.
  Hypothesis SR : semi_ring_theory (o0 o) (o1 o) (oadd o) (omul o) (@eq K).
  Add Ring Kr : SR.
  Variable big : K -> bool.
  Hypothesis BIG : forall c, big c = false -> c = o0 o.
  Notation tree_map := (list (tree * list (tree * K))).
  Notation variant := (list tree + tree_map)%type.
  Notation amount := (amount tree_dec o).
  Variable Pk : K -> Prop.
  Hypothesis P0 : Pk (o0 o).
  Hypothesis PA : forall a b, Pk a -> Pk b -> Pk (oadd o a b).
  Hypothesis PM : forall a b, Pk a -> Pk b -> Pk (omul o a b).

  Definition vrep (v : variant) (keys : list tree) (L : tree -> list (tree * K)) : Prop :=
    match v with
    | inl ks => (forall k, In k ks <-> In k keys) /\ NoDup ks /\ forall k i, In k keys -> amount (L k) i = if tree_dec k i then o1 o else o0 o
    | inr m => represents tree_dec o m keys L
    end.
  Definition vcoefs (v : variant) : Prop := match v with inl _ => True | inr m => coefs_in Pk m end.
  (** the trees reached from key [k] *)
  Definition vall (Inv : tree -> tree -> Prop) (v : variant) : Prop :=
    match v with inl ks => forall k, In k ks -> Inv k k | inr m => forall k col x, In (k, col) m -> In x (map fst col) -> Inv k x end.
  Lemma vall_rows Inv v x : vall Inv v -> In x (variant_rows v) -> exists k, Inv k x.
  Proof.
    destruct v as [ks|m]; cbn [vall variant_rows]; intros H I; [exists x; now apply H|]. unfold nonzero_rows in I. apply in_flat_map in I. destruct I as [[k col] [I J]]. exists k. now apply (H k col).
  Qed.
  Lemma vprune v keys L Inv : vrep v keys L -> vall Inv v -> vcoefs v -> vrep (variant_prune big v) keys L /\ vall Inv (variant_prune big v) /\ vcoefs (variant_prune big v).
  Proof.
    destruct v as [ks|m]; cbn [vrep vall vcoefs variant_prune]; [auto|]. intros [W KS EN] H C. split; [|split].
    - constructor; [now apply prune_wf'| |].
      + intros k. rewrite <- KS. unfold prune. rewrite map_map. reflexivity.
      + intros k i I. rewrite (prune_entry' tree_dec BIG k i W). now apply EN.
    - intros k col x I J. unfold prune in I. apply in_map_iff in I. destruct I as [[k' col'] [E I]]. injection E as <- <-. cbn [fst snd] in *. apply in_map_iff in J. destruct J as [e [ <- J]]. apply filter_In in J. apply (H k' col' _ I). apply in_map. apply J.
    - intros k col i c I J. unfold prune in I. apply in_map_iff in I. destruct I as [[k' col'] [E I]]. injection E as <- <-. cbn [fst snd] in *. apply filter_In in J. exact (C _ _ _ _ I (proj1 J)).
  Qed.
  Lemma vcompose v keys L (f : tree -> option (list (tree * K))) (Inv Inv' : tree -> tree -> Prop) : vrep v keys L -> vall Inv v -> vcoefs v ->
    (forall k x, Inv k x -> exists r, f x = Some r /\ NoDup (map fst r) /\ (forall y, In y (map fst r) -> Inv' k y) /\ forall y c, In (y, c) r -> Pk c) ->
    exists m', variant_compose o big v f = Some (inr m') /\ vrep (inr m') keys (fun k => apply_linear o f (L k)) /\ vall Inv' (inr m') /\ vcoefs (inr m').
  Proof.
    intros VR VA VC H. assert (D : forall x, In x (variant_rows v) -> f x <> None) by (intros x I; destruct (vall_rows VA I) as [k Hk]; destruct (H k x Hk) as (r & -> & _); discriminate).
    destruct (table_defined tree_dec D) as [T ET]. unfold variant_compose. rewrite ET. cbn [option_map variant_prune].
    assert (ND : forall x r, In x (variant_rows v) -> f x = Some r -> NoDup (map fst r)) by (intros x r I E; destruct (vall_rows VA I) as [k Hk]; destruct (H k x Hk) as (r' & E' & H' & _); congruence).
    assert (TC : coefs_in Pk T). { intros k col i c I J. destruct (table_spec ET) as [_ HT]. apply HT in I. destruct I as [I E]. destruct (vall_rows VA I) as [k0 Hk]. destruct (H k0 k Hk) as (r' & E' & _ & _ & H'). rewrite E in E'. injection E' as <-. exact (H' _ _ J). }
    eexists. split; [reflexivity|]. destruct v as [ks|m]; cbn [vrep vall vcoefs variant_rows] in *.
    - destruct VR as (KS & NK & EN). set (m := identity_pre_compose tree_dec ks T).
      assert (IM : forall k col, In (k, col) m <-> In k ks /\ f k = Some col).
      { intros k col. unfold m, identity_pre_compose. rewrite in_flat_map. split.
        - intros [k0 [I J]]. rewrite (table_find ET I) in J. destruct (f k0) as [r|] eqn:E; [|destruct J]. destruct J as [J|[]]. injection J as <- <-. auto.
        - intros [I E]. exists k. split; [exact I|]. rewrite (table_find ET I), E. now left. }
      assert (KM : map fst m = ks).
      { unfold m, identity_pre_compose. assert (G : forall l, incl l ks -> map fst (flat_map (fun k => match find tree_dec T k with Some s => [(k, s)] | None => [] end) l) = l); [|apply G, incl_refl].
        induction l as [|k l IH]; intros I; [reflexivity|]. cbn [flat_map]. assert (Ik : In k ks) by (apply I; now left). rewrite map_app, IH by (intros x Hx; apply I; now right). rewrite (table_find ET Ik). assert (Dk := D k Ik). now destruct (f k). }
      assert (WM : well_formed m). { split; [rewrite KM; exact NK|]. intros k col I. apply IM in I. exact (ND k col (proj1 I) (proj2 I)). }
      assert (VI : vrep (inr m) keys (fun k => apply_linear o f (L k)) /\ vall Inv' (inr m) /\ vcoefs (inr m)).
      { cbn [vrep vall vcoefs]. split; [|split].
        - constructor; [exact WM|intros k; rewrite KM; apply KS|]. intros k i Ik. assert (EK : forall j, amount (L k) j = amount [(k, o1 o)] j) by (intros j; rewrite EN by exact Ik; now rewrite (amount_one tree_dec SR)). rewrite (apply_ext SR f EK).
          unfold apply_linear. cbn [flat_map fst snd]. rewrite app_nil_r, (amount_scaled tree_dec SR). unfold entry. apply KS in Ik. assert (Dk := D k Ik). destruct (f k) as [r|] eqn:E; [|easy].
          rewrite (find_NoDup tree_dec (proj1 WM) (proj2 (IM k r) (conj Ik E))). unfold image. rewrite E. rewrite (amount_get tree_dec SR i (ND k r Ik E)). ring.
        - intros k col x I J. apply IM in I. destruct I as [I E]. destruct (H k k (VA k I)) as (r & E' & _ & HI & _). apply HI. congruence.
        - intros k col i c I J. apply IM in I. destruct I as [I E]. destruct (H k k (VA k I)) as (r & E' & _ & _ & HI). apply (HI i). congruence. }
      destruct VI as (V1 & V2 & V3). exact (vprune V1 V2 V3).
    - assert (RP := step_represents SR BIG VR ET ND). split; [exact RP|]. split.
      + intros k col' x I J. destruct (pre_compose_from SR I J) as (col & j & r & I1 & J1 & F1 & X1). assert (IR : In j (nonzero_rows m)) by (apply (in_rows I1); exact J1). rewrite (table_find ET IR) in F1.
        destruct (H k j (VA k col j I1 J1)) as (r' & Er' & _ & HI & _). apply HI. congruence.
      + apply pre_compose_coefs; auto.
  Qed.
  (** sums over the entries of a variant *)
  Lemma vsum v keys L (h : tree -> K) X' : vrep v keys L -> (match v with inl _ => ~ In X' keys -> h X' = o0 o | inr _ => True end) ->
    match v with inl _ => h X' | inr m => osum o (map (fun e => omul o (match find tree_dec (snd e) X' with Some c => c | None => o0 o end) (h (fst e))) m) end =
    osum o (map (fun k => omul o (amount (L k) X') (h k)) (nodup tree_dec keys)).
  Proof.
    destruct v as [ks|m]; cbn [vrep].
    - intros (KS & NK & EN) Z. transitivity (osum o (map (fun k => if tree_dec k X' then h k else o0 o) (nodup tree_dec keys))).
      + destruct (in_dec tree_dec X' keys) as [I|N].
        * rewrite (sum_single SR (NoDup_nodup tree_dec keys) (proj2 (nodup_In tree_dec keys X') I)); [destruct (tree_dec X' X'); [reflexivity|easy]|]. intros y _ Ny. destruct (tree_dec y X'); [easy|reflexivity].
        * rewrite Z by exact N. symmetry. apply (sum_zero SR). intros k I. apply nodup_In in I. destruct (tree_dec k X') as [ -> |]; [easy|reflexivity].
      + f_equal. apply map_ext_in. intros k I. apply nodup_In in I. rewrite EN by exact I. destruct (tree_dec k X'); ring.
    - intros RP _. apply (represents_sum SR); [|apply NoDup_nodup]. constructor; [apply (rp_wf RP)|intros k; rewrite nodup_In; apply (rp_keys RP)|intros k i I; apply nodup_In in I; apply (rp_entry RP i I)].
  Qed.
  (** amounts vanish outside of the reached trees *)
  Lemma vamount v keys L Inv k X' : vrep v keys L -> vall Inv v -> In k keys -> ~ Inv k X' -> amount (L k) X' = o0 o.
  Proof.
    destruct v as [ks|m]; cbn [vrep vall].
    - intros (KS & _ & EN) VA I N. rewrite EN by exact I. destruct (tree_dec k X') as [ <- |]; [|reflexivity]. exfalso. apply N, VA, KS, I.
    - intros RP VA I N. rewrite <- (rp_entry RP X' I). unfold entry. destruct (find tree_dec m k) as [col|] eqn:E; [|reflexivity]. destruct (find tree_dec col X') as [c|] eqn:E'; [|reflexivity].
      exfalso. apply N. apply (VA k col); [exact (find_In E)|]. exact (in_map fst _ _ (find_In E')).
  Qed.
End Variant.

(** ** Products of linear combinations *)
Section Tensor.
  Variable K : Type.
  Variable o : ops K.
  Hypothesis SR : semi_ring_theory (o0 o) (o1 o) (oadd o) (omul o) (@eq K).
  Add Ring Kr2 : SR.
  Definition tens (A B : list (tree * K)) : list ((tree * tree) * K) := flat_map (fun a => map (fun b => ((fst a, fst b), omul o (snd a) (snd b))) B) A.
  Lemma amount_tens A B X Y : amount pair_dec o (tens A B) (X, Y) = omul o (amount tree_dec o A X) (amount tree_dec o B Y).
  Proof.
    induction A as [|a A IH].
    - unfold amount at 1 2. cbn [tens flat_map map]. rewrite sum_nil. ring.
    - unfold tens. cbn [flat_map]. fold (tens A B). rewrite (amount_app pair_dec SR), IH. change (a :: A) with ([a] ++ A). rewrite (amount_app tree_dec SR [a]).
      assert (E : amount pair_dec o (map (fun b => ((fst a, fst b), omul o (snd a) (snd b))) B) (X, Y) = omul o (amount tree_dec o [a] X) (amount tree_dec o B Y)).
      { assert (E1 : amount tree_dec o [a] X = if tree_dec (fst a) X then snd a else o0 o) by (unfold amount; cbn [map]; rewrite sum_cons, sum_nil; ring). rewrite E1. clear -SR. unfold amount. rewrite map_map. cbn [fst snd].
        induction B as [|b B IH]; cbn [map]; rewrite ?sum_nil, ?sum_cons; [ring|]. rewrite IH. destruct (pair_dec (fst a, fst b) (X, Y)) as [E|N], (tree_dec (fst a) X) as [E1|N1], (tree_dec (fst b) Y) as [E2|N2]; try ring; exfalso; congruence. }
      rewrite E. ring.
  Qed.
  Lemma pairing_tens (g : tree -> K) (h : tree -> K) A B : osum o (map (fun p => omul o (omul o (g (fst (fst p))) (h (snd (fst p)))) (snd p)) (tens A B)) =
    omul o (osum o (map (fun a => omul o (g (fst a)) (snd a)) A)) (osum o (map (fun b => omul o (h (fst b)) (snd b)) B)).
  Proof.
    unfold tens. induction A as [|a A IH]; cbn [flat_map map]; [rewrite !sum_nil; ring|]. rewrite map_app, (sum_app SR), IH, sum_cons, map_map. cbn [fst snd].
    assert (E : osum o (map (fun b => omul o (omul o (g (fst a)) (h (fst b))) (omul o (snd a) (snd b))) B) = omul o (omul o (g (fst a)) (snd a)) (osum o (map (fun b => omul o (h (fst b)) (snd b)) B))).
    { rewrite <- (sum_mul_l SR). f_equal. apply map_ext. intros b. ring. } rewrite E. ring.
  Qed.
  Lemma image_left (f : tree -> option (list (tree * K))) X0 Y0 X Y : amount pair_dec o (image (left_map f) (X0, Y0)) (X, Y) = omul o (amount tree_dec o (image f X0) X) (if tree_dec Y0 Y then o1 o else o0 o).
  Proof.
    assert (E : amount pair_dec o (image (left_map f) (X0, Y0)) (X, Y) = amount pair_dec o (tens (image f X0) [(Y0, o1 o)]) (X, Y)).
    { unfold image, left_map. cbn [fst snd]. destruct (f X0) as [r|]; [|reflexivity]. cbn [option_map]. unfold tens. f_equal. induction r as [|q r IH]; [reflexivity|]. cbn [map flat_map app]. rewrite IH. f_equal. f_equal. cbn [snd fst]. ring. }
    rewrite E, amount_tens, (amount_one tree_dec SR). reflexivity.
  Qed.
  Lemma image_right (f : tree -> option (list (tree * K))) X0 Y0 X Y : amount pair_dec o (image (right_map f) (X0, Y0)) (X, Y) = omul o (if tree_dec X0 X then o1 o else o0 o) (amount tree_dec o (image f Y0) Y).
  Proof.
    assert (E : amount pair_dec o (image (right_map f) (X0, Y0)) (X, Y) = amount pair_dec o (tens [(X0, o1 o)] (image f Y0)) (X, Y)).
    { unfold image, right_map. cbn [fst snd]. destruct (f Y0) as [r|]; [|reflexivity]. cbn [option_map]. unfold tens. cbn [flat_map]. rewrite app_nil_r. f_equal. apply map_ext. intros q. cbn [fst snd]. f_equal. ring. }
    rewrite E, amount_tens, (amount_one tree_dec SR). reflexivity.
  Qed.
  Lemma pick_amount (Z : tree) (B : list (tree * K)) : osum o (map (fun b => omul o (if tree_dec (fst b) Z then o1 o else o0 o) (snd b)) B) = amount tree_dec o B Z.
  Proof. unfold amount. f_equal. apply map_ext. intros b. destruct (tree_dec (fst b) Z); ring. Qed.
  Lemma apply_left f A B acc : (forall k, amount pair_dec o acc k = amount pair_dec o (tens A B) k) -> forall k, amount pair_dec o (apply_linear o (left_map f) acc) k = amount pair_dec o (tens (apply_linear o f A) B) k.
  Proof.
    intros H [X Y]. rewrite (apply_ext SR (left_map f) H). rewrite (amount_apply pair_dec SR), amount_tens, (amount_apply tree_dec SR).
    rewrite <- (pick_amount Y B). rewrite <- (pairing_tens (fun X0 => amount tree_dec o (image f X0) X) (fun Y0 => if tree_dec Y0 Y then o1 o else o0 o)). f_equal. apply map_ext. intros [[X0 Y0] c]. cbn [fst snd]. now rewrite image_left.
  Qed.
  Lemma apply_right f A B acc : (forall k, amount pair_dec o acc k = amount pair_dec o (tens A B) k) -> forall k, amount pair_dec o (apply_linear o (right_map f) acc) k = amount pair_dec o (tens A (apply_linear o f B)) k.
  Proof.
    intros H [X Y]. rewrite (apply_ext SR (right_map f) H). rewrite (amount_apply pair_dec SR), amount_tens, (amount_apply tree_dec SR).
    rewrite <- (pick_amount X A). rewrite <- (pairing_tens (fun X0 => if tree_dec X0 X then o1 o else o0 o) (fun Y0 => amount tree_dec o (image f Y0) Y)). f_equal. apply map_ext. intros [[X0 Y0] c]. cbn [fst snd]. now rewrite image_right.
  Qed.
End Tensor.
