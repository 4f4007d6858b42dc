(** Sparse mappings as linear extensions. *)
From Verif Require Import Util SymModel CatSpec Sums TreeModel TreeProofs5 MappingModel MappingProofs PermLegsModel MoveModel FtMapModel FtMapSpec.
Set Implicit Arguments. Unset Strict Implicit.
Open Scope nat_scope.

Lemma all_some_spec (X Y : Type) (f : X -> option Y) l r : all_some (map f l) = Some r -> Forall2 (fun x y => f x = Some y) l r.
Proof.
  revert r. induction l as [|x l IH]; intros r; cbn [map all_some]; [intros [= <-]; constructor|]. destruct (f x) as [y|] eqn:E; [|discriminate]. destruct (all_some (map f l)) as [t|]; [|discriminate].
  intros [= <-]. constructor; auto.
Qed.
Lemma all_some_intro (X Y : Type) (f : X -> option Y) l r : Forall2 (fun x y => f x = Some y) l r -> all_some (map f l) = Some r.
Proof. induction 1 as [|x y l r E H IH]; [reflexivity|]. cbn [map all_some]. now rewrite E, IH. Qed.
Lemma all_some_total (X Y : Type) (f : X -> option Y) l : (forall x, In x l -> f x <> None) -> all_some (map f l) <> None.
Proof.
  induction l as [|x l IH]; intros H; [discriminate|]. cbn [map all_some]. assert (H1 := H x (or_introl eq_refl)). destruct (f x); [|easy]. assert (H2 := IH (fun y I => H y (or_intror I))). destruct (all_some (map f l)); [discriminate|easy].
Qed.

Section Table.
  Variables (X Y : Type) (dec : forall x y : X, {x = y} + {x <> y}).
  Lemma table_spec l (f : X -> option Y) T : table dec l f = Some T -> NoDup (map fst T) /\ (forall x y, In (x, y) T <-> In x l /\ f x = Some y).
  Proof.
    unfold table. intros E. apply all_some_spec in E. assert (ND := NoDup_nodup dec l).
    assert (G : forall l0 T0, Forall2 (fun x y => option_map (fun y0 : Y => (x, y0)) (f x) = Some y) l0 T0 -> map fst T0 = l0 /\ (forall x y, In (x, y) T0 <-> In x l0 /\ f x = Some y)).
    { induction 1 as [|a e l0 T0 Ea H [IH1 IH2]]; [split; [reflexivity|cbn; tauto]|]. destruct (f a) as [y0|] eqn:Fa; [|discriminate]. injection Ea as <-. cbn [map fst]. split; [now rewrite IH1|].
      intros x y. cbn [In]. rewrite IH2. split; [intros [E1|[I1 E1]]; [injection E1 as <- <-; auto|auto]|]. intros [[ -> |I1] E1]; [left; congruence|right; auto]. }
    destruct (G _ _ E) as [G1 G2]. rewrite G1. split; [exact ND|]. intros x y. rewrite G2, nodup_In. reflexivity.
  Qed.
  Lemma table_find l (f : X -> option Y) T x : table dec l f = Some T -> In x l -> find dec T x = f x.
  Proof.
    intros E I. destruct (table_spec E) as [ND H]. destruct (f x) as [y|] eqn:Fx.
    - apply find_NoDup; [exact ND|]. apply H. auto.
    - destruct (find dec T x) as [y|] eqn:FD; [|reflexivity]. apply find_In in FD. apply H in FD. destruct FD. congruence.
  Qed.
  Lemma table_total l (f : X -> option Y) T x : table dec l f = Some T -> In x l -> f x <> None.
  Proof.
    unfold table. intros E I. apply all_some_spec in E. apply (nodup_In dec) in I. revert I. induction E as [|a e l0 T0 Ea H IH]; [easy|]. intros [ <- |I]; [|auto]. destruct (f a); [discriminate|easy].
  Qed.
  Lemma table_defined l (f : X -> option Y) : (forall x, In x l -> f x <> None) -> exists T, table dec l f = Some T.
  Proof.
    intros H. unfold table. destruct (all_some _) as [T|] eqn:E; [now exists T|]. exfalso. revert E. apply all_some_total. intros x I. apply nodup_In in I. specialize (H x I). now destruct (f x).
  Qed.
End Table.

Section Linear.
  Variables (T K : Type) (dec : forall x y : T, {x = y} + {x <> y}) (o : ops K).
  Hypothesis SR : semi_ring_theory (o0 o) (o1 o) (oadd o) (omul o) (@eq K).
  Add Ring Kr : SR.
  Notation amount := (amount dec o).
  Notation pairing g l := (osum o (map (fun p => omul o (g (fst p)) (snd p)) l)).
  Lemma amount_get col k : NoDup (map fst col) -> amount col k = match find dec col k with Some a => a | None => o0 o end.
  Proof. intros ND. apply (get_sum dec SR k ND). Qed.
  Lemma amount_app l l' k : amount (l ++ l') k = oadd o (amount l k) (amount l' k).
  Proof. unfold FtMapSpec.amount. rewrite map_app. apply (sum_app SR). Qed.
  Lemma amount_one x k : amount [(x, o1 o)] k = if dec x k then o1 o else o0 o.
  Proof. unfold FtMapSpec.amount. cbn [map fst snd]. rewrite sum_cons, sum_nil. destruct (dec x k); ring. Qed.
  Lemma amount_none l k : ~ In k (map fst l) -> amount l k = o0 o.
  Proof. intros N. unfold FtMapSpec.amount. apply (sum_zero SR). intros p I. destruct (dec (fst p) k) as [<- |]; [|reflexivity]. exfalso. apply N. now apply in_map. Qed.
  (** a sum over the terms depends only on the coefficients *)
  Lemma pairing_amount (g : T -> K) l J : NoDup J -> incl (map fst l) J -> pairing g l = osum o (map (fun j => omul o (g j) (amount l j)) J).
  Proof.
    intros ND. induction l as [|[k c] l IH]; intros I.
    - cbn [map]. rewrite sum_nil. symmetry. apply (sum_zero SR). intros j _. unfold FtMapSpec.amount. cbn [map]. rewrite sum_nil. ring.
    - cbn [map fst snd]. rewrite sum_cons, IH by (intros x Hx; apply I; now right).
      assert (IK : In k J) by (apply I; now left).
      assert (E : osum o (map (fun j => omul o (g j) (amount ((k, c) :: l) j)) J) = oadd o (osum o (map (fun j => omul o (g j) (if dec k j then c else o0 o)) J)) (osum o (map (fun j => omul o (g j) (amount l j)) J))).
      { rewrite <- (sum_plus SR). f_equal. apply map_ext. intros j. unfold FtMapSpec.amount at 1. cbn [map fst snd]. rewrite sum_cons. fold (amount l j). ring. }
      rewrite E. f_equal. symmetry. clear E IH I. induction J as [|j J IHJ]; [destruct IK|]. cbn [map]. rewrite sum_cons. apply NoDup_cons_iff in ND. destruct ND as [NI ND]. destruct (dec k j) as [ <- |N].
      + rewrite (sum_zero SR); [ring|]. intros j' I'. destruct (dec k j') as [ <- |]; [contradiction|ring].
      + destruct IK as [E|IK]; [congruence|]. rewrite IHJ by auto. ring.
  Qed.
  Lemma pairing_ext (g : T -> K) l l' : (forall k, amount l k = amount l' k) -> pairing g l = pairing g l'.
  Proof.
    intros H. set (J := nodup dec (map fst l ++ map fst l')). assert (ND : NoDup J) by apply NoDup_nodup.
    rewrite !pairing_amount with (J := J); auto; [f_equal; apply map_ext; intros j; now rewrite H| |]; intros x Hx; apply nodup_In; apply in_app_iff; auto.
  Qed.
  Lemma amount_scaled (l : list (T * K)) c k : amount (map (fun q => (fst q, omul o (snd q) c)) l) k = omul o (amount l k) c.
  Proof.
    unfold FtMapSpec.amount. rewrite map_map. cbn [fst snd]. induction l as [|q l IH]; cbn [map]; rewrite ?sum_nil, ?sum_cons; [ring|]. rewrite IH. destruct (dec (fst q) k); ring.
  Qed.
  Lemma amount_apply f l k : amount (apply_linear o f l) k = pairing (fun j => amount (image f j) k) l.
  Proof.
    unfold apply_linear. induction l as [|p l IH]; [reflexivity|]. cbn [flat_map map]. rewrite amount_app, IH, amount_scaled, sum_cons. reflexivity.
  Qed.
  Lemma apply_ext f l l' : (forall k, amount l k = amount l' k) -> forall k, amount (apply_linear o f l) k = amount (apply_linear o f l') k.
  Proof. intros H k. rewrite !amount_apply. now apply (pairing_ext (fun j => amount (image f j) k)). Qed.
  Lemma apply_In (f : T -> option (list (T * K))) l (x : T) c : In (x, c) (apply_linear o f l) -> exists k c' r, In (k, c') l /\ f k = Some r /\ In x (map fst r).
  Proof.
    unfold apply_linear. intros I. apply in_flat_map in I. destruct I as [[k c'] [Ik J]]. apply in_map_iff in J. destruct J as [q [E Iq]]. cbn [fst snd] in *. injection E as <- _. unfold image in Iq. destruct (f k) as [r|] eqn:F; [|destruct Iq].
    exists k, c', r. split; [exact Ik|]. split; [exact F|now apply in_map].
  Qed.

  (** one step of a mapping *)
  Variable big : K -> bool.
  Hypothesis BIG : forall c, big c = false -> c = o0 o.
  Notation smap := (list (T * list (T * K))).
  Lemma prune_rows_incl (m : smap) : incl (nonzero_rows (prune big m)) (nonzero_rows m).
  Proof.
    intros x I. unfold nonzero_rows, prune in *. apply in_flat_map in I. destruct I as [[k col] [I J]]. apply in_map_iff in I. destruct I as [[k' col'] [E I]]. injection E as <- <-. cbn [fst snd] in *.
    apply in_flat_map. exists (k', col'). split; [exact I|]. cbn [snd]. apply in_map_iff in J. destruct J as [e [<- J]]. apply filter_In in J. now apply in_map.
  Qed.
  Lemma prune_wf' (m : smap) : well_formed m -> well_formed (prune big m).
  Proof.
    intros [W1 W2]. split.
    - unfold prune. rewrite map_map. exact W1.
    - intros k col I. unfold prune in I. apply in_map_iff in I. destruct I as [[k' col'] [E I]]. injection E as <- <-. cbn [fst snd]. specialize (W2 _ _ I). clear -W2. induction col' as [|e col IH]; [constructor|].
      cbn [map] in W2. apply NoDup_cons_iff in W2. destruct W2 as [NI ND]. cbn [filter]. destruct (big (snd e)); [|now apply IH]. cbn [map]. constructor; [|now apply IH]. intros J. apply NI. apply in_map_iff in J. destruct J as [e' [E J]]. apply filter_In in J. rewrite <- E. now apply in_map.
  Qed.
  Lemma prune_entry' (m : smap) k i : well_formed m -> entry dec o (prune big m) k i = entry dec o m k i.
  Proof.
    intros [W1 W2]. unfold entry. unfold prune. rewrite (find_map dec (fun ks : T * list (T * K) => filter (fun e => big (snd e)) (snd ks))).
    destruct (find dec m k) as [col|] eqn:F; [|reflexivity]. cbn [option_map snd]. apply find_In in F. specialize (W2 _ _ F). clear -W2 BIG. induction col as [|[x c] col IH]; [reflexivity|].
    cbn [map fst] in W2. apply NoDup_cons_iff in W2. destruct W2 as [NI ND]. cbn [filter snd find]. destruct (dec x i) as [ -> |N].
    - destruct (big c) eqn:B; cbn [find]; [destruct (dec i i); [reflexivity|easy]|]. rewrite (BIG B). destruct (find dec _ i) as [a|] eqn:F; [|reflexivity]. exfalso. apply NI. apply find_In in F. apply filter_In in F. exact (in_map fst _ _ (proj1 F)).
    - destruct (big c); cbn [find]; [destruct (dec x i); [easy|]|]; now apply IH.
  Qed.
  (** [m] maps every key in [keys] to the linear combination [L key] *)
  Record represents (m : smap) (keys : list T) (L : T -> list (T * K)) : Prop := {
    rp_wf : well_formed m;
    rp_keys : forall k, In k (map fst m) <-> In k keys;
    rp_entry : forall k i, In k keys -> entry dec o m k i = amount (L k) i;
  }.
  Lemma table_wf (f : T -> option (list (T * K))) (l : list T) Tb : table dec l f = Some Tb -> (forall x r, In x l -> f x = Some r -> NoDup (map fst r)) -> well_formed Tb.
  Proof. intros E H. destruct (table_spec E) as [ND S]. split; [exact ND|]. intros k col I. apply S in I. destruct I. eapply H; eauto. Qed.
  Lemma table_entry (f : T -> option (list (T * K))) (l : list T) Tb j i : table dec l f = Some Tb -> In j l -> (forall x r, In x l -> f x = Some r -> NoDup (map fst r)) -> entry dec o Tb j i = amount (image f j) i.
  Proof.
    intros E I H. unfold entry. rewrite (table_find E I). assert (TT := table_total E I). unfold image. destruct (f j) as [r|] eqn:Fj; [|easy]. rewrite amount_get by (eapply H; eauto). reflexivity.
  Qed.
  Lemma in_rows (m : smap) k col x : In (k, col) m -> In x (map fst col) -> In x (nonzero_rows m).
  Proof. intros I J. unfold nonzero_rows. apply in_flat_map. now exists (k, col). Qed.
  Lemma column_amount (m : smap) keys L k col : represents m keys L -> find dec m k = Some col -> In k keys -> NoDup (map fst col) /\ forall j, amount col j = amount (L k) j.
  Proof.
    intros H F I. assert (ND := proj2 (rp_wf H) _ _ (find_In F)). split; [exact ND|]. intros j. rewrite <- (rp_entry H j I). unfold entry. rewrite F. now apply amount_get.
  Qed.
  Lemma pre_compose_from (m Tb : smap) k col' x : In (k, col') (prune big (pre_compose dec o m Tb)) -> In x (map fst col') -> exists col j r, In (k, col) m /\ In j (map fst col) /\ find dec Tb j = Some r /\ In x (map fst r).
  Proof.
    intros I J. unfold prune in I. apply in_map_iff in I. destruct I as [[k1 col1] [E1 I]]. cbn [fst snd] in E1. injection E1 as <- <-.
    assert (J' : In x (map fst col1)) by (apply in_map_iff in J; destruct J as [e [<- J]]; apply filter_In in J; now apply in_map). clear J.
    unfold pre_compose in I. apply in_map_iff in I. destruct I as [[k0 col] [Ek I]]. cbn [fst snd] in *. injection Ek as <- <-.
    assert (G : forall c acc, (forall e, In e c -> In e col) -> In x (map fst (fold_left (compose_column dec o Tb) c acc)) -> In x (map fst acc) \/ exists j r, In j (map fst col) /\ find dec Tb j = Some r /\ In x (map fst r)).
    { induction c as [|[j cf] c IH]; intros acc SUB Hx; [now left|]. cbn [fold_left] in Hx. apply IH in Hx; [|intros e Ie; apply SUB; now right]. destruct Hx as [Hx|Hx]; [|now right].
      unfold compose_column in Hx. cbn [fst snd] in Hx. destruct (find dec Tb j) as [r|] eqn:Fj; [|now left]. assert (Ij : In j (map fst col)) by (apply (in_map fst col (j, cf)); apply SUB; now left).
      assert (G2 : forall r0 acc0, In x (map fst (fold_left (compose_entry dec o cf) r0 acc0)) -> In x (map fst acc0) \/ In x (map fst r0)).
      { clear -SR. induction r0 as [|[i a] r0 IH]; intros acc0 Hx; [now left|]. cbn [fold_left] in Hx. apply IH in Hx. cbn [map fst]. destruct Hx as [Hx|Hx]; [|right; now right]. unfold compose_entry in Hx. apply (add_to_keys dec SR) in Hx. cbn [fst] in Hx. destruct Hx as [ -> |Hx]; [right; now left|now left]. }
      apply G2 in Hx. destruct Hx as [Hx|Hx]; [now left|]. right. exists j, r. auto. }
    destruct (G col [] (fun e Ie => Ie) J') as [[]|(j & r & Ij & Fj & Ix)]. exists col, j, r. auto.
  Qed.
  (** coefficients in a set that is closed under addition and multiplication *)
  Definition coefs_in (Pk : K -> Prop) (m : smap) : Prop := forall k col i c, In (k, col) m -> In (i, c) col -> Pk c.
  Lemma pre_compose_coefs (Pk : K -> Prop) (m Tb : smap) : Pk (o0 o) -> (forall a b, Pk a -> Pk b -> Pk (oadd o a b)) -> (forall a b, Pk a -> Pk b -> Pk (omul o a b)) ->
    coefs_in Pk m -> coefs_in Pk Tb -> coefs_in Pk (prune big (pre_compose dec o m Tb)).
  Proof.
    intros P0 PA PM HM HT k col' i c I J. unfold prune in I. apply in_map_iff in I. destruct I as [[k1 col1] [E1 I]]. cbn [fst snd] in E1. injection E1 as <- <-. apply filter_In in J. destruct J as [J _].
    unfold pre_compose in I. apply in_map_iff in I. destruct I as [[k0 col] [Ek I]]. cbn [fst snd] in *. injection Ek as <- <-.
    assert (AT : forall l x v, (forall i c, In (i, c) l -> Pk c) -> Pk v -> forall i c, In (i, c) (add_to dec o l x v) -> Pk c).
    { clear -P0 PA. induction l as [|[y a] l IH]; intros x v HL Hv i c H; cbn [add_to] in H.
      - destruct H as [H|[]]. injection H as _ <-. auto.
      - destruct (dec y x).
        + destruct H as [H|H]; [injection H as _ <-; apply PA; [apply (HL y); now left|exact Hv]|apply (HL i); now right].
        + destruct H as [H|H]; [injection H as <- <-; apply (HL y); now left|]. eapply IH; [|exact Hv|exact H]. intros i' c' H'. apply (HL i'). now right. }
    assert (G : forall c0 acc, (forall e, In e c0 -> In e col) -> (forall i c, In (i, c) acc -> Pk c) -> forall i c, In (i, c) (fold_left (compose_column dec o Tb) c0 acc) -> Pk c).
    { induction c0 as [|[j cf] c0 IH]; intros acc SUB HA i0 c1 H; [now apply (HA i0)|]. cbn [fold_left] in H. eapply IH; [| |exact H]; [intros e Ie; apply SUB; now right|]. unfold compose_column. cbn [fst snd].
      destruct (find dec Tb j) as [r|] eqn:Fj; [|exact HA]. apply find_In in Fj. assert (PC : Pk cf) by (apply (HM k0 col j); [exact I|apply SUB; now left]).
      assert (G2 : forall r0 acc0, (forall e, In e r0 -> In e r) -> (forall i c, In (i, c) acc0 -> Pk c) -> forall i c, In (i, c) (fold_left (compose_entry dec o cf) r0 acc0) -> Pk c).
      { induction r0 as [|[x a] r0 IH0]; intros acc0 SUB0 HA0 i1 c2 H1; [now apply (HA0 i1)|]. cbn [fold_left] in H1. eapply IH0; [| |exact H1]; [intros e Ie; apply SUB0; now right|].
        unfold compose_entry. cbn [fst snd]. apply AT; [exact HA0|]. apply PM; [|exact PC]. apply (HT j r x); [exact Fj|apply SUB0; now left]. }
      apply G2; auto. }
    eapply (G col []); [auto|intros ? ? []|exact J].
  Qed.
  Lemma step_represents m keys L f Tb : represents m keys L -> table dec (nonzero_rows m) f = Some Tb -> (forall x r, In x (nonzero_rows m) -> f x = Some r -> NoDup (map fst r)) ->
    represents (prune big (pre_compose dec o m Tb)) keys (fun k => apply_linear o f (L k)).
  Proof.
    intros H E ND. assert (WT := table_wf E ND). assert (WP := pre_compose_wf dec SR Tb (rp_wf H)). split.
    - now apply prune_wf'.
    - intros k. unfold prune, pre_compose. rewrite !map_map. cbn [fst]. apply (rp_keys H).
    - intros k i Ik. rewrite prune_entry' by exact WP. rewrite (pre_compose_stored dec SR m k i WT). destruct (find dec m k) as [col|] eqn:F.
      + destruct (column_amount H F Ik) as [NDc AC]. rewrite amount_apply. rewrite <- (pairing_ext (fun j => amount (image f j) i) AC). f_equal. apply map_ext_in. intros e Ie. f_equal.
        apply (table_entry i E); [|exact ND]. eapply in_rows; [apply (find_In F)|]. now apply in_map.
      + exfalso. apply find_None in F. apply F. now apply (rp_keys H).
  Qed.
  Lemma identity_represents keys : represents (from_identity dec o keys) keys (fun k => [(k, o1 o)]).
  Proof.
    split; [apply from_identity_wf|intros k; apply (from_identity_cols dec o keys k)|]. intros k i I. rewrite (from_identity_entry dec). destruct (in_dec dec k keys); [|easy]. rewrite amount_one. reflexivity.
  Qed.
  Lemma identity_rows keys x : In x (nonzero_rows (from_identity dec o keys)) -> In x keys.
  Proof.
    unfold nonzero_rows. intros I. apply in_flat_map in I. destruct I as [[k col] [I J]]. assert (F : find dec (from_identity dec o keys) k = Some col) by (apply find_NoDup; [apply from_identity_wf|exact I]).
    rewrite from_identity_find in F. destruct (in_dec dec k keys) as [Ik|]; [|discriminate]. injection F as <-. destruct J as [ <- |[]]. exact Ik.
  Qed.
  (** the sum over the entries of a mapping *)
  Lemma represents_sum m keys L (h : T -> K) i : represents m keys L -> NoDup keys ->
    osum o (map (fun e => omul o (match find dec (snd e) i with Some c => c | None => o0 o end) (h (fst e))) m) = osum o (map (fun k => omul o (amount (L k) i) (h k)) keys).
  Proof.
    intros H ND. transitivity (osum o (map (fun k => omul o (entry dec o m k i) (h k)) (map fst m))).
    - rewrite map_map. f_equal. apply map_ext_in. intros [k col] I. cbn [fst snd]. unfold entry. rewrite (find_NoDup dec (proj1 (rp_wf H)) I). reflexivity.
    - rewrite <- (sum_perm SR (a := map (fun k => omul o (entry dec o m k i) (h k)) keys)); [f_equal; apply map_ext_in; intros k Ik; now rewrite (rp_entry H i Ik)|].
      apply Permutation_map. apply NoDup_Permutation; [exact ND|apply (rp_wf H)|]. intros k. symmetry. apply (rp_keys H).
  Qed.
End Linear.
