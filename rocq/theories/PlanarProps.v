(** C69: planar_permute_legs accepts exactly the planar rearrangements, reaches them by calls of permute_legs that need no levels, and no phase
    appears; parse_leg_bipartition. *)
From Coq Require Import ZArith List Bool Lia Permutation.
From Verif Require Import Util GridModel PermLegsModel PermLegsSpec PermLegsProps PlanarModel PlanarSpec PlanarProofs1 PlanarProofs2 PlanarProofs3 PlanarProofs4 PlanarProofs5 PlanarProofs6 PlanarProofs7 PlanarProofs8.
Import ListNotations.
Open Scope nat_scope.

Lemma permute_calls_nothing nc nd : 0 < nc + nd -> permute_calls nc nd [] [] = PErr (if (nc =? 0) || (nd =? 0) then Internal else Undefined).
Proof.
  intros P. unfold permute_calls. cbv zeta. rewrite !(@filter_none _ (contains []) (seq 0 nc)) by reflexivity. rewrite filter_none by reflexivity. cbn [length Nat.ltb Nat.leb andb Nat.eqb contains existsb].
  destruct nc as [|nc]; cbn [Nat.eqb andb orb negb plus].
  - destruct nd as [|nd]; [lia|]. reflexivity.
  - destruct nd as [|nd]; reflexivity.
Qed.
Lemma planar_permute_cases nc nd codomain domain steps : legs_of (nc + nd) codomain -> legs_of (nc + nd) domain -> planar_permute_legs nc nd codomain domain = POk steps ->
  exists co dom, enough_given codomain domain /\ fits codomain co /\ fits domain dom /\ planar (nc + nd) co dom /\ permute_calls nc nd co dom = POk steps.
Proof.
  intros L1 L2. unfold planar_permute_legs. destruct (complete (nc + nd) codomain domain) as [[co dom]|] eqn:E; [|discriminate]. intros H. exists co, dom.
  destruct (Nat.eq_dec (nc + nd) 0) as [Z|Z].
  - assert (L : forall l, legs_of (nc + nd) l -> l = None \/ l = Some []). { intros [[|x l]|] LF; auto. destruct LF as [_ F]. rewrite Z in F. inversion F as [|? ? X _]; subst. lia. }
    rewrite Z in E. destruct (L _ L1) as [->| ->], (L _ L2) as [->| ->]; cbn in E; try discriminate. injection E as <- <-. split; [exact Logic.I|]. do 2 (split; [reflexivity|]). split; [|exact H].
    rewrite Z. exists 0. split; [lia|reflexivity].
  - destruct (complete_inv (n := nc + nd) ltac:(lia) L1 L2 E) as (G & F1 & F2 & [P|[-> ->]]); [now split; [|split; [|split; [|split]]]|].
    cbn in E. injection E as <- <-. rewrite permute_calls_nothing in H by lia. destruct (_ || _); discriminate.
Qed.
Lemma planar_permute_ok nc nd codomain domain co dom : enough_given codomain domain -> fits codomain co -> fits domain dom -> planar (nc + nd) co dom ->
  planar_permute_legs nc nd codomain domain = permute_calls nc nd co dom.
Proof.
  intros G F1 F2 P. unfold planar_permute_legs. destruct (Nat.eq_dec (nc + nd) 0) as [Z|Z]; [|now rewrite (complete_ok (n := nc + nd) ltac:(lia) G F1 F2 P)].
  destruct P as (k & _ & E). rewrite Z in *. cbn in E. unfold rotation in E. rewrite skipn_nil, firstn_nil in E. apply app_eq_nil in E. destruct E as [-> E].
  assert (dom = []) as -> by (apply length_zero_iff_nil; rewrite <- rev_length, E; reflexivity).
  destruct codomain as [c|], domain as [d|]; cbn in F1, F2, G; subst; try reflexivity; now elim G.
Qed.

(** The request is accepted if and only if it says enough and can be completed to a planar rearrangement. *)
Theorem C69_accepts_exactly_planar : forall nc nd codomain domain, legs_of (nc + nd) codomain -> legs_of (nc + nd) domain ->
  (exists steps, planar_permute_legs nc nd codomain domain = POk steps) <->
  enough_given codomain domain /\ exists co dom, fits codomain co /\ fits domain dom /\ planar (nc + nd) co dom.
Proof.
  intros nc nd codomain domain L1 L2. split.
  - intros (steps & E). destruct (planar_permute_cases _ _ _ _ _ L1 L2 E) as (co & dom & G & F1 & F2 & P & _). split; [exact G|]. now exists co, dom.
  - intros (G & co & dom & F1 & F2 & P). rewrite (planar_permute_ok nc nd codomain domain co dom G F1 F2 P). destruct (planar_calls P) as (steps & E & _). now exists steps.
Qed.
Print Assumptions C69_accepts_exactly_planar.

(** Then the rearrangement is determined by the request ... *)
Theorem C69_unambiguous : forall n codomain domain co dom co' dom', 0 < n -> legs_of n codomain -> legs_of n domain -> enough_given codomain domain ->
  fits codomain co -> fits domain dom -> planar n co dom -> fits codomain co' -> fits domain dom' -> planar n co' dom' -> co = co' /\ dom = dom'.
Proof.
  intros n codomain domain co dom co' dom' N L1 L2 G F1 F2 P F1' F2' P'.
  assert (A := complete_ok N G F1 F2 P). rewrite (complete_ok N G F1' F2' P') in A. now injection A as -> ->.
Qed.
Print Assumptions C69_unambiguous.

(** ... and the calls of permute_legs, which give no levels, produce exactly these legs in exactly this order: no call is rejected and no crossing is
    undecided, whether the braiding is trivial, symmetric or general. *)
Theorem C69_realises_request : forall nc nd codomain domain steps, legs_of (nc + nd) codomain -> legs_of (nc + nd) domain ->
  planar_permute_legs nc nd codomain domain = POk steps ->
  exists co dom, fits codomain co /\ fits domain dom /\ planar (nc + nd) co dom /\
    forall trivial_braid sym, (trivial_braid = true -> sym = true) ->
      exists events, do_calls trivial_braid sym (legs0 nc nd) steps = POk ((co, dom), events).
Proof.
  intros nc nd codomain domain steps L1 L2 E. destruct (planar_permute_cases _ _ _ _ _ L1 L2 E) as (co & dom & G & F1 & F2 & P & E').
  exists co, dom. repeat (split; [assumption|]). intros triv sym TS. destruct (planar_calls P) as (steps' & E2 & A). rewrite E' in E2. injection E2 as <-. destruct (A triv sym TS) as (ev & X & _). now exists ev.
Qed.
Print Assumptions C69_realises_request.

(** No phase: for every abelian group of charges and every bicharacter, the crossings and bends that the backend performs cancel on every component
    whose total charge vanishes. *)
Theorem C69_no_phase : forall nc nd codomain domain steps sym legs events, legs_of (nc + nd) codomain -> legs_of (nc + nd) domain ->
  planar_permute_legs nc nd codomain domain = POk steps -> do_calls false sym (legs0 nc nd) steps = POk (legs, events) ->
  forall (G H : Type) gz gadd gopp hz hadd hopp (beta : G -> G -> H) (q : nat -> G),
    abelian_group gz gadd gopp -> abelian_group hz hadd hopp -> bicharacter G H gadd hadd beta ->
    charge gz gadd q (seq 0 (nc + nd)) = gz -> phase gz gadd hz hadd hopp beta q events = hz.
Proof.
  intros nc nd codomain domain steps sym legs events L1 L2 E D. destruct (planar_permute_cases _ _ _ _ _ L1 L2 E) as (co & dom & _ & _ & _ & P & E').
  destruct (planar_calls P) as (steps' & E2 & A). rewrite E' in E2. injection E2 as <-. destruct (A false sym ltac:(discriminate)) as (ev & X & PH). rewrite D in X. injection X as -> ->. now apply PH.
Qed.
Print Assumptions C69_no_phase.

(** parse_leg_bipartition: the answer lists the given legs and the others, each in the order in which they follow on the circle ... *)
Theorem C69_bipartition : forall legs n c o, parse_leg_bipartition legs n = Some (c, o) -> Permutation c legs /\ exists k, k <= n /\ c ++ o = rotation k (seq 0 n).
Proof. intros legs n c o E. destruct (bipartition_sound E) as (_ & _ & P & K). now split. Qed.
Print Assumptions C69_bipartition.

(** ... and there is one whenever some order of the given legs is followed by the others on the circle; if both parts are not empty it is the only one. *)
Theorem C69_bipartition_found : forall legs n, (exists c o k, Permutation c legs /\ k <= n /\ c ++ o = rotation k (seq 0 n)) <-> parse_leg_bipartition legs n <> None.
Proof.
  intros legs n. split.
  - intros (c & o & k & P & K & E). assert (PR : Permutation (c ++ o) (seq 0 n)).
    { rewrite E. unfold rotation. rewrite Permutation_app_comm. now rewrite firstn_skipn. }
    assert (ND : NoDup legs). { apply (Permutation_NoDup P).  apply Permutation_sym in PR. apply Permutation_NoDup in PR; [|apply seq_NoDup]. clear -PR. induction c as [|x c IH]; [constructor|]. inversion PR as [|? ? X Y]; subst. constructor; [|now apply IH]. intros I. apply X. apply in_or_app. now left. }
    assert (F : Forall (fun i => i < n) legs). { apply Forall_forall. intros x I. apply (Permutation_in _ (Permutation_sym P)) in I. assert (J : In x (c ++ o)) by (apply in_or_app; now left). apply (Permutation_in _ PR) in J. apply in_seq in J. lia. }
    destruct (list_eq_dec Nat.eq_dec c []) as [->|NC].
    { apply Permutation_nil in P. subst legs. cbn. discriminate. }
    destruct (list_eq_dec Nat.eq_dec o []) as [->|NO].
    { rewrite app_nil_r in PR. assert (L := Permutation_length (Permutation_trans (Permutation_sym P) PR)). rewrite seq_length in L. unfold parse_leg_bipartition. rewrite (proj2 (has_dup_NoDup legs) ND). cbn [orb].
      destruct (existsb _ legs) eqn:X. { apply existsb_exists in X. destruct X as (x & I & X). rewrite Forall_forall in F. apply F in I. apply Nat.leb_le in X. lia. }
      destruct legs as [|x t]; [discriminate|]. rewrite (proj2 (Nat.eqb_eq _ _) L). discriminate. }
    rewrite (bipartition_complete ND F P K E NC NO). discriminate.
  - destruct (parse_leg_bipartition legs n) as [[c o]|] eqn:E; [|now intros X; elim X]. intros _. destruct (bipartition_sound E) as (_ & _ & P & k & K & R). now exists c, o, k.
Qed.
Print Assumptions C69_bipartition_found.
Theorem C69_bipartition_unique : forall legs n c o k, Permutation c legs -> k <= n -> c ++ o = rotation k (seq 0 n) -> c <> [] -> o <> [] -> parse_leg_bipartition legs n = Some (c, o).
Proof.
  intros legs n c o k P K E NC NO. destruct (parse_leg_bipartition legs n) as [[c' o']|] eqn:X.
  - destruct (bipartition_legs X) as [ND F]. rewrite <- X. now apply (bipartition_complete ND F P K E).
  - exfalso. apply (proj1 (C69_bipartition_found legs n)); [|exact X]. now exists c, o, k.
Qed.
Print Assumptions C69_bipartition_unique.

(** Every other request is refused with an error that says why: never undefined behaviour or an internal error. *)
Lemma complete_errors n codomain domain e : complete n codomain domain = PErr e ->
  (e = NotGiven /\ codomain = None /\ domain = None) \/ (e = EmptyGiven /\ ((codomain = None /\ domain = Some []) \/ (codomain = Some [] /\ domain = None))) \/ (e = NonPlanar \/ e = Inconsistent) /\ enough_given codomain domain.
Proof.
  intros E. assert (CD : forall cod d e', check_domain n cod d = PErr e' -> e' = NonPlanar \/ e' = Inconsistent).
  { intros cod d e' X. unfold check_domain in X. destruct d as [|x d]; [discriminate|]. destruct (negb _); [injection X as <-; now left|]. destruct cod; [|discriminate]. destruct (list_eqb _ _); [discriminate|]. injection X as <-. now right. }
  assert (CC : forall dom c e', check_codomain n dom c = PErr e' -> e' = NonPlanar \/ e' = Inconsistent).
  { intros dom c e' X. unfold check_codomain in X. destruct c as [|x c]; [discriminate|]. destruct (negb _); [injection X as <-; now left|]. destruct dom; [|discriminate]. destruct (list_eqb _ _); [discriminate|]. injection X as <-. now right. }
  destruct codomain as [c|], domain as [d|].
  - right. right. split; [|exact Logic.I]. rewrite complete_body in E by exact Logic.I. destruct (check_domain n (Some c) d) as [o|e'] eqn:E1; [|injection E as <-; now apply (CD _ _ _ E1)].
    destruct o as [c'|]; [destruct (check_codomain n (Some d) c') as [o|e'] eqn:E2; [|injection E as <-; now apply (CC _ _ _ E2)]|].
    + destruct o as [d'|]; [discriminate|]. exfalso. unfold check_codomain in E2. destruct c'; [discriminate|]. destruct (negb _); [discriminate|]. destruct (list_eqb _ _); discriminate.
    + exfalso. unfold check_domain in E1. destruct d; [discriminate|]. destruct (negb _); [discriminate|]. destruct (list_eqb _ _); discriminate.
  - destruct c as [|x c]; [cbn in E; injection E as <-; right; left; split; [reflexivity|now right]|]. right. right. split; [|discriminate]. rewrite complete_body in E by discriminate.
    destruct (check_codomain n None (x :: c)) as [o|e'] eqn:E2; [|injection E as <-; now apply (CC _ _ _ E2)]. destruct o as [d'|]; [discriminate|]. exfalso. unfold check_codomain in E2. destruct (negb _); discriminate.
  - destruct d as [|x d]; [cbn in E; injection E as <-; right; left; split; [reflexivity|now left]|]. right. right. split; [|discriminate]. rewrite complete_body in E by discriminate.
    destruct (check_domain n None (x :: d)) as [o|e'] eqn:E1; [|injection E as <-; now apply (CD _ _ _ E1)]. destruct o as [c'|]; [|exfalso; unfold check_domain in E1; destruct (negb _); discriminate].
    destruct (check_codomain n (Some (x :: d)) c') as [o|e'] eqn:E2; [|injection E as <-; now apply (CC _ _ _ E2)]. destruct o as [d'|]; [discriminate|]. exfalso. unfold check_codomain in E2. destruct c'; [discriminate|]. destruct (negb _); [discriminate|]. destruct (list_eqb _ _); discriminate.
  - left. cbn in E. injection E as <-. auto.
Qed.
Theorem C69_errors : forall nc nd codomain domain e, legs_of (nc + nd) codomain -> legs_of (nc + nd) domain -> ~ (codomain = Some [] /\ domain = Some []) ->
  planar_permute_legs nc nd codomain domain = PErr e ->
  (e = NotGiven /\ codomain = None /\ domain = None) \/ (e = EmptyGiven /\ ((codomain = None /\ domain = Some []) \/ (codomain = Some [] /\ domain = None))) \/
  (e = NonPlanar \/ e = Inconsistent) /\ enough_given codomain domain.
Proof.
  intros nc nd codomain domain e L1 L2 NE E. unfold planar_permute_legs in E. destruct (complete (nc + nd) codomain domain) as [[co dom]|e'] eqn:C; [|injection E as <-; now apply (complete_errors (nc + nd))].
  exfalso. destruct (Nat.eq_dec (nc + nd) 0) as [Z|Z].
  - assert (L : forall l, legs_of (nc + nd) l -> l = None \/ l = Some []). { intros [[|x l]|] LF; auto. destruct LF as [_ F]. rewrite Z in F. inversion F as [|? ? X _]; subst. lia. }
    destruct (L _ L1) as [->| ->], (L _ L2) as [->| ->]; try discriminate. now apply NE.
  - destruct (complete_inv (n := nc + nd) ltac:(lia) L1 L2 C) as (_ & _ & _ & [P|P]); [|now apply NE]. destruct (planar_calls P) as (steps & S & _). rewrite S in E. discriminate.
Qed.
Print Assumptions C69_errors.

(** Not covered by the acceptance theorem: both lists given and empty although there are legs.  The request is not rejected as such; for a tensor with
    legs on both sides the code reads the first element of an empty vector. *)
Theorem C69_empty_request_undefined : forall nc nd, 0 < nc -> 0 < nd -> planar_permute_legs nc nd (Some []) (Some []) = PErr Undefined.
Proof.
  intros nc nd A B. unfold planar_permute_legs. cbn [complete check_domain check_codomain]. rewrite permute_calls_nothing by lia.
  destruct (Nat.eqb_spec nc 0); [lia|]. destruct (Nat.eqb_spec nd 0); [lia|]. reflexivity.
Qed.
Print Assumptions C69_empty_request_undefined.

(** Legs that are named twice are not always rejected by planar_permute_legs: a list that goes around the circle twice passes its checks. *)
Theorem C69_twice_around : forall trivial_braid sym, exists steps, planar_permute_legs 2 0 (Some [0; 1; 0; 1]) None = POk steps /\
  do_calls trivial_braid sym (legs0 2 0) steps = POk ((([0; 1], []), [])).
Proof.
  intros triv sym. eexists. split; [vm_compute; reflexivity|]. reflexivity.
Qed.
Print Assumptions C69_twice_around.

(** A tensor with 3 legs in the codomain and 2 in the domain; the codomain winds around: two steps. *)
Example planar_winding : planar_permute_legs 3 2 (Some [2; 3; 4; 0]) None = POk [Call [0] [4; 3; 2; 1] (BendAll true); Call [2; 3; 4; 0] [1] (BendAll false)].
Proof. reflexivity. Qed.
(** the second step moves legs around the tensor: crossings appear whose phases cancel *)
Example planar_winding_result : do_calls false false (legs0 3 2) [Call [0] [4; 3; 2; 1] (BendAll true); Call [2; 3; 4; 0] [1] (BendAll false)] =
  POk ([2; 3; 4; 0], [1], [Turn [4; 3; 2] false; Cross 1 2 false; Cross 0 2 false; Cross 1 3 false; Cross 0 3 false; Cross 1 4 false; Cross 0 4 false]).
Proof. reflexivity. Qed.
Example planar_bends : planar_permute_legs 2 2 (Some [3; 0; 1]) None = POk [Call [3; 0; 1] [2] (BendList [None; None; None; Some false])].
Proof. reflexivity. Qed.
Example planar_rejected : planar_permute_legs 3 2 (Some [1; 0]) None = PErr NonPlanar.
Proof. reflexivity. Qed.
Example planar_ambiguous : planar_permute_legs 3 2 None (Some []) = PErr EmptyGiven.
Proof. reflexivity. Qed.
Example bipartition_example : parse_leg_bipartition [0; 4; 3] 5 = Some ([3; 4; 0], [1; 2]) /\ parse_leg_bipartition [0; 2] 5 = None.
Proof. split; reflexivity. Qed.
