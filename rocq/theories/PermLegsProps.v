(** C22: the instructions PermuteLegsInstructionEngine emits for permute_legs realise the requested permutation; every crossing is decided by
    the levels; an error is raised exactly if a needed crossing is undecided; the phases they produce; leg pipes. *)
From Coq Require Import ZArith List Bool Lia Permutation.
From Verif Require Import Util GridModel PermLegsModel PermLegsSpec PermLegsProofs PermLegsProofs2 PermLegsProofs3 PermLegsProofs4 PermLegsProofs5 PermLegsProofs6 PermLegsProofs7.
Import ListNotations.
Open Scope nat_scope.

(** The request is well formed and all the pairs of legs that have to pass each other can be compared: there are instructions, each of which can be
    executed when its turn comes, and after all of them the codomain consists of the legs [r_cod], the domain of the legs [r_dom], in this order. *)
Theorem C22_instructions_realise_request : forall r, valid_request r ->
  (r_sym r = true \/ forall a b, must_cross r a b -> comparable r a b) ->
  exists instrs events, run r = Ok instrs /\ exec (legs0 (r_nc r) (r_nd r)) instrs = Some ((r_cod r, r_dom r), events).
Proof.
  intros r V A. pose proof (run_spec V) as S. destruct (run r) as [l|e].
  - destruct S as [js1 [js2 [js3 [_ [_ [_ [_ [_ [_ [_ EX]]]]]]]]]]. exists l, (events r js1 js2 js3). now split.
  - exfalso. destruct S as [_ [a [b [M NG]]]]. apply NG. destruct A as [A|A]; [now left|right]. now apply A.
Qed.
Print Assumptions C22_instructions_realise_request.

(** Enough: all levels are given and pairwise different. *)
Theorem C22_distinct_levels_suffice : forall r, valid_request r ->
  (forall i, i < r_nc r + r_nd r -> nth i (r_levels r) None <> None) ->
  (forall i j, i < r_nc r + r_nd r -> j < r_nc r + r_nd r -> nth i (r_levels r) None = nth j (r_levels r) None -> i = j) ->
  exists instrs events, run r = Ok instrs /\ exec (legs0 (r_nc r) (r_nd r)) instrs = Some ((r_cod r, r_dom r), events).
Proof.
  intros r V H1 H2. apply C22_instructions_realise_request; [exact V|]. right. intros a b M. destruct (must_cross_facts V M) as [NE [La Lb]].
  unfold comparable. pose proof (H1 a La). pose proof (H1 b Lb). pose proof (H2 a b La Lb). destruct (nth a (r_levels r) None) as [x|]; [|easy]. destruct (nth b (r_levels r) None) as [y|]; [|easy].
  intros E. apply NE. apply H3. now rewrite E.
Qed.
Print Assumptions C22_distinct_levels_suffice.

(** The only error for a well formed request is BraidChiralityUnspecifiedError, and it is raised exactly if the braid is not symmetric and
    two legs that have to pass each other have equal levels or a missing level. *)
Theorem C22_error_iff_undecided_crossing : forall r e, valid_request r ->
  run r = Err e <-> e = EChirality /\ r_sym r = false /\ exists a b, must_cross r a b /\ ~ comparable r a b.
Proof.
  intros r e V. pose proof (run_spec V) as S. pose proof (run_ok_iff V) as I. split.
  - intros E. rewrite E in S. destruct S as [-> [a [b [M NG]]]]. split; [reflexivity|]. split.
    + destruct (r_sym r) eqn:Es; [|reflexivity]. exfalso. apply NG. now left.
    + exists a, b. split; [exact M|]. intros C. apply NG. now right.
  - intros [-> [Es [a [b [M NC]]]]]. destruct (run r) as [l|e].
    + exfalso. destruct (proj1 I (ex_intro _ l eq_refl) a b M) as [G|G]; [congruence|easy].
    + now destruct S as [-> _].
Qed.
Print Assumptions C22_error_iff_undecided_crossing.

(** Every crossing that happens is one that has to happen, with the leg of the higher level on top (with a symmetric braid: always "over"),
    or a left-bending leg passing above (from the codomain) every other leg on its way around the tensor. *)
Theorem C22_crossings_decided_by_levels : forall r instrs legs events a b over, valid_request r -> run r = Ok instrs ->
  exec (legs0 (r_nc r) (r_nd r)) instrs = Some (legs, events) -> In (Cross a b over) events ->
  (must_cross r a b /\ over = (r_sym r || higher r a b)) \/
  (over = true /\ In a (left_out r) /\ In b (rest1 r)) \/
  (over = false /\ In b (left_in r) /\ In a (rest2 r)).
Proof.
  intros r l legs evs a b ov V E EX I. pose proof (run_spec V) as S. rewrite E in S. destruct S as [js1 [js2 [js3 [_ [_ [_ [_ [_ [_ [FG EX']]]]]]]]]].
  rewrite EX in EX'. injection EX' as _ ->. apply Forall_app in FG. destruct FG as [FG1 FG2]. apply Forall_app in FG2. destruct FG2 as [FG2 FG3].
  assert (L : forall lg, Forall (gn r (must_cross r)) lg -> In (Cross a b ov) (map (cross r) lg) -> must_cross r a b /\ ov = (r_sym r || higher r a b)).
  { intros lg F H. apply in_map_iff in H. destruct H as [[x y] [Ex Hx]]. apply (proj1 (Forall_forall _ _) F) in Hx. destruct Hx as [_ Hm]. unfold cross in Ex. cbn [fst snd] in *. injection Ex as <- <- <-.
    split; [exact Hm|]. unfold ovr. cbn [fst snd]. now destruct (r_sym r). }
  unfold events in I. rewrite !in_app_iff in I. destruct I as [I|[I|[I|[I|[I|[I|I]]]]]].
  - left. exact (L _ FG1 I).
  - unfold turn in I. destruct (left_out r); cbn [In] in I; [easy|]. destruct I as [I|[]]. discriminate.
  - right. left. unfold over_right in I. apply in_flat_map in I. destruct I as [x [Hx I]]. apply in_map_iff in I. destruct I as [y [Ey Hy]]. injection Ey as -> -> ->. apply in_rev in Hx. now repeat split.
  - left. exact (L _ FG2 I).
  - unfold turn in I. destruct (rev (left_in r)); cbn [In] in I; [easy|]. destruct I as [I|[]]. discriminate.
  - right. right. unfold over_left in I. apply in_flat_map in I. destruct I as [x [Hx I]]. apply in_map_iff in I. destruct I as [y [Ey Hy]]. injection Ey as -> -> ->. apply in_rev in Hy. now repeat split.
  - left. exact (L _ FG3 I).
Qed.
Print Assumptions C22_crossings_decided_by_levels.

(** ** Phases. G: charges, H: phases, beta: a bicharacter; q: the charges on the legs of a block that obeys charge conservation. *)
Definition bicharacter (G H : Type) (gadd : G -> G -> G) (hadd : H -> H -> H) (beta : G -> G -> H) : Prop :=
  (forall x y z, beta (gadd x y) z = hadd (beta x z) (beta y z)) /\ (forall x y z, beta x (gadd y z) = hadd (beta x y) (beta x z)).

(** General braid: the phase is the difference of potentials (sums of beta over the pairs of legs whose left one is higher) of the leg orders between the bends. *)
Theorem C22_phase_from_levels : forall (G H : Type) gz gadd gopp hz hadd hopp (beta : G -> G -> H) (q : nat -> G) r instrs legs events,
  abelian_group gz gadd gopp -> abelian_group hz hadd hopp -> bicharacter G H gadd hadd beta ->
  valid_request r -> r_sym r = false -> charge gz gadd q (seq 0 (r_nc r + r_nd r)) = gz ->
  run r = Ok instrs -> exec (legs0 (r_nc r) (r_nd r)) instrs = Some (legs, events) ->
  let pot := potential hz hadd beta q (higher r) in
  hadd (hadd (hadd (phase gz gadd hz hadd hopp beta q events) (pot (left_out r ++ rest1 r))) (pot (rest2 r ++ left_in r))) (pot (r_cod r ++ rev (r_dom r))) =
  hadd (hadd (pot (seq 0 (r_nc r + r_nd r))) (pot (rest1 r ++ left_out r))) (pot (left_in r ++ rest2 r)).
Proof.
  intros G H gz gadd gopp hz hadd hopp beta q r l legs evs GG HG [Bl Br] V Es Q0 E EX. cbv zeta. refine (phase_total GG HG Bl Br V Q0 _ E EX).
  intros [a b] Gd M. cbn [fst snd] in *. destruct Gd as [Gd|Gd]; [congruence|]. unfold comparable in Gd. unfold above_ok, cross, ovr, higher. cbn [fst snd] in *. rewrite Es.
  destruct (nth a (r_levels r) None) as [x|]; [|easy]. destruct (nth b (r_levels r) None) as [y|]; [|easy]. split; [|reflexivity].
  destruct (Z.ltb_spec x y), (Z.ltb_spec y x); cbn [negb]; lia || reflexivity.
Qed.
Print Assumptions C22_phase_from_levels.

(** Without left bends the phase depends on the initial and the final order of the legs only. *)
Definition no_left_bends (r : request) : Prop := forall i, bends_left r i = false.
Theorem C22_phase_path_independent : forall (G H : Type) gz gadd gopp hz hadd hopp (beta : G -> G -> H) (q : nat -> G) r instrs legs events,
  abelian_group gz gadd gopp -> abelian_group hz hadd hopp -> bicharacter G H gadd hadd beta ->
  valid_request r -> r_sym r = false -> charge gz gadd q (seq 0 (r_nc r + r_nd r)) = gz -> no_left_bends r ->
  run r = Ok instrs -> exec (legs0 (r_nc r) (r_nd r)) instrs = Some (legs, events) ->
  hadd (phase gz gadd hz hadd hopp beta q events) (potential hz hadd beta q (higher r) (r_cod r ++ rev (r_dom r))) = potential hz hadd beta q (higher r) (seq 0 (r_nc r + r_nd r)).
Proof.
  intros G H gz gadd gopp hz hadd hopp beta q r l legs evs GG HG B V Es Q0 NL E EX.
  assert (X := C22_phase_from_levels G H gz gadd gopp hz hadd hopp beta q r l legs evs GG HG B V Es Q0 E EX). cbv zeta in X.
  assert (L1 : left_out r = []) by (apply filter_none; intros i _; apply NL). assert (L2 : left_in r = []) by (apply filter_none; intros i _; apply NL).
  rewrite L1, L2, !app_nil_r in X. cbn [app] in X.
  set (p1 := potential _ _ _ _ _ (rest1 r)) in X. set (p2 := potential _ _ _ _ _ (rest2 r)) in X.
  apply (g_cancel HG (x := hadd p1 p2)). transitivity (hadd (hadd (hadd (phase gz gadd hz hadd hopp beta q evs) p1) p2) (potential hz hadd beta q (higher r) (r_cod r ++ rev (r_dom r)))).
  - gsolve HG.
  - rewrite X. gsolve HG.
Qed.
Print Assumptions C22_phase_path_independent.

(** ... so that permuting in two steps (the levels travelling with the legs) has the same effect as permuting at once. *)
Definition leg_order (r : request) : list nat := r_cod r ++ rev (r_dom r).
Theorem C22_permutations_compose : forall (G H : Type) gz gadd gopp hz hadd hopp (beta : G -> G -> H) (q : nat -> G) r1 r2 r3 i1 i2 i3 l1 l2 l3 e1 e2 e3,
  abelian_group gz gadd gopp -> abelian_group hz hadd hopp -> bicharacter G H gadd hadd beta ->
  valid_request r1 -> valid_request r2 -> valid_request r3 -> r_sym r1 = false -> r_sym r2 = false -> r_sym r3 = false ->
  no_left_bends r1 -> no_left_bends r2 -> no_left_bends r3 ->
  charge gz gadd q (seq 0 (r_nc r1 + r_nd r1)) = gz ->
  r_nc r2 = length (r_cod r1) -> r_nd r2 = length (r_dom r1) -> r_levels r2 = map (fun i => nth i (r_levels r1) None) (leg_order r1) ->
  r_nc r3 = r_nc r1 -> r_nd r3 = r_nd r1 -> r_levels r3 = r_levels r1 -> leg_order r3 = map (fun k => nth k (leg_order r1) 0) (leg_order r2) ->
  run r1 = Ok i1 -> run r2 = Ok i2 -> run r3 = Ok i3 ->
  exec (legs0 (r_nc r1) (r_nd r1)) i1 = Some (l1, e1) -> exec (legs0 (r_nc r2) (r_nd r2)) i2 = Some (l2, e2) -> exec (legs0 (r_nc r3) (r_nd r3)) i3 = Some (l3, e3) ->
  phase gz gadd hz hadd hopp beta q e3 =
  hadd (phase gz gadd hz hadd hopp beta q e1) (phase gz gadd hz hadd hopp beta (fun k => q (nth k (leg_order r1) 0)) e2).
Proof.
  intros G H gz gadd gopp hz hadd hopp beta q r1 r2 r3 i1 i2 i3 l1 l2 l3 e1 e2 e3 GG HG B V1 V2 V3 S1 S2 S3 N1 N2 N3 Q0 Nc2 Nd2 Lv2 Nc3 Nd3 Lv3 T3 R1 R2 R3 X1 X2 X3.
  assert (PT : is_perm (r_nc r1 + r_nd r1) (leg_order r1)) by apply V1.
  assert (LT : length (leg_order r1) = r_nc r1 + r_nd r1) by exact (is_perm_length PT).
  assert (NN : r_nc r2 + r_nd r2 = r_nc r1 + r_nd r1). { rewrite Nc2, Nd2, <- LT. unfold leg_order. rewrite app_length, rev_length. reflexivity. }
  set (f := fun k => nth k (leg_order r1) 0) in *. change (fun k => q (nth k (leg_order r1) 0)) with (fun k => q (f k)).
  assert (Ms : map f (seq 0 (r_nc r1 + r_nd r1)) = leg_order r1).
  { unfold f. rewrite <- LT. exact (take_seq 0 (leg_order r1)). }
  assert (Q2 : charge gz gadd (fun k => q (f k)) (seq 0 (r_nc r2 + r_nd r2)) = gz).
  { transitivity (charge gz gadd q (seq 0 (r_nc r1 + r_nd r1))); [|exact Q0]. rewrite NN. unfold charge. rewrite <- (map_map f q). rewrite Ms. apply (gsum_perm GG). apply Permutation_map. exact PT. }
  assert (Y1 := C22_phase_path_independent G H gz gadd gopp hz hadd hopp beta q r1 i1 l1 e1 GG HG B V1 S1 Q0 N1 R1 X1).
  assert (Q3 : charge gz gadd q (seq 0 (r_nc r3 + r_nd r3)) = gz) by now rewrite Nc3, Nd3.
  assert (Y3 := C22_phase_path_independent G H gz gadd gopp hz hadd hopp beta q r3 i3 l3 e3 GG HG B V3 S3 Q3 N3 R3 X3).
  assert (Y2 := C22_phase_path_independent G H gz gadd gopp hz hadd hopp beta (fun k => q (f k)) r2 i2 l2 e2 GG HG B V2 S2 Q2 N2 R2 X2).
  fold (leg_order r1) in Y1. fold (leg_order r2) in Y2. fold (leg_order r3) in Y3.
  assert (Hh : forall l, (forall k, In k l -> k < r_nc r1 + r_nd r1) -> potential hz hadd beta (fun k => q (f k)) (higher r2) l = potential hz hadd beta q (higher r1) (map f l)).
  { intros l Hl. rewrite <- pot_map. apply pot_ext. intros a b Hab. destruct (before_In Hab) as [Ia Ib]. apply Hl in Ia, Ib. unfold higher. rewrite Lv2.
    rewrite !nth_map_lt with (d := 0) by (rewrite LT; assumption). reflexivity. }
  rewrite (Hh (leg_order r2)) in Y2. 2:{ intros k Hk. rewrite <- NN. apply (is_perm_In k (proj1 V2)). exact Hk. }
  rewrite (Hh (seq 0 _)) in Y2. 2:{ intros k Hk. apply in_seq in Hk. lia. }
  rewrite NN, Ms in Y2. rewrite <- T3 in Y2.
  assert (Eh : potential hz hadd beta q (higher r3) = potential hz hadd beta q (higher r1)). { unfold higher. now rewrite Lv3. }
  rewrite Eh, Nc3, Nd3 in Y3. rewrite <- Y1 in Y3. rewrite <- Y2 in Y3.
  set (p3 := potential _ _ _ _ _ (leg_order r3)) in *. apply (g_cancel HG (x := p3)). rewrite (g_comm HG). rewrite Y3. gsolve HG.
Qed.
Print Assumptions C22_permutations_compose.

(** Symmetric braid (bosons, fermions): whatever the levels, the phase is that of reordering the legs, times the twist of the legs that bend to the left. *)
Theorem C22_symmetric_phase : forall (G H : Type) gz gadd gopp hz hadd hopp (beta : G -> G -> H) (q : nat -> G) r instrs legs events,
  abelian_group gz gadd gopp -> abelian_group hz hadd hopp -> bicharacter G H gadd hadd beta -> (forall x y, beta y x = hopp (beta x y)) ->
  valid_request r -> r_sym r = true -> charge gz gadd q (seq 0 (r_nc r + r_nd r)) = gz ->
  run r = Ok instrs -> exec (legs0 (r_nc r) (r_nd r)) instrs = Some (legs, events) ->
  let twist ls := beta (charge gz gadd q ls) (charge gz gadd q ls) in
  let pot := potential hz hadd beta q Nat.ltb in
  hadd (phase gz gadd hz hadd hopp beta q events) (pot (r_cod r ++ rev (r_dom r))) = hadd (hadd (pot (seq 0 (r_nc r + r_nd r))) (twist (left_out r))) (twist (left_in r)).
Proof.
  intros G H gz gadd gopp hz hadd hopp beta q r l legs evs GG HG [Bl Br] AS V Es Q0 E EX. cbv zeta.
  destruct (stage_perms V) as [P1 P2].
  assert (X : hadd (hadd (hadd (phase gz gadd hz hadd hopp beta q evs) (potential hz hadd beta q Nat.ltb (left_out r ++ rest1 r))) (potential hz hadd beta q Nat.ltb (rest2 r ++ left_in r))) (potential hz hadd beta q Nat.ltb (r_cod r ++ rev (r_dom r))) =
    hadd (hadd (potential hz hadd beta q Nat.ltb (seq 0 (r_nc r + r_nd r))) (potential hz hadd beta q Nat.ltb (rest1 r ++ left_out r))) (potential hz hadd beta q Nat.ltb (left_in r ++ rest2 r))).
  { refine (phase_total GG HG Bl Br V Q0 _ E EX). intros [a b] _ M. destruct (must_cross_facts V M) as [NE _]. unfold above_ok, cross, ovr. cbn [fst snd] in *. rewrite Es. split.
    - destruct (Nat.ltb_spec b a), (Nat.ltb_spec a b); cbn [negb]; lia || reflexivity.
    - unfold event_phase. destruct (a <? b); [reflexivity|]. rewrite (AS (q a)). symmetry. rewrite <- (g_opp_opp HG (beta (q a) (q b))) at 2. reflexivity. }
  (* rotating the legs ls past the others *)
  assert (Rt : forall ls others, NoDup (ls ++ others) -> gadd (charge gz gadd q ls) (charge gz gadd q others) = gz ->
     potential hz hadd beta q Nat.ltb (others ++ ls) = hadd (potential hz hadd beta q Nat.ltb (ls ++ others)) (beta (charge gz gadd q ls) (charge gz gadd q ls))).
  { intros ls others ND QQ. rewrite !(pot_app HG).
    set (p := potential _ _ _ _ _ ls). set (p' := potential _ _ _ _ _ others).
    set (c1 := gsum hz hadd (map (fun a => gsum hz hadd (map (fun b => if a <? b then beta (q a) (q b) else hz) ls)) others)).
    set (c2 := gsum hz hadd (map (fun a => gsum hz hadd (map (fun b => if a <? b then beta (q a) (q b) else hz) others)) ls)).
    assert (C2 : hadd c2 (hopp c1) = beta (charge gz gadd q ls) (charge gz gadd q others)).
    { (* exchange the sums in c1 *)
      assert (C1 : c1 = gsum hz hadd (map (fun a => gsum hz hadd (map (fun b => if b <? a then beta (q b) (q a) else hz) others)) ls)).
      { unfold c1. clear c1 c2 p p' ND QQ. induction others as [|o os IH]; cbn [map gsum fold_right].
        - induction ls as [|x xs IHx]; [reflexivity|]. cbn [map gsum fold_right]. rewrite (g_0l HG). exact IHx.
        - change (fold_right hadd hz ?z) with (gsum hz hadd z). rewrite IH. clear IH. induction ls as [|x xs IHx]; cbn [map gsum fold_right]; [apply (g_0l HG)|].
          change (fold_right hadd hz ?z) with (gsum hz hadd z) in *. rewrite <- IHx.
          set (u1 := if o <? x then _ else _). set (u2 := gsum _ _ (map _ xs)). set (u3 := gsum hz hadd (map (fun b => if b <? x then _ else _) os)). set (u4 := gsum _ _ (map _ xs)). gsolve HG. }
      rewrite C1. unfold c2. rewrite (beta_suml GG HG Bl). clear C1 c1 c2 p p' QQ. induction ls as [|x xs IHx]; cbn [map gsum fold_right]; [rewrite (g_0l HG); apply (g_opp_0 HG)|].
      change (fold_right hadd hz ?z) with (gsum hz hadd z) in *. cbn [app] in ND. inversion ND as [|? ? D1 D2]; subst. rewrite <- (IHx D2). rewrite (g_opp_add HG). rewrite (g_swap4 HG). f_equal.
      rewrite (beta_sumr GG HG Br). assert (NI : ~ In x others) by (intros I; apply D1; apply in_or_app; now right). clear - HG AS NI. induction others as [|o os IH]; cbn [map gsum fold_right]; [rewrite (g_0l HG); apply (g_opp_0 HG)|].
      change (fold_right hadd hz ?z) with (gsum hz hadd z) in *. rewrite <- IH by (intros I; apply NI; now right). rewrite (g_opp_add HG). rewrite (g_swap4 HG). f_equal.
      assert (x <> o) by (intros ->; apply NI; now left).
      destruct (Nat.ltb_spec x o), (Nat.ltb_spec o x); try lia; [rewrite (g_opp_0 HG); apply (g_0r HG)|]. rewrite (g_0l HG). rewrite (AS (q x)). apply (g_opp_opp HG). }
    assert (T0 : hadd (beta (charge gz gadd q ls) (charge gz gadd q ls)) (beta (charge gz gadd q ls) (charge gz gadd q others)) = hz).
    { rewrite <- Br, QQ. apply (beta_0r GG HG Br). }
    set (tw := beta (charge gz gadd q ls) (charge gz gadd q ls)) in *. rewrite <- C2 in T0.
    transitivity (hadd (hadd (hadd p' p) c1) (hadd tw (hadd c2 (hopp c1)))); [rewrite T0; gsolve HG|].
    transitivity (hadd (hadd (hadd (hadd p p') c2) tw) (hadd c1 (hopp c1))); [gsolve HG|]. rewrite (g_oppr HG). gsolve HG. }
  assert (ND : forall l, Permutation l (seq 0 (r_nc r + r_nd r)) -> NoDup l) by (intros k P; apply (Permutation_NoDup (Permutation_sym P)), seq_NoDup).
  rewrite (Rt (left_out r) (rest1 r)) in X. 2:{ now apply ND. } 2:{ rewrite <- (ch_app GG), (ch_perm GG q P1). exact Q0. }
  rewrite (Rt (left_in r) (rest2 r)) in X. 2:{ now apply ND. } 2:{ rewrite <- (ch_app GG), (ch_perm GG q P2). exact Q0. }
  set (t1 := beta (charge gz gadd q (left_out r)) _) in *. set (t2 := beta (charge gz gadd q (left_in r)) _) in *.
  set (a1 := potential _ _ _ _ _ (left_out r ++ rest1 r)) in X. set (a2 := potential _ _ _ _ _ (left_in r ++ rest2 r)) in X.
  assert (T2 : hadd t2 t2 = hz). { unfold t2. rewrite (AS (charge gz gadd q (left_in r)) (charge gz gadd q (left_in r))) at 1. apply (g_oppl HG). }
  set (p0 := potential _ _ _ _ _ (seq _ _)) in *. set (pT := potential _ _ _ _ _ (_ ++ rev _)) in *. set (F := phase _ _ _ _ _ _ _ _) in *.
  apply (g_cancel HG (x := hadd (hadd a1 a2) t2)).
  transitivity (hadd (hadd (hadd F a1) (hadd a2 t2)) pT); [gsolve HG|]. rewrite X. transitivity (hadd (hadd (hadd p0 (hadd a1 t1)) a2) (hadd t2 t2)); [rewrite T2; gsolve HG|gsolve HG].
Qed.
Print Assumptions C22_symmetric_phase.

(** ** Leg pipes: permute_legs hands the request over to the engine with every pipe replaced by its flat legs. The flat request is well formed, two flat legs have
    to cross exactly if their pipes have to (so legs of one pipe never cross), and levels that decide the crossings of the pipes decide those of the flat legs. *)
Theorem C22_pipes : forall pipes r, valid_request r -> length pipes = r_nc r + r_nd r ->
  valid_request (flat_request pipes r) /\
  (forall a b i j, part_of pipes a i -> part_of pipes b j ->
     (must_cross (flat_request pipes r) a b <-> must_cross r i j) /\ (comparable (flat_request pipes r) a b <-> comparable r i j)) /\
  (forall instrs, run r = Ok instrs -> exists instrs' events', run (flat_request pipes r) = Ok instrs' /\
     exec (legs0 (nsum (firstn (r_nc r) pipes)) (nsum (skipn (r_nc r) pipes))) instrs' = Some ((flat_codomain_idcs pipes (r_cod r), flat_domain_idcs pipes (r_dom r)), events')).
Proof.
  intros pipes r V LP. pose proof (flat_valid V LP) as V'. split; [exact V'|]. split.
  - intros a b i j Pa Pb. split; [exact (flat_must_cross V LP Pa Pb)|]. unfold comparable. now rewrite (level_flat V LP Pa), (level_flat V LP Pb).
  - intros l E. pose proof (proj1 (run_ok_iff V) (ex_intro _ l E)) as A.
    assert (A' : forall a b, must_cross (flat_request pipes r) a b -> good (flat_request pipes r) (a, b)).
    { intros a b M. destruct (must_cross_facts V' M) as [_ [La Lb]]. rewrite (flat_N pipes r) in La, Lb. destruct (part_exists La) as [i Pi]. destruct (part_exists Lb) as [j Pj].
      apply (flat_good V LP Pi Pj). apply A. now apply (flat_must_cross V LP Pi Pj). }
    apply (proj2 (run_ok_iff V')) in A'. destruct A' as [l' E']. pose proof (run_spec V') as S. rewrite E' in S. destruct S as [js1 [js2 [js3 [_ [_ [_ [_ [_ [_ [_ EX]]]]]]]]]].
    exists l', (events (flat_request pipes r) js1 js2 js3). split; [exact E'|exact EX].
Qed.
Print Assumptions C22_pipes.

(** ** Concrete cases *)
Definition ex_request (sym : bool) (levels : list (option Z)) : request :=
  Request 3 2 [3; 1] [2; 0; 4] levels [Some true; None; Some false; Some false; None] sym.
Definition lv (l : list Z) : list (option Z) := map Some l.
Example C22_ex_valid : valid_request (ex_request false (lv [4; 2; 0; 1; 3]%Z)).
Proof. split; [|split; [|split]]; try reflexivity. { apply is_perm_intro; [reflexivity|repeat constructor; cbn; lia|repeat constructor; cbn; lia]. }
  cbn [r_nc r_nd plus ex_request]. intros i Hi. do 5 (destruct i as [|i]; [cbv; congruence|]). lia. Qed.
Example C22_ex_run : exists l, run (ex_request false (lv [4; 2; 0; 1; 3]%Z)) = Ok l /\ option_map fst (exec (legs0 3 2) l) = Some ([3; 1], [2; 0; 4]) /\ length l = 19.
Proof. eexists. split; [vm_compute; reflexivity|]. split; vm_compute; reflexivity. Qed.
Example C22_ex_error : run (ex_request false (lv [2; 2; 0; 1; 3]%Z)) = Err EChirality /\ exists l, run (ex_request true (lv [2; 2; 0; 1; 3]%Z)) = Ok l.
Proof. split; [vm_compute; reflexivity|]. eexists. vm_compute. reflexivity. Qed.

(** anyons with charges in Z and braiding phase exp(i theta m n): phases are counted in units of theta *)
Lemma Z_group : abelian_group 0%Z Z.add Z.opp. Proof. repeat split; intros; lia. Qed.
Lemma Z_bicharacter : bicharacter Z Z Z.add Z.add Z.mul. Proof. split; intros; lia. Qed.
Definition ex_q (i : nat) : Z := nth i [1; 2; -4; 3; -2]%Z 0%Z.
Example C22_ex_phase : charge 0%Z Z.add ex_q (seq 0 5) = 0%Z /\
  exists l legs ev, run (ex_request false (lv [4; 2; 0; 1; 3]%Z)) = Ok l /\ exec (legs0 3 2) l = Some (legs, ev) /\ phase 0%Z Z.add 0%Z Z.add Z.opp Z.mul ex_q ev = (-18)%Z.
Proof. split; [reflexivity|]. eexists _, _, _. split; [vm_compute; reflexivity|]. split; vm_compute; reflexivity. Qed.
(** exchanging two legs of a tensor with a bend to the right, and back: phase 2 theta and -2 theta *)
Definition ex_r1 : request := Request 2 1 [1] [2; 0] (lv [5; 3; 1]%Z) [Some true; None; None] false.
Definition ex_r2 : request := Request 1 2 [2; 0] [1] (lv [3; 5; 1]%Z) [None; None; Some true] false.
Example C22_ex_two_steps : valid_request ex_r1 /\ leg_order ex_r1 = [1; 0; 2] /\ no_left_bends ex_r1 /\
  exists l legs ev, run ex_r1 = Ok l /\ exec (legs0 2 1) l = Some (legs, ev) /\ phase 0%Z Z.add 0%Z Z.add Z.opp Z.mul (fun i => nth i [1; 2; -3]%Z 0%Z) ev = 2%Z.
Proof.
  split.
  { split; [|split; [|split]]; try reflexivity. { apply is_perm_intro; [reflexivity|repeat constructor; cbn; lia|repeat constructor; cbn; lia]. } cbn [r_nc r_nd plus ex_r1]. intros i Hi. do 3 (destruct i as [|i]; [cbv; congruence|]). lia. }
  split; [reflexivity|]. split. { intros i. unfold bends_left, changes_side. destruct i as [|[|[|i]]]; reflexivity. }
  eexists _, _, _. split; [vm_compute; reflexivity|]. split; vm_compute; reflexivity.
Qed.
(** fermions: H = {1, -1} as bool with xor *)
Lemma bool_group : abelian_group false xorb (fun x => x). Proof. repeat split; intros; repeat match goal with x : bool |- _ => destruct x end; reflexivity. Qed.
Lemma fermion_bicharacter : bicharacter Z bool Z.add xorb (fun x y => Z.odd x && Z.odd y).
Proof. split; intros; rewrite Z.odd_add; destruct (Z.odd x), (Z.odd y), (Z.odd z); reflexivity. Qed.
Example C22_ex_fermions : (forall x y, (Z.odd y && Z.odd x) = (Z.odd x && Z.odd y)) /\
  exists l legs ev, run (ex_request true (repeat None 5)) = Ok l /\ exec (legs0 3 2) l = Some (legs, ev) /\
    phase 0%Z Z.add false xorb (fun x => x) (fun x y => Z.odd x && Z.odd y) ex_q ev = false.
Proof. split; [intros; apply andb_comm|]. eexists _, _, _. split; [vm_compute; reflexivity|]. split; vm_compute; reflexivity. Qed.
Example C22_ex_pipes : flat_request [2; 1; 3; 2; 1] (ex_request false (lv [4; 2; 0; 1; 3]%Z)) =
  Request 6 3 [6; 7; 2] [5; 4; 3; 1; 0; 8] (lv [4; 4; 2; 0; 0; 0; 1; 1; 3]%Z) [Some true; Some true; None; Some false; Some false; Some false; Some false; Some false; None] false.
Proof. reflexivity. Qed.
