(** C70: planar_partial_trace accepts exactly the planar traces, and after its rearrangement the legs of every pair can be traced as neighbours; the
    order of legs in FusionTreeBackend::partial_trace. *)
From Coq Require Import ZArith List Bool Lia Permutation.
From Verif Require Import Util PermLegsModel PermLegsSpec PlanarModel PlanarSpec PlanarProofs1 PlanarProofs2 PlanarProofs4 PlanarProofs6 PlanarProps PtModel PtSpec PtProofs1 PtProofs2 PtProofs3 PtProofs4 PtProofs5.
Import ListNotations.
Open Scope nat_scope.

Lemma no_duplicates_NoDup ps : no_duplicates ps = true <-> NoDup (pair_legs ps).
Proof. unfold no_duplicates. rewrite negb_true_iff. apply has_dup_NoDup. Qed.
Lemma good_planar n ps : planar_trace n ps -> Forall (fun x => x < n) (pair_legs ps) -> forall p, In p ps -> pair_ok n ps p.
Proof.
  intros (A & B & C) F p I. split; [intros q J NE; now apply B|]. apply sides with (n := n); [intros x y; now apply C|]. rewrite Forall_forall in F. destruct (pmin_pmax p) as [_ [[_ ->]|[_ ->]]]; apply F; apply pair_legs_In; exists p; auto.
Qed.
Lemma request_planar n k co dom : k <= n -> co ++ rev dom = rotation k (seq 0 n) -> planar n co dom.
Proof. intros K E. now exists k. Qed.
Lemma turned_legs n k ps : Forall (fun x => x < n) (pair_legs ps) -> k <= n -> NoDup (pair_legs ps) -> NoDup (pair_legs (map (turn_pair n k) ps)).
Proof.
  intros F K ND. assert (E : pair_legs (map (turn_pair n k) ps) = map (turn n k) (pair_legs ps)) by exact (pair_legs_map (turn n k) ps). rewrite E. apply NoDup_map_inj; [|exact ND]. intros x y I J. rewrite Forall_forall in F. apply turn_inj; auto.
Qed.
Lemma accepted fusion_tree nc nd ps : NoDup (pair_legs ps) -> Forall (fun x => x < nc + nd) (pair_legs ps) -> planar_trace (nc + nd) ps ->
  exists request k, good_cut (nc + nd) ps k /\ planar_partial_trace fusion_tree nc nd (lists ps) = TOk (request, map (turn_pair (nc + nd) k) ps) /\
    match request with None => k = 0 | Some (co, dom) => fusion_tree = true /\ co ++ rev dom = rotation k (seq 0 (nc + nd)) end \/
  fusion_tree = false /\ planar_partial_trace fusion_tree nc nd (lists ps) = TOk (None, ps).
Proof.
  intros ND F PT. assert (CK := proj2 (checks_planar ND F) PT). unfold planar_partial_trace. cbv zeta. rewrite concat_lists, CK, as_pair_lists. destruct fusion_tree.
  - destruct (@prepare_spec nc nd ps ND F (good_planar _ _ PT F)) as (request & k & G & E & R). exists request, k. left. rewrite E. split; [exact G|]. assert (K := proj1 G).
    assert (D : no_duplicates (map (turn_pair (nc + nd) k) ps) = true) by (apply no_duplicates_NoDup; now apply turned_legs).
    destruct request as [[co dom]|]; [|now rewrite D].
    rewrite (planar_permute_ok nc nd (Some co) (Some dom) co dom Logic.I eq_refl eq_refl (request_planar _ k co dom K R)). destruct (planar_calls (request_planar _ k co dom K R)) as (steps & -> & _). now rewrite D.
  - exists None, 0. right. split; [reflexivity|]. now rewrite (proj2 (no_duplicates_NoDup ps) ND).
Qed.
Lemma accepted_inv fusion_tree nc nd pairs r : Forall (Forall (fun x => x < nc + nd)) pairs -> planar_partial_trace fusion_tree nc nd pairs = TOk r ->
  exists ps, pairs = lists ps /\ NoDup (pair_legs ps) /\ Forall (fun x => x < nc + nd) (pair_legs ps) /\ planar_trace (nc + nd) ps.
Proof.
  intros FF E. unfold planar_partial_trace in E. cbv zeta in E. destruct (check_pairs (nc + nd) (concat pairs) pairs pairs) as [[]|] eqn:CK; [|discriminate].
  assert (SZ := check_pairs_size CK). assert (EL := lists_as_pair SZ). set (ps := map as_pair pairs) in *. exists ps. split; [exact EL|]. rewrite EL, concat_lists in CK.
  assert (F : Forall (fun x => x < nc + nd) (pair_legs ps)). { rewrite <- concat_lists, <- EL. apply Forall_concat. exact FF. }
  assert (ND : NoDup (pair_legs ps)).
  { rewrite EL, concat_lists in E. destruct fusion_tree.
    - unfold prepare in E. cbv zeta in E. destruct (bends (nc + nd) (pair_legs ps) ps) as [up down].
      assert (MI : forall f, no_duplicates (map (fun p : nat * nat => (f (fst p), f (snd p))) ps) = true -> NoDup (pair_legs ps)).
      { intros f D. apply no_duplicates_NoDup in D. rewrite pair_legs_map in D. now apply NoDup_map_inv in D. }
      destruct (down =? 0).
      + destruct (up =? 0); [|discriminate]. destruct (no_duplicates ps) eqn:D; [|discriminate]. now apply no_duplicates_NoDup.
      + destruct (down <? up).
        * destruct (planar_permute_legs nc nd _ _); [|discriminate]. destruct (no_duplicates _) eqn:D in E; [|discriminate]. exact (MI (fun x => (x + down) mod (nc + nd)) D).
        * destruct (planar_permute_legs nc nd _ _); [|discriminate]. destruct (no_duplicates _) eqn:D in E; [|discriminate]. exact (MI (fun x => (x + (nc + nd - up)) mod (nc + nd)) D).
    - destruct (no_duplicates ps) eqn:D; [|discriminate]. now apply no_duplicates_NoDup. }
  split; [exact ND|]. split; [exact F|]. now apply (checks_planar ND F).
Qed.

(** Accepted, with every backend: exactly if every pair has two legs and the trace is planar. *)
Theorem C70_accepts_exactly_planar : forall fusion_tree nc nd pairs, Forall (Forall (fun x => x < nc + nd)) pairs ->
  (exists r, planar_partial_trace fusion_tree nc nd pairs = TOk r) <-> Forall (fun p => length p = 2) pairs /\ planar_trace (nc + nd) (map as_pair pairs).
Proof.
  intros ft nc nd pairs FF. split.
  - intros (r & E). destruct (accepted_inv _ _ _ _ _ FF E) as (ps & -> & ND & F & PT). rewrite as_pair_lists. split; [|exact PT]. apply Forall_forall. intros l I. unfold lists in I. apply in_map_iff in I. now destruct I as (p & <- & _).
  - intros [SZ PT]. assert (EL := lists_as_pair SZ). set (ps := map as_pair pairs) in *. rewrite EL in *. assert (F : Forall (fun x => x < nc + nd) (pair_legs ps)) by (rewrite <- concat_lists; apply Forall_concat; exact FF).
    destruct (accepted ft nc nd ps (proj1 PT) F PT) as (request & k & [(_ & E & _)|[_ E]]); eexists; exact E.
Qed.
Print Assumptions C70_accepts_exactly_planar.

(** Planar means: the circle of legs can be closed by joining neighbouring legs one pair after the other. *)
Theorem C70_planar_iff_joining_neighbours : forall n pairs, Forall (fun x => x < n) (pair_legs pairs) -> planar_trace n pairs <-> closes (seq 0 n) pairs.
Proof.
  intros n pairs F. split.
  - intros PT. rewrite <- (labels_seq (n := n) (qs := pairs) F). assert (L : length (seq 0 n) = n) by apply seq_length. apply closes_of_planar with (m := length pairs); rewrite ?L; auto.
  - intros C. apply planar_of_closes in C. destruct C as (qs & -> & PT & R). rewrite seq_length in *. rewrite (labels_seq R). exact PT.
Qed.
Print Assumptions C70_planar_iff_joining_neighbours.

(** Fusion tree backend: the legs are rearranged in a planar way, the pairs are renamed accordingly, and afterwards all the legs between the two legs
    of a pair are traced. *)
Theorem C70_rearranged : forall nc nd pairs request pairs', Forall (Forall (fun x => x < nc + nd)) pairs -> planar_partial_trace true nc nd pairs = TOk (request, pairs') ->
  exists legs, (match request with None => legs = seq 0 (nc + nd) | Some (co, dom) => legs = co ++ rev dom /\ planar (nc + nd) co dom end) /\
    map (fun p => (nth_error legs (fst p), nth_error legs (snd p))) pairs' = map (fun p => (nth_error p 0, nth_error p 1)) pairs /\
    forall p x, In p pairs' -> between p x -> traced_leg pairs' x.
Proof.
  intros nc nd pairs request pairs' FF E. destruct (accepted_inv _ _ _ _ _ FF E) as (ps & -> & ND & F & PT). destruct (accepted true nc nd ps ND F PT) as (request' & k & [(G & E' & R)|[X _]]); [|discriminate].
  rewrite E in E'. injection E' as <- ->. assert (K := proj1 G). exists (rotation k (seq 0 (nc + nd))). split; [|split].
  - destruct request as [[co dom]|]; [destruct R as [_ R]; split; [now symmetry|now apply (request_planar _ k)]|]. rewrite R. unfold rotation. cbn. now rewrite app_nil_r.
  - unfold lists. rewrite !map_map. apply map_ext_in. intros p I. assert (L := leg_lt F I). destruct L as [L1 L2]. unfold turn_pair. cbn [fst snd nth_error].
    assert (LR : length (rotation k (seq 0 (nc + nd))) = nc + nd) by (now rewrite rotation_length, seq_length).
    assert (T : forall x, x < nc + nd -> nth_error (rotation k (seq 0 (nc + nd))) (turn (nc + nd) k x) = Some x).
    { intros x Hx. rewrite (nth_error_nth' _ 0); [now rewrite nth_turn|]. rewrite LR. now apply turn_lt. }
    now rewrite !T.
  - intros p x I B. apply in_map_iff in I. destruct I as (q & <- & I). exact (turned_traced ND F (good_planar _ _ PT F) G I B).
Qed.
Print Assumptions C70_rearranged.

(** Then, in the order of legs that FusionTreeBackend::partial_trace uses, the legs of every pair are neighbours on the same side, and the remaining legs keep
    order and side. *)
Theorem C70_planar_neighbours : forall nc nd pairs request pairs', Forall (Forall (fun x => x < nc + nd)) pairs -> planar_partial_trace true nc nd pairs = TOk (request, pairs') ->
  let nc' := match request with None => nc | Some (co, _) => length co end in
  let nd' := match request with None => nd | Some (_, dom) => length dom end in
  neighbours nc' nd' pairs' (fst (trace_order nc' nd' pairs')) (snd (trace_order nc' nd' pairs')).
Proof.
  intros nc nd pairs request pairs' FF E nc' nd'. destruct (C70_rearranged nc nd pairs request pairs' FF E) as (_ & _ & _ & B). destruct (accepted_inv _ _ _ _ _ FF E) as (ps & -> & ND & F & PT). destruct (accepted true nc nd ps ND F PT) as (request' & k & [(G & E' & R)|[X _]]); [|discriminate].
  rewrite E in E'. injection E' as <- ->. assert (K := proj1 G). destruct (planar_trace_turn K F PT) as [PT' R'].
  assert (N : nc' + nd' = nc + nd). { unfold nc', nd'. destruct request as [[co dom]|]; [|reflexivity]. destruct R as [_ R]. apply (f_equal (@length nat)) in R. rewrite app_length, rev_length, rotation_length, seq_length in R. exact R. }
  apply trace_order_neighbours; [exact (proj1 PT')|rewrite N; exact R'|]. intros p I. apply same_slot; [exact (proj1 PT')|exact I|]. right. intros x. now apply B.
Qed.
Print Assumptions C70_planar_neighbours.

(** The same for every trace, planar or not, if the legs of each pair are given in ascending order ... *)
Theorem C70_ascending_neighbours : forall nc nd pairs, NoDup (pair_legs pairs) -> Forall (fun x => x < nc + nd) (pair_legs pairs) -> (forall p, In p pairs -> fst p < snd p) ->
  neighbours nc nd pairs (fst (trace_order nc nd pairs)) (snd (trace_order nc nd pairs)).
Proof. intros nc nd pairs ND F LT. apply trace_order_neighbours; [exact ND|exact F|]. intros p I. apply same_slot; [exact ND|exact I|]. left. now apply LT. Qed.
Print Assumptions C70_ascending_neighbours.

(** ... but not if a pair is given in descending order: the pairs are sorted before the legs of each pair are. *)
Theorem C70_descending_pair_refuted : ~ (forall nc nd pairs, NoDup (pair_legs pairs) -> Forall (fun x => x < nc + nd) (pair_legs pairs) ->
  neighbours nc nd pairs (fst (trace_order nc nd pairs)) (snd (trace_order nc nd pairs))).
Proof.
  intros H. destruct (H 6 0 [(2, 3); (5, 0)]) as (_ & N & _); [repeat constructor; cbn; intuition lia|repeat constructor|].
  destruct (N (2, 3) (or_introl eq_refl)) as (i & X & _). assert (T : fst (trace_order 6 0 [(2, 3); (5, 0)]) = [1; 2; 0; 5; 3; 4]) by reflexivity. rewrite T in X. clear -X. cbn [fst snd] in X.
  do 7 (destruct i as [|i]; [cbn in X; destruct X as [[X Y]|[X Y]]; discriminate|]). destruct i; cbn in X; destruct X as [[X _]|[X _]]; discriminate.
Qed.
Print Assumptions C70_descending_pair_refuted.

(** A list that is too short is read beyond its end if another pair is checked first. *)
Theorem C70_short_pair_undefined : planar_partial_trace true 3 0 [[0; 1]; [2]] = TErr OutOfBounds.
Proof. reflexivity. Qed.
Print Assumptions C70_short_pair_undefined.

(** 4 + 2 legs; the legs 2 and 3 remain: the two nested pairs are traced around the side; after the rearrangement they are (3, 4) and (2, 5) *)
Example nested_pairs : planar_partial_trace true 4 2 [[1; 4]; [0; 5]] = TOk (Some ([2; 3], [1; 0; 5; 4]), [(5, 2); (4, 3)]).
Proof. reflexivity. Qed.
Example nested_pairs_order : trace_order 2 4 [(5, 2); (4, 3)] = ([0; 1; 3; 4; 2; 5], 2).
Proof. reflexivity. Qed.
Example crossing_pairs : planar_partial_trace true 4 0 [[0; 2]; [1; 3]] = TErr NotPlanar /\ planar_partial_trace false 4 0 [[0; 2]] = TErr NotPlanar /\ planar_partial_trace false 4 0 [[0; 1]; [1; 2]] = TErr Duplicates.
Proof. repeat split. Qed.
Example trace_closes : closes [0; 1; 2; 3; 4; 5] [(1, 4); (0, 5)].
Proof.
  apply (closes_turn (l := [0; 1; 2; 3; 4]) (l' := [5])). cbn. apply (closes_join (x := 5) (y := 0) (circle := [1; 2; 3; 4]) (p := (0, 5)) (pairs := [(1, 4)])); [now right|apply perm_swap|].
  apply (closes_turn (l := [1; 2; 3]) (l' := [4])). cbn. apply (closes_join (x := 4) (y := 1) (circle := [2; 3]) (p := (1, 4)) (pairs := [])); [now right|reflexivity|constructor].
Qed.
