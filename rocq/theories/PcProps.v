(** C71: planar_contraction joins exactly the given pairs of legs and keeps the others in order -- where it does; the requests for which it does not. *)
From Coq Require Import ZArith List Bool Lia Permutation.
From Verif Require Import Util GridModel PermLegsModel PermLegsSpec PlanarModel PlanarSpec PlanarProofs1 PlanarProofs2 PlanarProofs4 PlanarProofs7 PlanarProofs8 PcModel PcSpec PcProofs1 PcProofs2 PcProofs3.
Import ListNotations.
Open Scope nat_scope.

(** Every planar contraction is accepted, exactly the given pairs are joined, and around the result the open legs of tensor 1 are followed by those of tensor 2, except for
    the contractions that the last four hypotheses exclude (refuted below): the contracted legs of a tensor run across the point between its last leg and leg 0
    and the open legs do not lie between the contracted ones of the codomain and those of the domain; all legs of tensor 1 are contracted and the
    partner of leg 0 is not the first of the partners; all legs of tensor 2 are contracted and it is bent down. *)
Theorem C71_contracts_as_requested_partial : forall trivial_braid sym nc1 nd1 nc2 nd2 legs1 legs2 contr1 open1 contr2 open2, (trivial_braid = true -> sym = true) ->
  length legs1 = length legs2 -> legs1 <> [] -> planar_pairing (nc1 + nd1) (nc2 + nd2) legs1 legs2 contr1 open1 contr2 open2 ->
  reachable nc1 nd1 contr1 open1 -> reachable nc2 nd2 contr2 open2 ->
  (open1 = [] -> contr1 = seq 0 (nc1 + nd1)) -> (open2 = [] -> tensor1_below nc1 nc2 legs1 legs2 -> length legs1 <= 1) ->
  exists r, planar_contraction trivial_braid sym nc1 nd1 nc2 nd2 legs1 legs2 = COk r /\ contraction legs1 legs2 open1 open2 r.
Proof. exact contract_ok. Qed.
Print Assumptions C71_contracts_as_requested_partial.

(** No leg is contracted: the outer product, for tensors with legs. *)
Theorem C71_outer : forall trivial_braid sym nc1 nd1 nc2 nd2, (trivial_braid = true -> sym = true) -> 0 < nc1 + nd1 -> 0 < nc2 + nd2 ->
  exists r, planar_contraction trivial_braid sym nc1 nd1 nc2 nd2 [] [] = COk r /\ contraction [] [] (seq 0 (nc1 + nd1)) (seq 0 (nc2 + nd2)) r.
Proof.
  intros triv sym nc1 nd1 nc2 nd2 TS N1 N2. unfold planar_contraction. cbn [length Nat.eqb negb]. unfold parse_leg_bipartition. cbn [has_dup existsb orb map seq forallb negb filter length Nat.sub]. cbv zeta. cbn [plus]. change (0 <? 0) with false. cbv iota.
  rewrite !Nat.sub_0_r, !Nat.add_0_r. unfold range. rewrite !Nat.sub_0_r. assert (NE : forall n, 0 < n -> seq 0 n <> []) by (intros [|n] H; [lia|discriminate]).
  assert (NR : forall n, 0 < n -> rev (seq 0 n) <> []) by (intros n H E; apply (f_equal (@rev nat)) in E; rewrite rev_involutive in E; now apply (NE n)).
  assert (R0 : forall n, exists k, k <= n /\ seq 0 n = rotation k (seq 0 n)) by (intros n; exists 0; split; [lia|]; unfold rotation; cbn; now rewrite app_nil_r).
  destruct (Nat.ltb_spec nd2 nc1) as [H|H].
  - cbn [helper]. unfold reversed_range, range. rewrite Nat.sub_0_r. rewrite (@moved_ok triv sym nc1 nd1 None (Some (rev (seq 0 (nc1 + nd1)))) [] (rev (seq 0 (nc1 + nd1))) TS (NR _ N1) Logic.I eq_refl).
    2: { destruct (R0 (nc1 + nd1)) as (k & K & E). exists k. split; [exact K|]. cbn. now rewrite rev_involutive. }
    cbn [with_leg bind fst length]. change (0 <? 0) with false. cbv iota. rewrite (@moved_ok triv sym nc2 nd2 (Some (seq 0 (nc2 + nd2))) (Some []) (seq 0 (nc2 + nd2)) [] TS Logic.I eq_refl eq_refl).
    2: { destruct (R0 (nc2 + nd2)) as (k & K & E). exists k. split; [exact K|]. cbn. now rewrite app_nil_r. }
    cbn [bind]. eexists. split; [reflexivity|]. split; cbn [j_pairs j_legs]; [exists []; split; constructor|].
    apply around_split. unfold name1, name2. cbn [fst snd map app]. now rewrite map_rev, rev_involutive.
  - cbn [helper]. unfold range. rewrite Nat.sub_0_r. rewrite (@moved_ok triv sym nc2 nd2 (Some (seq 0 (nc2 + nd2))) None (seq 0 (nc2 + nd2)) [] TS (NE _ N2) eq_refl Logic.I).
    2: { destruct (R0 (nc2 + nd2)) as (k & K & E). exists k. split; [exact K|]. cbn. now rewrite app_nil_r. }
    cbn [with_leg bind snd length]. change (0 <? 0) with false. cbv iota. rewrite (@moved_ok triv sym nc1 nd1 (Some []) (Some (rev (seq 0 (nc1 + nd1)))) [] (rev (seq 0 (nc1 + nd1))) TS Logic.I eq_refl eq_refl).
    2: { destruct (R0 (nc1 + nd1)) as (k & K & E). exists k. split; [exact K|]. cbn. now rewrite rev_involutive. }
    cbn [bind]. eexists. split; [reflexivity|]. split; cbn [j_pairs j_legs]; [exists []; split; constructor|].
    apply around_split. unfold name1, name2. cbn [fst snd map app]. now rewrite map_rev, rev_involutive.
Qed.
Print Assumptions C71_outer.

(** Nothing else is accepted: an answer is only given if the contraction is planar. *)
Theorem C71_accepts_only_planar : forall trivial_braid sym nc1 nd1 nc2 nd2 legs1 legs2 r, planar_contraction trivial_braid sym nc1 nd1 nc2 nd2 legs1 legs2 = COk r ->
  length legs1 = length legs2 /\ exists contr1 open1 contr2 open2, planar_pairing (nc1 + nd1) (nc2 + nd2) legs1 legs2 contr1 open1 contr2 open2.
Proof.
  intros triv sym nc1 nd1 nc2 nd2 legs1 legs2 r. unfold planar_contraction. destruct (Nat.eqb_spec (length legs2) (length legs1)) as [LL|]; [|discriminate]. cbn [negb].
  destruct (parse_leg_bipartition legs1 (nc1 + nd1)) as [[contr1 open1]|] eqn:B1; [|discriminate]. destruct (parse_leg_bipartition legs2 (nc2 + nd2)) as [[c2 open2]|] eqn:B2; [|discriminate]. cbv zeta.
  set (h := fun c1 => nth (index_of legs1 c1) legs2 0). fold (descends (nc2 + nd2) (map h contr1)). destruct (descends (nc2 + nd2) (map h contr1)) eqn:D; [|discriminate]. intros _. split; [now symmetry|].
  destruct (bipartition_sound B1) as (ND1 & F1 & P1 & C1). destruct (bipartition_sound B2) as (ND2 & F2 & _ & _).
  assert (E2 : map h legs1 = legs2) by (apply partners_eq; [exact ND1|now symmetry|reflexivity]).
  assert (CM : forall l, combine l (map h l) = map (fun x => (x, h x)) l) by (induction l; cbn; f_equal; auto).
  assert (P2 : Permutation (map h contr1) legs2) by (rewrite <- E2; now apply Permutation_map).
  set (m := length contr1). set (s := last (map h contr1) 0). exists contr1, open1, (map h contr1), (arc (nc2 + nd2) (s + m) (nc2 + nd2 - m)). split.
  - now rewrite map_length.
  - transitivity (combine legs1 (map h legs1)); [|now rewrite E2]. rewrite !CM. now apply Permutation_map.
  - exact C1.
  - assert (F : Forall (fun i => i < nc2 + nd2) (map h contr1)) by (apply Forall_forall; intros x I; rewrite Forall_forall in F2; apply F2; now apply (Permutation_in _ P2)).
    assert (LM : m <= nc2 + nd2).
    { assert (X : length legs2 <= length (seq 0 (nc2 + nd2))) by (apply NoDup_incl_length; [exact ND2|]; intros x I; apply in_seq; rewrite Forall_forall in F2; specialize (F2 x I); lia). rewrite seq_length in X.
      apply Permutation_length in P1. unfold m. lia. }
    destruct (Nat.eq_dec (nc2 + nd2) 0) as [Z|N].
    { assert (M0 : m = 0) by lia. unfold m in M0. apply length_zero_iff_nil in M0. subst contr1. exists 0. rewrite Z. split; [lia|reflexivity]. }
    assert (X := descends_inv (n2 := nc2 + nd2) ltac:(lia) F D). rewrite map_length in X. fold s m in X.
    assert (M := Nat.mod_upper_bound s (nc2 + nd2) N). exists (s mod (nc2 + nd2)). split; [lia|]. rewrite <- arc_rotation by lia.
    rewrite X at 1. rewrite rev_involutive, <- arc_app. replace (m + (nc2 + nd2 - m)) with (nc2 + nd2) by lia. apply arc_cong; [exact N|]. now rewrite Nat.mod_mod.
Qed.
Print Assumptions C71_accepts_only_planar.

(** helpers for the refutations *)
Definition pair_of (p : (nat + nat) * (nat + nat)) : nat * nat := match p with (inl i, inr j) | (inr j, inl i) => (i, j) | _ => (0, 0) end.
Lemma joins_pair_of P l : Forall2 joins P l -> l = map pair_of P.
Proof. intros F. induction F as [|p [i j] P l J F IH]; [reflexivity|]. cbn [map]. rewrite <- IH. f_equal. destruct J as [-> | ->]; reflexivity. Qed.
Lemma not_contraction legs1 legs2 open1 open2 r p : In p (map pair_of (j_pairs r)) -> ~ In p (combine legs1 legs2) -> ~ contraction legs1 legs2 open1 open2 r.
Proof. intros I N [(l & P & F) _]. apply N. apply joins_pair_of in F. subst l. now apply (Permutation_in _ P). Qed.

(** Full contraction of two tensors where tensor 1 lies below (3 legs in its domain, 3 legs in the codomain of tensor 2): an error although the legs
    could be composed as they are; *)
Theorem C71_full_contraction_refuted : forall trivial_braid sym,
  planar_pairing 3 3 [0; 1; 2] [2; 1; 0] [0; 1; 2] [] [2; 1; 0] [] /\
  planar_contraction trivial_braid sym 0 3 3 0 [0; 1; 2] [2; 1; 0] = CErr (Permute NonPlanar).
Proof.
  intros triv sym. split; [|destruct triv, sym; reflexivity]. split; [reflexivity|reflexivity|exists 0; split; [lia|reflexivity]|exists 0; split; [lia|reflexivity]].
Qed.
Print Assumptions C71_full_contraction_refuted.
(** with two legs each there is an answer, but the legs are joined crosswise. *)
Theorem C71_crossed_refuted : forall trivial_braid sym, (trivial_braid = true -> sym = true) ->
  planar_pairing 2 2 [0; 1] [1; 0] [0; 1] [] [1; 0] [] /\
  exists r, planar_contraction trivial_braid sym 0 2 2 0 [0; 1] [1; 0] = COk r /\ map pair_of (j_pairs r) = [(1, 1); (0, 0)] /\ ~ contraction [0; 1] [1; 0] [] [] r.
Proof.
  intros triv sym TS. split.
  - split; [reflexivity|reflexivity|exists 0; split; [lia|reflexivity]|exists 0; split; [lia|reflexivity]].
  - destruct triv, sym; try discriminate (TS eq_refl); (eexists; split; [vm_compute; reflexivity|]; split; [reflexivity|]; apply (@not_contraction _ _ _ _ _ (1, 1)); [cbn; tauto|cbn; intros [X|[X|[]]]; discriminate]).
Qed.
Print Assumptions C71_crossed_refuted.
(** All three legs of tensor 1 are contracted, their partners follow each other around tensor 2: rejected, because the code only tries to start at leg 0 of tensor 1. *)
Theorem C71_rotated_refuted : forall trivial_braid sym,
  planar_pairing 3 4 [0; 1; 2] [0; 2; 1] [1; 2; 0] [] [2; 1; 0] [3] /\
  planar_contraction trivial_braid sym 3 0 4 0 [0; 1; 2] [0; 2; 1] = CErr NotPlanar.
Proof.
  intros triv sym. split; [|reflexivity]. split; [reflexivity| |exists 1; split; [lia|reflexivity]|exists 0; split; [lia|reflexivity]].
  cbn. apply perm_trans with [(1, 2); (0, 0); (2, 1)]; [apply perm_skip, perm_swap|apply perm_swap].
Qed.
Print Assumptions C71_rotated_refuted.
(** A tensor whose legs are all in the codomain, contracted at its first and last leg: legs 2 and 1 are contracted instead of 0 and 2. *)
Theorem C71_across_refuted : forall trivial_braid sym, (trivial_braid = true -> sym = true) ->
  planar_pairing 3 3 [0; 1] [0; 2] [0; 1] [2] [0; 2] [1] /\
  exists r, planar_contraction trivial_braid sym 2 1 3 0 [0; 1] [0; 2] = COk r /\ map pair_of (j_pairs r) = [(0, 2); (1, 1)] /\ ~ contraction [0; 1] [0; 2] [2] [1] r.
Proof.
  intros triv sym TS. split.
  - split; [reflexivity|reflexivity|exists 0; split; [lia|reflexivity]|exists 2; split; [lia|reflexivity]].
  - destruct triv, sym; try discriminate (TS eq_refl); (eexists; split; [vm_compute; reflexivity|]; split; [reflexivity|]; apply (@not_contraction _ _ _ _ _ (1, 1)); [cbn; tauto|cbn; intros [X|[X|[]]]; discriminate]).
Qed.
Print Assumptions C71_across_refuted.
(** A tensor with legs on both sides of which only the middle leg of the domain stays open: the open leg is contracted. *)
Theorem C71_corners_refuted : forall trivial_braid sym, (trivial_braid = true -> sym = true) ->
  planar_pairing 6 6 [5; 0; 1; 2; 3] [4; 3; 2; 1; 0] [5; 0; 1; 2; 3] [4] [4; 3; 2; 1; 0] [5] /\
  exists r, planar_contraction trivial_braid sym 3 3 5 1 [5; 0; 1; 2; 3] [4; 3; 2; 1; 0] = COk r /\
    map pair_of (j_pairs r) = [(4, 0); (3, 1); (2, 2); (1, 3); (0, 4)] /\ ~ contraction [5; 0; 1; 2; 3] [4; 3; 2; 1; 0] [4] [5] r.
Proof.
  intros triv sym TS. split.
  - split; [reflexivity|reflexivity|exists 5; split; [lia|reflexivity]|exists 0; split; [lia|reflexivity]].
  - destruct triv, sym; try discriminate (TS eq_refl); (eexists; split; [vm_compute; reflexivity|]; split; [reflexivity|]; apply (@not_contraction _ _ _ _ _ (4, 0)); [cbn; tauto|cbn; intuition discriminate]).
Qed.
Print Assumptions C71_corners_refuted.
(** The product with a tensor without legs is refused if tensor 1 has no leg in its codomain. *)
Theorem C71_no_legs_refuted : forall trivial_braid sym nd1, planar_contraction trivial_braid sym 0 nd1 0 0 [] [] = CErr (Permute EmptyGiven).
Proof. reflexivity. Qed.
Print Assumptions C71_no_legs_refuted.

(** Tensors with 2 + 2 legs each, contracted across the right side of tensor 1 and the left side of tensor 2 (partial_compose). *)
Example contraction_sides : planar_contraction false false 2 2 2 2 [1; 2] [0; 3] = COk (Joined [(inr 0, inl 1); (inr 3, inl 2)] ([inr 1], [inl 0; inl 3; inr 2])) /\
  reachable 2 2 [1; 2] [3; 0] /\ reachable 2 2 [0; 3] [1; 2] /\ planar_pairing 4 4 [1; 2] [0; 3] [1; 2] [3; 0] [0; 3] [1; 2].
Proof.
  split; [reflexivity|]. split; [left; cbn; lia|]. split; [right; cbn; lia|]. split; [reflexivity|reflexivity|exists 1; split; [lia|reflexivity]|exists 3; split; [lia|reflexivity]].
Qed.
(** all legs of tensor 1, which starts at its leg 0, with three of tensor 2 *)
Example contraction_full : planar_contraction false false 3 0 2 2 [0; 1; 2] [0; 3; 2] = COk (Joined [(inr 0, inl 0); (inr 3, inl 1); (inr 2, inl 2)] ([inr 1], [])).
Proof. reflexivity. Qed.
Example contraction_rejected : planar_contraction false false 2 2 2 2 [0; 1] [0; 1] = CErr NotPlanar /\ planar_contraction false false 2 2 2 2 [0; 2] [0; 1] = CErr NotBipartition /\
  planar_contraction false false 2 2 2 2 [0] [0; 1] = CErr DifferentLength.
Proof. repeat split. Qed.
