(** C52: where permute_legs, move_leg, combine_legs and split_legs put legs and labels.
    LegOpsSpec.v has the vocabulary: [leg_at], [label_at] (the n-th leg / label of a tensor), [groups_ok], [group_at] (the group that starts with leg n),
    [absorbed] (legs that disappear into a group which starts elsewhere), [expand], [kept], [rank], [documented_leg], [plain_label]. *)
From Coq Require Import List Arith Bool ZArith Ascii Permutation Lia.
From Verif Require Import Util GridModel SymModel SpaceModel AbelianModel PipeModel PipeProofs4 LabelsModel LabelsProofs LegOpsModel LegOpsSpec LegOpsProofs LegOpsProofs2 LegOpsProofs3 LegOpsProofs4 LegOpsProofs5 LegOpsProofs6 LegOpsProofs7.
Import ListNotations.
Open Scope nat_scope.

(** permute_legs with codomain and domain given: accepted exactly if every leg occurs once; the legs of the result are the given ones, in the given order
    (the domain from right to left), with their labels *)
Theorem C52_permute_legs : forall t codomain domain, tens_ok t -> Forall (fun n => n < num_legs t) (codomain ++ domain) ->
  (permute_legs t (Some codomain) (Some domain) <> None <-> Permutation (codomain ++ domain) (seq 0 (num_legs t))) /\
  forall t', permute_legs t (Some codomain) (Some domain) = Some t' ->
    legs t' = map (leg_at t) (codomain ++ rev domain) /\ t_labels t' = map (label_at t) (codomain ++ rev domain) /\ num_codomain t' = length codomain /\
    num_legs t' = num_legs t.
Proof.
  intros t c d TOK F. assert (Q : is_perm (num_legs t) (c ++ rev d) <-> Permutation (c ++ d) (seq 0 (num_legs t))).
  { unfold is_perm. assert (K : Permutation (c ++ rev d) (c ++ d)) by (apply Permutation_app_head; symmetry; apply Permutation_rev). split; intros H; [now rewrite <- K|now rewrite K]. }
  assert (I : permute_legs t (Some c) (Some d) <> None -> is_perm (num_legs t) (c ++ rev d)).
  { intros H. apply parse_both_inv; [exact F|]. unfold permute_legs in H. destruct (parse_permutation t (Some c) (Some d)) as [[a b]|]; congruence. }
  split.
  - split; [intros H; apply Q; now apply I|]. intros H. apply Q in H. destruct (permute_legs_both TOK H) as [t' [E _]]. congruence.
  - intros t' E. assert (P : is_perm (num_legs t) (c ++ rev d)) by (apply I; congruence). destruct (permute_legs_both TOK P) as [t'' [E' H]]. rewrite E in E'. injection E' as <-.
    destruct H as [H1 [H2 H3]]. split; [exact H1|]. split; [exact H2|]. split; [exact H3|]. rewrite <- legs_length, H1, map_length. now apply is_perm_length.
Qed.
Print Assumptions C52_permute_legs.

(** with only one of the two given, the remaining legs keep their order *)
Theorem C52_permute_legs_one_side : forall t l, tens_ok t -> Forall (fun n => n < num_legs t) l -> NoDup l ->
  let rest := filter (fun n => negb (contains l n)) (seq 0 (num_legs t)) in
  permute_legs t (Some l) None = permute_legs t (Some l) (Some (rev rest)) /\ permute_legs t None (Some l) = permute_legs t (Some rest) (Some l) /\
  permute_legs t (Some l) None <> None /\ permute_legs t None (Some l) <> None /\ permute_legs t None None = None.
Proof.
  intros t l TOK F ND rest.
  assert (P : Permutation (l ++ rest) (seq 0 (num_legs t))).
  { apply NoDup_Permutation; [|apply seq_NoDup|].
    - apply NoDup_app_intro; [exact ND|apply NoDup_filter, seq_NoDup|]. intros x X Y. apply filter_In in Y. destruct Y as [_ Y]. apply negb_true_iff, contains_false in Y. contradiction.
    - intros x. rewrite in_app_iff. unfold rest. rewrite filter_In. rewrite Forall_forall in F. destruct (contains l x) eqn:C.
      + apply contains_iff in C. split; [intros _; apply in_seq; specialize (F x C); lia|intros _; now left].
      + apply contains_false in C. cbn [negb]. split; [intros [I|[I _]]; [contradiction|exact I]|intros I; right; now split]. }
  assert (P1 : is_perm (num_legs t) (l ++ rev (rev rest))) by (rewrite rev_involutive; exact P).
  assert (P2 : is_perm (num_legs t) (rest ++ rev l)).
  { unfold is_perm. rewrite <- P. rewrite <- Permutation_rev. apply Permutation_app_comm. }
  unfold permute_legs. rewrite (parse_both_perm P1), (parse_both_perm P2). cbn [parse_permutation]. rewrite (filter_rev' (fun n => negb (contains l n))). fold rest. repeat split; congruence.
Qed.
Print Assumptions C52_permute_legs_one_side.

(** permuting twice composes, and the inverse arrangement restores the tensor's legs, labels and bipartition *)
Theorem C52_permute_back : forall t codomain domain t', tens_ok t -> Permutation (codomain ++ domain) (seq 0 (num_legs t)) ->
  permute_legs t (Some codomain) (Some domain) = Some t' ->
  let p := inverse_permutation (codomain ++ rev domain) in
  permute_legs t' (Some (firstn (num_codomain t) p)) (Some (rev (skipn (num_codomain t) p))) = Some t.
Proof.
  intros t c d t' TOK P E p.
  assert (IP : is_perm (num_legs t) (c ++ rev d)).
  { unfold is_perm. rewrite <- P. apply Permutation_app_head. symmetry. apply Permutation_rev. }
  destruct (permute_legs_both TOK IP) as [x [E' [H1 [H2 H3]]]]. rewrite E in E'. injection E' as <-.
  assert (IP' := GridProofs.inverse_permutation_perm IP).
  assert (NL : num_legs t' = num_legs t) by (rewrite <- legs_length, H1, map_length; now apply is_perm_length).
  assert (TOK' : tens_ok t') by (unfold tens_ok; rewrite H2, map_length, NL; now apply is_perm_length).
  assert (IPP : is_perm (num_legs t') (firstn (num_codomain t) p ++ rev (rev (skipn (num_codomain t) p)))) by (rewrite rev_involutive, firstn_skipn, NL; exact IP').
  destruct (permute_legs_both TOK' IPP) as [y [E'' [K1 [K2 K3]]]]. rewrite E''. f_equal. rewrite rev_involutive, firstn_skipn in K1, K2.
  assert (PC : forall A (f g : nat -> A), (forall i, i < num_legs t -> g i = f (nth i (c ++ rev d) 0)) -> map g p = map f (seq 0 (num_legs t))).
  { intros A f g Hfg. apply list_eq_nth with (d := f 0); [rewrite !map_length, seq_length; now apply is_perm_length|]. intros i Hi. rewrite map_length in Hi. unfold p in Hi. rewrite (is_perm_length IP') in Hi.
    rewrite nth_map_lt with (d := 0) by (unfold p; rewrite (is_perm_length IP'); exact Hi). rewrite nth_map_lt with (d := 0) by (now rewrite seq_length). rewrite seq_nth by exact Hi.
    destruct (is_perm_surj IP Hi) as [j [Hj Ej]]. cbn [plus]. rewrite Hfg by (apply (is_perm_nth_lt IP' Hi)). f_equal. rewrite <- Ej. unfold p. rewrite (GridProofs.inverse_permutation_l IP Hj). reflexivity. }
  apply tens_ext.
  - rewrite K1. rewrite (PC _ (leg_at t) (leg_at t')).
    + rewrite <- legs_length. apply (map_nth_seq_all noleg).
    + intros i Hi. unfold leg_at at 1. rewrite H1. apply nth_map_lt. now rewrite (is_perm_length IP).
  - rewrite K3, firstn_length. unfold p. rewrite (is_perm_length IP'). unfold num_codomain, num_legs. lia.
  - rewrite K2. rewrite (PC _ (label_at t) (label_at t')).
    + rewrite <- TOK. apply (map_nth_seq_all None).
    + intros i Hi. unfold label_at at 1. rewrite H2. apply nth_map_lt. now rewrite (is_perm_length IP).
Qed.
Print Assumptions C52_permute_back.

(** move_leg puts leg l at the given position of the codomain (domain); all other legs keep their side and order *)
Theorem C52_move_leg : forall t l, tens_ok t -> l < num_legs t ->
  let codomain := filter (fun n => negb (n =? l)) (seq 0 (num_codomain t)) in
  let domain := filter (fun n => negb (n =? l)) (seq (num_codomain t) (num_legs t - num_codomain t)) in
  (forall p, p <= length codomain -> exists t', move_leg t l (Some p) None = Some t' /\
     legs t' = map (leg_at t) (firstn p codomain ++ l :: skipn p codomain ++ domain) /\
     t_labels t' = map (label_at t) (firstn p codomain ++ l :: skipn p codomain ++ domain) /\ num_codomain t' = length codomain + 1) /\
  (forall p, p <= length domain -> exists t', move_leg t l None (Some p) = Some t' /\
     legs t' = map (leg_at t) (codomain ++ firstn (length domain - p) domain ++ l :: skipn (length domain - p) domain) /\
     t_labels t' = map (label_at t) (codomain ++ firstn (length domain - p) domain ++ l :: skipn (length domain - p) domain) /\
     num_codomain t' = length codomain /\ nth p (t_domain t') noleg = dual_leg (leg_at t l)).
Proof.
  intros t l TOK Hl co dom. destruct (move_spec TOK Hl) as [M1 M2]. split; intros p Hp.
  - destruct (M1 p Hp) as [t' M]. exists t'. unfold insert_nth in M. rewrite <- app_assoc in M. exact M.
  - destruct (M2 p Hp) as [t' M]. exists t'. exact M.
Qed.
Print Assumptions C52_move_leg.

(** combine_legs.  The legs of the result are those not absorbed into a group, in their order; a group sits where its first leg was (and so it is in the
    codomain iff its first leg is) and is a pipe of its legs in the given order, whatever side they came from.  The groups are in leg order, as are the
    dualities and pipes: the k-th pipe has is_dual = pipe_dualities[k].  Unlabelled legs get distinct placeholder numbers.
    Pipes may be given instead of being computed; the data are combined with exactly these pipes at the contiguous places of the groups. *)
Theorem C52_combine_legs : forall debug abelian S t groups dualities pipes, tens_ok t -> groups_ok (num_legs t) groups -> in_leg_order groups ->
  length dualities = length groups -> pipes_ok t groups (fun k => nth k dualities false) pipes ->
  exists r, combine_legs debug abelian S t groups dualities pipes = Some r /\
    legs (r_tensor r) = map (documented_leg t groups dualities) (kept (num_legs t) groups) /\
    t_labels (r_tensor r) = map (fun n => match group_at groups n with
                                          | Some g => Some (combine_leg_labels (map (label_at t) g) (Z.of_nat (unlabelled_before t groups n)))
                                          | None => label_at t n end) (kept (num_legs t) groups) /\
    num_codomain (r_tensor r) = length (filter (fun n => n <? num_codomain t) (kept (num_legs t) groups)) /\
    legs (r_permuted r) = map (leg_at t) (flat_map (expand groups) (seq 0 (num_legs t))) /\
    t_labels (r_permuted r) = map (label_at t) (flat_map (expand groups) (seq 0 (num_legs t))) /\
    num_codomain (r_permuted r) = length (flat_map (expand groups) (seq 0 (num_codomain t))) /\
    length (r_which r) = length groups /\ length (r_pipes r) = length groups /\
    forall k, k < length groups ->
      let g := nth k groups [] in
      let first := length (flat_map (expand groups) (seq 0 (hd 0 g))) in
      nth k (r_which r) [] = seq first (length g) /\
      nth k (r_pipes r) None = Some (if hd 0 g <? num_codomain t then documented_leg t groups dualities (hd 0 g) else dual_leg (documented_leg t groups dualities (hd 0 g))).
Proof.
  intros dbg ab S t groups dl pipes TOK GOK ORD LD POK. destruct (combine_spec dbg ab S TOK GOK POK) as [r [E [H1 [H2 [H3 [H4 [H5 [H6 [H7 H8]]]]]]]]].
  assert (DOC : forall n, documented_leg t groups dl n = result_leg t groups (fun k => nth k dl false) n).
  { intros n. unfold documented_leg, result_leg. destruct (find _ (combine groups dl)) as [[g d]|] eqn:F.
    - apply find_some in F. destruct F as [I F]. cbn [fst] in F. apply Nat.eqb_eq in F. apply (In_nth _ _ ([], false)) in I. destruct I as [k [Hk EK]].
      rewrite combine_length in Hk. rewrite combine_nth in EK by (now symmetry). injection EK as E1 E2.
      destruct (in_order_rank GOK ORD (k := k) ltac:(lia)) as [R1 R2]. rewrite E1, F in R1, R2. rewrite R1, R2, E2. reflexivity.
    - destruct (group_at groups n) as [g|] eqn:G; [|reflexivity]. exfalso. apply (group_at_iff GOK) in G. destruct G as [I G]. apply (In_nth _ _ []) in I. destruct I as [k [Hk EK]].
      assert (IC : In (nth k groups [], nth k dl false) (combine groups dl)) by (rewrite <- combine_nth by (now symmetry); apply nth_In; rewrite combine_length; lia).
      apply (find_none _ _ F) in IC. cbn [fst] in IC. rewrite EK, G, Nat.eqb_refl in IC. discriminate. }
  assert (HN : forall k, k < length groups -> nth k (heads (num_legs t) groups) 0 = hd 0 (nth k groups [])).
  { assert (HL : length (map (hd 0) groups) = length groups) by apply map_length.
    assert (K := heads_map_rank (f := fun n => n) (l := map (hd 0) groups) (dflt := 0) GOK).
    assert (K2 : forall m g, group_at groups m = Some g -> m < num_legs t -> nth (rank groups m) (map (hd 0) groups) 0 = m).
    { intros m g G _. apply (group_at_iff GOK) in G. destruct G as [I G]. apply (In_nth _ _ []) in I. destruct I as [k [Hk EK]].
      destruct (in_order_rank GOK ORD (k := k) Hk) as [_ R]. rewrite EK, G in R. rewrite R. rewrite nth_map_lt with (d := []) by exact Hk. rewrite EK. exact G. }
    specialize (K K2 (num_legs t) (le_n _)). rewrite (rank_N GOK), HL in K. specialize (K (le_n _)). rewrite map_id in K. intros k Hk. rewrite K.
    rewrite nth_firstn_lt by exact Hk. now apply nth_map_lt. }
  assert (LH : length (heads (num_legs t) groups) = length groups) by (rewrite (heads_length _ GOK); apply (rank_N GOK)).
  exists r. split; [exact E|]. split; [rewrite H1; apply map_ext; intros n; symmetry; apply DOC|]. split; [exact H2|]. split; [exact H3|].
  split; [exact H4|]. split; [exact H5|]. split; [exact H6|]. split; [now rewrite H7, map_length|]. split; [now rewrite H8, map_length|].
  intros k Hk g first. destruct (in_order_rank GOK ORD (k := k) Hk) as [R1 R2]. split.
  - rewrite H7. rewrite nth_map_lt with (d := 0) by (now rewrite LH). rewrite (HN k Hk). rewrite (expand_group R1). reflexivity.
  - rewrite H8. rewrite nth_map_lt with (d := 0) by (now rewrite LH). rewrite (HN k Hk). unfold result_pipe. fold g. now rewrite DOC.
Qed.
Print Assumptions C52_combine_legs.

(** For groups in any order the legs, labels, places and the arguments of the data operation are still right, except that the dualities (and given pipes) are
    assigned in leg order instead of the order in which the groups were given ([rank]: the number of groups which start further left).
    Missing for the full property: the documented assignment of pipe_dualities and pipes, which fails below. *)
Theorem C52_combine_legs_any_order_partial : forall debug abelian S t groups dualities pipes, tens_ok t -> groups_ok (num_legs t) groups ->
  pipes_ok t groups (fun k => nth k dualities false) pipes ->
  exists r, combine_legs debug abelian S t groups dualities pipes = Some r /\
    legs (r_tensor r) = map (fun n => match group_at groups n with
                                      | Some g => LPipe (map (leg_at t) g) (nth (rank groups n) dualities false) (negb (nth (rank groups n) dualities false))
                                      | None => leg_at t n end) (kept (num_legs t) groups) /\
    t_labels (r_tensor r) = map (fun n => match group_at groups n with
                                          | Some g => Some (combine_leg_labels (map (label_at t) g) (Z.of_nat (unlabelled_before t groups n)))
                                          | None => label_at t n end) (kept (num_legs t) groups) /\
    num_codomain (r_tensor r) = length (filter (fun n => n <? num_codomain t) (kept (num_legs t) groups)) /\
    legs (r_permuted r) = map (leg_at t) (flat_map (expand groups) (seq 0 (num_legs t))) /\
    num_codomain (r_permuted r) = length (flat_map (expand groups) (seq 0 (num_codomain t))).
Proof.
  intros dbg ab S t groups dl pipes TOK GOK POK. destruct (combine_spec dbg ab S TOK GOK POK) as [r [E [H1 [H2 [H3 [H4 [_ [H6 _]]]]]]]].
  exists r. now repeat (split; [assumption|]).
Qed.
Print Assumptions C52_combine_legs_any_order_partial.

(** With assertions enabled a given pipe is checked: if combine_legs succeeds, the pipe given for the k-th group has the duality that was asked for (flipped on
    the domain side, where legs are stored dual) and is combined in the default order of that duality; unless the backend is abelian, its legs are those of the group. *)
Theorem C52_given_pipe_checked : forall abelian S t groups dualities pipes r k p, tens_ok t -> groups_ok (num_legs t) groups -> in_leg_order groups ->
  combine_legs true abelian S t groups dualities pipes = Some r -> k < length groups -> nth k pipes None = Some p ->
  let g := nth k groups [] in
  let side_codomain := hd 0 g <? num_codomain t in
  let d := if side_codomain then nth k dualities false else negb (nth k dualities false) in
  let ls := if side_codomain then map (leg_at t) g else rev (map (fun n => dual_leg (leg_at t n)) g) in
  exists ls', p = LPipe ls' d (negb d) /\ (abelian = true \/ leg_eqb S (LPipe ls' false true) (LPipe ls false true) = true).
Proof.
  intros ab S t groups dl pipes r k p TOK GOK ORD C Hk NP g sc d ls. destruct (in_order_rank GOK ORD (k := k) Hk) as [R1 R2]. fold g in R1, R2.
  assert (HN : hd 0 g < num_legs t).
  { assert (I := proj1 (proj1 (group_at_iff GOK _ _) R1)). assert (Q := proj1 (Forall_forall _ _) (proj1 GOK) g I). destruct Q as [Q1 Q2].
    destruct g as [|x g']; [congruence|]. cbn [hd]. now inversion Q2. }
  assert (NP0 := NP). rewrite <- R2 in NP0. assert (K := combine_checks TOK GOK C HN R1 NP0). rewrite R2 in K. rewrite map_map in K. exact K.
Qed.
Print Assumptions C52_given_pipe_checked.

(** the legs only change their places *)
Theorem C52_combine_is_permutation : forall N groups, groups_ok N groups -> Permutation (flat_map (expand groups) (seq 0 N)) (seq 0 N).
Proof. intros N groups G. exact (expand_perm G). Qed.
Print Assumptions C52_combine_is_permutation.

(** a leg in two groups is rejected *)
Theorem C52_combine_rejects_duplicates : forall debug abelian S t groups dualities pipes, ~ NoDup (concat groups) -> combine_legs debug abelian S t groups dualities pipes = None.
Proof.
  intros dbg ab S t groups dl pipes H. unfold combine_legs. destruct (has_dup (concat groups)) eqn:E; [reflexivity|]. exfalso. apply H. now apply has_dup_iff.
Qed.
Print Assumptions C52_combine_rejects_duplicates.

(** split_legs: each chosen pipe (all pipes if none are given) is replaced by its legs, in their order, on its side; labels accordingly *)
Theorem C52_split_legs : forall debug t idcs t', tens_ok t -> Forall (fun n => n < num_legs t) (match idcs with Some l => l | None => [] end) -> split_legs debug t idcs = Ok t' ->
  let chosen n := match idcs with Some l => contains l n | None => is_pipe (leg_at t n) end in
  let parts n := if chosen n then sublegs (leg_at t n) else [leg_at t n] in
  (forall n, n < num_legs t -> chosen n = true -> is_pipe (leg_at t n) = true) /\
  legs t' = flat_map parts (seq 0 (num_legs t)) /\
  num_codomain t' = length (flat_map parts (seq 0 (num_codomain t))) /\
  exists labels, length labels = num_legs t /\ t_labels t' = concat labels /\
    forall n, n < num_legs t -> (if chosen n then split_leg_label debug (label_at t n) (Some (Z.of_nat (length (sublegs (leg_at t n))))) else Ok [label_at t n]) = Ok (nth n labels []).
Proof. intros dbg t idcs t' TOK F E. exact (split_spec TOK F E). Qed.
Print Assumptions C52_split_legs.

(** an index of a leg that is not a pipe is rejected *)
Theorem C52_split_rejects : forall debug t l n, Forall (fun n => n < num_legs t) l -> In n l -> is_pipe (leg_at t n) = false -> split_legs debug t (Some l) = Throw.
Proof.
  intros dbg t l n F I P. unfold split_legs. cbn [parse_split]. destruct (forallb _ l) eqn:FA; [|reflexivity]. exfalso. rewrite forallb_forall in FA. specialize (FA n I).
  rewrite Forall_forall in F. rewrite is_pipe_co in FA by now apply F. congruence.
Qed.
Print Assumptions C52_split_rejects.

(** splitting exactly the combined legs again gives the tensor with permuted legs: same legs, labels and bipartition *)
Theorem C52_round_trip : forall debug abelian S t groups dualities pipes r which, tens_ok t -> groups_ok (num_legs t) groups ->
  pipes_ok t groups (fun k => nth k dualities false) pipes ->
  combine_legs debug abelian S t groups dualities pipes = Some r ->
  (forall n, In n (concat groups) -> plain_label (label_at t n)) ->
  (forall i, In i which <-> i < num_legs (r_tensor r) /\ group_at groups (nth i (kept (num_legs t) groups) 0) <> None) ->
  split_legs debug (r_tensor r) (Some which) = Ok (r_permuted r).
Proof.
  intros dbg ab S t groups dl pipes r which TOK GOK POK E CL W.
  apply (round_trip TOK GOK POK E).
  - intros n I. specialize (CL n I). destruct (label_at t n) as [x|]; [|exact Logic.I]. destruct CL as [C1 C2]. split; [exact C1|].
    destruct x as [|c x]; [reflexivity|]. cbn [starts_with]. destruct (Ascii.eqb_spec "?"%char c) as [EC |]; [|reflexivity]. exfalso. apply (C2 x). now rewrite EC.
  - apply Forall_forall. intros i I. now apply W.
  - intros i Hi. unfold is_head. destruct (group_at groups (nth i (kept (num_legs t) groups) 0)) eqn:G.
    + apply contains_iff, W. split; [exact Hi|congruence].
    + apply contains_false. intros I. apply W in I. destruct I as [_ I]. now apply I.
Qed.
Print Assumptions C52_round_trip.

(** combine_to_matrix: two legs, one in the codomain and one in the domain, if both sides are non-empty; otherwise [None] (the code reads element 0 of an empty vector) *)
Theorem C52_combine_to_matrix : forall debug abelian S t codomain domain, tens_ok t -> Permutation (codomain ++ domain) (seq 0 (num_legs t)) ->
  (codomain <> [] -> domain <> [] -> exists r, combine_to_matrix debug abelian S t (Some codomain) (Some domain) = Some r /\ num_codomain r = 1 /\
     legs r = [LPipe (map (leg_at t) codomain) false true; LPipe (map (leg_at t) (rev domain)) false true]) /\
  (codomain = [] \/ domain = [] -> combine_to_matrix debug abelian S t (Some codomain) (Some domain) = None).
Proof.
  intros dbg ab S t c d TOK P.
  assert (IP : is_perm (num_legs t) (c ++ rev d)). { unfold is_perm. rewrite <- P. apply Permutation_app_head. symmetry. apply Permutation_rev. }
  destruct (permute_legs_both TOK IP) as [x [E [H1 [H2 H3]]]]. unfold combine_to_matrix. rewrite E.
  assert (NX : num_legs x = length c + length d) by (rewrite <- legs_length, H1, map_length, app_length, rev_length; reflexivity).
  assert (OKX : tens_ok x) by (unfold tens_ok; rewrite H2, map_length, app_length, rev_length; now rewrite NX).
  rewrite H3, NX. split.
  - intros NC ND. assert (LC : 0 < length c) by (destruct c; [congruence|cbn; lia]). assert (LD : 0 < length d) by (destruct d; [congruence|cbn; lia]).
    destruct (Nat.eqb_spec (length c) 0) as [?K0|_]; [lia|]. destruct (Nat.eqb_spec (length c) (length c + length d)) as [?K1|_]; [lia|]. cbn [orb].
    replace (length c + length d - length c) with (length d) by lia.
    set (gs := [seq 0 (length c); seq (length c) (length d)]).
    assert (GOK : groups_ok (num_legs x) gs).
    { split.
      - constructor; [|constructor; [|constructor]]; split.
        + destruct (length c); [lia|discriminate].
        + apply Forall_forall. intros m I. apply in_seq in I. lia.
        + destruct (length d); [lia|discriminate].
        + apply Forall_forall. intros m I. apply in_seq in I. lia.
      - cbn [concat gs]. rewrite app_nil_r, <- seq_app. apply seq_NoDup. }
    assert (POK : pipes_ok x gs (fun k => nth k [false; false] false) [None; None]).
    { split; [reflexivity|]. intros n g _. left. destruct (rank gs n) as [|[|[|]]]; reflexivity. }
    destruct (combine_spec dbg ab S OKX GOK POK) as [r [EC [C1 [C2 [C3 _]]]]]. rewrite EC. exists (r_tensor r). split; [reflexivity|].
    assert (HC0 : hd 0 (seq 0 (length c)) = 0) by (destruct (length c); [lia|reflexivity]).
    assert (HD0 : hd 0 (seq (length c) (length d)) = length c) by (destruct (length d); [lia|reflexivity]).
    assert (KP : kept (num_legs x) gs = [0; length c]).
    { unfold kept. rewrite NX. rewrite seq_app, filter_app. cbn [plus].
      assert (A0 : forall n, absorbed gs n = (0 <? n) && (n <? length c) || (length c <? n) && (n <? length c + length d)).
      { intros n. apply eq_true_iff_eq. rewrite absorbed_iff, orb_true_iff, !andb_true_iff, !Nat.ltb_lt. unfold gs. split.
        - intros [g [[<-|[<-|[]]] T]].
          + left. destruct (length c); [lia|]. cbn [seq tl] in T. apply in_seq in T. lia.
          + right. destruct (length d) as [|k]; [lia|]. cbn [seq tl] in T. apply in_seq in T. lia.
        - intros [T|T].
          + exists (seq 0 (length c)). split; [now left|]. destruct (length c); [lia|]. cbn [seq tl]. apply in_seq. lia.
          + exists (seq (length c) (length d)). split; [right; now left|]. destruct (length d); [lia|]. cbn [seq tl]. apply in_seq. lia. }
      assert (F1 : filter (fun n => negb (absorbed gs n)) (seq 0 (length c)) = [0]).
      { destruct (length c) as [|k] eqn:EK; [lia|]. cbn [seq filter]. rewrite (A0 0). cbn [Nat.ltb Nat.leb andb orb negb]. f_equal.
        apply filter_none. intros n I. apply in_seq in I. apply negb_false_iff. rewrite A0. apply orb_true_iff. left. apply andb_true_iff. rewrite !Nat.ltb_lt. lia. }
      assert (F2 : filter (fun n => negb (absorbed gs n)) (seq (length c) (length d)) = [length c]).
      { destruct (length d) as [|k] eqn:EK; [lia|]. cbn [seq filter].
        assert (AC : absorbed gs (length c) = false). { rewrite A0, !Nat.ltb_irrefl, andb_false_r. reflexivity. }
        rewrite AC. cbn [negb]. f_equal. apply filter_none. intros n I. apply in_seq in I. apply negb_false_iff. rewrite A0. apply orb_true_iff. right. apply andb_true_iff. rewrite !Nat.ltb_lt. lia. }
      rewrite F1, F2. reflexivity. }
    rewrite KP in C1, C3. split.
    + rewrite C3, H3. cbn [filter]. destruct (Nat.ltb_spec 0 (length c)); [|lia]. rewrite Nat.ltb_irrefl. reflexivity.
    + rewrite C1. cbn [map]. 
      assert (G0 : group_at gs 0 = Some (seq 0 (length c))) by (apply (group_at_iff GOK); split; [now left|exact HC0]).
      assert (G1 : group_at gs (length c) = Some (seq (length c) (length d))) by (apply (group_at_iff GOK); split; [right; now left|exact HD0]).
      unfold result_leg. rewrite G0, G1.
      assert (DF : forall k, nth k [false; false] false = false) by (intros [|[|[|]]]; reflexivity). rewrite !DF. cbn [negb].
      assert (LX : forall n, n < length c + length d -> leg_at x n = leg_at t (nth n (c ++ rev d) 0)).
      { intros n Hn. unfold leg_at at 1. rewrite H1. apply nth_map_lt. rewrite app_length, rev_length. exact Hn. }
      f_equal; [|f_equal]; f_equal.
      * apply list_eq_nth with (d := noleg); [now rewrite !map_length, seq_length|]. intros i Hi. rewrite map_length, seq_length in Hi.
        rewrite nth_map_lt with (d := 0) by (now rewrite seq_length). rewrite seq_nth by exact Hi. rewrite LX by lia. rewrite nth_map_lt with (d := 0) by exact Hi. f_equal. apply app_nth1. lia.
      * apply list_eq_nth with (d := noleg); [now rewrite !map_length, seq_length, rev_length|]. intros i Hi. rewrite map_length, seq_length in Hi.
        rewrite nth_map_lt with (d := 0) by (now rewrite seq_length). rewrite seq_nth by exact Hi. rewrite LX by lia. rewrite nth_map_lt with (d := 0) by (now rewrite rev_length). f_equal.
        rewrite app_nth2 by lia. f_equal. lia.
  - intros [->| ->]; cbn [length]; [reflexivity|]. rewrite Nat.add_0_r, Nat.eqb_refl, orb_true_r. reflexivity.
Qed.
Print Assumptions C52_combine_to_matrix.

(** * Concrete instances *)
Definition sp (k : nat) : leg := LSpace (ES [[0%Z]] [k] false None).
Definition lab (s : list ascii) : label := Some s.
Definition tx : tens := Tens [sp 1; sp 2; sp 3] [sp 6; sp 5; sp 4] [lab ["a"%char]; None; lab ["c"%char]; None; lab ["e"%char]; lab ["f"%char]].
Example C52_ex_ok : tens_ok tx /\ groups_ok (num_legs tx) [[1; 4]; [5; 0; 3]] /\ in_leg_order [[1; 4]; [5; 0; 3]] /\
  pipes_ok tx [[1; 4]; [5; 0; 3]] (fun k => nth k [true; false] false) [None; None].
Proof.
  split; [reflexivity|]. split.
  - split; [repeat (constructor; [split; [discriminate|repeat constructor]|]); constructor|]. cbn. repeat constructor; cbn; intuition discriminate.
  - split; [intros i j H; cbn in H; destruct i as [|[|i]]; destruct j as [|[|j]]; cbn; lia|]. split; [reflexivity|]. intros n g _. left. destruct (rank _ n) as [|[|[|]]]; reflexivity.
Qed.
(** the groups [1, 4] and [5, 0, 3]: legs 1 (codomain) and 4 (domain) become a pipe in the codomain, legs 5, 0, 3 one in the domain *)
Example C52_ex_combine :
  match combine_legs true false U1 tx [[1; 4]; [5; 0; 3]] [true; false] [None; None] with
  | Some r => legs (r_tensor r) = [LPipe [sp 2; dual_leg (sp 5)] true false; sp 3; LPipe [dual_leg (sp 6); sp 1; dual_leg (sp 4)] false true] /\
      num_codomain (r_tensor r) = 2 /\ r_which r = [[0; 1]; [3; 4; 5]] /\
      split_legs true (r_tensor r) (Some [0; 2]) = Ok (r_permuted r) /\
      split_legs true (r_tensor r) None = Ok (r_permuted r)
  | None => False
  end.
Proof. vm_compute. repeat split. Qed.
Example C52_ex_move : match move_leg tx 4 (Some 1) None with Some t => legs t = [sp 1; dual_leg (sp 5); sp 2; sp 3; dual_leg (sp 4); dual_leg (sp 6)] /\ num_codomain t = 4 | None => False end.
Proof. vm_compute. repeat split. Qed.

(** a wrong duality, and a space in place of a pipe, are rejected *)
Example C52_ex_given_pipes :
  combine_legs true true U1 tx [[1; 4]; [5; 0; 3]] [true; false] [Some (LPipe [sp 2; dual_leg (sp 5)] true false); None] <> None /\
  combine_legs true true U1 tx [[1; 4]; [5; 0; 3]] [true; false] [Some (LPipe [sp 2; dual_leg (sp 5)] false true); None] = None /\
  combine_legs true false U1 tx [[1; 4]; [5; 0; 3]] [true; false] [Some (LPipe [sp 3; dual_leg (sp 5)] true false); None] = None.
Proof. vm_compute. repeat split; congruence. Qed.
(** ** Refuted: the documented correspondence between which_legs[i], pipe_dualities[i] and pipes[i] when the groups are not listed in leg order *)
Theorem C52_dualities_of_unordered_groups_refuted :
  exists t groups dualities, tens_ok t /\ groups_ok (num_legs t) groups /\ length dualities = length groups /\
    pipes_ok t groups (fun k => nth k dualities false) [None; None] /\
    forall debug abelian S, exists r, combine_legs debug abelian S t groups dualities [None; None] = Some r /\
      legs (r_tensor r) <> map (documented_leg t groups dualities) (kept (num_legs t) groups).
Proof.
  exists tx, [[2; 1]; [0; 5]], [true; false].
  assert (TOK : tens_ok tx) by reflexivity.
  assert (GOK : groups_ok (num_legs tx) [[2; 1]; [0; 5]]).
  { split; [repeat (constructor; [split; [discriminate|repeat constructor]|]); constructor|]. cbn. repeat constructor; cbn; intuition discriminate. }
  assert (POK : pipes_ok tx [[2; 1]; [0; 5]] (fun k => nth k [true; false] false) [None; None]) by (split; [reflexivity|]; intros n g _; left; destruct (rank _ n) as [|[|[|]]]; reflexivity).
  split; [exact TOK|]. split; [exact GOK|]. split; [reflexivity|]. split; [exact POK|].
  intros dbg ab S. destruct (combine_spec dbg ab S TOK GOK POK) as [r [E [H _]]]. exists r. split; [exact E|]. rewrite H. vm_compute. discriminate.
Qed.
Print Assumptions C52_dualities_of_unordered_groups_refuted.
(** ... and the pipes that an earlier call has computed, passed in the order of the groups: rejected by the assertions of a debug build, and in a release build silently
    used for the wrong group, so that the result has a pipe whose legs are not those which were combined *)
Theorem C52_pipes_of_unordered_groups_refuted :
  exists t groups p0 p1, tens_ok t /\ groups_ok (num_legs t) groups /\
    (exists r, combine_legs true false U1 t groups [false; false] [None; None] = Some r /\ legs (r_tensor r) = [p1; p0]) /\
    p0 = LPipe (map (leg_at t) (nth 0 groups [])) false true /\ p1 = LPipe (map (leg_at t) (nth 1 groups [])) false true /\
    combine_legs true false U1 t groups [false; false] [Some p0; Some p1] = None /\
    exists r, combine_legs false true U1 t groups [false; false] [Some p0; Some p1] = Some r /\ legs (r_tensor r) = [p0; p1] /\ map (@length nat) (r_which r) = [1; 2] /\
      length (sublegs (nth 0 (legs (r_tensor r)) noleg)) = 2.
Proof.
  exists (Tens [sp 1; sp 2; sp 3] [] [None; None; None]), [[1; 2]; [0]], (LPipe [sp 2; sp 3] false true), (LPipe [sp 1] false true).
  split; [reflexivity|]. split; [split; [repeat (constructor; [split; [discriminate|repeat constructor]|]); constructor|]; cbn; repeat constructor; cbn; intuition discriminate|].
  split; [eexists; split; [vm_compute; reflexivity|vm_compute; reflexivity]|]. split; [reflexivity|]. split; [reflexivity|]. split; [vm_compute; reflexivity|].
  eexists. split; [vm_compute; reflexivity|]. vm_compute. repeat split.
Qed.
Print Assumptions C52_pipes_of_unordered_groups_refuted.
