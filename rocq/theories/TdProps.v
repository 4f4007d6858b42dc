(** Theorems for C72: tdot. *)
From Coq Require Import String ZArith List Bool Permutation Lia.
From Verif Require Import Util GridModel PermLegsModel PermLegsSpec PlanarModel PlanarSpec PlanarProofs1 PlanarProofs2 PcModel PcSpec TdModel TdSpec TdProofs1 TdProofs2 TdProofs3.
Import ListNotations.
Open Scope nat_scope.

(** tdot of two SymmetricTensors joins legs1[i] with legs2[i] and returns the open legs of tensor1 (codomain) followed by those of tensor2 (domain), or a number if there are
    none; for symmetries with trivial braids it never fails. *)
Theorem C72_symmetric_tensors : forall (trivial_braid sym : bool) t1 t2 legs1 legs2, t_kind t1 = Symmetric -> t_kind t2 = Symmetric -> tdot_args t1 t2 legs1 legs2 ->
  let r := tdot trivial_braid sym t1 t2 legs1 legs2 in
  (conventional t1 t2 legs1 legs2 r \/ exists e, r = TErr e) /\ (trivial_braid = true -> sym = true -> conventional t1 t2 legs1 legs2 r).
Proof.
  intros triv sym t1 t2 legs1 legs2 K1 K2 RQ r.
  assert (SU : supported t1 t2 legs1 legs2 = true).
  { unfold supported, is_mask, is_identity, is_diagonal. rewrite K1, K2. destruct legs1 as [|? [|? [|]]], legs2 as [|? [|? [|]]]; reflexivity. }
  assert (X := @tdot_ok triv sym t1 t2 legs1 legs2 RQ SU). fold r in X. destruct r as [p|j|e]; cbn [outcome] in X.
  - split; [now left|now intros].
  - split; [now left|now intros].
  - split; [right; now exists e|]. intros T S. exfalso. now apply X.
Qed.
Print Assumptions C72_symmetric_tensors.

(** The same for Masks, DiagonalTensors and Identities, where the implementation keeps the order of the legs ([supported]).
    Missing: it does not in the other cases, see the theorems _refuted below. *)
Theorem C72_convention_partial : forall (trivial_braid sym : bool) t1 t2 legs1 legs2, tdot_args t1 t2 legs1 legs2 -> supported t1 t2 legs1 legs2 = true ->
  let r := tdot trivial_braid sym t1 t2 legs1 legs2 in
  (conventional t1 t2 legs1 legs2 r \/ exists e, r = TErr e) /\ (trivial_braid = true -> sym = true -> conventional t1 t2 legs1 legs2 r).
Proof.
  intros triv sym t1 t2 legs1 legs2 RQ SU r. assert (X := @tdot_ok triv sym t1 t2 legs1 legs2 RQ SU). fold r in X. destruct r as [p|j|e]; cbn [outcome] in X.
  - split; [now left|now intros].
  - split; [now left|now intros].
  - split; [right; now exists e|]. intros T S. exfalso. now apply X.
Qed.
Print Assumptions C72_convention_partial.

(** Whatever the types of the tensors and the order of the resulting legs, legs1[i] is joined with legs2[i] and nothing else. *)
Theorem C72_joins_the_given_legs : forall (trivial_braid sym : bool) t1 t2 legs1 legs2, tdot_args t1 t2 legs1 legs2 ->
  match tdot trivial_braid sym t1 t2 legs1 legs2 with TNumber pairs => all_joined legs1 legs2 pairs | TTensor j => all_joined legs1 legs2 (j_pairs j) | TErr _ => True end.
Proof.
  intros triv sym t1 t2 legs1 legs2 RQ. destruct (supported t1 t2 legs1 legs2) eqn:SU.
  { assert (X := @tdot_ok triv sym t1 t2 legs1 legs2 RQ SU). destruct (tdot triv sym t1 t2 legs1 legs2) as [p|j|e]; [apply X|apply X|exact Logic.I]. }
  destruct (start RQ) as (D & L & P1 & P2). unfold tdot. rewrite D, L. cbn [negb]. destruct RQ as [F1 F2 _ _ LL]. assert (T1 := special_two F1). assert (T2 := special_two F2).
  unfold supported, is_mask, is_identity, is_diagonal in SU. unfold tdot_mask1, tdot_mask2, tdot_id1, tdot_id2, tdot_diag1, tdot_diag2.
  assert (J1 : forall a b, a < num_legs t1 -> b < num_legs t2 -> all_joined [a] [b] [(inl a, leg d0 (legs_of2 t2) b)]).
  { intros a b A B. exists [(a, b)]. split; [reflexivity|]. constructor; [|constructor]. left. cbn [fst snd]. f_equal. rewrite leg_lin, lin_2. now apply nth_map_seq. }
  assert (J2 : forall a b, a < num_legs t1 -> b < num_legs t2 -> all_joined [a] [b] [(inr b, leg d0 (legs_of1 t1) a)]).
  { intros a b A B. exists [(a, b)]. split; [reflexivity|]. constructor; [|constructor]. right. cbn [fst snd]. f_equal. rewrite leg_lin, lin_1. now apply nth_map_seq. }
  assert (J3 : forall a b, all_joined [a] [b] [(inr b, inl a)]).
  { intros a b. exists [(a, b)]. split; [reflexivity|]. constructor; [|constructor]. now right. }
  assert (J4 : forall pairs (x : tdot_error + legs_t name) l1 l2, all_joined l1 l2 pairs -> match finish pairs x with TNumber p => all_joined l1 l2 p | TTensor j => all_joined l1 l2 (j_pairs j) | TErr _ => True end).
  { intros pairs [e|t] l1 l2 H; [exact Logic.I|exact H]. }
  destruct legs1 as [|a [|a' [|a'' l1]]], legs2 as [|b [|b' [|b'' l2]]]; try discriminate LL; try discriminate SU.
  - assert (A := proper_single P1). assert (B := proper_single P2).
    destruct (t_kind t1), (t_kind t2); try discriminate SU; cbn [orelse attach]; try exact Logic.I;
      try (apply J4; first [now apply J1 | now apply J2]).
    all: destruct (permute_domain _ _ _ _); [exact Logic.I|apply J3].
  - assert (M1 : forall m n k k' c, 2 <? total n = false -> total n = 2 -> attach_trace triv sym false m n k k' c 0 = TErr NotATensor).
    { intros m n k k' c _ E. unfold attach_trace, attach. now rewrite E. }
    assert (N2 : forall n, (exists k k', proper n [k; k']) -> (2 <? n) = false -> n = 2).
    { intros n (k & k' & Q) E. apply Nat.ltb_ge in E. assert (X := others_length Q). cbn [length] in X. lia. }
    assert (Q1 := N2 (num_legs t1) (ex_intro _ a (ex_intro _ a' P1))). assert (Q2 := N2 (num_legs t2) (ex_intro _ b (ex_intro _ b' P2))).
    destruct (t_kind t1), (t_kind t2); try discriminate SU; cbn [orelse]; try exact Logic.I; unfold attach_trace, attach; rewrite ?total_1, ?total_2, ?(Q1 SU), ?(Q2 SU); exact Logic.I.
Qed.
Print Assumptions C72_joins_the_given_legs.

(** relabel1 and relabel2: where the order is kept, every open leg gets its own label, relabelled. *)
Theorem C72_relabel_partial : forall (trivial_braid sym : bool) t1 t2 legs1 legs2 all1 all2 relabel1 relabel2 j labels,
  tdot_args t1 t2 legs1 legs2 -> supported t1 t2 legs1 legs2 = true -> length all1 = num_legs t1 -> length all2 = num_legs t2 ->
  tdot_relabel trivial_braid sym t1 t2 legs1 legs2 all1 all2 relabel1 relabel2 = inr (j, labels) ->
  conventional t1 t2 legs1 legs2 (TTensor j) /\
  labels = map (fun n => match n with inl i => relabel_one relabel1 (nth i all1 None) | inr i => relabel_one relabel2 (nth i all2 None) end) (fst (j_legs j) ++ rev (snd (j_legs j))).
Proof.
  intros triv sym t1 t2 legs1 legs2 all1 all2 r1 r2 j labels RQ SU L1 L2 E. unfold tdot_relabel in E. assert (X := @tdot_ok triv sym t1 t2 legs1 legs2 RQ SU).
  destruct (tdot triv sym t1 t2 legs1 legs2) as [p|j'|e]; try discriminate E. injection E as <- <-. cbn [outcome] in X. split; [exact X|].
  destruct X as (_ & _ & ->). cbn [fst snd]. rewrite rev_involutive, map_app, !map_map, L1, L2. reflexivity.
Qed.
Print Assumptions C72_relabel_partial.

(** Naming a leg twice, or giving lists of different lengths, is an error. *)
Theorem C72_errors : forall (trivial_braid sym : bool) t1 t2 legs1 legs2,
  (tdot trivial_braid sym t1 t2 legs1 legs2 = TErr DuplicateLegs <-> ~ (NoDup legs1 /\ NoDup legs2)) /\
  (tdot trivial_braid sym t1 t2 legs1 legs2 = TErr DifferentLengths <-> NoDup legs1 /\ NoDup legs2 /\ length legs1 <> length legs2).
Proof.
  intros triv sym t1 t2 legs1 legs2. unfold tdot.
  destruct (has_dup legs1 || has_dup legs2) eqn:D.
  - assert (N : ~ (NoDup legs1 /\ NoDup legs2)). { intros [N1 N2]. apply has_dup_NoDup in N1, N2. rewrite N1, N2 in D. discriminate. }
    split; split; [now intros _|reflexivity|discriminate|]. intros (N1 & N2 & _). exfalso. now apply N.
  - apply orb_false_iff in D. destruct D as [D1 D2]. apply has_dup_NoDup in D1, D2. destruct (Nat.eqb_spec (length legs2) (length legs1)) as [L|L]; cbn [negb].
    2:{ split; split; [discriminate|intros N; exfalso; now apply N|intros _; split; [exact D1|split; [exact D2|congruence]]|reflexivity]. }
    assert (F : forall pairs x, finish pairs x <> TErr DuplicateLegs /\ finish pairs x <> TErr DifferentLengths \/ exists e, x = inl e /\ finish pairs x = TErr e) by (intros pairs [e|t]; [right; now exists e|left; split; discriminate]).
    assert (PM : forall t co dom b e, permute triv sym t co dom b = inl e -> e <> DuplicateLegs /\ e <> DifferentLengths). { unfold permute. intros t co dom b e. destruct (do_call _ _ _ _) as [[st ev]|x]; [discriminate|]. intros E. injection E as <-. split; discriminate. }
    assert (PD : forall t dom e, permute_domain triv sym t dom = inl e -> e <> DuplicateLegs /\ e <> DifferentLengths). { unfold permute_domain. intros t dom e. destruct (existsb _ dom); [intros E; injection E as <-; split; discriminate|]. apply PM. }
    assert (PC : forall t dom e, permute_codomain triv sym t dom = inl e -> e <> DuplicateLegs /\ e <> DifferentLengths). { unfold permute_codomain. intros t dom e. destruct (existsb _ dom); [intros E; injection E as <-; split; discriminate|]. apply PM. }
    set (good := fun r : tres name => r <> TErr DuplicateLegs /\ r <> TErr DifferentLengths).
    assert (GE : forall e, e <> DuplicateLegs /\ e <> DifferentLengths -> good (TErr e)) by (intros e [E1 E2]; split; congruence).
    assert (FD : forall pairs t dom, good (finish pairs (permute_domain triv sym t dom))). { intros pairs t dom. destruct (permute_domain _ _ _ _) eqn:E; [apply GE; exact (PD _ _ _ E)|split; discriminate]. }
    assert (FC : forall pairs t dom, good (finish pairs (permute_codomain triv sym t dom))). { intros pairs t dom. destruct (permute_codomain _ _ _ _) eqn:E; [apply GE; exact (PC _ _ _ E)|split; discriminate]. }
    assert (FT : forall sc m t a k k' c, good (attach_trace triv sym sc m t a k k' c)).
    { intros. unfold attach_trace, attach. destruct (total t =? 2); [destruct sc; split; discriminate|]. unfold bend_legs. destruct (permute _ _ _ _ _ _) eqn:E; [apply GE; exact (PM _ _ _ _ _ E)|split; discriminate]. }
    assert (FS : good (tdot_sym triv sym t1 t2 legs1 legs2)).
    { unfold tdot_sym. destruct (permute_domain _ _ _ _) eqn:E1; [apply GE; exact (PD _ _ _ E1)|]. destruct (permute_codomain _ _ _ _) eqn:E2; [apply GE; exact (PC _ _ _ E2)|].
      destruct (compose _ _); [destruct (_ && _)|]; split; discriminate. }
    match goal with |- (?r = _ <-> _) /\ _ => enough (G : good r) by (destruct G as [G1 G2]; split; split; [intros E; contradiction|intros N; exfalso; now apply N|intros E; contradiction|intros (_ & _ & N); congruence]) end.
    assert (MM : good (TErr MaskMask)) by (split; discriminate).
    unfold tdot_mask1, tdot_mask2, tdot_id1, tdot_id2, tdot_diag1, tdot_diag2.
    destruct legs1 as [|a [|a' [|a'' l1]]], legs2 as [|b [|b' [|b'' l2]]]; try discriminate L; destruct (t_kind t1) as [| | |p1], (t_kind t2) as [| | |p2]; cbn [orelse attach]; try exact FS; try exact MM; try apply FD; try apply FC; try apply FT.
    all: try (destruct (permute_domain _ _ _ _) eqn:E; [apply GE; exact (PD _ _ _ E)|split; discriminate]).
    all: try (destruct (permute_codomain _ _ _ _) eqn:E; [apply GE; exact (PC _ _ _ E)|split; discriminate]).
    all: match goal with |- context [if ?c then (?x, ?y) else _] => destruct c end; apply FT.
Qed.
Print Assumptions C72_errors.

(** ** Where the documented result is missed *)

(** A Mask or DiagonalTensor as tensor1, one leg contracted: leg legs1[0] of the product ends up in the codomain, where legs2[0] was meant. *)
Theorem C72_left_order_refuted : forall t1 t2 a b, tdot_args t1 t2 [a] [b] -> t_kind t1 = Diagonal \/ (exists p, t_kind t1 = Mask p) -> t_kind t2 = Symmetric -> a <> b ->
  let r := tdot true true t1 t2 [a] [b] in
  ~ conventional t1 t2 [a] [b] r /\ (if a <? num_legs t2 then exists j, r = TTensor j /\ fst (j_legs j) = [inr a] else r = TErr LegRange).
Proof.
  intros t1 t2 a b RQ K1 K2 AB r. destruct (start RQ) as (D & L & P1 & P2). destruct RQ as [F1 F2 _ _ LL]. assert (B := proper_single P2). assert (A := proper_single P1).
  assert (N1 : num_legs t1 = 2) by (apply (special_two F1); destruct K1 as [->|[p ->]]; discriminate).
  assert (E : r = finish [(inl a, leg d0 (legs_of2 t2) b)] (permute_codomain true true (set_leg (legs_of2 t2) b (inl (1 - a))) [a])).
  { unfold r, tdot. rewrite D, L. unfold tdot_mask1, tdot_mask2, tdot_id1, tdot_id2, tdot_diag1, tdot_diag2. rewrite K2. destruct K1 as [->|[p ->]]; reflexivity. }
  enough (Y : if a <? num_legs t2 then exists j, r = TTensor j /\ fst (j_legs j) = [inr a] else r = TErr LegRange).
  { split; [|exact Y]. destruct (a <? num_legs t2).
    - destruct Y as (j & -> & Y). intros (_ & _ & Z). rewrite Z in Y. cbn [fst] in Y. rewrite N1 in A. rewrite (open_one N1 A) in Y. discriminate Y.
    - rewrite Y. intros []. }
  rewrite E. destruct (Nat.ltb_spec a (num_legs t2)).
  - assert (X := @permute_codomain_spec true true (set_leg (legs_of2 t2) b (inl (1 - a))) [a]). rewrite total_set, total_2 in X. specialize (X (proper_one H)).
    destruct (permute_codomain _ _ _ _) as [e|t]; [exfalso; now apply X|]. eexists. split; [reflexivity|]. cbn [finish j_legs]. rewrite X. cbn [fst].
    rewrite (nth_attached (inl (1 - a)) (lin_2 t2) B).
    + reflexivity.
    + now constructor.
    + intros [Z|[]]. now apply AB.
  - unfold permute_codomain. rewrite total_set, total_2. cbn [existsb]. assert (Z : (num_legs t2 <=? a) = true) by now apply Nat.leb_le. rewrite Z. reflexivity.
Qed.
Print Assumptions C72_left_order_refuted.

(** A Mask as tensor2, one leg contracted: leg legs2[0] of the product ends up in the domain, where legs1[0] was meant. *)
Theorem C72_right_order_refuted : forall t1 t2 a b, tdot_args t1 t2 [a] [b] -> (exists p, t_kind t2 = Mask p) -> t_kind t1 = Symmetric -> a <> b ->
  let r := tdot true true t1 t2 [a] [b] in
  ~ conventional t1 t2 [a] [b] r /\ (if b <? num_legs t1 then exists j, r = TTensor j /\ snd (j_legs j) = [inl b] else r = TErr LegRange).
Proof.
  intros t1 t2 a b RQ K2 K1 AB r. destruct (start RQ) as (D & L & P1 & P2). destruct RQ as [F1 F2 _ _ LL]. assert (B := proper_single P2). assert (A := proper_single P1).
  assert (N2 : num_legs t2 = 2) by (apply (special_two F2); destruct K2 as [p ->]; discriminate).
  assert (E : r = finish [(inr b, leg d0 (legs_of1 t1) a)] (permute_domain true true (set_leg (legs_of1 t1) a (inr (1 - b))) [b])).
  { unfold r, tdot. rewrite D, L. unfold tdot_mask1, tdot_mask2. rewrite K1. destruct K2 as [p ->]. reflexivity. }
  enough (Y : if b <? num_legs t1 then exists j, r = TTensor j /\ snd (j_legs j) = [inl b] else r = TErr LegRange).
  { split; [|exact Y]. destruct (b <? num_legs t1).
    - destruct Y as (j & -> & Y). intros (_ & _ & Z). rewrite Z in Y. cbn [snd] in Y. rewrite N2 in B. rewrite (open_one N2 B) in Y. discriminate Y.
    - rewrite Y. intros []. }
  rewrite E. destruct (Nat.ltb_spec b (num_legs t1)).
  - assert (X := @permute_domain_spec true true (set_leg (legs_of1 t1) a (inr (1 - b))) [b]). rewrite total_set, total_1 in X. specialize (X (proper_one H)).
    destruct (permute_domain _ _ _ _) as [e|t]; [exfalso; now apply X|]. eexists. split; [reflexivity|]. cbn [finish j_legs]. rewrite X. cbn [snd].
    rewrite (nth_attached (inr (1 - b)) (lin_1 t1) A).
    + reflexivity.
    + now constructor.
    + intros [Z|[]]. now apply AB.
  - unfold permute_domain. rewrite total_set, total_1. cbn [existsb]. assert (Z : (num_legs t1 <=? b) = true) by now apply Nat.leb_le. rewrite Z. reflexivity.
Qed.
Print Assumptions C72_right_order_refuted.

(** An Identity as tensor2, one leg contracted: tensor1 comes back with its legs where they were, which is the documented order only if the contracted leg is the only one in the
    domain. *)
Theorem C72_identity_right_refuted : forall t1 t2 a b, tdot_args t1 t2 [a] [b] -> t_kind t2 = Identity -> t_kind t1 = Symmetric -> ~ (t_nd t1 = 1 /\ a = t_nc t1) ->
  exists j, tdot true true t1 t2 [a] [b] = TTensor j /\ ~ conventional t1 t2 [a] [b] (TTensor j) /\
            length (fst (j_legs j)) = t_nc t1 /\ length (snd (j_legs j)) = t_nd t1.
Proof.
  intros t1 t2 a b RQ K2 K1 NS. destruct (start RQ) as (D & L & P1 & P2). destruct RQ as [F1 F2 _ _ LL]. assert (B := proper_single P2). assert (A := proper_single P1).
  assert (N2 : num_legs t2 = 2) by (apply (special_two F2); rewrite K2; discriminate).
  unfold tdot. rewrite D, L. unfold tdot_mask1, tdot_mask2, tdot_id1, tdot_id2. rewrite K1, K2. cbn [negb orelse].
  assert (X := @permute_domain_spec true true (legs_of1 t1) [a]). rewrite total_1 in X. specialize (X (proper_one A)). destruct (permute_domain _ _ _ _) as [e|t]; [exfalso; now apply X|].
  eexists. split; [reflexivity|]. cbn [j_legs].
  assert (L1 : length (fst (legs_of1 t1)) = t_nc t1) by (unfold legs_of1, name1, legs0; cbn [fst]; now rewrite map_length, seq_length).
  assert (L2 : length (snd (legs_of1 t1)) = t_nd t1) by (unfold legs_of1, name1, legs0; cbn [snd]; now rewrite map_length, rev_length, seq_length).
  assert (S1 : length (fst (set_leg (legs_of1 t1) a (inr (1 - b)))) = t_nc t1) by (unfold set_leg; destruct (a <? _); cbn [fst]; rewrite ?upd_length; exact L1).
  assert (S2 : length (snd (set_leg (legs_of1 t1) a (inr (1 - b)))) = t_nd t1) by (unfold set_leg; destruct (a <? _); cbn [snd]; rewrite ?upd_length; exact L2).
  split; [|now split]. intros (_ & _ & Z). cbn [j_legs] in Z. rewrite N2 in B. rewrite (open_one N2 B) in Z. rewrite Z in S2. cbn [snd rev map app length] in S2.
  unfold set_leg in Z. rewrite L1 in Z. destruct (Nat.ltb_spec a (t_nc t1)) as [C|C].
  - injection Z as _ Z. unfold legs_of1, name1 in Z. cbn [snd] in Z. destruct (rev _) as [|x l] in Z; discriminate Z.
  - apply NS. split; [congruence|]. unfold num_legs in A. lia.
Qed.
Print Assumptions C72_identity_right_refuted.

(** An Identity whose two legs are both contracted with the two legs of another tensor: the trace, a number, is handed to bend_legs, an error. *)
Theorem C72_identity_trace_refuted : forall t1 t2 a a' b b', tdot_args t1 t2 [a; a'] [b; b'] ->
  (t_kind t1 = Identity /\ is_mask t2 = false /\ num_legs t2 = 2 \/ t_kind t2 = Identity /\ (t_kind t1 = Symmetric \/ t_kind t1 = Diagonal) /\ num_legs t1 = 2) ->
  tdot true true t1 t2 [a; a'] [b; b'] = TErr NotATensor.
Proof.
  intros t1 t2 a a' b b' RQ C. destruct (start RQ) as (D & L & _ & _). unfold tdot. rewrite D, L. cbn [negb].
  unfold tdot_mask1, tdot_mask2, tdot_id1, tdot_id2. destruct C as [(K1 & M & N)|(K2 & K1 & N)].
  - rewrite K1. unfold is_mask in M. destruct (t_kind t2); try discriminate M; cbn [orelse]; unfold attach_trace, attach; rewrite total_2, N; reflexivity.
  - rewrite K2. destruct K1 as [->| ->]; cbn [orelse]; unfold attach_trace, attach; rewrite total_1, N; reflexivity.
Qed.
Print Assumptions C72_identity_trace_refuted.

(** With relabel1 or relabel2, a contraction of all the legs, whose result is a number, is an error: labels are set on the number. *)
Theorem C72_relabel_number_refuted : forall t1 t2 legs1 legs2 all1 all2 relabel1 relabel2, tdot_args t1 t2 legs1 legs2 -> t_kind t1 = Symmetric -> t_kind t2 = Symmetric ->
  open t1 legs1 = [] -> open t2 legs2 = [] ->
  (exists pairs, tdot true true t1 t2 legs1 legs2 = TNumber pairs) /\ tdot_relabel true true t1 t2 legs1 legs2 all1 all2 relabel1 relabel2 = inl NotATensor.
Proof.
  intros t1 t2 legs1 legs2 all1 all2 r1 r2 RQ K1 K2 O1 O2. destruct (C72_symmetric_tensors true true t1 t2 legs1 legs2 K1 K2 RQ) as [_ C]. specialize (C eq_refl eq_refl).
  unfold tdot_relabel. destruct (tdot true true t1 t2 legs1 legs2) as [p|j|e]; [split; [now exists p|reflexivity]| |destruct C]. destruct C as (_ & C & _). exfalso. now apply C.
Qed.
Print Assumptions C72_relabel_number_refuted.

(** With an Identity as tensor2 the relabelled labels land on the wrong legs: leg 0 of a matrix with labels a, b contracted with leg 0 of the Identity with labels c, d
    gives the legs (d, b), which are labelled b, d. *)
Theorem C72_relabel_identity_refuted : exists j,
  tdot_relabel true true (Tensor Symmetric 1 1) (Tensor Identity 1 1) [0] [0] [Some "a"%string; Some "b"%string] [Some "c"%string; Some "d"%string] [] [] = inr (j, [Some "b"%string; Some "d"%string]) /\
  j_legs j = ([inr 1], [inl 1]).
Proof. eexists. split; reflexivity. Qed.
Print Assumptions C72_relabel_identity_refuted.

(** ** The hypotheses are met *)
Example args_met : tdot_args (Tensor Symmetric 2 2) (Tensor Symmetric 1 2) [3; 0] [1; 2].
Proof. constructor; cbn; try exact Logic.I; try reflexivity; split; repeat constructor; cbn; lia. Qed.
Example symmetric_case : tdot true true (Tensor Symmetric 2 2) (Tensor Symmetric 1 2) [3; 0] [1; 2] = TTensor (Joined [(inl 3, inr 1); (inl 0, inr 2)] ([inl 1; inl 2], [inr 0])).
Proof. vm_compute. reflexivity. Qed.
Example mask_case : tdot true true (Tensor (Mask true) 1 1) (Tensor Symmetric 1 2) [1; 0] [2; 0] = TTensor (Joined [(inl 1, inr 2); (inl 0, inr 0)] ([], [inr 1])) /\
  supported (Tensor (Mask true) 1 1) (Tensor Symmetric 1 2) [1; 0] [2; 0] = true.
Proof. split; vm_compute; reflexivity. Qed.
Example mask_wrong : tdot true true (Tensor (Mask true) 1 1) (Tensor Symmetric 1 2) [1] [2] = TTensor (Joined [(inl 1, inr 2)] ([inr 1], [inl 0; inr 0])).
Proof. vm_compute. reflexivity. Qed.
Example fails_without_trivial_braid : tdot false true (Tensor Symmetric 2 2) (Tensor Symmetric 1 2) [3; 0] [1; 2] = TErr (PermuteLegs NeedBendRight).
Proof. vm_compute. reflexivity. Qed.
Example anyons_without_crossing : exists j, tdot false false (Tensor Symmetric 2 2) (Tensor Symmetric 2 1) [3; 2] [0; 1] = TTensor j.
Proof. eexists. vm_compute. reflexivity. Qed.
