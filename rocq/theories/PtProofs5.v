(** C70, part 5: planar traces are those that can be done by joining neighbours. *)
From Coq Require Import ZArith List Bool Lia Permutation.
From Verif Require Import Util PlanarModel PlanarSpec PlanarProofs1 PlanarProofs2 PlanarProofs4 PtModel PtSpec PtProofs1 PtProofs2 PtProofs4.
Import ListNotations.
Set Implicit Arguments. Unset Strict Implicit.
Open Scope nat_scope.

Definition in_range (n : nat) (ps : list (nat * nat)) : Prop := Forall (fun x => x < n) (pair_legs ps).
Lemma in_range_pair n ps p : in_range n ps -> In p ps -> fst p < n /\ snd p < n.
Proof. unfold in_range. rewrite Forall_forall. intros F I. split; apply F; apply pair_legs_In; exists p; auto. Qed.
Lemma pair_legs_map f ps : pair_legs (map (fun p : nat * nat => (f (fst p), f (snd p))) ps) = map f (pair_legs ps).
Proof. induction ps as [|p t IH]; [reflexivity|]. cbn [map pair_legs flat_map app fst snd]. fold (pair_legs t). fold (pair_legs (map (fun p : nat * nat => (f (fst p), f (snd p))) t)). now rewrite IH. Qed.
Lemma planar_trace_perm n ps qs : Permutation ps qs -> planar_trace n ps -> planar_trace n qs.
Proof.
  intros P (A & B & C). assert (T : forall x, traced_leg qs x <-> traced_leg ps x) by (intros x; rewrite <- !pair_legs_In; split; apply Permutation_in; apply pair_legs_perm; [now symmetry|exact P]).
  split; [eapply Permutation_NoDup; [apply pair_legs_perm; exact P|exact A]|]. apply Permutation_sym in P. split.
  - intros p q I J. apply B; now apply (Permutation_in _ P).
  - intros p x y I Hx Hy. rewrite !T. apply C; auto. now apply (Permutation_in _ P).
Qed.

Lemma turn_between n k p x : k <= n -> fst p < n -> snd p < n -> x < n -> x <> fst p -> x <> snd p ->
  if (pmin p <? k) && (k <=? pmax p) then (between (turn_pair n k p) (turn n k x) <-> ~ between p x) else (between (turn_pair n k p) (turn n k x) <-> between p x).
Proof.
  intros K L1 L2 Hx N1 N2. unfold between, turn_pair. cbn [fst snd]. unfold pmin, pmax.
  destruct (turn_cases L1 K) as [[U ->]|[U ->]], (turn_cases L2 K) as [[V ->]|[V ->]], (turn_cases Hx K) as [[W ->]|[W ->]], (Nat.ltb_spec (snd p) (fst p)) as [Q|Q];
    match goal with |- context [(?a <? k) && (k <=? ?b)] => destruct (Nat.ltb_spec a k), (Nat.leb_spec k b) end; cbn [andb]; lia.
Qed.
Lemma turn_onto n k y : k <= n -> y < n -> exists x, x < n /\ turn n k x = y.
Proof.
  intros K Y. destruct (Nat.lt_ge_cases y (n - k)) as [A|A].
  - exists (y + k). split; [lia|]. destruct (@turn_cases n k (y + k)) as [[U ->]|[U ->]]; lia.
  - exists (y + k - n). split; [lia|]. destruct (@turn_cases n k (y + k - n)) as [[U ->]|[U ->]]; lia.
Qed.
Lemma planar_trace_turn n k ps : k <= n -> in_range n ps -> planar_trace n ps -> planar_trace n (map (turn_pair n k) ps) /\ in_range n (map (turn_pair n k) ps).
Proof.
  intros K R (A & B & C). assert (PL : pair_legs (map (turn_pair n k) ps) = map (turn n k) (pair_legs ps)) by exact (pair_legs_map (turn n k) ps).
  assert (TR : forall x, x < n -> traced_leg (map (turn_pair n k) ps) (turn n k x) <-> traced_leg ps x).
  { intros x Hx. rewrite <- !pair_legs_In, PL, in_map_iff. split; [|intros I; now exists x]. intros (y & E & I). assert (Y : y < n) by (unfold in_range in R; rewrite Forall_forall in R; now apply R). apply (turn_inj K Y Hx) in E. now subst y. }
  assert (SEP : forall p q, In p ps -> In q ps -> p <> q -> (fst q <> fst p /\ fst q <> snd p) /\ (snd q <> fst p /\ snd q <> snd p)).
  { intros p q I J NE. repeat split; intros E; apply NE; [apply (@same_pair ps p q (fst q))|apply (@same_pair ps p q (fst q))|apply (@same_pair ps p q (snd q))|apply (@same_pair ps p q (snd q))]; auto. }
  split; [split; [|split]|].
  - rewrite PL. apply NoDup_map_inj; [|exact A]. intros x y I J. unfold in_range in R. rewrite Forall_forall in R. apply turn_inj; auto.
  - intros p' q' I J NE. apply in_map_iff in I, J. destruct I as (p & <- & I), J as (q & <- & J). assert (NE' : p <> q) by congruence. specialize (B p q I J NE'). destruct (SEP p q I J NE') as [[S1 S2] [S3 S4]].
    destruct (in_range_pair R I), (in_range_pair R J). change (fst (turn_pair n k q)) with (turn n k (fst q)). change (snd (turn_pair n k q)) with (turn n k (snd q)).
    assert (T1 := @turn_between n k p (fst q)). assert (T2 := @turn_between n k p (snd q)). destruct ((pmin p <? k) && (k <=? pmax p)); rewrite T1, T2 by assumption; tauto.
  - intros p' x' y' I Hx Hy Nx Ny. apply in_map_iff in I. destruct I as (p & <- & I). destruct (turn_onto K Hx) as (x & Lx & <-), (turn_onto K Hy) as (y & Ly & <-). rewrite TR in Nx, Ny by assumption. specialize (C p x y I Lx Ly Nx Ny).
    destruct (in_range_pair R I). assert (NL : forall z, ~ traced_leg ps z -> z <> fst p /\ z <> snd p) by (intros z N; split; intros ->; apply N; exists p; auto). destruct (NL x Nx), (NL y Ny).
    assert (T1 := @turn_between n k p x). assert (T2 := @turn_between n k p y). destruct ((pmin p <? k) && (k <=? pmax p)); rewrite T1, T2 by assumption; tauto.
  - unfold in_range. rewrite PL. apply Forall_map. eapply Forall_impl; [|exact R]. intros x Hx. now apply turn_lt.
Qed.

(** two neighbours at the front *)
Definition shift2 (p : nat * nat) : nat * nat := (fst p + 2, snd p + 2).
Lemma between_shift p x : between (shift2 p) (x + 2) <-> between p x.
Proof. unfold between, shift2. cbn [fst snd]. lia. Qed.
Lemma planar_trace_join n ps q : q = (0, 1) \/ q = (1, 0) -> in_range n ps -> planar_trace n ps <-> planar_trace (2 + n) (q :: map shift2 ps).
Proof.
  intros Q R. assert (PL : pair_legs (map shift2 ps) = map (fun x => x + 2) (pair_legs ps)) by exact (pair_legs_map (fun x => x + 2) ps).
  assert (TR : forall x, traced_leg (q :: map shift2 ps) (x + 2) <-> traced_leg ps x).
  { intros x. rewrite <- !pair_legs_In. cbn [pair_legs flat_map app]. fold (pair_legs (map shift2 ps)). rewrite PL. cbn [In]. rewrite in_map_iff. split.
    - intros [E|[E|(y & E & I)]]; [destruct Q as [->| ->]; cbn in E; lia|destruct Q as [->| ->]; cbn in E; lia|]. now replace x with y by lia.
    - intros I. right. right. now exists x. }
  assert (BQ : forall x, ~ between q x) by (intros x; unfold between; destruct Q as [->| ->]; cbn [fst snd]; lia).
  assert (B0 : forall p, ~ between (shift2 p) (fst q) /\ ~ between (shift2 p) (snd q)) by (intros p; unfold between, shift2; destruct Q as [->| ->]; cbn [fst snd]; lia).
  split; intros (A & B & C); (split; [|split]).
  - cbn [pair_legs flat_map app]. fold (pair_legs (map shift2 ps)). rewrite PL. assert (X : forall z, z < 2 -> ~ In z (map (fun x => x + 2) (pair_legs ps))) by (intros z Hz I; apply in_map_iff in I; destruct I as (y & E & _); lia).
    constructor; [|constructor; [|apply NoDup_map_inj; [intros; lia|exact A]]].
    + intros [E|I]; [destruct Q as [->| ->]; discriminate|]. apply X in I; [exact I|]. destruct Q as [->| ->]; cbn; lia.
    + apply X. destruct Q as [->| ->]; cbn; lia.
  - intros p r I J NE. destruct I as [<-|I]; [split; intros Z; now apply BQ in Z|]. apply in_map_iff in I. destruct I as (p0 & <- & I). destruct J as [<-|J]; [destruct (B0 p0); tauto|]. apply in_map_iff in J. destruct J as (r0 & <- & J).
    change (fst (shift2 r0)) with (fst r0 + 2). change (snd (shift2 r0)) with (snd r0 + 2). rewrite !between_shift. apply B; auto. congruence.
  - intros p x y I Hx Hy Nx Ny. assert (G : forall z, ~ traced_leg (q :: map shift2 ps) z -> exists z0, z = z0 + 2).
    { intros z N. exists (z - 2). destruct (Nat.lt_ge_cases z 2) as [L|L]; [|lia]. exfalso. apply N. exists q. split; [now left|]. destruct Q as [->| ->]; cbn [fst snd]; lia. }
    destruct (G x Nx) as (x0 & ->), (G y Ny) as (y0 & ->). rewrite TR in Nx, Ny. destruct I as [<-|I]; [split; intros Z; now apply BQ in Z|]. apply in_map_iff in I. destruct I as (p0 & <- & I). rewrite !between_shift. apply C; auto; lia.
  - cbn [pair_legs flat_map app] in A. fold (pair_legs (map shift2 ps)) in A. rewrite PL in A. inversion A as [|? ? _ A1]; subst. inversion A1 as [|? ? _ A2]; subst. now apply NoDup_map_inv in A2.
  - intros p r I J NE. rewrite <- (between_shift p (fst r)), <- (between_shift p (snd r)). change (fst r + 2) with (fst (shift2 r)). change (snd r + 2) with (snd (shift2 r)). apply B; [right; now apply in_map|right; now apply in_map|]. intros E. apply NE. destruct p, r. unfold shift2 in E. cbn [fst snd] in E. injection E as E1 E2. f_equal; lia.
  - intros p x y I Hx Hy Nx Ny. rewrite <- (between_shift p x), <- (between_shift p y). apply C; [right; now apply in_map|lia|lia|now rewrite TR|now rewrite TR].
Qed.

Definition labels (l : list nat) (p : nat * nat) : nat * nat := (nth (fst p) l 0, nth (snd p) l 0).
Lemma nth_turn_list l k x : x < length l -> k <= length l -> nth (turn (length l) k x) (rotation k l) 0 = nth x l 0.
Proof.
  intros Hx Hk. unfold rotation. destruct (turn_cases Hx Hk) as [[A ->]|[A ->]].
  - rewrite app_nth1 by (rewrite skipn_length; lia). rewrite nth_skipn'. f_equal. lia.
  - rewrite app_nth2 by (rewrite skipn_length; lia). rewrite skipn_length. rewrite nth_firstn_lt by lia. f_equal. lia.
Qed.
Lemma labels_turn l k ps : k <= length l -> in_range (length l) ps -> map (labels (rotation k l)) (map (turn_pair (length l) k) ps) = map (labels l) ps.
Proof.
  intros K R. rewrite map_map. apply map_ext_in. intros p I. destruct (in_range_pair R I). unfold labels, turn_pair. cbn [fst snd]. now rewrite !nth_turn_list.
Qed.
Lemma rotation_length k (l : list nat) : length (rotation k l) = length l.
Proof. unfold rotation. rewrite app_length, Nat.add_comm, <- app_length. now rewrite firstn_skipn. Qed.

(** an innermost pair on the line *)
Lemma innermost n ps d : planar_trace n ps -> in_range n ps -> forall p, In p ps -> pmax p - pmin p <= d -> (forall x, between p x -> traced_leg ps x) -> exists q, In q ps /\ pmax q = pmin q + 1.
Proof.
  intros (A & B & C) R. induction d as [|d IH]; intros p I D T; assert (NE := distinct_legs A I); destruct (pmin_pmax p) as [L M]; assert (LT : pmin p < pmax p) by (destruct M as [[M1 M2]|[M1 M2]]; rewrite M1, M2 in *; lia); [lia|].
  destruct (Nat.eq_dec (pmax p) (pmin p + 1)) as [E|E]; [now exists p|].
  assert (X : between p (pmin p + 1)) by (apply between_minmax; lia). destruct (T _ X) as (q & J & Q).
  assert (PQ : p <> q). { intros <-. apply between_minmax in X. destruct M as [[M1 M2]|[M1 M2]]; rewrite M1, M2 in *; lia. }
  assert (BB : between p (fst q) /\ between p (snd q)) by (specialize (B p q I J PQ); destruct Q as [Q|Q]; rewrite Q in X; tauto). destruct BB as [B1 B2]. apply between_minmax in B1, B2.
  apply (IH q J).
  - destruct (pmin_pmax q) as [_ [[-> ->]|[-> ->]]]; lia.
  - intros x Bx. apply T. apply between_minmax. apply between_minmax in Bx. destruct (pmin_pmax q) as [_ [[E1 E2]|[E1 E2]]]; rewrite E1, E2 in Bx; lia.
Qed.

Lemma closes_of_planar m : forall l ps, length ps = m -> planar_trace (length l) ps -> in_range (length l) ps -> closes l (map (labels l) ps).
Proof.
  induction m as [|m IH]; intros l ps L PT R; [destruct ps; [constructor|discriminate]|].
  assert (TURN : forall k, k <= length l -> closes (rotation k l) (map (labels (rotation k l)) (map (turn_pair (length l) k) ps)) -> closes l (map (labels l) ps)).
  { intros k K Z. rewrite (labels_turn K R) in Z. rewrite <- (firstn_skipn k l) at 1. apply closes_turn. exact Z. }
  (* a pair whose legs are neighbours on the line, after a turn *)
  assert (ADJ : exists k q, k <= length l /\ In q (map (turn_pair (length l) k) ps) /\ pmax q = pmin q + 1).
  { destruct ps as [|p t]; [discriminate|]. assert (I : In p (p :: t)) by now left. destruct (in_range_pair R I) as [L1 L2]. assert (PM : pmax p < length l) by (destruct (pmin_pmax p) as [_ [[_ ->]|[_ ->]]]; assumption).
    destruct (@sides (length l) (p :: t) p) as [S|S]; [intros x y; now apply PT|exact PM| |].
    - destruct (@innermost (length l) (p :: t) _ PT R p I (le_n _) S) as (q & J & E). exists 0, q. split; [lia|]. split; [|exact E]. replace (map (turn_pair (length l) 0) (p :: t)) with (p :: t); [exact J|].
      rewrite <- (map_id (p :: t)) at 1. apply map_ext_in. intros r K. destruct (in_range_pair R K) as [R1 R2]. unfold turn_pair. destruct (@turn_cases (length l) 0 (fst r) R1 ltac:(lia)) as [[_ ->]|[? _]]; [|lia]. destruct (@turn_cases (length l) 0 (snd r) R2 ltac:(lia)) as [[_ ->]|[? _]]; [|lia]. rewrite !Nat.sub_0_r. now destruct r.
    - set (k := pmax p). assert (K : k <= length l) by (unfold k; lia). destruct (planar_trace_turn K R PT) as [PT' R']. destruct PT as [NDp _]. assert (NE := distinct_legs NDp I).
      destruct (@innermost (length l) _ _ PT' R' (turn_pair (length l) k p) (in_map _ _ _ I) (le_n _)) as (q & J & E); [|exists k, q; now repeat split].
      intros y B. assert (Y : y < length l) by (destruct (in_range_pair R' (in_map (turn_pair (length l) k) _ _ I)); unfold between in B; lia). destruct (turn_onto K Y) as (x & Hx & <-).
      assert (T : traced_leg (p :: t) x).
      { apply S; [exact Hx|]. assert (LT : pmin p < k) by (unfold k; destruct (pmin_pmax p) as [_ [[E1 E2]|[E1 E2]]]; rewrite E1, E2; pose proof (proj1 (pmin_pmax p)); lia).
        destruct (Nat.eq_dec x (fst p)) as [->|N1]; [unfold between; lia|]. destruct (Nat.eq_dec x (snd p)) as [->|N2]; [unfold between; lia|].
        assert (TB := turn_between K L1 L2 Hx N1 N2). destruct (Nat.ltb_spec (pmin p) k); [|lia]. destruct (Nat.leb_spec k (pmax p)); [|unfold k in *; lia]. cbn [andb] in TB. tauto. }
      destruct T as (r & J & T). exists (turn_pair (length l) k r). split; [now apply in_map|]. unfold turn_pair. cbn [fst snd]. destruct T as [->| ->]; auto. }
  destruct ADJ as (k & q & K & J & E). apply (TURN k K). destruct (planar_trace_turn K R PT) as [PT1 R1].
  set (l1 := rotation k l) in *. set (ps1 := map (turn_pair (length l) k) ps) in *. assert (LL : length l1 = length l) by apply rotation_length. rewrite <- LL in PT1, R1. assert (Lps : length ps1 = Datatypes.S m) by (unfold ps1; now rewrite map_length).
  clearbody l1 ps1. clear TURN R PT K LL L ps l k. rename l1 into l, ps1 into ps.
  (* turn it to the front *)
  set (k := pmin q). destruct (in_range_pair R1 J) as [L1 L2]. assert (K1 : k + 1 < length l) by (unfold k; destruct (pmin_pmax q) as [_ [[E1 E2]|[E1 E2]]]; rewrite ?E1, ?E2 in *; lia). assert (K : k <= length l) by lia.
  destruct (planar_trace_turn K R1 PT1) as [PT2 R2]. rewrite <- (labels_turn K R1). replace l with (firstn k l ++ skipn k l) at 1 by apply firstn_skipn. apply closes_turn. change (skipn k l ++ firstn k l) with (rotation k l).
  assert (Q : turn_pair (length l) k q = (0, 1) \/ turn_pair (length l) k q = (1, 0)).
  { assert (X0 : turn (length l) k (pmin q) = 0) by (destruct (@turn_cases (length l) k (pmin q)) as [[U ->]|[U ->]]; unfold k in *; lia). assert (X1 : turn (length l) k (pmax q) = 1) by (destruct (@turn_cases (length l) k (pmax q)) as [[U ->]|[U ->]]; unfold k in *; lia).
    unfold turn_pair. destruct (pmin_pmax q) as [_ [[E1 E2]|[E1 E2]]]; rewrite E1 in X0; rewrite E2 in X1; rewrite X0, X1; auto. }
  assert (J2 : In (turn_pair (length l) k q) (map (turn_pair (length l) k) ps)) by now apply in_map.
  rewrite <- (rotation_length k l) in PT2, R2 |- *. assert (Lps2 : length (map (turn_pair (length (rotation k l)) k) ps) = Datatypes.S m) by (now rewrite map_length). rewrite <- (rotation_length k l) in J2, Q. assert (KL : 1 < length (rotation k l)) by (rewrite rotation_length; lia).
  set (ps2 := map (turn_pair (length (rotation k l)) k) ps) in *. set (q2 := turn_pair (length (rotation k l)) k q) in *. set (l2 := rotation k l) in *. clearbody ps2 q2 l2. clear - IH PT2 R2 Q J2 Lps2 KL.
  apply in_split in J2. destruct J2 as (u & v & ->). assert (P : Permutation (u ++ q2 :: v) (q2 :: u ++ v)) by (symmetry; apply Permutation_middle).
  apply (planar_trace_perm P) in PT2. destruct l2 as [|x [|y circle]]; [cbn in KL; lia|cbn in KL; lia|].
  (* the others *)
  set (back := fun p : nat * nat => (fst p - 2, snd p - 2)). assert (NDL := proj1 PT2). cbn [pair_legs flat_map app] in NDL. fold (pair_legs (u ++ v)) in NDL.
  assert (GE : forall p, In p (u ++ v) -> (2 <= fst p /\ fst p < 2 + length circle) /\ (2 <= snd p /\ snd p < 2 + length circle)).
  { intros p I. assert (Ip : In p (u ++ q2 :: v)) by (apply (Permutation_in _ (Permutation_sym P)); now right). destruct (in_range_pair R2 Ip) as [A B]. cbn [length] in A, B.
    assert (X : forall z, (z = fst p \/ z = snd p) -> 2 <= z). { intros z Hz. assert (Iz : In z (pair_legs (u ++ v))) by (apply pair_legs_In; now exists p). inversion NDL as [|? ? N1 ND1]; subst. inversion ND1 as [|? ? N2 ND2]; subst.
      destruct z as [|[|z]]; [| |lia]; exfalso; destruct Q as [->| ->]; cbn [fst snd] in *; first [now apply N2|apply N1; now right]. }
    split; split; auto. }
  assert (SH : map shift2 (map back (u ++ v)) = u ++ v). { rewrite map_map. rewrite <- (map_id (u ++ v)) at 2. apply map_ext_in. intros p I. destruct (GE p I) as [[A _] [B _]]. unfold shift2, back. cbn [fst snd]. rewrite !Nat.sub_add by assumption. now destruct p. }
  assert (RB : in_range (length circle) (map back (u ++ v))).
  { unfold in_range. apply Forall_forall. intros z I. apply pair_legs_In in I. destruct I as (p & I & Z). apply in_map_iff in I. destruct I as (p0 & <- & I). destruct (GE p0 I). unfold back in Z. cbn [fst snd] in Z. lia. }
  apply closes_join with (p := labels (x :: y :: circle) q2) (pairs := map (labels circle) (map back (u ++ v))).
  - destruct Q as [->| ->]; [left|right]; reflexivity.
  - assert (EM : map (labels (x :: y :: circle)) (u ++ v) = map (labels circle) (map back (u ++ v))).
    { rewrite (map_map back). apply map_ext_in. intros p I. destruct (GE p I) as [[A _] [B _]]. unfold labels, back. cbn [fst snd].
      destruct p as [a b]. cbn [fst snd] in *. destruct a as [|[|a]]; [lia|lia|]. destruct b as [|[|b]]; [lia|lia|]. cbn [nth]. now rewrite !Nat.sub_succ, !Nat.sub_0_r. }
    rewrite <- EM. exact (Permutation_map (labels (x :: y :: circle)) P).
  - apply IH; [|apply (planar_trace_join Q RB); rewrite SH; exact PT2|exact RB]. rewrite map_length. rewrite app_length in *. cbn [length] in Lps2. lia.
Qed.

Lemma planar_of_closes l ps : closes l ps -> exists qs, ps = map (labels l) qs /\ planar_trace (length l) qs /\ in_range (length l) qs.
Proof.
  induction 1 as [circle|x y circle p pairs pairs' Ep P C (qs & -> & PT & R)|l l' pairs C (qs & -> & PT & R)].
  - exists []. split; [reflexivity|]. split; [|constructor]. split; [constructor|]. split; [intros p q []|intros p ? ? []].
  - assert (EQ : exists q, (q = (0, 1) \/ q = (1, 0)) /\ p = labels (x :: y :: circle) q) by (destruct Ep as [->| ->]; [exists (0, 1)|exists (1, 0)]; auto).
    destruct EQ as (q & Q & Ep').
    assert (PT' := proj1 (planar_trace_join Q R) PT). assert (R' : in_range (2 + length circle) (q :: map shift2 qs)).
    { unfold in_range in *. cbn [pair_legs flat_map app]. fold (pair_legs (map shift2 qs)). assert (PL : pair_legs (map shift2 qs) = map (fun x => x + 2) (pair_legs qs)) by exact (pair_legs_map (fun x => x + 2) qs). rewrite PL.
      constructor; [destruct Q as [->| ->]; cbn; lia|]. constructor; [destruct Q as [->| ->]; cbn; lia|]. apply Forall_map. eapply Forall_impl; [|exact R]. cbv beta. intros; lia. }
    assert (EM : p :: map (labels circle) qs = map (labels (x :: y :: circle)) (q :: map shift2 qs)).
    { rewrite map_cons, <- Ep'. f_equal. rewrite map_map. apply map_ext. intros [a b]. unfold labels, shift2. cbn [fst snd]. rewrite !(Nat.add_comm _ 2). reflexivity. }
    rewrite EM in P. apply Permutation_map_inv in P. destruct P as (qs' & -> & P). exists qs'. split; [reflexivity|]. cbn [length]. split; [now apply (planar_trace_perm P)|].
    unfold in_range in *. eapply Permutation_Forall; [apply pair_legs_perm; exact P|exact R'].
  - assert (K : length l' <= length (l' ++ l)) by (rewrite app_length; lia). destruct (planar_trace_turn K R PT) as [PT' R']. exists (map (turn_pair (length (l' ++ l)) (length l')) qs).
    assert (E : rotation (length l') (l' ++ l) = l ++ l') by (unfold rotation; rewrite skipn_app, firstn_app, skipn_all, firstn_all, Nat.sub_diag; cbn [skipn firstn app]; now rewrite app_nil_r).
    rewrite <- (labels_turn K R), E. split; [reflexivity|]. replace (length (l ++ l')) with (length (l' ++ l)) by (rewrite !app_length; lia). now split.
Qed.
Lemma labels_seq n qs : in_range n qs -> map (labels (seq 0 n)) qs = qs.
Proof. intros R. rewrite <- (map_id qs) at 2. apply map_ext_in. intros p I. destruct (in_range_pair R I). unfold labels. rewrite !seq_nth by assumption. now destruct p. Qed.
