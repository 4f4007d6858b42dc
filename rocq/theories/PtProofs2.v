(** C70, part 2: the rearrangement before the trace. *)
From Coq Require Import ZArith List Bool Lia Permutation.
From Verif Require Import Util PlanarModel PlanarSpec PlanarProofs1 PlanarProofs2 PlanarProofs4 PtModel PtSpec PtProofs1.
Import ListNotations.
Set Implicit Arguments. Unset Strict Implicit.
Open Scope nat_scope.

(** the pairs that have to be traced around the left of the tensor *)
Definition needs (traced : list nat) (p : nat * nat) : bool := negb (forallb (contains traced) (range (pmin p + 1) (pmax p))).
Lemma needs_false ps p : needs (pair_legs ps) p = false <-> (forall x, between p x -> traced_leg ps x).
Proof.
  unfold needs. rewrite negb_false_iff, forallb_forall. unfold range. split.
  - intros H x B. apply contains_traced, H, in_seq. apply between_minmax in B. lia.
  - intros H x I. apply in_seq in I. apply contains_traced, H, between_minmax. lia.
Qed.
Lemma needs_outside n ps p : pair_ok n ps p -> needs (pair_legs ps) p = true -> forall x, x < n -> ~ between p x -> traced_leg ps x.
Proof. intros [_ [A|A]] N; [|exact A]. apply needs_false in A. congruence. Qed.
Lemma needs_open ps p : needs (pair_legs ps) p = true -> exists x, between p x /\ ~ traced_leg ps x.
Proof.
  unfold needs. intros N. apply negb_true_iff in N. destruct (existsb (fun x => negb (contains (pair_legs ps) x)) (range (pmin p + 1) (pmax p))) eqn:Z.
  - apply existsb_exists in Z. destruct Z as (x & I & C). exists x. split; [apply between_minmax; unfold range in I; apply in_seq in I; lia|]. apply negb_true_iff in C. rewrite <- contains_traced. congruence.
  - exfalso. apply not_true_iff_false in N. apply N. apply forallb_forall. intros x I. destruct (contains (pair_legs ps) x) eqn:C; [reflexivity|]. apply not_true_iff_false in Z. exfalso. apply Z. apply existsb_exists. exists x. split; [exact I|]. now rewrite C.
Qed.

Definition bstep (n : nat) (traced : list nat) (ud : nat * nat) (p : nat * nat) : nat * nat :=
  if forallb (contains traced) (range (pmin p + 1) (pmax p)) then ud else (Nat.max (fst ud) (pmin p + 1), Nat.max (snd ud) (n - pmax p)).
Lemma bends_spec n traced ps up down : bends n traced ps = (up, down) ->
  (forall p, In p ps -> needs traced p = true -> pmin p + 1 <= up /\ n - pmax p <= down) /\
  ((up = 0 /\ down = 0 /\ forall p, In p ps -> needs traced p = false) \/ ((exists p, In p ps /\ needs traced p = true /\ up = pmin p + 1) /\ (exists p, In p ps /\ needs traced p = true /\ (down = n - pmax p)))).
Proof.
  unfold bends. fold (bstep n traced). revert up down. induction ps as [|p t IH] using rev_ind; intros up down.
  - cbn. intros [= <- <-]. split; [intros p []|]. left. repeat split; auto. intros p [].
  - rewrite fold_left_app. cbn [fold_left]. destruct (fold_left (bstep n traced) t (0, 0)) as [u d]. destruct (IH u d eq_refl) as [A B]. unfold bstep. unfold needs in *.
    destruct (forallb (contains traced) (range (pmin p + 1) (pmax p))) eqn:F.
    + intros [= <- <-]. split.
      * intros q I N. apply in_app_or in I. destruct I as [I|[<-|[]]]; [now apply A|]. rewrite F in N. discriminate.
      * destruct B as [(-> & -> & B)|[(p1 & I1 & B1) (p2 & I2 & B2)]].
        -- left. repeat split. intros q I. apply in_app_or in I. destruct I as [I|[<-|[]]]; [now apply B|]. now rewrite F.
        -- right. split; [exists p1|exists p2]; (split; [apply in_or_app; now left|assumption]).
    + cbn [fst snd]. intros [= <- <-]. split.
      * intros q I N. apply in_app_or in I. destruct I as [I|[<-|[]]]; [specialize (A q I N); lia|lia].
      * right. assert (P : In p (t ++ [p])) by (apply in_or_app; right; now left). assert (NP : negb (forallb (contains traced) (range (pmin p + 1) (pmax p))) = true) by now rewrite F.
        destruct B as [(-> & -> & B)|[(p1 & I1 & B1 & E1) (p2 & I2 & B2 & E2)]].
        -- split; exists p; repeat split; auto.
        -- split.
           ++ destruct (Nat.max_spec u (pmin p + 1)) as [[_ ->]|[_ ->]]; [exists p; now repeat split|exists p1; split; [apply in_or_app; now left|now split]].
           ++ destruct (Nat.max_spec d (n - pmax p)) as [[_ ->]|[_ ->]]; [exists p; now repeat split|exists p2; split; [apply in_or_app; now left|now split]].
Qed.

(** going around from leg k *)
Definition turn (n k x : nat) : nat := (x + (n - k)) mod n.
Lemma turn_cases n k x : x < n -> k <= n -> (k <= x /\ turn n k x = x - k) \/ (x < k /\ turn n k x = x + n - k).
Proof.
  intros Hx Hk. unfold turn. destruct (Nat.le_gt_cases k x) as [L|L].
  - left. split; [exact L|]. replace (x + (n - k)) with (x - k + 1 * n) by lia. rewrite Nat.mod_add by lia. apply Nat.mod_small. lia.
  - right. split; [exact L|]. rewrite Nat.mod_small; lia.
Qed.
Lemma turn_lt n k x : x < n -> turn n k x < n.
Proof. intros H. apply Nat.mod_upper_bound. lia. Qed.
Lemma turn_inj n k x y : k <= n -> x < n -> y < n -> turn n k x = turn n k y -> x = y.
Proof. intros K X Y. destruct (turn_cases X K) as [[A ->]|[A ->]], (turn_cases Y K) as [[B ->]|[B ->]]; lia. Qed.
Lemma nth_turn n k x : x < n -> k <= n -> nth (turn n k x) (rotation k (seq 0 n)) 0 = x.
Proof.
  intros Hx Hk. rewrite rotation_seq by exact Hk. destruct (turn_cases Hx Hk) as [[A ->]|[A ->]].
  - rewrite app_nth1 by (rewrite seq_length; lia). rewrite seq_nth by lia. lia.
  - rewrite app_nth2 by (rewrite seq_length; lia). rewrite seq_length, seq_nth by lia. lia.
Qed.

Section Turn.
  Variable n : nat.
  Variable ps : list (nat * nat).
  Hypothesis ND : NoDup (pair_legs ps).
  Hypothesis F : Forall (fun x => x < n) (pair_legs ps).
  Hypothesis OK : forall p, In p ps -> pair_ok n ps p.
  Let tl := pair_legs ps.

  Lemma leg_lt p : In p ps -> fst p < n /\ snd p < n.
  Proof. intros I. rewrite Forall_forall in F. split; apply F; apply pair_legs_In; exists p; split; auto. Qed.
  Lemma minmax_lt p : In p ps -> pmin p < pmax p < n.
  Proof. intros I. destruct (leg_lt I). assert (D := distinct_legs ND I). destruct (pmin_pmax p) as [L [[A B]|[A B]]]; rewrite A, B in *; lia. Qed.
  Lemma legs_differ p q : In p ps -> In q ps -> p <> q -> pmin p <> pmin q /\ pmin p <> pmax q /\ pmax p <> pmin q /\ pmax p <> pmax q.
  Proof.
    intros I J NE. assert (X : forall x, (x = pmin p \/ x = pmax p) -> (x = pmin q \/ x = pmax q) -> False).
    { intros x A B. apply NE. apply (@same_pair ps p q x); auto; destruct (pmin_pmax p) as [_ [[P1 P2]|[P1 P2]]], (pmin_pmax q) as [_ [[Q1 Q2]|[Q1 Q2]]]; rewrite P1, P2, Q1, Q2 in *; tauto. }
    repeat split; intros E; [apply (X (pmin p))|apply (X (pmin p))|apply (X (pmax p))|apply (X (pmax p))]; auto.
  Qed.
  (** a pair inside another one *)
  Lemma nested p q : In p ps -> In q ps -> p <> q -> between p (pmin q) \/ between p (pmax q) -> pmin p < pmin q /\ pmax q < pmax p.
  Proof.
    intros I J NE B. destruct (OK I) as [C _]. specialize (C q J NE). assert (X : between p (pmin q) /\ between p (pmax q)) by (destruct (pmin_pmax q) as [_ [[-> ->]|[-> ->]]]; rewrite ?(proj1 (pmin_pmax q)) in *; destruct (pmin_pmax q) as [_ [[Q1 Q2]|[Q1 Q2]]]; rewrite ?Q1, ?Q2 in *; tauto).
    destruct X as [X Y]. apply between_minmax in X, Y. lia.
  Qed.
  Lemma inside_needs p q : In p ps -> In q ps -> pmin p < pmin q -> pmax q < pmax p -> needs tl q = true -> needs tl p = true.
  Proof.
    intros I J A B N. destruct (needs tl p) eqn:E; [reflexivity|]. unfold tl in E. exfalso. destruct (needs_open N) as (x & Bx & T). apply T. apply needs_false with (p := p); [exact E|]. apply between_minmax. apply between_minmax in Bx. lia.
  Qed.
  Lemma both_need p q : In p ps -> In q ps -> needs tl p = true -> needs tl q = true -> pmin q < pmax p.
  Proof.
    intros I J N M. destruct (Nat.lt_ge_cases (pmin q) (pmax p)) as [L|L]; [exact L|]. exfalso. destruct (needs_open N) as (x & Bx & T). apply T. apply between_minmax in Bx. assert (Q := minmax_lt J). apply (needs_outside (OK J) M); [lia|]. rewrite between_minmax. lia.
  Qed.
  Definition good_cut (k : nat) : Prop := k <= n /\ (forall p, In p ps -> needs tl p = true -> pmin p < k <= pmax p) /\ (forall p, In p ps -> needs tl p = false -> ~ (pmin p < k <= pmax p)).
  Lemma up_cut m : In m ps -> needs tl m = true -> (forall p, In p ps -> needs tl p = true -> pmin p <= pmin m) -> good_cut (pmin m + 1).
  Proof.
    intros I N H. assert (M := minmax_lt I). split; [lia|]. split.
    - intros p J P. specialize (H p J P). assert (B := both_need J I P N). lia.
    - intros p J P [A B]. assert (NE : p <> m) by (intros ->; congruence). destruct (legs_differ J I NE) as (D1 & D2 & D3 & D4).
      destruct (@nested p m J I NE) as [X Y]; [left; apply between_minmax; lia|]. assert (Z := inside_needs J I X Y N). congruence.
  Qed.
  Lemma down_cut m : In m ps -> needs tl m = true -> (forall p, In p ps -> needs tl p = true -> pmax m <= pmax p) -> good_cut (pmax m).
  Proof.
    intros I N H. assert (M := minmax_lt I). split; [lia|]. split.
    - intros p J P. specialize (H p J P). assert (B := both_need I J N P). lia.
    - intros p J P [A B]. assert (NE : p <> m) by (intros ->; congruence). destruct (legs_differ J I NE) as (D1 & D2 & D3 & D4).
      destruct (@nested p m J I NE) as [X Y]; [right; apply between_minmax; lia|]. assert (Z := inside_needs J I X Y N). congruence.
  Qed.
  Definition turn_pair (k : nat) (p : nat * nat) : nat * nat := (turn n k (fst p), turn n k (snd p)).
  Lemma turned_traced k p y : good_cut k -> In p ps -> between (turn_pair k p) y -> traced_leg (map (turn_pair k) ps) y.
  Proof.
    intros (K & H1 & H2) I B. assert (M := minmax_lt I). destruct (leg_lt I) as [L1 L2].
    assert (Y : y < n). { assert (A1 := turn_lt k L1). assert (A2 := turn_lt k L2). unfold between, turn_pair in B. cbn [fst snd] in B. lia. }
    assert (X : exists x, x < n /\ turn n k x = y).
    { destruct (Nat.lt_ge_cases y (n - k)) as [A|A].
      - exists (y + k). split; [lia|]. destruct (@turn_cases n k (y + k)) as [[U ->]|[U ->]]; lia.
      - exists (y + k - n). split; [lia|]. destruct (@turn_cases n k (y + k - n)) as [[U ->]|[U ->]]; lia. }
    destruct X as (x & Hx & <-). assert (T : traced_leg ps x).
    { assert (BB : (turn n k (pmin p) < turn n k x < turn n k (pmax p)) \/ (turn n k (pmax p) < turn n k x < turn n k (pmin p))).
      { unfold between, turn_pair in B. cbn [fst snd] in B. destruct (pmin_pmax p) as [_ [[-> ->]|[-> ->]]]; lia. }
      assert (P1 : pmin p < n) by lia. assert (P2 : pmax p < n) by lia.
      destruct (needs tl p) eqn:N.
      - destruct (H1 p I N) as [A1 A2]. apply (needs_outside (OK I) N); [exact Hx|]. rewrite between_minmax.
        destruct (turn_cases P1 K) as [[U E1]|[U E1]]; [lia|]. destruct (turn_cases P2 K) as [[V E2]|[V E2]]; [|lia]. rewrite E1, E2 in BB. destruct (turn_cases Hx K) as [[W E3]|[W E3]]; rewrite E3 in BB; lia.
      - specialize (H2 p I N). apply needs_false with (p := p); [exact N|]. apply between_minmax.
        destruct (turn_cases P1 K) as [[U E1]|[U E1]], (turn_cases P2 K) as [[V E2]|[V E2]]; rewrite E1, E2 in BB; destruct (turn_cases Hx K) as [[W E3]|[W E3]]; rewrite E3 in BB; lia. }
    destruct T as (q & J & T). exists (turn_pair k q). split; [now apply in_map|]. unfold turn_pair. cbn [fst snd]. destruct T as [->| ->]; auto.
  Qed.
End Turn.

Lemma prepare_spec nc nd ps : let n := nc + nd in NoDup (pair_legs ps) -> Forall (fun x => x < n) (pair_legs ps) -> (forall p, In p ps -> pair_ok n ps p) ->
  exists request k, good_cut n ps k /\ prepare nc nd (pair_legs ps) ps = TOk (request, map (turn_pair n k) ps) /\
    match request with None => k = 0 | Some (co, dom) => co ++ rev dom = rotation k (seq 0 n) end.
Proof.
  intros n ND F OK. unfold prepare. cbv zeta. fold n. destruct (bends n (pair_legs ps) ps) as [up down] eqn:B. apply bends_spec in B. destruct B as [A [(-> & -> & B)|[(u & IU & NU & EU) (d & ID & ED & DD)]]].
  - cbn [Nat.eqb]. exists None, 0. split; [|split; [|reflexivity]].
    + split; [lia|]. split; [intros p I N; rewrite (B p I) in N; discriminate|]. intros p I N. lia.
    + do 2 f_equal. rewrite <- (map_id ps) at 1. apply map_ext_in. intros p I. destruct (leg_lt F I) as [L1 L2]. unfold turn_pair.
      destruct (@turn_cases n 0 (fst p) L1 ltac:(lia)) as [[_ ->]|[? _]]; [|lia]. destruct (@turn_cases n 0 (snd p) L2 ltac:(lia)) as [[_ ->]|[? _]]; [|lia]. rewrite !Nat.sub_0_r. now destruct p.
  - assert (MU := minmax_lt ND F IU). assert (MD := minmax_lt ND F ID). destruct (Nat.eqb_spec down 0) as [Z|_]; [lia|].
    destruct (Nat.ltb_spec down up) as [L|L].
    + exists (Some (range (n - down) n ++ range 0 (nc - (if nd <=? down then down - nd else 0)), reversed_range nc (n - down))), (pmax d). split; [|split].
      * apply (down_cut ND F OK ID ED). intros p I N. specialize (A p I N). lia.
      * do 2 f_equal. apply map_ext_in. intros p I. unfold turn_pair, turn. replace (n - pmax d) with down by lia. reflexivity.
      * unfold reversed_range. rewrite rev_involutive. unfold range. replace (n - down) with (pmax d) by lia. rewrite rotation_seq by lia. rewrite <- app_assoc. f_equal. rewrite Nat.sub_0_r.
        destruct (Nat.leb_spec nd down) as [Q|Q].
        -- replace (pmax d - nc) with 0 by lia. cbn [seq]. rewrite app_nil_r. f_equal. lia.
        -- rewrite Nat.sub_0_r. assert (E := seq_app nc (pmax d - nc) 0). replace (nc + (pmax d - nc)) with (pmax d) in E by lia. symmetry. exact E.
    + exists (Some (range up nc, reversed_range 0 up ++ reversed_range (nc + (if nc <=? up then up - nc else 0)) n)), (pmin u + 1). split; [|split].
      * apply (up_cut ND F OK IU NU). intros p I N. specialize (A p I N). lia.
      * do 2 f_equal. apply map_ext_in. intros p I. unfold turn_pair, turn. rewrite EU. reflexivity.
      * unfold reversed_range. rewrite rev_app_distr, !rev_involutive. unfold range. rewrite EU. set (k := pmin u + 1) in *. rewrite rotation_seq by lia. rewrite Nat.sub_0_r, app_assoc. f_equal.
        destruct (Nat.leb_spec nc k) as [Q|Q].
        -- replace (nc - k) with 0 by lia. cbn [seq app]. f_equal; lia.
        -- rewrite Nat.add_0_r. assert (E := seq_app (nc - k) (n - nc) k). replace (nc - k + (n - nc)) with (n - k) in E by lia. replace (k + (nc - k)) with nc in E by lia. symmetry. exact E.
Qed.
