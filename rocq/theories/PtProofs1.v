(** C70, part 1: the checks of planar_partial_trace. *)
From Coq Require Import ZArith List Bool Lia Permutation.
From Verif Require Import Util PlanarModel PlanarSpec PlanarProofs1 PlanarProofs2 PtModel PtSpec.
Import ListNotations.
Set Implicit Arguments. Unset Strict Implicit.
Open Scope nat_scope.

Definition lists (ps : list (nat * nat)) : list (list nat) := map (fun p => [fst p; snd p]) ps.
Lemma concat_lists ps : concat (lists ps) = pair_legs ps.
Proof. induction ps as [|p ps IH]; cbn [lists map concat pair_legs flat_map app]; [reflexivity|]. unfold lists, pair_legs in IH. now rewrite IH. Qed.
Lemma as_pair_lists ps : map as_pair (lists ps) = ps.
Proof. unfold lists. rewrite map_map. rewrite <- (map_id ps) at 2. apply map_ext. now intros [a b]. Qed.
Lemma lists_as_pair pairs : Forall (fun p => length p = 2) pairs -> pairs = lists (map as_pair pairs).
Proof.
  induction 1 as [|p t L _ IH]; [reflexivity|]. cbn [lists map]. fold (lists (map as_pair t)). rewrite <- IH. f_equal. destruct p as [|a [|b [|]]]; try discriminate. reflexivity.
Qed.
Lemma pair_legs_In ps x : In x (pair_legs ps) <-> traced_leg ps x.
Proof.
  unfold pair_legs, traced_leg. rewrite in_flat_map. split; intros (p & I & J); exists p; split; auto; cbn in *; intuition.
Qed.
Lemma contains_traced ps x : contains (pair_legs ps) x = true <-> traced_leg ps x.
Proof. rewrite contains_In. apply pair_legs_In. Qed.

Lemma pair_legs_app ps qs : pair_legs (ps ++ qs) = pair_legs ps ++ pair_legs qs.
Proof. unfold pair_legs. apply flat_map_app. Qed.
Lemma partners_none ps l : ~ traced_leg ps l -> partners (lists ps) l = Some [].
Proof.
  induction ps as [|p ps IH]; intros N; [reflexivity|]. cbn [lists map partners]. fold (lists ps).
  rewrite IH; [|intros (q & I & J); apply N; exists q; split; [now right|exact J]].
  destruct (Nat.eqb_spec (snd p) l) as [E|_]; [exfalso; apply N; exists p; split; [now left|now right]|]. destruct (Nat.eqb_spec (fst p) l) as [E|_]; [exfalso; apply N; exists p; split; [now left|now left]|]. reflexivity.
Qed.
Lemma partners_one ps p : NoDup (pair_legs ps) -> In p ps -> partners (lists ps) (fst p) = Some [snd p] /\ partners (lists ps) (snd p) = Some [fst p].
Proof.
  induction ps as [|q ps IH]; intros ND I; [destruct I|]. cbn [pair_legs flat_map app] in ND. fold (pair_legs ps) in ND. inversion ND as [|? ? N1 ND1]; subst. inversion ND1 as [|? ? N2 ND2]; subst.
  cbn [lists map partners]. fold (lists ps). destruct I as [->|I].
  - assert (NF : ~ traced_leg ps (fst p)) by (rewrite <- pair_legs_In; intros X; apply N1; now right). assert (NS : ~ traced_leg ps (snd p)) by (rewrite <- pair_legs_In; exact N2).
    rewrite (partners_none NF), (partners_none NS).
    rewrite !Nat.eqb_refl. destruct (Nat.eqb_spec (snd p) (fst p)) as [E|_]; [exfalso; apply N1; left; exact E|]. destruct (Nat.eqb_spec (fst p) (snd p)) as [E|_]; [exfalso; apply N1; left; now symmetry|]. split; reflexivity.
  - destruct (IH ND2 I) as [-> ->]. assert (T1 : In (fst p) (pair_legs ps)) by (apply pair_legs_In; exists p; split; [exact I|now left]). assert (T2 : In (snd p) (pair_legs ps)) by (apply pair_legs_In; exists p; split; [exact I|now right]).
    destruct (Nat.eqb_spec (snd q) (fst p)) as [E|_]; [exfalso; apply N2; now rewrite E|]. destruct (Nat.eqb_spec (fst q) (fst p)) as [E|_]; [exfalso; apply N1; right; now rewrite E|].
    destruct (Nat.eqb_spec (snd q) (snd p)) as [E|_]; [exfalso; apply N2; now rewrite E|]. destruct (Nat.eqb_spec (fst q) (snd p)) as [E|_]; [exfalso; apply N1; right; now rewrite E|]. split; reflexivity.
Qed.

Definition inb (l1 l2 o : nat) : bool := (l1 <? o) && (o <? l2).
Lemma scan_ok ps l1 l2 (inside : bool) ls b : NoDup (pair_legs ps) ->
  scan (pair_legs ps) (lists ps) l1 l2 inside ls = TOk b <->
  (forall q, In q ps -> (In (fst q) ls -> inb l1 l2 (snd q) = inside) /\ (In (snd q) ls -> inb l1 l2 (fst q) = inside)) /\ b = forallb (contains (pair_legs ps)) ls.
Proof.
  intros ND. revert b. induction ls as [|l t IH]; intros b; cbn [scan].
  - split; [intros [= <-]; split; [intros q _; split; intros []|reflexivity]|intros [_ ->]; reflexivity].
  - destruct (contains (pair_legs ps) l) eqn:C.
    + apply contains_traced in C. destruct C as (p & I & O).
      assert (X : exists o, partners (lists ps) l = Some [o] /\ ((l = fst p /\ o = snd p) \/ (l = snd p /\ o = fst p))).
      { destruct (partners_one ND I) as [A B]. destruct O as [->| ->]; [exists (snd p)|exists (fst p)]; auto. }
      destruct X as (o & -> & X). fold (inb l1 l2 o). assert (U : forall q, In q ps -> fst q = l \/ snd q = l -> q = p).
      { intros q J E. clear -ND I J X E. induction ps as [|r ps IH]; [destruct I|]. cbn [pair_legs flat_map app] in ND. fold (pair_legs ps) in ND. inversion ND as [|? ? N1 ND1]; subst. inversion ND1 as [|? ? N2 ND2]; subst.
        destruct I as [->|I], J as [->|J]; auto.
        - exfalso. assert (K : In l (pair_legs ps)) by (apply pair_legs_In; exists q; split; [exact J|intuition]). destruct X as [[-> _]|[-> _]]; [apply N1; now right|now apply N2].
        - exfalso. assert (K : In l (pair_legs ps)) by (apply pair_legs_In; exists p; split; [exact I|intuition]). destruct E as [<-|<-]; [apply N1; now right|now apply N2]. }
      destruct (Bool.eqb (inb l1 l2 o) inside) eqn:Q.
      * apply eqb_prop in Q. rewrite IH. cbn [forallb]. assert (CL : contains (pair_legs ps) l = true) by (apply contains_traced; exists p; split; [exact I|intuition]). rewrite CL. cbn [andb]. split.
        -- intros [H ->]. split; [|reflexivity]. intros q J. destruct (H q J) as [H1 H2]. split.
           ++ intros [K|K]; [|now apply H1]. assert (q = p) as -> by (apply U; [exact J|left; now symmetry]). destruct X as [[Y ->]|[Y Z]]; [exact Q|]. exfalso. subst l. clear -ND I K. destruct p as [a c]. cbn in *. subst.
              apply in_split in I. destruct I as (u & v & ->). rewrite pair_legs_app in ND. apply NoDup_remove_2 in ND. apply ND. cbn. apply in_or_app. right. now left.
           ++ intros [K|K]; [|now apply H2]. assert (q = p) as -> by (apply U; [exact J|right; now symmetry]). destruct X as [[Y Z]|[Y ->]]; [|exact Q]. exfalso. subst l. clear -ND I K. destruct p as [a c]. cbn in *. subst.
              apply in_split in I. destruct I as (u & v & ->). rewrite pair_legs_app in ND. apply NoDup_remove_2 in ND. apply ND. cbn. apply in_or_app. right. now left.
        -- intros [H ->]. split; [|reflexivity]. intros q J. destruct (H q J) as [H1 H2]. split; intros K; [apply H1|apply H2]; now right.
      * split; [discriminate|]. intros [H _]. exfalso. destruct (H p I) as [H1 H2]. rewrite eqb_false_iff in Q. apply Q. destruct X as [[Y ->]|[Y ->]]; [apply H1|apply H2]; now left.
    + cbn [forallb]. rewrite C. cbn [andb]. assert (NT : ~ traced_leg ps l) by (rewrite <- contains_traced; congruence).
      assert (E : (forall q, In q ps -> (In (fst q) (l :: t) -> inb l1 l2 (snd q) = inside) /\ (In (snd q) (l :: t) -> inb l1 l2 (fst q) = inside)) <-> (forall q, In q ps -> (In (fst q) t -> inb l1 l2 (snd q) = inside) /\ (In (snd q) t -> inb l1 l2 (fst q) = inside))).
      { split; intros H q J; destruct (H q J) as [H1 H2].
        - split; intros K; [apply H1|apply H2]; now right.
        - split; (intros [K|K]; [|auto]); exfalso; apply NT; exists q; split; auto. }
      rewrite E. destruct (scan _ _ _ _ _ t) as [b'|e].
      * split; [intros [= <-]; split; [now apply (proj1 (IH b'))|reflexivity]|]. intros [_ ->]. reflexivity.
      * split; [discriminate|]. intros [H ->]. exfalso. specialize (proj2 (IH _) (conj H eq_refl)). discriminate.
Qed.

Lemma pmin_pmax p : pmin p <= pmax p /\ ((pmin p = fst p /\ pmax p = snd p) \/ (pmin p = snd p /\ pmax p = fst p)).
Proof. unfold pmin, pmax. destruct (Nat.ltb_spec (snd p) (fst p)); split; try lia; auto. Qed.
Lemma between_minmax p x : between p x <-> pmin p < x < pmax p.
Proof. unfold between, pmin, pmax. destruct (Nat.ltb_spec (snd p) (fst p)); lia. Qed.
Lemma inb_between p x : inb (pmin p) (pmax p) x = true <-> between p x.
Proof. rewrite between_minmax. unfold inb. rewrite andb_true_iff, !Nat.ltb_lt. reflexivity. Qed.
Lemma inb_not_between p x : inb (pmin p) (pmax p) x = false <-> ~ between p x.
Proof. rewrite <- inb_between. destruct (inb _ _ _); split; congruence. Qed.

Definition pair_ok (n : nat) (ps : list (nat * nat)) (p : nat * nat) : Prop :=
  (forall q, In q ps -> p <> q -> (between p (fst q) <-> between p (snd q))) /\ ((forall x, between p x -> traced_leg ps x) \/ (forall x, x < n -> ~ between p x -> traced_leg ps x)).
Lemma same_pair ps p q x : NoDup (pair_legs ps) -> In p ps -> In q ps -> (x = fst p \/ x = snd p) -> (x = fst q \/ x = snd q) -> p = q.
Proof.
  intros ND I J X Y. induction ps as [|r ps IH]; [destruct I|]. cbn [pair_legs flat_map app] in ND. fold (pair_legs ps) in ND. inversion ND as [|? ? N1 ND1]; subst. inversion ND1 as [|? ? N2 ND2]; subst.
  destruct I as [->|I], J as [->|J]; auto.
  - exfalso. assert (K : In x (pair_legs ps)) by (apply pair_legs_In; exists q; split; [exact J|exact Y]). destruct X as [->| ->]; [apply N1; now right|now apply N2].
  - exfalso. assert (K : In x (pair_legs ps)) by (apply pair_legs_In; exists p; split; [exact I|exact X]). destruct Y as [->| ->]; [apply N1; now right|now apply N2].
Qed.
Lemma distinct_legs ps p : NoDup (pair_legs ps) -> In p ps -> fst p <> snd p.
Proof. intros ND I E. apply in_split in I. destruct I as (u & v & ->). rewrite pair_legs_app in ND. apply NoDup_remove_2 in ND. apply ND. cbn. apply in_or_app. right. now left. Qed.

Lemma check_pair_ok n ps p : NoDup (pair_legs ps) -> Forall (fun x => x < n) (pair_legs ps) -> In p ps -> check_pair n (pair_legs ps) (lists ps) [fst p; snd p] = TOk tt <-> pair_ok n ps p.
Proof.
  intros ND F I. unfold check_pair. fold (pmin p) (pmax p). assert (D := distinct_legs ND I). destruct (pmin_pmax p) as [MM MC].
  destruct (Nat.eqb_spec (pmin p) (pmax p)) as [E|E]; [exfalso; apply D; destruct MC as [[? ?]|[? ?]]; congruence|].
  assert (LT : forall q, In q ps -> fst q < n /\ snd q < n). { intros q J. rewrite Forall_forall in F. split; apply F; apply pair_legs_In; exists q; split; auto. }
  assert (PM : pmax p < n) by (destruct (LT p I); destruct MC as [[? ?]|[? ?]]; lia).
  assert (R : forall a b x, In x (range a b) <-> a <= x < b) by (intros a b x; unfold range; rewrite in_seq; lia).
  assert (S1 := fun b => scan_ok (pmin p) (pmax p) true (range (pmin p + 1) (pmax p)) b ND). assert (S2 := fun b => scan_ok (pmin p) (pmax p) false (range (pmax p + 1) n) b ND). assert (S3 := fun b => scan_ok (pmin p) (pmax p) false (range 0 (pmin p)) b ND).
  assert (OUT : forall x, x < n -> ~ between p x -> traced_leg ps x \/ (pmax p + 1 <= x < n \/ 0 <= x < pmin p)).
  { intros x Hx NB. rewrite between_minmax in NB. destruct (Nat.eq_dec x (pmin p)) as [->|A]; [left; exists p; split; [exact I|intuition]|]. destruct (Nat.eq_dec x (pmax p)) as [->|B]; [left; exists p; split; [exact I|intuition]|]. right. lia. }
  split.
  - destruct (scan _ _ _ _ true _) as [b1|] eqn:E1; [|discriminate]. destruct (scan _ _ _ _ false (range (pmax p + 1) n)) as [b2|] eqn:E2; [|discriminate]. destruct (scan _ _ _ _ false (range 0 _)) as [b3|] eqn:E3; [|discriminate].
    destruct (proj1 (S1 b1) eq_refl) as [H1 B1], (proj1 (S2 b2) eq_refl) as [H2 B2], (proj1 (S3 b3) eq_refl) as [H3 B3]. destruct (b1 || b2 && b3) eqn:BB; [|discriminate]. intros _. split.
    + intros q J NE. destruct (LT q J) as [L1 L2]. destruct (H1 q J) as [A1 A2], (H2 q J) as [A3 A4], (H3 q J) as [A5 A6]. rewrite R in *.
      assert (NQ : forall x, x = fst q \/ x = snd q -> x <> pmin p /\ x <> pmax p).
      { intros x Ex. split; intros X; apply NE; apply (@same_pair ps p q x); auto; destruct MC as [[? ?]|[? ?]]; [left|right|right|left]; congruence. }
      destruct (NQ _ (or_introl eq_refl)) as [N1 N2]. destruct (NQ _ (or_intror eq_refl)) as [N3 N4].
      rewrite <- !inb_between. split; intros B; apply inb_between in B; apply between_minmax in B; [apply A1; lia|]. apply A2. lia.
    + apply orb_true_iff in BB. destruct BB as [->|BB].
      * left. intros x B. apply contains_traced. symmetry in B1. rewrite forallb_forall in B1. apply B1. rewrite R. apply between_minmax in B. lia.
      * right. apply andb_true_iff in BB. destruct BB as [-> ->]. intros x Hx NB. destruct (OUT x Hx NB) as [T|[O|O]]; [exact T| |]; apply contains_traced; symmetry in B2, B3; rewrite forallb_forall in B2, B3; [apply B2|apply B3]; apply R; exact O.
  - intros [H1 H2]. assert (BT : forall q, In q ps -> forall (u v : nat), ((u, v) = (fst q, snd q) \/ (u, v) = (snd q, fst q)) -> between p u -> between p v).
    { intros q J u v UV B. destruct (Nat.eq_dec (fst p) (fst q)) as [X|X].
      - assert (q = p) as -> by (symmetry; apply (@same_pair ps p q (fst p)); auto). exfalso. rewrite between_minmax in B. destruct UV as [UV|UV]; injection UV as U1 U2; destruct MC as [[M1 M2]|[M1 M2]]; lia.
      - assert (NE : p <> q) by congruence. specialize (H1 q J NE). destruct UV as [UV|UV]; injection UV as -> ->; tauto. }
    assert (NB : forall q, In q ps -> forall (u v : nat), ((u, v) = (fst q, snd q) \/ (u, v) = (snd q, fst q)) -> ~ between p u -> ~ between p v).
    { intros q J u v UV B C. apply B. apply (BT q J v u); [|exact C]. destruct UV as [UV|UV]; injection UV as -> ->; auto. }
    assert (G1 : forall q, In q ps -> (In (fst q) (range (pmin p + 1) (pmax p)) -> inb (pmin p) (pmax p) (snd q) = true) /\ (In (snd q) (range (pmin p + 1) (pmax p)) -> inb (pmin p) (pmax p) (fst q) = true)).
    { intros q J. split; intros K; apply R in K; apply inb_between; [apply (BT q J (fst q) (snd q))|apply (BT q J (snd q) (fst q))]; auto; apply between_minmax; lia. }
    assert (G2 : forall ls, (forall x, In x ls -> x < pmin p \/ pmax p < x) -> forall q, In q ps -> (In (fst q) ls -> inb (pmin p) (pmax p) (snd q) = false) /\ (In (snd q) ls -> inb (pmin p) (pmax p) (fst q) = false)).
    { intros ls LS q J. split; intros K; apply LS in K; apply inb_not_between; [apply (NB q J (fst q) (snd q))|apply (NB q J (snd q) (fst q))]; auto; rewrite between_minmax; lia. }
    rewrite (proj2 (S1 _) (conj G1 eq_refl)).
    rewrite (proj2 (S2 _) (conj (G2 (range (pmax p + 1) n) ltac:(intros x K; apply R in K; lia)) eq_refl)).
    rewrite (proj2 (S3 _) (conj (G2 (range 0 (pmin p)) ltac:(intros x K; apply R in K; lia)) eq_refl)).
    replace (_ || _) with true; [reflexivity|]. symmetry. apply orb_true_iff. destruct H2 as [H2|H2].
    + left. apply forallb_forall. intros x K. apply contains_traced, H2, between_minmax. apply R in K. lia.
    + right. apply andb_true_iff. split; apply forallb_forall; intros x K; apply R in K; apply contains_traced, H2; try lia; rewrite between_minmax; lia.
Qed.
Lemma check_pairs_ok n traced pairs todo : check_pairs n traced pairs todo = TOk tt <-> Forall (fun p => check_pair n traced pairs p = TOk tt) todo.
Proof.
  induction todo as [|p t IH]; cbn [check_pairs]; [split; [constructor|reflexivity]|]. destruct (check_pair n traced pairs p) as [[]|e] eqn:E.
  - rewrite IH. split; [now constructor|]. intros X. now inversion X.
  - split; [discriminate|]. intros X. inversion X; congruence.
Qed.
Lemma check_pairs_size n traced pairs todo : check_pairs n traced pairs todo = TOk tt -> Forall (fun p => length p = 2) todo.
Proof. rewrite check_pairs_ok. apply Forall_impl. intros p. unfold check_pair. destruct p as [|a [|b [|]]]; try discriminate. reflexivity. Qed.

(** a decidable form of the third condition *)
Lemma sides n ps p : (forall x y, x < n -> y < n -> ~ traced_leg ps x -> ~ traced_leg ps y -> (between p x <-> between p y)) -> pmax p < n ->
  (forall x, between p x -> traced_leg ps x) \/ (forall x, x < n -> ~ between p x -> traced_leg ps x).
Proof.
  intros H PM. destruct (forallb (contains (pair_legs ps)) (range (pmin p + 1) (pmax p))) eqn:E.
  - left. intros x B. apply contains_traced. rewrite forallb_forall in E. apply E. unfold range. apply in_seq. apply between_minmax in B. lia.
  - right. assert (X : exists x, between p x /\ ~ traced_leg ps x).
    { apply not_true_iff_false in E. rewrite forallb_forall in E. destruct (existsb (fun x => negb (contains (pair_legs ps) x)) (range (pmin p + 1) (pmax p))) eqn:Z.
      - apply existsb_exists in Z. destruct Z as (x & I & N). exists x. split; [apply between_minmax; unfold range in I; apply in_seq in I; lia|]. apply negb_true_iff in N. rewrite <- contains_traced. congruence.
      - exfalso. apply E. intros x I. destruct (contains (pair_legs ps) x) eqn:C; [reflexivity|]. apply not_true_iff_false in Z. exfalso. apply Z. apply existsb_exists. exists x. split; [exact I|]. now rewrite C. }
    destruct X as (x & B & N). intros y Hy NB. apply contains_traced. destruct (contains (pair_legs ps) y) eqn:C; [reflexivity|]. exfalso. apply NB. apply (H x y); auto; [apply between_minmax in B; lia|]. rewrite <- contains_traced. congruence.
Qed.
Lemma checks_planar n ps : NoDup (pair_legs ps) -> Forall (fun x => x < n) (pair_legs ps) -> check_pairs n (pair_legs ps) (lists ps) (lists ps) = TOk tt <-> planar_trace n ps.
Proof.
  intros ND F. rewrite check_pairs_ok. assert (E : Forall (fun l => check_pair n (pair_legs ps) (lists ps) l = TOk tt) (lists ps) <-> forall p, In p ps -> pair_ok n ps p).
  { rewrite Forall_forall. split.
    - intros H p I. apply check_pair_ok; auto. apply H. unfold lists. apply in_map_iff. now exists p.
    - intros H l I. unfold lists in I. apply in_map_iff in I. destruct I as (p & <- & I). apply check_pair_ok; auto. }
  rewrite E. unfold planar_trace, pair_ok. split.
  - intros H. split; [exact ND|]. split; [intros p q I J NE; now apply (H p I)|]. intros p x y I Hx Hy Nx Ny. destruct (proj2 (H p I)) as [A|A].
    + split; intros B; exfalso; [apply Nx|apply Ny]; now apply A.
    + assert (DX : between p x) by (destruct (inb (pmin p) (pmax p) x) eqn:Z; [now apply inb_between|apply inb_not_between in Z; exfalso; apply Nx; now apply A]).
      assert (DY : between p y) by (destruct (inb (pmin p) (pmax p) y) eqn:Z; [now apply inb_between|apply inb_not_between in Z; exfalso; apply Ny; now apply A]). tauto.
  - intros (_ & A & B) p I. split; [intros q J NE; now apply A|]. apply sides; [intros x y; now apply B|]. rewrite Forall_forall in F.
    destruct (pmin_pmax p) as [_ [[? ->]|[? ->]]]; apply F; apply pair_legs_In; exists p; auto.
Qed.
