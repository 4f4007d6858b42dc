From Verif Require Import Util TruncModel TruncSpec.
From Coq Require Import Reals Lra.
Set Implicit Arguments. Unset Strict Implicit.
Open Scope nat_scope.

Lemma Rleb_iff x y : Rleb x y = true <-> (x <= y)%R.
Proof. unfold Rleb. destruct (Rle_dec x y); split; intros; auto; try discriminate; contradiction. Qed.
Lemma Rltb_iff x y : Rltb x y = true <-> (x < y)%R.
Proof. unfold Rltb. destruct (Rlt_dec x y); split; intros; auto; try discriminate; contradiction. Qed.

Definition repr (n : nat) (l : list bool) (G : nat -> Prop) : Prop :=
  length l = n /\ forall c, c < n -> (nth c l false = true <-> G c).

Lemma existsb_repr n l G : repr n l G -> (existsb (fun b => b) l = true <-> exists c, c < n /\ G c).
Proof.
  intros [HL HG]. rewrite existsb_exists. split.
  - intros [b [Hin Hb]]. apply (In_nth _ _ false) in Hin. destruct Hin as [c [Hc E]]. exists c. rewrite HL in Hc. split; [easy|].
    apply HG; [easy|]. now rewrite E.
  - intros [c [Hc G']]. exists (nth c l false). split; [apply nth_In; lia|]. now apply HG.
Qed.

Lemma combine_step n l G l2 (C : nat -> Prop) : repr n l G -> (exists c, c < n /\ G c) -> repr n l2 C ->
  exists G', repr n (combine_constraints l l2) G' /\ (exists c, c < n /\ G' c) /\
    forall cs H, respect n G' cs H -> respect n G (C :: cs) H.
Proof.
  intros R1 HE R2. pose (res := map (fun p => andb (fst p) (snd p)) (combine l l2)).
  assert (R3 : repr n res (fun c => G c /\ C c)).
  { destruct R1 as [L1 H1], R2 as [L2 H2]. split.
    - unfold res. rewrite map_length, combine_length. lia.
    - intros c Hc. unfold res. rewrite nth_map_lt with (d := (false, false)) by (rewrite combine_length; lia).
      rewrite combine_nth by lia. cbn [fst snd]. rewrite andb_true_iff, H1, H2 by easy. reflexivity. }
  unfold combine_constraints. fold res. destruct (existsb (fun b => b) res) eqn:E.
  - exists (fun c => G c /\ C c). split; [easy|]. apply (existsb_repr R3) in E. split; [easy|]. intros. now apply respect_yes.
  - exists G. split; [easy|]. split; [easy|]. intros. apply respect_no; [|easy]. intros X. apply (existsb_repr R3) in X. congruence.
Qed.
Lemma skip_step n l G (C : nat -> Prop) : repr n l G -> (exists c, c < n /\ G c) -> (forall c, c < n -> C c) ->
  exists G', repr n l G' /\ (exists c, c < n /\ G' c) /\ forall cs H, respect n G' cs H -> respect n G (C :: cs) H.
Proof.
  intros [L1 H1] [c0 [Hc0 G0]] HC. exists (fun c => G c /\ C c). split.
  - split; [easy|]. intros c Hc. rewrite H1 by easy. split; [|tauto]. intros; split; auto.
  - split; [exists c0; auto|]. intros. apply respect_yes; [exists c0; auto|easy].
Qed.
Lemma ignore_step n l G (C : nat -> Prop) : repr n l G -> (exists c, c < n /\ G c) -> (forall c, c < n -> ~ C c) ->
  exists G', repr n l G' /\ (exists c, c < n /\ G' c) /\ forall cs H, respect n G' cs H -> respect n G (C :: cs) H.
Proof.
  intros R1 HE HC. exists G. split; [easy|]. split; [easy|]. intros. apply respect_no; [|easy].
  intros [c [Hc [_ X]]]. exact (HC c Hc X).
Qed.

Lemma set_from_length s v a : length (set_from s v a) = length a.
Proof. unfold set_from. rewrite app_length, firstn_length, repeat_length. lia. Qed.
Lemma set_from_nth n b v s c : c < n ->
  nth c (set_from s v (repeat b n)) false =
  (if (Z.to_nat (if (s <? 0)%Z then Z.max 0 (Z.of_nat n + s) else Z.min s (Z.of_nat n)) <=? c) then v else b).
Proof.
  intros Hc. unfold set_from. rewrite repeat_length. set (k := Z.to_nat _). destruct (Nat.leb_spec k c).
  - rewrite app_nth2 by (rewrite firstn_length, repeat_length; lia). apply nth_repeat_lt. rewrite firstn_length, repeat_length. lia.
  - rewrite app_nth1 by (rewrite firstn_length, repeat_length; lia). rewrite nth_firstn_lt by easy. apply nth_repeat_lt. lia.
Qed.

Section Good.
  Variables (S errs : list R) (p : trunc_params).
  Let n := length S.
  Hypothesis Hn : 0 < n.
  Hypothesis He : length errs = n.
  Hypothesis Hmax : forall m, chi_max p = Some m -> (0 <= m)%Z.

  Lemma removelast_nth (l : list R) d i : i < length l - 1 -> nth i (removelast l) d = nth i l d.
  Proof.
    revert i. induction l as [|x [|y l] IH]; intros i H; cbn [length] in *; try lia.
    change (removelast (x :: y :: l)) with (x :: removelast (y :: l)). destruct i; [easy|]. cbn [nth]. apply IH. cbn [length]. lia.
  Qed.
  Lemma removelast_len (l : list R) : length (removelast l) = length l - 1.
  Proof.
    induction l as [|x [|y l] IH]; [easy|easy|]. change (removelast (x :: y :: l)) with (x :: removelast (y :: l)).
    cbn [length] in *. lia.
  Qed.

  Lemma good_ok : exists H, respect n (fun _ => True) (constraints n (fun i => nth i S 0%R) (fun i => nth i errs 0%R) p) H /\
    repr n (good_cuts S errs p) H /\ exists c, c < n /\ H c.
  Proof.
    unfold good_cuts, constraints. cbv zeta. fold n.
    set (clipped := map _ S). set (logS := map ln clipped).
    assert (HlogL : length logS = n) by (unfold logS, clipped; now rewrite !map_length).
    assert (Hlog : forall i, i < n -> nth i logS 0%R = log_value (nth i S 0%R)).
    { intros i Hi. unfold logS, clipped. rewrite map_map. rewrite nth_map_lt with (d := 0%R) by easy. unfold log_value, Rleb. now destruct (Rle_dec (nth i S 0%R) (/ 10 ^ 100)). }
    set (g0 := repeat true n).
    assert (R0 : repr n g0 (fun _ => True)).
    { split; [apply repeat_length|]. intros c Hc. unfold g0. rewrite nth_repeat_lt by easy. tauto. }
    assert (E0 : exists c, c < n /\ (fun _ : nat => True) c) by (exists 0; auto).
    (* chi_max *)
    set (g1 := match chi_max p with Some _ => _ | None => g0 end).
    set (c1 := match chi_max p with Some _ => _ | None => [] end).
    assert (T1 : exists G', repr n g1 G' /\ (exists c, c < n /\ G' c) /\ forall cs H, respect n G' cs H -> respect n (fun _ => True) (c1 ++ cs) H).
    { unfold g1, c1. destruct (chi_max p) as [m|] eqn:Em.
      - specialize (Hmax eq_refl). cbn [app]. destruct (Z.ltb_spec m (Z.of_nat n)) as [Lm|Lm].
        + destruct (Z.eq_dec m 0) as [->|Nz].
          * apply ignore_step; [|easy|intros; lia].
            destruct (combine_step (n := n) R0 E0 (l2 := set_from (- 0) true (repeat false n)) (C := fun _ => True)) as [G' [A [B _]]].
            { split; [rewrite set_from_length; apply repeat_length|]. intros c Hc. rewrite set_from_nth by easy.
              destruct (Nat.leb_spec (Z.to_nat (if (- 0 <? 0)%Z then Z.max 0 (Z.of_nat n + - 0) else Z.min (- 0) (Z.of_nat n))) c); [tauto|].
              change (- 0 <? 0)%Z with false in *. cbv iota in *. lia. }
            destruct A as [A1 A2]. unfold combine_constraints in *. split; [destruct (existsb _ _); [rewrite map_length, combine_length, set_from_length; unfold g0; rewrite !repeat_length; lia|easy]|].
            intros c Hc. split; [tauto|]. intros _. destruct (existsb _ _); [|now apply R0].
            rewrite nth_map_lt with (d := (false, false)) by (rewrite combine_length, set_from_length; unfold g0; rewrite !repeat_length; lia).
            rewrite combine_nth by (rewrite set_from_length; unfold g0; now rewrite !repeat_length).
            cbn [fst snd]. rewrite set_from_nth by easy. apply andb_true_iff. split; [now apply R0|].
            destruct (Nat.leb_spec (Z.to_nat (if (- 0 <? 0)%Z then Z.max 0 (Z.of_nat n + - 0) else Z.min (- 0) (Z.of_nat n))) c); [easy|].
            change (- 0 <? 0)%Z with false in *. cbv iota in *. lia.
          * apply combine_step; [easy|easy|]. split; [rewrite set_from_length; apply repeat_length|].
            intros c Hc. rewrite set_from_nth by easy. destruct (Z.ltb_spec (- m) 0); [|lia].
            destruct (Nat.leb_spec (Z.to_nat (Z.max 0 (Z.of_nat n + - m))) c); split; intros; try easy; lia.
        + apply skip_step; [easy|easy|]. intros c Hc. lia.
      - exists (fun _ => True). auto. }
    destruct T1 as [G1 [R1 [E1 X1]]].
    (* chi_min *)
    set (g2 := if (1 <? chi_min p)%Z then _ else g1).
    set (C2 := fun cut : nat => (chi_min p <= Z.of_nat (n - cut))%Z).
    assert (T2 : exists G', repr n g2 G' /\ (exists c, c < n /\ G' c) /\ forall cs H, respect n G' cs H -> respect n G1 (C2 :: cs) H).
    { unfold g2. destruct (Z.ltb_spec 1 (chi_min p)) as [Lc|Lc].
      - apply combine_step; [easy|easy|]. split; [rewrite set_from_length; apply repeat_length|].
        intros c Hc. unfold g0. rewrite set_from_nth by easy. unfold C2. destruct (Z.ltb_spec (- chi_min p + 1) 0); [|lia].
        destruct (Nat.leb_spec (Z.to_nat (Z.max 0 (Z.of_nat n + (- chi_min p + 1)))) c); split; intros; try easy; lia.
      - apply skip_step; [easy|easy|]. intros c Hc. unfold C2. lia. }
    destruct T2 as [G2 [R2 [E2 X2]]].
    (* degeneracy *)
    set (g3 := if Rltb 0 (degeneracy_tol p) then _ else g2).
    set (c3 := if Rlt_dec 0 (degeneracy_tol p) then _ else []).
    assert (T3 : exists G', repr n g3 G' /\ (exists c, c < n /\ G' c) /\ forall cs H, respect n G' cs H -> respect n G2 (c3 ++ cs) H).
    { unfold g3, c3, Rltb. destruct (Rlt_dec 0 (degeneracy_tol p)) as [Hd|Hd]; [|exists G2; auto].
      cbn [app]. apply combine_step; [easy|easy|].
      assert (HL : length (combine (tl logS) (removelast logS)) = n - 1).
      { rewrite combine_length, removelast_len. destruct logS; cbn [tl length] in *; lia. }
      split; [cbn [length]; rewrite !map_length, HL; lia|]. intros c Hc. destruct c; [cbn [nth]; tauto|]. cbn [nth].
      rewrite map_map. rewrite nth_map_lt with (d := (0%R, 0%R)) by lia.
      rewrite combine_nth by (rewrite removelast_len; destruct logS; cbn [tl length] in *; lia). cbn [fst snd].
      rewrite Rleb_iff, removelast_nth by lia.
      assert (Et : nth c (tl logS) 0%R = nth (Datatypes.S c) logS 0%R) by (destruct logS; [destruct c|]; easy).
      rewrite Et, !Hlog by lia. replace (Datatypes.S c - 1) with c by lia. split; [auto|]. intros [X|X]; [lia|easy]. }
    destruct T3 as [G3 [R3 [E3 X3]]].
    (* svd_min *)
    set (g4 := match svd_min p with Some _ => _ | None => g3 end).
    set (c4 := match svd_min p with Some _ => _ | None => [] end).
    assert (T4 : exists G', repr n g4 G' /\ (exists c, c < n /\ G' c) /\ forall cs H, respect n G' cs H -> respect n G3 (c4 ++ cs) H).
    { unfold g4, c4. destruct (svd_min p) as [m|]; [|exists G3; auto]. cbn [app]. apply combine_step; [easy|easy|].
      split; [now rewrite map_length|]. intros c Hc. rewrite nth_map_lt with (d := 0%R) by easy. apply Rleb_iff. }
    destruct T4 as [G4 [R4 [E4 X4]]].
    set (C5 := fun cut : nat => (trunc_cut p * trunc_cut p < rsum (map (fun i => nth i errs 0%R) (seq 0%nat (cut + 1)%nat)))%R).
    destruct (combine_step R4 E4 (l2 := map (fun x => Rltb (trunc_cut p * trunc_cut p)%R x) (cumsum errs)) (C := C5)) as [G5 [R5 [E5 X5]]].
    { unfold cumsum. split; [now rewrite !map_length, seq_length|]. intros c Hc. rewrite map_map.
      rewrite nth_map_lt with (d := 0) by (rewrite seq_length; lia). rewrite seq_nth by lia. cbn [Nat.add]. rewrite Rltb_iff. unfold C5.
      replace (map (fun i => nth i errs 0%R) (seq 0 (c + 1))) with (firstn (Datatypes.S c) errs); [easy|].
      apply list_eq_nth with (d := 0%R); [rewrite firstn_length, map_length, seq_length; lia|].
      intros i Hi. rewrite firstn_length in Hi. rewrite nth_firstn_lt by lia.
      rewrite nth_map_lt with (d := 0) by (rewrite seq_length; lia). rewrite seq_nth by lia. reflexivity. }
    exists G5. split; [|split; easy].
    apply X1. cbn [app]. apply X2. apply X3. apply X4. apply X5. constructor.
  Qed.
End Good.
