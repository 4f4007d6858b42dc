From Verif Require Import Util StableSort RowModel RowProofs GridModel GridProofs SymModel SpaceModel SpaceSpec SpaceProofs SpaceProofs2 SpaceProofs3.
Set Implicit Arguments. Unset Strict Implicit.
Open Scope nat_scope.

(** * parse_index *)
Lemma bisect_spec starts idx : (forall i j, i <= j < length starts -> nth i starts 0 <= nth j starts 0) ->
  forall fuel lo hi, hi - lo <= fuel -> lo <= hi <= length starts ->
  (forall i, i < lo -> nth i starts 0 <= idx) -> (forall i, hi <= i < length starts -> idx < nth i starts 0) ->
  let r := bisect fuel starts idx lo hi in
  r <= length starts /\ (forall i, i < r -> nth i starts 0 <= idx) /\ (forall i, r <= i < length starts -> idx < nth i starts 0).
Proof.
  intros M. induction fuel as [|fuel IH]; intros lo hi HF HB H1 H2; cbn [bisect].
  - replace hi with lo in * by lia. repeat split; [lia | exact H1 | exact H2].
  - destruct (Nat.ltb_spec lo hi) as [C|C].
    + set (mid := lo + (hi - lo) / 2). assert (HM : lo <= mid < hi).
      { assert ((hi - lo) / 2 < hi - lo) by (apply Nat.div_lt; lia). unfold mid. lia. }
      destruct (Nat.leb_spec (nth mid starts 0) idx) as [D|D]; apply IH; try lia.
      * intros i Hi. assert (nth i starts 0 <= nth mid starts 0) by (apply M; lia). lia.
      * exact H2.
      * exact H1.
      * intros i Hi. assert (nth mid starts 0 <= nth i starts 0) by (apply M; lia). lia.
    + replace hi with lo in * by lia. repeat split; [lia | exact H1 | exact H2].
Qed.
Lemma nsum_firstn_mono v i j : i <= j -> nsum (firstn i v) <= nsum (firstn j v).
Proof.
  intros H. replace (firstn i v) with (firstn i (firstn j v)) by (rewrite firstn_firstn, Nat.min_l by exact H; reflexivity).
  rewrite <- (firstn_skipn i (firstn j v)) at 2. rewrite nsum_app. lia.
Qed.

Lemma nth_inv_perm n p i : is_perm n p -> i < n -> nth i (inverse_permutation p) 0 < n /\ nth (nth i (inverse_permutation p) 0) p 0 = i.
Proof.
  intros P H. destruct (is_perm_surj P H) as (j & Hj & E). rewrite <- E at 1. rewrite <- E at 1. rewrite (inverse_permutation_l P Hj). split; [exact Hj | exact E].
Qed.

Section Parse.
  Variable S : symm.
  Hypothesis HD : s_drop S = true.
  Variable E : espace.
  Hypothesis OK : es_ok S E.
  Let v := num_states S (es_decomp S E) (es_mults E).
  Let n := es_dim S E.
  Lemma sl_eq : map fst (sp_slices S (es_space S E)) = map (fun i => nsum (firstn i v)) (seq 0 (length (es_decomp S E))).
  Proof.
    unfold sp_slices. cbv zeta. rewrite map_map. cbn [fst]. change (sp_secs (es_space S E)) with (es_decomp S E). change (sp_mults (es_space S E)) with (es_mults E).
    apply map_ext_in. intros i Hi. apply in_seq in Hi. apply boundaries_nth. unfold v. rewrite num_states_length. lia.
  Qed.
  Lemma parse_index_spec idx : (- Z.of_nat n <= idx < Z.of_nat n)%Z ->
    let i := Z.to_nat (if idx <? 0 then idx + Z.of_nat n else idx)%Z in
    exists s m, parse_index S E idx = Some (s, m) /\ s < length (es_decomp S E) /\ m < nth s v 0 /\
      i < n /\ nth (nsum (firstn s v) + m) (basis_perm S E) 0 = i /\ nsum (firstn s v) + m < n.
  Proof.
    intros HR i. assert (Hi : i < n) by (unfold i; destruct (Z.ltb_spec idx 0); lia).
    unfold parse_index. rewrite HD. cbn [negb]. unfold to_valid_idx. fold n.
    destruct (Z.ltb_spec idx (- Z.of_nat n)); [lia|]. destruct (Z.leb_spec (Z.of_nat n) idx); [lia|]. cbn [orb]. cbv zeta. fold i.
    set (k := match es_perm E with Some p => nth i (inverse_permutation p) 0 | None => i end).
    assert (P := ok_bperm OK). fold n in P.
    assert (Hk : k < n /\ nth k (basis_perm S E) 0 = i).
    { unfold k, basis_perm in *. destruct (es_perm E); [apply nth_inv_perm; assumption|]. split; [exact Hi|]. rewrite seq_nth; [reflexivity | exact Hi]. }
    destruct Hk as [Hk Ek].
    assert (ED : n = nsum v) by reflexivity.
    assert (LV : length v = length (es_decomp S E)) by apply num_states_length.
    assert (LSl : length (sp_slices S (es_space S E)) = length v) by (unfold sp_slices; rewrite map_length, seq_length; symmetry; apply LV).
    set (sl := sp_slices S (es_space S E)) in *. rewrite LSl.
    assert (ST : forall j, j < length v -> nth j (map fst sl) 0 = nsum (firstn j v)).
    { intros j Hj. unfold sl. rewrite sl_eq. rewrite nth_map_lt with (d := 0) by (rewrite seq_length; lia). rewrite seq_nth by lia. reflexivity. }
    assert (LM : length (map fst sl) = length v) by (rewrite map_length; exact LSl).
    destruct (@bisect_spec (map fst sl) k) with (fuel := length v) (lo := 0) (hi := length v) as (B1 & B2 & B3).
    - rewrite LM. intros a b Hab. rewrite !ST by lia. apply nsum_firstn_mono. lia.
    - lia.
    - lia.
    - lia.
    - lia.
    - set (lo := bisect (length v) (map fst sl) k 0 (length v)) in *. rewrite LM in B1, B3.
      destruct (Nat.eqb_spec lo 0) as [L0|L0].
      + exfalso. destruct (Nat.eq_dec (length v) 0) as [Z0|Z0]; [assert (Q : forall w, length w = 0 -> nsum w = 0) by (intros [|]; [reflexivity | discriminate]); specialize (Q _ Z0); lia|].
        assert (B4 : k < nth 0 (map fst sl) 0) by (apply B3; lia). rewrite ST in B4 by lia. change (nsum (firstn 0 v)) with 0 in B4. lia.
      + exists (lo - 1), (k - fst (nth (lo - 1) sl (0, 0))).
        assert (E1 : fst (nth (lo - 1) sl (0, 0)) = nsum (firstn (lo - 1) v)).
        { rewrite <- ST by lia. rewrite nth_map_lt with (d := (0, 0)) by lia. reflexivity. }
        assert (H1 : nsum (firstn (lo - 1) v) <= k) by (specialize (B2 (lo - 1)); rewrite ST in B2 by lia; lia).
        assert (H2 : k < nsum (firstn lo v)).
        { destruct (Nat.eq_dec lo (length v)) as [EE|EE]; [rewrite EE, firstn_all; lia|]. specialize (B3 lo). rewrite ST in B3 by lia. lia. }
        assert (H3 : nsum (firstn lo v) = nsum (firstn (lo - 1) v) + nth (lo - 1) v 0).
        { replace lo with (Datatypes.S (lo - 1)) at 1 by lia. apply nsum_firstn_S. lia. }
        rewrite E1. split; [reflexivity|]. split; [lia|]. split; [lia|]. split; [exact Hi|].
        replace (nsum (firstn (lo - 1) v) + (k - nsum (firstn (lo - 1) v))) with k by lia. split; assumption.
  Qed.
  Lemma parse_index_out idx : (idx < - Z.of_nat n \/ Z.of_nat n <= idx)%Z -> parse_index S E idx = None.
  Proof.
    intros H. unfold parse_index. rewrite HD. cbn [negb]. unfold to_valid_idx. fold n.
    destruct (Z.ltb_spec idx (- Z.of_nat n)); [reflexivity|]. destruct (Z.leb_spec (Z.of_nat n) idx); [reflexivity | lia].
  Qed.
  (** the internal state at position start_s + m of the internal basis belongs to sector s *)
  Lemma states_sector secs mults s m : length mults = length secs -> s < length secs -> m < nth s (num_states S secs mults) 0 ->
    nth (nsum (firstn s (num_states S secs mults)) + m) (map fst (states S secs mults)) [] = nth s secs [].
  Proof.
    intros L Hs Hm. rewrite states_labels, flat_map_map_out, flat_map_concat_map.
    assert (EM : map (@length sector) (map (fun x => map fst (labels S x)) (combine secs mults)) = num_states S secs mults).
    { rewrite map_map, num_states_eq by exact L. apply map_ext. intros. rewrite map_length. apply labels_length. }
    rewrite <- EM at 1. assert (EN : nth s (map (fun x => map fst (labels S x)) (combine secs mults)) [] = repeat (nth s secs []) (nth s (num_states S secs mults) 0)).
    { rewrite nth_map_lt with (d := ([], 0)) by (rewrite combine_length; lia). rewrite map_fst_labels, combine_nth by lia. cbn [fst]. f_equal.
      rewrite num_states_eq by exact L. rewrite nth_map_lt with (d := ([], 0)) by (rewrite combine_length; lia). rewrite combine_nth by lia. reflexivity. }
    rewrite nth_concat.
    - rewrite EN. rewrite nth_repeat_lt by exact Hm. reflexivity.
    - rewrite map_length, combine_length. lia.
    - rewrite EN, repeat_length. exact Hm.
  Qed.
End Parse.
