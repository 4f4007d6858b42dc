From Verif Require Import Util RowModel RowProofs SymModel SymProofs AbelianModel AbelianProofs Su2Model.
Set Implicit Arguments.
Unset Strict Implicit.
Open Scope Z_scope.

Lemma quot2 x : 0 <= x -> Z.quot x 2 = x / 2.
Proof. intros. apply Z.quot_div_nonneg; lia. Qed.

Lemma ap_In lo hi c : lo <= hi -> Z.even (hi - lo) = true ->
  (In c (ap_list lo hi) <-> exists x, c = [x] /\ lo <= x <= hi /\ Z.even (x - lo) = true).
Proof.
  intros L P. unfold ap_list. rewrite in_map_iff, quot2 by lia.
  apply Z.even_spec in P. destruct P as [h P].
  replace ((hi - lo) / 2) with h by (rewrite P, Z.mul_comm, Z.div_mul; lia).
  split.
  - intros (i & <- & Hi). apply in_seq in Hi. exists (lo + 2 * Z.of_nat i).
    split; auto. split; [lia|]. apply Z.even_spec. exists (Z.of_nat i). lia.
  - intros (x & -> & B & E). apply Z.even_spec in E. destruct E as [i E].
    exists (Z.to_nat i). rewrite Z2Nat.id by lia. split; [f_equal; lia|]. apply in_seq. lia.
Qed.

Lemma ap_NoDup lo hi : NoDup (ap_list lo hi).
Proof.
  unfold ap_list. apply NoDup_map_inj; [|apply seq_NoDup]. intros x y _ _ E. assert (E2 := f_equal (fun l => nth 0 l 0) E). cbn [nth] in E2. lia.
Qed.

(** counting inside an arithmetic progression *)
Lemma count_seq (p q n : nat) (P : nat -> bool) : (p <= q <= n)%nat ->
  (forall i, (i < n)%nat -> P i = true <-> (p <= i < q)%nat) ->
  nsum (map (fun i => if P i then 1 else 0)%nat (seq 0 n)) = (q - p)%nat.
Proof.
  intros H HP.
  assert (Z0 : forall s m, (forall i, (s <= i < s + m)%nat -> P i = false) ->
             nsum (map (fun i => if P i then 1 else 0)%nat (seq s m)) = 0%nat).
  { intros s m. revert s. induction m; intros s F; cbn [seq map nsum fold_right]; auto.
    rewrite F by lia. cbn [Nat.add]. apply IHm. intros. apply F. lia. }
  assert (Z1 : forall s m, (forall i, (s <= i < s + m)%nat -> P i = true) ->
             nsum (map (fun i => if P i then 1 else 0)%nat (seq s m)) = m).
  { intros s m. revert s. induction m; intros s F; cbn [seq map nsum fold_right]; auto.
    rewrite F by lia. cbn [Nat.add]. f_equal. apply IHm. intros. apply F. lia. }
  replace n with (p + ((q - p) + (n - q)))%nat at 1 by lia.
  rewrite !seq_app, !map_app, !nsum_app. cbn [Nat.add].
  rewrite Z0, Z1, Z0; [lia| | |].
  - intros i Hi. destruct (P i) eqn:E; auto. apply HP in E; lia.
  - intros i Hi. apply HP; lia.
  - intros i Hi. destruct (P i) eqn:E; auto. apply HP in E; lia.
Qed.

Lemma count_none (n : nat) (P : nat -> bool) :
  (forall i, (i < n)%nat -> P i = false) ->
  nsum (map (fun i => if P i then 1 else 0)%nat (seq 0 n)) = 0%nat.
Proof.
  intros H. rewrite count_seq with (p := 0%nat) (q := 0%nat); auto; [lia|].
  intros i Hi. rewrite H by auto. split; [discriminate|lia].
Qed.

(** number of x in the progression lo, lo+2, .., hi with P x, where P is the parity-compatible
    interval [L, U] *)
Lemma count_ap lo hi L U (P : sector -> bool) :
  lo <= hi -> Z.even (hi - lo) = true ->
  lo <= L -> U <= hi -> Z.even (L - lo) = true -> Z.even (U - lo) = true ->
  (forall x, lo <= x <= hi -> Z.even (x - lo) = true -> (P [x] = true <-> L <= x <= U)) ->
  nsum (map (fun c => if P c then 1 else 0)%nat (ap_list lo hi)) = Z.to_nat ((U - L) / 2 + 1).
Proof.
  intros LH EH HL HU EL EU HP. unfold ap_list. rewrite map_map, quot2 by lia.
  apply Z.even_spec in EH, EL, EU. destruct EH as [h EH], EL as [p EL], EU as [q EU].
  replace ((hi - lo) / 2) with h by (rewrite EH, Z.mul_comm, Z.div_mul; lia).
  replace ((U - L) / 2) with (q - p)
    by (replace (U - L) with ((q - p) * 2) by lia; rewrite Z.div_mul; lia).
  assert (Q : forall i, (i < Z.to_nat (h + 1))%nat ->
     P [lo + 2 * Z.of_nat i] = true <-> p <= Z.of_nat i <= q).
  { intros i Hi. rewrite HP; [lia|lia|]. apply Z.even_spec. exists (Z.of_nat i). lia. }
  destruct (Z.le_gt_cases p q) as [C|C].
  - rewrite count_seq with (P := fun i => P [lo + 2 * Z.of_nat i])
      (p := Z.to_nat p) (q := Z.to_nat (q + 1)); [lia|lia|].
    intros i Hi. rewrite Q by auto. lia.
  - rewrite count_none with (P := fun i => P [lo + 2 * Z.of_nat i]); [lia|].
    intros i Hi. destruct (P _) eqn:E; auto. apply Q in E; lia.
Qed.

Lemma even_sub_comm x y : Z.even (x - y) = Z.even (y - x).
Proof. rewrite !Z.even_sub. destruct (Z.even x), (Z.even y); reflexivity. Qed.

Lemma even_abs x : Z.even (Z.abs x) = Z.even x.
Proof. destruct x; reflexivity. Qed.

Ltac evenify := rewrite ?Z.even_sub, ?Z.even_add, ?even_abs, ?Z.even_sub, ?Z.even_add.

(** ** The two fusion rules share the predicate [tri K]:
    |a-b| <= c <= a+b, a+b+c even, and a+b+c <= 2k if there is a level k. *)
Definition tri (K : option Z) (a b c : Z) : Prop :=
  Z.abs (a - b) <= c <= a + b /\ Z.even (a + b + c) = true /\
  match K with None => True | Some k => a + b + c <= 2 * k end.
Definition okK (K : option Z) (a : Z) : Prop :=
  0 <= a /\ match K with None => True | Some k => a <= k end.
Definition hiK (K : option Z) (a b : Z) : Z :=
  match K with None => a + b | Some k => Z.min (a + b) (2 * k - a - b) end.

Section Tri0.
  Variable K : option Z.
  Lemma tri_sym a b c : tri K a b c -> tri K b a c.
  Proof. unfold tri. rewrite (Z.add_comm b a). destruct K; intuition lia. Qed.
  Lemma tri_rot a b c : tri K a b c -> tri K b c a.
  Proof.
    unfold tri. intros (H1 & H2 & H3). split; [lia|]. split.
    - replace (b + c + a) with (a + b + c) by lia. auto.
    - destruct K; lia.
  Qed.

  Lemma hi_ge a b : okK K a -> okK K b -> Z.abs (a - b) <= hiK K a b.
  Proof. unfold okK, hiK. destruct K; lia. Qed.
  Lemma hi_even a b : Z.even (hiK K a b - Z.abs (a - b)) = true.
  Proof.
    rewrite Z.even_sub, even_abs, Z.even_sub. unfold hiK. destruct K as [k|].
    - destruct (Z.min_spec (a + b) (2 * k - a - b)) as [[_ ->]|[_ ->]].
      + rewrite Z.even_add. destruct (Z.even a), (Z.even b); reflexivity.
      + rewrite !Z.even_sub, Z.even_mul. cbn [Z.even orb].
        destruct (Z.even a), (Z.even b); reflexivity.
    - rewrite Z.even_add. destruct (Z.even a), (Z.even b); reflexivity.
  Qed.

  Lemma even_tri a b c : Z.even (c - Z.abs (a - b)) = Z.even (a + b + c).
  Proof. evenify. destruct (Z.even a), (Z.even b), (Z.even c); reflexivity. Qed.

  Lemma tri_ok a b c : okK K a -> okK K b -> tri K a b c -> okK K c.
  Proof. unfold okK, tri. destruct K; lia. Qed.

End Tri0.

Section Tri.
  Variable S : symmetry.
  Variable K : option Z.
  Hypothesis Hout : forall a b, okK K a -> okK K b ->
    sym_outcomes S [a] [b] = ap_list (Z.abs (a - b)) (hiK K a b).
  Hypothesis Hn : forall a b c, sym_n S a b c = 1%nat.
  Hypothesis Hvalid : forall a, sym_valid S a = true <-> exists x, a = [x] /\ okK K x.
  Hypothesis Htriv : sym_trivial S = [0].
  Hypothesis Hdual : forall a, sym_dual S a = a.
  Hypothesis Hlen : sym_len S = 1%nat.

  Lemma out_In a b c : okK K a -> okK K b ->
    (In c (sym_outcomes S [a] [b]) <-> exists x, c = [x] /\ tri K a b x).
  Proof.
    intros Ha Hb. rewrite Hout by auto. rewrite ap_In by (auto using hi_ge, hi_even).
    split; intros (x & -> & H); exists x; (split; [reflexivity|]).
    - destruct H as [B E]. rewrite even_tri in E. unfold tri, hiK in *. destruct K; intuition lia.
    - destruct H as (B & E & U). rewrite even_tri. unfold hiK. destruct K; intuition lia.
  Qed.

  Lemma can_fuse_tri a b c : okK K a -> okK K b -> (can_fuse_to S [a] [b] [c] = true <-> tri K a b c).
  Proof.
    intros Ha Hb. rewrite can_fuse_to_In, out_In by auto. split.
    - intros (x & E & H). injection E as ->. auto.
    - eauto.
  Qed.

  Lemma n_symbol_ind a b c : n_symbol S a b c = if can_fuse_to S a b c then 1%nat else 0%nat.
  Proof. unfold n_symbol. now rewrite Hn. Qed.

  Lemma bool_eq_iff (x y : bool) : (x = true <-> y = true) -> x = y.
  Proof. destruct x, y; intuition congruence. Qed.

  Lemma n_symbol_iff a b c a' b' c' :
    (can_fuse_to S a b c = true <-> can_fuse_to S a' b' c' = true) ->
    n_symbol S a b c = n_symbol S a' b' c'.
  Proof. intros H. rewrite !n_symbol_ind. now rewrite (bool_eq_iff H). Qed.

  (** associativity: both counts are the length of the same-size interval *)
  Definition loI (a b c d : Z) := Z.max (Z.abs (a - b)) (Z.abs (c - d)).
  Definition hiI (a b c d : Z) := Z.min (hiK K a b) (hiK K c d).

  Lemma left_count_val a b c d : okK K a -> okK K b -> okK K c -> okK K d ->
    Z.even (a + b + c + d) = true ->
    left_count S [a] [b] [c] [d] = Z.to_nat ((hiI a b c d - loI a b c d) / 2 + 1).
  Proof.
    intros Ha Hb Hc Hd E. unfold left_count.
    rewrite map_ext_in with (g := fun e => if can_fuse_to S e [c] [d] then 1%nat else 0%nat).
    2:{ intros e He. rewrite !n_symbol_ind. rewrite (proj2 (can_fuse_to_In S _ _ e) He).
        now rewrite Nat.mul_1_l. }
    rewrite Hout by auto.
    assert (E1 : Z.even (a - b) = Z.even (c - d)).
    { revert E. evenify. destruct (Z.even a), (Z.even b), (Z.even c), (Z.even d); simpl; congruence. }
    assert (EL : Z.even (loI a b c d - Z.abs (a - b)) = true).
    { unfold loI. destruct (Z.max_spec (Z.abs (a - b)) (Z.abs (c - d))) as [[_ ->]|[_ ->]].
      - rewrite Z.even_sub, !even_abs, E1. now destruct (Z.even (c - d)).
      - rewrite Z.sub_diag. reflexivity. }
    assert (EU : Z.even (hiI a b c d - Z.abs (a - b)) = true).
    { unfold hiI. destruct (Z.min_spec (hiK K a b) (hiK K c d)) as [[_ ->]|[_ ->]].
      - apply hi_even.
      - assert (H := hi_even K c d). revert H. rewrite !Z.even_sub with (n := hiK _ _ _), !even_abs, E1. auto. }
    apply count_ap with (P := fun e => can_fuse_to S e [c] [d]); auto using hi_ge, hi_even.
    - unfold loI. lia.
    - unfold hiI. lia.
    - intros x Bx Ex.
      assert (Hx : okK K x).
      { assert (T : tri K a b x); [|exact (tri_ok Ha Hb T)].
        rewrite even_tri in Ex. unfold tri, hiK in *. destruct K; intuition lia. }
      rewrite can_fuse_tri by auto. unfold loI, hiI. rewrite even_tri in Ex.
      assert (Ec : Z.even (x + c + d) = true).
      { revert Ex E. evenify. destruct (Z.even a), (Z.even b), (Z.even c), (Z.even d), (Z.even x);
          simpl; congruence. }
      unfold tri, hiK in *. destruct K; intuition lia.
  Qed.

  Lemma comm a b c : sym_valid S a = true -> sym_valid S b = true -> sym_valid S c = true ->
    n_symbol S a b c = n_symbol S b a c.
  Proof.
    rewrite !Hvalid. intros (x & -> & Hx) (y & -> & Hy) (z & -> & Hz).
    apply n_symbol_iff. rewrite !can_fuse_tri by auto. split; apply tri_sym.
  Qed.

  Lemma right_left a b c d : okK K a -> okK K b -> okK K c -> okK K d ->
    right_count S [a] [b] [c] [d] = left_count S [b] [c] [a] [d].
  Proof.
    intros Ha Hb Hc Hd. unfold left_count, right_count. f_equal. apply map_ext_in.
    intros f Hf. rewrite out_In in Hf by auto. destruct Hf as (x & -> & Hx).
    f_equal. apply comm; rewrite Hvalid; eauto using tri_ok.
  Qed.

  Lemma left_zero a b c d : okK K a -> okK K b -> okK K c -> okK K d ->
    Z.even (a + b + c + d) = false -> left_count S [a] [b] [c] [d] = 0%nat.
  Proof.
    intros Ha Hb Hc Hd E. unfold left_count.
    rewrite map_ext_in with (g := fun _ => 0%nat).
    - generalize (sym_outcomes S [a] [b]). induction l; cbn; auto.
    - intros e He. rewrite out_In in He by auto. destruct He as (x & -> & Hx).
      rewrite (n_symbol_ind [x]). destruct (can_fuse_to S [x] [c] [d]) eqn:F; [|lia].
      apply can_fuse_tri in F; eauto using tri_ok. destruct Hx as (_ & E1 & _). destruct F as (_ & E2 & _).
      exfalso. revert E E1 E2. evenify.
      destruct (Z.even a), (Z.even b), (Z.even c), (Z.even d), (Z.even x); simpl; congruence.
  Qed.

  Lemma assoc_counts a b c d : okK K a -> okK K b -> okK K c -> okK K d ->
    left_count S [a] [b] [c] [d] = right_count S [a] [b] [c] [d].
  Proof.
    intros Ha Hb Hc Hd. rewrite right_left by auto.
    destruct (Z.even (a + b + c + d)) eqn:E.
    - rewrite !left_count_val; auto.
      + f_equal. f_equal. f_equal. unfold hiI, loI, hiK, okK in *. destruct K; lia.
      + rewrite <- E. f_equal. lia.
    - rewrite !left_zero; auto. rewrite <- E. f_equal. lia.
  Qed.

  Lemma tri_fusion_ring : (match K with None => True | Some k => 0 <= k end) -> fusion_ring S.
  Proof.
    intros HK. assert (K0 : okK K 0) by (unfold okK; destruct K; lia).
    constructor.
    - intros a. rewrite Hvalid. intros (x & -> & _). now rewrite Hlen.
    - rewrite Hvalid, Htriv. eauto.
    - intros a. now rewrite Hdual.
    - intros a b c. rewrite !Hvalid. intros (x & -> & Hx) (y & -> & Hy).
      rewrite out_In by auto. intros (z & -> & Hz). eauto using tri_ok.
    - intros a b. rewrite !Hvalid. intros (x & -> & Hx) (y & -> & Hy).
      rewrite Hout by auto. apply ap_NoDup.
    - intros. rewrite Hn. lia.
    - intros a. rewrite Hvalid, Htriv. intros (x & -> & Hx).
      assert (E : sym_outcomes S [0] [x] = [[x]]).
      { rewrite Hout by auto. unfold ap_list.
        replace (Z.abs (0 - x)) with x by (unfold okK in *; lia).
        replace (hiK K 0 x) with x by (unfold hiK, okK in *; destruct K; lia).
        rewrite Z.sub_diag. change (Z.to_nat (Z.quot 0 2 + 1)) with 1%nat. cbn [seq map].
        change (2 * Z.of_nat 0) with 0. now rewrite Z.add_0_r. }
      split; auto. rewrite n_symbol_In; [apply Hn|]. rewrite E. now left.
    - exact comm.
    - intros a b c d. rewrite !Hvalid. intros (x & -> & Hx) (y & -> & Hy) (z & -> & Hz) (w & -> & Hw).
      now apply assoc_counts.
    - intros a b. rewrite !Hvalid, Htriv, Hdual. intros (x & -> & Hx) (y & -> & Hy).
      rewrite n_symbol_ind. assert (E : can_fuse_to S [x] [y] [0] = row_eqb [y] [x]); [|now rewrite E].
      apply bool_eq_iff. rewrite can_fuse_tri, row_eqb_eq by auto. unfold tri. split.
      + intros H. f_equal. lia.
      + intros H. injection H as ->. unfold okK in *. split; [lia|]. split.
        * replace (x + x + 0) with (2 * x) by lia. now rewrite Z.even_mul.
        * destruct K; lia.
    - intros a _. now rewrite !Hdual.
    - apply Hdual.
    - intros. now rewrite !Hdual.
  Qed.
End Tri.

Lemma SU2_valid a : sym_valid SU2 a = true <-> exists x, a = [x] /\ okK None x.
Proof.
  cbn [sym_valid SU2]. rewrite andb_true_iff, Z.leb_le. split.
  - intros [L H]. apply len1_inv in L. destruct L as [x ->]. exists x. split; auto. now split.
  - intros (x & -> & H & _). now split.
Qed.

Lemma SU2_ring : fusion_ring SU2.
Proof. apply tri_fusion_ring with (K := None); auto. apply SU2_valid. Qed.

Lemma SU2k_valid k a : k <= 32767 ->
  (sym_valid (SU2_k k) a = true <-> exists x, a = [x] /\ okK (Some k) x).
Proof.
  intros Hk. cbn [sym_valid SU2_k]. rewrite !andb_true_iff, !Z.leb_le, int16b_spec. split.
  - intros [[L _] H]. apply len1_inv in L. destruct L as [x ->]. exists x. split; auto.
  - intros (x & -> & H). unfold okK in H. cbn [q0 nth]. unfold int16. split; [split; [reflexivity|lia]|lia].
Qed.

Lemma SU2k_out k a b : k <= 32767 -> okK (Some k) a -> okK (Some k) b ->
  sym_outcomes (SU2_k k) [a] [b] = ap_list (Z.abs (a - b)) (hiK (Some k) a b).
Proof.
  intros Hk Ha Hb. cbn [sym_outcomes SU2_k]. unfold su2k_outcomes, ap_list. cbn [q0 nth hiK].
  apply map_ext_in. intros i Hi. apply in_seq in Hi.
  assert (G := @hi_ge (Some k) a b Ha Hb). assert (E := hi_even (Some k) a b). cbn [hiK] in *.
  rewrite quot2 in Hi by lia. apply Z.even_spec in E. destruct E as [h E].
  rewrite E in Hi. rewrite (Z.mul_comm 2 h), Z.div_mul in Hi by lia.
  unfold okK in *. rewrite to_i16_id; auto. unfold int16. lia.
Qed.

Lemma SU2k_ring k : 0 <= k <= 32767 -> fusion_ring (SU2_k k).
Proof.
  intros Hk. apply tri_fusion_ring with (K := Some k); auto; try lia.
  - intros. apply SU2k_out; auto; lia.
  - intros a. apply SU2k_valid. lia.
Qed.

(** dimensions *)
Lemma sum_ap x n : 
  nsum (map (fun i => Z.to_nat (x + 2 * Z.of_nat i + 1)) (seq 0 n)) =
  Z.to_nat (Z.of_nat n * (x + Z.of_nat n)) \/ x < 0.
Proof.
  destruct (Z.le_gt_cases 0 x) as [H|H]; [left|auto].
  induction n; [reflexivity|].
  rewrite seq_S, map_app, nsum_app, IHn. cbn [map nsum fold_right]. rewrite Nat.add_0_r.
  rewrite <- Z2Nat.inj_add by lia. f_equal. rewrite Nat2Z.inj_succ. cbn [Nat.add]. lia.
Qed.

Lemma SU2_dims : dim_law SU2.
Proof.
  split; [|split; [reflexivity|split; [reflexivity|]]].
  - intros a. rewrite SU2_valid. intros (x & -> & H & _). cbn [sym_dim SU2 q0 nth]. lia.
  - intros a b. rewrite !SU2_valid. intros (x & -> & Hx) (y & -> & Hy).
    rewrite map_ext_in with (g := fun c => Z.to_nat (q0 c + 1)).
    2:{ intros c Hc. rewrite n_symbol_In by auto. cbn [sym_n SU2 sym_dim]. lia. }
    cbn [sym_outcomes SU2 sym_dim]. unfold ap_list. rewrite map_map. cbn [q0 nth].
    unfold okK in *. rewrite quot2 by lia.
    destruct (@sum_ap (Z.abs (x - y)) (Z.to_nat ((x + y - Z.abs (x - y)) / 2 + 1))) as [E|]; [|lia].
    rewrite E. rewrite <- Z2Nat.inj_mul by lia. f_equal.
    assert (H : (x + y - Z.abs (x - y)) / 2 = Z.min x y).
    { replace (x + y - Z.abs (x - y)) with (Z.min x y * 2) by lia. apply Z.div_mul. lia. }
    rewrite H, Z2Nat.id by lia.
    destruct (Z.min_spec x y) as [[C ->]|[C ->]].
    + replace (Z.abs (x - y)) with (y - x) by lia. lia.
    + replace (Z.abs (x - y)) with (x - y) by lia. lia.
Qed.

Lemma SU2_In a b c : 0 <= a -> 0 <= b ->
  (In c (sym_outcomes SU2 [a] [b]) <-> exists x, c = [x] /\ tri None a b x).
Proof. intros. apply out_In; auto using SU2_valid; now split. Qed.
Lemma SU2k_In k a b c : k <= 32767 -> 0 <= a <= k -> 0 <= b <= k ->
  (In c (sym_outcomes (SU2_k k) [a] [b]) <-> exists x, c = [x] /\ tri (Some k) a b x).
Proof.
  intros. apply out_In; auto.
  - intros; now apply SU2k_out.
  - intros. now apply SU2k_valid.
Qed.
