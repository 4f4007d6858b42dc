From Verif Require Import Util RowProofs TensorProofs6 TruncModel TruncSpec TruncProofs TruncProofs2.
From Coq Require Import Reals Lra.
Set Implicit Arguments. Unset Strict Implicit.
Open Scope nat_scope.

(** a constraint that can be met together with everything before it is met *)
Lemma respect_met n cs G H : respect n G cs H -> forall c, H c -> G c.
Proof. induction 1; intros x Hx; auto. exact (proj1 (IHrespect x Hx)). Qed.
Lemma respect_first n C cs G H : respect n G (C :: cs) H -> (exists c, c < n /\ G c /\ C c) -> forall c, H c -> C c.
Proof. intros R E. inversion R as [|? ? ? ? _ R'|? ? ? ? N _]; subst; [|contradiction]. intros c Hc. exact (proj2 (respect_met R' Hc)). Qed.
Lemma respect_app n cs1 cs2 G H : respect n G (cs1 ++ cs2) H -> exists G', respect n G cs1 G' /\ respect n G' cs2 H.
Proof.
  revert G. induction cs1 as [|C cs1 IH]; intros G R; [exists G; split; [constructor|easy]|].
  cbn [app] in R. inversion R as [|? ? ? ? E R'|? ? ? ? E R']; subst; destruct (IH _ R') as [G' [A B]]; exists G'; split; try easy;
  [now apply respect_yes|now apply respect_no].
Qed.
Lemma respect_trivial n G C cs H : respect n G (C :: cs) H -> (exists c, c < n /\ G c) -> (forall c, c < n -> C c) ->
  exists G', (forall c, c < n -> (G' c <-> G c)) /\ respect n G' cs H.
Proof.
  intros R [c [Hc Gc]] HC. inversion R as [|? ? ? ? E R'|? ? ? ? E R']; subst.
  - exists (fun c => G c /\ C c). split; [|easy]. intros x Hx. split; [tauto|]. auto.
  - exfalso. apply E. exists c. auto.
Qed.

Section Facts.
  Variables (S : list R) (q : option (list R)) (piv : list nat) (p : trunc_params).
  Let n := length S.
  Hypothesis Hn : 0 < n.
  Hypothesis Hq : forall l, q = Some l -> length l = length S.
  Hypothesis HP : sorts S q piv.
  Hypothesis Hmax : forall m, chi_max p = Some m -> (0 <= m)%Z.
  Variables (mask : list bool) (err norm : R).
  Hypothesis ES : truncate_selection S q piv p = Some (mask, err, norm).

  Lemma sel : exists cut H, length mask = n /\ cut < n /\
    respect n (fun _ => True) (constraints n (fun i => nth (nth i piv 0) S 0%R) (fun i => weight S q (nth i piv 0)) p) H /\ H cut /\
    (minimize_error p = true -> forall c, c < n -> H c -> cut <= c) /\
    (minimize_error p = false -> forall c, c < n -> H c -> c <= cut) /\
    Permutation (kept mask) (skipn cut piv) /\ Permutation (discarded mask) (firstn cut piv) /\
    err = rsum (map (weight S q) (discarded mask)) /\ norm = rsum (map (weight S q) (kept mask)).
  Proof.
    destruct (selection_ok Hn Hq HP Hmax) as [m [e [w [cut [H [E X]]]]]]. rewrite ES in E. inversion E; subst m e w. exists cut, H. exact X.
  Qed.

  Lemma kept_lighter i j : i < n -> j < n -> nth i mask false = true -> nth j mask false = false -> (weight S q j <= weight S q i)%R.
  Proof.
    destruct sel as [cut [H [Lm [Hc [_ [_ [_ [_ [K1 [K2 _]]]]]]]]]]. destruct HP as [PP SO]. pose proof (is_perm_length PP) as PL. fold n in PL, SO, PP.
    intros Hi Hj Mi Mj.
    assert (I1 : In i (skipn cut piv)).
    { apply (Permutation_in i K1). apply filter_In. split; [apply in_seq; lia|easy]. }
    assert (I2 : In j (firstn cut piv)).
    { apply (Permutation_in j K2). apply filter_In. split; [apply in_seq; lia|now rewrite Mj]. }
    destruct (In_nth _ _ 0 I1) as [a [Ha <-]]. destruct (In_nth _ _ 0 I2) as [b [Hb <-]].
    rewrite skipn_length in Ha. rewrite firstn_length in Hb. rewrite nth_skipn', nth_firstn_lt by lia. apply SO. lia.
  Qed.
  Lemma num_kept : exists cut, cut < n /\ length (kept mask) = n - cut.
  Proof.
    destruct sel as [cut [H [Lm [Hc [_ [_ [_ [_ [K1 [K2 _]]]]]]]]]]. exists cut. split; [easy|].
    rewrite (Permutation_length K1), skipn_length. f_equal. exact (is_perm_length (proj1 HP)).
  Qed.
  Lemma chi_bounds :
    (forall m, chi_max p = Some m -> (1 <= m)%Z -> (Z.of_nat (length (kept mask)) <= m)%Z) /\
    ((chi_min p <= Z.of_nat n)%Z -> (forall m, chi_max p = Some m -> (chi_min p <= m)%Z) -> (chi_min p <= Z.of_nat (length (kept mask)))%Z).
  Proof.
    destruct sel as [cut [H [Lm [Hc [RS [HC [_ [_ [K1 _]]]]]]]]].
    assert (LK : length (kept mask) = n - cut).
    { rewrite (Permutation_length K1), skipn_length. f_equal. exact (is_perm_length (proj1 HP)). }
    rewrite LK. unfold constraints in RS. split.
    - intros m Em Hm. rewrite Em in RS. cbn [app] in RS. apply (respect_first RS); [|easy]. exists (n - 1). lia.
    - intros H1 H2. destruct (chi_max p) as [m|] eqn:Em; cbn [app] in RS.
      + specialize (H2 m eq_refl). inversion RS as [|? ? ? ? E R'|? ? ? ? E R']; subst.
        * revert HC. refine (respect_first R' _ (c := cut)). specialize (Hmax eq_refl).
          destruct (Z_le_gt_dec (chi_min p) 1) as [L|L].
          -- exists (n - 1). destruct E as [c [? [? ?]]]. lia.
          -- exists (n - Z.to_nat (chi_min p)). lia.
        * revert HC. refine (respect_first R' _ (c := cut)).
          destruct (Z_le_gt_dec (chi_min p) 1) as [L|L]; [exists (n - 1); lia|exists (n - Z.to_nat (chi_min p)); lia].
      + revert HC. refine (respect_first RS _ (c := cut)).
          destruct (Z_le_gt_dec (chi_min p) 1) as [L|L]; [exists (n - 1); lia|exists (n - Z.to_nat (chi_min p)); lia].
  Qed.

  (** without quantum dimensions the values themselves are sorted *)
  Lemma sorted_values : q = None -> Forall (fun s => 0 <= s)%R S -> forall i j, i <= j < n -> (nth (nth i piv 0%nat) S 0 <= nth (nth j piv 0%nat) S 0)%R.
  Proof.
    intros Eq HS i j Hij. destruct HP as [PP SO]. fold n in SO, PP. destruct (Nat.eq_dec i j) as [->|N]; [lra|].
    specialize (SO i j ltac:(lia)). rewrite Eq in SO. unfold weight in SO. rewrite Forall_forall in HS.
    assert (A : (0 <= nth (nth i piv 0%nat) S 0)%R) by (apply HS, nth_In, (is_perm_nth_lt PP); lia).
    assert (B : (0 <= nth (nth j piv 0%nat) S 0)%R) by (apply HS, nth_In, (is_perm_nth_lt PP); lia).
    destruct (Rle_or_lt (nth (nth i piv 0%nat) S 0%R) (nth (nth j piv 0%nat) S 0%R)) as [L|L]; [easy|]. nra.
  Qed.
  Lemma svd_min_ok m : q = None -> Forall (fun s => 0 <= s)%R S -> svd_min p = Some m -> (chi_min p <= 1)%Z -> (degeneracy_tol p <= 0)%R ->
    (exists s, In s S /\ (m <= s)%R) -> forall i, i < n -> nth i mask false = true -> (m <= nth i S 0)%R.
  Proof.
    intros Eq HS Em Hcm Hdt [s [Hs Hms]] i Hi Mi. pose proof (sorted_values Eq HS) as SV.
    destruct sel as [cut [H [Lm [Hc [RS [HC [_ [_ [K1 [K2 _]]]]]]]]]]. destruct HP as [PP SO]. pose proof (is_perm_length PP) as PL. fold n in PL, SO, PP.
    assert (I1 : In i (skipn cut piv)) by (apply (Permutation_in i K1), filter_In; split; [apply in_seq; lia|easy]).
    destruct (In_nth _ _ 0 I1) as [a [Ha <-]]. rewrite skipn_length in Ha. rewrite nth_skipn'.
    apply Rle_trans with (nth (nth cut piv 0%nat) S 0%R); [|apply SV; lia].
    assert (TOP : (m <= nth (nth (n - 1)%nat piv 0%nat) S 0)%R).
    { destruct (In_nth _ _ 0%R Hs) as [k [Hk Ek]]. fold n in Hk. destruct (is_perm_surj PP Hk) as [k' [Hk' Ek']].
      apply Rle_trans with s; [easy|]. rewrite <- Ek, <- Ek'. apply SV. lia. }
    unfold constraints in RS. rewrite Em in RS. destruct (Rlt_dec 0 (degeneracy_tol p)) as [|_]; [lra|]. cbn [app] in RS.
    assert (TG : exists c, c < n /\ (fun _ : nat => True) c) by (exists 0; auto).
    assert (RS2 : exists G cs, G (n - 1)%nat /\ respect n G ((fun cut => (chi_min p <= Z.of_nat (n - cut))%Z) :: (fun cut => (m <= nth (nth cut piv 0%nat) S 0)%R) :: cs) H).
    { destruct (chi_max p) as [x|] eqn:Ex; cbn [app] in RS.
      - inversion RS as [|? ? ? ? E R'|? ? ? ? E R']; subst; eexists; eexists; (split; [|exact R']); cbv beta; [|easy].
        split; [easy|]. destruct E as [c [? [_ ?]]]. lia.
      - eexists; eexists; split; [|exact RS]. easy. }
    destruct RS2 as [G [cs [HG RS2]]]. inversion RS2 as [|? ? ? ? E R'|? ? ? ? E R']; subst.
    - revert HC. refine (respect_first R' _ (c := cut)). exists (n - 1). split; [lia|]. split; [split; [easy|lia]|easy].
    - exfalso. apply E. exists (n - 1). split; [lia|]. split; [easy|lia].
  Qed.
  Lemma trunc_cut_ok : chi_max p = None -> (chi_min p <= 1)%Z -> (degeneracy_tol p <= 0)%R ->
    (forall m, svd_min p = Some m -> Forall (fun s => m <= s)%R S) -> minimize_error p = true ->
    (err <= trunc_cut p * trunc_cut p)%R.
  Proof.
    intros Ex Hcm Hdt Hsm Em. destruct sel as [cut [H [Lm [Hc [RS [HC [HM [_ [K1 [K2 [Ee _]]]]]]]]]]]. destruct HP as [PP SO].
    pose proof (is_perm_length PP) as PL. fold n in PL, SO, PP. specialize (HM Em).
    unfold constraints in RS. rewrite Ex in RS. destruct (Rlt_dec 0 (degeneracy_tol p)) as [|_]; [lra|]. cbn [app] in RS.
    destruct (respect_trivial RS) as [G [EG RS1]]; [exists 0; auto|intros; lia|].
    assert (RS2 : exists G : nat -> Prop, (forall c, c < n -> G c) /\
      respect n G [fun cut => (trunc_cut p * trunc_cut p < rsum (map (fun i => weight S q (nth i piv 0%nat)) (seq 0%nat (cut + 1)%nat)))%R] H).
    { destruct (svd_min p) as [m|] eqn:Es; cbn [app] in RS1.
      - destruct (respect_trivial RS1) as [G2 [EG2 RS3]].
        + exists 0. split; [easy|]. apply EG; easy.
        + intros c Hc'. specialize (Hsm m eq_refl). rewrite Forall_forall in Hsm. apply Hsm, nth_In, (is_perm_nth_lt PP). easy.
        + exists G2. split; [|easy]. intros c Hc'. apply EG2; [easy|]. apply EG; easy.
      - exists G. split; [|easy]. intros c Hc'. now apply EG. }
    destruct RS2 as [G2 [HG2 RS2]].
    assert (Ee' : err = rsum (map (fun i => weight S q (nth i piv 0%nat)) (seq 0 cut))).
    { rewrite Ee, (rsum_perm (Permutation_map (weight S q) K2)). f_equal. rewrite <- (map_map (fun i => nth i piv 0%nat) (weight S q)). f_equal.
      apply list_eq_nth with (d := 0); [rewrite firstn_length, map_length, seq_length; lia|]. intros i Hi. rewrite firstn_length in Hi.
      rewrite nth_firstn_lt by lia. rewrite nth_map_lt with (d := 0) by (rewrite seq_length; lia). now rewrite seq_nth by lia. }
    rewrite Ee'. clear Ee'. destruct cut as [|k]; [cbn [seq map rsum fold_right]; nra|].
    assert (NH : ~ H k) by (intros X; specialize (HM k ltac:(lia) X); lia).
    inversion RS2 as [|? ? ? ? E R'|? ? ? ? E R']; subst; inversion R'; subst.
    - destruct (Rlt_le_dec (trunc_cut p * trunc_cut p) (rsum (map (fun i => weight S q (nth i piv 0%nat)) (seq 0 (k + 1))))) as [L|L].
      + exfalso. apply NH. split; [apply HG2; lia|easy].
      + now replace (Datatypes.S k) with (k + 1) by lia.
    - exfalso. apply NH. apply HG2. lia.
  Qed.
End Facts.

(** ** truncated_svd with normalize_to *)
Lemma filter_combine_sum (f : R -> R) (S : list R) (mask : list bool) : length mask = length S ->
  rsum (map f (map fst (filter (fun q => snd q) (combine S mask)))) = rsum (map (fun i => f (nth i S 0%R)) (kept mask)).
Proof.
  intros E. unfold kept. f_equal.
  assert (X : forall k S' , length mask = length S' -> (forall i, i < length mask -> nth (k + i) S 0%R = nth i S' 0%R) ->
    map f (map fst (filter (fun q => snd q) (combine S' mask))) = map (fun i => f (nth i S 0%R)) (filter (fun i => nth (i - k) mask false) (seq k (length mask)))).
  { clear E. induction mask as [|b mask IH]; intros k S' E HN; destruct S' as [|s S']; cbn [length] in E; try discriminate; [easy|].
    cbn [combine filter length seq snd]. rewrite Nat.sub_diag. change (nth 0 (b :: mask) false) with b.
    assert (T : filter (fun i => nth (i - k) (b :: mask) false) (seq (Datatypes.S k) (length mask)) = filter (fun i => nth (i - Datatypes.S k) mask false) (seq (Datatypes.S k) (length mask))).
    { apply filter_ext_in. intros i Hi. apply in_seq in Hi. replace (i - k) with (Datatypes.S (i - Datatypes.S k)) by lia. reflexivity. }
    rewrite T. specialize (IH (Datatypes.S k) S' ltac:(lia)).
    assert (HN' : forall i, i < length mask -> nth (Datatypes.S k + i) S 0%R = nth i S' 0%R).
    { intros i Hi. specialize (HN (Datatypes.S i) ltac:(cbn [length]; lia)). cbn [nth] in HN. rewrite <- HN. f_equal. lia. }
    specialize (IH HN'). destruct b; cbn [map fst]; [|easy]. f_equal; [|easy]. f_equal. specialize (HN 0 ltac:(cbn [length]; lia)). cbn [nth] in HN. rewrite <- HN. f_equal. lia. }
  rewrite (X 0 S E) by easy. f_equal. apply filter_ext. intros i. now rewrite Nat.sub_0_r.
Qed.
Lemma rsum_scale (c : R) l (f : nat -> R) : rsum (map (fun i => c * f i)%R l) = (c * rsum (map f l))%R.
Proof. unfold rsum. induction l; cbn [map fold_right]; [lra|]. rewrite IHl. lra. Qed.

Lemma truncated_norm S N piv p v T : 0 < length S -> sorts (map (fun s => s / N)%R S) None piv -> (forall m, chi_max p = Some m -> (0 <= m)%Z) -> (N <> 0)%R ->
  truncated_values S N piv p v = Some T ->
  exists mask err w, truncate_selection (map (fun s => s / N)%R S) None piv p = Some (mask, err, w) /\
    (w <> 0 -> rsum (map (fun s => s ^ 2) T) * w = v ^ 2)%R.
Proof.
  intros Hn HP Hmax HN E. unfold truncated_values in E.
  destruct (truncate_selection (map (fun s => s / N)%R S) None piv p) as [[[mask err] w]|] eqn:ES; [|discriminate].
  exists mask, err, w. split; [easy|]. intros Hw. inversion E as [E']. clear E E'.
  assert (Hn' : 0 < length (map (fun s => s / N)%R S)) by now rewrite map_length.
  assert (Hq : forall l : list R, None = Some l -> length l = length (map (fun s => s / N)%R S)) by discriminate.
  destruct (sel Hn' Hq HP Hmax ES) as [cut [H [Lm [_ [_ [_ [_ [_ [_ [_ [_ Ew]]]]]]]]]]].
  rewrite map_length in Lm.
  assert (E1 : rsum (map (fun s => s ^ 2)%R (map (fun q => (fst q * (v / N / w))%R) (filter (fun q => snd q) (combine S mask)))) =
               ((v / N / w) ^ 2 * rsum (map (fun i => nth i S 0 ^ 2)%R (kept mask)))%R).
  { rewrite <- rsum_scale. rewrite map_map.
    rewrite <- (filter_combine_sum (fun s => (v / N / w) ^ 2 * s ^ 2)%R Lm). rewrite map_map. f_equal. apply map_ext. intros a. ring. }
  rewrite E1.
  assert (E2 : (w = / N ^ 2 * rsum (map (fun i => nth i S 0 ^ 2)%R (kept mask)))%R).
  { rewrite Ew at 1. rewrite <- rsum_scale. f_equal. apply map_ext_in. intros i Hi. unfold kept in Hi. apply filter_In in Hi. destruct Hi as [Hi _]. apply in_seq in Hi.
    unfold weight. rewrite nth_map_lt with (d := 0%R) by lia. field. exact HN. }
  set (X := rsum (map (fun i => nth i S 0 ^ 2)%R (kept mask))) in *. assert (HX : (X = N ^ 2 * w)%R) by (rewrite E2; field; exact HN). rewrite HX. field. split; easy.
Qed.
