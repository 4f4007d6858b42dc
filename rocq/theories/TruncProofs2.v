From Verif Require Import Util RowProofs TensorProofs6 TruncModel TruncSpec TruncProofs.
From Coq Require Import Reals Lra.
Set Implicit Arguments. Unset Strict Implicit.
Open Scope nat_scope.

Lemma fold_upd_length (l : list nat) (m : list bool) : length (fold_left (fun m i => upd m i true) l m) = length m.
Proof. revert m. induction l as [|x l IH]; intros m; [easy|]. cbn [fold_left]. rewrite IH. apply upd_length. Qed.
Lemma fold_upd_nth (l : list nat) (m : list bool) i : i < length m ->
  (nth i (fold_left (fun m i => upd m i true) l m) false = true <-> In i l \/ nth i m false = true).
Proof.
  revert m. induction l as [|x l IH]; intros m Hi; cbn [fold_left In]; [tauto|].
  rewrite IH by now rewrite upd_length. destruct (Nat.eq_dec x i) as [->|N].
  - rewrite nth_upd_eq by easy. tauto.
  - rewrite nth_upd_neq by easy. tauto.
Qed.
Lemma rsum_app l l' : rsum (l ++ l') = (rsum l + rsum l')%R.
Proof. unfold rsum. induction l; cbn [app fold_right]; [lra|]. rewrite IHl. lra. Qed.
Lemma rsum_perm l l' : Permutation l l' -> rsum l = rsum l'.
Proof. unfold rsum. induction 1; cbn [fold_right]; lra. Qed.
Lemma rsum_nonneg l : Forall (fun x => 0 <= x)%R l -> (0 <= rsum l)%R.
Proof. unfold rsum. induction 1; cbn [fold_right]; lra. Qed.

Lemma marginal_length S q : (forall l, q = Some l -> length l = length S) -> length (marginal_errs S q) = length S.
Proof. intros H. destruct q as [l|]; unfold marginal_errs; rewrite map_length; [|easy]. rewrite combine_length, (H l eq_refl). lia. Qed.
Lemma marginal_nth S q i : (forall l, q = Some l -> length l = length S) -> i < length S -> nth i (marginal_errs S q) 0%R = weight S q i.
Proof.
  intros H Hi. destruct q as [l|]; unfold marginal_errs, weight.
  - specialize (H l eq_refl). rewrite nth_map_lt with (d := (0%R, 0%R)) by (rewrite combine_length; lia). now rewrite combine_nth by easy.
  - rewrite nth_map_lt with (d := 0%R) by easy. easy.
Qed.

Lemma nonzero_spec n l H : repr n l H -> (exists c, c < n /\ H c) ->
  exists c r, nonzero_idcs l = c :: r /\ (c < n /\ H c /\ forall c', c' < n -> H c' -> c <= c') /\
    (last (c :: r) 0 < n /\ H (last (c :: r) 0) /\ forall c', c' < n -> H c' -> c' <= last (c :: r) 0).
Proof.
  intros [HL HR] [c0 [Hc0 H0]]. unfold nonzero_idcs. rewrite HL.
  assert (IN : forall c, In c (filter (fun i => nth i l false) (seq 0 n)) <-> c < n /\ H c).
  { intros c. rewrite filter_In, in_seq. split; [intros [A B]; split; [lia|]; apply HR; [lia|easy]|intros [A B]; split; [lia|now apply HR]]. }
  assert (SS : StronglySorted lt (filter (fun i => nth i l false) (seq 0 n))) by (apply StronglySorted_filter, seq_sorted).
  destruct (filter (fun i => nth i l false) (seq 0 n)) as [|c r] eqn:E; [exfalso; apply (proj2 (IN c0)); auto|].
  exists c, r. split; [easy|]. split.
  - pose proof (proj1 (IN c) (or_introl eq_refl)) as [A B]. split; [easy|]. split; [easy|]. intros c' Hc' Hh.
    destruct (proj2 (IN c') (conj Hc' Hh)) as [->|Hin]; [lia|]. inversion SS as [|? ? _ F]; subst. rewrite Forall_forall in F. specialize (F c' Hin). lia.
  - assert (Hl : In (last (c :: r) 0) (c :: r)).
    { destruct (@exists_last _ (c :: r)) as [l' [a Ea]]; [discriminate|]. rewrite Ea. rewrite last_last. apply in_or_app. right. now left. }
    destruct (proj1 (IN _) Hl) as [A B]. split; [easy|]. split; [easy|]. intros c' Hc' Hh.
    destruct (@exists_last _ (c :: r)) as [l' [a Ea]]; [discriminate|]. rewrite Ea in *. rewrite last_last in *.
    pose proof (proj2 (IN c') (conj Hc' Hh)) as Hin. apply in_app_or in Hin. destruct Hin as [Hin|[->|[]]]; [|lia].
    apply StronglySorted_app in SS. destruct SS as [_ [_ F]]. specialize (F c' a Hin (or_introl eq_refl)). lia.
Qed.

Lemma respect_ext n cs G H : respect n G cs H -> forall G' cs', (forall c, c < n -> (G c <-> G' c)) ->
  Forall2 (fun C C' : nat -> Prop => forall c, c < n -> (C c <-> C' c)) cs cs' -> exists H', respect n G' cs' H' /\ forall c, c < n -> (H c <-> H' c).
Proof.
  induction 1 as [G|G C cs H E R IH|G C cs H E R IH]; intros G' cs' EG F.
  - inversion F; subst. exists G'. split; [constructor|easy].
  - inversion F as [|? C' ? cs2 EC F2]; subst. destruct (IH (fun c => G' c /\ C' c) cs2) as [H' [R' EH]]; [|easy|].
    { intros c Hc. rewrite (EG c Hc), (EC c Hc). tauto. }
    exists H'. split; [|easy]. apply respect_yes; [|easy]. destruct E as [c [Hc [X Y]]]. exists c. split; [easy|]. split; [now apply EG|now apply EC].
  - inversion F as [|? C' ? cs2 EC F2]; subst. destruct (IH G' cs2 EG F2) as [H' [R' EH]].
    exists H'. split; [|easy]. apply respect_no; [|easy]. intros [c [Hc [X Y]]]. apply E. exists c. split; [easy|]. split; [now apply EG|now apply EC].
Qed.
Lemma constraints_ext n (S S' w w' : nat -> R) p : (forall i, i < n -> S i = S' i) -> (forall i, i < n -> w i = w' i) ->
  Forall2 (fun C C' : nat -> Prop => forall c, c < n -> (C c <-> C' c)) (constraints n S w p) (constraints n S' w' p).
Proof.
  intros ES EW. unfold constraints. repeat apply Forall2_app.
  - destruct (chi_max p); constructor; [easy|constructor].
  - constructor; [easy|constructor].
  - destruct (Rlt_dec 0 (degeneracy_tol p)); constructor; [|constructor]. intros c Hc. rewrite (ES c Hc), (ES (c - 1)) by lia. easy.
  - destruct (svd_min p); constructor; [|constructor]. intros c Hc. now rewrite (ES c Hc).
  - constructor; [|constructor]. intros c Hc. rewrite (map_ext_in w w'); [easy|]. intros i Hi. apply in_seq in Hi. apply EW. lia.
Qed.

Section Sel.
  Variables (S : list R) (q : option (list R)) (piv : list nat) (p : trunc_params).
  Let n := length S.
  Hypothesis Hn : 0 < n.
  Hypothesis Hq : forall l, q = Some l -> length l = length S.
  Hypothesis HP : sorts S q piv.
  Hypothesis Hmax : forall m, chi_max p = Some m -> (0 <= m)%Z.

  Lemma map_take_weight (l : list nat) : (forall i, In i l -> i < n) -> map (fun i => nth i (marginal_errs S q) 0%R) l = map (weight S q) l.
  Proof. intros H. apply map_ext_in. intros i Hi. apply marginal_nth; auto. Qed.

  Lemma selection_ok : exists mask err norm cut H,
    truncate_selection S q piv p = Some (mask, err, norm) /\ length mask = n /\ cut < n /\
    respect n (fun _ => True) (constraints n (fun i => nth (nth i piv 0) S 0%R) (fun i => weight S q (nth i piv 0)) p) H /\ H cut /\
    (minimize_error p = true -> forall c, c < n -> H c -> cut <= c) /\
    (minimize_error p = false -> forall c, c < n -> H c -> c <= cut) /\
    Permutation (kept mask) (skipn cut piv) /\ Permutation (discarded mask) (firstn cut piv) /\
    err = rsum (map (weight S q) (discarded mask)) /\ norm = rsum (map (weight S q) (kept mask)).
  Proof.
    destruct HP as [PP SO]. pose proof (is_perm_length PP) as PL. fold n in PP, PL, SO.
    unfold truncate_selection. set (errs := take 0%R (marginal_errs S q) piv). set (S' := take 0%R S piv). cbv zeta.
    assert (LS : length S' = n) by (unfold S'; now rewrite take_length).
    assert (LE : length errs = n) by (unfold errs; now rewrite take_length).
    destruct (@good_ok S' errs p) as [H0 [RS0 [RE0 EX0]]]; [now rewrite LS|now rewrite LS|easy|]. rewrite LS in *.
    assert (A0 : forall i, i < n -> nth i S' 0%R = nth (nth i piv 0) S 0%R) by (intros i Hi; unfold S'; now rewrite nth_take by lia).
    assert (B0 : forall i, i < n -> nth i errs 0%R = weight S q (nth i piv 0)).
    { intros i Hi. unfold errs. rewrite nth_take by lia. apply marginal_nth; [easy|]. apply (is_perm_nth_lt PP). easy. }
    destruct (respect_ext RS0 (G' := fun _ => True) (cs' := constraints n (fun i => nth (nth i piv 0) S 0%R) (fun i => weight S q (nth i piv 0)) p))
      as [H [RS EH]]; [easy| |].
    { now apply constraints_ext. }
    assert (RE : repr n (good_cuts S' errs p) H).
    { destruct RE0 as [X Y]. split; [easy|]. intros c Hc. rewrite (Y c Hc). now apply EH. }
    assert (EX : exists c, c < n /\ H c) by (destruct EX0 as [c [X Y]]; exists c; split; [easy|]; now apply EH).
    clear RE0 RS0 EX0 EH.
    destruct (nonzero_spec RE EX) as [c [r [Enz [Hmin Hmx]]]]. rewrite Enz.
    set (cut := if minimize_error p then c else last (c :: r) 0).
    set (mask := fold_left _ (skipn cut piv) _).
    assert (Hcut : cut < n /\ H cut) by (unfold cut; destruct (minimize_error p); tauto).
    assert (Lm : length mask = n) by (unfold mask; rewrite fold_upd_length; apply repeat_length).
    assert (Mi : forall i, i < n -> (nth i mask false = true <-> In i (skipn cut piv))).
    { intros i Hi. unfold mask. rewrite fold_upd_nth by (now rewrite repeat_length). rewrite nth_repeat_lt by easy. split; [intros [?|?]; [easy|discriminate]|auto]. }
    assert (ND : NoDup piv) by exact (is_perm_NoDup PP).
    assert (Hlt : forall i, In i piv -> i < n) by (intros i Hi; now apply (is_perm_In i PP)).
    assert (Sk : forall i, In i (skipn cut piv) -> In i piv) by (intros i Hi; rewrite <- (firstn_skipn cut piv); apply in_or_app; auto).
    assert (Fi : forall i, In i (firstn cut piv) -> In i piv) by (intros i Hi; rewrite <- (firstn_skipn cut piv); apply in_or_app; auto).
    assert (NDs : NoDup (firstn cut piv ++ skipn cut piv)) by now rewrite firstn_skipn.
    assert (K1 : Permutation (kept mask) (skipn cut piv)).
    { apply NoDup_Permutation; [apply NoDup_filter, seq_NoDup|eapply NoDup_app_r'; exact NDs|]. intros i. unfold kept. rewrite Lm, filter_In, in_seq. split.
      - intros [A B]. now apply Mi; [lia|].
      - intros A. assert (Hi : i < n) by auto. split; [lia|]. now apply Mi. }
    assert (K2 : Permutation (discarded mask) (firstn cut piv)).
    { apply NoDup_Permutation; [apply NoDup_filter, seq_NoDup|eapply NoDup_app_l'; exact NDs|]. intros i. unfold discarded. rewrite Lm, filter_In, in_seq. split.
      - intros [A B]. assert (Hi : In i piv) by (apply (is_perm_In i PP); lia). rewrite <- (firstn_skipn cut piv) in Hi. apply in_app_or in Hi.
        destruct Hi as [Hi|Hi]; [easy|]. apply Mi in Hi; [|lia]. rewrite Hi in B. discriminate.
      - intros A. assert (Hi : i < n) by auto. split; [lia|]. destruct (nth i mask false) eqn:Em; [|easy]. apply Mi in Em; [|easy]. exfalso.
        clear - A Em NDs. induction (firstn cut piv) as [|x l IH]; [easy|]. cbn [app] in NDs. inversion NDs as [|? ? X Y]; subst.
        destruct A as [->|A]; [apply X, in_or_app; auto|auto]. }
    exists mask, (rsum (firstn cut errs)), (rsum (skipn cut errs)), cut, H.
    split; [easy|]. split; [easy|]. split; [easy|]. split.
    { easy. }
    split; [easy|]. split; [intros Em; unfold cut; rewrite Em; apply Hmin|]. split; [intros Em; unfold cut; rewrite Em; apply Hmx|].
    split; [easy|]. split; [easy|]. split.
    - rewrite (rsum_perm (Permutation_map (weight S q) K2)). f_equal. rewrite <- (map_take_weight (l := firstn cut piv)) by auto.
      unfold errs, take. now rewrite firstn_map.
    - rewrite (rsum_perm (Permutation_map (weight S q) K1)). f_equal. rewrite <- (map_take_weight (l := skipn cut piv)) by auto.
      unfold errs, take. now rewrite skipn_map.
  Qed.
End Sel.
