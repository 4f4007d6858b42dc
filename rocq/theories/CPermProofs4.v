(** C68, part 4: dense arrays, stretching with identities. *)
From Coq Require Import Reals ZArith List Bool Lia Permutation Sorted Arith.
From Verif Require Import Util Cplx GridModel GridProofs PermLegsSpec PermLegsProofs SiteModel SiteProofs1 CouplingModel CPermModel CPermSpec CPermProofs1 CPermProofs2 CPermProofs3.
Import ListNotations.
Open Scope nat_scope.
Set Implicit Arguments. Unset Strict Implicit.
Add Ring CRs : C_ring.

Lemma pos_nth l : forall k, NoDup l -> k < length l -> pos (nth k l 0) l = k.
Proof.
  induction l as [|x l IH]; intros k ND H; [cbn in H; lia|]. inversion ND as [|? ? N1 N2]; subst. destruct k as [|k]; cbn [nth pos]; [now rewrite Nat.eqb_refl|]. cbn [length] in H.
  rewrite (proj2 (Nat.eqb_neq x (nth k l 0))); [f_equal; apply IH; [exact N2|lia]|]. intros ->. apply N1. apply nth_In. lia.
Qed.
Lemma dense_step n j b A o (x y : nat -> nat) : length o = n -> S j < n ->
  site_braid dense_PL n j b A (map x (swap_at j o) ++ rev (map y (swap_at j o))) = A (map x o ++ rev (map y o)).
Proof.
  intros Lo Hj. unfold site_braid, dense_PL, transpose. f_equal. rewrite swap_at_map. rewrite <- map_rev. set (s := swap_at j (seq 0 n)). assert (Ls : length s = n) by (unfold s; now rewrite swap_at_length, seq_length).
  set (ax := s ++ map (fun k => 2 * n - 1 - k) (rev s)). assert (La : length ax = 2 * n) by (unfold ax; rewrite app_length, map_length, rev_length; lia). rewrite La.
  assert (Trl : forall k, k < n -> tr j k < n) by (intros k Hk; unfold tr; destruct (Nat.eqb_spec k j); [lia|]; destruct (Nat.eqb_spec k (S j)); lia).
  assert (Trt : forall k, tr j (tr j k) = k).
  { intros k. unfold tr. destruct (Nat.eqb_spec k j); [subst; rewrite (proj2 (Nat.eqb_neq (S j) j)), Nat.eqb_refl by lia; reflexivity|]. destruct (Nat.eqb_spec k (S j)); [subst; now rewrite Nat.eqb_refl|]. rewrite (proj2 (Nat.eqb_neq k j)), (proj2 (Nat.eqb_neq k (S j))) by lia. reflexivity. }
  assert (Sn : forall k, k < n -> nth k s 0 = tr j k). { intros k Hk. unfold s. rewrite nth_swap_at by (rewrite seq_length; lia). rewrite seq_nth by now apply Trl. reflexivity. }
  assert (NDs : NoDup s) by (apply Permutation_NoDup with (l := seq 0 n); [symmetry; apply swap_at_perm|apply seq_NoDup]).
  assert (Ins : forall k, In k s -> k < n) by (intros k Hk; apply (Permutation_in _ (swap_at_perm j _)) in Hk; apply in_seq in Hk; lia).
  assert (NDa : NoDup ax).
  { unfold ax. apply NoDup_app_intro; [exact NDs| |].
    - apply NoDup_map_inj; [|now apply NoDup_rev]. intros a c Ha Hc E. apply in_rev, Ins in Ha. apply in_rev, Ins in Hc. lia.
    - intros a Ha Hc. apply in_map_iff in Hc. destruct Hc as [c [E Hc]]. apply Ins in Ha. apply in_rev, Ins in Hc. lia. }
  assert (A1 : forall k, k < n -> nth (tr j k) ax 0 = k). { intros k Hk. unfold ax. rewrite app_nth1 by (rewrite Ls; now apply Trl). rewrite Sn by now apply Trl. apply Trt. }
  assert (A2 : forall k, k < n -> nth (2 * n - 1 - tr j k) ax 0 = 2 * n - 1 - k).
  { intros k Hk. assert (T0 := Trl k Hk). unfold ax. rewrite app_nth2 by lia. rewrite Ls. rewrite nth_map_lt with (d := 0) by (rewrite rev_length; lia). rewrite rev_nth by lia. rewrite Ls.
    replace (n - S (2 * n - 1 - tr j k - n)) with (tr j k) by lia. rewrite Sn by exact T0. now rewrite Trt. }
  assert (N1 : forall (f : nat -> nat) k, k < n -> nth (tr j k) (map f (swap_at j o)) 0 = f (nth k o 0)).
  { intros f k Hk. assert (T0 := Trl k Hk). rewrite nth_map_lt with (d := 0) by (rewrite swap_at_length; lia). rewrite nth_swap_at by lia. now rewrite Trt. }
  apply list_eq_nth with (d := 0); [rewrite map_length, seq_length, app_length, rev_length, !map_length; lia|]. intros i Hi. rewrite map_length, seq_length in Hi. rewrite nth_map_lt with (d := 0) by (rewrite seq_length; exact Hi). rewrite seq_nth by exact Hi. cbn [Nat.add].
  destruct (Nat.lt_ge_cases i n) as [Hn|Hn].
  - assert (T0 := Trl i Hn). rewrite <- (A1 i Hn) at 1. rewrite pos_nth by (assumption || lia). rewrite app_nth1 by (rewrite map_length, swap_at_length; lia). rewrite N1 by exact Hn. rewrite app_nth1 by (rewrite map_length; lia). rewrite nth_map_lt with (d := 0) by lia. reflexivity.
  - set (k := 2 * n - 1 - i). assert (Hk : k < n) by (unfold k; lia). assert (T0 := Trl k Hk). replace i with (2 * n - 1 - k) by (unfold k; lia). rewrite <- (A2 k Hk) at 1. rewrite pos_nth by (assumption || lia).
    rewrite !app_nth2 by (rewrite map_length, ?swap_at_length; lia). rewrite !map_length, swap_at_length, Lo. rewrite !rev_nth by (rewrite map_length, ?swap_at_length; lia). rewrite !map_length, swap_at_length, Lo.
    replace (n - S (2 * n - 1 - tr j k - n)) with (tr j k) by lia. replace (n - S (2 * n - 1 - k - n)) with k by lia. rewrite N1 by exact Hk. rewrite nth_map_lt with (d := 0) by lia. reflexivity.
Qed.
Lemma dense_braid n h (x y : nat -> nat) w : forall o A, letters n w -> length o = n ->
  level_braid (site_braid dense_PL n) h w o A (map x (do_swaps o w) ++ rev (map y (do_swaps o w))) = A (map x o ++ rev (map y o)).
Proof.
  induction w as [|j w IH]; intros o A L Lo; [reflexivity|]. inversion L as [|? ? L1 L2]; subst. cbn [level_braid]. rewrite do_swaps_cons. rewrite IH; [|exact L2|now rewrite swap_at_length]. now apply dense_step.
Qed.

(** ** stretching *)
Lemma forallb_ext_in A (f g : A -> bool) l : (forall x, In x l -> f x = g x) -> forallb f l = forallb g l.
Proof. induction l as [|x l IH]; intros H; [reflexivity|]. cbn [forallb]. rewrite (H x (or_introl eq_refl)), IH; [reflexivity|]. intros y Hy. apply H. now right. Qed.
Section Stretch.
  Variables Site Lg W Ten : Type.
  Variable site_leg : Site -> Lg.
  Variable leg_eqb : Lg -> Lg -> bool.
  Variable space_eqb : W -> W -> bool.
  Variables t_p t_pstar : Ten -> Lg.
  Variables t_wL t_wR : Ten -> W.
  Variable is_trivial : W -> bool.
  Variable identity_tensor : Site -> option W -> Ten.
  Hypothesis leg_refl : forall l, leg_eqb l l = true.
  Hypothesis leg_sound : forall a b, leg_eqb a b = true -> a = b.
  Hypothesis space_refl : forall w, space_eqb w w = true.
  Hypothesis id_p : forall s w, t_p (identity_tensor s (Some w)) = site_leg s /\ t_pstar (identity_tensor s (Some w)) = site_leg s.
  Hypothesis id_w : forall s w, t_wL (identity_tensor s (Some w)) = w /\ t_wR (identity_tensor s (Some w)) = w.
  Variable all_sites : list Site.
  Notation lay := (layout t_wR identity_tensor all_sites).
  Notation look bp k := (List.find (fun e : nat * Ten => fst e =? k) bp).
  Notation ident f k := (match nth_error all_sites k with Some s => [identity_tensor s (Some (t_wR f))] | None => [] end).
  (** a gap *)
  Lemma loop_gap bp f m : forall k w acc rest, t_wR f = w -> k + m <= length all_sites -> (forall i, k <= i < k + m -> look bp i = None) ->
    stretch_loop t_wR identity_tensor (seq k m ++ rest) all_sites bp (Some w) acc = stretch_loop t_wR identity_tensor rest all_sites bp (Some w) (acc ++ flat_map (fun k => ident f k) (seq k m)).
  Proof.
    induction m as [|m IH]; intros k w acc rest Hw Hk Hn; [cbn [seq flat_map app]; now rewrite app_nil_r|]. cbn [seq app stretch_loop]. rewrite (Hn k) by lia.
    destruct (nth_error all_sites k) as [s|] eqn:E; [|apply nth_error_None in E; lia]. cbn [option_map]. rewrite (proj2 (id_w s w)). rewrite IH with (w := w); [|exact Hw|lia|intros i Hi; apply Hn; lia].
    cbn [flat_map]. rewrite E, Hw. now rewrite <- app_assoc.
  Qed.
  Lemma ascending_cons p p' ps : ascending (p :: p' :: ps) = true -> p < p' /\ ascending (p' :: ps) = true.
  Proof. cbn [ascending]. rewrite andb_true_iff, Nat.ltb_lt. easy. Qed.
  Lemma last_cons (p p' : nat) ps d : last (p :: p' :: ps) d = last (p' :: ps) d.
  Proof. reflexivity. Qed.
  Lemma ascending_le ps : forall p q, ascending (p :: ps) = true -> In q (p :: ps) -> p <= q.
  Proof.
    induction ps as [|p' ps IH]; intros p q A0 I0; [destruct I0 as [ <- |[]]; lia|]. apply ascending_cons in A0. destruct A0 as [L A0]. destruct I0 as [ <- |I0]; [lia|]. specialize (IH p' q A0 I0). lia.
  Qed.
  Lemma last_in (p : nat) ps d : In (last (p :: ps) d) (p :: ps).
  Proof. revert p. induction ps as [|p' ps IH]; intros p; [now left|]. rewrite last_cons. right. apply IH. Qed.
  Lemma last_indep (p : nat) ps d d' : last (p :: ps) d = last (p :: ps) d'.
  Proof. revert p. induction ps as [|p' ps IH]; intros p; [reflexivity|]. rewrite !last_cons. apply IH. Qed.
  Lemma stretch_spec bp : forall ps p f fs w acc, length ps = length fs -> ascending (p :: ps) = true -> last (p :: ps) 0 < length all_sites ->
    (forall k, p <= k -> look bp k = look (combine (p :: ps) (f :: fs)) k) ->
    stretch_loop t_wR identity_tensor (seq p (last (p :: ps) 0 + 1 - p)) all_sites bp w acc = Ok (acc ++ lay (p :: ps) (f :: fs)).
  Proof.
    induction ps as [|p' ps IH]; intros p f fs w acc L A0 Lt LK; destruct fs as [|f' fs]; try discriminate L.
    - cbn [last]. replace (p + 1 - p) with 1 by lia. cbn [seq stretch_loop]. rewrite LK by lia. cbn [combine List.find fst]. rewrite Nat.eqb_refl. reflexivity.
    - apply ascending_cons in A0. destruct A0 as [Hp A0]. rewrite last_cons in *. set (z := last (p' :: ps) 0) in *. assert (Hz : p' <= z) by (apply (@ascending_le ps p'); [exact A0|apply last_in]).
      replace (z + 1 - p) with (S ((p' - S p) + (z + 1 - p'))) by lia. cbn [seq stretch_loop]. rewrite LK by lia. cbn [combine List.find fst]. rewrite Nat.eqb_refl. cbn [snd].
      rewrite seq_app. replace (S p + (p' - S p)) with p' by lia. rewrite (@loop_gap bp f (p' - S p) (S p) (t_wR f)); [|reflexivity|lia|].
      + rewrite IH with (f := f') (fs := fs); [|cbn in L; lia|exact A0|exact Lt|].
        * cbn [layout]. rewrite <- !app_assoc. reflexivity.
        * intros k Hk. rewrite LK by lia. cbn [combine List.find fst]. rewrite (proj2 (Nat.eqb_neq p k)) by lia. reflexivity.
      + intros i Hi. rewrite LK by lia. destruct (List.find _ _) as [e|] eqn:F; [|reflexivity]. exfalso. apply find_some in F. destruct F as [F1 F2]. apply Nat.eqb_eq in F2. destruct F1 as [ <- |F1]; [cbn [fst] in F2; lia|].
        destruct e as [q g]. apply in_combine_l in F1. assert (Q := @ascending_le ps p' q A0 F1). cbn [fst] in F2. lia.
  Qed.
  Lemma lay_cons p p' ps f fs : lay (p :: p' :: ps) (f :: fs) = f :: flat_map (fun k => ident f k) (seq (S p) (p' - S p)) ++ lay (p' :: ps) fs.
  Proof. reflexivity. Qed.
  (** length, positions *)
  Lemma gap_length f m : forall k, k + m <= length all_sites -> length (flat_map (fun k => ident f k) (seq k m)) = m.
  Proof.
    induction m as [|m IH]; intros k H; [reflexivity|]. cbn [seq flat_map]. destruct (nth_error all_sites k) as [s|] eqn:E; [|apply nth_error_None in E; lia]. cbn [app length]. f_equal. apply IH. lia.
  Qed.
  Lemma lay_length ps : forall p f fs, length ps = length fs -> ascending (p :: ps) = true -> last (p :: ps) 0 < length all_sites -> length (lay (p :: ps) (f :: fs)) = last (p :: ps) 0 + 1 - p.
  Proof.
    induction ps as [|p' ps IH]; intros p f fs L A0 Lt; destruct fs as [|f' fs]; try discriminate L.
    - cbn. lia.
    - apply ascending_cons in A0. destruct A0 as [Hp A0]. rewrite last_cons in *. assert (Hz : p' <= last (p' :: ps) 0) by (apply (@ascending_le ps p'); [exact A0|apply last_in]).
      rewrite lay_cons. cbn [length]. rewrite app_length, gap_length by lia. rewrite IH; [lia|cbn in L; lia|exact A0|exact Lt].
  Qed.
  (** sanity *)
  Lemma gap_match f m : forall k g rest, space_eqb (t_wR g) (t_wR f) = true -> (t_wR g = t_wR f) -> k + m <= length all_sites -> neighbours_match space_eqb t_wL t_wR (f :: rest) = true ->
    neighbours_match space_eqb t_wL t_wR (g :: flat_map (fun k => ident f k) (seq k m) ++ rest) = true.
  Proof.
    induction m as [|m IH]; intros k g rest Hg Eg Hk H.
    - cbn [seq flat_map app]. destruct rest as [|r rest]; [reflexivity|]. cbn [neighbours_match] in *. now rewrite Eg.
    - cbn [seq flat_map]. destruct (nth_error all_sites k) as [s|] eqn:E; [|apply nth_error_None in E; lia]. cbn [app].
      change (space_eqb (t_wR g) (t_wL (identity_tensor s (Some (t_wR f)))) && neighbours_match space_eqb t_wL t_wR (identity_tensor s (Some (t_wR f)) :: flat_map (fun k => ident f k) (seq (S k) m) ++ rest) = true).
      rewrite (proj1 (id_w s (t_wR f))), Hg. cbn [andb]. apply IH; [rewrite (proj2 (id_w s (t_wR f))); apply space_refl|apply (proj2 (id_w s (t_wR f)))|lia|exact H].
  Qed.
  Lemma lay_match ps : forall p f fs, length ps = length fs -> ascending (p :: ps) = true -> last (p :: ps) 0 < length all_sites -> neighbours_match space_eqb t_wL t_wR (f :: fs) = true ->
    neighbours_match space_eqb t_wL t_wR (lay (p :: ps) (f :: fs)) = true.
  Proof.
    induction ps as [|p' ps IH]; intros p f fs L A0 Lt N; destruct fs as [|f' fs]; try discriminate L; [reflexivity|].
    apply ascending_cons in A0. destruct A0 as [Hp A0]. rewrite last_cons in *. assert (Hz : p' <= last (p' :: ps) 0) by (apply (@ascending_le ps p'); [exact A0|apply last_in]).
    cbn [neighbours_match] in N. apply andb_true_iff in N. destruct N as [N1 N2]. rewrite lay_cons. apply gap_match; [apply space_refl|reflexivity|lia|].
    specialize (IH p' f' fs ltac:(cbn in L; lia) A0 Lt N2). destruct ps as [|p'' ps], fs as [|f'' fs]; try discriminate L.
    - cbn [layout neighbours_match] in *. now rewrite N1.
    - rewrite lay_cons in *. change (space_eqb (t_wR f) (t_wL f') && neighbours_match space_eqb t_wL t_wR (f' :: flat_map (fun k => ident f' k) (seq (S p') (p'' - S p')) ++ lay (p'' :: ps) (f'' :: fs)) = true). now rewrite N1, IH.
  Qed.
  Lemma lay_last ps : forall p f fs d d', length ps = length fs -> last (lay (p :: ps) (f :: fs)) d = last (f :: fs) d'.
  Proof.
    induction ps as [|p' ps IH]; intros p f fs d d' L; destruct fs as [|f' fs]; try discriminate L; [reflexivity|]. rewrite lay_cons.
    assert (NE : lay (p' :: ps) (f' :: fs) <> []) by discriminate. rewrite app_comm_cons. 
    assert (LA : forall (a b : list Ten), b <> [] -> last (a ++ b) d = last b d). { induction a as [|u a IHa]; intros b Hb; [reflexivity|]. cbn [app]. rewrite <- (IHa b Hb). destruct (a ++ b) eqn:Q; [destruct a; [now subst|discriminate Q]|reflexivity]. }
    rewrite LA by exact NE. change (last (f :: f' :: fs) d') with (last (f' :: fs) d'). apply IH. cbn in L; lia.
  Qed.
  (** physical legs *)
  Definition cut (k m : nat) : list Site := firstn m (skipn k all_sites).
  Lemma cut_app k a b : cut k (a + b) = cut k a ++ cut (k + a) b.
  Proof.
    unfold cut. assert (E : skipn (k + a) all_sites = skipn a (skipn k all_sites)). { clear. revert all_sites. induction k as [|k IH]; intros l; [reflexivity|]. destruct l as [|x l]; [cbn [skipn Nat.add]; now rewrite skipn_nil|]. cbn [skipn Nat.add]. apply IH. }
    rewrite E. generalize (skipn k all_sites) as l. clear. induction a as [|a IH]; intros l; [reflexivity|]. destruct l as [|x l]; [cbn [Nat.add firstn skipn app]; now rewrite firstn_nil|]. cbn [Nat.add firstn skipn app]. now rewrite IH.
  Qed.
  Lemma cut_one k x : nth_error all_sites k = Some x -> cut k 1 = [x].
  Proof.
    unfold cut. generalize all_sites as l. induction k as [|k IH]; intros l E; destruct l as [|y l]; try discriminate E; [cbn in *; now injection E as ->|]. cbn [skipn]. now apply IH.
  Qed.
  Lemma cut_length k m : k + m <= length all_sites -> length (cut k m) = m.
  Proof. intros H. unfold cut. rewrite firstn_length, skipn_length. lia. Qed.
  Notation good := (fun p : Site * Ten => leg_eqb (t_p (snd p)) (site_leg (fst p)) && leg_eqb (t_pstar (snd p)) (site_leg (fst p))).
  Lemma combine_app A B' (a a' : list A) (b b' : list B') : length a = length b -> combine (a ++ a') (b ++ b') = combine a b ++ combine a' b'.
  Proof. revert b. induction a as [|x a IH]; intros [|y b] L; cbn [length app combine] in *; try discriminate; [reflexivity|]. rewrite IH by lia. reflexivity. Qed.
  Lemma gap_phys f m : forall k, k + m <= length all_sites -> forallb good (combine (cut k m) (flat_map (fun k => ident f k) (seq k m))) = true.
  Proof.
    induction m as [|m IH]; intros k H; [reflexivity|]. cbn [seq flat_map]. destruct (nth_error all_sites k) as [s|] eqn:E; [|apply nth_error_None in E; lia].
    change (S m) with (1 + m). rewrite cut_app, (cut_one E). replace (k + 1) with (S k) by lia. cbn [app combine forallb fst snd]. rewrite (proj1 (id_p s _)), (proj2 (id_p s _)), !leg_refl. cbn [andb]. apply IH. lia.
  Qed.
  Notation placed := (fun (s : Site) (p : nat) => exists s', nth_error all_sites p = Some s' /\ leg_eqb (site_leg s) (site_leg s') = true).
  Lemma lay_phys ps : forall p f fs s ss, length ps = length fs -> ascending (p :: ps) = true -> last (p :: ps) 0 < length all_sites -> Forall2 placed (s :: ss) (p :: ps) ->
    forallb good (combine (s :: ss) (f :: fs)) = true -> forallb good (combine (cut p (last (p :: ps) 0 + 1 - p)) (lay (p :: ps) (f :: fs))) = true.
  Proof.
    induction ps as [|p' ps IH]; intros p f fs s ss L A0 Lt F G; destruct fs as [|f' fs]; try discriminate L; inversion F as [|? ? ? ? [s0 [E0 M0]] F']; subst; apply leg_sound in M0;
      cbn [combine forallb fst snd] in G; apply andb_true_iff in G; destruct G as [G1 G2]; rewrite M0 in G1.
    - cbn [last]. replace (p + 1 - p) with 1 by lia. rewrite (cut_one E0). cbn [layout combine forallb fst snd]. now rewrite G1.
    - apply ascending_cons in A0. destruct A0 as [Hp A0]. rewrite last_cons in *. assert (Hz : p' <= last (p' :: ps) 0) by (apply (@ascending_le ps p'); [exact A0|apply last_in]).
      set (z := last (p' :: ps) 0) in *. replace (z + 1 - p) with (1 + ((p' - S p) + (z + 1 - p'))) by lia. rewrite cut_app, (cut_one E0). replace (p + 1) with (S p) by lia. rewrite cut_app. replace (S p + (p' - S p)) with p' by lia.
      rewrite lay_cons. cbn [app combine forallb fst snd]. rewrite G1. cbn [andb]. rewrite combine_app by (rewrite cut_length, gap_length by lia; reflexivity). rewrite forallb_app, gap_phys by lia. cbn [andb].
      destruct ss as [|s1 ss]; [inversion F'|]. apply (IH p' f' fs s1 ss); try assumption. cbn in L; lia.
  Qed.
  Lemma sites_match_ok ss : forall ps, Forall2 placed ss ps -> sites_match site_leg leg_eqb ss ps all_sites = Ok true.
  Proof. induction 1 as [|s p ss ps [s' [E M]] F IH]; [reflexivity|]. cbn [sites_match]. now rewrite E, M. Qed.
  Theorem stretch_ok sites fact positions : sane site_leg leg_eqb space_eqb t_p t_pstar t_wL t_wR is_trivial sites fact = true -> length positions = length fact -> ascending positions = true ->
    (forall p, In p positions -> p < length all_sites) -> Forall2 placed sites positions ->
    stretch_with_identities site_leg leg_eqb space_eqb t_p t_pstar t_wL t_wR is_trivial identity_tensor sites fact all_sites positions
    = Ok (cut (hd 0 positions) (last positions 0 + 1 - hd 0 positions), lay positions fact).
  Proof.
    intros Sn L A0 Hp F. unfold stretch_with_identities. rewrite L, Nat.eqb_refl, A0. cbn [negb]. rewrite (sites_match_ok F). unfold sane in Sn. apply andb_true_iff in Sn. destruct Sn as [Sn S4]. apply andb_true_iff in Sn. destruct Sn as [Sn S3]. apply andb_true_iff in Sn. destruct Sn as [S1 S2].
    destruct fact as [|f fs]; [discriminate S3|]. destruct positions as [|p ps]; [discriminate L|]. apply andb_true_iff in S3. destruct S3 as [T1 T2]. cbn [length] in L. assert (L' : length ps = length fs) by lia.
    assert (Lt : last (p :: ps) 0 < length all_sites) by (apply Hp, last_in). rewrite (@last_indep p ps p 0). assert (Hz : p <= last (p :: ps) 0) by (apply (@ascending_le ps p); [exact A0|apply last_in]).
    rewrite (@stretch_spec _ ps p f fs None []); [|exact L'|exact A0|exact Lt|intros; reflexivity]. cbn [app hd]. fold (cut p (last (p :: ps) 0 + 1 - p)).
    assert (SA : sane site_leg leg_eqb space_eqb t_p t_pstar t_wL t_wR is_trivial (cut p (last (p :: ps) 0 + 1 - p)) (lay (p :: ps) (f :: fs)) = true).
    { unfold sane. rewrite cut_length by lia. rewrite (lay_length f L' A0 Lt), Nat.eqb_refl. cbn [andb]. destruct sites as [|s ss]; [inversion F|].
      match goal with |- _ && _ && _ = true => idtac end. assert (PH := lay_phys L' A0 Lt F S2). 
      assert (Q : exists r, lay (p :: ps) (f :: fs) = f :: r) by (destruct ps; eexists; reflexivity). destruct Q as [r Er]. assert (LL := lay_last p f f f L'). rewrite (lay_match L' A0 Lt S4), andb_true_r. apply andb_true_iff. split; [exact PH|].
      rewrite Er in *. rewrite T1. cbn [andb]. rewrite LL. exact T2. }
    now rewrite SA.
  Qed.
  (** the dense operator of the stretched chain *)
  Variable dim : W -> nat.
  Variable entries : Ten -> nat -> nat -> nat -> nat -> C.
  Hypothesis id_entries : forall s w a p c q, a < dim w -> c < dim w -> entries (identity_tensor s (Some w)) a p c q = if (a =? c) && (p =? q) then C1 else C0.
  Notation dense t := (dim (t_wR t), entries t).
  Lemma gap_chain f m : forall k a (Ps Qs Ps' Qs' : list nat) rest b, k + m <= length all_sites -> a < dim (t_wR f) -> length Ps = m -> length Qs = m ->
    chain (map (fun t => dense t) (flat_map (fun k => ident f k) (seq k m)) ++ rest) a (Ps ++ Ps') (Qs ++ Qs') b = if forallb (fun p => fst p =? snd p) (combine Ps Qs) then chain rest a Ps' Qs' b else C0.
  Proof.
    induction m as [|m IH]; intros k a Ps Qs Ps' Qs' rest b Hk Ha LP LQ; destruct Ps as [|u Ps], Qs as [|v Qs]; try discriminate; [reflexivity|]. cbn [seq flat_map]. destruct (nth_error all_sites k) as [s|] eqn:E; [|apply nth_error_None in E; lia].
    cbn [app map chain combine forallb fst snd]. rewrite (proj2 (id_w s _)). rewrite (@msum_one _ a); [|exact Ha|].
    - rewrite id_entries by exact Ha. rewrite Nat.eqb_refl. cbn [andb]. rewrite IH; [|lia|exact Ha|cbn in LP; lia|cbn in LQ; lia]. destruct (u =? v); cbn [andb]; [destruct (forallb _ _); ring|ring].
    - intros c Hc Nc. rewrite id_entries by assumption. rewrite (proj2 (Nat.eqb_neq a c)) by lia. cbn [andb]. ring.
  Qed.
  (** indices of the coupling's own sites, and whether the indices agree at all other sites *)
  Lemma lay_chain ps : forall p f fs a (Ps Qs : list nat) b, length ps = length fs -> ascending (p :: ps) = true -> last (p :: ps) 0 < length all_sites -> length Ps = last (p :: ps) 0 + 1 - p -> length Qs = last (p :: ps) 0 + 1 - p ->
    chain (map (fun t => dense t) (lay (p :: ps) (f :: fs))) a Ps Qs b =
    if forallb (fun k => existsb (Nat.eqb k) (p :: ps) || (nth (k - p) Ps 0 =? nth (k - p) Qs 0)) (seq p (last (p :: ps) 0 + 1 - p))
    then chain (map (fun t => dense t) (f :: fs)) a (map (fun k => nth (k - p) Ps 0) (p :: ps)) (map (fun k => nth (k - p) Qs 0) (p :: ps)) b else C0.
  Proof.
    induction ps as [|p' ps IH]; intros p f fs a Ps Qs b L A0 Lt LP LQ; destruct fs as [|f' fs]; try discriminate L.
    - cbn [last] in *. replace (p + 1 - p) with 1 in * by lia. destruct Ps as [|u [|]], Qs as [|v [|]]; try discriminate. cbn [layout map seq forallb existsb]. rewrite Nat.eqb_refl, Nat.sub_diag. cbn [orb andb nth]. reflexivity.
    - assert (A1 := A0). apply ascending_cons in A0. destruct A0 as [Hp A0]. rewrite last_cons in *. set (z := last (p' :: ps) 0) in *. assert (Hz : p' <= z) by (apply (@ascending_le ps p'); [exact A0|apply last_in]).
      rewrite lay_cons. destruct Ps as [|u Ps]; [cbn [length] in LP; lia|]. destruct Qs as [|v Qs]; [cbn [length] in LQ; lia|]. cbn [length] in LP, LQ. set (g := p' - S p) in *.
      rewrite <- (firstn_skipn g Ps) at 1. rewrite <- (firstn_skipn g Qs) at 1. cbn [map chain]. rewrite map_app.
      assert (LPg : length (firstn g Ps) = g) by (rewrite firstn_length; lia). assert (LQg : length (firstn g Qs) = g) by (rewrite firstn_length; lia).
      assert (HH : forall c, c < dim (t_wR f) -> chain (map (fun t => dense t) (flat_map (fun k => ident f k) (seq (S p) g)) ++ map (fun t => dense t) (lay (p' :: ps) (f' :: fs))) c (firstn g Ps ++ skipn g Ps) (firstn g Qs ++ skipn g Qs) b
        = if forallb (fun k => existsb (Nat.eqb k) (p :: p' :: ps) || (nth (k - p) (u :: Ps) 0 =? nth (k - p) (v :: Qs) 0)) (seq p (z + 1 - p))
          then chain (map (fun t => dense t) (f' :: fs)) c (map (fun k => nth (k - p) (u :: Ps) 0) (p' :: ps)) (map (fun k => nth (k - p) (v :: Qs) 0) (p' :: ps)) b else C0).
      { intros c Hc. rewrite gap_chain; [|lia|exact Hc|exact LPg|exact LQg]. rewrite IH; [|cbn in L; lia|exact A0|exact Lt|rewrite skipn_length; lia|rewrite skipn_length; lia]. fold z.
        assert (Sh : forall X y k, p' <= k -> nth (k - p) (y :: X) 0 = nth (k - p') (skipn g X) 0). { intros X y k Hk. rewrite nth_skipn'. replace (k - p) with (S (g + (k - p'))) by lia. reflexivity. }
        assert (Pi : forall X y, map (fun k => nth (k - p) (y :: X) 0) (p' :: ps) = map (fun k => nth (k - p') (skipn g X) 0) (p' :: ps)). { intros X y. apply map_ext_in. intros k Hk. apply Sh. now apply (@ascending_le ps p'). }
        rewrite !Pi. replace (z + 1 - p) with (1 + (g + (z + 1 - p'))) by lia. rewrite !seq_app. replace (p + 1) with (S p) by lia. replace (S p + g) with p' by lia. rewrite !forallb_app. cbn [seq forallb existsb]. rewrite Nat.eqb_refl. cbn [orb andb].
        assert (E1 : forallb (fun q => fst q =? snd q) (combine (firstn g Ps) (firstn g Qs)) = forallb (fun k => ((k =? p) || ((k =? p') || existsb (Nat.eqb k) ps)) || (nth (k - p) (u :: Ps) 0 =? nth (k - p) (v :: Qs) 0)) (seq (S p) g)).
        { apply eq_true_iff_eq. rewrite !forallb_forall. split.
          - intros H k Hk. apply in_seq in Hk. apply orb_true_iff. right. replace (k - p) with (S (k - S p)) by lia. cbn [nth]. specialize (H (nth (k - S p) Ps 0, nth (k - S p) Qs 0)). cbn [fst snd] in H. apply H.
            assert (N1 : forall X : list nat, nth (k - S p) X 0 = nth (k - S p) (firstn g X) 0) by (intros X; symmetry; apply nth_firstn_lt; lia). rewrite (N1 Ps), (N1 Qs). rewrite <- combine_nth by lia. apply nth_In. rewrite combine_length. lia.
          - intros H q Hq. apply (In_nth _ _ (0, 0)) in Hq. destruct Hq as [i [Hi Eq]]. rewrite combine_length, LPg, LQg, Nat.min_id in Hi. rewrite combine_nth in Eq by lia. subst q. cbn [fst snd]. rewrite !nth_firstn_lt by lia.
            specialize (H (S p + i) ltac:(apply in_seq; lia)). replace (S p + i - p) with (S i) in H by lia. cbn [nth] in H. apply orb_true_iff in H. destruct H as [H|H]; [|exact H]. exfalso.
            assert (X : existsb (Nat.eqb (S p + i)) (p' :: ps) = true). { apply orb_true_iff in H. destruct H as [H|H]; [apply Nat.eqb_eq in H; lia|exact H]. }
            apply existsb_exists in X. destruct X as [y [Y1 Y2]]. apply Nat.eqb_eq in Y2. assert (Q := @ascending_le ps p' y A0 Y1). lia. }
        rewrite <- E1. destruct (forallb _ (combine _ _)); cbn [andb]; [|reflexivity].
        assert (E2 : forallb (fun k => ((k =? p') || existsb (Nat.eqb k) ps) || (nth (k - p') (skipn g Ps) 0 =? nth (k - p') (skipn g Qs) 0)) (seq p' (z + 1 - p')) = forallb (fun k => ((k =? p) || ((k =? p') || existsb (Nat.eqb k) ps)) || (nth (k - p) (u :: Ps) 0 =? nth (k - p) (v :: Qs) 0)) (seq p' (z + 1 - p'))).
        { apply forallb_ext_in. intros k Hk. apply in_seq in Hk. rewrite (proj2 (Nat.eqb_neq k p)) by lia. cbn [orb]. rewrite !Sh by lia. reflexivity. }
        rewrite <- E2. reflexivity. }
      cbn [map]. rewrite (msum_ext (g := fun c => Cmul (entries f a u c v) (if forallb (fun k => existsb (Nat.eqb k) (p :: p' :: ps) || (nth (k - p) (u :: Ps) 0 =? nth (k - p) (v :: Qs) 0)) (seq p (z + 1 - p))
          then chain (map (fun t => dense t) (f' :: fs)) c (map (fun k => nth (k - p) (u :: Ps) 0) (p' :: ps)) (map (fun k => nth (k - p) (v :: Qs) 0) (p' :: ps)) b else C0))) by (intros c Hc; now rewrite HH).
      destruct (forallb _ (seq p (z + 1 - p))); [rewrite Nat.sub_diag; reflexivity|]. apply msum_zero'. intros; ring.
  Qed.
End Stretch.
