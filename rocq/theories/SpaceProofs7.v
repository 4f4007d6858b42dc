From Verif Require Import Util StableSort RowModel RowProofs GridModel GridProofs SymModel SpaceModel SpaceSpec SpaceProofs SpaceProofs2 SpaceProofs3.
Set Implicit Arguments. Unset Strict Implicit.
Open Scope nat_scope.

Lemma es_space_ok (S : symm) E : symm_ok S -> es_ok S E -> space_ok S (es_space S E).
Proof.
  intros SO OK. assert (DD : dual_sectors S (dual_sectors S (es_def E)) = es_def E).
  { unfold dual_sectors. rewrite map_map, <- map_id. apply map_ext_in. intros s Hs. apply (so_dual_invol SO), (ok_valid OK), Hs. }
  constructor.
  - apply (ok_decomp_valid SO OK).
  - cbn [es_space sp_secs]. destruct (es_dual E); [|apply strictly_sorted_NoDup, (ok_sorted OK)].
    apply NoDup_map_inj; [|apply strictly_sorted_NoDup, (ok_sorted OK)].
    intros a b Ha Hb H. rewrite <- (so_dual_invol SO (ok_valid OK Ha)), <- (so_dual_invol SO (ok_valid OK Hb)). congruence.
  - change (length (es_mults E) = length (es_decomp S E)). rewrite ok_decomp_len. apply (ok_len OK).
  - apply (ok_pos OK).
  - cbn [es_space sp_order sp_secs]. destruct (es_dual E); [rewrite DD|]; apply (ok_sorted OK).
Qed.

(** * multiplicity of unique sectors *)
Lemma mult_of_cons s0 m secs mults s : mult_of (s0 :: secs) (m :: mults) s = (if row_eqb s0 s then m else 0) + mult_of secs mults s.
Proof. unfold mult_of. cbn [combine filter fst]. destruct (row_eqb s0 s); reflexivity. Qed.
Lemma mult_of_notin secs mults s : ~ In s secs -> mult_of secs mults s = 0.
Proof.
  intros H. unfold mult_of. rewrite filter_none; [reflexivity|]. intros [k m] Hk. cbn. destruct (row_eqb k s) eqn:E; [|reflexivity].
  apply row_eqb_eq in E. subst. apply in_combine_l in Hk. contradiction.
Qed.
Lemma mult_of_nth secs : forall mults i, NoDup secs -> length mults = length secs -> i < length secs -> mult_of secs mults (nth i secs []) = nth i mults 0.
Proof.
  induction secs as [|s secs IH]; intros [|m mults] i N L Hi; cbn in L, Hi; try lia; try discriminate. inversion N as [|? ? N1 N2]; subst.
  rewrite mult_of_cons. destruct i as [|i].
  - cbn [nth]. rewrite row_eqb_refl, mult_of_notin by exact N1. lia.
  - cbn [nth]. destruct (row_eqb s (nth i secs [])) eqn:E.
    + apply row_eqb_eq in E. exfalso. apply N1. rewrite E. apply nth_In. lia.
    + apply IH; [exact N2 | lia | lia].
Qed.
Lemma mult_of_in secs mults s : NoDup secs -> length mults = length secs -> In s secs -> exists i, i < length secs /\ nth i secs [] = s /\ mult_of secs mults s = nth i mults 0.
Proof.
  intros N L H. apply In_nth with (d := []) in H as (i & Hi & <-). exists i. split; [exact Hi|]. split; [reflexivity|]. apply mult_of_nth; assumption.
Qed.
Lemma mult_of_pos secs mults s : NoDup secs -> length mults = length secs -> (forall m, In m mults -> 0 < m) -> In s secs <-> 0 < mult_of secs mults s.
Proof.
  intros N L P. split.
  - intros H. destruct (mult_of_in N L H) as (i & Hi & _ & E). rewrite E. apply P, nth_In. lia.
  - intros H. destruct (in_dec (list_eq_dec Z.eq_dec) s secs) as [I|I]; [exact I|]. rewrite mult_of_notin in H by exact I. lia.
Qed.
Lemma sector_multiplicity_spec V s : NoDup (sp_secs V) -> length (sp_mults V) = length (sp_secs V) -> sector_multiplicity V s = sp_mult V s.
Proof.
  intros N L. unfold sector_multiplicity, sp_mult. pose proof (row_where_spec (sp_secs V) s) as R. destruct (row_where (sp_secs V) s) as [i|].
  - destruct R as (Hi & <- & _). symmetry. apply mult_of_nth; assumption.
  - symmetry. apply mult_of_notin. exact R.
Qed.

Lemma nats_eqb_eq a b : nats_eqb a b = true <-> a = b.
Proof.
  revert b; induction a as [|x a IH]; intros [|y b]; cbn; try (split; [discriminate | discriminate]); [tauto|].
  rewrite andb_true_iff, Nat.eqb_eq, IH. split; [intros [-> ->]; reflexivity | intros H; injection H; auto].
Qed.
Lemma rows_eqb_eq a b : rows_eqb a b = true <-> a = b.
Proof.
  revert b; induction a as [|x a IH]; intros [|y b]; cbn [rows_eqb]; try (split; [discriminate | discriminate]); [tauto|].
  rewrite andb_true_iff, row_eqb_eq, IH. split; [intros [-> ->]; reflexivity |]. intros H. split; congruence.
Qed.

Lemma map_inj_on A B (f : A -> B) l : (forall x y, In x l -> In y l -> f x = f y -> x = y) -> forall m, (forall x, In x m -> In x l) -> forall k, (forall x, In x k -> In x l) -> map f m = map f k -> m = k.
Proof.
  intros H. induction m as [|x m IH]; intros Hm [|y k] Hk E; cbn in E; try discriminate; [reflexivity|].
  assert (E1 : f x = f y) by congruence. assert (E2 : map f m = map f k) by congruence. f_equal.
  - apply H; [apply Hm; left; reflexivity | apply Hk; left; reflexivity | exact E1].
  - apply IH; [intros; apply Hm; right; assumption | intros; apply Hk; right; assumption | exact E2].
Qed.

Section Iso.
  Variable S : symm.
  Hypothesis SO : symm_ok S.

  (** two lists sorted by the same key *)
  Lemma canonical_eq (key : sector -> sector) s1 m1 s2 m2 :
    (forall a b, sym_valid S a = true -> sym_valid S b = true -> key a = key b -> a = b) ->
    (forall s, In s s1 -> sym_valid S s = true) -> (forall s, In s s2 -> sym_valid S s = true) ->
    length m1 = length s1 -> length m2 = length s2 -> (forall m, In m m1 -> 0 < m) -> (forall m, In m m2 -> 0 < m) ->
    strictly_sorted (map key s1) -> strictly_sorted (map key s2) ->
    (nats_eqb m1 m2 = true /\ rows_eqb s1 s2 = true <-> forall s, mult_of s1 m1 s = mult_of s2 m2 s).
  Proof.
    intros KI V1 V2 L1 L2 P1 P2 S1 S2. rewrite nats_eqb_eq, rows_eqb_eq. split; [intros [-> ->]; reflexivity|]. intros H.
    assert (N1 : NoDup s1) by (apply (NoDup_map_inv key), strictly_sorted_NoDup; exact S1).
    assert (N2 : NoDup s2) by (apply (NoDup_map_inv key), strictly_sorted_NoDup; exact S2).
    assert (IN : forall s, In s s1 <-> In s s2) by (intros s; rewrite (mult_of_pos s N1 L1 P1), (mult_of_pos s N2 L2 P2), H; tauto).
    assert (E : s1 = s2).
    { apply (@map_inj_on _ _ key s1); [intros; apply KI; auto | auto | intros; apply IN; assumption|].
      apply (StronglySorted_unique (R := lex_lt)); [apply lex_lt_irrefl | apply lex_lt_trans | exact S1 | exact S2|].
      intros x. rewrite !in_map_iff. split; intros (y & Hy & Hy2); exists y; (split; [exact Hy | apply IN; exact Hy2]). }
    split; [|exact E]. subst s2. apply list_eq_nth with (d := 0); [congruence|]. intros i Hi. rewrite L1 in Hi.
    rewrite <- (mult_of_nth N1 L1 Hi), <- (mult_of_nth N1 L2 Hi). apply H.
  Qed.

  Variables V W : space.
  Hypothesis OV : space_ok S V.
  Hypothesis OW : space_ok S W.

  Definition keyed (d : bool) (s : sector) := if d then sym_dual S s else s.
  Lemma keyed_inj d a b : sym_valid S a = true -> sym_valid S b = true -> keyed d a = keyed d b -> a = b.
  Proof. destruct d; cbn; [|auto]. intros Va Vb H. rewrite <- (so_dual_invol SO Va), <- (so_dual_invol SO Vb). congruence. Qed.
  Lemma keyed_map d l : map (keyed d) l = if d then dual_sectors S l else l.
  Proof. destruct d; [reflexivity | apply map_id]. Qed.
  (** sorting by key gives a canonical list with the same multiplicities *)
  Lemma sort_canonical X d : space_ok S X -> let p := lexsort_indices (map (keyed d) (sp_secs X)) in
    let s' := take [] (sp_secs X) p in let m' := take 0 (sp_mults X) p in
    (forall s, In s s' -> sym_valid S s = true) /\ length m' = length s' /\ (forall m, In m m' -> 0 < m) /\ strictly_sorted (map (keyed d) s') /\
    (forall s, mult_of s' m' s = sp_mult X s).
  Proof.
    intros OX p s' m'. assert (P : is_perm (length (sp_secs X)) p) by (unfold p; rewrite <- (map_length (keyed d)); apply lexsort_perm).
    assert (PS : Permutation s' (sp_secs X)) by (apply take_Permutation; exact P).
    assert (VS : forall s, In s s' -> sym_valid S s = true) by (intros s Hs; apply (sk_valid OX), (Permutation_in _ PS); exact Hs).
    split; [exact VS|].
    split; [unfold s', m'; rewrite !take_length; reflexivity|].
    split; [|split].
    - intros m Hm. apply (sk_pos OX). revert Hm. apply Permutation_in. unfold m'. apply take_Permutation. rewrite (sk_len OX). exact P.
    - assert (ES : map (keyed d) s' = take [] (map (keyed d) (sp_secs X)) p).
      { unfold s', take. rewrite map_map. apply map_ext_in. intros i Hi. symmetry. apply nth_map_lt. apply (is_perm_In i P). exact Hi. }
      assert (WD : same_width (sym_len S) (map (keyed d) (sp_secs X))).
      { apply Forall_forall. intros s Hs. apply in_map_iff in Hs as (x & <- & Hx). apply (so_len SO). destruct d; cbn; [apply (so_dual_valid SO)|]; apply (sk_valid OX); exact Hx. }
      assert (WS := sorted_weakly WD). assert (N : NoDup (map (keyed d) s')).
      { apply NoDup_map_inj; [intros a b Ha Hb; apply keyed_inj; auto|]. apply (Permutation_NoDup (Permutation_sym PS)), (sk_nodup OX). }
      rewrite ES in *. unfold sorted in WS. cbn [fst] in WS. fold p in WS. revert N WS. generalize (take [] (map (keyed d) (sp_secs X)) p). clear. intros l N W0. unfold strictly_sorted, weakly_sorted in *.
      induction W0 as [|x l W0 IH F]; [constructor|]. inversion N as [|? ? N1 N2]; subst. constructor; [apply IH; exact N2|].
      apply Forall_forall. intros y Hy. rewrite Forall_forall in F. destruct (F y Hy) as [Q|Q]; [exact Q|]. subst. contradiction.
    - intros s. apply mult_of_perm. apply combine_take_perm; [rewrite (sk_len OX); reflexivity | exact P].
  Qed.
  Definition canon (d : bool) (s' : list sector) (m' : list nat) (X : space) : Prop :=
    (forall s, In s s' -> sym_valid S s = true) /\ length m' = length s' /\ (forall m, In m m' -> 0 < m) /\ strictly_sorted (map (keyed d) s') /\
    (forall s, mult_of s' m' s = sp_mult X s).
  Lemma canon_iff d s1 m1 s2 m2 X Y : canon d s1 m1 X -> canon d s2 m2 Y ->
    (if negb (nats_eqb m1 m2) then false else rows_eqb s1 s2) = true <-> (forall s, sp_mult X s = sp_mult Y s).
  Proof.
    intros (A1 & A2 & A3 & A4 & A5) (B1 & B2 & B3 & B4 & B5). pose proof (canonical_eq (keyed_inj (d := d)) A1 B1 A2 B2 A3 B3 A4 B4) as H.
    transitivity (nats_eqb m1 m2 = true /\ rows_eqb s1 s2 = true); [destruct (nats_eqb m1 m2); cbn; intuition discriminate|].
    rewrite H. split; intros Q s; specialize (Q s); congruence.
  Qed.
  Lemma canon_sort X d : space_ok S X -> canon d (take_or_all (sp_secs X) (Some (lexsort_indices (map (keyed d) (sp_secs X))))) (gather_or_all (sp_mults X) (Some (lexsort_indices (map (keyed d) (sp_secs X))))) X.
  Proof. intros OX. apply (sort_canonical d OX). Qed.
  Lemma canon_none X (d : bool) : space_ok S X -> sp_order X = Some (if d then DualSorted else Sorted) -> canon d (take_or_all (sp_secs X) None) (gather_or_all (sp_mults X) None) X.
  Proof.
    intros OX EO. split; [apply (sk_valid OX)|]. split; [apply (sk_len OX)|]. split; [apply (sk_pos OX)|]. split; [|reflexivity].
    pose proof (sk_order OX) as O. rewrite EO in O. cbn [take_or_all]. rewrite keyed_map. destruct d; exact O.
  Qed.
  Lemma iso_spec : is_isomorphic_to S V W = true <-> forall s, sp_mult V s = sp_mult W s.
  Proof.
    unfold is_isomorphic_to. destruct (Nat.eqb_spec (length (sp_secs V)) (length (sp_secs W))) as [EL|NL]; cbn [negb].
    - destruct (sp_order V) as [[]|] eqn:E1; destruct (sp_order W) as [[]|] eqn:E2; cbn [order_eqb]; cbv zeta.
      all: try (rewrite (canon_iff (canon_none (d := false) OV E1) (canon_none (d := false) OW E2)); reflexivity).
      all: try (rewrite (canon_iff (canon_none (d := true) OV E1) (canon_none (d := true) OW E2)); reflexivity).
      all: pose proof (canon_sort false OV) as C1; pose proof (canon_sort false OW) as C2; pose proof (canon_sort true OV) as C3; pose proof (canon_sort true OW) as C4;
        rewrite keyed_map in C1, C2, C3, C4.
      all: try exact (canon_iff (canon_none (d := false) OV E1) C2).
      all: try exact (canon_iff C1 (canon_none (d := false) OW E2)).
      all: try exact (canon_iff (canon_none (d := true) OV E1) C4).
      all: try exact (canon_iff C3 (canon_none (d := true) OW E2)).
      exact (canon_iff C1 C2).
    - split; [discriminate|]. intros H. exfalso. apply NL.
      assert (IN : forall s, In s (sp_secs V) <-> In s (sp_secs W)).
      { intros s. rewrite (mult_of_pos s (sk_nodup OV) (sk_len OV) (sk_pos OV)), (mult_of_pos s (sk_nodup OW) (sk_len OW) (sk_pos OW)).
        specialize (H s). unfold sp_mult in H. rewrite H. tauto. }
      apply Permutation_length, NoDup_Permutation; [apply (sk_nodup OV) | apply (sk_nodup OW) | exact IN].
  Qed.

  (** subspace *)
  Lemma walk_spec : forall ws wm vs vm, length wm = length ws -> length vm = length vs -> vs <> [] -> strictly_sorted vs -> strictly_sorted ws ->
    subspace_walk vs vm ws wm = true <-> (forall s, In s vs -> In s ws /\ mult_of vs vm s <= mult_of ws wm s).
  Proof.
    induction ws as [|w ws IH]; intros [|m wm] vs vm LW LV NE SV SW; cbn in LW; try discriminate.
    - cbn. split; [discriminate|]. intros H. destruct vs as [|v vs]; [congruence|]. destruct (H v (or_introl eq_refl)) as [[] _].
    - destruct vs as [|v vs]; [congruence|]. destruct vm as [|k vm]; [discriminate|].
      assert (SV' := SV). assert (SW' := SW). unfold strictly_sorted in SV', SW'. inversion SV' as [|? ? SV1 SV2]; subst. inversion SW' as [|? ? SW1 SW2]; subst.
      rewrite Forall_forall in SV2, SW2.
      assert (NV : ~ In v vs) by (intros Hin; exact (lex_lt_irrefl (SV2 v Hin))).
      assert (NW : ~ In w ws) by (intros Hin; exact (lex_lt_irrefl (SW2 w Hin))).
      cbn [subspace_walk]. destruct (row_eqb v w) eqn:EV.
      + apply row_eqb_eq in EV. subst w.
        assert (Mv : mult_of (v :: vs) (k :: vm) v = k) by (rewrite mult_of_cons, row_eqb_refl, mult_of_notin by exact NV; lia).
        assert (Mw : mult_of (v :: ws) (m :: wm) v = m) by (rewrite mult_of_cons, row_eqb_refl, mult_of_notin by exact NW; lia).
        assert (REST : m < k \/ k <= m) by lia.
        destruct (Nat.ltb_spec m k) as [C|C].
        * split; [discriminate|]. intros H. destruct (H v (or_introl eq_refl)) as [_ H2]. rewrite Mv, Mw in H2. lia.
        * destruct vs as [|v2 vs].
          -- split; [intros _|reflexivity]. intros s [ <- |[]]. split; [left; reflexivity|]. rewrite Mv, Mw. exact C.
          -- rewrite IH; [|lia | cbn in *; lia | discriminate | exact SV1 | exact SW1]. split.
             ++ intros H s [ <- |Hs]; [split; [left; reflexivity | rewrite Mv, Mw; exact C]|].
                destruct (H s Hs) as [H1 H2]. split; [right; exact H1|]. rewrite !mult_of_cons. destruct (row_eqb v s) eqn:E; [apply row_eqb_eq in E; subst; contradiction|]. lia.
             ++ intros H s Hs. destruct (H s (or_intror Hs)) as [H1 H2]. destruct H1 as [ <- |H1]; [contradiction|]. split; [exact H1|].
                rewrite (mult_of_cons v), (mult_of_cons v) in H2. destruct (row_eqb v s) eqn:E; [apply row_eqb_eq in E; subst; contradiction|]. lia.
      + assert (VW : v <> w) by (intros ->; rewrite row_eqb_refl in EV; discriminate).
        rewrite IH; [|lia | exact LV | discriminate | exact SV | exact SW1]. split.
        * intros H s Hs. destruct (H s Hs) as [H1 H2]. split; [right; exact H1|]. rewrite (mult_of_cons w). lia.
        * intros H s Hs. destruct (H s Hs) as [H1 H2]. destruct H1 as [ <- |H1].
          -- exfalso. destruct Hs as [ -> |Hs]; [congruence|]. pose proof (SV2 w Hs) as LT.
             destruct (H v (or_introl eq_refl)) as [[H1|H1] _]; [congruence|]. specialize (SW2 v H1). exact (lex_lt_irrefl (lex_lt_trans LT SW2)).
          -- split; [exact H1|]. rewrite (mult_of_cons w) in H2. destruct (row_eqb w s) eqn:E; [apply row_eqb_eq in E; subst; contradiction | exact H2].
  Qed.
  Lemma lookup_spec : forall ws wm c, length wm = length ws -> NoDup ws ->
    subspace_lookup V ws wm c = if forallb (fun p => (sector_multiplicity V (fst p) =? 0) || (sector_multiplicity V (fst p) <=? snd p)) (combine ws wm)
      then Some (c + length (filter (fun w => negb (sector_multiplicity V w =? 0)) ws)) else None.
  Proof.
    induction ws as [|w ws IH]; intros [|m wm] c L N; cbn in L; try discriminate; [cbn; f_equal; lia|]. inversion N; subst.
    cbn [subspace_lookup combine forallb filter fst snd]. destruct (sector_multiplicity V w =? 0) eqn:E; cbn [orb negb andb].
    - apply IH; [lia | assumption].
    - rewrite Nat.ltb_antisym. destruct (sector_multiplicity V w <=? m) eqn:E2; cbn [negb]; [|reflexivity].
      rewrite IH by (lia || assumption). cbn [andb]. destruct (forallb _ _); [|reflexivity]. cbn [length]. f_equal. lia.
  Qed.
  Lemma subspace_iff : (forall s, In s (sp_secs V) -> In s (sp_secs W) /\ sp_mult V s <= sp_mult W s) <-> (forall s, sp_mult V s <= sp_mult W s).
  Proof.
    split.
    - intros H s. destruct (in_dec (list_eq_dec Z.eq_dec) s (sp_secs V)) as [I|I]; [apply H; exact I|]. unfold sp_mult at 1. rewrite mult_of_notin by exact I. lia.
    - intros H s Hs. split; [|apply H]. apply (mult_of_pos s (sk_nodup OW) (sk_len OW) (sk_pos OW)). apply (mult_of_pos s (sk_nodup OV) (sk_len OV) (sk_pos OV)) in Hs.
      specialize (H s). unfold sp_mult in H. lia.
  Qed.
  Lemma lookup_iff : (match subspace_lookup V (sp_secs W) (sp_mults W) 0 with None => false | Some c => negb (c <? length (sp_secs V)) end) = true <-> forall s, sp_mult V s <= sp_mult W s.
  Proof.
    rewrite lookup_spec by (apply (sk_len OW) || apply (sk_nodup OW)).
    assert (SM : forall s, sector_multiplicity V s = sp_mult V s) by (intros; apply sector_multiplicity_spec; [apply (sk_nodup OV) | apply (sk_len OV)]).
    assert (SUP : forall s, In s (sp_secs V) <-> sp_mult V s <> 0).
    { intros s. rewrite (mult_of_pos s (sk_nodup OV) (sk_len OV) (sk_pos OV)). unfold sp_mult. lia. }
    destruct (forallb _ _) eqn:F.
    - rewrite Nat.add_0_l. rewrite forallb_forall in F.
      set (K := filter (fun w => negb (sector_multiplicity V w =? 0)) (sp_secs W)).
      assert (KV : forall s, In s K -> In s (sp_secs V)).
      { intros s Hs. apply filter_In in Hs as [_ Hs]. apply SUP. rewrite <- SM. apply negb_true_iff, Nat.eqb_neq in Hs. exact Hs. }
      assert (KN : NoDup K) by (apply NoDup_filter, (sk_nodup OW)).
      rewrite negb_true_iff, Nat.ltb_ge. rewrite <- subspace_iff. split.
      + intros LE s Hs. assert (HK : In s K) by (apply (NoDup_length_incl KN LE KV); exact Hs).
        apply filter_In in HK as [HW _]. split; [exact HW|]. destruct (mult_of_in (sk_nodup OW) (sk_len OW) HW) as (i & Hi & Ei & Em).
        unfold sp_mult at 2. rewrite Em. assert (Hc : In (s, nth i (sp_mults W) 0) (combine (sp_secs W) (sp_mults W))).
        { rewrite <- Ei. rewrite <- combine_nth by (symmetry; apply (sk_len OW)). apply nth_In. rewrite combine_length, (sk_len OW). lia. }
        specialize (F _ Hc). cbn [fst snd] in F. rewrite SM in F. apply orb_true_iff in F as [F|F]; [apply Nat.eqb_eq in F; apply SUP in Hs; contradiction | apply Nat.leb_le in F; exact F].
      + intros H. apply NoDup_incl_length; [apply (sk_nodup OV)|]. intros s Hs. apply filter_In. split; [apply H; exact Hs|]. rewrite SM. apply SUP in Hs. apply negb_true_iff, Nat.eqb_neq. exact Hs.
    - split; [discriminate|]. intros H. exfalso.
      assert (X : forallb (fun p => (sector_multiplicity V (fst p) =? 0) || (sector_multiplicity V (fst p) <=? snd p)) (combine (sp_secs W) (sp_mults W)) = true); [|congruence].
      apply forallb_forall. intros [w m] Hp. cbn [fst snd]. apply orb_true_iff. right. apply Nat.leb_le. rewrite SM.
      apply In_nth with (d := ([], 0)) in Hp as (i & Hi & E). rewrite combine_length, (sk_len OW), Nat.min_id in Hi. rewrite combine_nth in E by (symmetry; apply (sk_len OW)).
      injection E as E1 E2. rewrite <- E1, <- E2. rewrite <- (mult_of_nth (sk_nodup OW) (sk_len OW) Hi). apply H.
  Qed.
  Lemma subspace_spec : is_subspace_of V W = true <-> forall s, sp_mult V s <= sp_mult W s.
  Proof.
    unfold is_subspace_of. destruct (Nat.eqb_spec (length (sp_secs V)) 0) as [E0|E0].
    - split; [intros _|reflexivity]. intros s. unfold sp_mult at 1. rewrite mult_of_notin; [lia|]. destruct (sp_secs V); [intros [] | discriminate].
    - destruct (sp_order V) as [[]|] eqn:E1; try apply lookup_iff. destruct (sp_order W) as [[]|] eqn:E2; try apply lookup_iff.
      pose proof (sk_order OV) as O1. rewrite E1 in O1. pose proof (sk_order OW) as O2. rewrite E2 in O2.
      rewrite walk_spec; [apply subspace_iff | apply (sk_len OW) | apply (sk_len OV) | intros E; rewrite E in E0; apply E0; reflexivity | exact O1 | exact O2].
  Qed.

  (** common subspace *)
  Lemma common_pairs_spec : NoDup (map fst (common_pairs V W)) /\
    (forall s m, In (s, m) (common_pairs V W) <-> In s (sp_secs V) /\ In s (sp_secs W) /\ m = Nat.min (sp_mult V s) (sp_mult W s)).
  Proof.
    set (f := fun ij : nat * nat => (nth (fst ij) (sp_secs V) [], Nat.min (nth (fst ij) (sp_mults V) 0) (nth (snd ij) (sp_mults W) 0))).
    assert (G : forall l : list (nat * nat), NoDup l ->
      (forall i j, In (i, j) l <-> i < length (sp_secs V) /\ j < length (sp_secs W) /\ nth i (sp_secs V) [] = nth j (sp_secs W) []) ->
      NoDup (map fst (map f l)) /\ (forall s m, In (s, m) (map f l) <-> In s (sp_secs V) /\ In s (sp_secs W) /\ m = Nat.min (sp_mult V s) (sp_mult W s))).
    { intros l N H. split.
      - rewrite map_map. apply NoDup_map_inj; [|exact N]. intros [a b] [a' b'] Ha Hb E. cbn [f fst] in E. apply H in Ha as (A1 & A2 & A3). apply H in Hb as (B1 & B2 & B3).
        assert (a = a') by (apply (proj1 (NoDup_nth (sp_secs V) []) (sk_nodup OV)); assumption). subst a'. f_equal.
        apply (proj1 (NoDup_nth (sp_secs W) []) (sk_nodup OW)); congruence.
      - intros s m. rewrite in_map_iff. split.
        + intros ([i j] & E & Hin). apply H in Hin as (H1 & H2 & H3). unfold f in E. cbn [fst snd] in E. injection E as E1 E2.
          split; [rewrite <- E1; apply nth_In; exact H1|]. split; [rewrite <- E1, H3; apply nth_In; exact H2|].
          rewrite <- E2. unfold sp_mult. rewrite <- E1. rewrite (mult_of_nth (sk_nodup OV) (sk_len OV) H1). rewrite H3. rewrite (mult_of_nth (sk_nodup OW) (sk_len OW) H2). reflexivity.
        + intros (HV & HW & ->). destruct (mult_of_in (sk_nodup OV) (sk_len OV) HV) as (i & Hi & Ei & Mi). destruct (mult_of_in (sk_nodup OW) (sk_len OW) HW) as (j & Hj & Ej & Mj).
          exists (i, j). split; [unfold f; cbn [fst snd]; unfold sp_mult; rewrite Mi, Mj, Ei; reflexivity | apply H; split; [exact Hi|]; split; [exact Hj | congruence]]. }
    assert (LOOK : let l := flat_map (fun i => match row_where (sp_secs W) (nth i (sp_secs V) []) with None => [] | Some j => [(nth i (sp_secs V) [], Nat.min (nth i (sp_mults V) 0) (nth j (sp_mults W) 0))] end) (seq 0 (length (sp_secs V))) in
        NoDup (map fst l) /\ (forall s m, In (s, m) l <-> In s (sp_secs V) /\ In s (sp_secs W) /\ m = Nat.min (sp_mult V s) (sp_mult W s))).
    { cbv zeta. set (g := fun i => match row_where (sp_secs W) (nth i (sp_secs V) []) with None => [] | Some j => [(i, j)] end).
      replace (flat_map _ (seq 0 (length (sp_secs V)))) with (map f (flat_map g (seq 0 (length (sp_secs V))))).
      2:{ rewrite flat_map_map_out. apply flat_map_ext_in. intros i _. unfold g. destruct (row_where _ _); reflexivity. }
      apply G.
      - apply NoDup_flat_map; [apply seq_NoDup | |].
        + intros i _. unfold g. destruct (row_where _ _); repeat constructor. intros [].
        + intros a b x _ _ Ha Hb. unfold g in Ha, Hb. destruct (row_where _ (nth a _ _)); destruct (row_where _ (nth b _ _)); cbn in Ha, Hb; try tauto. destruct Ha as [ <- |[]]. destruct Hb as [E|[]]. congruence.
      - intros i j. rewrite in_flat_map. split.
        + intros (x & Hx & Hin). apply in_seq in Hx. unfold g in Hin. pose proof (row_where_spec (sp_secs W) (nth x (sp_secs V) [])) as R. destruct (row_where _ _) as [k|]; [|destruct Hin]. destruct Hin as [E|[]]. injection E as <- <-.
          destruct R as (R1 & R2 & _). split; [lia|]. split; [exact R1 | congruence].
        + intros (H1 & H2 & H3). exists i. split; [apply in_seq; lia|]. unfold g. pose proof (row_where_spec (sp_secs W) (nth i (sp_secs V) [])) as R. destruct (row_where _ _) as [k|].
          * destruct R as (R1 & R2 & _). left. f_equal. apply (proj1 (NoDup_nth (sp_secs W) []) (sk_nodup OW)); congruence.
          * exfalso. apply R. rewrite H3. apply nth_In. exact H2. }
    unfold common_pairs. destruct (sp_order V) as [[]|] eqn:E1; try exact LOOK. destruct (sp_order W) as [[]|] eqn:E2; try exact LOOK.
    pose proof (sk_order OV) as O1. rewrite E1 in O1. pose proof (sk_order OW) as O2. rewrite E2 in O2.
    assert (WV : same_width (sym_len S) (sp_secs V)) by (apply Forall_forall; intros s Hs; apply (so_len SO), (sk_valid OV), Hs).
    assert (WW : same_width (sym_len S) (sp_secs W)) by (apply Forall_forall; intros s Hs; apply (so_len SO), (sk_valid OW), Hs).
    assert (WK : forall l, strictly_sorted l -> weakly_sorted l).
    { intros l. unfold strictly_sorted, weakly_sorted. induction 1 as [|x l H IH F]; constructor; [exact IH|]. apply Forall_forall. intros y Hy. rewrite Forall_forall in F. left. apply F, Hy. }
    destruct (@common_walk_spec (sym_len S) true true (or_introl eq_refl) (sp_secs V) 0 (sp_secs W) 0 WV WW (WK _ O1) (WK _ O2) (fun _ => O1) (fun _ => O2)) as [C1 C2].
    apply G; [exact C2|]. intros i j. rewrite C1. rewrite !Nat.sub_0_r. cbn [Nat.add]. intuition lia.
  Qed.
  Lemma common_two_dual d : es_dual (common_two S V W d) = d.
  Proof. unfold common_two, from_sector_decomposition. cbn [es_dual]. apply fds_dual. Qed.
  Lemma common_two_mult d s : es_mult S (common_two S V W d) s = Nat.min (sp_mult V s) (sp_mult W s).
  Proof.
    destruct common_pairs_spec as [N H]. set (l := common_pairs V W) in *.
    assert (VAL : forall x, In x (map fst l) -> sym_valid S x = true).
    { intros x Hx. apply in_map_iff in Hx as ([a b] & <- & Hin). apply H in Hin. apply (sk_valid OV), Hin. }
    assert (EM : es_mult S (common_two S V W d) s = mult_of (map fst l) (map snd l) s).
    { change (es_mult S (common_two S V W d) s) with (es_mult S (from_sector_decomposition S (map fst l) (map snd l) d None true) s).
      unfold from_sector_decomposition. rewrite fds_es_mult; [|destruct d; unfold dual_sectors; rewrite ?map_length; reflexivity].
      destruct d; [|reflexivity]. unfold dual_sectors. rewrite map_map. f_equal. rewrite <- map_id. apply map_ext_in. intros x Hx. apply (so_dual_invol SO), VAL, Hx. }
    rewrite EM. destruct (in_dec (list_eq_dec Z.eq_dec) s (map fst l)) as [I|I].
    - apply in_map_iff in I as ([a b] & Ea & Hin). cbn in Ea. subst a. destruct (In_nth _ _ ([], 0) Hin) as (i & Hi & E).
      assert (E1 : nth i (map fst l) [] = s) by (rewrite nth_map_lt with (d := ([], 0)) by exact Hi; rewrite E; reflexivity).
      assert (E2 : nth i (map snd l) 0 = b) by (rewrite nth_map_lt with (d := ([], 0)) by exact Hi; rewrite E; reflexivity).
      rewrite <- E1 at 1. rewrite mult_of_nth; [|exact N | rewrite !map_length; reflexivity | rewrite map_length; exact Hi]. rewrite E2. apply H in Hin. apply Hin.
    - rewrite mult_of_notin by exact I. destruct (in_dec (list_eq_dec Z.eq_dec) s (sp_secs V)) as [IV|IV]; [|unfold sp_mult; rewrite (mult_of_notin _ IV); lia].
      destruct (in_dec (list_eq_dec Z.eq_dec) s (sp_secs W)) as [IW|IW]; [|unfold sp_mult; rewrite (mult_of_notin _ IW); lia].
      exfalso. apply I. apply in_map_iff. exists (s, Nat.min (sp_mult V s) (sp_mult W s)). split; [reflexivity|]. apply H. auto.
  Qed.
  Lemma common_two_ok d : es_ok S (common_two S V W d).
  Proof.
    destruct common_pairs_spec as [N H]. set (l := common_pairs V W) in *.
    assert (VAL : forall x, In x (map fst l) -> sym_valid S x = true).
    { intros x Hx. apply in_map_iff in Hx as ([a b] & <- & Hin). apply H in Hin. apply (sk_valid OV), Hin. }
    set (D := if d then dual_sectors S (map fst l) else map fst l).
    assert (VD : forall x, In x D -> sym_valid S x = true).
    { intros x Hx. unfold D in Hx. destruct d; [|apply VAL, Hx]. apply in_map_iff in Hx as (y & <- & Hy). apply (so_dual_valid SO), VAL, Hy. }
    assert (LD : length (map snd l) = length D) by (unfold D, dual_sectors; destruct d; rewrite ?map_length; reflexivity).
    assert (ND : NoDup D).
    { unfold D. destruct d; [|exact N]. apply NoDup_map_inj; [|exact N]. intros a b Ha Hb E. rewrite <- (so_dual_invol SO (VAL _ Ha)), <- (so_dual_invol SO (VAL _ Hb)). congruence. }
    change (common_two S V W d) with (let E := from_defining_sectors S D (map snd l) d None true in ES (es_def E) (es_mults E) (es_dual E) None). cbv zeta.
    constructor; cbn [es_def es_mults es_perm].
    - intros s Hs. apply VD. apply (@fds_def_In S D (map snd l) LD) in Hs. exact Hs.
    - apply (@fds_def_sorted S SO D (map snd l) VD LD). intros _. exact ND.
    - apply (@fds_mults_len S D (map snd l) LD).
    - apply (@fds_pos S D (map snd l) LD). intros m Hm. apply in_map_iff in Hm as ([s x] & <- & Hin). apply H in Hin as (I1 & I2 & ->). cbn.
      apply (mult_of_pos s (sk_nodup OV) (sk_len OV) (sk_pos OV)) in I1. apply (mult_of_pos s (sk_nodup OW) (sk_len OW) (sk_pos OW)) in I2. unfold sp_mult. lia.
    - discriminate.
  Qed.
End Iso.

Lemma es_sp_mult (S : symmetry) E s : sp_mult (es_space S E) s = es_mult S E s.
Proof. reflexivity. Qed.
Lemma as_elementary_spec (S : symm) V d : symm_ok S -> space_ok S V ->
  es_ok S (as_elementary S V d) /\ es_dual (as_elementary S V d) = d /\ forall s, es_mult S (as_elementary S V d) s = sp_mult V s.
Proof.
  intros SO OV. unfold as_elementary. cbv zeta. set (D := if d then dual_sectors S (sp_secs V) else sp_secs V).
  assert (VD : forall x, In x D -> sym_valid S x = true).
  { intros x Hx. unfold D in Hx. destruct d; [|apply (sk_valid OV), Hx]. apply in_map_iff in Hx as (y & <- & Hy). apply (so_dual_valid SO), (sk_valid OV), Hy. }
  assert (LD : length (sp_mults V) = length D) by (rewrite (sk_len OV); unfold D, dual_sectors; destruct d; rewrite ?map_length; reflexivity).
  assert (DD : (if d then dual_sectors S D else D) = sp_secs V).
  { unfold D. destruct d; [|reflexivity]. unfold dual_sectors. rewrite map_map, <- map_id. apply map_ext_in. intros x Hx. apply (so_dual_invol SO), (sk_valid OV), Hx. }
  destruct (match sp_order V with Some o => order_eqb o (if d then DualSorted else Sorted) | None => false end) eqn:O.
  - split; [|split; [reflexivity|]].
    + constructor; cbn [es_def es_mults es_perm].
      * exact VD.
      * pose proof (sk_order OV) as Q. unfold D. destruct (sp_order V) as [o|]; [|discriminate]. destruct o, d; try discriminate; exact Q.
      * exact LD.
      * apply (sk_pos OV).
      * discriminate.
    + intros s. unfold es_mult, es_decomp, es_space. cbn [es_dual es_def es_mults sp_secs]. rewrite DD. reflexivity.
  - split; [|split; [apply fds_dual|]].
    + apply fds_ok; [exact SO | exact VD | exact LD | apply (sk_pos OV) | | intros; apply Permutation_refl | reflexivity].
      intros _. unfold D. destruct d; [|apply (sk_nodup OV)]. apply NoDup_map_inj; [|apply (sk_nodup OV)].
      intros a b Ha Hb E. rewrite <- (so_dual_invol SO (sk_valid OV Ha)), <- (so_dual_invol SO (sk_valid OV Hb)). congruence.
    + intros s. rewrite fds_es_mult by exact LD. rewrite DD. reflexivity.
Qed.
(** minimum over a list of spaces *)
Definition min_mult (V : space) (rest : list space) (s : sector) : nat := fold_left (fun a W => Nat.min a (sp_mult W s)) rest (sp_mult V s).
Lemma min_mult_le V rest s : (forall X, In X (V :: rest) -> min_mult V rest s <= sp_mult X s) /\ exists X, In X (V :: rest) /\ min_mult V rest s = sp_mult X s.
Proof.
  unfold min_mult. assert (G : forall rest a, let r := fold_left (fun a W => Nat.min a (sp_mult W s)) rest a in r <= a /\ (forall X, In X rest -> r <= sp_mult X s) /\ (r = a \/ exists X, In X rest /\ r = sp_mult X s)).
  { clear. induction rest as [|W rest IH]; intros a; cbn [fold_left].
    - split; [lia|]. split; [intros X []|]. left; reflexivity.
    - destruct (IH (Nat.min a (sp_mult W s))) as (A & B & C). split; [lia|]. split.
      + intros X [ <- |HX]; [lia | apply B; exact HX].
      + destruct C as [C|(X & HX & C)]; [|right; exists X; split; [right; exact HX | exact C]].
        destruct (Nat.min_spec a (sp_mult W s)) as [[_ M]|[_ M]]; [left; congruence | right; exists W; split; [left; reflexivity | congruence]]. }
  destruct (G rest (sp_mult V s)) as (A & B & C). split.
  - intros X [ <- |HX]; [exact A | apply B; exact HX].
  - destruct C as [C|(X & HX & C)]; [exists V; split; [left; reflexivity | exact C] | exists X; split; [right; exact HX | exact C]].
Qed.
Lemma largest_common_spec (S : symm) (SO : symm_ok S) : forall rest V d, space_ok S V -> (forall X, In X rest -> space_ok S X) ->
  let E := largest_common_from S V rest d in es_ok S E /\ es_dual E = d /\ forall s, es_mult S E s = min_mult V rest s.
Proof.
  induction rest as [|W rest IH]; intros V d OV OR; cbn [largest_common_from].
  - destruct (as_elementary_spec d SO OV) as (A & B & C). split; [exact A|]. split; [exact B|]. exact C.
  - assert (OW : space_ok S W) by (apply OR; left; reflexivity). destruct rest as [|W2 rest].
    + split; [apply common_two_ok; assumption|]. split; [apply common_two_dual|]. intros s. apply common_two_mult; assumption.
    + assert (OC : es_ok S (common_two S V W false)) by (apply common_two_ok; assumption).
      destruct (IH (es_space S (common_two S V W false)) d (es_space_ok SO OC) ltac:(intros; apply OR; right; assumption)) as (A & B & C).
      split; [exact A|]. split; [exact B|]. intros s. rewrite C. unfold min_mult. cbn [fold_left]. rewrite es_sp_mult, common_two_mult by assumption. reflexivity.
Qed.
