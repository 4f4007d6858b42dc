(** Proofs for C71: planar_contraction joins the given pairs. *)
From Coq Require Import ZArith List Bool Lia Permutation.
From Verif Require Import Util GridModel PermLegsModel PermLegsSpec PermLegsProps PlanarModel PlanarSpec PlanarProofs1 PlanarProofs2 PlanarProofs4 PlanarProofs7 PlanarProofs8 PcModel PcSpec PcProofs1 PcProofs2.
Import ListNotations.
Set Implicit Arguments. Unset Strict Implicit.
Open Scope nat_scope.

Definition got (ac open : list nat) (domain : bool) (r : cres (legs_t nat * option nat)) : Prop :=
  exists co dom leg pre post, r = COk ((co, dom), leg) /\ co ++ rev dom = pre ++ ac ++ post /\ open = post ++ pre /\
    (length ac < length (if domain then dom else co) -> leg = Some (length pre)) /\ (if domain then length co <= length pre else length pre + length ac <= length co).
Lemma helper_got triv sym nc nd contr ac open (domain : bool) : (triv = true -> sym = true) -> Permutation contr ac -> ac <> [] -> (exists k, k <= nc + nd /\ ac ++ open = rotation k (seq 0 (nc + nd))) ->
  reachable nc nd ac open -> (open = [] -> contr = if domain then rev ac else ac) -> got ac open domain (helper triv sym nc nd contr domain).
Proof.
  intros TS P NA C RE F. destruct (list_eq_dec Nat.eq_dec open []) as [->|NO].
  - rewrite (F eq_refl). rewrite app_nil_r in C. rewrite helper_full by assumption. destruct domain.
    + exists [], (rev ac), None, [], []. rewrite rev_involutive, rev_length, app_nil_r. repeat split; auto. lia.
    + exists ac, [], None, [], []. cbn. rewrite !app_nil_r. repeat split; auto. lia.
  - destruct (@helper_ok triv sym TS nc nd contr ac open P domain NA NO C RE) as (co & dom & pre & post & E & C' & O & L). exists co, dom, (Some (length pre)), pre, post. now repeat split.
Qed.

Definition name (f : nat -> nat + nat) (t : legs_t nat) : legs_t (nat + nat) := (map f (fst t), map f (snd t)).
Section Attach.
  Variables f g : nat -> nat + nat.
  Lemma branch_dom ac open r uc ud : got ac open true r -> length uc = length ac -> ac <> [] ->
    exists t leg pre post L, r = COk (t, leg) /\ open = post ++ pre /\ fst L ++ rev (snd L) = map f pre ++ map g (rev ud) ++ map f post /\
      (if length ac <? length (snd t) then with_first leg (partial_compose (name f t) (name g (uc, ud))) else compose (name f t) (name g (uc, ud))) = COk (Joined (combine (map f (rev ac)) (map g uc)) L).
  Proof.
    intros (co & dom & leg & pre & post & E & C & O & LEG & LC) LU NA. cbn in LEG. destruct (app_cut C LC) as [EP ED].
    set (pre' := skipn (length co) pre) in *. clearbody pre'. subst pre. apply rev_eq in ED. subst dom.
    exists (co, rev (pre' ++ ac ++ post)), leg, (co ++ pre'), post, (map f co, map f (rev post) ++ map g ud ++ map f (rev pre')). split; [exact E|]. split; [exact O|]. split.
    { cbn [fst snd]. rewrite !rev_app_distr, <- !map_rev, !rev_involutive, map_app, <- !app_assoc. reflexivity. }
    assert (X := attach_dom (map f co) (map f pre') (seg := map f ac) (map f post) (map g ud) (q := map g uc)). cbv zeta in X. rewrite <- !map_app in X. rewrite <- !map_rev in X. rewrite !map_length in X.
    specialize (X LU ltac:(destruct ac; [easy|cbn; lia])). unfold name. cbn [fst snd]. rewrite app_length in LEG.
    destruct (Nat.ltb_spec (length ac) (length (rev (pre' ++ ac ++ post)))) as [H|H].
    - rewrite (LEG H). exact X.
    - exact X.
  Qed.
  Lemma branch_cod ac open r uc ud : got ac open false r -> length ud = length ac -> ac <> [] ->
    exists t leg pre post L P, r = COk (t, leg) /\ open = post ++ pre /\ fst L ++ rev (snd L) = map f pre ++ map g uc ++ map f post /\
      (P = combine (map f ac) (map g ud) \/ P = combine (map g ud) (map f ac)) /\
      (if length ac <? length (fst t) then with_first leg (partial_compose (name f t) (name g (uc, ud))) else compose (name g (uc, ud)) (name f t)) = COk (Joined P L).
  Proof.
    intros (co & dom & leg & pre & post & E & C & O & LEG & LC) LU NA. cbn in LEG. symmetry in C. rewrite app_assoc in C. destruct (app_cut C) as [EC ED]; [rewrite app_length; lia|].
    set (post' := skipn (length (pre ++ ac)) co) in *. clearbody post'. subst co. subst post. clear C. rewrite <- (app_assoc pre ac post') in *.
    exists (pre ++ ac ++ post', dom), leg, pre, (post' ++ rev dom), (map f pre ++ map g uc ++ map f post', map f dom),
      (if length ac <? length (pre ++ ac ++ post') then combine (map f ac) (map g ud) else combine (map g ud) (map f ac)). split; [exact E|]. split; [exact O|]. split.
    { cbn [fst snd]. rewrite map_app, map_rev, <- !app_assoc. reflexivity. }
    split. { destruct (_ <? _); auto. }
    assert (X := attach_cod (map f pre) (seg := map f ac) (map f post') (map f dom) (map g uc) (q := map g ud)). rewrite <- !map_app in X. rewrite !map_length in X.
    specialize (X LU ltac:(destruct ac; [easy|cbn; lia])). unfold name. cbn [fst snd].
    destruct (Nat.ltb_spec (length ac) (length (pre ++ ac ++ post'))) as [H|H].
    - rewrite (LEG H). exact X.
    - exact X.
  Qed.
End Attach.

Lemma around_split L (a b : list (nat + nat)) : fst L ++ rev (snd L) = b ++ a -> around L (a ++ b).
Proof. intros E. exists (length a). rewrite app_length. split; [lia|]. now rewrite E, skipn_len, firstn_len. Qed.
Lemma around_1 L pre post open1 open2 : open1 = post ++ pre -> fst L ++ rev (snd L) = map inl pre ++ map inr open2 ++ map inl post -> around L (map inl open1 ++ map inr open2).
Proof. intros -> E. rewrite map_app, <- app_assoc. apply around_split. rewrite E. now rewrite <- app_assoc. Qed.
Lemma around_2 L pre post open1 open2 : open2 = post ++ pre -> fst L ++ rev (snd L) = map inr pre ++ map inl open1 ++ map inr post -> around L (map inl open1 ++ map inr open2).
Proof. intros -> E. rewrite map_app, app_assoc. apply around_split. exact E. Qed.
Lemma pairs_1 contr1 contr2 legs1 legs2 P : length contr1 = length contr2 -> Permutation (combine contr1 contr2) (combine legs1 legs2) ->
  (P = combine (map inl contr1) (map inr contr2) \/ P = combine (map inr contr2) (map inl contr1) \/ P = combine (map inl (rev contr1)) (map inr (rev contr2)) \/ P = combine (map inr (rev contr2)) (map inl (rev contr1))) ->
  exists l, Permutation l (combine legs1 legs2) /\ Forall2 joins P l.
Proof.
  intros L PM C. assert (PR : Permutation (combine (rev contr1) (rev contr2)) (combine legs1 legs2)) by (rewrite combine_rev by exact L; now rewrite <- Permutation_rev).
  assert (LR : length (rev contr1) = length (rev contr2)) by now rewrite !rev_length.
  destruct C as [->|[->|[->| ->]]]; [exists (combine contr1 contr2)|exists (combine contr1 contr2)|exists (combine (rev contr1) (rev contr2))|exists (combine (rev contr1) (rev contr2))];
    (split; [assumption|]); first [now apply joins_12|now apply joins_21].
Qed.

Lemma filter_len_perm A (p : A -> bool) l l' : Permutation l l' -> length (filter p l) = length (filter p l').
Proof. intros P. induction P as [|x l l' P IH|x y l|l l' l'' P IH P' IH']; cbn; try congruence; [destruct (p x); cbn; congruence|destruct (p x), (p y); reflexivity]. Qed.
Lemma ups_downs nc l : ups nc l + downs nc l = length l.
Proof. unfold ups, downs. induction l as [|x l IH]; [reflexivity|]. cbn [filter length]. destruct (Nat.ltb_spec x nc), (Nat.leb_spec nc x); cbn [length]; lia. Qed.
Lemma circle_facts n a b : (exists k, k <= n /\ a ++ b = rotation k (seq 0 n)) -> Permutation (a ++ b) (seq 0 n) /\ NoDup a /\ Forall (fun i => i < n) a /\ length a + length b = n.
Proof.
  intros (k & K & E). assert (P : Permutation (a ++ b) (seq 0 n)) by (rewrite E; unfold rotation; rewrite Permutation_app_comm; now rewrite firstn_skipn).
  split; [exact P|]. split. { assert (ND := Permutation_NoDup (Permutation_sym P) (seq_NoDup n 0)). clear -ND. induction a as [|x a IH]; [constructor|]. inversion ND as [|? ? X Y]; subst. constructor; [|now apply IH]. intros I. apply X. apply in_or_app. now left. }
  split. { apply Forall_forall. intros x I. assert (J : In x (seq 0 n)) by (apply (Permutation_in _ P); apply in_or_app; now left). apply in_seq in J. lia. }
  apply Permutation_length in P. now rewrite app_length, seq_length in P.
Qed.
(** the bipartition that the code finds *)
Lemma bipartition_of legs n c o : (exists k, k <= n /\ c ++ o = rotation k (seq 0 n)) -> Permutation c legs -> c <> [] -> exists c', parse_leg_bipartition legs n = Some (c', o) /\ c' = (if length o =? 0 then seq 0 n else c).
Proof.
  intros C P NC. destruct (circle_facts C) as (_ & ND & F & L). assert (ND' := Permutation_NoDup P ND).
  assert (F' : Forall (fun i => i < n) legs) by (apply Forall_forall; intros x I; rewrite Forall_forall in F; apply F; now apply (Permutation_in _ (Permutation_sym P))).
  destruct C as (k & K & E). destruct o as [|y o].
  - exists (seq 0 n). split; [|reflexivity]. unfold parse_leg_bipartition. rewrite (proj2 (has_dup_NoDup legs) ND'). cbn [orb].
    destruct (existsb _ legs) eqn:X. { apply existsb_exists in X. destruct X as (x & I & X). rewrite Forall_forall in F'. apply F' in I. apply Nat.leb_le in X. lia. }
    apply Permutation_length in P. cbn in L. destruct legs as [|x t]; [destruct c; [easy|cbn in P; lia]|]. replace (length (x :: t)) with n by lia. rewrite Nat.eqb_refl. unfold range. now rewrite Nat.sub_0_r.
  - exists c. split; [|reflexivity]. now apply (bipartition_complete ND' F' P K E).
Qed.

Lemma contract_ok triv sym nc1 nd1 nc2 nd2 legs1 legs2 contr1 open1 contr2 open2 : (triv = true -> sym = true) -> length legs1 = length legs2 -> legs1 <> [] ->
  planar_pairing (nc1 + nd1) (nc2 + nd2) legs1 legs2 contr1 open1 contr2 open2 -> reachable nc1 nd1 contr1 open1 -> reachable nc2 nd2 contr2 open2 ->
  (open1 = [] -> contr1 = seq 0 (nc1 + nd1)) -> (open2 = [] -> tensor1_below nc1 nc2 legs1 legs2 -> length legs1 <= 1) ->
  exists r, planar_contraction triv sym nc1 nd1 nc2 nd2 legs1 legs2 = COk r /\ contraction legs1 legs2 open1 open2 r.
Proof.
  intros TS LL NE [LC PP C1 C2] R1 R2 O1 O2.
  assert (P1 : Permutation contr1 legs1) by (rewrite <- (map_fst_combine LC), <- (map_fst_combine LL); now apply Permutation_map).
  assert (P2 : Permutation contr2 legs2) by (rewrite <- (map_snd_combine LC), <- (map_snd_combine LL); now apply Permutation_map).
  assert (N1 : contr1 <> []) by (intros X; rewrite X in P1; apply Permutation_nil in P1; contradiction).
  assert (N2 : contr2 <> []) by (intros X; rewrite X in LC; destruct contr1; [easy|discriminate]).
  assert (N2' : rev contr2 <> []) by (intros X; apply N2; rewrite <- (rev_involutive contr2), X; reflexivity).
  assert (L1 := Permutation_length P1). assert (L2 := Permutation_length P2).
  destruct (circle_facts C1) as (PC1 & ND1 & F1 & LN1). destruct (circle_facts C2) as (PC2 & ND2 & F2 & LN2). rewrite rev_length in LN2.
  destruct (bipartition_of C1 P1 N1) as (c1 & B1 & E1). assert (c1 = contr1) as -> by (rewrite E1; destruct open1; cbn; [now rewrite O1|reflexivity]). clear E1.
  assert (P2' : Permutation (rev contr2) legs2) by (rewrite <- Permutation_rev; exact P2).
  destruct (bipartition_of C2 P2' N2') as (c2 & B2 & _).
  assert (NDL := Permutation_NoDup P1 ND1). assert (EQ := partners_eq NDL LC PP).
  assert (DES : descends (nc2 + nd2) contr2 = true).
  { rewrite <- (rev_involutive contr2). destruct C2 as (k & K & E). assert (N : 0 < nc2 + nd2) by (destruct contr2; [easy|cbn in LN2; lia]).
    rewrite <- arc_rotation in E by assumption. replace (nc2 + nd2) with (length (rev contr2) + length open2) in E at 2 by (rewrite rev_length; lia). rewrite arc_app in E. apply app_len_inj in E; [|now rewrite arc_length].
    destruct E as [-> _]. now apply descends_arc. }
  assert (S1 := planar_swap C1). assert (S2 := planar_swap C2).
  unfold planar_contraction. rewrite <- LL, Nat.eqb_refl. cbn [negb]. rewrite B1, B2. cbv zeta. rewrite EQ. fold (descends (nc2 + nd2) contr2). rewrite DES. cbn [negb].
  change (length (filter (fun l => l <? nc1) contr1)) with (ups nc1 contr1). change (length (filter (fun l => l <? nc2) contr2)) with (ups nc2 contr2).
  assert (U1 := ups_downs nc1 contr1). assert (U2 := ups_downs nc2 contr2).
  assert (V1 : ups nc1 contr1 = ups nc1 legs1) by now apply filter_len_perm. assert (V2 : ups nc2 contr2 = ups nc2 legs2) by now apply filter_len_perm.
  assert (W1 : downs nc1 contr1 = downs nc1 legs1) by now apply filter_len_perm. assert (W2 : downs nc2 contr2 = downs nc2 legs2) by now apply filter_len_perm.
  replace (length legs1 - ups nc1 contr1) with (downs nc1 contr1) by lia. replace (length legs1 - ups nc2 contr2) with (downs nc2 contr2) by lia.
  assert (R2' : reachable nc2 nd2 (rev contr2) open2). { destruct R2 as [R|R]; [left|right]; [rewrite <- !in_rev; exact R|]. intros x y I J. rewrite <- in_rev in I. now apply R. }
  assert (PR2 : Permutation contr2 (rev contr2)) by apply Permutation_rev.
  assert (LE1 : length (rev contr1) = length contr2) by now rewrite rev_length. assert (LE2 : length (rev contr2) = length contr1) by now rewrite rev_length.
  destruct (Nat.ltb_spec (ups nc1 contr1 + downs nc2 contr2) (downs nc1 contr1 + ups nc2 contr2)) as [BR|BR]; [destruct (Nat.ltb_spec (nc2 + downs nc2 contr2 - length legs1) (nd1 + ups nc1 contr1 - length legs1)) as [AW|AW]|
    destruct (Nat.ltb_spec (nd2 + ups nc2 contr2 - length legs1) (nc1 + downs nc1 contr1 - length legs1)) as [AW|AW]].
  - (* tensor 1 below, tensor 2 is attached *)
    assert (FULL : open1 = [] -> contr1 = rev contr1).
    { intros X. exfalso. rewrite (O1 X) in AW. rewrite X in LN1. cbn in LN1.
      assert (Y : ups nc1 (seq 0 (nc1 + nd1)) = nc1). { unfold ups. rewrite seq_app, filter_app, filter_all, filter_none, app_nil_r, seq_length; [reflexivity| |]; intros x I; apply in_seq in I; [apply Nat.ltb_ge|apply Nat.ltb_lt]; lia. }
      lia. }
    assert (G := @helper_got triv sym nc1 nd1 contr1 contr1 open1 true TS (Permutation_refl _) N1 C1 R1 FULL).
    destruct (branch_dom inl inr (rev open2) G (uc := rev contr2) ltac:(lia) N1) as (t & leg & pre & post & L & EH & EO & EL & ER). rewrite EH. cbn [bind].
    rewrite (planar_moved TS C2). cbn [bind]. rewrite <- L1. change (name1 t) with (name inl t). change (name2 (rev contr2, rev open2)) with (name inr (rev contr2, rev open2)). rewrite ER.
    eexists. split; [reflexivity|]. split; cbn [j_pairs j_legs].
    + apply (pairs_1 LC PP). right; right; left. reflexivity.
    + rewrite rev_involutive in EL. apply (around_1 EO EL).
  - (* tensor 1 below, tensor 1 is attached *)
    assert (FULL : open2 = [] -> contr2 = rev contr2).
    { intros X. assert (Y := O2 X). unfold tensor1_below in Y. rewrite <- V1, <- V2, <- W1, <- W2 in Y. specialize (Y BR). destruct contr2 as [|x [|y t]]; [reflexivity|reflexivity|]. cbn in LC. lia. }
    assert (G := @helper_got triv sym nc2 nd2 contr2 (rev contr2) open2 false TS PR2 N2' C2 R2' FULL).
    destruct (branch_cod inr inl open1 G (ud := rev contr1) ltac:(rewrite !rev_length; exact LC) N2') as (t & leg & pre & post & L & P & EH & EO & EL & EP & ER). rewrite EH. cbn [bind].
    rewrite (planar_moved TS S1). cbn [bind]. rewrite LE2, L1 in ER. change (name2 t) with (name inr t). change (name1 (open1, rev contr1)) with (name inl (open1, rev contr1)). rewrite ER.
    eexists. split; [reflexivity|]. split; cbn [j_pairs j_legs].
    + apply (pairs_1 LC PP). destruct EP as [->| ->]; auto.
    + apply (around_2 EO EL).
  - (* tensor 1 above, tensor 2 is attached *)
    assert (G := @helper_got triv sym nc1 nd1 contr1 contr1 open1 false TS (Permutation_refl _) N1 C1 R1 (fun _ => eq_refl)).
    destruct (branch_cod inl inr open2 G (ud := contr2) ltac:(lia) N1) as (t & leg & pre & post & L & P & EH & EO & EL & EP & ER). rewrite EH. cbn [bind].
    assert (M := planar_moved (nc := nc2) (nd := nd2) TS S2). rewrite rev_involutive in M. rewrite M. cbn [bind]. rewrite L1 in ER. change (name1 t) with (name inl t). change (name2 (open2, contr2)) with (name inr (open2, contr2)). rewrite ER.
    eexists. split; [reflexivity|]. split; cbn [j_pairs j_legs].
    + apply (pairs_1 LC PP). destruct EP as [->| ->]; auto.
    + apply (around_1 EO EL).
  - (* tensor 1 above, tensor 1 is attached *)
    assert (G := @helper_got triv sym nc2 nd2 contr2 (rev contr2) open2 true TS PR2 N2' C2 R2' (fun _ => eq_sym (rev_involutive contr2))).
    destruct (branch_dom inr inl (rev open1) G (uc := contr1) ltac:(lia) N2') as (t & leg & pre & post & L & EH & EO & EL & ER). rewrite EH. cbn [bind].
    rewrite (planar_moved TS C1). cbn [bind]. rewrite LE2, L1 in ER. change (name2 t) with (name inr t). change (name1 (contr1, rev open1)) with (name inl (contr1, rev open1)). rewrite ER.
    eexists. split; [reflexivity|]. split; cbn [j_pairs j_legs].
    + apply (pairs_1 LC PP). rewrite rev_involutive. auto.
    + rewrite rev_involutive in EL. apply (around_2 EO EL).
Qed.
