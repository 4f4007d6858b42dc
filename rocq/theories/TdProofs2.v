(** Lemmas for C72, second part: the branches of tdot. *)
From Coq Require Import String ZArith List Bool Permutation Lia.
From Verif Require Import Util GridModel PermLegsModel PermLegsSpec PlanarModel PlanarSpec PlanarProofs1 PlanarProofs2 PcModel PcSpec TdModel TdSpec TdProofs1.
Import ListNotations.
Set Implicit Arguments. Unset Strict Implicit.
Open Scope nat_scope.

Lemma leg_lin t k : leg d0 t k = nth k (lin t) d0.
Proof. reflexivity. Qed.
Lemma lin_1 t : lin (legs_of1 t) = map inl (seq 0 (num_legs t)).
Proof. unfold lin, legs_of1, name1, legs0. cbn [fst snd]. rewrite <- map_rev, rev_involutive, <- map_app. unfold num_legs. now rewrite seq_app. Qed.
Lemma lin_2 t : lin (legs_of2 t) = map inr (seq 0 (num_legs t)).
Proof. unfold lin, legs_of2, name2, legs0. cbn [fst snd]. rewrite <- map_rev, rev_involutive, <- map_app. unfold num_legs. now rewrite seq_app. Qed.
Lemma total_1 t : total (legs_of1 t) = num_legs t.
Proof. rewrite <- lin_length, lin_1. now rewrite map_length, seq_length. Qed.
Lemma total_2 t : total (legs_of2 t) = num_legs t.
Proof. rewrite <- lin_length, lin_2. now rewrite map_length, seq_length. Qed.

Lemma nth_map_seq (f : nat -> name) n k : k < n -> nth k (map f (seq 0 n)) d0 = f k.
Proof. intros H. rewrite nth_map_lt with (d := 0) by now rewrite seq_length. now rewrite seq_nth. Qed.
Lemma map_legs (f : nat -> name) n t l : lin t = map f (seq 0 n) -> Forall (fun i => i < n) l -> map (leg d0 t) l = map f l.
Proof. intros E F. apply map_ext_in. intros i H. rewrite Forall_forall in F. rewrite leg_lin, E. apply nth_map_seq. now apply F. Qed.
Lemma others_range n l : Forall (fun i => i < n) (others n l).
Proof. apply Forall_forall. intros i H. apply filter_In in H. destruct H as [H _]. apply in_seq in H. lia. Qed.
Lemma others_notin n l i : In i (others n l) -> ~ In i l.
Proof. intros H C. apply filter_In in H. destruct H as [_ H]. apply contains_In in C. now rewrite C in H. Qed.
Lemma others_length n l : proper n l -> length l + length (others n l) = n.
Proof.
  intros P. unfold others. rewrite <- app_length. rewrite (Permutation_length (filter_split (seq_NoDup n 0) (proper_incl P) (proj1 P))). apply seq_length.
Qed.
Lemma others_rev n l : others n (rev l) = others n l.
Proof. apply filter_ext. intros i. f_equal. apply eq_true_iff_eq. rewrite !contains_In. symmetry. apply in_rev. Qed.
Lemma others_swap n i j : others n [j; i] = others n [i; j].
Proof. exact (others_rev n [i; j]). Qed.
Lemma open_others t legs : open t legs = others (num_legs t) legs.
Proof. reflexivity. Qed.

Lemma nth_attached (f : nat -> name) n t k x : lin t = map f (seq 0 n) -> k < n -> forall l, Forall (fun i => i < n) l -> ~ In k l -> map (leg d0 (set_leg t k x)) l = map f l.
Proof.
  intros E L l F N. apply map_ext_in. intros i H. rewrite Forall_forall in F. rewrite leg_lin, lin_set, E.
  - rewrite nth_upd_neq by (intros ->; contradiction). apply nth_map_seq. now apply F.
  - rewrite <- lin_length, E, map_length, seq_length. exact L.
Qed.
Lemma nth_attached_eq (f : nat -> name) n t k x : lin t = map f (seq 0 n) -> k < n -> leg d0 (set_leg t k x) k = x.
Proof.
  intros E L. assert (T : total t = n) by now rewrite <- lin_length, E, map_length, seq_length.
  rewrite leg_lin, lin_set by lia. apply nth_upd_eq. rewrite lin_length. lia.
Qed.

Section Branches.
Variables triv sym : bool.

Lemma attach_trace_spec sc m (f : nat -> name) t n a k k' n_cod : lin t = map f (seq 0 n) -> proper n [k; k'] -> n_cod <= n - 2 -> (sc = true \/ 2 < n) ->
  match attach_trace triv sym sc m t a k k' n_cod with
  | TErr _ => ~ (triv = true /\ sym = true)
  | TNumber p => p = [(m a, f k); (m (1 - a), f k')] /\ n = 2
  | TTensor j => n <> 2 /\ j_pairs j = [(m a, f k); (m (1 - a), f k')] /\ j_legs j = (firstn n_cod (map f (others n [k; k'])), rev (skipn n_cod (map f (others n [k; k']))))
  end.
Proof.
  intros E P L C. assert (T : total t = n) by now rewrite <- lin_length, E, map_length, seq_length.
  assert (K : k < n /\ k' < n /\ k <> k').
  { destruct P as [N F]. apply Forall_cons_iff in F. destruct F as [F1 F2]. apply Forall_cons_iff in F2. destruct F2 as [F2 _]. apply NoDup_cons_iff in N. destruct N as [N _].
    split; [exact F1|]. split; [exact F2|]. intros ->. apply N. now left. }
  destruct K as (K & K' & KK). unfold attach_trace, attach.
  assert (PE : [(m a, leg d0 t k)] ++ [(leg d0 (set_leg t k (m (1 - a))) k, leg d0 (set_leg t k (m (1 - a))) k')] = [(m a, f k); (m (1 - a), f k')]).
  { rewrite (nth_attached_eq (m (1 - a)) E K). assert (X := @nth_attached f n t k (m (1 - a)) E K [k']).
    assert (Y : leg d0 (set_leg t k (m (1 - a))) k' = f k').
    { apply (f_equal (hd d0)) in X; [exact X|now constructor|]. intros [Z|[]]. now apply KK. }
    rewrite Y. rewrite leg_lin, E, nth_map_seq by exact K. reflexivity. }
  rewrite PE. rewrite T. destruct (Nat.eqb_spec n 2) as [N|N].
  - destruct C as [ ->|C]; [|lia]. now split.
  - assert (LD : lin (drop_legs (set_leg t k (m (1 - a))) [k; k']) = map f (others n [k; k'])).
    { rewrite lin_drop, total_set, T. apply (nth_attached (m (1 - a)) E K); [apply others_range|]. intros H. apply others_notin in H. apply H. now left. }
    assert (LT : total (drop_legs (set_leg t k (m (1 - a))) [k; k']) = n - 2).
    { rewrite <- lin_length, LD, map_length. assert (X := others_length P). cbn [length] in X. lia. }
    assert (X := @bend_legs_spec triv sym (drop_legs (set_leg t k (m (1 - a))) [k; k']) n_cod). rewrite LT, LD in X. specialize (X L).
    destruct (bend_legs _ _ _ _) as [e|r]; cbn [finish]; [exact X|]. cbn [j_pairs j_legs]. subst r. now repeat split.
Qed.

Lemma joined_all (l1 l2 : list nat) : length l1 = length l2 -> all_joined l1 l2 (combine (map inl l1) (map inr l2)).
Proof.
  intros L. exists (combine l1 l2). split; [reflexivity|]. revert l2 L. induction l1 as [|x l1 IH]; intros [|y l2] L; try discriminate L; cbn [map combine]; constructor.
  - now left.
  - apply IH. now injection L.
Qed.

Definition outcome (t1 t2 : tensor) (legs1 legs2 : list nat) (r : tres name) : Prop := match r with TErr _ => ~ (triv = true /\ sym = true) | _ => conventional t1 t2 legs1 legs2 r end.

Lemma tdot_sym_ok t1 t2 legs1 legs2 : proper (num_legs t1) legs1 -> proper (num_legs t2) legs2 -> length legs1 = length legs2 -> outcome t1 t2 legs1 legs2 (tdot_sym triv sym t1 t2 legs1 legs2).
Proof.
  intros P1 P2 L. unfold tdot_sym. assert (X1 := @permute_domain_spec triv sym (legs_of1 t1) legs1). rewrite total_1 in X1. specialize (X1 P1).
  destruct (permute_domain _ _ _ _) as [e|r1]; [exact X1|]. assert (X2 := @permute_codomain_spec triv sym (legs_of2 t2) legs2). rewrite total_2 in X2. specialize (X2 P2).
  destruct (permute_codomain _ _ _ _) as [e|r2]; [exact X2|].
  rewrite (map_legs (lin_1 t1) (others_range _ _)), (map_legs (lin_1 t1) (proj2 P1)) in X1. rewrite (map_legs (lin_2 t2) (others_range _ _)), (map_legs (lin_2 t2) (proj2 P2)) in X2.
  subst r1 r2. unfold compose. cbn [fst snd]. rewrite !map_length, L, Nat.eqb_refl. cbn [negb]. rewrite rev_length, map_length. cbn [j_pairs]. rewrite <- !open_others.
  destruct (Nat.eqb_spec (length (open t1 legs1)) 0) as [Z1|Z1]; cbn [andb].
  - destruct (Nat.eqb_spec (length (open t2 legs2)) 0) as [Z2|Z2]; cbn [outcome conventional j_pairs j_legs].
    + split; [now apply joined_all|]. split; now apply length_zero_iff_nil.
    + split; [now apply joined_all|]. split; [|reflexivity]. intros [_ Z]. apply Z2. now rewrite Z.
  - cbn [outcome conventional j_pairs j_legs]. split; [now apply joined_all|]. split; [|reflexivity]. intros [Z _]. apply Z1. now rewrite Z.
Qed.

(** ** a tensor with two legs *)
Lemma special_two t : well_formed t -> t_kind t <> Symmetric -> num_legs t = 2.
Proof. unfold well_formed, num_legs. destruct (t_kind t); intros W N; [now contradiction N| | |]; destruct W as [-> ->]; reflexivity. Qed.
Lemma open_one t a : num_legs t = 2 -> a < 2 -> open t [a] = [1 - a].
Proof. intros N H. unfold open. rewrite N. destruct a as [|[|a]]; [reflexivity|reflexivity|lia]. Qed.
Lemma open_two t a a' : num_legs t = 2 -> proper 2 [a; a'] -> open t [a; a'] = [] /\ a' = 1 - a /\ a < 2.
Proof.
  intros N [ND F]. apply Forall_cons_iff in F. destruct F as [F1 F]. apply Forall_cons_iff in F. destruct F as [F2 _]. apply NoDup_cons_iff in ND. destruct ND as [ND _].
  assert (a <> a') by (intros ->; apply ND; now left). unfold open. rewrite N. destruct a as [|[|a]]; [| |lia]; destruct a' as [|[|a']]; try lia; now repeat split.
Qed.

(** one leg contracted *)
Lemma one_left t1 t2 a b (pairs : list (name * name)) : num_legs t1 = 2 -> a < 2 -> b < num_legs t2 -> pairs = [(inl a, inr b)] ->
  forall j : joined name, j_pairs j = pairs -> j_legs j = ([inl (1 - a)], rev (map inr (open t2 [b]))) -> conventional t1 t2 [a] [b] (TTensor j).
Proof.
  intros N A B -> j E1 E2. cbn [conventional]. rewrite E1, E2. rewrite (open_one N A). split; [|split; [intros [H _]; discriminate H|reflexivity]].
  exists [(a, b)]. split; [reflexivity|]. constructor; [now left|constructor].
Qed.
Lemma one_right t1 t2 a b (pairs : list (name * name)) : num_legs t2 = 2 -> b < 2 -> a < num_legs t1 -> pairs = [(inr b, inl a)] ->
  forall j : joined name, j_pairs j = pairs -> j_legs j = (map inl (open t1 [a]), [inr (1 - b)]) -> conventional t1 t2 [a] [b] (TTensor j).
Proof.
  intros N A B -> j E1 E2. cbn [conventional]. rewrite E1, E2. rewrite (open_one N A). split; [|split; [intros [_ H]; discriminate H|reflexivity]].
  exists [(a, b)]. split; [reflexivity|]. constructor; [now right|constructor].
Qed.
Lemma proper_one n b : b < n -> proper n [b].
Proof. intros H. split; [constructor; [intros []|constructor]|now constructor]. Qed.
Lemma proper_single n b : proper n [b] -> b < n.
Proof. intros [_ F]. now apply Forall_cons_iff in F. Qed.

(** the result of attaching leg a of tensor1 to leg b of tensor2, leg b then moved to the codomain *)
Lemma attach_left t1 t2 a b : num_legs t1 = 2 -> a < 2 -> b < num_legs t2 ->
  outcome t1 t2 [a] [b] (let '(pairs, res) := attach inl (legs_of2 t2) a b in finish pairs (permute_codomain triv sym res [b])).
Proof.
  intros N A B. unfold attach. assert (X := @permute_codomain_spec triv sym (set_leg (legs_of2 t2) b (inl (1 - a))) [b]). rewrite total_set, total_2 in X. specialize (X (proper_one B)).
  destruct (permute_codomain _ _ _ _) as [e|r]; cbn [finish]; [exact X|]. apply (@one_left t1 t2 a b [(inl a, leg d0 (legs_of2 t2) b)]); try assumption; try reflexivity.
  - rewrite leg_lin, lin_2, nth_map_seq by exact B. reflexivity.
  - cbn [j_legs]. rewrite X. cbn [map]. rewrite (nth_attached_eq (inl (1 - a)) (lin_2 t2) B). f_equal. f_equal.
    rewrite open_others. apply (nth_attached (inl (1 - a)) (lin_2 t2) B); [apply others_range|]. intros H. apply others_notin in H. apply H. now left.
Qed.
Lemma attach_right t1 t2 a b : num_legs t2 = 2 -> b < 2 -> a < num_legs t1 ->
  outcome t1 t2 [a] [b] (let '(pairs, res) := attach inr (legs_of1 t1) b a in finish pairs (permute_domain triv sym res [a])).
Proof.
  intros N A B. unfold attach. assert (X := @permute_domain_spec triv sym (set_leg (legs_of1 t1) a (inr (1 - b))) [a]). rewrite total_set, total_1 in X. specialize (X (proper_one B)).
  destruct (permute_domain _ _ _ _) as [e|r]; cbn [finish]; [exact X|]. apply (@one_right t1 t2 a b [(inr b, leg d0 (legs_of1 t1) a)]); try assumption; try reflexivity.
  - rewrite leg_lin, lin_1, nth_map_seq by exact B. reflexivity.
  - cbn [j_legs]. rewrite X. cbn [map]. rewrite (nth_attached_eq (inr (1 - b)) (lin_1 t1) B). f_equal.
    rewrite open_others. apply (nth_attached (inr (1 - b)) (lin_1 t1) B); [apply others_range|]. intros H. apply others_notin in H. apply H. now left.
Qed.
(** two legs contracted: leg a of tensor1 with leg b, the other with the other *)
Lemma trace_left sc t1 t2 legs1 legs2 a b b' : num_legs t1 = 2 -> proper (num_legs t2) [b; b'] -> sc = true \/ 2 < num_legs t2 -> a < 2 ->
  open t1 legs1 = [] -> open t2 legs2 = others (num_legs t2) [b; b'] -> Permutation [(a, b); (1 - a, b')] (combine legs1 legs2) ->
  outcome t1 t2 legs1 legs2 (attach_trace triv sym sc inl (legs_of2 t2) a b b' 0).
Proof.
  intros N P SC A O1 O2 PP. assert (X := @attach_trace_spec sc inl _ (legs_of2 t2) _ a b b' 0 (lin_2 t2) P (Nat.le_0_l _) SC). assert (OL := others_length P). cbn [length] in OL. rewrite <- O2 in *.
  assert (AJ : all_joined legs1 legs2 [(inl a, inr b); (inl (1 - a), inr b')]). { exists [(a, b); (1 - a, b')]. split; [exact PP|]. constructor; [now left|]. constructor; [now left|constructor]. }
  destruct (attach_trace _ _ _ _ _ _ _ _ _) as [p|j|e]; cbn [outcome conventional].
  - destruct X as [ -> X]. split; [exact AJ|]. split; [exact O1|]. apply length_zero_iff_nil. lia.
  - destruct X as (X & -> & ->). split; [exact AJ|]. split; [|now rewrite O1]. intros [_ Z]. rewrite Z in OL. cbn [length] in OL. lia.
  - exact X.
Qed.
Lemma trace_right sc t1 t2 legs1 legs2 a a' b : num_legs t2 = 2 -> proper (num_legs t1) [a; a'] -> sc = true \/ 2 < num_legs t1 -> b < 2 ->
  open t2 legs2 = [] -> open t1 legs1 = others (num_legs t1) [a; a'] -> Permutation [(a, b); (a', 1 - b)] (combine legs1 legs2) ->
  outcome t1 t2 legs1 legs2 (attach_trace triv sym sc inr (legs_of1 t1) b a a' (num_legs t1 - 2)).
Proof.
  intros N P SC A O1 O2 PP. assert (X := @attach_trace_spec sc inr _ (legs_of1 t1) _ b a a' (num_legs t1 - 2) (lin_1 t1) P (Nat.le_refl _) SC). assert (OL := others_length P). cbn [length] in OL. rewrite <- O2 in *.
  assert (AJ : all_joined legs1 legs2 [(inr b, inl a); (inr (1 - b), inl a')]). { exists [(a, b); (a', 1 - b)]. split; [exact PP|]. constructor; [now right|]. constructor; [now right|constructor]. }
  destruct (attach_trace _ _ _ _ _ _ _ _ _) as [p|j|e]; cbn [outcome conventional].
  - destruct X as [ -> X]. split; [exact AJ|]. split; [|exact O1]. apply length_zero_iff_nil. lia.
  - destruct X as (X & -> & ->). split; [exact AJ|]. split; [intros [Z _]; rewrite Z in OL; cbn [length] in OL; lia|].
    rewrite firstn_all2, skipn_all2 by (rewrite map_length; lia). now rewrite O1.
  - exact X.
Qed.
End Branches.
