(** C22, part 2: the engine keeps track of the legs. *)
From Coq Require Import ZArith List Bool Lia Permutation Sorted.
From Verif Require Import Util StableSort RowModel RowProofs GridModel GridProofs PermLegsModel PermLegsSpec PermLegsProofs.
Import ListNotations.
Set Implicit Arguments. Unset Strict Implicit.
Open Scope nat_scope.

Lemma exec_snoc l : forall s s1 e1 i s2 e2, exec s l = Some (s1, e1) -> exec1 s1 i = Some (s2, e2) -> exec s (l ++ [i]) = Some (s2, e1 ++ e2).
Proof.
  induction l as [|j l IH]; intros s s1 e1 i s2 e2 H1 H2.
  - injection H1 as -> <-. cbn [app exec]. rewrite H2. now rewrite app_nil_r.
  - cbn [app exec] in *. destruct (exec1 s j) as [[s' e]|]; [|discriminate]. destruct (exec s' l) as [[s'' e']|] eqn:E; [|discriminate].
    injection H1 as -> <-. rewrite (IH _ _ _ _ _ _ E H2). now rewrite app_assoc.
Qed.
Lemma exchange_spec l i : S i < length l -> exchange l i = Some (nth i l 0, nth (S i) l 0, swap_at i l).
Proof.
  intros H. unfold exchange. assert (Hi : i < length l) by lia. destruct (nth_split l 0 Hi) as [l1 [l2 [E L]]].
  remember (nth i l 0) as a. destruct l2 as [|b l2]; [rewrite E, app_length in H; cbn [length] in H; lia|].
  rewrite E. subst i. rewrite skipn_app, skipn_all, Nat.sub_diag. cbn [app skipn]. rewrite firstn_app, firstn_all, Nat.sub_diag. cbn [firstn]. rewrite app_nil_r.
  rewrite swap_at_mid. rewrite app_nth2 by lia. replace (S (length l1) - length l1) with 1 by lia. reflexivity.
Qed.
Lemma swap_at_rev A (l : list A) i : S i < length l -> swap_at i (rev l) = rev (swap_at (length l - 2 - i) l).
Proof.
  intros H. destruct l as [|d0 l0] eqn:El; [cbn [length] in H; lia|]. rewrite <- El in *. clear El l0.
  apply list_eq_nth with (d := d0); [now rewrite swap_at_length, !rev_length, swap_at_length|].
  rewrite swap_at_length, rev_length. intros k Hk. rewrite nth_swap_at by (rewrite rev_length; lia).
  rewrite !rev_nth by (rewrite ?swap_at_length; try lia; unfold tr; destruct (Nat.eqb_spec k i); try lia; destruct (Nat.eqb_spec k (S i)); lia).
  rewrite swap_at_length, nth_swap_at by lia. f_equal. unfold tr.
  destruct (Nat.eqb_spec k i), (Nat.eqb_spec k (S i)), (Nat.eqb_spec (length l - S k) (length l - 2 - i)), (Nat.eqb_spec (length l - S k) (S (length l - 2 - i))); lia.
Qed.
Lemma swap_at_firstn A j : forall c (l : list A), S j < c -> firstn c (swap_at j l) = swap_at j (firstn c l) /\ skipn c (swap_at j l) = skipn c l.
Proof.
  induction j as [|j IH]; intros c l H.
  - destruct l as [|x [|y l]]; destruct c as [|[|c]]; cbn [swap_at firstn skipn]; try lia; try easy.
  - destruct l as [|x l]; destruct c as [|c]; cbn [swap_at firstn skipn]; try lia; [easy|]. destruct (IH c l) as [A1 A2]; [lia|]. split; [now f_equal|easy].
Qed.
Lemma swap_at_skipn A c : forall j (l : list A), c <= j -> firstn c (swap_at j l) = firstn c l /\ skipn c (swap_at j l) = swap_at (j - c) (skipn c l).
Proof.
  induction c as [|c IH]; intros j l H.
  - cbn [firstn skipn]. now rewrite Nat.sub_0_r.
  - destruct j as [|j]; [lia|]. destruct l as [|x l]; cbn [swap_at firstn skipn]; [now destruct (S j - S c)|]. destruct (IH j l) as [A1 A2]; [lia|]. split; [now f_equal|easy].
Qed.
Lemma to_valid_nat j n : j < n -> to_valid_idx (Z.of_nat j) n = Some j.
Proof.
  intros H. unfold to_valid_idx. destruct (Z.ltb_spec (Z.of_nat j) (- Z.of_nat n)); [lia|]. destruct (Z.leb_spec (Z.of_nat n) (Z.of_nat j)); [lia|]. cbn [orb].
  destruct (Z.ltb_spec (Z.of_nat j) 0); [lia|]. f_equal. lia.
Qed.
Lemma to_valid_Z z j n : j < n -> (z = Z.of_nat j \/ z = (Z.of_nat j - Z.of_nat n)%Z) -> to_valid_idx z n = Some j.
Proof.
  intros H [Ez|Ez]; subst z; [now apply to_valid_nat|]. unfold to_valid_idx. destruct (Z.ltb_spec (Z.of_nat j - Z.of_nat n) (- Z.of_nat n)); [lia|].
  destruct (Z.leb_spec (Z.of_nat n) (Z.of_nat j - Z.of_nat n)); [lia|]. cbn [orb].
  destruct (Z.ltb_spec (Z.of_nat j - Z.of_nat n) 0); [|lia]. f_equal. lia.
Qed.

Section Run.
  Variable r : request.
  Variable tp0 : nat -> option nat.
  Notation N := (r_nc r + r_nd r).
  Notation lv := (fun i => nth i (r_levels r) None).

  Record R (ids : list nat) (B : nat -> should) (evs : list event) (c : nat) (st : engine) : Prop := mkR {
    R_nc : num_codomain_legs st = c; R_le : c <= N; R_nd : num_domain_legs st = N - c; R_len : length ids = N;
    R_tp : target_positions st = map tp0 ids; R_sb : should_bend st = map B ids; R_lv : levels st = map lv ids;
    R_ex : exec (legs0 (r_nc r) (r_nd r)) (instructions st) = Some ((firstn c ids, rev (skipn c ids)), evs) }.

  Definition good (p : nat * nat) : Prop := r_sym r = true \/ comparable r (fst p) (snd p).
  Definition ovr (p : nat * nat) : bool := if r_sym r then true else higher r (fst p) (snd p).
  Definition cross (p : nat * nat) : event := Cross (fst p) (snd p) (ovr p).
  (** outcome of a computation: the post-condition, or BraidChiralityUnspecifiedError for a pair that has to cross *)
  Definition post (needs : nat -> nat -> Prop) A (m : M A) (st : engine) (Q : A -> engine -> Prop) : Prop :=
    match m st with
    | Ok (a, st') => Q a st'
    | Err e => e = EChirality /\ exists a b, needs a b /\ ~ good (a, b)
    end.
  Lemma post_bind needs A B (m : M A) (f : A -> M B) st Q Q' : post needs m st Q -> (forall a st', Q a st' -> post needs (f a) st' Q') -> post needs (bind m f) st Q'.
  Proof. unfold post, bind. destruct (m st) as [[a st']|e]; intros H1 H2; [exact (H2 a st' H1)|exact H1]. Qed.
  Lemma post_weaken (n1 n2 : nat -> nat -> Prop) A (m : M A) st (Q Q' : A -> engine -> Prop) :
    post n1 m st Q -> (forall a b, n1 a b -> n2 a b) -> (forall a s, Q a s -> Q' a s) -> post n2 m st Q'.
  Proof. unfold post. destruct (m st) as [[a st']|e]; [auto|]. intros [H1 [a [b [H2 H3]]]] Hn _. split; [easy|]. exists a, b. auto. Qed.
  Lemma post_ret needs A (a : A) st (Q : A -> engine -> Prop) : Q a st -> post needs (ret a) st Q.
  Proof. easy. Qed.
  Lemma post_get needs st (Q : engine -> engine -> Prop) : Q st st -> post needs get st Q.
  Proof. easy. Qed.

  Lemma compare_spec ids B evs c st i k : R ids B evs c st -> i < N -> k < N ->
    (good (nth i ids 0, nth k ids 0) -> compare_levels (r_sym r) i k st = Ok (ovr (nth i ids 0, nth k ids 0), st)) /\
    (~ good (nth i ids 0, nth k ids 0) -> compare_levels (r_sym r) i k st = Err EChirality).
  Proof.
    intros H Hi Hk. unfold compare_levels, good, ovr. destruct (r_sym r); [split; [reflexivity|]; intros X; exfalso; apply X; now left|].
    unfold bind, get. rewrite (R_lv H). rewrite !nth_map_lt with (d := 0) by (rewrite (R_len H); lia). unfold comparable, higher. cbn [fst snd].
    destruct (nth (nth i ids 0) (r_levels r) None) as [x|]; [|split; [intros [X|[]]; discriminate|reflexivity]].
    destruct (nth (nth k ids 0) (r_levels r) None) as [y|]; [|split; [intros [X|[]]; discriminate|reflexivity]].
    destruct (Z.eqb_spec x y); split; try reflexivity; intros X.
    - destruct X as [X|X]; [discriminate|easy].
    - exfalso. apply X. now right.
  Qed.

  Definition in_range c j := S j < N /\ (S j < c \/ c <= j).
  Lemma swap_ok ids B evs c st j over ov : R ids B evs c st -> in_range c j ->
    (over = Some ov \/ (over = None /\ good (nth j ids 0, nth (S j) ids 0) /\ ov = ovr (nth j ids 0, nth (S j) ids 0))) ->
    exists st', swap N (r_sym r) (Z.of_nat j) over st = Ok (tt, st') /\ R (swap_at j ids) B (evs ++ [Cross (nth j ids 0) (nth (S j) ids 0) ov]) c st'.
  Proof.
    intros H [Hj Hc] Hov. pose proof (R_len H) as L. pose proof (R_le H) as Lc.
    assert (OV : (match over with Some b => ret b | None => compare_levels (r_sym r) j (j + 1) end) st = Ok (ov, st)).
    { destruct Hov as [Eo|[Eo [G Ev]]]; subst; [reflexivity|]. rewrite Nat.add_1_r. apply (compare_spec H); [lia|lia|exact G]. }
    unfold swap. rewrite to_valid_nat by lia. destruct (Nat.leb_spec N (j + 1)); [lia|]. unfold bind at 1. rewrite OV.
    unfold bind at 1, get. rewrite (R_nc H). unfold bind, check.
    assert (Ck : (if j <? c then j + 1 <? c else true) = true). { destruct (Nat.ltb_spec j c); [|reflexivity]. apply Nat.ltb_lt. lia. }
    rewrite Ck. cbv beta iota delta [ret]. unfold put. eexists. split; [reflexivity|].
    split; cbn [num_codomain_legs num_domain_legs target_positions should_bend levels instructions].
    - reflexivity.
    - exact Lc.
    - exact (R_nd H).
    - now rewrite swap_at_length.
    - rewrite (R_tp H). apply swap_at_map.
    - rewrite (R_sb H). apply swap_at_map.
    - rewrite (R_lv H). apply swap_at_map.
    - eapply exec_snoc; [exact (R_ex H)|]. destruct (Nat.ltb_spec j c) as [Hlt|Hge].
      + destruct (swap_at_firstn ids (c := c) (j := j)) as [E1 E2]; [lia|]. rewrite E1, E2. cbn [exec1].
        rewrite exchange_spec by (rewrite firstn_length; lia). rewrite !nth_firstn_lt by lia. reflexivity.
      + destruct (@swap_at_skipn _ c j ids) as [E1 E2]; [lia|]. rewrite E1, E2. cbn [exec1].
        assert (Ls : length (skipn c ids) = N - c) by (rewrite skipn_length; lia).
        rewrite exchange_spec by (rewrite rev_length; lia). rewrite !rev_nth by lia. rewrite Ls. rewrite !nth_skipn'.
        rewrite swap_at_rev by lia. rewrite Ls. replace (N - c - 2 - (N - 2 - j)) with (j - c) by lia.
        replace (c + (N - c - S (S (N - 2 - j)))) with j by lia. replace (c + (N - c - S (N - 2 - j))) with (S j) by lia. reflexivity.
  Qed.
  Lemma swap_err ids B evs c st j : R ids B evs c st -> in_range c j -> ~ good (nth j ids 0, nth (S j) ids 0) ->
    swap N (r_sym r) (Z.of_nat j) None st = Err EChirality.
  Proof.
    intros H [Hj Hc] G. unfold swap. rewrite to_valid_nat by lia. destruct (Nat.leb_spec N (j + 1)); [lia|]. unfold bind at 1. rewrite Nat.add_1_r.
    destruct (compare_spec H (i := j) (k := S j)) as [_ E]; [lia|lia|]. now rewrite (E G).
  Qed.
  Lemma good_dec p : good p \/ ~ good p.
  Proof.
    unfold good. destruct (r_sym r); [left; now left|]. unfold comparable.
    destruct (nth (fst p) (r_levels r) None) as [x|]; [|right; intros [X|[]]; discriminate].
    destruct (nth (snd p) (r_levels r) None) as [y|]; [|right; intros [X|[]]; discriminate].
    destruct (Z.eq_dec x y); [right; intros [X|X]; [discriminate|easy]|left; now right].
  Qed.

  Definition gn (needs : nat -> nat -> Prop) (p : nat * nat) : Prop := good p /\ needs (fst p) (snd p).
  (** swaps with the chirality taken from the levels *)
  Lemma level_swaps (needs : nat -> nat -> Prop) js : forall ids B evs c st, R ids B evs c st -> Forall (in_range c) js ->
    (forall a b, In (a, b) (log ids js) -> needs a b) ->
    post needs (for_each js (fun j => swap N (r_sym r) (Z.of_nat j) None)) st
      (fun _ st' => R (do_swaps ids js) B (evs ++ map cross (log ids js)) c st' /\ Forall (gn needs) (log ids js)).
  Proof.
    induction js as [|j js IH]; intros ids B evs c st H F Hn.
    - cbn [for_each]. apply post_ret. cbn [log map]. rewrite app_nil_r. split; [exact H|constructor].
    - inversion F as [|? ? F1 F2]; subst. cbn [for_each log map]. unfold post, bind.
      destruct (good_dec (nth j ids 0, nth (S j) ids 0)) as [G|G].
      + destruct (swap_ok (over := None) (ov := ovr (nth j ids 0, nth (S j) ids 0)) H F1) as [st' [E H']]; [right; easy|]. rewrite E.
        specialize (IH _ _ _ _ _ H' F2). unfold post in IH. rewrite do_swaps_cons.
        destruct (for_each js _ st') as [[a st'']|e].
        * destruct IH as [I1 I2]; [intros a' b' Hab; apply Hn; now right|]. split; [|constructor; [split; [exact G|apply Hn; now left]|exact I2]]. rewrite <- app_assoc in I1. exact I1.
        * apply IH. intros a' b' Hab. apply Hn. now right.
      + rewrite (swap_err H F1 G). split; [easy|]. exists (nth j ids 0), (nth (S j) ids 0). split; [apply Hn; now left|exact G].
  Qed.
  (** swaps with fixed chirality *)
  Lemma forced_swaps (needs : nat -> nat -> Prop) ov js : forall ids B evs c st, R ids B evs c st -> Forall (in_range c) js ->
    post needs (for_each js (fun j => swap N (r_sym r) (Z.of_nat j) (Some ov))) st
      (fun _ st' => R (do_swaps ids js) B (evs ++ map (fun p => Cross (fst p) (snd p) ov) (log ids js)) c st').
  Proof.
    induction js as [|j js IH]; intros ids B evs c st H F.
    - cbn [for_each]. apply post_ret. cbn [log map]. now rewrite app_nil_r.
    - inversion F as [|? ? F1 F2]; subst. cbn [for_each log map]. unfold post, bind.
      destruct (swap_ok (over := Some ov) (ov := ov) H F1) as [st' [E H']]; [now left|]. rewrite E.
      specialize (IH _ _ _ _ _ H' F2). unfold post in IH. rewrite do_swaps_cons.
      destruct (for_each js _ st') as [[a st'']|e]; [|exact IH]. rewrite <- app_assoc in IH. exact IH.
  Qed.

  (** move_leg *)
  Definition same_side c i k := (i < c /\ k < c) \/ (c <= i /\ c <= k).
  Lemma post_check needs b st (Q : unit -> engine -> Prop) : b = true -> Q tt st -> post needs (check b) st Q.
  Proof. intros E H. subst b. exact H. Qed.
  Lemma same_side_eqb c i k : same_side c i k -> Bool.eqb (i <? c) (k <? c) = true.
  Proof. intros [[A1 A2]|[A1 A2]]; [rewrite !(proj2 (Nat.ltb_lt _ _)) by lia|rewrite !(proj2 (Nat.ltb_ge _ _)) by lia]; reflexivity. Qed.
  Lemma range_left c (l m : nat) : same_side c (l + m) l -> l + m < N -> Forall (in_range c) (rev (seq l m)).
  Proof. intros Hs HN. apply Forall_forall. intros j Hj. apply in_rev in Hj. apply in_seq in Hj. unfold same_side in Hs. split; lia. Qed.
  Lemma range_right c (l m : nat) : same_side c l (l + m) -> l + m < N -> Forall (in_range c) (seq l m).
  Proof. intros Hs HN. apply Forall_forall. intros j Hj. apply in_seq in Hj. unfold same_side in Hs. split; lia. Qed.

  Lemma move_left_swaps needs ids B evs c st zs zg s g over (Q : unit -> engine -> Prop) : R ids B evs c st -> same_side c s g -> g <= s ->
    to_valid_idx zs N = Some s -> to_valid_idx zg N = Some g ->
    post needs (for_each (rev (seq g (s - g))) (fun j => swap N (r_sym r) (Z.of_nat j) (option_map negb over))) st Q ->
    post needs (move_leg N (r_sym r) zs zg over) st Q.
  Proof.
    intros H Hs Hg E1 E2 HQ. unfold move_leg. rewrite E1, E2. unfold bind at 1, get, post at 1. rewrite (R_nc H). unfold bind, check. rewrite (same_side_eqb Hs).
    cbv beta iota delta [ret]. destruct (Nat.ltb_spec s g); [lia|]. exact HQ.
  Qed.
  Lemma move_right_swaps needs ids B evs c st zs zg s g over (Q : unit -> engine -> Prop) : R ids B evs c st -> same_side c s g -> s <= g ->
    to_valid_idx zs N = Some s -> to_valid_idx zg N = Some g ->
    post needs (for_each (seq s (g - s)) (fun j => swap N (r_sym r) (Z.of_nat j) over)) st Q ->
    post needs (move_leg N (r_sym r) zs zg over) st Q.
  Proof.
    intros H Hs Hg E1 E2 HQ. unfold move_leg. rewrite E1, E2. unfold bind at 1, get, post at 1. rewrite (R_nc H). unfold bind, check. rewrite (same_side_eqb Hs).
    cbv beta iota delta [ret]. destruct (Nat.ltb_spec s g) as [Hlt|Hlt]; [exact HQ|]. assert (s = g) by lia. subst g. rewrite Nat.sub_diag in *. exact HQ.
  Qed.

  Lemma move_left_forced needs ov l m x t B evs c st zs zg : R (l ++ m ++ x :: t) B evs c st -> same_side c (length l + length m) (length l) ->
    to_valid_idx zs N = Some (length l + length m) -> to_valid_idx zg N = Some (length l) ->
    post needs (move_leg N (r_sym r) zs zg (Some ov)) st (fun _ st' => R (l ++ x :: m ++ t) B (evs ++ map (fun y => Cross y x (negb ov)) (rev m)) c st').
  Proof.
    intros H Hs E1 E2. pose proof (R_len H) as L. rewrite !app_length in L. cbn [length] in L. eapply (move_left_swaps H Hs); [lia|exact E1|exact E2|].
    replace (length l + length m - length l) with (length m) by lia. cbn [option_map].
    eapply post_weaken; [apply (@forced_swaps (fun _ _ => False)); [exact H|apply range_left; [exact Hs|lia]]|intros ? ? []|].
    cbv beta. intros _ st' H'. rewrite do_swaps_down', log_down, map_map in H'. exact H'.
  Qed.
  Lemma move_right_forced needs ov l m x t B evs c st zs zg : R (l ++ x :: m ++ t) B evs c st -> same_side c (length l) (length l + length m) ->
    to_valid_idx zs N = Some (length l) -> to_valid_idx zg N = Some (length l + length m) ->
    post needs (move_leg N (r_sym r) zs zg (Some ov)) st (fun _ st' => R (l ++ m ++ x :: t) B (evs ++ map (fun y => Cross x y ov) m) c st').
  Proof.
    intros H Hs E1 E2. pose proof (R_len H) as L. rewrite !app_length in L. cbn [length] in L. rewrite app_length in L. eapply (move_right_swaps H Hs); [lia|exact E1|exact E2|].
    replace (length l + length m - length l) with (length m) by lia.
    eapply post_weaken; [apply (@forced_swaps (fun _ _ => False)); [exact H|apply range_right; [exact Hs|lia]]|intros ? ? []|].
    cbv beta. intros _ st' H'. rewrite do_swaps_up, log_up, map_map in H'. exact H'.
  Qed.
  Lemma move_left_level (needs : nat -> nat -> Prop) l m x t B evs c st zs zg : R (l ++ m ++ x :: t) B evs c st -> same_side c (length l + length m) (length l) ->
    to_valid_idx zs N = Some (length l + length m) -> to_valid_idx zg N = Some (length l) -> (forall y, In y m -> needs y x) ->
    let js := rev (seq (length l) (length m)) in
    post needs (move_leg N (r_sym r) zs zg None) st
      (fun _ st' => R (l ++ x :: m ++ t) B (evs ++ map cross (log (l ++ m ++ x :: t) js)) c st' /\ Forall (gn needs) (log (l ++ m ++ x :: t) js)).
  Proof.
    intros H Hs E1 E2 Hn js. pose proof (R_len H) as L. rewrite !app_length in L. cbn [length] in L. eapply (move_left_swaps H Hs); [lia|exact E1|exact E2|].
    replace (length l + length m - length l) with (length m) by lia. cbn [option_map]. fold js.
    eapply post_weaken; [apply (@level_swaps needs); [exact H|apply range_left; [exact Hs|lia]|]|easy|].
    - intros a b Hab. unfold js in Hab. rewrite log_down in Hab. apply in_map_iff in Hab. destruct Hab as [y [E Hy]]. injection E as <- <-. apply Hn. now apply in_rev.
    - cbv beta. intros _ st' [H1 H2]. unfold js in H1 at 1. rewrite do_swaps_down' in H1. easy.
  Qed.
  Lemma move_right_level (needs : nat -> nat -> Prop) l m x t B evs c st zs zg : R (l ++ x :: m ++ t) B evs c st -> same_side c (length l) (length l + length m) ->
    to_valid_idx zs N = Some (length l) -> to_valid_idx zg N = Some (length l + length m) -> (forall y, In y m -> needs x y) ->
    let js := seq (length l) (length m) in
    post needs (move_leg N (r_sym r) zs zg None) st
      (fun _ st' => R (l ++ m ++ x :: t) B (evs ++ map cross (log (l ++ x :: m ++ t) js)) c st' /\ Forall (gn needs) (log (l ++ x :: m ++ t) js)).
  Proof.
    intros H Hs E1 E2 Hn js. pose proof (R_len H) as L. rewrite !app_length in L. cbn [length] in L. rewrite app_length in L. eapply (move_right_swaps H Hs); [lia|exact E1|exact E2|].
    replace (length l + length m - length l) with (length m) by lia. fold js.
    eapply post_weaken; [apply (@level_swaps needs); [exact H|apply range_right; [exact Hs|lia]|]|easy|].
    - intros a b Hab. unfold js in Hab. rewrite log_up in Hab. apply in_map_iff in Hab. destruct Hab as [y [E Hy]]. injection E as <- <-. now apply Hn.
    - cbv beta. intros _ st' [H1 H2]. unfold js in H1 at 1. rewrite do_swaps_up in H1. easy.
  Qed.

  (** bends *)
  Definition unbend (B : nat -> should) (l : list nat) : nat -> should := fun i => if memb i l then SNone else B i.
  Lemma memb_In i l : memb i l = true <-> In i l.
  Proof.
    unfold memb. rewrite existsb_exists. split.
    - intros [x [H1 H2]]. apply Nat.eqb_eq in H2. now subst.
    - intros H. exists i. split; [exact H|apply Nat.eqb_refl].
  Qed.
  Lemma upd_unbend B l x t : NoDup (l ++ x :: t) -> upd (map B (l ++ x :: t)) (length l) SNone = map (unbend B [x]) (l ++ x :: t).
  Proof.
    intros ND. apply list_eq_nth with (d := SNone); [now rewrite upd_length, !map_length|]. rewrite upd_length, map_length. intros k Hk.
    assert (Em : nth k (map (unbend B [x]) (l ++ x :: t)) SNone = unbend B [x] (nth k (l ++ x :: t) 0)) by (apply nth_map_lt; exact Hk). rewrite Em. clear Em.
    destruct (Nat.eq_dec k (length l)) as [->|D].
    - rewrite nth_upd_eq by (rewrite map_length, app_length; cbn [length]; lia). rewrite nth_middle. unfold unbend. now rewrite (proj2 (memb_In x [x])) by now left.
    - rewrite nth_upd_neq by lia. rewrite nth_map_lt with (d := 0) by exact Hk. unfold unbend. destruct (memb (nth k (l ++ x :: t) 0) [x]) eqn:E; [|reflexivity].
      exfalso. apply memb_In in E. destruct E as [E|[]]. apply D. apply (proj1 (NoDup_nth (l ++ x :: t) 0) ND); [exact Hk|rewrite app_length; cbn [length]; lia|].
      rewrite <- E. now rewrite nth_middle.
  Qed.
  Lemma R_ext ids B B' evs c st : R ids B evs c st -> (forall i, In i ids -> B i = B' i) -> R ids B' evs c st.
  Proof. intros [] E. split; auto. rewrite R_sb0. now apply map_ext_in. Qed.

  Lemma bend_up needs l x t B evs st : NoDup (l ++ x :: t) -> R (l ++ x :: t) B evs (S (length l)) st -> B x <> SNone ->
    post needs (bend N false) st (fun _ st' => R (l ++ x :: t) (unbend B [x]) evs (length l) st').
  Proof.
    intros ND H HB. pose proof (R_len H) as L. rewrite app_length in L. cbn [length] in L.
    unfold post, bend. unfold bind at 1, get. rewrite (R_nc H). cbn [Nat.eqb]. unfold bind, check.
    replace (S (length l) - 1) with (length l) by lia. rewrite (R_sb H). rewrite nth_map_lt with (d := 0) by (rewrite app_length; cbn [length]; lia). rewrite nth_middle.
    assert (Ck : negb (should_eqb (B x) SNone) = true) by (destruct (B x); [congruence|reflexivity|reflexivity]). rewrite Ck. cbv beta iota delta [ret]. unfold put.
    split; cbn [num_codomain_legs num_domain_legs target_positions should_bend levels instructions].
    - reflexivity.
    - lia.
    - rewrite (R_nd H). lia.
    - exact (R_len H).
    - exact (R_tp H).
    - now apply upd_unbend.
    - exact (R_lv H).
    - rewrite <- (app_nil_r evs). eapply exec_snoc; [exact (R_ex H)|]. cbn [exec1].
      rewrite firstn_app, (firstn_all2 (n := S (length l)) l) by lia. replace (S (length l) - length l) with 1 by lia. cbn [firstn].
      rewrite rev_app_distr. cbn [rev app]. rewrite rev_involutive.
      rewrite firstn_app, firstn_all, Nat.sub_diag. cbn [firstn]. rewrite app_nil_r.
      rewrite !skipn_app, (skipn_all2 (n := S (length l)) l), skipn_all, Nat.sub_diag by lia. replace (S (length l) - length l) with 1 by lia. reflexivity.
  Qed.
  Lemma bend_down needs l x t B evs st : NoDup (l ++ x :: t) -> R (l ++ x :: t) B evs (length l) st -> B x <> SNone ->
    post needs (bend N true) st (fun _ st' => R (l ++ x :: t) (unbend B [x]) evs (S (length l)) st').
  Proof.
    intros ND H HB. pose proof (R_len H) as L. rewrite app_length in L. cbn [length] in L.
    unfold post, bend. unfold bind at 1, get. rewrite (R_nc H). destruct (Nat.leb_spec N (length l)); [lia|]. unfold bind, check.
    rewrite (R_sb H). rewrite nth_map_lt with (d := 0) by (rewrite app_length; cbn [length]; lia). rewrite nth_middle.
    assert (Ck : negb (should_eqb (B x) SNone) = true) by (destruct (B x); [congruence|reflexivity|reflexivity]). rewrite Ck. cbv beta iota delta [ret]. unfold put.
    split; cbn [num_codomain_legs num_domain_legs target_positions should_bend levels instructions].
    - lia.
    - lia.
    - rewrite (R_nd H). lia.
    - exact (R_len H).
    - exact (R_tp H).
    - now apply upd_unbend.
    - exact (R_lv H).
    - rewrite <- (app_nil_r evs). eapply exec_snoc; [exact (R_ex H)|]. cbn [exec1].
      rewrite !firstn_app, (firstn_all2 (n := S (length l)) l), firstn_all, Nat.sub_diag by lia. replace (S (length l) - length l) with 1 by lia. cbn [firstn]. rewrite app_nil_r.
      rewrite !skipn_app, (skipn_all2 (n := S (length l)) l), skipn_all, Nat.sub_diag by lia. replace (S (length l) - length l) with 1 by lia. cbn [skipn app].
      rewrite rev_involutive. reflexivity.
  Qed.
  Lemma emit_twist needs (cd : bool) k ids B evs c st ov : R ids B evs c st -> 0 < k -> k <= (if cd then c else N - c) ->
    post needs (emit (Twist cd (seq 0 k) ov)) st
      (fun _ st' => R ids B (evs ++ [Turn (if cd then firstn k ids else firstn k (rev ids)) ov]) c st').
  Proof.
    intros H Hk Hle. pose proof (R_len H) as L. pose proof (R_le H) as Lc.
    unfold post, emit, bind, get, put. split; cbn [num_codomain_legs num_domain_legs target_positions should_bend levels instructions]; try apply H.
    eapply exec_snoc; [exact (R_ex H)|]. cbn [exec1]. destruct k as [|k]; [lia|].
    set (legs := if cd then firstn c ids else rev (skipn c ids)). change (seq 0 (S k)) with (0 :: seq 1 k). cbv iota. change (0 :: seq 1 k) with (seq 0 (S k)).
    assert (Ll : S k <= length legs). { unfold legs. destruct cd; [rewrite firstn_length|rewrite rev_length, skipn_length]; lia. }
    rewrite (proj2 (forallb_forall _ _)). 2:{ intros i Hi. apply in_seq in Hi. apply Nat.ltb_lt. lia. }
    replace (map (fun k0 => nth k0 legs 0) (seq 0 (S k))) with (if cd then firstn (S k) ids else firstn (S k) (rev ids)); [reflexivity|].
    apply list_eq_nth with (d := 0); [destruct cd; rewrite firstn_length, ?rev_length, map_length, seq_length; lia|].
    intros i Hi. assert (Hi' : i < S k) by (destruct cd; rewrite firstn_length in Hi; lia). rewrite nth_map_lt with (d := 0) by (rewrite seq_length; exact Hi'). rewrite seq_nth by exact Hi'. cbn [plus].
    unfold legs. destruct cd; rewrite nth_firstn_lt by lia; [now rewrite nth_firstn_lt by lia|].
    rewrite !rev_nth by (rewrite ?skipn_length; lia). rewrite nth_skipn', skipn_length. f_equal. lia.
  Qed.
End Run.
