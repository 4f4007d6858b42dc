(** C22, part 4: the five steps (continued). *)
From Coq Require Import ZArith List Bool Lia Permutation Sorted.
From Verif Require Import Util StableSort RowModel RowProofs GridModel GridProofs PermLegsModel PermLegsSpec PermLegsProofs PermLegsProofs2 PermLegsProofs3 TensorProofs6.
Import ListNotations.
Set Implicit Arguments. Unset Strict Implicit.
Open Scope nat_scope.

Definition turn (legs : list nat) (ov : bool) : list event := match legs with [] => [] | _ => [Turn legs ov] end.

Section Steps.
  Variable r : request.
  Variable tp0 : nat -> option nat.
  Notation N := (r_nc r + r_nd r).
  Notation R := (R r tp0).
  Notation post := (post r).
  Notation moved := (moved r tp0).

  Lemma step2 needs Ls Mm Rs dom B evs st : NoDup (Ls ++ Mm ++ Rs ++ dom) -> R (Ls ++ Mm ++ Rs ++ dom) B evs (length Ls + length Mm + length Rs) st ->
    (forall x, In x (Ls ++ Rs) -> B x <> SNone) ->
    post needs (do_codomain_bends N (r_sym r) (length Ls) (length Rs)) st
      (fun _ st' => R (Mm ++ Rs ++ dom ++ Ls) (unbend B (Rs ++ Ls)) (evs ++ turn Ls true ++ over_right Ls (Mm ++ Rs ++ dom)) (length Mm) st').
  Proof.
    intros ND H HB. unfold do_codomain_bends. eapply post_bind.
    - eapply (@bends_up r tp0 needs (Ls ++ Mm) evs (length Rs) Rs dom B 0 st); [rewrite <- app_assoc; exact ND| |reflexivity|].
      + rewrite <- app_assoc, app_length. exact H.
      + intros x Hx. apply HB. apply in_or_app. now right.
    - cbv beta. intros _ st1 H1. rewrite <- app_assoc, app_length in H1.
      assert (HB1 : forall x, In x Ls -> unbend B Rs x <> SNone).
      { intros x Hx. unfold unbend. destruct (memb x Rs) eqn:E; [|apply HB; apply in_or_app; now left]. exfalso. apply memb_In in E.
        clear - ND Hx E. induction Ls as [|y l IH]; [easy|]. cbn [app] in ND. inversion ND as [|? ? N1 N2]; subst. destruct Hx as [->|Hx]; [|now apply IH].
        apply N1. apply in_or_app. right. apply in_or_app. right. apply in_or_app. now left. }
      eapply post_bind with (Q := fun _ st' => R (Ls ++ Mm ++ Rs ++ dom) (unbend B Rs) (evs ++ turn Ls true) (length Ls + length Mm) st').
      + destruct Ls as [|x Ls']; [cbn [length]; cbn [Nat.ltb Nat.leb turn]; apply post_ret; rewrite app_nil_r; exact H1|].
        cbn [length Nat.ltb Nat.leb turn]. eapply post_weaken; [eapply (@emit_twist r tp0 needs true (S (length Ls')) _ _ _ _ _ true H1)|easy|].
        * lia.
        * cbn [length]. lia.
        * cbv beta iota. intros _ s HR. change (S (length Ls')) with (length (x :: Ls')) in HR. rewrite firstn_app, firstn_all, Nat.sub_diag in HR. cbn [firstn] in HR. rewrite app_nil_r in HR. exact HR.
      + cbv beta. intros _ st2 H2. eapply post_weaken; [eapply (@left_up r tp0 needs (length Ls) Mm (Rs ++ dom) (length Ls) Ls [] (unbend B Rs) _ st2 eq_refl)|easy|].
        * cbn [length]. lia.
        * rewrite app_nil_r. exact ND.
        * rewrite app_nil_r. exact H2.
        * exact HB1.
        * cbv beta. intros _ s HR. rewrite app_nil_r in HR. rewrite <- !app_assoc in HR. eapply R_ext; [exact HR|]. intros i _. apply unbend_app.
  Qed.

  Lemma step4 needs Ls Mm Rs dom B evs st : NoDup (Mm ++ Rs ++ dom ++ Ls) -> R (Mm ++ Rs ++ dom ++ Ls) B evs (length Mm) st ->
    (forall x, In x (Ls ++ Rs) -> B x <> SNone) ->
    post needs (do_domain_bends N (r_sym r) (length Ls) (length Rs)) st
      (fun _ st' => R (Ls ++ Mm ++ Rs ++ dom) (unbend B (Rs ++ Ls)) (evs ++ turn (rev Ls) false ++ over_left Ls (Mm ++ Rs ++ dom)) (length Ls + length Mm + length Rs) st').
  Proof.
    intros ND H HB. unfold do_domain_bends. eapply post_bind.
    - eapply (@bends_down r tp0 needs evs (length Rs) Mm Rs (dom ++ Ls) B 0 st); [exact ND|exact H|reflexivity|].
      intros x Hx. apply HB. apply in_or_app. now right.
    - cbv beta. intros _ st1 H1. pose proof (R_len H) as LN. rewrite !app_length in LN.
      assert (HB1 : forall x, In x Ls -> unbend B Rs x <> SNone).
      { intros x Hx. unfold unbend. destruct (memb x Rs) eqn:E; [|apply HB; apply in_or_app; now left]. exfalso. apply memb_In in E.
        apply NoDup_app_r' in ND. clear - ND Hx E. induction Rs as [|y l IH]; [easy|]. cbn [app] in ND. inversion ND as [|? ? N1 N2]; subst. destruct E as [->|E]; [|now apply IH].
        apply N1. apply in_or_app. right. apply in_or_app. now right. }
      eapply post_bind with (Q := fun _ st' => R (Mm ++ Rs ++ dom ++ Ls) (unbend B Rs) (evs ++ turn (rev Ls) false) (length Mm + length Rs) st').
      + destruct Ls as [|x Ls']; [cbn [length]; cbn [Nat.ltb Nat.leb turn rev]; apply post_ret; rewrite (app_nil_r evs); exact H1|].
        assert (Et : turn (rev (x :: Ls')) false = [Turn (rev (x :: Ls')) false]). { cbn [rev]. destruct (rev Ls' ++ [x]) eqn:E; [destruct (rev Ls'); discriminate|reflexivity]. }
        rewrite Et. cbn [length] in LN |- *. cbn [Nat.ltb Nat.leb]. eapply post_weaken; [eapply (@emit_twist r tp0 needs false (S (length Ls')) _ _ _ _ _ false H1)|easy|].
        * lia.
        * lia.
        * cbv beta iota. intros _ s HR. replace (firstn (S (length Ls')) (rev (Mm ++ Rs ++ dom ++ x :: Ls'))) with (rev (x :: Ls')) in HR; [exact HR|].
          rewrite !app_assoc. rewrite rev_app_distr. change (S (length Ls')) with (length (x :: Ls')). rewrite <- (rev_length (x :: Ls')).
          rewrite firstn_app, firstn_all, Nat.sub_diag. cbn [firstn]. now rewrite app_nil_r.
      + cbv beta. intros _ st2 H2. eapply post_weaken; [eapply (@left_down r tp0 needs (length Ls) (Mm ++ Rs) dom (length Ls) Ls [] (unbend B Rs) _ st2 eq_refl)|easy|].
        * cbn [length]. lia.
        * cbn [app]. rewrite <- app_assoc. exact ND.
        * cbn [app length plus]. rewrite <- app_assoc, app_length. exact H2.
        * exact HB1.
        * cbv beta. intros _ s HR. cbn [app length plus] in HR. rewrite <- !app_assoc in HR. rewrite app_length in HR. rewrite Nat.add_assoc in HR. eapply R_ext; [exact HR|]. intros i _. apply unbend_app.
  Qed.

  Lemma filter_map A B (f : A -> B) g l : filter g (map f l) = map f (filter (fun x => g (f x)) l).
  Proof. induction l as [|x l IH]; [reflexivity|]. cbn [map filter]. rewrite IH. destruct (g (f x)); reflexivity. Qed.
  Definition tlt (a b : nat) : Prop := match tp0 a, tp0 b with Some x, Some y => x < y | _, _ => False end.
  Lemma tlt_trans a b c : tlt a b -> tlt b c -> tlt a c.
  Proof. unfold tlt. destruct (tp0 a), (tp0 b), (tp0 c); try easy. lia. Qed.
  Lemma tlt_irrefl a : ~ tlt a a.
  Proof. unfold tlt. destruct (tp0 a); [lia|easy]. Qed.

  Lemma step3 (needs : nat -> nat -> Prop) Mm X S B evs st : NoDup (Mm ++ X) -> R (Mm ++ X) B evs (length Mm) st ->
    (forall x, In x Mm -> B x = SNone) -> Permutation S (filter (isn B) X) -> StronglySorted tlt S -> (forall x, In x S -> tp0 x <> None) ->
    let l2 := Mm ++ filter (isr B) X ++ S ++ filter (isl B) X in
    (forall a b, inverted (Mm ++ X) l2 a b -> needs a b) ->
    post needs (do_domain_permutation N (r_sym r)) st
      (fun lr st' => lr = (length (filter (isl B) X), length (filter (isr B) X)) /\ moved needs (Mm ++ X) l2 B evs (length Mm) st').
  Proof.
    intros ND H HM PS SS TS l2 Hn. pose proof (R_len H) as L. pose proof (R_le H) as Lc.
    unfold do_domain_permutation. eapply post_bind; [apply post_get with (Q := fun s s' => s = st /\ s' = st); easy|]. intros s s' [-> ->].
    rewrite (R_nc H). set (ids := Mm ++ X) in *. set (f := fun i => nth i ids 0). set (c := length Mm) in *.
    assert (Lx : length X = N - c) by (unfold ids in L; rewrite app_length in L; unfold c; lia).
    assert (Fall : map f (seq 0 N) = ids) by (rewrite <- L; apply take_seq).
    assert (Fx : map f (seq c (N - c)) = X).
    { unfold f, ids. rewrite <- Lx. apply list_eq_nth with (d := 0); [now rewrite map_length, seq_length|]. rewrite map_length, seq_length. intros k Hk.
      rewrite nth_map_lt with (d := 0) by (rewrite seq_length; exact Hk). rewrite seq_nth by exact Hk. rewrite app_nth2 by (unfold c; lia). f_equal. unfold c. lia. }
    assert (Fm : map f (seq 0 c) = Mm).
    { unfold f, ids, c. apply list_eq_nth with (d := 0); [now rewrite map_length, seq_length|]. rewrite map_length, seq_length. intros k Hk.
      rewrite nth_map_lt with (d := 0) by (rewrite seq_length; exact Hk). rewrite seq_nth by exact Hk. cbn [plus]. now rewrite app_nth1 by exact Hk. }
    assert (Fil : forall s0, map f (filter (fun i => should_eqb (nth i (should_bend st) SNone) s0) (seq 0 N)) = filter (fun x => should_eqb (B x) s0) ids).
    { intros s0. rewrite <- (f_equal (filter (fun x => should_eqb (B x) s0)) Fall). rewrite filter_map. f_equal. apply filter_ext_in. intros i Hi. apply in_seq in Hi. rewrite (R_bend H) by lia. reflexivity. }
    assert (FilX : forall s0, map f (filter (fun i => should_eqb (nth i (should_bend st) SNone) s0) (seq c (N - c))) = filter (fun x => should_eqb (B x) s0) X).
    { intros s0. rewrite <- (f_equal (filter (fun x => should_eqb (B x) s0)) Fx). rewrite filter_map. f_equal. apply filter_ext_in. intros i Hi. apply in_seq in Hi. rewrite (R_bend H) by lia. reflexivity. }
    assert (FR : filter (isr B) ids = filter (isr B) X).
    { unfold ids. rewrite filter_app. rewrite filter_none; [reflexivity|]. intros x Hx. unfold isr. now rewrite HM. }
    assert (FL : filter (isl B) ids = filter (isl B) X).
    { unfold ids. rewrite filter_app. rewrite filter_none; [reflexivity|]. intros x Hx. unfold isl. now rewrite HM. }
    pose proof (Fil SRight) as MR. pose proof (Fil SLeft) as ML. pose proof (FilX SNone) as MN. fold (isr B) in MR. fold (isl B) in ML. fold (isn B) in MN.
    set (right := filter (fun i => should_eqb (nth i (should_bend st) SNone) SRight) (seq 0 N)) in *.
    set (left := filter (fun i => should_eqb (nth i (should_bend st) SNone) SLeft) (seq 0 N)) in *.
    set (remain := filter (fun i => should_eqb (nth i (should_bend st) SNone) SNone) (seq c (N - c))) in *.
    rewrite FR in MR. rewrite FL in ML.
    assert (BR : forall i, In i remain -> i < N). { intros i Hi. apply filter_In in Hi. destruct Hi as [Hi _]. apply in_seq in Hi. lia. }
    assert (KEY : forall i, i < N -> nth i (target_positions st) None = tp0 (f i)).
    { intros i Hi. rewrite (R_tp H). unfold f. rewrite nth_map_lt with (d := 0) by lia. reflexivity. }
    assert (TR : forall i, In i remain -> tp0 (f i) <> None).
    { intros i Hi. apply TS. apply (Permutation_in _ (Permutation_sym PS)). rewrite <- MN. now apply in_map. }
    set (lt := fun a b => match nth (nth a remain 0) (target_positions st) None, nth (nth b remain 0) (target_positions st) None with Some x, Some y => x <? y | _, _ => false end).
    rewrite (proj2 (forallb_forall _ _)).
    2:{ intros i Hi. rewrite KEY by now apply BR. specialize (TR i Hi). now destruct (tp0 (f i)). }
    cbn [negb]. set (order := stable_sort lt (seq 0 (length remain))).
    (* the sorted part *)
    set (g := fun n => f (nth n remain 0)).
    assert (GN : map g (seq 0 (length remain)) = filter (isn B) X).
    { rewrite <- MN. unfold g. rewrite <- (map_map (fun n => nth n remain 0) f). f_equal. apply take_seq. }
    assert (LT : forall a b, a < length remain -> b < length remain -> lt a b = true <-> tlt (g a) (g b)).
    { intros a b Ha Hb. unfold lt, tlt, g. rewrite !KEY by (apply BR; apply nth_In; assumption). 
      destruct (tp0 (f (nth a remain 0))), (tp0 (f (nth b remain 0))); try (split; easy). apply Nat.ltb_lt. }
    assert (LTc : forall a b, a < length remain -> b < length remain -> g a <> g b -> lt a b = false -> lt b a = true).
    { intros a b Ha Hb D. unfold lt. pose proof (TR _ (nth_In remain 0 Ha)) as T1. pose proof (TR _ (nth_In remain 0 Hb)) as T2.
      rewrite !KEY by (apply BR; apply nth_In; assumption). fold (g a) (g b). fold (g a) in T1. fold (g b) in T2.
      assert (Ia : In (g a) S). { apply (Permutation_in _ (Permutation_sym PS)). rewrite <- GN. apply in_map. apply in_seq. lia. }
      assert (Ib : In (g b) S). { apply (Permutation_in _ (Permutation_sym PS)). rewrite <- GN. apply in_map. apply in_seq. lia. }
      destruct (before_total Ia Ib D) as [T|T]; apply (before_sorted SS) in T; unfold tlt in T; destruct (tp0 (g a)), (tp0 (g b)); try easy.
      - rewrite Nat.ltb_ge. intros HH. lia.
      - intros _. now apply Nat.ltb_lt. }
    assert (PO : Permutation order (seq 0 (length remain))) by apply stable_sort_perm.
    assert (OB : forall a, In a order -> a < length remain). { intros a Ha. apply (Permutation_in _ PO) in Ha. apply in_seq in Ha. lia. }
    assert (ES : map g order = S).
    { assert (NDg : NoDup (map g (seq 0 (length remain)))).
      { rewrite GN. apply NoDup_filter. unfold ids in ND. now apply NoDup_app_r' in ND. }
      assert (INJ : forall a b, a < length remain -> b < length remain -> g a = g b -> a = b).
      { intros a b Ha Hb E. apply (proj1 (NoDup_nth _ 0) NDg); rewrite ?map_length, ?seq_length; try assumption.
        rewrite !nth_map_lt with (d := 0) by (rewrite seq_length; assumption). now rewrite !seq_nth by assumption. }
      apply (@StronglySorted_unique _ tlt).
      - apply tlt_irrefl.
      - apply tlt_trans.
      - apply StronglySorted_map.
        assert (SO : StronglySorted (stab_lt lt Nat.lt) order).
        { apply (@stable_sort_sorted nat lt (fun a => a < length remain)).
          - intros x y z Hx Hy Hz. rewrite (LT x y), (LT y z), (LT x z) by assumption. apply tlt_trans.
          - intros x y z Hx Hy Hz T. destruct (lt x y) eqn:E1; [now left|]. right. destruct (Nat.eq_dec x y) as [->|D]; [exact T|].
            assert (E2 : lt y x = true) by (apply LTc; auto). apply (LT y z Hy Hz). apply (LT y x Hy Hx) in E2. apply (LT x z Hx Hz) in T. eapply tlt_trans; eauto.
          - apply Forall_forall. intros a Ha. apply in_seq in Ha. lia.
          - apply seq_sorted. }
        apply (proj2 (StronglySorted_nth _ 0 order)). pose proof (proj1 (StronglySorted_nth _ 0 order) SO) as SO'. clear SO. rename SO' into SO. intros i j Hij. specialize (SO i j Hij).
        assert (Hi : nth i order 0 < length remain) by (apply OB, nth_In; lia). assert (Hj : nth j order 0 < length remain) by (apply OB, nth_In; lia).
        apply (LT _ _ Hi Hj). destruct SO as [SO|[SO1 SO2]]; [exact SO|]. apply LTc; [exact Hj|exact Hi| |exact SO1].
        intros E. apply INJ in E; [|exact Hj|exact Hi]. lia.
      - exact SS.
      - assert (PP : Permutation (map g order) S) by (rewrite PS, <- GN; now apply Permutation_map).
        intros x. split; apply Permutation_in; [exact PP|now symmetry]. }
    set (perm := seq 0 c ++ right ++ map (fun n => nth n remain 0) order ++ left).
    assert (MP : map f perm = l2).
    { unfold perm, l2. rewrite !map_app, Fm, MR, ML, map_map. fold g. now rewrite ES. }
    assert (P2 : Permutation l2 ids).
    { unfold l2, ids. apply Permutation_app_head. rewrite PS.
      clear. induction X as [|x l IH]; [reflexivity|]. cbn [filter]. unfold isr, isn, isl in *. destruct (B x); cbn [should_eqb].
      - cbn [app]. rewrite <- Permutation_middle. now constructor.
      - rewrite app_assoc. rewrite <- Permutation_middle. rewrite <- app_assoc. now constructor.
      - cbn [app]. now constructor. }
    assert (HP : is_perm N perm).
    { apply is_perm_intro.
      - rewrite <- (map_length f), MP, (Permutation_length P2). exact L.
      - apply (NoDup_map_inv f). rewrite MP. apply (Permutation_NoDup (Permutation_sym P2)). exact ND.
      - apply Forall_forall. intros i Hi. unfold perm in Hi. rewrite !in_app_iff in Hi. destruct Hi as [Hi|[Hi|[Hi|Hi]]].
        + apply in_seq in Hi. lia.
        + apply filter_In in Hi. destruct Hi as [Hi _]. apply in_seq in Hi. lia.
        + apply in_map_iff in Hi. destruct Hi as [n [<- Hi]]. apply BR, nth_In, OB, Hi.
        + apply filter_In in Hi. destruct Hi as [Hi _]. apply in_seq in Hi. lia. }
    destruct (as_swaps_exists HP) as [js Ejs]. rewrite Ejs.
    assert (Fix : forall k, k < c -> nth k perm 0 = k). { intros k Hk. unfold perm. rewrite app_nth1 by (rewrite seq_length; exact Hk). now rewrite seq_nth. }
    pose proof (as_swaps HP Ejs Fix) as FJ.
    assert (RJ : Forall (in_range r c) js) by (revert FJ; apply Forall_impl; intros j Hj; split; lia).
    assert (HP' : is_perm (length ids) perm) by now rewrite L.
    assert (DS : do_swaps ids js = l2) by (rewrite (permutation_as_swaps_correct 0 HP' Ejs); exact MP).
    eapply post_bind; [eapply (level_swaps (needs := needs) H RJ)|].
    - intros a b Hab. apply Hn. apply (as_swaps_log HP' Ejs) in Hab. now rewrite DS in Hab.
    - cbv beta. intros _ st' [H' G]. apply post_ret. split.
      + f_equal; [rewrite <- ML|rewrite <- MR]; now rewrite map_length.
      + exists js. split; [exact RJ|]. split; [exact DS|]. rewrite <- DS. easy.
  Qed.

  Lemma step5 (needs : nat -> nat -> Prop) cod cod' dom B evs st : R (cod ++ dom) B evs (length cod) st -> Permutation cod cod' ->
    (forall k, k < length cod' -> tp0 (nth k cod' 0) = Some k) -> (forall a b, inverted (cod ++ dom) (cod' ++ dom) a b -> needs a b) ->
    post needs (do_final_codomain_permutation N (r_sym r)) st (fun _ st' => moved needs (cod ++ dom) (cod' ++ dom) B evs (length cod) st').
  Proof.
    intros H P T Hn. pose proof (R_len H) as L. rewrite app_length in L. pose proof (Permutation_length P) as LP.
    unfold do_final_codomain_permutation. eapply post_bind; [apply post_get with (Q := fun s s' => s = st /\ s' = st); easy|]. intros s s' [-> ->].
    rewrite (R_nc H). set (c := length cod) in *.
    assert (EK : map (fun j => nth j (target_positions st) None) (seq 0 c) = map tp0 cod).
    { apply list_eq_nth with (d := None); [now rewrite !map_length, seq_length|]. rewrite map_length, seq_length. intros k Hk.
      rewrite nth_map_lt with (d := 0) by (rewrite seq_length; exact Hk). rewrite seq_nth by exact Hk. cbn [plus]. rewrite (R_tp H).
      rewrite !nth_map_lt with (d := 0) by (rewrite ?app_length; unfold c in Hk; lia). now rewrite app_nth1 by exact Hk. }
    rewrite EK.
    assert (TC : forall x, In x cod -> exists k, k < c /\ tp0 x = Some k /\ nth k cod' 0 = x).
    { intros x Hx. apply (Permutation_in _ P) in Hx. apply (In_nth _ _ 0) in Hx. destruct Hx as [k [Hk <-]]. exists k. split; [unfold c; lia|]. split; [now apply T|reflexivity]. }
    rewrite (proj2 (forallb_forall _ _)).
    2:{ intros k Hk. apply in_map_iff in Hk. destruct Hk as [x [<- Hx]]. destruct (TC x Hx) as [k [Hk [-> _]]]. now apply Nat.ltb_lt. }
    cbn [negb]. rewrite map_map. set (t := fun x => match tp0 x with Some k => k | None => 0 end).
    assert (Tt : forall x, In x cod -> t x < c /\ nth (t x) cod' 0 = x). { intros x Hx. unfold t. destruct (TC x Hx) as [k [Hk [-> E]]]. easy. }
    assert (HT : is_perm c (map t cod)).
    { unfold is_perm. transitivity (map t cod'); [now apply Permutation_map|]. replace (map t cod') with (seq 0 c); [reflexivity|].
      apply list_eq_nth with (d := 0); [now rewrite map_length, seq_length|]. rewrite seq_length. intros k Hk. rewrite seq_nth by exact Hk.
      rewrite nth_map_lt with (d := 0) by lia. unfold t. rewrite T by lia. reflexivity. }
    pose proof (inverse_permutation_perm HT) as HI. destruct (as_swaps_exists HI) as [js Ejs]. rewrite Ejs.
    assert (FJ : Forall (fun j => S j < c) js). { apply (Forall_impl _ (P := fun j => 0 <= j /\ S j < c)); [intros; lia|]. apply (as_swaps HI Ejs). lia. }
    assert (RJ : Forall (in_range r c) js) by (revert FJ; apply Forall_impl; intros j Hj; split; lia).
    assert (DS : do_swaps cod js = cod').
    { rewrite (permutation_as_swaps_correct 0 (orig := cod) HI Ejs). apply list_eq_nth with (d := 0); [rewrite take_length, inverse_permutation_length, map_length; exact LP|].
      rewrite take_length, inverse_permutation_length, map_length. intros k Hk. fold c in Hk. rewrite nth_take by (rewrite inverse_permutation_length, map_length; exact Hk).
      pose proof (inverse_permutation_r HT Hk) as E. set (i := nth k (inverse_permutation (map t cod)) 0) in *.
      assert (Hi : i < c) by (apply is_perm_nth_lt; auto). rewrite nth_map_lt with (d := 0) in E by exact Hi.
      destruct (Tt (nth i cod 0)) as [_ E2]; [now apply nth_In|]. rewrite E in E2. now symmetry. }
    eapply post_weaken; [eapply (level_swaps (needs := needs) H RJ)|easy|].
    - intros a b Hab. apply Hn. rewrite log_app_l in Hab by exact FJ. apply (as_swaps_log (l := cod) HI Ejs) in Hab. rewrite DS in Hab. destruct Hab. split; now apply before_app_l.
    - cbv beta. intros _ st' [H' G]. exists js. split; [exact RJ|]. rewrite do_swaps_app_l in H' |- * by exact FJ. rewrite DS in H' |- *. easy.
  Qed.
End Steps.
