(** C22, part 3: the five steps. *)
From Coq Require Import ZArith List Bool Lia Permutation Sorted.
From Verif Require Import Util StableSort RowModel RowProofs GridModel GridProofs PermLegsModel PermLegsSpec PermLegsProofs PermLegsProofs2 TensorProofs6.
Import ListNotations.
Set Implicit Arguments. Unset Strict Implicit.
Open Scope nat_scope.

Lemma should_eqb_eq a b : should_eqb a b = true <-> a = b.
Proof. destruct a, b; cbn; split; congruence. Qed.

Section Stages.
  Variable r : request.
  Variable tp0 : nat -> option nat.
  Notation N := (r_nc r + r_nd r).
  Notation R := (R r tp0).
  Notation post := (post r).
  Notation cross := (cross r).
  Notation in_range := (in_range r).

  (** result of a sequence of level swaps *)
  Definition moved (needs : nat -> nat -> Prop) (ids ids' : list nat) B evs c st' : Prop :=
    exists js, Forall (in_range c) js /\ do_swaps ids js = ids' /\ R ids' B (evs ++ map cross (log ids js)) c st' /\ Forall (gn r needs) (log ids js).
  Lemma moved_trans needs ids ids' js B evs c st' : Forall (in_range c) js -> Forall (gn r needs) (log ids js) ->
    moved needs (do_swaps ids js) ids' B (evs ++ map cross (log ids js)) c st' -> moved needs ids ids' B evs c st'.
  Proof.
    intros F G [js' [F' [E [H G']]]]. exists (js ++ js'). split; [apply Forall_app; easy|]. rewrite do_swaps_app, log_app. split; [exact E|].
    rewrite map_app, app_assoc. split; [exact H|]. apply Forall_app. easy.
  Qed.
  Lemma moved_refl needs ids B evs c st : R ids B evs c st -> moved needs ids ids B evs c st.
  Proof. intros H. exists []. split; [constructor|]. split; [reflexivity|]. cbn [log map]. rewrite app_nil_r. split; [exact H|constructor]. Qed.

  Definition isl (B : nat -> should) x := should_eqb (B x) SLeft.
  Definition isr (B : nat -> should) x := should_eqb (B x) SRight.
  Lemma R_bend ids B evs c st k : R ids B evs c st -> k < N -> nth k (should_bend st) SNone = B (nth k ids 0).
  Proof. intros H Hk. rewrite (R_sb H). apply nth_map_lt. now rewrite (R_len H). Qed.

  Lemma gather_left_spec (needs : nat -> nat -> Prop) dom B c : forall rest Ls Ms evs st, R (Ls ++ Ms ++ rest ++ dom) B evs c st -> c = length Ls + length Ms + length rest ->
    (forall y, In y Ms -> isl B y = false) -> (forall y x, before (Ms ++ rest) y x -> isl B y = false -> isl B x = true -> needs y x) ->
    post needs (gather_left N (r_sym r) (seq (length Ls + length Ms) (length rest)) (length Ls)) st
      (fun n st' => n = length Ls + length (filter (isl B) rest) /\
        moved needs (Ls ++ Ms ++ rest ++ dom) (Ls ++ filter (isl B) rest ++ Ms ++ filter (fun x => negb (isl B x)) rest ++ dom) B evs c st').
  Proof.
    induction rest as [|x rest IH]; intros Ls Ms evs st H Hc HM Hn.
    - cbn [length seq gather_left filter app]. apply post_ret. split; [lia|]. now apply moved_refl.
    - pose proof (R_len H) as L. rewrite !app_length in L. cbn [length] in L.
      cbn [length seq gather_left]. eapply post_bind; [apply post_get with (Q := fun s s' => s = st /\ s' = st); easy|]. intros s s' [-> ->].
      rewrite (R_bend H) by lia.
      assert (Ex : nth (length Ls + length Ms) (Ls ++ Ms ++ (x :: rest) ++ dom) 0 = x) by (rewrite app_assoc, <- app_length; apply nth_middle). rewrite Ex.
      fold (isl B x). cbn [filter]. destruct (isl B x) eqn:Eb; cbn [negb].
      + eapply post_bind.
        * cbn [app] in H. eapply (move_left_level (needs := needs) H).
          -- left. cbn [length] in Hc. lia.
          -- apply to_valid_nat. lia.
          -- apply to_valid_nat. lia.
          -- intros y Hy. apply Hn; [|now apply HM|exact Eb]. apply before_app_lr; [exact Hy|now left].
        * cbv beta zeta. intros _ st' [H1 G1]. match type of H1 with PermLegsProofs2.R _ _ _ _ ?e _ _ => specialize (IH (Ls ++ [x]) Ms e st') end.
          rewrite <- !app_assoc in IH. cbn [app] in IH. specialize (IH H1). rewrite app_length in IH. cbn [length] in IH, Hc.
          replace (length Ls + 1 + length Ms) with (S (length Ls + length Ms)) in IH by lia.
          eapply post_weaken; [apply IH|easy|].
          -- lia.
          -- exact HM.
          -- intros y z Hb. apply Hn. apply before_inv in Hb. destruct Hb as [Hb|[[Hb1 Hb2]|Hb]];
               [now apply before_app_l|apply before_app_lr; [easy|now right]|apply before_app_r; now apply before_cons].
          -- cbv beta. intros n s [E1 HM1]. split; [rewrite E1; cbn [length]; lia|]. cbn [app].
             eapply moved_trans; [| exact G1 |].
             ++ apply range_left; [left; lia|lia].
             ++ rewrite do_swaps_down'. exact HM1.
      + specialize (IH Ls (Ms ++ [x]) evs st). rewrite <- !app_assoc in IH. cbn [app] in IH. specialize (IH H). rewrite app_length in IH. cbn [length] in IH, Hc.
        replace (length Ls + (length Ms + 1)) with (S (length Ls + length Ms)) in IH by lia.
        eapply post_weaken; [apply IH|easy|].
        * lia.
        * intros y Hy. apply in_app_or in Hy. destruct Hy as [Hy|[<-|[]]]; [now apply HM|exact Eb].
        * intros y z Hb. now apply Hn.
        * cbv beta. intros n s [E1 HM1]. split; [exact E1|]. exact HM1.
  Qed.

  Lemma gather_right_spec (needs : nat -> nat -> Prop) dom B c : forall rest Ms Rs evs st, R (rest ++ Ms ++ Rs ++ dom) B evs c st -> c = length rest + length Ms + length Rs ->
    (forall y, In y Ms -> isr B y = false) -> (forall x y, before (rest ++ Ms) x y -> isr B x = true -> isr B y = false -> needs x y) ->
    post needs (gather_right N (r_sym r) (rev (seq 0 (length rest))) (length Rs)) st
      (fun n st' => n = length Rs + length (filter (isr B) rest) /\
        moved needs (rest ++ Ms ++ Rs ++ dom) (filter (fun x => negb (isr B x)) rest ++ Ms ++ filter (isr B) rest ++ Rs ++ dom) B evs c st').
  Proof.
    induction rest as [|x rest IH] using rev_ind; intros Ms Rs evs st H Hc HM Hn.
    - cbn [length seq rev gather_right filter app]. apply post_ret. split; [lia|]. now apply moved_refl.
    - pose proof (R_len H) as L. rewrite !app_length in L. cbn [length] in L. rewrite app_length in Hc. cbn [length] in Hc.
      rewrite app_length. cbn [length]. rewrite Nat.add_1_r, seq_S, rev_app_distr. cbn [rev app plus gather_right].
      eapply post_bind; [apply post_get with (Q := fun s s' => s = st /\ s' = st); easy|]. intros s s' [-> ->].
      rewrite (R_bend H) by lia. rewrite <- app_assoc in H. cbn [app] in H.
      assert (Ex : nth (length rest) ((rest ++ [x]) ++ Ms ++ Rs ++ dom) 0 = x) by (rewrite <- app_assoc; apply nth_middle). rewrite Ex.
      fold (isr B x). rewrite !filter_app. cbn [filter]. destruct (isr B x) eqn:Eb; cbn [negb].
      + rewrite (R_nc H). eapply post_bind.
        * eapply (move_right_level (needs := needs) H).
          -- left. lia.
          -- apply to_valid_nat. lia.
          -- apply to_valid_Z; [lia|]. left. lia.
          -- intros y Hy. apply Hn; [|exact Eb|now apply HM]. apply before_app_lr; [|exact Hy]. apply in_or_app. right. now left.
        * cbv beta zeta. intros _ st' [H1 G1]. match type of H1 with PermLegsProofs2.R _ _ _ _ ?e _ _ => specialize (IH Ms (x :: Rs) e st' H1) end.
          cbn [length] in IH. rewrite Nat.add_1_r. eapply post_weaken; [apply IH|easy|].
          -- lia.
          -- exact HM.
          -- intros y z Hb. apply Hn. apply before_inv in Hb. rewrite <- app_assoc. destruct Hb as [Hb|[[Hb1 Hb2]|Hb]];
               [now apply before_app_l|apply before_app_lr; [easy|now right]|apply before_app_r; now apply before_cons].
          -- cbv beta. intros n s [E1 HM1]. split; [rewrite E1, app_length; cbn [length]; lia|]. rewrite app_nil_r. rewrite <- !app_assoc. cbn [app].
             eapply moved_trans; [| exact G1 |].
             ++ apply range_right; [left; lia|lia].
             ++ rewrite do_swaps_up. exact HM1.
      + specialize (IH (x :: Ms) Rs evs st). cbn [app] in IH. specialize (IH H). cbn [length] in IH.
        eapply post_weaken; [apply IH|easy|].
        * lia.
        * intros y [<-|Hy]; [exact Eb|now apply HM].
        * intros y z Hb. apply Hn. now rewrite <- app_assoc.
        * cbv beta. intros n s [E1 HM1]. split; [rewrite E1, app_nil_r; reflexivity|]. rewrite app_nil_r. rewrite <- !app_assoc. exact HM1.
  Qed.

  Lemma filter_and A (f g : A -> bool) l : filter f (filter g l) = filter (fun x => g x && f x) l.
  Proof. induction l as [|x l IH]; [reflexivity|]. cbn [filter]. destruct (g x) eqn:Eg; cbn [filter andb]; rewrite IH; reflexivity. Qed.
  Lemma filter_comm A (f g : A -> bool) l : filter f (filter g l) = filter g (filter f l).
  Proof. induction l as [|x l IH]; [reflexivity|]. cbn [filter]. destruct (f x) eqn:Ef, (g x) eqn:Eg; cbn [filter]; rewrite ?Ef, ?Eg, IH; reflexivity. Qed.

  Definition isn (B : nat -> should) x := should_eqb (B x) SNone.
  (** step 1 *)
  Lemma step1 (needs : nat -> nat -> Prop) B evs st cod dom : R (cod ++ dom) B evs (length cod) st ->
    let l1 := filter (isl B) cod ++ filter (isn B) cod ++ filter (isr B) cod ++ dom in
    (forall a b, inverted (cod ++ dom) l1 a b -> needs a b) ->
    post needs (do_initial_codomain_permutation N (r_sym r)) st
      (fun lr st' => lr = (length (filter (isl B) cod), length (filter (isr B) cod)) /\ moved needs (cod ++ dom) l1 B evs (length cod) st').
  Proof.
    intros H l1 Hn. unfold do_initial_codomain_permutation. eapply post_bind; [apply post_get with (Q := fun s s' => s = st /\ s' = st); easy|]. intros s s' [-> ->].
    rewrite (R_nc H). eapply post_bind.
    - apply (@gather_left_spec needs dom B (length cod) cod [] [] evs st H); [reflexivity|intros y []|].
      intros y x Hb Hy Hx. apply Hn. split; [now apply before_app_l|]. unfold l1. apply before_app_lr.
      + apply filter_In. split; [|exact Hx]. now apply before_In in Hb.
      + apply before_In in Hb. destruct Hb as [Hb _]. rewrite app_assoc. apply in_or_app. left. apply in_or_app. unfold isl, isn, isr in *. rewrite !filter_In.
        destruct (B y); cbn in *; [left; easy|discriminate|right; easy].
    - cbv beta. intros n st1 [-> [js1 [F1 [E1 [H1 G1]]]]]. cbn [app length plus] in *.
      set (lft := filter (isl B) cod) in *. set (nl := filter (fun x => negb (isl B x)) cod) in *.
      assert (Lc : length cod = length (lft ++ nl)).
      { rewrite app_length. unfold lft, nl. clear. induction cod as [|x l IH]; [reflexivity|]. cbn [filter length]. destruct (isl B x); cbn [negb length]; lia. }
      eapply post_bind.
      + rewrite Lc. eapply (@gather_right_spec needs dom B (length cod) (lft ++ nl) [] [] _ st1).
        * cbn [app]. rewrite <- app_assoc. exact H1.
        * cbn [length]. lia.
        * intros y [].
        * rewrite app_nil_r. intros x y Hb Hx Hy. apply Hn.
          assert (Ix : In x cod /\ isl B x = false). { apply before_In in Hb. destruct Hb as [Hb _]. apply in_app_or in Hb. destruct Hb as [Hb|Hb]; apply filter_In in Hb; destruct Hb as [Hb Hb'].
            - exfalso. unfold isl, isr in *. destruct (B x); discriminate.
            - split; [easy|]. now apply negb_true_iff. }
          destruct Ix as [Ix1 Ix2]. assert (Iy : before nl x y). { apply before_inv in Hb. destruct Hb as [Hb|[[Hb _]|Hb]]; [|apply filter_In in Hb; destruct Hb; congruence|exact Hb].
            apply before_In in Hb. destruct Hb as [Hb _]. apply filter_In in Hb. destruct Hb; congruence. }
          assert (Iy' : In y cod /\ isl B y = false). { apply before_In in Iy. destruct Iy as [_ Iy]. apply filter_In in Iy. destruct Iy as [Iy1 Iy2]. split; [exact Iy1|now apply negb_true_iff]. }
          split; [apply before_app_l; exact (before_unfilter Iy)|]. unfold l1. apply before_app_r. rewrite app_assoc. apply before_app_l. apply before_app_lr; apply filter_In.
          -- split; [easy|]. unfold isl, isr, isn in *. destruct (B y), Iy'; cbn in *; congruence.
          -- easy.
      + cbv beta. intros n st2 [-> HM]. apply post_ret. cbn [app length plus] in *.
        assert (Er : filter (isr B) (lft ++ nl) = filter (isr B) cod).
        { rewrite filter_app. unfold lft, nl. rewrite !filter_and. rewrite (filter_none (f := fun x => isl B x && isr B x)); [cbn [app]|].
          - apply filter_ext. intros x. unfold isl, isr. now destruct (B x).
          - intros x _. unfold isl, isr. now destruct (B x). }
        assert (En : filter (fun x => negb (isr B x)) (lft ++ nl) = lft ++ filter (isn B) cod).
        { rewrite filter_app. unfold lft, nl. rewrite !filter_and. f_equal; apply filter_ext; intros x; unfold isl, isr, isn; now destruct (B x). }
        rewrite Er, En in HM. split; [now rewrite Er|].
        eapply moved_trans; [exact F1|exact G1|]. rewrite E1. unfold l1. fold lft. rewrite <- !app_assoc in HM. exact HM.
  Qed.

  Lemma unbend_nil B i : unbend B [] i = B i.
  Proof. reflexivity. Qed.
  Lemma unbend_app B l1 l2 i : unbend (unbend B l1) l2 i = unbend B (l1 ++ l2) i.
  Proof. unfold unbend, memb. rewrite existsb_app. destruct (existsb (Nat.eqb i) l2), (existsb (Nat.eqb i) l1); reflexivity. Qed.

  (** step 2: the bends to the right *)
  Lemma bends_up needs (P : list nat) evs : forall k Rs t B s0 st, NoDup (P ++ Rs ++ t) -> R (P ++ Rs ++ t) B evs (length P + length Rs) st -> k = length Rs ->
    (forall x, In x Rs -> B x <> SNone) ->
    post needs (for_each (seq s0 k) (fun _ => bend N false)) st (fun _ st' => R (P ++ Rs ++ t) (unbend B Rs) evs (length P) st').
  Proof.
    induction k as [|k IH]; intros Rs t B s0 st ND H Hk HB.
    - destruct Rs; [|discriminate]. cbn [seq for_each]. apply post_ret. cbn [length] in H. rewrite Nat.add_0_r in H. eapply R_ext; [exact H|reflexivity].
    - destruct Rs as [|x Rs _] using rev_ind; [discriminate|]. rewrite app_length in Hk. cbn [length] in Hk.
      cbn [seq for_each]. rewrite app_length in H. cbn [length] in H.
      assert (Eq : P ++ (Rs ++ [x]) ++ t = (P ++ Rs) ++ x :: t) by now rewrite <- !app_assoc.
      eapply post_bind.
      + eapply (bend_up needs (l := P ++ Rs) (x := x) (t := t)).
        * rewrite <- Eq. exact ND.
        * rewrite <- Eq. replace (S (length (P ++ Rs))) with (length P + (length Rs + 1)) by (rewrite app_length; lia). exact H.
        * apply HB. apply in_or_app. right. now left.
      + cbv beta. intros _ st' H'. rewrite Eq in ND |- *. rewrite <- app_assoc in ND, H' |- *. rewrite app_length in H'.
        eapply post_weaken; [apply (IH Rs (x :: t) (unbend B [x])); [exact ND|exact H'|lia|]|easy|].
        * intros y Hy. unfold unbend. destruct (memb y [x]) eqn:E; [|apply HB; apply in_or_app; now left]. exfalso.
          apply memb_In in E. destruct E as [<-|[]]. apply NoDup_app_r' in ND.
          clear - ND Hy. apply NoDup_remove_2 in ND. apply ND. apply in_or_app. now left.
        * cbv beta. intros _ s HR. eapply R_ext; [exact HR|]. intros i _. rewrite unbend_app. unfold unbend, memb. rewrite !existsb_app. now rewrite orb_comm.
  Qed.
  Lemma bends_down needs evs : forall k P Rs t B s0 st, NoDup (P ++ Rs ++ t) -> R (P ++ Rs ++ t) B evs (length P) st -> k = length Rs ->
    (forall x, In x Rs -> B x <> SNone) ->
    post needs (for_each (seq s0 k) (fun _ => bend N true)) st (fun _ st' => R (P ++ Rs ++ t) (unbend B Rs) evs (length P + length Rs) st').
  Proof.
    induction k as [|k IH]; intros P Rs t B s0 st ND H Hk HB.
    - destruct Rs; [|discriminate]. cbn [seq for_each]. apply post_ret. cbn [length]. rewrite Nat.add_0_r. eapply R_ext; [exact H|reflexivity].
    - destruct Rs as [|x Rs]; [discriminate|]. cbn [length] in Hk. cbn [seq for_each]. eapply post_bind.
      + eapply (bend_down needs (l := P) (x := x) (t := Rs ++ t)); [exact ND|exact H|]. apply HB. now left.
      + cbv beta. intros _ st' H'. assert (Eq : P ++ (x :: Rs) ++ t = (P ++ [x]) ++ Rs ++ t) by now rewrite <- app_assoc.
        cbn [app] in Eq, ND. cbn [app]. rewrite Eq in ND, H' |- *.
        replace (S (length P)) with (length (P ++ [x])) in H' by (rewrite app_length; cbn [length]; lia).
        eapply post_weaken; [apply (IH (P ++ [x]) Rs t (unbend B [x])); [exact ND|exact H'|lia|]|easy|].
        * intros y Hy. unfold unbend. destruct (memb y [x]) eqn:E; [|apply HB; now right]. exfalso.
          apply memb_In in E. destruct E as [<-|[]]. rewrite <- app_assoc in ND. apply NoDup_app_r' in ND. cbn [app] in ND. inversion ND as [|? ? ND1 _]; subst. apply ND1. apply in_or_app. now left.
        * cbv beta. intros _ s HR. rewrite app_length in HR. cbn [length] in HR |- *. replace (length P + S (length Rs)) with (length P + 1 + length Rs) by lia.
          eapply R_ext; [exact HR|]. intros i _. rewrite unbend_app. reflexivity.
  Qed.

  (** the bends to the left: each leg passes over all other legs *)
  Definition over_right (Ls others : list nat) : list event := flat_map (fun x => map (fun y => Cross x y true) others) (rev Ls).
  Definition over_left (Ls others : list nat) : list event := flat_map (fun x => map (fun y => Cross y x false) (rev others)) Ls.

  Lemma left_up needs nl Mm dom : forall k Ls done B evs st, length Ls = k -> nl = k + length done -> NoDup (Ls ++ Mm ++ dom ++ done) ->
    R (Ls ++ Mm ++ dom ++ done) B evs (k + length Mm) st -> (forall x, In x Ls -> B x <> SNone) ->
    post needs (for_each (rev (seq 0 k)) (fun n =>
        st <- get ;; move_leg N (r_sym r) (Z.of_nat n) (Z.of_nat (num_codomain_legs st) - 1) (Some true) ;;; bend N false ;;;
        st <- get ;; move_leg N (r_sym r) (Z.of_nat (num_codomain_legs st)) (Z.of_nat n - Z.of_nat nl) (Some true))) st
      (fun _ st' => R (Mm ++ dom ++ Ls ++ done) (unbend B Ls) (evs ++ over_right Ls (Mm ++ dom)) (length Mm) st').
  Proof.
    induction k as [|k IH]; intros Ls done B evs st Lk Hnl ND H HB.
    - destruct Ls; [|discriminate]. cbn [seq rev for_each]. apply post_ret. unfold over_right. cbn [rev flat_map]. rewrite app_nil_r. eapply R_ext; [exact H|reflexivity].
    - destruct Ls as [|x Ls _] using rev_ind; [discriminate|]. rewrite app_length in Lk. cbn [length] in Lk.
      pose proof (R_len H) as L. rewrite !app_length in L. cbn [length] in L.
      rewrite seq_S, rev_app_distr. cbn [rev app plus for_each].
      rewrite <- app_assoc in H, ND. cbn [app] in H, ND.
      eapply post_bind; [eapply post_bind; [apply post_get with (Q := fun s s' => s = st /\ s' = st); easy|]; intros s s' [-> ->]; rewrite (R_nc H)|].
      + eapply post_bind; [eapply (move_right_forced needs true (l := Ls) (m := Mm) (x := x) (t := dom ++ done) H)|].
        * left. lia.
        * apply to_valid_Z; [lia|]. left. lia.
        * apply to_valid_Z; [lia|]. left. lia.
        * cbv beta. intros _ st1 H1.
          assert (ND1 : NoDup ((Ls ++ Mm) ++ x :: dom ++ done)).
          { revert ND. apply Permutation_NoDup. rewrite <- app_assoc. apply Permutation_app_head. apply Permutation_middle. }
          rewrite app_assoc in H1. eapply post_bind; [eapply (bend_up needs (l := Ls ++ Mm) (x := x) (t := dom ++ done) ND1)|].
          -- replace (S (length (Ls ++ Mm))) with (S k + length Mm) by (rewrite app_length; lia). exact H1.
          -- apply HB. apply in_or_app. right. now left.
          -- cbv beta. intros _ st2 H2.
             eapply post_bind; [apply post_get with (Q := fun s s' => s = st2 /\ s' = st2); easy|]; intros s s' [-> ->]; rewrite (R_nc H2).
             eapply (move_right_forced needs true (l := Ls ++ Mm) (m := dom) (x := x) (t := done) H2).
             ++ right. rewrite app_length. lia.
             ++ apply to_valid_nat. rewrite app_length. lia.
             ++ apply to_valid_Z; [rewrite app_length; lia|]. right. rewrite app_length. lia.
      + cbv beta. intros _ st3 H3. rewrite <- !app_assoc in H3.
        match type of H3 with PermLegsProofs2.R _ _ _ _ ?e _ _ => eapply post_weaken; [apply (IH Ls (x :: done) (unbend B [x]) e st3)|easy|] end.
        * lia.
        * cbn [length]. lia.
        * revert ND. apply Permutation_NoDup. apply Permutation_app_head. rewrite !app_assoc. apply Permutation_middle.
        * replace (k + length Mm) with (length (Ls ++ Mm)) by (rewrite app_length; lia). exact H3.
        * intros y Hy. unfold unbend. destruct (memb y [x]) eqn:E; [|apply HB; apply in_or_app; now left]. exfalso.
          apply memb_In in E. destruct E as [<-|[]]. apply NoDup_remove_2 in ND. apply ND. apply in_or_app. now left.
        * cbv beta. intros _ s HR. rewrite <- !app_assoc in HR |- *. cbn [app].
          assert (Ev : over_right (Ls ++ [x]) (Mm ++ dom) = map (fun y => Cross x y true) Mm ++ map (fun y => Cross x y true) dom ++ over_right Ls (Mm ++ dom)).
          { unfold over_right at 1. rewrite rev_app_distr. cbn [rev app flat_map]. rewrite map_app, <- app_assoc. reflexivity. }
          rewrite Ev. repeat rewrite <- app_assoc in HR. repeat rewrite <- app_assoc. eapply R_ext; [exact HR|]. intros i _. rewrite unbend_app. unfold unbend, memb. rewrite !existsb_app. now rewrite orb_comm.
  Qed.
  Lemma left_down needs nl Mm dom : forall k Ls done B evs st, length Ls = k -> nl = k + length done -> NoDup (done ++ Mm ++ dom ++ Ls) ->
    R (done ++ Mm ++ dom ++ Ls) B evs (length done + length Mm) st -> (forall x, In x Ls -> B x <> SNone) ->
    post needs (for_each (rev (seq 0 k)) (fun n =>
        st <- get ;; move_leg N (r_sym r) (-1 - Z.of_nat n) (Z.of_nat (num_codomain_legs st)) (Some true) ;;; bend N true ;;;
        st <- get ;; move_leg N (r_sym r) (Z.of_nat (num_codomain_legs st) - 1) (Z.of_nat nl - 1 - Z.of_nat n) (Some true))) st
      (fun _ st' => R (done ++ Ls ++ Mm ++ dom) (unbend B Ls) (evs ++ over_left Ls (Mm ++ dom)) (length done + k + length Mm) st').
  Proof.
    induction k as [|k IH]; intros Ls done B evs st Lk Hnl ND H HB.
    - destruct Ls; [|discriminate]. cbn [seq rev for_each]. apply post_ret. unfold over_left. cbn [flat_map]. rewrite !app_nil_r in *. rewrite Nat.add_0_r. eapply R_ext; [exact H|reflexivity].
    - destruct Ls as [|x Ls]; [discriminate|]. cbn [length] in Lk.
      pose proof (R_len H) as L. rewrite !app_length in L. cbn [length] in L.
      rewrite seq_S, rev_app_distr. cbn [rev app plus for_each].
      assert (Eq : done ++ Mm ++ dom ++ x :: Ls = (done ++ Mm) ++ dom ++ x :: Ls) by now rewrite <- app_assoc.
      rewrite Eq in H.
      eapply post_bind; [eapply post_bind; [apply post_get with (Q := fun s s' => s = st /\ s' = st); easy|]; intros s s' [-> ->]; rewrite (R_nc H)|].
      + eapply post_bind; [eapply (move_left_forced needs true (l := done ++ Mm) (m := dom) (x := x) (t := Ls) H)|].
        * right. rewrite app_length. lia.
        * apply to_valid_Z; [rewrite app_length; lia|]. right. rewrite app_length. lia.
        * apply to_valid_Z; [rewrite app_length; lia|]. left. rewrite app_length. lia.
        * cbv beta. intros _ st1 H1.
          assert (ND1 : NoDup ((done ++ Mm) ++ x :: dom ++ Ls)).
          { revert ND. rewrite Eq. apply Permutation_NoDup. apply Permutation_app_head. symmetry. apply Permutation_middle. }
          eapply post_bind; [eapply (bend_down needs (l := done ++ Mm) (x := x) (t := dom ++ Ls) ND1)|].
          -- rewrite app_length. exact H1.
          -- apply HB. now left.
          -- cbv beta. intros _ st2 H2.
             eapply post_bind; [apply post_get with (Q := fun s s' => s = st2 /\ s' = st2); easy|]; intros s s' [-> ->]; rewrite (R_nc H2).
             rewrite <- app_assoc in H2.
             eapply (move_left_forced needs true (l := done) (m := Mm) (x := x) (t := dom ++ Ls) H2).
             ++ left. rewrite app_length. lia.
             ++ apply to_valid_Z; [lia|]. left. rewrite app_length. lia.
             ++ apply to_valid_Z; [lia|]. left. lia.
      + cbv beta. intros _ st3 H3. rewrite app_length in H3.
        assert (Eq3 : done ++ x :: Mm ++ dom ++ Ls = (done ++ [x]) ++ Mm ++ dom ++ Ls) by now rewrite <- app_assoc. rewrite Eq3 in H3.
        match type of H3 with PermLegsProofs2.R _ _ _ _ ?e _ _ => eapply post_weaken; [apply (IH Ls (done ++ [x]) (unbend B [x]) e st3)|easy|] end.
        * lia.
        * rewrite app_length. cbn [length]. lia.
        * rewrite <- Eq3. revert ND. apply Permutation_NoDup. apply Permutation_app_head. rewrite !(app_assoc Mm). symmetry. apply Permutation_middle.
        * rewrite app_length. cbn [length]. replace (length done + 1 + length Mm) with (S (length done + length Mm)) by lia. exact H3.
        * intros y Hy. unfold unbend. destruct (memb y [x]) eqn:E; [|apply HB; now right]. exfalso.
          apply memb_In in E. destruct E as [<-|[]]. rewrite !app_assoc in ND. apply NoDup_remove_2 in ND. apply ND. apply in_or_app. now right.
        * cbv beta. intros _ s HR. rewrite app_length in HR. cbn [length] in HR. replace (length done + S k + length Mm) with (length done + 1 + k + length Mm) by lia.
          rewrite <- !app_assoc in HR. cbn [app] in HR |- *.
          assert (Ev : over_left (x :: Ls) (Mm ++ dom) = map (fun y => Cross y x false) (rev dom) ++ map (fun y => Cross y x false) (rev Mm) ++ over_left Ls (Mm ++ dom)).
          { unfold over_left. cbn [flat_map]. rewrite rev_app_distr, map_app, <- app_assoc. reflexivity. }
          rewrite Ev. repeat rewrite <- app_assoc in HR. repeat rewrite <- app_assoc. eapply R_ext; [exact HR|]. intros i _. rewrite unbend_app. reflexivity.
  Qed.
End Stages.
