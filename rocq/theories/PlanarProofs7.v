(** C69, part 7: which requests are planar. *)
From Coq Require Import ZArith List Bool Lia Permutation.
From Verif Require Import Util GridModel PermLegsModel PermLegsSpec PermLegsProps PlanarModel PlanarSpec PlanarProofs1 PlanarProofs2 PlanarProofs3 PlanarProofs4.
Import ListNotations.
Set Implicit Arguments. Unset Strict Implicit.
Open Scope nat_scope.

Lemma app_len_inj A (a b c d : list A) : a ++ b = c ++ d -> length a = length c -> a = c /\ b = d.
Proof.
  revert c. induction a as [|x a IH]; intros [|y c] E L; cbn in *; try lia; [now split|]. injection E as -> E. destruct (IH c E) as [-> ->]; [lia|now split].
Qed.
Lemma arc_length n a m : length (arc n a m) = m.
Proof. unfold arc. now rewrite map_length, seq_length. Qed.
Lemma nth_arc n a m i : i < m -> nth i (arc n a m) 0 = (a + i) mod n.
Proof. intros H. unfold arc. rewrite nth_map_lt with (d := 0) by now rewrite seq_length. now rewrite seq_nth. Qed.
Lemma arc_app n a m1 m2 : arc n a (m1 + m2) = arc n a m1 ++ arc n (a + m1) m2.
Proof.
  apply list_eq_nth with (d := 0); [now rewrite app_length, !arc_length|]. intros i Hi. rewrite arc_length in Hi. rewrite nth_arc by exact Hi. destruct (Nat.lt_ge_cases i m1) as [L|L].
  - rewrite app_nth1 by now rewrite arc_length. now rewrite nth_arc.
  - rewrite app_nth2 by now rewrite arc_length. rewrite arc_length, nth_arc by lia. f_equal. lia.
Qed.
Lemma arc_cong n a b m : n <> 0 -> a mod n = b mod n -> arc n a m = arc n b m.
Proof.
  intros N E. apply list_eq_nth with (d := 0); [now rewrite !arc_length|]. intros i Hi. rewrite arc_length in Hi. rewrite !nth_arc by exact Hi.
  rewrite <- (Nat.add_mod_idemp_l a i n N), <- (Nat.add_mod_idemp_l b i n N). now rewrite E.
Qed.
Lemma hd_arc n a m : 0 < m -> hd 0 (arc n a m) = a mod n.
Proof. intros H. destruct m; [lia|]. unfold arc. cbn [seq map hd]. now rewrite Nat.add_0_r. Qed.
Lemma last_arc n a m : 0 < m -> last (arc n a m) 0 = (a + m - 1) mod n.
Proof. intros H. replace m with ((m - 1) + 1) at 1 by lia. rewrite arc_app. unfold arc at 2. cbn [seq map]. rewrite last_last. f_equal. lia. Qed.
Lemma arc_rotation n k : 0 < n -> k <= n -> arc n k n = rotation k (seq 0 n).
Proof.
  intros N K. rewrite rotation_seq by exact K. apply list_eq_nth with (d := 0); [rewrite arc_length, app_length, !seq_length; lia|]. intros i Hi. rewrite arc_length in Hi. rewrite nth_arc by exact Hi. destruct (Nat.lt_ge_cases i (n - k)) as [L|L].
  - rewrite app_nth1 by now rewrite seq_length. rewrite seq_nth by exact L. apply Nat.mod_small. lia.
  - rewrite app_nth2 by now rewrite seq_length. rewrite seq_length, seq_nth by lia. replace (k + i) with (i - (n - k) + 1 * n) by lia. rewrite Nat.mod_add by lia. apply Nat.mod_small. lia.
Qed.
Lemma planar_arc n co d : 0 < n -> planar n co d <-> exists k, co = arc n k (length co) /\ rev d = arc n (k + length co) (length d) /\ length co + length d = n.
Proof.
  intros N. split.
  - intros [k [K E]]. rewrite <- arc_rotation in E by assumption. assert (L := f_equal (@length nat) E). rewrite app_length, rev_length, arc_length in L. exists k.
    rewrite <- L in E at 2. rewrite arc_app in E. apply app_len_inj in E; [|now rewrite arc_length]. now destruct E.
  - intros (k & E1 & E2 & L). assert (M := Nat.mod_upper_bound k n ltac:(lia)). exists (k mod n). split; [lia|]. rewrite <- arc_rotation by lia.
    rewrite (@arc_cong n (k mod n) k) by (lia || now rewrite Nat.mod_mod by lia). rewrite <- L at 2. rewrite arc_app. now rewrite <- E1, <- E2.
Qed.
Lemma list_eqb_eq l l' : list_eqb l l' = true <-> l = l'.
Proof. unfold list_eqb. destruct (list_eq_dec Nat.eq_dec l l'); split; congruence. Qed.
Lemma hd_rev (l : list nat) : hd 0 (rev l) = last l 0.
Proof. destruct l as [|x l] using rev_ind; [reflexivity|]. now rewrite rev_app_distr, last_last. Qed.
Lemma last_rev (l : list nat) : last (rev l) 0 = hd 0 l.
Proof. now rewrite <- hd_rev, rev_involutive. Qed.
Lemma rev_eq (a b : list nat) : rev a = b -> a = rev b.
Proof. now intros <-; rewrite rev_involutive. Qed.

Section Complete.
  Variable n : nat.
  Hypothesis N : 0 < n.
  (** the codomain that belongs to a domain *)
  Lemma partner_of_domain co d : d <> [] -> planar n co d <-> d = rev (arc n (last d 0) (length d)) /\ length d <= n /\ co = arc n (hd 0 d + 1) (n - length d).
  Proof.
    intros D. assert (LD : 0 < length d) by (destruct d; [easy|cbn; lia]). rewrite planar_arc by exact N. split.
    - intros (k & E1 & E2 & L).
      assert (H1 : last d 0 = (k + length co) mod n) by (rewrite <- hd_rev, E2, hd_arc by exact LD; reflexivity).
      assert (H2 : hd 0 d = (k + length co + length d - 1) mod n) by (rewrite <- last_rev, E2, last_arc by exact LD; reflexivity).
      split; [|split; [lia|]].
      + apply rev_eq. rewrite E2. apply arc_cong; [lia|]. rewrite H1. now rewrite Nat.mod_mod by lia.
      + rewrite E1 at 1. replace (n - length d) with (length co) by lia. apply arc_cong; [lia|]. rewrite H2. rewrite Nat.add_mod_idemp_l by lia. replace (k + length co + length d - 1 + 1) with (k + 1 * n) by lia. now rewrite Nat.mod_add by lia.
    - intros (E1 & L & E2). set (b := last d 0) in *. assert (R : rev d = arc n b (length d)) by (rewrite E1 at 1; apply rev_involutive).
      assert (LC : length co = n - length d) by (rewrite E2; apply arc_length).
      assert (H2 : hd 0 d = (b + length d - 1) mod n) by (rewrite <- last_rev, R, last_arc by exact LD; reflexivity).
      exists (b + length d). split; [|split; [|lia]].
      + rewrite LC, E2 at 1. apply arc_cong; [lia|]. rewrite H2, Nat.add_mod_idemp_l by lia. f_equal. lia.
      + rewrite R. apply arc_cong; [lia|]. rewrite LC. replace (b + length d + (n - length d)) with (b + 1 * n) by lia. now rewrite Nat.mod_add by lia.
  Qed.
  Lemma partner_of_codomain co d : co <> [] -> planar n co d <-> co = arc n (hd 0 co) (length co) /\ length co <= n /\ d = rev (arc n (last co 0 + 1) (n - length co)).
  Proof.
    intros C. assert (LC : 0 < length co) by (destruct co; [easy|cbn; lia]). rewrite planar_arc by exact N. split.
    - intros (k & E1 & E2 & L).
      assert (H1 : hd 0 co = k mod n) by (rewrite E1, hd_arc by exact LC; reflexivity).
      assert (H2 : last co 0 = (k + length co - 1) mod n) by (rewrite E1, last_arc by exact LC; now rewrite arc_length).
      split; [|split; [lia|]].
      + rewrite E1 at 1. apply arc_cong; [lia|]. rewrite H1. now rewrite Nat.mod_mod by lia.
      + apply rev_eq. rewrite E2. replace (n - length co) with (length d) by lia. apply arc_cong; [lia|]. rewrite H2. rewrite Nat.add_mod_idemp_l by lia. f_equal. lia.
    - intros (E1 & L & E2). assert (LD : length d = n - length co) by (rewrite E2, rev_length; apply arc_length).
      assert (H2 : last co 0 = (hd 0 co + length co - 1) mod n) by (rewrite E1 at 1; now rewrite last_arc by exact LC).
      exists (hd 0 co). split; [exact E1|]. split; [|lia]. rewrite E2, rev_involutive, rev_length, arc_length. apply arc_cong; [lia|]. rewrite H2, Nat.add_mod_idemp_l by lia. f_equal. lia.
  Qed.

  Lemma check_domain_ok co d cod : planar n co d -> fits cod co -> d <> [] -> check_domain n cod d = POk (Some co).
  Proof.
    intros P F D. apply (partner_of_domain co D) in P. destruct P as (E1 & L & E2). unfold check_domain. destruct d as [|x d]; [easy|].
    rewrite (proj2 (list_eqb_eq _ _) E1). cbn [negb]. rewrite <- E2. destruct cod as [c|]; [|reflexivity]. cbn in F. subst c. now rewrite (proj2 (list_eqb_eq _ _) eq_refl).
  Qed.
  Lemma check_codomain_ok co d dom : planar n co d -> fits dom d -> co <> [] -> check_codomain n dom co = POk (Some d).
  Proof.
    intros P F D. apply (partner_of_codomain d D) in P. destruct P as (E1 & L & E2). unfold check_codomain. destruct co as [|x co]; [easy|].
    rewrite (proj2 (list_eqb_eq _ _) E1). cbn [negb]. rewrite <- E2. destruct dom as [c|]; [|reflexivity]. cbn in F. subst c. now rewrite (proj2 (list_eqb_eq _ _) eq_refl).
  Qed.
  Lemma check_domain_inv cod d o : d <> [] -> length d <= n -> check_domain n cod d = POk o -> exists co, o = Some co /\ fits cod co /\ planar n co d.
  Proof.
    intros D L. unfold check_domain. destruct d as [|x d]; [easy|]. destruct (list_eqb (x :: d) _) eqn:E; cbn [negb]; [|discriminate]. apply list_eqb_eq in E.
    set (c2 := arc n (hd 0 (x :: d) + 1) (n - length (x :: d))). destruct cod as [c|].
    - destruct (list_eqb c c2) eqn:E'; [|discriminate]. apply list_eqb_eq in E'. intros [= <-]. exists c. split; [reflexivity|]. split; [reflexivity|]. apply partner_of_domain; [easy|]. now split; [|split].
    - intros [= <-]. exists c2. split; [reflexivity|]. split; [exact Logic.I|]. apply partner_of_domain; [easy|]. now split; [|split].
  Qed.
  Lemma check_codomain_inv dom c o : c <> [] -> length c <= n -> check_codomain n dom c = POk o -> exists d, o = Some d /\ fits dom d /\ planar n c d.
  Proof.
    intros D L. unfold check_codomain. destruct c as [|x c]; [easy|]. destruct (list_eqb (x :: c) _) eqn:E; cbn [negb]; [|discriminate]. apply list_eqb_eq in E.
    set (c2 := rev (arc n (last (x :: c) 0 + 1) (n - length (x :: c)))). destruct dom as [d|].
    - destruct (list_eqb d c2) eqn:E'; [|discriminate]. apply list_eqb_eq in E'. intros [= <-]. exists d. split; [reflexivity|]. split; [reflexivity|]. apply partner_of_codomain; [easy|]. now split; [|split].
    - intros [= <-]. exists c2. split; [reflexivity|]. split; [exact Logic.I|]. apply partner_of_codomain; [easy|]. now split; [|split].
  Qed.
  Lemma legs_of_length g : legs_of n (Some g) -> length g <= n.
  Proof. intros [ND F]. rewrite <- (seq_length n 0). apply NoDup_incl_length; [exact ND|]. intros i I. rewrite Forall_forall in F. apply in_seq. specialize (F i I). lia. Qed.

  Lemma complete_body cod dom : enough_given cod dom -> complete n cod dom =
    match (match dom with Some d => check_domain n cod d | None => POk cod end) with
    | PErr e => PErr e
    | POk codomain =>
      match (match codomain with Some c => check_codomain n dom c | None => POk dom end) with
      | PErr e => PErr e
      | POk domain => match codomain, domain with Some c, Some d => POk (c, d) | _, _ => PErr Undefined end
      end
    end.
  Proof. destruct cod as [[|y c]|], dom as [[|x d]|]; intros EG; try reflexivity; now elim EG. Qed.
  Lemma complete_given cod dom r : complete n cod dom = POk r -> enough_given cod dom.
  Proof. destruct cod as [[|y c]|], dom as [[|x d]|]; cbn [enough_given]; try discriminate; try easy; intros _; discriminate. Qed.
  Lemma complete_ok cod dom co d : enough_given cod dom -> fits cod co -> fits dom d -> planar n co d -> complete n cod dom = POk (co, d).
  Proof.
    intros EG F1 F2 P. rewrite (complete_body EG). destruct dom as [d'|].
    - cbn in F2. subst d'. destruct (list_eq_dec Nat.eq_dec d []) as [->|ND].
      + destruct cod as [c|]; [|now elim EG]. cbn in F1. subst c. cbn [check_domain].
        assert (NC : co <> []) by (intros ->; apply (planar_arc _ _ N) in P; destruct P as (k & _ & _ & L); cbn in L; lia).
        rewrite (check_codomain_ok P (eq_refl : fits (Some []) []) NC). reflexivity.
      + rewrite (check_domain_ok P F1 ND). destruct (list_eq_dec Nat.eq_dec co []) as [->|NC].
        * cbn [check_codomain]. destruct cod as [c|]; [reflexivity|]. destruct d; [easy|reflexivity].
        * rewrite (check_codomain_ok P (eq_refl : fits (Some d) d) NC). destruct cod; [reflexivity|]. destruct d; [easy|reflexivity].
    - destruct cod as [c|]; [|now elim EG]. cbn in F1. subst c. destruct co as [|x co]; [now elim EG|]. now rewrite (check_codomain_ok P F2 ltac:(easy)).
  Qed.
  Lemma complete_inv cod dom co d : legs_of n cod -> legs_of n dom -> complete n cod dom = POk (co, d) ->
    enough_given cod dom /\ fits cod co /\ fits dom d /\ (planar n co d \/ (cod = Some [] /\ dom = Some [])).
  Proof.
    intros L1 L2 E. assert (G := complete_given E). rewrite (complete_body G) in E. revert E. destruct dom as [d'|].
    - destruct (list_eq_dec Nat.eq_dec d' []) as [->|ND].
      + destruct cod as [c|]; [|now elim G]. cbn [check_domain]. destruct (list_eq_dec Nat.eq_dec c []) as [->|NC].
        * cbn [check_codomain]. intros [= <- <-]. split; [exact Logic.I|]. split; [reflexivity|]. split; [reflexivity|]. now right.
        * destruct (check_codomain n (Some []) c) as [o|] eqn:E; [|discriminate]. apply check_codomain_inv in E; [|exact NC|now apply legs_of_length]. destruct E as (d2 & -> & F & P). cbn in F. subst d2.
          intros [= <- <-]. split; [exact Logic.I|]. split; [reflexivity|]. split; [reflexivity|]. now left.
      + destruct (check_domain n cod d') as [o|] eqn:E; [|discriminate]. apply check_domain_inv in E; [|exact ND|now apply legs_of_length]. destruct E as (c2 & -> & F & P).
        destruct (list_eq_dec Nat.eq_dec c2 []) as [->|NC].
        * cbn [check_codomain]. intros [= <- <-]. split; [exact G|]. split; [exact F|]. split; [reflexivity|]. now left.
        * rewrite (check_codomain_ok P (eq_refl : fits (Some d') d') NC). intros [= <- <-]. split; [exact G|]. split; [exact F|]. split; [reflexivity|]. now left.
    - destruct cod as [c|]; [|now elim G]. destruct c as [|x c]; [now elim G|]. destruct (check_codomain n None (x :: c)) as [o|] eqn:E; [|discriminate]. apply check_codomain_inv in E; [|easy|now apply legs_of_length].
      destruct E as (d2 & -> & F & P). intros [= <- <-]. split; [easy|]. split; [reflexivity|]. split; [exact Logic.I|]. now left.
  Qed.
End Complete.
