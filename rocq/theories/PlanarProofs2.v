(** C69, part 2: one call of permute_legs. *)
From Coq Require Import ZArith List Bool Lia Permutation.
From Verif Require Import Util GridModel PermLegsModel PermLegsSpec PermLegsProps PlanarModel PlanarSpec PlanarProofs1.
Import ListNotations.
Set Implicit Arguments. Unset Strict Implicit.
Open Scope nat_scope.

Lemma has_dup_NoDup l : has_dup l = false <-> NoDup l.
Proof.
  induction l as [|x t IH]; cbn [has_dup]; [split; [constructor|reflexivity]|]. rewrite orb_false_iff, IH. split.
  - intros [E N]. constructor; [|exact N]. intros I. apply contains_In in I. congruence.
  - intros N. inversion N as [|? ? NI N']; subst. split; [|exact N']. destruct (contains t x) eqn:E; [|reflexivity]. now apply contains_In in E.
Qed.

(** names of legs *)
Definition rename (f : nat -> nat) (e : event) : event := match e with Cross a b o => Cross (f a) (f b) o | Turn l o => Turn (map f l) o end.
Lemma exchange_rename (f : nat -> nat) l i : exchange (map f l) i = match exchange l i with Some (a, b, l') => Some (f a, f b, map f l') | None => None end.
Proof. unfold exchange. rewrite skipn_map. destruct (skipn i l) as [|a [|b t]]; cbn [map]; try reflexivity. rewrite firstn_map, map_app. reflexivity. Qed.
Lemma exec1_rename (f : nat -> nat) cod dom i cod' dom' ev : exec1 (cod, dom) i = Some ((cod', dom'), ev) -> exec1 (map f cod, map f dom) i = Some ((map f cod', map f dom'), map (rename f) ev).
Proof.
  destruct i as [[] idx over|[]|c idcs over]; cbn [exec1].
  - rewrite exchange_rename. destruct (exchange cod idx) as [[[a b] l]|]; [|discriminate]. intros [= <- <- <-]. reflexivity.
  - rewrite exchange_rename. destruct (exchange dom idx) as [[[a b] l]|]; [|discriminate]. intros [= <- <- <-]. reflexivity.
  - rewrite <- map_rev. destruct (rev dom) as [|x r]; [discriminate|]. intros [= <- <- <-]. cbn [map]. rewrite map_app, map_rev. reflexivity.
  - rewrite <- map_rev. destruct (rev cod) as [|x r]; [discriminate|]. intros [= <- <- <-]. cbn [map]. rewrite map_app, map_rev. reflexivity.
  - destruct idcs as [|i0 r]; [discriminate|]. set (l := i0 :: r). assert (X : (if c then map f cod else map f dom) = map f (if c then cod else dom)) by (destruct c; reflexivity). rewrite X, map_length.
    destruct (forallb _ l) eqn:FB; [|discriminate]. intros [= <- <- <-].
    assert (XX : map (fun k => nth k (map f (if c then cod else dom)) 0) l = map f (map (fun k => nth k (if c then cod else dom) 0) l)).
    { rewrite map_map. apply map_ext_in. intros k K. rewrite forallb_forall in FB. apply FB in K. apply Nat.ltb_lt in K. now apply nth_map_lt. }
    rewrite XX. reflexivity.
Qed.
Lemma exec_rename (f : nat -> nat) l : forall cod dom cod' dom' ev, exec (cod, dom) l = Some ((cod', dom'), ev) -> exec (map f cod, map f dom) l = Some ((map f cod', map f dom'), map (rename f) ev).
Proof.
  induction l as [|i l IH]; intros cod dom cod' dom' ev; cbn [exec]; [intros [= <- <- <-]; reflexivity|]. destruct (exec1 (cod, dom) i) as [[[c1 d1] e1]|] eqn:E1; [|discriminate]. destruct (exec (c1, d1) l) as [[[c2 d2] e2]|] eqn:E2; [|discriminate].
  intros [= <- <- <-]. rewrite (exec1_rename f E1), (IH _ _ _ _ _ E2), map_app. reflexivity.
Qed.
Definition name (st : list nat * list nat) (i : nat) : nat := nth i (fst st ++ rev (snd st)) 0.
Lemma map_nth_seq_all (l : list nat) : map (fun i => nth i l 0) (seq 0 (length l)) = l.
Proof. apply list_eq_nth with (d := 0); [now rewrite map_length, seq_length|]. intros i Hi. rewrite map_length, seq_length in Hi. rewrite nth_map_lt with (d := 0) by now rewrite seq_length. now rewrite seq_nth. Qed.
Lemma name_legs c d : map (name (c, d)) (seq 0 (length c)) = c /\ map (name (c, d)) (seq (length c) (length d)) = rev d.
Proof.
  unfold name. cbn [fst snd]. assert (M := map_nth_seq_all (c ++ rev d)). rewrite app_length, rev_length, seq_app, map_app in M. cbn [plus] in M.
  split.
  - apply (f_equal (firstn (length c))) in M. rewrite firstn_app, map_length, seq_length, Nat.sub_diag, firstn_O, app_nil_r, firstn_app, Nat.sub_diag, firstn_O, app_nil_r, firstn_all in M. rewrite <- M at 2. symmetry. apply firstn_all2. now rewrite map_length, seq_length.
  - apply (f_equal (skipn (length c))) in M. rewrite skipn_app, map_length, seq_length, Nat.sub_diag, skipn_O, skipn_app, Nat.sub_diag, skipn_O, skipn_all in M.
    rewrite skipn_all2 in M by now rewrite map_length, seq_length. exact M.
Qed.
Lemma name_legs0 c d : (map (name (c, d)) (fst (legs0 (length c) (length d))), map (name (c, d)) (snd (legs0 (length c) (length d)))) = (c, d).
Proof. destruct (name_legs c d) as [E1 E2]. unfold legs0. cbn [fst snd]. now rewrite map_rev, E1, E2, rev_involutive. Qed.

Lemma phase_rename (G H : Type) gz (gadd : G -> G -> G) hz (hadd : H -> H -> H) hopp (beta : G -> G -> H) q f ev :
  phase gz gadd hz hadd hopp beta q (map (rename f) ev) = phase gz gadd hz hadd hopp beta (fun i => q (f i)) ev.
Proof.
  unfold phase. rewrite map_map. f_equal. apply map_ext. intros [a b []|l []]; cbn [rename event_phase]; unfold charge; now rewrite ?map_map.
Qed.

Lemma unchanged_spec nc nd co dom : length dom = nd -> legs_unchanged nc nd co dom = true -> co = seq 0 nc /\ dom = rev (seq nc nd).
Proof.
  unfold legs_unchanged. intros LD E. rewrite !andb_true_iff in E. destruct E as [[E1 E2] E3]. apply Nat.eqb_eq in E1. rewrite forallb_forall in E2, E3. split.
  - apply list_eq_nth with (d := 0); [now rewrite seq_length|]. intros i Hi. rewrite seq_nth by lia. cbn [plus]. apply Nat.eqb_eq, E2, in_seq. lia.
  - apply list_eq_nth with (d := 0); [now rewrite rev_length, seq_length|]. intros i Hi. rewrite rev_nth by (rewrite seq_length; lia). rewrite seq_length, seq_nth by lia.
    assert (X : snd (i, nth i dom 0) + fst (i, nth i dom 0) + 1 =? nc + nd = true).
    { apply E3. replace (i, nth i dom 0) with (nth i (combine (seq 0 (length dom)) dom) (0, 0)).
      - apply nth_In. rewrite combine_length, seq_length. lia.
      - rewrite combine_nth by now rewrite seq_length. now rewrite seq_nth. }
    apply Nat.eqb_eq in X. cbn [fst snd] in X. lia.
Qed.

Section Call.
  Variables (lo sc ro ri sd li : nat) (c d : list nat) (cl : call).
  Let nc := length c.
  Let nd := length d.
  Let bends := match c_bend cl with BendAll b => repeat (Some b) (nc + nd) | BendList l => l end.
  Hypothesis NC : nc = lo + sc + ro.
  Hypothesis ND : nd = ri + sd + li.
  Hypothesis RR : ro = 0 \/ ri = 0.
  Hypothesis LL : lo = 0 \/ li = 0.
  Hypothesis Rcod : c_cod cl = seq (nc + ri + sd) li ++ seq lo sc ++ seq nc ri.
  Hypothesis Rdom : rev (c_dom cl) = seq (lo + sc) ro ++ seq (nc + ri) sd ++ seq 0 lo.
  Hypothesis Rben : length bends = nc + nd.
  Hypothesis BL : forall i, i < lo \/ nc + ri + sd <= i < nc + nd -> nth i bends None = Some false.
  Hypothesis BR : forall i, lo + sc <= i < nc + ri -> nth i bends None = Some true.

  Lemma do_call_step triv sym : (triv = true -> sym = true) -> exists ev, do_call triv sym (c, d) cl = POk ((map (name (c, d)) (c_cod cl), map (name (c, d)) (c_dom cl)), ev) /\
    (triv = false -> forall (G H : Type) gz gadd gopp hz hadd hopp (beta : G -> G -> H) (q : nat -> G),
      abelian_group gz gadd gopp -> abelian_group hz hadd hopp -> bicharacter G H gadd hadd beta -> charge gz gadd q (c ++ rev d) = gz -> phase gz gadd hz hadd hopp beta q ev = hz).
  Proof.
    intros TS. unfold do_call. cbn [fst snd]. fold nc nd. unfold permute_front. fold bends.
    set (rq := fun bs => Request nc nd (c_cod cl) (c_dom cl) (repeat None (nc + nd)) bs sym).
    assert (LV : length (r_levels (rq bends)) = nc + nd) by (cbn [rq r_levels]; apply repeat_length).
    assert (P : is_perm (nc + nd) (c_cod cl ++ rev (c_dom cl))) by exact (@step_perm nc nd lo sc ro ri sd li (rq bends) NC ND RR LL eq_refl eq_refl Rcod Rdom LV Rben).
    assert (P' : Permutation (c_dom cl ++ c_cod cl) (seq 0 (nc + nd))).
    { rewrite <- P. rewrite Permutation_app_comm. apply Permutation_app_head, Permutation_rev. }
    assert (D : has_dup (c_dom cl ++ c_cod cl) = false). { apply has_dup_NoDup. eapply Permutation_NoDup; [symmetry; exact P'|apply seq_NoDup]. }
    assert (FA : forallb (contains (c_dom cl ++ c_cod cl)) (seq 0 (nc + nd)) = true). { apply forallb_forall. intros i I. apply contains_In. eapply Permutation_in; [symmetry; exact P'|exact I]. }
    rewrite D, FA. cbn [orb negb]. destruct (legs_unchanged nc nd (c_cod cl) (c_dom cl)) eqn:U.
    - apply unchanged_spec in U.
      + destruct U as [ -> -> ]. exists []. destruct (name_legs c d) as [E1 E2]. split.
        * do 2 f_equal. unfold nc, nd in *. now rewrite map_rev, E1, E2, rev_involutive.
        * reflexivity.
      + assert (Y := is_perm_length P). rewrite app_length, rev_length in Y. unfold legs_unchanged in U. rewrite !andb_true_iff in U. destruct U as [[U _] _]. apply Nat.eqb_eq in U. lia.
    - rewrite Rben, Nat.eqb_refl. cbn [negb]. destruct triv.
      + rewrite (TS eq_refl). clear TS. set (r := Request nc nd (c_cod cl) (c_dom cl) (repeat None (nc + nd)) (repeat (Some true) (nc + nd)) true).
        assert (V : valid_request r). { split; [exact P|]. cbn [r r_levels r_bend r_nc r_nd]. rewrite !repeat_length. repeat split. intros i Hi _. rewrite nth_repeat_lt by exact Hi. discriminate. }
        destruct (C22_instructions_realise_request r V (or_introl eq_refl)) as (instrs & ev & E1 & E2). cbn [r r_nc r_nd r_cod r_dom] in E2. rewrite E1.
        apply (exec_rename (name (c, d))) in E2. unfold legs0 in E2. assert (X := name_legs0 c d). unfold legs0 in X. cbn [fst snd] in X. fold nc nd in X. rewrite X in E2. rewrite E2. eexists. split; [reflexivity|discriminate].
      + set (bl := filter _ (c_dom cl) ++ _). set (r := rq bends).
        assert (CH := fun i => @step_changes nc nd lo sc ro ri sd li r NC ND RR LL eq_refl eq_refl Rcod Rdom LV Rben i).
        assert (FB : forallb (fun l => match nth l bends None with Some _ => true | None => false end) bl = true).
        { apply forallb_forall. intros i I. unfold bl in I. apply in_app_iff in I. rewrite !filter_In in I.
          assert (C : i < nc + nd /\ changes_side r i = true).
          { unfold changes_side. cbn [r rq r_nc r_cod r_dom]. destruct I as [[I J]|[I J]].
            - rewrite J. split; [|now apply memb_In]. apply Nat.ltb_lt in J. lia.
            - apply Nat.leb_le in J. destruct (Nat.ltb_spec i nc); [lia|]. split; [|now apply memb_In].
              assert (K : In i (c_dom cl ++ c_cod cl)) by (apply in_app_iff; now right). apply (Permutation_in _ P') in K. apply in_seq in K. lia. }
          destruct C as [L C]. apply (CH i L) in C. destruct C as [C|[C|C]]; [rewrite BL by lia|rewrite BR by lia|rewrite BL by lia]; reflexivity. }
        rewrite FB. fold (rq bends). fold r.
        destruct (@step_run nc nd lo sc ro ri sd li r NC ND RR LL eq_refl eq_refl Rcod Rdom LV Rben BL BR) as (instrs & ev & E1 & E2).
        assert (PH := fun G H gz gadd gopp hz hadd hopp beta q a b e f => @step_phase nc nd lo sc ro ri sd li r NC ND RR LL eq_refl eq_refl Rcod Rdom LV Rben BL BR G H gz gadd gopp hz hadd hopp beta q instrs _ ev a b e f E1 E2).
        rewrite E1. apply (exec_rename (name (c, d))) in E2. unfold legs0 in E2. assert (X := name_legs0 c d). unfold legs0 in X. cbn [fst snd] in X. fold nc nd in X. rewrite X in E2. rewrite E2. cbn [r rq r_cod r_dom].
        eexists. split; [reflexivity|]. intros _ G H gz gadd gopp hz hadd hopp beta q A1 A2 A3 Q. rewrite phase_rename. apply (PH G H gz gadd gopp hz hadd hopp beta (fun i => q (name (c, d) i)) A1 A2 A3).
        etransitivity; [|exact Q]. unfold charge. destruct (name_legs c d) as [N1 N2].
        assert (X1 : map (fun i => q (name (c, d) i)) (seq 0 (nc + nd)) = map q (c ++ rev d)).
        { rewrite <- (map_map (name (c, d)) q). unfold nc, nd. rewrite seq_app, map_app. cbn [plus]. now rewrite N1, N2. }
        now rewrite X1.
  Qed.
End Call.
