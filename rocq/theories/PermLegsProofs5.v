(** C22, part 5: the engine from the constructor to the final check. *)
From Coq Require Import ZArith List Bool Lia Permutation Sorted.
From Verif Require Import Util StableSort RowModel RowProofs GridModel GridProofs PermLegsModel PermLegsSpec PermLegsProofs PermLegsProofs2 PermLegsProofs3 PermLegsProofs4 TensorProofs6.
Import ListNotations.
Set Implicit Arguments. Unset Strict Implicit.
Open Scope nat_scope.

Definition bdir (bend_right : list (option bool)) (i : nat) : should := match nth i bend_right None with Some true => SRight | _ => SLeft end.

Lemma place_spec target bends br n : forall idcs k tp sb, NoDup idcs -> Forall (fun i => i < n) idcs -> length tp = n -> length sb = n ->
  (forall i, In i idcs -> bends i = true -> nth i br None <> None) ->
  exists tp' sb', place idcs target bends br k n tp sb = Ok (tp', sb') /\ length tp' = n /\ length sb' = n /\
    (forall j, j < length idcs -> nth (nth j idcs 0) tp' None = Some (target (k + j))) /\
    (forall i, ~ In i idcs -> nth i tp' None = nth i tp None) /\
    (forall i, i < n -> nth i sb' SNone = if memb i idcs && bends i then bdir br i else nth i sb SNone).
Proof.
  induction idcs as [|x idcs IH]; intros k tp sb ND F Lt Ls HB.
  - exists tp, sb. cbn [place]. repeat split; auto. intros j Hj. cbn [length] in Hj. lia.
  - inversion ND as [|? ? N1 N2]; subst. inversion F as [|? ? F1 F2]; subst. cbn [place]. destruct (Nat.leb_spec (length tp) x); [lia|].
    set (sb1 := if bends x then upd sb x (bdir br x) else sb).
    assert (E : (if bends x then match nth x br None with None => Err EBadOptional
                 | Some r => place idcs target bends br (k + 1) (length tp) (upd tp x (Some (target k))) (upd sb x (if r then SRight else SLeft)) end
                 else place idcs target bends br (k + 1) (length tp) (upd tp x (Some (target k))) sb)
              = place idcs target bends br (k + 1) (length tp) (upd tp x (Some (target k))) sb1).
    { unfold sb1, bdir. destruct (bends x) eqn:Eb; [|reflexivity]. pose proof (HB x (or_introl eq_refl) Eb) as NN. destruct (nth x br None) as [[]|]; [reflexivity|reflexivity|easy]. }
    rewrite E. destruct (IH (k + 1) (upd tp x (Some (target k))) sb1) as [tp' [sb' [E1 [L1 [L2 [H1 [H2 H3]]]]]]]; auto.
    + now rewrite upd_length.
    + unfold sb1. destruct (bends x); [rewrite upd_length|]; exact Ls.
    + intros i Hi. apply HB. now right.
    + exists tp', sb'. split; [exact E1|]. split; [exact L1|]. split; [exact L2|]. split; [|split].
      * intros [|j] Hj; cbn [nth length] in *.
        -- rewrite H2 by exact N1. rewrite nth_upd_eq by lia. f_equal. f_equal. lia.
        -- rewrite H1 by lia. f_equal. f_equal. lia.
      * intros i Hi. rewrite H2 by (intros X; apply Hi; now right). apply nth_upd_neq. intros ->. apply Hi. now left.
      * intros i Hi. rewrite H3 by exact Hi. unfold memb. cbn [existsb]. fold (memb i idcs). destruct (Nat.eqb_spec i x) as [->|D].
        -- cbn [orb andb]. destruct (memb x idcs) eqn:Em; [apply memb_In in Em; easy|]. cbn [andb]. unfold sb1. destruct (bends x); [|reflexivity]. apply nth_upd_eq. lia.
        -- cbn [orb]. destruct (memb i idcs && bends i); [reflexivity|]. unfold sb1. destruct (bends x); [|reflexivity]. apply nth_upd_neq. lia.
Qed.

Section Main.
  Variable r : request.
  Hypothesis V : valid_request r.
  Notation nc := (r_nc r).
  Notation nd := (r_nd r).
  Notation N := (nc + nd).
  Let T := r_cod r ++ rev (r_dom r).

  Definition bsp (i : nat) : should := if bends_left r i then SLeft else if bends_right r i then SRight else SNone.

  Lemma V_perm : is_perm N T. Proof. exact (proj1 V). Qed.
  Lemma V_len : length (r_cod r) + length (r_dom r) = N.
  Proof. pose proof (is_perm_length V_perm) as L. unfold T in L. rewrite app_length, rev_length in L. exact L. Qed.
  Lemma V_nd : NoDup T. Proof. exact (is_perm_NoDup V_perm). Qed.
  Lemma V_disj i : In i (r_cod r) -> In i (r_dom r) -> False.
  Proof.
    intros H1 H2. pose proof V_nd as ND. unfold T in ND. clear - H1 H2 ND. induction (r_cod r) as [|x l IH]; [easy|]. cbn [app] in ND. inversion ND as [|? ? N1 N2]; subst.
    destruct H1 as [->|H1]; [|now apply IH]. apply N1. apply in_or_app. right. now apply -> in_rev.
  Qed.
  Lemma V_in i : i < N -> In i (r_cod r) \/ In i (r_dom r).
  Proof. intros H. apply (is_perm_In _ V_perm) in H. unfold T in H. apply in_app_or in H. destruct H as [H|H]; [now left|right; now apply in_rev]. Qed.
  Lemma V_lt i : In i (r_cod r) \/ In i (r_dom r) -> i < N.
  Proof. intros H. apply (is_perm_In _ V_perm). unfold T. apply in_or_app. destruct H as [H|H]; [now left|right; now apply -> in_rev]. Qed.

  Lemma engine_spec : exists tps sb, make_engine nc nd (r_cod r) (r_dom r) (r_levels r) (r_bend r) = Ok (Engine nc nd tps sb (r_levels r) []) /\
    length tps = N /\ length sb = N /\ (forall k, k < N -> nth (nth k T 0) tps None = Some k) /\ (forall i, i < N -> nth i sb SNone = bsp i).
  Proof.
    pose proof V as [_ [VL [VB VBN]]]. pose proof V_nd as ND. unfold T in ND.
    unfold make_engine.
    destruct (@place_spec (fun k => k) (fun i => nc <=? i) (r_bend r) N (r_cod r) 0 (repeat None N) (repeat SNone N)) as [t1 [s1 [E1 [L1 [L2 [H1 [H2 H3]]]]]]].
    - now apply NoDup_app_l' in ND.
    - apply Forall_forall. intros i Hi. apply V_lt. now left.
    - apply repeat_length.
    - apply repeat_length.
    - intros i Hi Hb. apply Nat.leb_le in Hb. apply VBN; [apply V_lt; now left|]. unfold changes_side. destruct (Nat.ltb_spec i nc); [lia|]. now apply memb_In.
    - rewrite E1.
      destruct (@place_spec (fun k => N - 1 - k) (fun i => i <? nc) (r_bend r) N (r_dom r) 0 t1 s1) as [t2 [s2 [E2 [L1' [L2' [H1' [H2' H3']]]]]]]; auto.
      + apply NoDup_app_r' in ND. apply (Permutation_NoDup (Permutation_sym (Permutation_rev (r_dom r)))). exact ND.
      + apply Forall_forall. intros i Hi. apply V_lt. now right.
      + intros i Hi Hb. apply Nat.ltb_lt in Hb. apply VBN; [apply V_lt; now right|]. unfold changes_side. destruct (Nat.ltb_spec i nc); [|lia]. now apply memb_In.
      + rewrite E2. exists t2, s2. split; [reflexivity|]. split; [exact L1'|]. split; [exact L2'|]. pose proof V_len as VLn. split.
        * intros k Hk. unfold T. destruct (Nat.lt_ge_cases k (length (r_cod r))) as [Hc|Hc].
          -- rewrite app_nth1 by exact Hc. rewrite H2'. 2:{ intros X. apply (@V_disj (nth k (r_cod r) 0)); [now apply nth_In|exact X]. }
             rewrite H1 by exact Hc. reflexivity.
          -- rewrite app_nth2 by exact Hc. rewrite rev_nth by lia. rewrite H1' by lia. f_equal. lia.
        * intros i Hi. rewrite H3' by exact Hi. rewrite H3 by exact Hi. unfold bsp, bends_left, bends_right, changes_side, bdir.
          rewrite nth_repeat_lt by exact Hi. destruct (Nat.ltb_spec i nc) as [Hlt|Hge].
          -- rewrite andb_true_r. rewrite (proj2 (Nat.leb_gt nc i)) by exact Hlt. rewrite andb_false_r. destruct (memb i (r_dom r)); cbn [andb]; [|reflexivity].
             destruct (nth i (r_bend r) None) as [[]|]; reflexivity.
          -- rewrite andb_false_r. rewrite (proj2 (Nat.leb_le nc i)) by exact Hge. rewrite andb_true_r. destruct (memb i (r_cod r)); cbn [andb]; [|reflexivity].
             destruct (nth i (r_bend r) None) as [[]|]; reflexivity.
  Qed.

  (** the classes of legs *)
  Lemma bsp_left i : isl bsp i = bends_left r i.
  Proof. unfold isl, bsp. destruct (bends_left r i), (bends_right r i); reflexivity. Qed.
  Lemma bsp_right i : isr bsp i = bends_right r i.
  Proof. unfold isr, bsp, bends_left, bends_right. destruct (changes_side r i), (nth i (r_bend r) None) as [[]|]; reflexivity. Qed.
  Lemma bsp_none i : isn bsp i = neither r i.
  Proof. unfold isn, bsp, bends_left, bends_right, neither. destruct (changes_side r i), (nth i (r_bend r) None) as [[]|]; reflexivity. Qed.
  Lemma bsp_changes i : bsp i <> SNone <-> changes_side r i = true.
  Proof. unfold bsp, bends_left, bends_right. destruct (changes_side r i), (nth i (r_bend r) None) as [[]|]; cbn [andb]; split; congruence. Qed.
  Definition right_out := filter (bends_right r) (seq 0 nc).
  Lemma seq_split : seq 0 N = seq 0 nc ++ seq nc nd.
  Proof. apply seq_app. Qed.

  Definition events (js1 js2 js3 : list nat) : list event :=
    map (cross r) (log (seq 0 N) js1) ++ turn (left_out r) true ++ over_right (left_out r) (rest1 r) ++
    map (cross r) (log (rest1 r ++ left_out r) js2) ++ turn (rev (left_in r)) false ++ over_left (left_in r) (rest2 r) ++
    map (cross r) (log (left_in r ++ rest2 r) js3).

  Lemma run_spec :
    match run r with
    | Ok instrs => exists js1 js2 js3,
        Forall (fun j => S j < N) js1 /\ Forall (fun j => S j < N) js2 /\ Forall (fun j => S j < N) js3 /\
        do_swaps (seq 0 N) js1 = left_out r ++ rest1 r /\ do_swaps (rest1 r ++ left_out r) js2 = rest2 r ++ left_in r /\ do_swaps (left_in r ++ rest2 r) js3 = T /\
        Forall (gn r (must_cross r)) (log (seq 0 N) js1 ++ log (rest1 r ++ left_out r) js2 ++ log (left_in r ++ rest2 r) js3) /\
        exec (legs0 nc nd) instrs = Some ((r_cod r, r_dom r), events js1 js2 js3)
    | Err e => e = EChirality /\ exists a b, must_cross r a b /\ ~ good r (a, b)
    end.
  Proof.
    destruct engine_spec as [tps [sb [EE [Ltp [Lsb [Htp Hsb]]]]]]. unfold run, permute_instructions. rewrite EE.
    set (st0 := Engine nc nd tps sb (r_levels r) []). set (tp0 := fun i => nth i tps None). pose proof V as [_ [VL [VB VBN]]].
    assert (PO : post r (must_cross r) (evaluate_instructions N (r_sym r)) st0 (fun instrs _ => exists js1 js2 js3,
        Forall (fun j => S j < N) js1 /\ Forall (fun j => S j < N) js2 /\ Forall (fun j => S j < N) js3 /\
        do_swaps (seq 0 N) js1 = left_out r ++ rest1 r /\ do_swaps (rest1 r ++ left_out r) js2 = rest2 r ++ left_in r /\ do_swaps (left_in r ++ rest2 r) js3 = T /\
        Forall (gn r (must_cross r)) (log (seq 0 N) js1 ++ log (rest1 r ++ left_out r) js2 ++ log (left_in r ++ rest2 r) js3) /\
        exec (legs0 nc nd) instrs = Some ((r_cod r, r_dom r), events js1 js2 js3))).
    2:{ unfold post in PO. destruct (evaluate_instructions N (r_sym r) st0) as [[l s]|e]; exact PO. }
    (* the initial state *)
    assert (R0 : R r tp0 (seq 0 nc ++ seq nc nd) bsp [] (length (seq 0 nc)) st0).
    { rewrite <- seq_split, seq_length. unfold st0. split; cbn [num_codomain_legs num_domain_legs target_positions should_bend levels instructions].
      - reflexivity.
      - lia.
      - lia.
      - apply seq_length.
      - symmetry. rewrite <- Ltp. apply take_seq.
      - symmetry. rewrite <- (take_seq SNone sb), Lsb. apply map_ext_in. intros i Hi. apply in_seq in Hi. symmetry. apply Hsb. lia.
      - symmetry. rewrite <- VL. apply take_seq.
      - cbn [exec]. unfold legs0. rewrite seq_split. rewrite firstn_app, skipn_app, seq_length, Nat.sub_diag. cbn [firstn skipn]. rewrite app_nil_r.
        rewrite firstn_all2, skipn_all2 by (rewrite seq_length; lia). reflexivity. }
    set (cod0 := seq 0 nc) in *. set (dom0 := seq nc nd) in *.
    assert (Fl : filter (isl bsp) cod0 = left_out r) by (apply filter_ext, bsp_left).
    assert (Fr : filter (isr bsp) cod0 = right_out) by (apply filter_ext, bsp_right).
    assert (Fn : filter (isn bsp) cod0 = stay_cod r) by (apply filter_ext, bsp_none).
    unfold evaluate_instructions.
    eapply post_bind; [apply post_get with (Q := fun s s' => s = st0 /\ s' = st0); easy|]. intros s s' [-> ->].
    eapply post_bind; [apply post_check with (Q := fun _ s' => s' = st0); reflexivity|]. intros _ s' ->.
    (* step 1 *)
    eapply post_bind; [eapply (@step1 r tp0 (must_cross r) bsp [] st0 cod0 dom0 R0)|].
    { intros a b Hab. left. rewrite seq_split. rewrite Fl, Fr, Fn in Hab. exact Hab. }
    rewrite Fl, Fr, Fn. cbv beta. intros lr st1 [-> [js1 [F1 [E1 [R1 G1]]]]]. cbn [fst snd]. cbn [app] in R1.
    assert (El1 : left_out r ++ stay_cod r ++ right_out ++ dom0 = left_out r ++ rest1 r) by reflexivity.
    assert (P1 : Permutation (left_out r ++ rest1 r) (seq 0 N)). { rewrite <- El1, <- E1, seq_split. apply do_swaps_perm. }
    assert (ND1 : NoDup (left_out r ++ rest1 r)) by (apply (Permutation_NoDup (Permutation_sym P1)), seq_NoDup).
    assert (Lc1 : length cod0 = length (left_out r) + length (stay_cod r) + length right_out).
    { apply Permutation_length in P1. rewrite <- El1, !app_length, seq_length in P1. unfold dom0 in P1. rewrite seq_length in P1. unfold cod0. rewrite seq_length. lia. }
    (* step 2 *)
    eapply post_bind; [eapply (@step2 r tp0 (must_cross r) (left_out r) (stay_cod r) right_out dom0 bsp _ st1)|].
    { exact ND1. } { rewrite <- Lc1. exact R1. }
    { intros x Hx. apply bsp_changes. apply in_app_or in Hx. destruct Hx as [Hx|Hx]; apply filter_In in Hx; destruct Hx as [_ Hx]; apply andb_true_iff in Hx; easy. }
    cbv beta. intros _ st2 R2.
    set (B1 := unbend bsp (right_out ++ left_out r)) in *. set (X := right_out ++ dom0 ++ left_out r) in *.
    assert (B1n : forall x, In x (right_out ++ left_out r) -> B1 x = SNone). { intros x Hx. unfold B1, unbend. now rewrite (proj2 (memb_In x _)). }
    assert (B1d : forall x, ~ In x (right_out ++ left_out r) -> B1 x = bsp x).
    { intros x Hx. unfold B1, unbend. destruct (memb x (right_out ++ left_out r)) eqn:E; [apply memb_In in E; easy|reflexivity]. }
    assert (Out : forall x, In x (right_out ++ left_out r) -> x < nc).
    { intros x Hx. apply in_app_or in Hx. destruct Hx as [Hx|Hx]; apply filter_In in Hx; destruct Hx as [Hx _]; apply in_seq in Hx; lia. }
    assert (B1dom : forall x, In x dom0 -> B1 x = bsp x). { intros x Hx. apply B1d. intros Hx'. apply Out in Hx'. apply in_seq in Hx. lia. }
    assert (ND2 : NoDup (stay_cod r ++ X)).
    { revert ND1. apply Permutation_NoDup. unfold rest1. fold right_out dom0. unfold X. rewrite (Permutation_app_comm (left_out r)). now rewrite <- !app_assoc. }
    assert (FX : forall f s, (forall x, f x = should_eqb (B1 x) s) -> s <> SNone -> filter f X = filter (fun x => should_eqb (bsp x) s) dom0).
    { intros f s Hf Hs. unfold X. rewrite !filter_app.
      rewrite (filter_none (l := right_out)). 2:{ intros x Hx. rewrite Hf, B1n by (apply in_or_app; now left). now destruct s. }
      rewrite (filter_none (l := left_out r)). 2:{ intros x Hx. rewrite Hf, B1n by (apply in_or_app; now right). now destruct s. }
      rewrite app_nil_r. cbn [app]. apply filter_ext_in. intros x Hx. now rewrite Hf, B1dom. }
    assert (FXl : filter (isl B1) X = left_in r). { rewrite (FX _ SLeft) by (easy || reflexivity). apply filter_ext, bsp_left. }
    assert (FXr : filter (isr B1) X = right_in r). { rewrite (FX _ SRight) by (easy || reflexivity). apply filter_ext, bsp_right. }
    assert (PX : Permutation (rev (r_dom r)) (filter (isn B1) X)).
    { apply NoDup_Permutation.
      - pose proof V_nd as ND. unfold T in ND. now apply NoDup_app_r' in ND.
      - apply NoDup_filter. now apply NoDup_app_r' in ND2.
      - intros x. rewrite <- in_rev, filter_In. unfold X. rewrite !in_app_iff. split.
        + intros Hx. assert (HxN : x < N) by (apply V_lt; now right). destruct (Nat.lt_ge_cases x nc) as [Hlt|Hge].
          * assert (Hch : changes_side r x = true). { unfold changes_side. rewrite (proj2 (Nat.ltb_lt _ _) Hlt). now apply memb_In. }
            assert (Hin : In x (right_out ++ left_out r)).
            { apply in_or_app. unfold right_out, left_out. rewrite !filter_In, in_seq. unfold bends_left, bends_right. rewrite Hch. destruct (nth x (r_bend r) None) as [[]|]; [left|right|right]; (split; [lia|reflexivity]). }
            split; [apply in_app_or in Hin; tauto|]. unfold isn. now rewrite B1n.
          * assert (Hd : In x dom0) by (apply in_seq; lia). split; [tauto|]. unfold isn. rewrite B1dom by exact Hd. apply should_eqb_eq.
            destruct (bsp x) eqn:Eb; [reflexivity| |]; (assert (Hch : changes_side r x = true) by (apply bsp_changes; congruence); unfold changes_side in Hch; rewrite (proj2 (Nat.ltb_ge _ _) Hge) in Hch; apply memb_In in Hch; exfalso; exact (V_disj Hch Hx)).
        + intros [Hx Hb]. destruct (in_dec Nat.eq_dec x (right_out ++ left_out r)) as [Hi|Hi].
          * assert (Hlt := Out x Hi). assert (Hch : changes_side r x = true).
            { apply in_app_or in Hi. destruct Hi as [Hi|Hi]; apply filter_In in Hi; destruct Hi as [_ Hi]; apply andb_true_iff in Hi; easy. }
            unfold changes_side in Hch. rewrite (proj2 (Nat.ltb_lt _ _) Hlt) in Hch. now apply memb_In in Hch.
          * assert (Hd : In x dom0). { rewrite in_app_iff in Hi. tauto. }
            unfold isn in Hb. apply should_eqb_eq in Hb. rewrite B1dom in Hb by exact Hd. apply in_seq in Hd.
            destruct (V_in (i := x)) as [Hx'|Hx']; [lia| |exact Hx']. exfalso.
            assert (Hch : changes_side r x = true). { unfold changes_side. rewrite (proj2 (Nat.ltb_ge _ _)) by lia. now apply memb_In. }
            apply bsp_changes in Hch. easy. }
    pose proof V_len as VLn.
    assert (TD : forall i, i < length (r_dom r) -> tp0 (nth i (rev (r_dom r)) 0) = Some (length (r_cod r) + i)).
    { intros i Hi. unfold tp0. rewrite <- (Htp (length (r_cod r) + i)) by lia. f_equal. unfold T. rewrite app_nth2_plus. reflexivity. }
    (* step 3 *)
    eapply post_bind; [eapply (@step3 r tp0 (must_cross r) (stay_cod r) X (rev (r_dom r)) B1 _ st2 ND2 R2)|].
    { intros x Hx. unfold B1, unbend. destruct (memb x (right_out ++ left_out r)); [reflexivity|]. apply filter_In in Hx. destruct Hx as [_ Hx]. rewrite <- bsp_none in Hx. now apply should_eqb_eq. }
    { exact PX. }
    { apply (StronglySorted_nth _ 0). rewrite rev_length. intros i j Hij. unfold tlt. rewrite !TD by lia. lia. }
    { intros x Hx. apply (In_nth _ _ 0) in Hx. rewrite rev_length in Hx. destruct Hx as [i [Hi <-]]. rewrite TD by exact Hi. discriminate. }
    { intros a b Hab. right. left. rewrite FXl, FXr in Hab. unfold rest1, rest2. fold right_out dom0. rewrite <- !app_assoc. exact Hab. }
    rewrite FXl, FXr. cbv beta. intros lr st3 [-> [js2 [F2 [E2 [R3 G2]]]]]. cbn [fst snd].
    assert (Er1 : stay_cod r ++ X = rest1 r ++ left_out r) by (unfold rest1, X; fold right_out dom0; now rewrite <- !app_assoc).
    assert (Er2 : stay_cod r ++ right_in r ++ rev (r_dom r) ++ left_in r = rest2 r ++ left_in r) by (unfold rest2; now rewrite <- !app_assoc).
    assert (ND3 : NoDup (stay_cod r ++ right_in r ++ rev (r_dom r) ++ left_in r)).
    { rewrite <- E2. apply (Permutation_NoDup (Permutation_sym (do_swaps_perm js2 (stay_cod r ++ X)))). exact ND2. }
    (* step 4 *)
    eapply post_bind; [eapply (@step4 r tp0 (must_cross r) (left_in r) (stay_cod r) (right_in r) (rev (r_dom r)) B1 _ st3 ND3 R3)|].
    { intros x Hx. assert (Hd : In x dom0 /\ changes_side r x = true).
      { apply in_app_or in Hx. destruct Hx as [Hx|Hx]; apply filter_In in Hx; destruct Hx as [Hx1 Hx2]; apply andb_true_iff in Hx2; easy. }
      destruct Hd as [Hd1 Hd2]. rewrite B1dom by exact Hd1. now apply bsp_changes. }
    cbv beta. intros _ st4 R4.
    set (B2 := unbend B1 (right_in r ++ left_in r)) in *.
    assert (Ec : left_in r ++ stay_cod r ++ right_in r ++ rev (r_dom r) = (left_in r ++ stay_cod r ++ right_in r) ++ rev (r_dom r)) by now rewrite <- !app_assoc.
    assert (P4 : Permutation ((left_in r ++ stay_cod r ++ right_in r) ++ rev (r_dom r)) (seq 0 N)).
    { rewrite <- Ec. transitivity (stay_cod r ++ right_in r ++ rev (r_dom r) ++ left_in r).
      - rewrite (Permutation_app_comm (left_in r)). now rewrite <- !app_assoc.
      - rewrite <- E2. rewrite do_swaps_perm. rewrite Er1. rewrite Permutation_app_comm. exact P1. }
    assert (P5 : Permutation (left_in r ++ stay_cod r ++ right_in r) (r_cod r)).
    { apply (Permutation_app_inv_r (rev (r_dom r))). rewrite P4. symmetry. exact V_perm. }
    rewrite Ec in R4.
    replace (length (left_in r) + length (stay_cod r) + length (right_in r)) with (length (left_in r ++ stay_cod r ++ right_in r)) in R4 by (rewrite !app_length; lia).
    (* step 5 *)
    eapply post_bind; [eapply (@step5 r tp0 (must_cross r) (left_in r ++ stay_cod r ++ right_in r) (r_cod r) (rev (r_dom r)) B2 _ st4 R4 P5)|].
    { intros k Hk. unfold tp0. rewrite <- (Htp k) by lia. f_equal. unfold T. now rewrite app_nth1. }
    { intros a b Hab. right. right. rewrite <- Ec in Hab. exact Hab. }
    cbv beta. intros _ st5 [js3 [F3 [E3 [R5 G3]]]].
    eapply post_bind; [apply post_get with (Q := fun s s' => s = st5 /\ s' = st5); easy|]. intros s s' [-> ->].
    eapply post_bind; [apply post_check with (Q := fun _ s' => s' = st5); [|reflexivity]|].
    { rewrite (R_tp R5), map_length. fold T. rewrite (is_perm_length V_perm). apply forallb_forall. intros i Hi. apply in_seq in Hi.
      rewrite nth_map_lt with (d := 0) by (rewrite (is_perm_length V_perm); lia). unfold tp0. rewrite Htp by lia. apply Nat.eqb_refl. }
    intros _ s' ->.
    eapply post_bind; [apply post_check with (Q := fun _ s' => s' = st5); [|reflexivity]|].
    { rewrite (R_sb R5). fold T. apply forallb_forall. intros b Hb. apply in_map_iff in Hb. destruct Hb as [x [<- Hx]]. apply should_eqb_eq.
      unfold B2, B1. rewrite unbend_app. unfold unbend. destruct (memb x ((right_out ++ left_out r) ++ right_in r ++ left_in r)) eqn:Em; [reflexivity|].
      destruct (bsp x) eqn:Eb; [reflexivity| |]; exfalso.
      - assert (Hb : bends_left r x = true) by (rewrite <- bsp_left; unfold isl; now rewrite Eb).
        apply Bool.not_true_iff_false in Em. apply Em. apply memb_In. rewrite !in_app_iff. unfold left_out, left_in. rewrite !filter_In, !in_seq.
        apply (is_perm_In _ V_perm) in Hx. destruct (Nat.lt_ge_cases x nc); [left; right|right; right]; (split; [lia|exact Hb]).
      - assert (Hb : bends_right r x = true) by (rewrite <- bsp_right; unfold isr; now rewrite Eb).
        apply Bool.not_true_iff_false in Em. apply Em. apply memb_In. rewrite !in_app_iff. unfold right_out, right_in. rewrite !filter_In, !in_seq.
        apply (is_perm_In _ V_perm) in Hx. destruct (Nat.lt_ge_cases x nc); [left; left|right; left]; (split; [lia|exact Hb]). }
    intros _ s' ->. apply post_ret. exists js1, js2, js3.
    assert (RG : forall c js, Forall (in_range r c) js -> Forall (fun j => S j < N) js) by (intros c js; apply Forall_impl; intros j [Hj _]; exact Hj).
    split; [exact (RG _ _ F1)|]. split; [exact (RG _ _ F2)|]. split; [exact (RG _ _ F3)|].
    assert (Esq : seq 0 N = cod0 ++ dom0) by exact seq_split.
    rewrite Er1, Er2 in E2. rewrite <- Ec in E3. rewrite Esq.
    split; [exact E1|]. split; [exact E2|]. split; [exact E3|]. split.
    - apply Forall_app. split; [exact G1|]. apply Forall_app. rewrite Er1 in G2. rewrite <- Ec in G3. split; [exact G2|exact G3].
    - rewrite (R_ex R5). f_equal. f_equal.
      + assert (Lc5 : length (left_in r ++ stay_cod r ++ right_in r) = length (r_cod r)) by (apply Permutation_length; exact P5).
        rewrite Lc5, firstn_app, skipn_app, firstn_all, skipn_all, Nat.sub_diag. cbn [firstn skipn app]. rewrite app_nil_r, rev_involutive. reflexivity.
      + unfold events. rewrite Esq. rewrite <- Er1. unfold rest1 at 1, rest2 at 1. fold right_out dom0. rewrite <- !app_assoc. reflexivity.
  Qed.
End Main.
