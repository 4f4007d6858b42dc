(** C22, part 6: phases. *)
From Coq Require Import ZArith List Bool Lia Permutation Sorted.
From Verif Require Import Util StableSort RowModel RowProofs GridModel GridProofs PermLegsModel PermLegsSpec PermLegsProofs PermLegsProofs2 PermLegsProofs3 PermLegsProofs4 PermLegsProofs5.
Import ListNotations.
Set Implicit Arguments. Unset Strict Implicit.
Open Scope nat_scope.

Section Grp.
  Variables (H : Type) (hz : H) (hadd : H -> H -> H) (hopp : H -> H).
  Hypothesis HG : abelian_group hz hadd hopp.
  Infix "+'" := hadd (at level 50, left associativity).
  Lemma g_assoc x y z : x +' (y +' z) = x +' y +' z. Proof. apply HG. Qed.
  Lemma g_comm x y : x +' y = y +' x. Proof. apply HG. Qed.
  Lemma g_0l x : hz +' x = x. Proof. apply HG. Qed.
  Lemma g_0r x : x +' hz = x. Proof. rewrite g_comm. apply g_0l. Qed.
  Lemma g_oppr x : x +' hopp x = hz. Proof. apply HG. Qed.
  Lemma g_oppl x : hopp x +' x = hz. Proof. rewrite g_comm. apply g_oppr. Qed.
  Lemma g_cancel x y z : x +' y = x +' z -> y = z.
  Proof. intros E. assert (X : hopp x +' (x +' y) = hopp x +' (x +' z)) by now rewrite E. now rewrite !g_assoc, !g_oppl, !g_0l in X. Qed.
  Lemma g_uniq x y : x +' y = hz -> y = hopp x.
  Proof. intros E. apply (g_cancel (x := x)). now rewrite g_oppr. Qed.
  Lemma g_opp_opp x : hopp (hopp x) = x. Proof. symmetry. apply g_uniq. apply g_oppl. Qed.
  Lemma g_swap4 a b c d : (a +' b) +' (c +' d) = (a +' c) +' (b +' d).
  Proof. rewrite !g_assoc. f_equal. rewrite <- !g_assoc. f_equal. apply g_comm. Qed.
  Lemma g_opp_add x y : hopp (x +' y) = hopp x +' hopp y.
  Proof. symmetry. apply g_uniq. rewrite g_swap4, !g_oppr. apply g_0l. Qed.
  Lemma g_opp_0 : hopp hz = hz. Proof. symmetry. apply g_uniq. apply g_0l. Qed.
  Lemma gsum_app l1 l2 : gsum hz hadd (l1 ++ l2) = gsum hz hadd l1 +' gsum hz hadd l2.
  Proof. induction l1 as [|x l IH]; cbn [app gsum fold_right]; [symmetry; apply g_0l|]. fold (gsum hz hadd (l ++ l2)) (gsum hz hadd l). now rewrite IH, g_assoc. Qed.
  Lemma gsum_perm l1 l2 : Permutation l1 l2 -> gsum hz hadd l1 = gsum hz hadd l2.
  Proof.
    induction 1; cbn [gsum fold_right]; auto.
    - unfold gsum in *. now rewrite IHPermutation.
    - rewrite !g_assoc. f_equal. apply g_comm.
    - congruence.
  Qed.
  Lemma gsum_opp A (f : A -> H) l : gsum hz hadd (map (fun x => hopp (f x)) l) = hopp (gsum hz hadd (map f l)).
  Proof. induction l as [|x l IH]; cbn [map gsum fold_right]; [symmetry; apply g_opp_0|]. unfold gsum in *. now rewrite IH, g_opp_add. Qed.
  Lemma gsum_rev l : gsum hz hadd (rev l) = gsum hz hadd l.
  Proof. apply gsum_perm. symmetry. apply Permutation_rev. Qed.
End Grp.

(** decide equality of sums up to order *)
Ltac gflat hadd hz t :=
  match t with
  | hadd ?a ?b => let la := gflat hadd hz a in let lb := gflat hadd hz b in let r := eval cbn [app] in (la ++ lb) in constr:(r)
  | hz => let T := type of hz in constr:(@nil T)
  | ?x => constr:([x])
  end.
Ltac psplit x pre l :=
  match l with
  | x :: ?t => constr:((pre, t))
  | ?y :: ?t => let pre' := eval cbn [app] in (pre ++ [y]) in psplit x pre' t
  end.
Ltac psolve :=
  match goal with
  | |- Permutation [] [] => apply perm_nil
  | |- @Permutation ?A (?x :: ?l) ?m => let s := psplit x (@nil A) m in match s with (?p, ?t) => apply (@Permutation_cons_app A l p t x); cbn [app]; psolve end
  end.
Ltac gsolve HG :=
  match type of HG with
  | abelian_group ?hz ?hadd _ =>
    match goal with
    | |- ?a = ?b =>
      let la := gflat hadd hz a in let lb := gflat hadd hz b in
      transitivity (gsum hz hadd la); [cbn [gsum fold_right]; rewrite ?(g_0r HG), ?(g_0l HG), <- ?(g_assoc HG), ?(g_0r HG), ?(g_0l HG); reflexivity|];
      transitivity (gsum hz hadd lb); [apply (gsum_perm HG); psolve|cbn [gsum fold_right]; rewrite ?(g_0r HG), ?(g_0l HG), <- ?(g_assoc HG), ?(g_0r HG), ?(g_0l HG); reflexivity]
    end
  end.

Section Phase.
  Variables (G H : Type) (gz : G) (gadd : G -> G -> G) (gopp : G -> G) (hz : H) (hadd : H -> H -> H) (hopp : H -> H).
  Hypothesis GG : abelian_group gz gadd gopp.
  Hypothesis HG : abelian_group hz hadd hopp.
  Variable beta : G -> G -> H.
  Hypothesis beta_l : forall x y z, beta (gadd x y) z = hadd (beta x z) (beta y z).
  Hypothesis beta_r : forall x y z, beta x (gadd y z) = hadd (beta x y) (beta x z).
  Variable q : nat -> G.
  Infix "+'" := hadd (at level 50, left associativity).
  Notation ch := (charge gz gadd q).
  Notation ep := (event_phase gz gadd hopp beta q).
  Notation ph := (phase gz gadd hz hadd hopp beta q).
  Notation pot := (potential hz hadd beta q).
  Notation sum := (gsum hz hadd).

  Lemma beta_0l x : beta gz x = hz.
  Proof. apply (g_cancel HG (x := beta gz x)). rewrite <- beta_l. rewrite (g_0l GG). symmetry. apply (g_0r HG). Qed.
  Lemma beta_0r x : beta x gz = hz.
  Proof. apply (g_cancel HG (x := beta x gz)). rewrite <- beta_r. rewrite (g_0l GG). symmetry. apply (g_0r HG). Qed.
  Lemma beta_suml l y : beta (ch l) y = sum (map (fun x => beta (q x) y) l).
  Proof. induction l as [|x l IH]; cbn [map charge gsum fold_right]; [apply beta_0l|]. unfold charge, gsum in *. cbn [map fold_right]. now rewrite beta_l, IH. Qed.
  Lemma beta_sumr x l : beta x (ch l) = sum (map (fun y => beta x (q y)) l).
  Proof. induction l as [|y l IH]; cbn [map charge gsum fold_right]; [apply beta_0r|]. unfold charge, gsum in *. cbn [map fold_right]. now rewrite beta_r, IH. Qed.
  Lemma ph_app a b : ph (a ++ b) = ph a +' ph b.
  Proof. unfold phase. rewrite map_app. apply (gsum_app HG). Qed.
  Lemma ph_rev a : ph (rev a) = ph a.
  Proof. unfold phase. rewrite map_rev. apply (gsum_rev HG). Qed.
  Lemma ch_app a b : ch (a ++ b) = gadd (ch a) (ch b).
  Proof. unfold charge. rewrite map_app. apply (gsum_app GG). Qed.
  Lemma ch_perm a b : Permutation a b -> ch a = ch b.
  Proof. intros P. unfold charge. apply (gsum_perm GG). now apply Permutation_map. Qed.

  Lemma ph_turn ls ov : ph (turn ls ov) = if ov then beta (ch ls) (ch ls) else hopp (beta (ch ls) (ch ls)).
  Proof.
    destruct ls as [|x t].
    - cbn [turn]. unfold phase. cbn [map gsum fold_right]. unfold charge. cbn [map gsum fold_right]. rewrite beta_0l. destruct ov; [reflexivity|symmetry; apply (g_opp_0 HG)].
    - cbn [turn]. unfold phase. cbn [map gsum fold_right event_phase]. rewrite (g_0r HG). now destruct ov.
  Qed.
  Lemma ph_flat A (f : A -> list event) (l : list A) : ph (flat_map f l) = sum (map (fun x => ph (f x)) l).
  Proof. induction l as [|x l IH]; [reflexivity|]. cbn [flat_map map gsum fold_right]. rewrite ph_app, IH. reflexivity. Qed.
  Lemma ph_over_right ls others : ph (over_right ls others) = beta (ch ls) (ch others).
  Proof.
    unfold over_right. rewrite ph_flat. rewrite map_rev, (gsum_rev HG). rewrite beta_suml. f_equal. apply map_ext. intros x. rewrite beta_sumr.
    unfold phase. now rewrite map_map.
  Qed.
  Lemma ph_over_left ls others : ph (over_left ls others) = hopp (beta (ch ls) (ch others)).
  Proof.
    unfold over_left. rewrite ph_flat. rewrite beta_suml. rewrite <- (gsum_opp HG). f_equal. apply map_ext. intros x. rewrite beta_sumr.
    unfold phase. rewrite map_map. cbn [event_phase]. rewrite map_rev, (gsum_rev HG). now rewrite (gsum_opp HG).
  Qed.
  (** a left bend: the twist and the crossings with all other legs cancel *)
  Lemma left_bend_out ls others : gadd (ch ls) (ch others) = gz -> ph (turn ls true ++ over_right ls others) = hz.
  Proof. intros E. rewrite ph_app, ph_turn, ph_over_right, <- beta_r, E. apply beta_0r. Qed.
  Lemma left_bend_in ls others : gadd (ch ls) (ch others) = gz -> ph (turn (rev ls) false ++ over_left ls others) = hz.
  Proof.
    intros E. rewrite ph_app, ph_turn, ph_over_left. rewrite (ch_perm (Permutation_sym (Permutation_rev ls))). rewrite <- (g_opp_add HG), <- beta_r, E, beta_0r. apply (g_opp_0 HG).
  Qed.

  (** a swap of neighbouring legs *)
  Lemma pot_app above l1 l2 : pot above (l1 ++ l2) = pot above l1 +' pot above l2 +' sum (map (fun a => sum (map (fun b => if above a b then beta (q a) (q b) else hz) l2)) l1).
  Proof.
    induction l1 as [|x l IH]; cbn [app potential map gsum fold_right].
    - rewrite (g_0l HG). symmetry. apply (g_0r HG).
    - fold (gsum hz hadd). rewrite IH. rewrite map_app, (gsum_app HG).
      change (fold_right hadd hz ?z) with (sum z).
      set (p := sum (map (fun b => if above x b then beta (q x) (q b) else hz) l)). set (s := sum (map (fun b => if above x b then beta (q x) (q b) else hz) l2)).
      set (z := sum (map (fun a => sum (map (fun b => if above a b then beta (q a) (q b) else hz) l2)) l)). set (p1 := pot above l). set (p2 := pot above l2).
      rewrite <- !(g_assoc HG). f_equal. rewrite (g_comm HG s). rewrite <- !(g_assoc HG). f_equal. f_equal. apply (g_comm HG).
  Qed.
  Definition above_ok (above : nat -> nat -> bool) (p : nat * nat) : Prop := above (snd p) (fst p) = negb (above (fst p) (snd p)).
  Lemma pot_swap above l1 a b l2 : above_ok above (a, b) ->
    pot above (l1 ++ a :: b :: l2) = pot above (l1 ++ b :: a :: l2) +' (if above a b then beta (q a) (q b) else hopp (beta (q b) (q a))).
  Proof.
    unfold above_ok. cbn [fst snd]. intros Hab. rewrite !pot_app.
    assert (E1 : sum (map (fun a0 => sum (map (fun b0 => if above a0 b0 then beta (q a0) (q b0) else hz) (a :: b :: l2))) l1) =
                 sum (map (fun a0 => sum (map (fun b0 => if above a0 b0 then beta (q a0) (q b0) else hz) (b :: a :: l2))) l1)).
    { f_equal. apply map_ext. intros x. apply (gsum_perm HG). apply Permutation_map. apply perm_swap. }
    rewrite E1. set (z := sum _). clearbody z.
    assert (E2 : pot above (a :: b :: l2) = pot above (b :: a :: l2) +' (if above a b then beta (q a) (q b) else hopp (beta (q b) (q a)))).
    { cbn [potential map gsum fold_right]. change (fold_right hadd hz ?z) with (sum z). rewrite Hab.
      set (sa := sum (map (fun b0 => if above a b0 then _ else _) l2)). set (sb := sum (map (fun b0 => if above b b0 then _ else _) l2)). set (p := pot above l2).
      destruct (above a b); cbn [negb].
      - gsolve HG.
      - transitivity (sa +' sb +' p +' (beta (q b) (q a) +' hopp (beta (q b) (q a)))); [rewrite (g_oppr HG); gsolve HG|gsolve HG]. }
    rewrite E2. set (y := if above a b then _ else _). gsolve HG.
  Qed.
  Lemma pot_log above js : forall l, Forall (fun j => S j < length l) js -> Forall (above_ok above) (log l js) ->
    pot above l = pot above (do_swaps l js) +' ph (map (fun p => Cross (fst p) (snd p) (above (fst p) (snd p))) (log l js)).
  Proof.
    induction js as [|j js IH]; intros l F A.
    - cbn [log map]. unfold phase. cbn [map gsum fold_right]. unfold do_swaps. cbn [fold_left]. symmetry. apply (g_0r HG).
    - inversion F as [|? ? F1 F2]; subst. cbn [log] in A. inversion A as [|? ? A1 A2]; subst. cbn [log map]. rewrite do_swaps_cons.
      assert (IHs := IH (swap_at j l)). rewrite swap_at_length in IHs. specialize (IHs F2 A2).
      unfold phase. cbn [map gsum fold_right]. change (fold_right hadd hz ?z) with (sum z). fold (ph (map (fun p => Cross (fst p) (snd p) (above (fst p) (snd p))) (log (swap_at j l) js))).
      assert (Sp : exists l1 l2, l = l1 ++ nth j l 0 :: nth (S j) l 0 :: l2 /\ length l1 = j).
      { exists (firstn j l), (skipn (S (S j)) l). split; [|rewrite firstn_length; lia].
        rewrite <- (firstn_skipn j l) at 1. f_equal. clear - F1. revert j F1. induction l as [|x l IH]; intros j Hj; [cbn [length] in Hj; lia|]. destruct j as [|j].
        - destruct l as [|y l]; [cbn [length] in Hj; lia|reflexivity].
        - cbn [length] in Hj. cbn [skipn nth]. apply IH. lia. }
      destruct Sp as [l1 [l2 [El L1]]]. set (a := nth j l 0) in *. set (b := nth (S j) l 0) in *. cbn [fst snd] in *.
      assert (Es : swap_at j l = l1 ++ b :: a :: l2) by (rewrite El, <- L1; apply swap_at_mid).
      replace (pot above l) with (pot above (l1 ++ a :: b :: l2)) by now rewrite <- El. rewrite pot_swap by exact A1. rewrite <- Es. rewrite IHs.
      replace (event_phase gz gadd hopp beta q (Cross a b (above a b))) with (if above a b then beta (q a) (q b) else hopp (beta (q b) (q a))) by (unfold event_phase; now destruct (above a b)).
      set (y := if above a b then _ else _). gsolve HG.
  Qed.
  Lemma pot_ext above above' l : (forall a b, before l a b -> above a b = above' a b) -> pot above l = pot above' l.
  Proof.
    induction l as [|a t IH]; intros E; [reflexivity|]. cbn [potential]. f_equal.
    - f_equal. apply map_ext_in. intros b Hb. now rewrite E by now apply before_hd.
    - apply IH. intros x y Hxy. apply E. now apply before_cons.
  Qed.
End Phase.

Lemma pot_map (G H : Type) (hz : H) hadd (beta : G -> G -> H) (q : nat -> G) above (f : nat -> nat) l :
  potential hz hadd beta (fun i => q (f i)) (fun a b => above (f a) (f b)) l = potential hz hadd beta q above (map f l).
Proof. induction l as [|a t IH]; [reflexivity|]. cbn [potential map]. rewrite IH, map_map. reflexivity. Qed.

Section Total.
  Variables (G H : Type) (gz : G) (gadd : G -> G -> G) (gopp : G -> G) (hz : H) (hadd : H -> H -> H) (hopp : H -> H).
  Hypothesis GG : abelian_group gz gadd gopp.
  Hypothesis HG : abelian_group hz hadd hopp.
  Variable beta : G -> G -> H.
  Hypothesis beta_l : forall x y z, beta (gadd x y) z = hadd (beta x z) (beta y z).
  Hypothesis beta_r : forall x y z, beta x (gadd y z) = hadd (beta x y) (beta x z).
  Variable q : nat -> G.
  Variable r : request.
  Hypothesis V : valid_request r.
  Hypothesis Q0 : charge gz gadd q (seq 0 (r_nc r + r_nd r)) = gz.
  Notation ph := (phase gz gadd hz hadd hopp beta q).
  Variable above : nat -> nat -> bool.
  Notation pot := (potential hz hadd beta q above).
  (** crossings of the request have the phase given by [above] *)
  Hypothesis AB : forall p, good r p -> must_cross r (fst p) (snd p) -> above_ok above p /\ event_phase gz gadd hopp beta q (cross r p) = event_phase gz gadd hopp beta q (Cross (fst p) (snd p) (above (fst p) (snd p))).

  Lemma ph_logs lg : Forall (gn r (must_cross r)) lg -> Forall (above_ok above) lg /\ ph (map (cross r) lg) = ph (map (fun p => Cross (fst p) (snd p) (above (fst p) (snd p))) lg).
  Proof.
    intros F. split.
    - eapply Forall_impl; [|exact F]. intros p [Hp Hm]. now apply AB.
    - unfold phase. rewrite !map_map. f_equal. apply map_ext_in. intros p Hp. apply (proj1 (Forall_forall _ _) F) in Hp. apply AB; apply Hp.
  Qed.
  Lemma phase_total instrs legs evs : run r = Ok instrs -> exec (legs0 (r_nc r) (r_nd r)) instrs = Some (legs, evs) ->
    hadd (hadd (hadd (ph evs) (pot (left_out r ++ rest1 r))) (pot (rest2 r ++ left_in r))) (pot (r_cod r ++ rev (r_dom r))) =
    hadd (hadd (pot (seq 0 (r_nc r + r_nd r))) (pot (rest1 r ++ left_out r))) (pot (left_in r ++ rest2 r)).
  Proof.
    intros E1 E2. pose proof (run_spec V) as S. rewrite E1 in S. destruct S as [js1 [js2 [js3 [F1 [F2 [F3 [D1 [D2 [D3 [FG EX]]]]]]]]]].
    rewrite EX in E2. injection E2 as _ <-. apply Forall_app in FG. destruct FG as [FG1 FG2]. apply Forall_app in FG2. destruct FG2 as [FG2 FG3].
    apply ph_logs in FG1, FG2, FG3. destruct FG1 as [A1 P1], FG2 as [A2 P2], FG3 as [A3 P3].
    assert (L1 : length (seq 0 (r_nc r + r_nd r)) = r_nc r + r_nd r) by apply seq_length.
    assert (Pm1 : Permutation (left_out r ++ rest1 r) (seq 0 (r_nc r + r_nd r))) by (rewrite <- D1; apply do_swaps_perm).
    assert (Pm2 : Permutation (rest1 r ++ left_out r) (seq 0 (r_nc r + r_nd r))) by (rewrite Permutation_app_comm; exact Pm1).
    assert (Pm3 : Permutation (rest2 r ++ left_in r) (seq 0 (r_nc r + r_nd r))) by (rewrite <- D2, do_swaps_perm; exact Pm2).
    assert (Pm4 : Permutation (left_in r ++ rest2 r) (seq 0 (r_nc r + r_nd r))) by (rewrite Permutation_app_comm; exact Pm3).
    assert (Q1 : gadd (charge gz gadd q (left_out r)) (charge gz gadd q (rest1 r)) = gz). { rewrite <- (ch_app GG), (ch_perm GG q Pm1). exact Q0. }
    assert (Q2 : gadd (charge gz gadd q (left_in r)) (charge gz gadd q (rest2 r)) = gz). { rewrite <- (ch_app GG), (ch_perm GG q Pm4). exact Q0. }
    assert (X1 := pot_log gz gadd HG beta q (above := above) (js := js1) (l := seq 0 (r_nc r + r_nd r))). rewrite L1, <- P1, D1 in X1. specialize (X1 F1 A1).
    assert (X2 := pot_log gz gadd HG beta q (above := above) (js := js2) (l := rest1 r ++ left_out r)). rewrite (Permutation_length Pm2), L1, <- P2, D2 in X2. specialize (X2 F2 A2).
    assert (X3 := pot_log gz gadd HG beta q (above := above) (js := js3) (l := left_in r ++ rest2 r)). rewrite (Permutation_length Pm4), L1, <- P3, D3 in X3. specialize (X3 F3 A3).
    rewrite X1, X2, X3. unfold events. rewrite (ph_app gz gadd HG). rewrite (app_assoc (turn (left_out r) true)). rewrite (ph_app gz gadd HG).
    rewrite (left_bend_out GG HG beta_l beta_r Q1), (g_0l HG). rewrite (ph_app gz gadd HG). rewrite (app_assoc (turn (rev (left_in r)) false)). rewrite (ph_app gz gadd HG _ _ (turn _ _ ++ _)).
    rewrite (left_bend_in GG HG beta_l beta_r Q2), (g_0l HG).
    set (a := ph (map _ (log (seq _ _) _))). set (b := ph (map _ (log (rest1 r ++ left_out r) _))). set (c := ph (map _ (log (left_in r ++ rest2 r) _))).
    set (x := pot (left_out r ++ rest1 r)). set (y := pot (rest2 r ++ left_in r)). set (z := pot (r_cod r ++ rev (r_dom r))).
    clearbody a b c x y z. clear - HG.
    gsolve HG.
  Qed.
End Total.

Lemma stage_perms r : valid_request r ->
  Permutation (left_out r ++ rest1 r) (seq 0 (r_nc r + r_nd r)) /\ Permutation (left_in r ++ rest2 r) (seq 0 (r_nc r + r_nd r)).
Proof.
  (* independent of the levels: run the request with a symmetric braid *)
  intros V. pose (r' := Request (r_nc r) (r_nd r) (r_cod r) (r_dom r) (r_levels r) (r_bend r) true).
  assert (V' : valid_request r') by exact V. pose proof (run_spec V') as S. destruct (run r') as [l|e].
  - destruct S as [js1 [js2 [js3 [_ [_ [_ [D1 [D2 _]]]]]]]].
    change (left_out r') with (left_out r) in *. change (rest1 r') with (rest1 r) in *. change (left_in r') with (left_in r) in *. change (rest2 r') with (rest2 r) in *.
    change (r_nc r') with (r_nc r) in *. change (r_nd r') with (r_nd r) in *.
    assert (P1 : Permutation (left_out r ++ rest1 r) (seq 0 (r_nc r + r_nd r))) by (rewrite <- D1; apply do_swaps_perm). split; [exact P1|].
    rewrite Permutation_app_comm, <- D2, do_swaps_perm, Permutation_app_comm. exact P1.
  - exfalso. destruct S as [_ [a [b [_ NG]]]]. apply NG. now left.
Qed.
Lemma inverted_facts n l l' a b : Permutation l (seq 0 n) -> inverted l l' a b -> a <> b /\ a < n /\ b < n.
Proof.
  intros P [B _]. assert (ND : NoDup l) by (apply (Permutation_NoDup (Permutation_sym P)), seq_NoDup).
  destruct (before_In B) as [Ia Ib]. split; [|split].
  - intros ->. exact (before_asym ND B B).
  - apply (Permutation_in _ P), in_seq in Ia. lia.
  - apply (Permutation_in _ P), in_seq in Ib. lia.
Qed.
Lemma must_cross_facts r a b : valid_request r -> must_cross r a b -> a <> b /\ a < r_nc r + r_nd r /\ b < r_nc r + r_nd r.
Proof.
  intros V M. destruct (stage_perms V) as [P1 P2]. destruct M as [M|[M|M]].
  - exact (inverted_facts (Permutation_refl _) M).
  - apply (fun P => inverted_facts P M). rewrite Permutation_app_comm. exact P1.
  - exact (inverted_facts P2 M).
Qed.
(** [run] succeeds exactly if all pairs that have to cross are comparable *)
Lemma run_ok_iff r : valid_request r -> (exists l, run r = Ok l) <-> (forall a b, must_cross r a b -> good r (a, b)).
Proof.
  intros V. pose proof (run_spec V) as S. split.
  - intros [l E] a b M. rewrite E in S. destruct S as [js1 [js2 [js3 [F1 [F2 [F3 [D1 [D2 [D3 [FG _]]]]]]]]]].
    destruct (stage_perms V) as [P1 P2].
    assert (P1' : Permutation (rest1 r ++ left_out r) (seq 0 (r_nc r + r_nd r))) by (rewrite Permutation_app_comm; exact P1).
    assert (ND : forall l, Permutation l (seq 0 (r_nc r + r_nd r)) -> NoDup l) by (intros k P; apply (Permutation_NoDup (Permutation_sym P)), seq_NoDup).
    assert (LN : forall l, Permutation l (seq 0 (r_nc r + r_nd r)) -> length l = r_nc r + r_nd r) by (intros k P; rewrite (Permutation_length P); apply seq_length).
    assert (I : In (a, b) (log (seq 0 (r_nc r + r_nd r)) js1 ++ log (rest1 r ++ left_out r) js2 ++ log (left_in r ++ rest2 r) js3)).
    { rewrite !in_app_iff. destruct M as [[Ma Mb]|[[Ma Mb]|[Ma Mb]]].
      - left. apply inverted_in_log; [apply seq_NoDup|now rewrite seq_length|exact Ma|rewrite D1; exact Mb].
      - right. left. apply inverted_in_log; [now apply ND|now rewrite LN|exact Ma|rewrite D2; exact Mb].
      - right. right. apply inverted_in_log; [now apply ND|now rewrite LN|exact Ma|rewrite D3; exact Mb]. }
    apply (proj1 (Forall_forall _ _) FG) in I. apply I.
  - intros A. destruct (run r) as [l|e]; [now exists l|]. exfalso. destruct S as [_ [a [b [M NG]]]]. apply NG. now apply A.
Qed.
