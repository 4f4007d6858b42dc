(** C68, part 3: Coupling.permute. *)
From Coq Require Import ZArith List Bool Lia Permutation Sorted Arith.
From Verif Require Import Util GridModel GridProofs PermLegsSpec PermLegsProofs CPermModel CPermSpec CPermProofs1 CPermProofs2.
Import ListNotations.
Open Scope nat_scope.
Set Implicit Arguments. Unset Strict Implicit.

(** is_permutation *)
Lemma zinsert_comm a b : forall l, zinsert a (zinsert b l) = zinsert b (zinsert a l).
Proof.
  induction l as [|y l IH]; cbn [zinsert].
  - destruct (Z.leb_spec a b), (Z.leb_spec b a); try reflexivity; try lia. replace b with a by lia. reflexivity.
  - destruct (Z.leb_spec b y), (Z.leb_spec a y); cbn [zinsert].
    + rewrite (proj2 (Z.leb_le b y)), (proj2 (Z.leb_le a y)) by assumption. destruct (Z.leb_spec a b), (Z.leb_spec b a); try reflexivity; try lia. replace b with a by lia. reflexivity.
    + rewrite (proj2 (Z.leb_gt a b)), (proj2 (Z.leb_gt a y)) by lia. rewrite (proj2 (Z.leb_le b y)) by assumption. reflexivity.
    + rewrite (proj2 (Z.leb_le a y)), (proj2 (Z.leb_gt b a)), (proj2 (Z.leb_gt b y)) by lia. reflexivity.
    + rewrite (proj2 (Z.leb_gt a y)), (proj2 (Z.leb_gt b y)) by lia. now rewrite IH.
Qed.
Lemma zsort_perm_eq l l' : Permutation l l' -> zsort l = zsort l'.
Proof.
  induction 1; cbn [zsort fold_right]; [reflexivity| | |congruence].
  - fold (zsort l) (zsort l'). now rewrite IHPermutation.
  - apply zinsert_comm.
Qed.
Lemma zinsert_perm a l : Permutation (zinsert a l) (a :: l).
Proof. induction l as [|y l IH]; cbn [zinsert]; [reflexivity|]. destruct (a <=? y)%Z; [reflexivity|]. rewrite IH. apply perm_swap. Qed.
Lemma zsort_permutation l : Permutation (zsort l) l.
Proof. induction l as [|a l IH]; [reflexivity|]. cbn [zsort fold_right]. fold (zsort l). rewrite zinsert_perm. now constructor. Qed.
Lemma zsort_seq n : forall s, zsort (map Z.of_nat (seq s n)) = map Z.of_nat (seq s n).
Proof.
  induction n as [|n IH]; intros s; [reflexivity|]. cbn [seq map zsort fold_right]. fold (zsort (map Z.of_nat (seq (S s) n))). rewrite IH. destruct n as [|n]; [reflexivity|].
  cbn [seq map zinsert]. rewrite (proj2 (Z.leb_le _ _)) by lia. reflexivity.
Qed.
Lemma is_permutation_spec l : is_permutation l = true <-> exists q, is_perm (length l) q /\ l = map Z.of_nat q.
Proof.
  unfold is_permutation. cbv zeta. split.
  - intros H. rewrite forallb_forall in H. assert (Ls : length (zsort l) = length l) by apply Permutation_length, zsort_permutation.
    assert (E : zsort l = map Z.of_nat (seq 0 (length l))).
    { apply list_eq_nth with (d := 0%Z); [now rewrite map_length, seq_length|]. intros i Hi. rewrite Ls in Hi. rewrite nth_map_lt with (d := 0) by (now rewrite seq_length). rewrite seq_nth by exact Hi.
      specialize (H i ltac:(apply in_seq; lia)). apply Z.eqb_eq in H. exact H. }
    assert (P : Permutation l (map Z.of_nat (seq 0 (length l)))) by (rewrite <- E; symmetry; apply zsort_permutation).
    apply Permutation_map_inv in P. destruct P as [q [Eq Pq]]. exists q. split; [|exact Eq]. unfold is_perm. symmetry. exact Pq.
  - intros [q [Hq El]]. assert (P : Permutation l (map Z.of_nat (seq 0 (length l)))). { rewrite El at 1. apply Permutation_map. exact Hq. }
    rewrite (zsort_perm_eq P), zsort_seq. rewrite map_length, seq_length. apply forallb_forall. intros i Hi. apply in_seq in Hi. apply Z.eqb_eq. rewrite nth_map_lt with (d := 0) by (rewrite seq_length; lia). now rewrite seq_nth by lia.
Qed.
Lemma map_to_nat q : map Z.to_nat (map Z.of_nat q) = q.
Proof. rewrite map_map. rewrite <- (map_id q) at 2. apply map_ext. intros; apply Nat2Z.id. Qed.
Lemma list_eqb_spec a : forall b, list_eqb a b = true <-> a = b.
Proof.
  unfold list_eqb. induction a as [|x a IH]; intros [|y b]; cbn [length combine forallb]; try (split; [discriminate|discriminate]); [now split|].
  cbn [Nat.eqb fst snd]. rewrite !andb_true_iff. specialize (IH b). rewrite andb_true_iff in IH. split.
  - intros [H1 [H2 H3]]. apply Z.eqb_eq in H2. subst y. f_equal. now apply IH.
  - intros E. injection E as -> ->. rewrite Z.eqb_refl. destruct IH as [_ IH]. specialize (IH eq_refl). easy.
Qed.
Lemma label_eqb_refl l : label_eqb l l = true.
Proof. unfold label_eqb. now rewrite Nat.eqb_refl, eqb_reflx. Qed.
Lemma label_eqb_eq a b : label_eqb a b = true <-> a = b.
Proof. unfold label_eqb. rewrite andb_true_iff, Nat.eqb_eq, eqb_true_iff. destruct a, b; cbn [fst snd]. split; [now intros [-> ->]|intros E; now injection E]. Qed.

Section Permute.
  Variables Site Lg T : Type.
  Variable site_leg : Site -> Lg.
  Variable leg_eqb : Lg -> Lg -> bool.
  Hypothesis leg_refl : forall l, leg_eqb l l = true.
  Variable PL : list nat -> list nat -> list (option Z) -> T -> T.
  Variable n : nat.
  Variable sf : nat -> Site.
  Notation B := (site_braid PL n).
  Notation tens o x := (Tens x (map (fun i => ((i, false), site_leg (sf i))) o) (map (fun i => ((i, true), site_leg (sf i))) o)).
  Section Step.
    Variable o : list nat.
    Hypothesis Lo : length o = n.
    Hypothesis ND : NoDup o.
    Variable x : T.
    Let t := tens o x.
    Lemma legs_length : length (t_legs t) = 2 * n.
    Proof. unfold t_legs, t. cbn [t_codomain t_domain]. rewrite app_length, rev_length, !map_length. lia. Qed.
    Lemma labels_eq : t_labels t = map (fun i => (i, false)) o ++ rev (map (fun i => (i, true)) o).
    Proof. unfold t_labels, t_legs, t. cbn [t_codomain t_domain]. rewrite map_app, map_rev, !map_map. reflexivity. Qed.
    Lemma legs_cod k : k < n -> nth_error (t_legs t) k = Some ((nth k o 0, false), site_leg (sf (nth k o 0))).
    Proof.
      intros H. unfold t_legs, t. cbn [t_codomain t_domain]. rewrite nth_error_app1 by (rewrite map_length; lia). rewrite nth_error_map. rewrite (nth_error_nth' o 0) by lia. reflexivity.
    Qed.
    Lemma legs_dom k : k < n -> nth_error (t_legs t) (2 * n - 1 - k) = Some ((nth k o 0, true), site_leg (sf (nth k o 0))).
    Proof.
      intros H. unfold t_legs, t. cbn [t_codomain t_domain]. rewrite nth_error_app2 by (rewrite map_length; lia). rewrite map_length, Lo.
      rewrite (nth_error_nth' _ ((0, true), site_leg (sf 0))) by (rewrite rev_length, map_length; lia). rewrite rev_nth by (rewrite map_length; lia). rewrite map_length, Lo.
      replace (n - S (2 * n - 1 - k - n)) with k by lia. rewrite nth_map_lt with (d := 0) by lia. reflexivity.
    Qed.
    Lemma labels_cod k : k < n -> nth_error (t_labels t) k = Some (nth k o 0, false).
    Proof. intros H. unfold t_labels. rewrite nth_error_map, legs_cod by exact H. reflexivity. Qed.
    Lemma labels_dom k : k < n -> nth_error (t_labels t) (2 * n - 1 - k) = Some (nth k o 0, true).
    Proof. intros H. unfold t_labels. rewrite nth_error_map, legs_dom by exact H. reflexivity. Qed.
    Lemma labels_length : length (t_labels t) = 2 * n.
    Proof. unfold t_labels. rewrite map_length. apply legs_length. Qed.
    Lemma o_inj i j : i < n -> j < n -> nth i o 0 = nth j o 0 -> i = j.
    Proof. intros Hi Hj E. apply (proj1 (NoDup_nth o 0) ND); lia || assumption. Qed.
    Lemma label_at i : i < 2 * n -> nth_error (t_labels t) i = Some (if i <? n then (nth i o 0, false) else (nth (2 * n - 1 - i) o 0, true)).
    Proof.
      intros H. destruct (Nat.ltb_spec i n); [now apply labels_cod|]. replace i with (2 * n - 1 - (2 * n - 1 - i)) at 1 by lia. apply labels_dom. lia.
    Qed.
    Lemma idx_cod k : k < n -> leg_idx t (nth k o 0, false) = Some k.
    Proof.
      intros H. unfold leg_idx. rewrite labels_length. rewrite (@find_seq _ k 0); [reflexivity| | |lia].
      - intros i Hi. cbn [Nat.add]. rewrite label_at by lia. rewrite (proj2 (Nat.ltb_lt i n)) by lia. apply not_true_iff_false. intros E. apply label_eqb_eq in E. injection E as E. apply o_inj in E; lia.
      - cbn [Nat.add]. rewrite label_at by lia. rewrite (proj2 (Nat.ltb_lt k n)) by lia. apply label_eqb_refl.
    Qed.
    Lemma idx_dom k : k < n -> leg_idx t (nth k o 0, true) = Some (2 * n - 1 - k).
    Proof.
      intros H. unfold leg_idx. rewrite labels_length. rewrite (@find_seq _ (2 * n - 1 - k) 0); [reflexivity| | |lia].
      - intros i Hi. cbn [Nat.add]. rewrite label_at by lia. apply not_true_iff_false. intros E. apply label_eqb_eq in E. destruct (Nat.ltb_spec i n); [discriminate|]. injection E as E. apply o_inj in E; lia.
      - cbn [Nat.add]. rewrite label_at by lia. rewrite (proj2 (Nat.ltb_ge _ n)) by lia. replace (2 * n - 1 - (2 * n - 1 - k)) with k by lia. apply label_eqb_refl.
    Qed.
    Lemma idcs_cod ks : Forall (fun k => k < n) ks -> leg_idcs t (map (fun k => (nth k o 0, false)) ks) = Some ks.
    Proof. induction 1 as [|k ks Hk F IH]; [reflexivity|]. cbn [map leg_idcs]. now rewrite (idx_cod Hk), IH. Qed.
    Lemma idcs_dom ks : Forall (fun k => k < n) ks -> leg_idcs t (map (fun k => (nth k o 0, true)) ks) = Some (map (fun k => 2 * n - 1 - k) ks).
    Proof. induction 1 as [|k ks Hk F IH]; [reflexivity|]. cbn [map leg_idcs]. now rewrite (idx_dom Hk), IH. Qed.
    Lemma pick_cod ks : Forall (fun k => k < n) ks -> pick t ks = map (fun k => ((nth k o 0, false), site_leg (sf (nth k o 0)))) ks.
    Proof. induction 1 as [|k ks Hk F IH]; [reflexivity|]. cbn [map pick flat_map]. rewrite (legs_cod Hk). cbn [app]. f_equal. exact IH. Qed.
    Lemma pick_dom ks : Forall (fun k => k < n) ks -> pick t (map (fun k => 2 * n - 1 - k) ks) = map (fun k => ((nth k o 0, true), site_leg (sf (nth k o 0)))) ks.
    Proof. induction 1 as [|k ks Hk F IH]; [reflexivity|]. cbn [map pick flat_map]. rewrite (legs_dom Hk). cbn [app]. f_equal. exact IH. Qed.
    Lemma swap_seq pos : swap_at pos o = map (fun k => nth k o 0) (swap_at pos (seq 0 n)).
    Proof. rewrite <- swap_at_map. f_equal. apply list_eq_nth with (d := 0); [now rewrite map_length, seq_length|]. intros i Hi. rewrite nth_map_lt with (d := 0) by (rewrite seq_length; lia). now rewrite seq_nth by lia. Qed.
    Lemma swap_seq_lt pos : Forall (fun k => k < n) (swap_at pos (seq 0 n)).
    Proof. apply Forall_forall. intros k Hk. apply (Permutation_in _ (swap_at_perm pos _)) in Hk. apply in_seq in Hk. lia. Qed.
    Lemma levels_step pos (over : bool) : S pos < n ->
      levels_from_label_dict t [((nth pos o 0, false), if over then 1%Z else 0%Z); ((nth pos o 0, true), if over then 1%Z else 0%Z); ((nth (S pos) o 0, false), if over then 0%Z else 1%Z); ((nth (S pos) o 0, true), if over then 0%Z else 1%Z)]
      = leg_levels n pos over.
    Proof.
      intros Hp. unfold levels_from_label_dict, leg_levels. apply list_eq_nth with (d := None); [rewrite !map_length, seq_length; apply labels_length|]. intros k Hk. rewrite map_length, labels_length in Hk.
      assert (HL : k < length (t_labels t)) by (rewrite labels_length; exact Hk). rewrite (@nth_map_lt label _ _ _ (0, false) None k HL). rewrite nth_map_lt with (d := 0) by (rewrite seq_length; exact Hk). rewrite seq_nth by exact Hk. cbn [Nat.add].
      assert (E := label_at Hk). apply nth_error_nth with (d := (0, false)) in E. match goal with |- dict_get ?d _ = _ => etransitivity; [exact (f_equal (dict_get d) E)|] end. unfold dict_get. cbn [List.find fst]. unfold label_eqb.
      destruct (Nat.ltb_spec k n); cbn [fst snd Bool.eqb]; rewrite ?andb_true_r, ?andb_false_r;
      match goal with |- context [nth ?s o 0 =? nth _ o 0] => idtac | _ => idtac end.
      - destruct (Nat.eqb_spec k pos); [subst k; rewrite Nat.eqb_refl; reflexivity|]. rewrite (proj2 (Nat.eqb_neq (nth pos o 0) (nth k o 0))) by (intros Q; apply o_inj in Q; lia).
        destruct (Nat.eqb_spec k (S pos)); [subst k; rewrite Nat.eqb_refl; reflexivity|]. rewrite (proj2 (Nat.eqb_neq (nth (S pos) o 0) (nth k o 0))) by (intros Q; apply o_inj in Q; lia). reflexivity.
      - set (s := 2 * n - 1 - k). assert (s < n) by (unfold s; lia). destruct (Nat.eqb_spec s pos) as [Es|]; [rewrite Es, Nat.eqb_refl; reflexivity|]. rewrite (proj2 (Nat.eqb_neq (nth pos o 0) (nth s o 0))) by (intros Q; apply o_inj in Q; lia).
        destruct (Nat.eqb_spec s (S pos)) as [Es|]; [rewrite Es, Nat.eqb_refl; reflexivity|]. rewrite (proj2 (Nat.eqb_neq (nth (S pos) o 0) (nth s o 0))) by (intros Q; apply o_inj in Q; lia). reflexivity.
    Qed.
    Definition pst (lv : nat -> option Z) (o : list nat) (x : T) : pstate Site Lg T := PState (tens o x) (map sf o) (map (fun i => (i, false)) o) (map (fun i => (i, true)) o) (map lv o).
    Lemma step_spec lv pos ob : S pos < n ->
      permute_step PL n pos ob (pst lv o x) = match chirality (map lv o) pos ob with Err e => Err e | Ok b => Ok (pst lv (swap_at pos o) (B pos b x)) end.
    Proof.
      intros Hp. unfold permute_step. rewrite (proj2 (Nat.ltb_lt _ _) Hp). cbn [negb]. cbn [pst ps_levels ps_cod ps_dom ps_tensor ps_sites]. destruct (chirality (map lv o) pos ob) as [over|e]; [|reflexivity].
      rewrite !nth_map_lt with (d := 0) by lia. fold t. rewrite levels_step by exact Hp. rewrite !swap_at_map. unfold permute_legs.
      assert (Ec : forall b : bool, map (fun i => (i, b)) (swap_at pos o) = map (fun k => (nth k o 0, b)) (swap_at pos (seq 0 n))) by (intros b; now rewrite swap_seq, map_map).
      rewrite !Ec. rewrite (idcs_cod (swap_seq_lt pos)), (idcs_dom (swap_seq_lt pos)). rewrite (pick_cod (swap_seq_lt pos)), (pick_dom (swap_seq_lt pos)).
      unfold pst, site_braid. rewrite !Ec. f_equal. rewrite !(swap_at_map _ pos (seq 0 n)). rewrite (swap_seq pos), !map_map. reflexivity.
    Qed.
  End Step.
  Fixpoint rbraid (lv : nat -> option Z) (word : list nat) (obs : list (option bool)) (o : list nat) (x : T) : result T :=
    match word with
    | [] => Ok x
    | pos :: w => match chirality (map lv o) pos (nth 0 obs None) with Err e => Err e | Ok b => rbraid lv w (tl obs) (swap_at pos o) (B pos b x) end
    end.
  Lemma loop_spec lv word : forall obs o x, letters n word -> length o = n -> NoDup o ->
    permute_loop PL n word obs (pst lv o x) = match rbraid lv word obs o x with Err e => Err e | Ok y => Ok (pst lv (do_swaps o word) y) end.
  Proof.
    induction word as [|pos w IH]; intros obs o x L Lo ND; [reflexivity|]. inversion L as [|? ? L1 L2]; subst. cbn [permute_loop rbraid]. rewrite step_spec by (assumption || exact L1).
    destruct (chirality (map lv o) pos (nth 0 obs None)) as [b|e]; [|reflexivity]. rewrite do_swaps_cons. apply IH; [exact L2|now rewrite swap_at_length|]. apply Permutation_NoDup with (l := o); [symmetry; apply swap_at_perm|exact ND].
  Qed.
  (** relabelling and the checks of from_tensor *)
  Lemma relabel_entry q k b : is_perm n q -> k < n -> relabelling q (nth k q 0, b) = (k, b).
  Proof.
    intros Hq Hk. unfold relabelling. cbn [fst snd]. rewrite (is_perm_length Hq). destruct (List.find _ _) as [i|] eqn:F.
    - apply find_some in F. destruct F as [F1 F2]. apply in_rev, in_seq in F1. apply Nat.eqb_eq in F2. f_equal. apply (is_perm_nth_inj Hq); lia.
    - exfalso. assert (M : In k (rev (seq 0 n))) by (apply -> in_rev; apply in_seq; lia). assert (Q := find_none _ _ F k M). cbv beta in Q. rewrite Nat.eqb_refl in Q. discriminate Q.
  Qed.
  Lemma legs_match_map o : forall b : bool, legs_match site_leg leg_eqb (map sf o) (map (fun i => ((i, b), site_leg (sf i))) o) = true.
  Proof. induction o as [|i o IH]; intros b; [reflexivity|]. cbn [map legs_match]. now rewrite leg_refl, IH. Qed.
  Lemma legs_match_map' o (f : nat -> label) : legs_match site_leg leg_eqb (map sf o) (map (fun i => (f i, site_leg (sf i))) o) = true.
  Proof. induction o as [|i o IH]; [reflexivity|]. cbn [map legs_match]. now rewrite leg_refl, IH. Qed.
  Lemma labels_agree (l : list label) : forallb (fun p => label_eqb (fst p) (snd p)) (combine l l) = true.
  Proof. induction l as [|a l IH]; [reflexivity|]. cbn [combine forallb fst snd]. now rewrite label_eqb_refl, IH. Qed.
  Lemma relabelled q (b : bool) : is_perm n q -> map (fun i => relabelling q (i, b)) q = map (fun k => (k, b)) (seq 0 n).
  Proof.
    intros Hq. apply list_eq_nth with (d := (0, b)); [rewrite !map_length, seq_length; apply (is_perm_length Hq)|]. intros k Hk. rewrite map_length, (is_perm_length Hq) in Hk.
    rewrite (@nth_map_lt nat label _ q 0 (0, b) k) by (now rewrite (is_perm_length Hq)). rewrite (@nth_map_lt nat (nat * bool) _ (seq 0 n) 0 (0, b) k) by (now rewrite seq_length). rewrite seq_nth by exact Hk. now apply relabel_entry.
  Qed.
  Lemma from_tensor_spec q (x : T) : is_perm n q -> from_tensor site_leg leg_eqb (relabel (tens q x) (relabelling q)) (map sf q) = Ok (Coup (map sf q) x (map (fun i => Z.of_nat i + 1)%Z (seq 0 n)) []).
  Proof.
    intros Hq. unfold from_tensor, relabel. cbn [t_codomain t_domain t_core]. rewrite !map_map. cbn [fst snd]. rewrite !legs_match_map'. cbn [negb]. rewrite map_length, (is_perm_length Hq).
    assert (E : t_labels (Tens x (map (fun i => (relabelling q (i, false), site_leg (sf i))) q) (map (fun i => (relabelling q (i, true), site_leg (sf i))) q)) = codomain_labels n ++ rev (domain_labels n)).
    { unfold t_labels, t_legs. cbn [t_codomain t_domain]. rewrite map_app, map_rev, !map_map. cbn [fst]. unfold codomain_labels, domain_labels. f_equal; [|f_equal]; now apply relabelled. }
    rewrite E. rewrite Nat.eqb_refl, labels_agree. reflexivity.
  Qed.
End Permute.
Section Main.
  Variables Site Lg T : Type.
  Variable site_leg : Site -> Lg.
  Variable leg_eqb : Lg -> Lg -> bool.
  Hypothesis leg_refl : forall l, leg_eqb l l = true.
  Variable PL : list nat -> list nat -> list (option Z) -> T -> T.
  Lemma combine_map2 A B' C' (f : A -> B') (g : A -> C') l : combine (map f l) (map g l) = map (fun i => (f i, g i)) l.
  Proof. induction l as [|a l IH]; [reflexivity|]. cbn [map combine]. now rewrite IH. Qed.
  Lemma adjacent_letters n q : is_perm n q -> letters n (adjacent_transpositions q).
  Proof.
    intros Hq. rewrite (adjacent_rounds Hq). destruct (@rounds_spec q [] (seq 0 n) (seq_sorted 0 n) ltac:(symmetry; exact Hq)) as [_ [L _]]. cbn [length] in L. rewrite seq_length in L. apply (Forall_impl _ (P := fun j => 0 <= j /\ S j < 0 + n)); [|exact L]. intros; lia.
  Qed.
  Lemma adjacent_result n q : is_perm n q -> do_swaps (seq 0 n) (adjacent_transpositions q) = q.
  Proof. intros Hq. rewrite (adjacent_rounds Hq). exact (proj1 (@rounds_spec q [] (seq 0 n) (seq_sorted 0 n) ltac:(symmetry; exact Hq))). Qed.
  Lemma permute_spec (c : coupling Site T) (d : Site) q levels obs : let n := length (c_sites c) in
    is_perm n q -> length (c_levels c) = n -> c_cache c = [] ->
    (forall l, levels = Some l -> length l = n) -> (forall l, obs = Some l -> length l = length (adjacent_transpositions q)) ->
    let lv i := match levels with Some l => nth i l None | None => Some (nth i (c_levels c) 0%Z) end in
    permute site_leg leg_eqb PL c (map Z.of_nat q) levels obs =
    match rbraid PL n lv (adjacent_transpositions q) (match obs with Some l => l | None => [] end) (seq 0 n) (c_op c) with
    | Err e => Err e
    | Ok y => let r := (map (fun i => nth i (c_sites c) d) q, y, map (fun i => nth i (c_levels c) 0%Z) q) in
              Ok (Coup (fst (fst r)) (snd (fst r)) (snd r) [], Coup (c_sites c) (c_op c) (c_levels c) [(map Z.of_nat q, r)])
    end.
  Proof.
    intros n Hq Hl Hc HL HO lv. unfold permute. fold n.
    rewrite (proj2 (is_permutation_spec _)) by (exists q; split; [now rewrite map_length, (is_perm_length Hq)|reflexivity]). cbn [negb].
    assert (Elv : (match levels with Some l => l | None => map (fun x => Some x) (c_levels c) end) = map lv (seq 0 n)).
    { unfold lv. destruct levels as [l|].
      - specialize (HL l eq_refl). apply list_eq_nth with (d := None); [now rewrite map_length, seq_length|]. intros i Hi. rewrite nth_map_lt with (d := 0) by (rewrite seq_length; lia). now rewrite seq_nth by lia.
      - apply list_eq_nth with (d := None); [now rewrite !map_length, seq_length|]. intros i Hi. rewrite map_length in Hi. rewrite (@nth_map_lt Z (option Z) _ (c_levels c) 0%Z None i Hi). rewrite (@nth_map_lt nat (option Z) _ (seq 0 n) 0 None i) by (rewrite seq_length; lia). now rewrite seq_nth by lia. }
    rewrite Elv. rewrite map_length, seq_length, Nat.eqb_refl. cbn [negb]. rewrite Hc. cbn [List.find]. rewrite map_to_nat.
    assert (EO : (match obs with Some l => negb (length l =? length (adjacent_transpositions q)) | None => false end) = false). { destruct obs as [l|]; [|reflexivity]. now rewrite (HO l eq_refl), Nat.eqb_refl. }
    rewrite EO. assert (Es : c_sites c = map (fun i => nth i (c_sites c) d) (seq 0 n)).
    { apply list_eq_nth with (d := d); [now rewrite map_length, seq_length|]. intros i Hi. rewrite nth_map_lt with (d := 0) by (rewrite seq_length; exact Hi). now rewrite seq_nth by exact Hi. }
    set (sf := fun i => nth i (c_sites c) d) in *.
    assert (Et : PState (to_tensor site_leg c) (c_sites c) (codomain_labels n) (domain_labels n) (map lv (seq 0 n)) = pst site_leg sf lv (seq 0 n) (c_op c)).
    { unfold pst, to_tensor. cbv zeta. fold n. unfold codomain_labels, domain_labels. f_equal; [|exact Es]. f_equal; rewrite Es, map_map; apply combine_map2. }
    rewrite Et. rewrite loop_spec; [|now apply adjacent_letters|apply seq_length|apply seq_NoDup].
    destruct (rbraid PL n lv (adjacent_transpositions q) _ (seq 0 n) (c_op c)) as [y|e]; [|reflexivity]. rewrite (adjacent_result Hq). unfold pst. cbn [ps_tensor ps_sites]. rewrite (from_tensor_spec site_leg leg_refl sf y Hq).
    assert (EF : forallb (fun i => i <? length (c_levels c)) q = true). { apply forallb_forall. intros i Hi. apply Nat.ltb_lt. rewrite Hl. now apply (is_perm_In i Hq). }
    rewrite EF. cbn [negb c_sites c_op app fst snd]. reflexivity.
  Qed.
  (** chirality from distinct levels *)
  Lemma rbraid_levels n (h : nat -> Z) w : forall o x, letters n w -> length o = n -> NoDup (map h o) -> rbraid PL n (fun i => Some (h i)) w [] o x = Ok (level_braid (site_braid PL n) h w o x).
  Proof.
    induction w as [|pos w IH]; intros o x L Lo ND; [reflexivity|]. inversion L as [|? ? L1 L2]; subst. cbn [rbraid level_braid nth tl]. unfold chirality. rewrite !nth_map_lt with (d := 0) by lia.
    assert (D : h (nth pos o 0) <> h (nth (S pos) o 0)).
    { intros E. assert (Q : pos = S pos); [|lia]. apply (proj1 (NoDup_nth (map h o) (h 0)) ND); rewrite ?map_length; try lia. now rewrite !map_nth. }
    rewrite (proj2 (Z.eqb_neq _ _) D). apply IH; [exact L2|now rewrite swap_at_length|]. rewrite <- swap_at_map. apply Permutation_NoDup with (l := map h o); [symmetry; apply swap_at_perm|exact ND].
  Qed.
End Main.
