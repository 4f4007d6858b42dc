(** Proofs for C71: planar_permute_legs as used by planar_contraction; the helper. *)
From Coq Require Import ZArith List Bool Lia Permutation.
From Verif Require Import Util GridModel PermLegsModel PermLegsSpec PermLegsProps PlanarModel PlanarSpec PlanarProofs1 PlanarProofs2 PlanarProofs3 PlanarProofs4 PlanarProofs5 PlanarProofs6 PlanarProofs7 PlanarProofs8 PlanarProps PcModel PcSpec.
Import ListNotations.
Set Implicit Arguments. Unset Strict Implicit.
Open Scope nat_scope.

Lemma moved_ok triv sym nc nd c d co dom : (triv = true -> sym = true) -> enough_given c d -> fits c co -> fits d dom -> planar (nc + nd) co dom ->
  moved triv sym nc nd c d = COk (co, dom).
Proof.
  intros TS G F1 F2 P. unfold moved. rewrite (@planar_permute_ok nc nd c d co dom G F1 F2 P). destruct (planar_calls P) as (steps & E & A). rewrite E.
  destruct (A triv sym TS) as (ev & X & _). now rewrite X.
Qed.
Lemma planar_swap n a b : (exists k, k <= n /\ a ++ b = rotation k (seq 0 n)) -> exists k, k <= n /\ b ++ a = rotation k (seq 0 n).
Proof.
  intros (k & K & E). destruct (Nat.eq_dec n 0) as [->|N].
  { exists 0. split; [lia|]. assert (k = 0) by lia. subst k. cbn in E. apply app_eq_nil in E. destruct E as [-> ->]. reflexivity. }
  assert (P : planar n a (rev b)) by (exists k; split; [exact K|now rewrite rev_involutive]). apply planar_arc in P; [|lia]. destruct P as (s & E1 & E2 & L).
  rewrite rev_involutive in E2. rewrite rev_length in L, E2. assert (M := Nat.mod_upper_bound (s + length a) n N). exists ((s + length a) mod n). split; [lia|].
  rewrite <- arc_rotation by lia. replace n with (length b + length a) at 3 by lia. rewrite arc_app. f_equal.
  - rewrite E2. rewrite arc_length. apply arc_cong; [exact N|]. now rewrite Nat.mod_mod.
  - rewrite E1 at 1. apply arc_cong; [exact N|]. rewrite Nat.add_mod_idemp_l by lia. replace (s + length a + length b) with (s + 1 * n) by lia. now rewrite Nat.mod_add.
Qed.
Lemma planar_moved triv sym nc nd a b : (triv = true -> sym = true) -> (exists k, k <= nc + nd /\ a ++ b = rotation k (seq 0 (nc + nd))) -> moved triv sym nc nd (Some a) (Some (rev b)) = COk (a, rev b).
Proof.
  intros TS (k & K & E). apply moved_ok; [exact TS|exact Logic.I|reflexivity|reflexivity|]. exists k. split; [exact K|]. now rewrite rev_involutive.
Qed.

Lemma lmin_spec l x : In x l -> (forall y, In y l -> x <= y) -> lmin l = x.
Proof.
  intros I M. unfold lmin. assert (HD : x <= hd 0 l) by (destruct l; [easy|apply M; now left]). revert HD. generalize (hd 0 l) as h. intros h HD.
  induction l as [|y l IH]; [easy|]. cbn [fold_right]. destruct I as [-> | I].
  - assert (x <= fold_right Nat.min h l); [|lia]. clear IH. assert (M' : forall y, In y l -> x <= y) by (intros; apply M; now right). clear M. induction l as [|z l IH]; cbn; [exact HD|].
    assert (x <= z) by (apply M'; now left). assert (x <= fold_right Nat.min h l) by (apply IH; intros; apply M'; now right). lia.
  - rewrite IH; [|exact I|intros; apply M; now right]. assert (x <= y) by (apply M; now left). lia.
Qed.
Lemma lmax_spec l x : In x l -> (forall y, In y l -> y <= x) -> lmax l = x.
Proof.
  intros I M. unfold lmax. induction l as [|y l IH]; [easy|]. cbn [fold_right]. destruct I as [-> | I].
  - assert (fold_right Nat.max 0 l <= x); [|lia]. clear IH. assert (M' : forall y, In y l -> y <= x) by (intros; apply M; now right). clear M. induction l as [|z l IH]; cbn; [lia|].
    assert (z <= x) by (apply M'; now left). assert (fold_right Nat.max 0 l <= x) by (apply IH; intros; apply M'; now right). lia.
  - rewrite IH; [|exact I|intros; apply M; now right]. assert (y <= x) by (apply M; now left). lia.
Qed.
Lemma range_seq a b : range a b = seq a (b - a). Proof. reflexivity. Qed.

Lemma seq_glue a m b l : b = a + m -> seq a m ++ seq b l = seq a (m + l).
Proof. intros ->. now rewrite seq_app. Qed.

Section Helper.
  Variables triv sym : bool.
  Hypothesis TS : triv = true -> sym = true.
  Variables nc nd : nat.
  Local Notation n := (nc + nd).
  Variables contr ac open : list nat.
  Hypothesis PERM : Permutation contr ac.

  Definition brought (domain : bool) (r : cres (legs_t nat * option nat)) : Prop :=
    exists co dom pre post, r = COk ((co, dom), Some (length pre)) /\ co ++ rev dom = pre ++ ac ++ post /\ open = post ++ pre /\
      (if domain then length co <= length pre else length pre + length ac <= length co).

  Lemma rot_seq s : s <= n -> exists k, k <= n /\ seq s (n - s) ++ seq 0 s = rotation k (seq 0 n).
  Proof. intros H. exists s. split; [exact H|]. now rewrite rotation_seq. Qed.
  Lemma rot_0 : exists k, k <= n /\ seq 0 n = rotation k (seq 0 n).
  Proof. exists 0. split; [lia|]. unfold rotation. cbn. now rewrite app_nil_r. Qed.

  Lemma contains_contr x : contains contr x = contains ac x.
  Proof. apply eq_true_iff_eq. rewrite !contains_In. split; intros I; [now apply (Permutation_in _ PERM)|now apply (Permutation_in _ (Permutation_sym PERM))]. Qed.
  Lemma contr_ne m : length ac = S m -> exists x t, contr = x :: t.
  Proof. intros L. rewrite <- (Permutation_length PERM) in L. destruct contr as [|x t]; [discriminate|]. now exists x, t. Qed.

  (** the contracted legs do not run across the cut *)
  Lemma helper_straight s m domain : ac = seq s m -> 0 < m -> m < n -> s + m <= n -> open = seq (s + m) (n - s - m) ++ seq 0 s -> brought domain (helper triv sym nc nd contr domain).
  Proof.
    intros EA M MN SM EO. assert (LA : length ac = m) by (rewrite EA; apply seq_length). assert (LC : length contr = m) by (rewrite (Permutation_length PERM); exact LA).
    assert (MEM : forall y, In y contr <-> s <= y < s + m). { intros y. split; intros I; [apply (Permutation_in _ PERM) in I; rewrite EA in I; apply in_seq in I; lia|apply (Permutation_in _ (Permutation_sym PERM)); rewrite EA; apply in_seq; lia]. }
    assert (MIN : lmin contr = s) by (apply lmin_spec; [apply MEM; lia|intros y I; apply MEM in I; lia]).
    assert (MAX : lmax contr = s + m - 1) by (apply lmax_spec; [apply MEM; lia|intros y I; apply MEM in I; lia]).
    assert (CUT : (contains contr 0 && contains contr (n - 1)) = false).
    { apply not_true_is_false. rewrite andb_true_iff, !contains_In, !MEM. lia. }
    unfold helper. cbv zeta. destruct contr as [|x t] eqn:EC; [cbn in LC; lia|]. rewrite <- EC in *. clear x t EC. destruct (Nat.eqb_spec (length contr) n) as [X|_]; [lia|].
    rewrite CUT. replace (if (0 <? nc) && contains contr (nc - 1) && contains contr nc then true else if false then false else true) with true by (destruct ((0 <? nc) && contains contr (nc - 1) && contains contr nc); reflexivity).
    rewrite MIN, MAX. destruct domain.
    - destruct (Nat.ltb_spec 0 (nc - s)) as [H|H].
      + replace (nc - (nc - s)) with s by lia. rewrite (planar_moved TS). 2: { rewrite !range_seq, Nat.sub_0_r. apply planar_swap. apply rot_seq. lia. }
        exists (range 0 s), (rev (range s n)), (seq 0 s), (seq (s + m) (n - s - m)). cbn [with_leg]. rewrite seq_length, rev_involutive, !range_seq, Nat.sub_0_r. split; [reflexivity|]. split; [|split; [exact EO|rewrite ?seq_length; lia]].
        rewrite EA. f_equal. replace (n - s) with (m + (n - s - m)) at 1 by lia. now rewrite seq_app.
      + exists (seq 0 nc), (rev (seq nc nd)), (seq 0 s), (seq (s + m) (n - s - m)). unfold legs0. rewrite seq_length, rev_involutive. split; [reflexivity|]. split; [|split; [exact EO|rewrite ?seq_length; lia]].
        rewrite EA, !seq_glue by lia. f_equal. lia.
    - destruct (Nat.ltb_spec 0 (s + m - 1 + 1 - nc)) as [H|H].
      + replace (nc + (s + m - 1 + 1 - nc)) with (s + m) by lia. rewrite (planar_moved TS). 2: { rewrite !range_seq, Nat.sub_0_r. apply planar_swap. apply rot_seq. lia. }
        exists (range 0 (s + m)), (rev (range (s + m) n)), (seq 0 s), (seq (s + m) (n - s - m)). cbn [with_leg]. rewrite seq_length, rev_involutive, !range_seq, Nat.sub_0_r. split; [reflexivity|]. split; [|split; [exact EO|rewrite LA, ?seq_length; lia]].
        rewrite EA, seq_app, <- app_assoc. cbn [plus]. rewrite Nat.sub_add_distr. reflexivity.
      + exists (seq 0 nc), (rev (seq nc nd)), (seq 0 s), (seq (s + m) (n - s - m)). unfold legs0. rewrite !seq_length, rev_involutive. split; [reflexivity|]. split; [|split; [exact EO|rewrite ?seq_length; lia]].
        rewrite EA, !seq_glue by lia. f_equal. lia.
  Qed.

  (** they do, and the open legs lie between those of the codomain and those of the domain *)
  Lemma helper_across s b domain : ac = seq s (n - s) ++ seq 0 b -> 0 < b -> b < s -> s < n -> b <= nc -> nc <= s -> open = seq b (s - b) -> brought domain (helper triv sym nc nd contr domain).
  Proof.
    intros EA B0 BS SN BN NS EO. assert (LA : length ac = n - s + b) by (rewrite EA, app_length, !seq_length; reflexivity). assert (LC : length contr = n - s + b) by (rewrite (Permutation_length PERM); exact LA).
    assert (MEM : forall y, In y contr <-> y < b \/ s <= y < n).
    { intros y. assert (Y : In y ac <-> y < b \/ s <= y < n) by (rewrite EA, in_app_iff, !in_seq; lia). rewrite <- Y. split; [apply (Permutation_in _ PERM)|apply (Permutation_in _ (Permutation_sym PERM))]. }
    assert (CO : ((0 <? nc) && contains contr (nc - 1) && contains contr nc) = false).
    { apply not_true_is_false. rewrite !andb_true_iff, !contains_In, !MEM, Nat.ltb_lt. lia. }
    assert (CUT : (contains contr 0 && contains contr (n - 1)) = true).
    { rewrite andb_true_iff, !contains_In, !MEM. lia. }
    unfold helper. cbv zeta. destruct contr as [|x t] eqn:EC; [cbn in LC; lia|]. rewrite <- EC in *. clear x t EC. destruct (Nat.eqb_spec (length contr) n) as [X|_]; [lia|].
    rewrite CUT, CO. destruct domain.
    - assert (F : forall y, In y (filter (fun l => l <? nc) contr) <-> y < b). { intros y. rewrite filter_In, MEM, Nat.ltb_lt. lia. }
      assert (MX : lmax (filter (fun l => l <? nc) contr) = b - 1) by (apply lmax_spec; [apply F; lia|intros y I; apply F in I; lia]).
      destruct (filter (fun l => l <? nc) contr) as [|y l] eqn:EF; [exfalso; apply (proj2 (F 0)); lia|]. rewrite MX. replace (b - 1 + 1) with b by lia. destruct (Nat.ltb_spec 0 b) as [_|]; [|lia].
      rewrite (planar_moved TS). 2: { rewrite !range_seq, Nat.sub_0_r, app_assoc. replace (seq b (nc - b) ++ seq nc (n - nc)) with (seq b (n - b)); [apply rot_seq; lia|].
        rewrite seq_glue by lia. f_equal. lia. }
      exists (range b nc), (rev (range nc n ++ range 0 b)), (seq b (s - b)), []. cbn [with_leg]. rewrite rev_involutive, !range_seq, Nat.sub_0_r, app_nil_r, !seq_length. split; [do 3 f_equal; rewrite LC; lia|]. split; [|split; [exact EO|rewrite ?seq_length; lia]].
      rewrite EA, ?app_nil_r, !app_assoc. f_equal.
      rewrite !seq_glue by lia. f_equal. lia.
    - assert (F : forall y, In y (filter (fun l => nc <=? l) contr) <-> s <= y < n). { intros y. rewrite filter_In, MEM, Nat.leb_le. lia. }
      assert (MX : lmin (filter (fun l => nc <=? l) contr) = s) by (apply lmin_spec; [apply F; lia|intros y I; apply F in I; lia]).
      destruct (filter (fun l => nc <=? l) contr) as [|y l] eqn:EF; [exfalso; apply (proj2 (F s)); lia|]. rewrite MX. destruct (Nat.ltb_spec 0 (n - s)) as [_|]; [|lia]. replace (n - (n - s)) with s by lia.
      rewrite (planar_moved TS). 2: { rewrite !range_seq, Nat.sub_0_r, <- app_assoc. replace (seq 0 nc ++ seq nc (s - nc)) with (seq 0 s); [apply rot_seq; lia|].
        rewrite seq_glue by lia. f_equal. lia. }
      exists (range s n ++ range 0 nc), (rev (range nc s)), [], (seq b (s - b)). cbn [with_leg length plus]. rewrite rev_involutive, !range_seq, Nat.sub_0_r, app_nil_r. split; [reflexivity|]. split; [|split; [exact EO|rewrite LA, app_length, !seq_length; lia]].
      cbn [app]. rewrite EA, <- !app_assoc. f_equal. rewrite !seq_glue by lia. f_equal. lia.
  Qed.

  Lemma helper_ok domain : ac <> [] -> open <> [] -> (exists k, k <= n /\ ac ++ open = rotation k (seq 0 n)) -> reachable nc nd ac open -> brought domain (helper triv sym nc nd contr domain).
  Proof.
    intros NA NO (k & K & E) RE. rewrite rotation_seq in E by exact K. assert (L := f_equal (@length nat) E). rewrite !app_length, !seq_length in L.
    assert (LA : 0 < length ac) by (destruct ac; [easy|cbn; lia]). assert (LO : 0 < length open) by (destruct open; [easy|cbn; lia]). remember (length ac) as m eqn:EM.
    destruct (Nat.le_gt_cases (k + m) n) as [H|H].
    - assert (ac = seq k m /\ open = seq (k + m) (n - k - m) ++ seq 0 k) as [A O].
      { replace (n - k) with (m + (n - k - m)) in E at 1 by lia. rewrite seq_app, <- app_assoc in E. apply app_len_inj in E; [|now rewrite seq_length]. exact E. }
      apply (@helper_straight k m); auto; lia.
    - assert (ac = seq k (n - k) ++ seq 0 (k + m - n) /\ open = seq (k + m - n) (n - m)) as [A O].
      { replace k with ((k + m - n) + (n - m)) in E at 3 by lia. rewrite seq_app, app_assoc in E. apply app_len_inj in E; [|rewrite app_length, !seq_length; lia]. exact E. }
      destruct (Nat.eq_dec k n) as [->|KN].
      { rewrite Nat.sub_diag in A. cbn [seq app] in A. replace (n + m - n) with m in A, O by lia. apply (@helper_straight 0 m); auto; try lia. rewrite O, Nat.sub_0_r. cbn [seq]. now rewrite app_nil_r. }
      destruct RE as [NR|RE].
      { exfalso. apply NR. rewrite A, !in_app_iff, !in_seq. split; [right; lia|left; lia]. }
      assert (IA : forall x, In x ac <-> k <= x < n \/ x < k + m - n) by (intros x; rewrite A, in_app_iff, !in_seq; lia). assert (IO : forall x, In x open <-> k + m - n <= x < k) by (intros x; rewrite O, in_seq; lia).
      assert (B : k + m - n <= nc). { assert (X := RE (k + m - n - 1) (k + m - n)). rewrite IA, IO in X. lia. }
      assert (C : nc <= k). { assert (X := RE k (k - 1)). rewrite IA, IO in X. lia. }
      apply (@helper_across k (k + m - n)); auto; try lia. rewrite O. f_equal. lia.
  Qed.
End Helper.

Lemma helper_full triv sym nc nd ac domain : (triv = true -> sym = true) -> ac <> [] -> (exists k, k <= nc + nd /\ ac = rotation k (seq 0 (nc + nd))) ->
  helper triv sym nc nd (if domain : bool then rev ac else ac) domain = COk (if domain then ([], rev ac) else (ac, []), None).
Proof.
  intros TS NA (k & K & E). assert (L : length ac = nc + nd) by (rewrite E; unfold rotation; rewrite app_length, skipn_length, firstn_length, seq_length; lia).
  unfold helper. destruct domain.
  - destruct (rev ac) as [|x t] eqn:ER; [apply (f_equal (@rev nat)) in ER; rewrite rev_involutive in ER; now elim NA|]. rewrite <- ER. rewrite rev_length, L, Nat.eqb_refl.
    rewrite (@moved_ok triv sym nc nd None (Some (rev ac)) [] (rev ac)); [reflexivity|exact TS|cbn; rewrite ER; discriminate|exact Logic.I|reflexivity|]. exists k. split; [exact K|]. cbn. now rewrite rev_involutive.
  - destruct ac as [|x t] eqn:ER; [now elim NA|]. rewrite <- ER in *. rewrite L, Nat.eqb_refl.
    rewrite (@moved_ok triv sym nc nd (Some ac) None ac []); [reflexivity|exact TS|cbn; rewrite ER; discriminate|reflexivity|exact Logic.I|]. exists k. split; [exact K|]. cbn. now rewrite app_nil_r.
Qed.
