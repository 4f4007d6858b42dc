(** C06, C07, C51: abelian symmetry factors. *)
From Verif Require Import Util RowModel RowProofs SymModel SymProofs AbelianModel AbelianProofs.
Open Scope Z_scope.

(** ** C06 *)
Theorem C06_U1_group : abelian_group_laws U1 (fun a b => [u1_fuse (q0 a) (q0 b)]).
Proof. exact U1_group. Qed.
Print Assumptions C06_U1_group.
Theorem C06_FermionNumber_group :
  abelian_group_laws FermionNumber (fun a b => [u1_fuse (q0 a) (q0 b)]).
Proof. exact FN_group. Qed.
Print Assumptions C06_FermionNumber_group.
Theorem C06_ZN_group :
  forall N, 1 < N <= 32768 -> abelian_group_laws (ZN N) (fun a b => [zn_fuse N (q0 a) (q0 b)]).
Proof. exact ZN_group. Qed.
Print Assumptions C06_ZN_group.
Theorem C06_ZN_is_addition_mod_N :
  forall N x y, 1 < N <= 32768 ->
    sym_outcomes (ZN N) [x] [y] = [[(x + y) mod N]] /\ sym_dual (ZN N) [x] = [(- x) mod N].
Proof.
  intros N x y H. cbn. unfold zn_fuse, zn_dual, q0. cbn [nth]. rewrite !mod_n_spec by lia. auto.
Qed.
Print Assumptions C06_ZN_is_addition_mod_N.
Theorem C06_FermionParity_group :
  abelian_group_laws FermionParity (fun a b => [fp_fuse (q0 a) (q0 b)]).
Proof. exact FP_group. Qed.
Print Assumptions C06_FermionParity_group.
Theorem C06_NoSymmetry_group : abelian_group_laws NoSymmetry (fun a _ => a).
Proof. exact NoSymmetry_group. Qed.
Print Assumptions C06_NoSymmetry_group.

(** The group laws imply every fusion-ring law (unit, commutativity, associativity of
    multiplicities, uniqueness of duals) and multiplicativity of dimensions. *)
Theorem C06_group_is_fusion_ring :
  forall S fuse, abelian_group_laws S fuse -> fusion_ring S /\ dim_law S.
Proof. intros S f G. split; [exact (ag_fusion_ring G)|exact (ag_dim_law G)]. Qed.
Print Assumptions C06_group_is_fusion_ring.

(** The batched loops of every factor agree element-wise with the scalar fusion. *)
Theorem C06_batched_fusion_elementwise :
  forall (f : Z -> Z -> Z) (a b : list sector), length a = length b ->
    length (fuse_loop f a b) = length a /\
    forall i, (i < length a)%nat ->
      [nth i (fuse_loop f a b) []] = single_outcomes f (nth i a []) (nth i b []).
Proof.
  intros f a b L. split; [unfold fuse_loop; now rewrite map_length, seq_length|].
  intros i Hi. unfold fuse_loop at 1. rewrite nth_map_lt with (d := 0%nat) by now rewrite seq_length.
  rewrite seq_nth by auto. reflexivity.
Qed.
Print Assumptions C06_batched_fusion_elementwise.

Theorem C06_batched_multiple_fusion_agrees :
  forall S f n out rest, abelian_group_laws S (fun a b => [f (q0 a) (q0 b)]) ->
    length out = n -> Forall (fun a => sym_valid S a = true) out ->
    Forall (fun s => length s = n /\ Forall (fun a => sym_valid S a = true) s) rest ->
    multiple_fusion_broadcast S (out :: rest) = Some (multi_fuse_loop f (out :: rest)).
Proof.
  intros S f n out rest G L V F. unfold multiple_fusion_broadcast, multi_fuse_loop.
  destruct rest as [|s rest]; [reflexivity|]. now apply (multi_loop_spec G (n := n)).
Qed.
Print Assumptions C06_batched_multiple_fusion_agrees.

Theorem C06_batched_dual_elementwise :
  forall (d : Z -> Z) (l : list sector),
    dual_loop d l = map (fun a => [d (q0 a)]) l.
Proof.
  intros. unfold dual_loop. apply list_eq_nth with (d := [d (q0 [])]).
  - now rewrite !map_length, seq_length.
  - intros i Hi. rewrite map_length, seq_length in Hi.
    rewrite nth_map_lt with (d := 0%nat) by now rewrite seq_length.
    rewrite seq_nth by auto. rewrite nth_map_lt with (d := []) by auto. reflexivity.
Qed.
Print Assumptions C06_batched_dual_elementwise.

(** Every way of bracketing a pairwise fusion gives the sector that multiple_fusion returns. *)
Theorem C06_multiple_fusion_bracketing :
  forall S fuse (t : bracketing), abelian_group_laws S fuse ->
    Forall (fun a => sym_valid S a = true) (bleaves t) ->
    beval S t = multiple_fusion S (bleaves t) /\
    exists c, beval S t = Some c /\ sym_valid S c = true.
Proof. intros S f t G F. exact (beval_spec G F). Qed.
Print Assumptions C06_multiple_fusion_bracketing.

Theorem C06_ZN_all_sectors :
  forall N, 1 < N <= 32768 ->
    NoDup (ZN_all_sectors N) /\ forall a, In a (ZN_all_sectors N) <-> sym_valid (ZN N) a = true.
Proof. exact ZN_all_sectors_spec. Qed.
Print Assumptions C06_ZN_all_sectors.

(** The constructor accepts every N > 1, but sectors are int16: for N > 65536/2 fusion is not
    closed (the result is wrapped to a negative, invalid sector). *)
Theorem C06_ZN_large_N_refuted :
  exists N a b, ZN_new N = Some (ZN N) /\ sym_valid (ZN N) a = true /\ sym_valid (ZN N) b = true /\
    exists c, sym_outcomes (ZN N) a b = [c] /\ sym_valid (ZN N) c = false.
Proof. exists 40000, [30000], [9000]. repeat split; try reflexivity. exists [-26536]. now split. Qed.
Print Assumptions C06_ZN_large_N_refuted.

Example C06_example :
  let t := BNode (BLeaf [2]) (BNode (BNode (BLeaf [4]) (BLeaf [3])) (BLeaf [1])) in
  Forall (fun a => sym_valid (ZN 5) a = true) (bleaves t) /\ beval (ZN 5) t = Some [0] /\
  multiple_fusion (ZN 5) [[2]; [4]; [3]; [1]] = Some [0] /\
  multiple_fusion U1 [[2]; [-7]; [3]] = Some [-2].
Proof. cbv zeta. split; [repeat constructor|]. repeat split. Qed.

(** ** C07 *)
Theorem C07_U1_adds_charges_in_range :
  forall x y, int16 x -> int16 y ->
    (int16 (x + y) -> sym_outcomes U1 [x] [y] = [[x + y]]) /\
    (x <> -32768 -> sym_dual U1 [x] = [- x]).
Proof.
  intros x y Hx Hy. split; intros H; cbn; unfold u1_fuse, u1_dual, q0; cbn [nth];
    rewrite to_i16_id; auto; unfold int16 in *; lia.
Qed.
Print Assumptions C07_U1_adds_charges_in_range.

Theorem C07_U1_multiple_fusion_adds_mod_2_16 :
  forall x l, int16 x -> Forall int16 l ->
    exists k, multiple_fusion U1 ([x] :: map (fun y => [y]) l) = Some [x + zsum l + 65536 * k] /\
              int16 (x + zsum l + 65536 * k).
Proof.
  intros x l Hx F. rewrite (multiple_fusion_spec U1_group).
  - revert x Hx. induction F as [|y l Hy F IH]; intros; cbn [map fsum zsum fold_right].
    + exists 0. replace (x + 0 + 65536 * 0) with x by lia. now split.
    + destruct (IH (to_i16 (x + y)) (to_i16_range _)) as (k & E & R).
      destruct (to_i16_cong (x + y)) as [k2 E2]. exists (k + k2).
      change (lift2 u1_fuse [x] [y]) with [to_i16 (x + y)].
      unfold zsum in *. rewrite E2 in E, R. rewrite E2, E.
      replace (x + (y + fold_right Z.add 0 l) + 65536 * (k + k2))
        with (x + y + 65536 * k2 + fold_right Z.add 0 l + 65536 * k) by lia. split; [reflexivity|exact R].
  - now apply u1_valid_intro.
  - apply Forall_forall. intros a Ha. apply in_map_iff in Ha. destruct Ha as (y & <- & Hy).
    rewrite Forall_forall in F. now apply u1_valid_intro, F.
Qed.
Print Assumptions C07_U1_multiple_fusion_adds_mod_2_16.

(** Outside the int16 range the charge is not conserved (silent wrap-around). *)
Theorem C07_U1_adds_charges_refuted :
  exists x y, sym_valid U1 [x] = true /\ sym_valid U1 [y] = true /\
    sym_outcomes U1 [x] [y] = [[-32768]] /\ x + y = 32768 /\
    sym_dual U1 [-32768] = [-32768].
Proof. exists 32767, 1. repeat split. Qed.
Print Assumptions C07_U1_adds_charges_refuted.

Example C07_example : int16 30000 /\ int16 (-12) /\ sym_outcomes U1 [30000] [-12] = [[29988]].
Proof. unfold int16. repeat split; lia || reflexivity. Qed.

(** ** C51: fermionic braiding *)
Definition fp_fuse2 (a b : sector) : sector := [fp_fuse (q0 a) (q0 b)].
Definition fn_fuse2 (a b : sector) : sector := [u1_fuse (q0 a) (q0 b)].

(** For unique fusion and F = 1 the two hexagon equations read
    R(a, bc) = R(a, b) R(a, c) and R(ab, c) = R(a, c) R(b, c). *)
Record fermionic_braiding (S : symmetry) (fuse : sector -> sector -> sector)
  (parity : sector -> Z)
  (R : sector -> sector -> sector -> Z) (C : sector -> sector -> sector -> sector -> sector -> sector -> Z)
  (twist : sector -> Z) : Prop := {
  fb_sign : forall a b, sym_valid S a = true -> sym_valid S b = true ->
      R a b (fuse a b) = if (parity a =? 1) && (parity b =? 1) then -1 else 1;
  fb_hexagon1 : forall a b c, sym_valid S a = true -> sym_valid S b = true -> sym_valid S c = true ->
      R a (fuse b c) (fuse a (fuse b c)) = R a b (fuse a b) * R a c (fuse a c);
  fb_hexagon2 : forall a b c, sym_valid S a = true -> sym_valid S b = true -> sym_valid S c = true ->
      R (fuse a b) c (fuse (fuse a b) c) = R a c (fuse a c) * R b c (fuse b c);
  fb_symmetric : forall a b, sym_valid S a = true -> sym_valid S b = true ->
      R a b (fuse a b) * R b a (fuse b a) = 1;
  (* C = R(e,c) F conj(R(a,c)) with F = 1 *)
  fb_C : forall a b c, sym_valid S a = true -> sym_valid S b = true -> sym_valid S c = true ->
      let e := fuse a b in let f := fuse a c in let d := fuse e c in
      C a b c d e f = R e c d * R a c f;
  fb_twist : forall a, sym_valid S a = true -> twist a = R a a (fuse a a);
  fb_twist_dual : forall a, sym_valid S a = true -> twist (sym_dual S a) = twist a;
  fb_ribbon : forall a b, sym_valid S a = true -> sym_valid S b = true ->
      twist (fuse a b) = twist a * twist b * (R a b (fuse a b) * R b a (fuse b a));
}.

Lemma par x : x mod 2 = 0 \/ x mod 2 = 1.
Proof. assert (H := Z.mod_pos_bound x 2). lia. Qed.

Theorem C51_FermionParity_braiding :
  fermionic_braiding FermionParity fp_fuse2 q0 fp_R fp_C fp_twist.
Proof.
  assert (I : forall a, sym_valid FermionParity a = true -> a = [0] \/ a = [1]).
  { intros a Ha. apply (@zn_valid_inv 2) in Ha. destruct Ha as (x & -> & V & _).
    assert (x = 0 \/ x = 1) as [-> | ->] by lia; auto. }
  constructor; intros a; intros;
    repeat match goal with H : sym_valid FermionParity _ = true |- _ => apply I in H; destruct H end;
    subst; reflexivity.
Qed.
Print Assumptions C51_FermionParity_braiding.

Theorem C51_FermionNumber_braiding :
  fermionic_braiding FermionNumber fn_fuse2 (fun a => q0 a mod 2) fn_R fn_C fn_twist.
Proof.
  assert (P : forall x y, u1_fuse x y mod 2 = (x mod 2 + y mod 2) mod 2).
  { intros x y. unfold u1_fuse. destruct (to_i16_cong (x + y)) as [k ->].
    replace (65536 * k) with (32768 * k * 2) by lia. rewrite Z_mod_plus_full. apply Z.add_mod. lia. }
  assert (D : forall x, u1_dual x mod 2 = x mod 2).
  { intros x. unfold u1_dual. destruct (to_i16_cong (- x)) as [k ->].
    replace (- x + 65536 * k) with (x + (32768 * k - x) * 2) by lia. apply Z_mod_plus_full. }
  constructor; intros a; intros; unfold fn_R, fn_C, fn_twist, fn_sign, fn_fuse2 in *; try subst e f d;
    cbn [q0 nth sym_dual FermionNumber]; change (nth 0 ?l 0) with (q0 l); rewrite !mod2_cases, ?D, ?P;
    repeat match goal with |- context [?x mod 2] =>
             match x with q0 _ => destruct (par x) as [E|E]; rewrite E; clear E end end;
    reflexivity.
Qed.
Print Assumptions C51_FermionNumber_braiding.

Example C51_example : fn_R [-3] [5] [2] = -1 /\ fn_twist [-3] = -1 /\ sym_valid FermionNumber [-3] = true.
Proof. repeat split. Qed.
