(** Complex square root and division; sums of vectors; Givens rotations of a column *)
From Coq Require Import Reals Lra List Arith Bool Lia.
From Verif Require Import Util Cplx Hilbert LinOpModel LinOpSpec LinOpProofs LinOpMat KrylovModel KrylovSpec KrylovProofs4 KrylovProofs6 GmresModel.
Import ListNotations.
Set Implicit Arguments. Unset Strict Implicit.
Open Scope nat_scope.

Lemma Ceqb_spec a b : reflect (a = b) (Ceqb a b).
Proof.
  unfold Ceqb. destruct (Req_EM_T (fst a) (fst b)) as [E|E]; [destruct (Req_EM_T (snd a) (snd b)) as [F|F]|]; constructor.
  - now apply C_eq.
  - intros X. apply F. now rewrite X.
  - intros X. apply E. now rewrite X.
Qed.
Lemma Cabs_ge_fst z : (- Cabs z <= fst z <= Cabs z)%R.
Proof.
  assert (X : (Rabs (fst z) <= Cabs z)%R).
  { rewrite <- sqrt_Rsqr_abs. apply sqrt_le_1_alt. unfold Cnorm2, Rsqr. assert (Y := Rle_0_sqr (snd z)). unfold Rsqr in Y. lra. }
  unfold Rabs in X. destruct (Rcase_abs (fst z)); lra.
Qed.
Lemma Cabs_sq z : (Cabs z * Cabs z = Cnorm2 z)%R. Proof. apply sqrt_sqrt, Cnorm2_nonneg. Qed.
Lemma Csqrt_sq z : Cmul (Csqrt z) (Csqrt z) = z.
Proof.
  assert (B := Cabs_ge_fst z). assert (Q := Cabs_sq z). unfold Cnorm2 in Q. unfold Csqrt. set (r := Cabs z) in *. destruct z as [a d]. cbn [fst snd] in *.
  assert (S1 : (sqrt ((r + a) / 2) * sqrt ((r + a) / 2) = (r + a) / 2)%R) by (apply sqrt_sqrt; lra).
  assert (S2 : (sqrt ((r - a) / 2) * sqrt ((r - a) / 2) = (r - a) / 2)%R) by (apply sqrt_sqrt; lra).
  assert (S3 : (sqrt ((r + a) / 2) * sqrt ((r - a) / 2) = Rabs d / 2)%R).
  { rewrite <- sqrt_mult by lra. replace ((r + a) / 2 * ((r - a) / 2))%R with ((d / 2) * (d / 2))%R by lra. change (d / 2 * (d / 2))%R with (Rsqr (d / 2)). rewrite sqrt_Rsqr_abs.
    unfold Rabs. destruct (Rcase_abs (d / 2)), (Rcase_abs d); lra. }
  unfold Cmul. cbn [fst snd]. unfold Rabs in S3. destruct (Rlt_dec d 0), (Rcase_abs d); apply C_eq; cbn [fst snd]; try lra.
Qed.
Lemma Csqrt_0 : Csqrt C0 = C0.
Proof. assert (X := Csqrt_sq C0). destruct (Ceqb_spec (Csqrt C0) C0) as [E|E]; [exact E|]. now apply (Cmul_0 X). Qed.
Lemma Cinv_r z : z <> C0 -> Cmul z (Cinv z) = C1.
Proof.
  intros N. assert (M : Cnorm2 z <> 0%R) by (intros X; apply N; now apply Cnorm2_0). unfold Cinv, Cmul, Cnorm2, C1 in *. destruct z as [a d]. cbn [fst snd] in *. apply C_eq; cbn [fst snd]; field; exact M.
Qed.
Lemma Cdiv_mul a z : z <> C0 -> Cmul (Cdiv a z) z = a.
Proof. intros N. unfold Cdiv. replace (Cmul (Cmul a (Cinv z)) z) with (Cmul a (Cmul z (Cinv z))) by ring. rewrite Cinv_r by exact N. ring. Qed.
Lemma Cmul_cancel a x y : a <> C0 -> Cmul a x = Cmul a y -> x = y.
Proof. intros N E. assert (X : Cmul a (Csub x y) = C0) by (replace (Cmul a (Csub x y)) with (Csub (Cmul a x) (Cmul a y)) by ring; rewrite E; ring). apply Cmul_0 in X; [|exact N].
  replace x with (Cadd (Csub x y) y) by ring. rewrite X. ring. Qed.
Lemma Cabs_mul x y : Cabs (Cmul x y) = (Cabs x * Cabs y)%R.
Proof. unfold Cabs. rewrite Cnorm2_mul. apply sqrt_mult; apply Cnorm2_nonneg. Qed.
Lemma Cabs_0_iff z : Cabs z = 0%R <-> z = C0.
Proof. split; [intros E; apply Cnorm2_0; rewrite <- Cabs_sq, E; lra|intros ->; unfold Cabs, Cnorm2; cbn; rewrite Rmult_0_l, Rplus_0_l; apply sqrt_0]. Qed.

(** real numbers among the complex ones *)
Definition is_real (z : C) : Prop := snd z = 0%R.
Lemma is_real_iff z : is_real z <-> z = RtoC (fst z). Proof. split; [intros E; now apply C_eq|intros ->; reflexivity]. Qed.
Lemma real_add x y : is_real x -> is_real y -> is_real (Cadd x y). Proof. unfold is_real, Cadd. cbn [snd]. lra. Qed.
Lemma real_mul x y : is_real x -> is_real y -> is_real (Cmul x y). Proof. unfold is_real, Cmul. cbn [snd]. intros -> ->. lra. Qed.
Lemma real_opp x : is_real x -> is_real (Copp x). Proof. unfold is_real, Copp. cbn [snd]. lra. Qed.
Lemma real_inv x : is_real x -> is_real (Cinv x). Proof. unfold is_real, Cinv. cbn [snd]. intros ->. unfold Rdiv. lra. Qed.
Lemma real_0 : is_real C0. Proof. reflexivity. Qed.
Lemma real_conj x : is_real x -> Cconj x = x. Proof. unfold is_real, Cconj. intros E. apply C_eq; cbn [fst snd]; lra. Qed.
(** a sum of two squares of reals, its root *)
Lemma Csqrt_real v1 v2 : is_real v1 -> is_real v2 -> is_real (Csqrt (Cadd (Cmul v1 v1) (Cmul v2 v2))) /\
  (Csqrt (Cadd (Cmul v1 v1) (Cmul v2 v2)) = C0 -> v1 = C0 /\ v2 = C0).
Proof.
  intros R1 R2. destruct v1 as [a a'], v2 as [d d']. unfold is_real in *. cbn [snd] in *. subst. split.
  - unfold Csqrt, Cadd, Cmul. cbn [fst snd]. set (f := (a * a - 0 * 0 + (d * d - 0 * 0))%R).
    assert (F : (0 <= f)%R) by (unfold f; assert (X := Rle_0_sqr a); assert (Y := Rle_0_sqr d); unfold Rsqr in *; lra).
    replace (a * 0 + 0 * a + (d * 0 + 0 * d))%R with 0%R by ring. assert (E : Cabs (f, 0%R) = f). { unfold Cabs, Cnorm2. cbn [fst snd]. rewrite Rmult_0_l, Rplus_0_r. now apply sqrt_square. }
    rewrite E. replace ((f - f) / 2)%R with 0%R by field. rewrite sqrt_0. destruct (Rlt_dec 0 0); lra.
  - intros E. assert (X := Csqrt_sq (Cadd (Cmul (a, 0%R) (a, 0%R)) (Cmul (d, 0%R) (d, 0%R)))). rewrite E in X. unfold Cadd, Cmul, C0 in X. cbn [fst snd] in X. injection X as X _.
    assert (A1 := Rle_0_sqr a). assert (A2 := Rle_0_sqr d). unfold Rsqr in *. assert (a = 0%R) by (apply Rsqr_0_uniq; unfold Rsqr; lra). assert (d = 0%R) by (apply Rsqr_0_uniq; unfold Rsqr; lra). now subst.
Qed.

Section Sums.
  Variables (V : Type) (h : hspace V).
  Hypothesis L : hlaws h.
  Notation z := (hzero h).
  Lemma vsum_0 f : vsum h 0 f = z. Proof. reflexivity. Qed.
  Lemma vsum_Sl n f : vsum h (S n) f = hadd h (f 0) (vsum h n (fun i => f (S i))).
  Proof. unfold vsum. cbn [seq map fold_right]. f_equal. rewrite <- seq_shift, map_map. reflexivity. Qed.
  Lemma vsum_S n f : vsum h (S n) f = hadd h (vsum h n f) (f n).
  Proof.
    revert f. induction n as [|n IH]; intros f; [cbn; rewrite (hl_comm L); reflexivity|]. rewrite vsum_Sl, IH, vsum_Sl. rewrite (hl_assoc L). reflexivity.
  Qed.
  Lemma vsum_ext n f g : (forall i, i < n -> f i = g i) -> vsum h n f = vsum h n g.
  Proof. intros E. unfold vsum. f_equal. apply map_ext_in. intros i I. apply in_seq in I. apply E. lia. Qed.
  Lemma vsum_span n f l : (forall i, i < n -> in_span h l (f i)) -> in_span h l (vsum h n f).
  Proof. intros E. induction n as [|n IH]; [apply (span_zero L)|]. rewrite vsum_S. apply (span_add L); [apply IH; intros; apply E; lia|apply E; lia]. Qed.
  Lemma vsum_closed (P : V -> Prop) n f : P z -> (forall u v, P u -> P v -> P (hadd h u v)) -> (forall i, i < n -> P (f i)) -> P (vsum h n f).
  Proof. intros P0 PA E. induction n as [|n IH]; [exact P0|]. rewrite vsum_S. apply PA; [apply IH; intros; apply E; lia|apply E; lia]. Qed.
  Lemma vsum_linear A n f : linear h A -> A (vsum h n f) = vsum h n (fun i => A (f i)).
  Proof. intros HA. induction n as [|n IH]; [apply (linear_0 L HA)|]. rewrite !vsum_S. rewrite (proj1 HA), IH. reflexivity. Qed.
  Lemma vsum_zeros n m f : n <= m -> (forall i, n <= i < m -> f i = z) -> vsum h m f = vsum h n f.
  Proof.
    intros Hn E. induction m as [|m IH]; [now replace n with 0 by lia|]. destruct (Nat.eq_dec n (S m)) as [->|D]; [reflexivity|].
    rewrite vsum_S, E by lia. rewrite (add_0_r L). apply IH; [lia|intros; apply E; lia].
  Qed.

  (** * The rotated basis *)
  Section Basis.
    Variables (cs sn : list C) (qs : list V).
    Fixpoint pv (i : nat) : V := match i with 0 => nth 0 qs z | S j => hadd h (hscale h (Copp (nth j sn C0)) (pv j)) (hscale h (nth j cs C0) (nth (S j) qs z)) end.
    Definition uv (i : nat) : V := hadd h (hscale h (nth i cs C0) (pv i)) (hscale h (nth i sn C0) (nth (S i) qs z)).
    Definition unitary_at (i : nat) : Prop := Cadd (Cmul (nth i cs C0) (nth i cs C0)) (Cmul (nth i sn C0) (nth i sn C0)) = C1.
    (** a p_i + d q_(i+1) in the rotated basis *)
    Lemma rotate_pair i a d : unitary_at i ->
      hadd h (hscale h a (pv i)) (hscale h d (nth (S i) qs z)) =
      hadd h (hscale h (Cadd (Cmul (nth i cs C0) a) (Cmul (nth i sn C0) d)) (uv i)) (hscale h (Cadd (Cmul (Copp (nth i sn C0)) a) (Cmul (nth i cs C0) d)) (pv (S i))).
    Proof.
      intros U. unfold unitary_at in U. unfold uv. cbn [pv]. set (c := nth i cs C0) in *. set (s := nth i sn C0) in *.
      apply (inner_ext L). intros x. repeat first [rewrite (hl_inner_add L)|rewrite (hl_inner_scale L)].
      set (X := hinner h x (pv i)). set (Y := hinner h x (nth (S i) qs z)).
      replace (Cadd (Cmul (Cadd (Cmul c a) (Cmul s d)) (Cadd (Cmul c X) (Cmul s Y))) (Cmul (Cadd (Cmul (Copp s) a) (Cmul c d)) (Cadd (Cmul (Copp s) X) (Cmul c Y))))
        with (Cmul (Cadd (Cmul c c) (Cmul s s)) (Cadd (Cmul a X) (Cmul d Y))) by ring.
      rewrite U. ring.
    Qed.
    Lemma rotate_len col i : length (rotate col i cs sn) = length col. Proof. unfold rotate. now rewrite !upd_length. Qed.
    Lemma rotations_len col l : length (fold_left (fun col i => rotate col i cs sn) l col) = length col.
    Proof. revert col. induction l as [|i l IH]; intros col; cbn [fold_left]; [reflexivity|]. rewrite IH. apply rotate_len. Qed.
    Lemma rotate_other col i l : l <> i -> l <> S i -> nth l (rotate col i cs sn) C0 = nth l col C0.
    Proof. intros H1 H2. unfold rotate. rewrite !nth_upd_neq by congruence. reflexivity. Qed.
    Lemma rotate_i col i : S i < length col -> nth i (rotate col i cs sn) C0 = Cadd (Cmul (nth i cs C0) (nth i col C0)) (Cmul (nth i sn C0) (nth (S i) col C0)).
    Proof. intros H. unfold rotate. rewrite nth_upd_eq by (rewrite upd_length; lia). reflexivity. Qed.
    Lemma rotate_Si col i : S i < length col -> nth (S i) (rotate col i cs sn) C0 = Cadd (Cmul (Copp (nth i sn C0)) (nth i col C0)) (Cmul (nth i cs C0) (nth (S i) col C0)).
    Proof. intros H. unfold rotate. rewrite nth_upd_neq by lia. rewrite nth_upd_eq by lia. reflexivity. Qed.
    (** after m rotations *)
    Lemma rotations k col m : length col = k + 2 -> m <= k -> (forall i, i < m -> unitary_at i) ->
      let col' := fold_left (fun col i => rotate col i cs sn) (seq 0 m) col in
      vsum h (k + 2) (fun i => hscale h (nth i col C0) (nth i qs z)) =
      hadd h (vsum h m (fun i => hscale h (nth i col' C0) (uv i))) (hadd h (hscale h (nth m col' C0) (pv m)) (vsum h (k + 1 - m) (fun i => hscale h (nth (m + 1 + i) col' C0) (nth (m + 1 + i) qs z)))).
    Proof.
      intros LC. induction m as [|m IH]; intros Hm U; cbv zeta.
      - cbn [seq fold_left]. rewrite vsum_0, (hl_zero L). replace (k + 2) with (S (k + 1)) by lia. rewrite vsum_Sl. rewrite Nat.sub_0_r. reflexivity.
      - rewrite IH by (try lia; intros; apply U; lia). replace (seq 0 (S m)) with (seq 0 m ++ [m]) by (symmetry; rewrite seq_S; reflexivity). rewrite fold_left_app. cbn [fold_left].
        set (c' := fold_left (fun col i => rotate col i cs sn) (seq 0 m) col). assert (LC' : length c' = k + 2) by (unfold c'; now rewrite rotations_len).
        replace (k + 1 - m) with (S (k + 1 - S m)) by lia. rewrite vsum_Sl. rewrite Nat.add_0_r. replace (m + 1) with (S m) by lia.
        rewrite (vsum_S m). rewrite (rotate_i) by lia. rewrite rotate_Si by lia.
        rewrite (vsum_ext (n := m) (f := fun i => hscale h (nth i (rotate c' m cs sn) C0) (uv i)) (g := fun i => hscale h (nth i c' C0) (uv i))) by (intros i Hi; rewrite rotate_other by lia; reflexivity).
        rewrite (vsum_ext (n := k + 1 - S m) (f := fun i => hscale h (nth (S m + S i) c' C0) (nth (S m + S i) qs z)) (g := fun i => hscale h (nth (S m + 1 + i) (rotate c' m cs sn) C0) (nth (S m + 1 + i) qs z))).
        + assert (RP := rotate_pair (nth m c' C0) (nth (S m) c' C0) (U m (Nat.lt_succ_diag_r m))).
          assert (RP' : forall x, hinner h x (hadd h (hscale h (nth m c' C0) (pv m)) (hscale h (nth (S m) c' C0) (nth (S m) qs z))) = hinner h x (hadd h (hscale h (Cadd (Cmul (nth m cs C0) (nth m c' C0)) (Cmul (nth m sn C0) (nth (S m) c' C0))) (uv m))
              (hscale h (Cadd (Cmul (Copp (nth m sn C0)) (nth m c' C0)) (Cmul (nth m cs C0) (nth (S m) c' C0))) (pv (S m))))) by (intros x; now rewrite RP).
          apply (inner_ext L). intros x. specialize (RP' x). repeat rewrite (hl_inner_add L) in RP'. repeat rewrite (hl_inner_add L). repeat rewrite (hl_inner_scale L) in RP'. repeat rewrite (hl_inner_scale L).
          set (X1 := hinner h x (pv m)) in *. set (X2 := hinner h x (nth (S m) qs z)) in *. set (X3 := hinner h x (uv m)) in *. set (X4 := hinner h x (pv (S m))) in *.
          match goal with |- context [hinner h x (vsum h m ?f)] => set (S1 := hinner h x (vsum h m f)) end. match goal with |- context [hinner h x (vsum h (k + 1 - S m) ?f)] => set (S2 := hinner h x (vsum h (k + 1 - S m) f)) end.
          transitivity (Cadd S1 (Cadd (Cadd (Cmul (nth m c' C0) X1) (Cmul (nth (S m) c' C0) X2)) S2)); [ring|]. rewrite RP'. ring.
        + intros i Hi. rewrite rotate_other by lia. replace (S m + S i) with (S m + 1 + i) by lia. reflexivity.
    Qed.
  End Basis.
  (** the basis does not change when the lists grow *)
  Lemma pv_app cs sn qs c s q i : i <= length cs -> i <= length sn -> i < length qs -> pv (cs ++ c) (sn ++ s) (qs ++ q) i = pv cs sn qs i.
  Proof.
    induction i as [|i IH]; intros H1 H2 H3; cbn [pv]; [now rewrite app_nth1 by lia|]. rewrite IH by lia. rewrite !app_nth1 by lia. reflexivity.
  Qed.
  Lemma uv_app cs sn qs c s q i : i < length cs -> i < length sn -> S i < length qs -> uv (cs ++ c) (sn ++ s) (qs ++ q) i = uv cs sn qs i.
  Proof. intros H1 H2 H3. unfold uv. rewrite pv_app by lia. rewrite !app_nth1 by lia. reflexivity. Qed.
End Sums.
