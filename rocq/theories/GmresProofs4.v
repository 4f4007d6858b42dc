(** Real rotations: the error estimate is the norm of the smallest residual *)
From Coq Require Import Reals Lra List Arith Bool Lia.
From Verif Require Import Util Cplx Hilbert LinOpModel LinOpSpec LinOpProofs LinOpMat KrylovModel KrylovSpec KrylovProofs3 KrylovProofs4 KrylovProofs5 KrylovProofs6 GmresModel GmresSpec GmresProofs GmresProofs2 GmresProofs3.
Import ListNotations.
Set Implicit Arguments. Unset Strict Implicit.
Open Scope nat_scope.

Lemma rotations_real cs sn : (forall i, is_real (nth i cs C0)) -> (forall i, is_real (nth i sn C0)) -> forall l col, (forall i, is_real (nth i col C0)) ->
  forall i, is_real (nth i (fold_left (fun col i => rotate col i cs sn) l col) C0).
Proof.
  intros RC RS. induction l as [|j l IH]; intros col R; cbn [fold_left]; [exact R|]. apply IH. intros i.
  destruct (Nat.lt_ge_cases (S j) (length col)) as [H|H].
  - destruct (Nat.eq_dec i j) as [-> |D]; [rewrite rotate_i by exact H; apply real_add; apply real_mul; auto|]. destruct (Nat.eq_dec i (S j)) as [-> |D2].
    + rewrite rotate_Si by exact H. apply real_add; apply real_mul; auto. now apply real_opp.
    + rewrite rotate_other by assumption. apply R.
  - destruct (Nat.lt_ge_cases i (length col)) as [Hi|Hi].
    + destruct (Nat.eq_dec i j) as [-> |D].
      * unfold rotate. rewrite nth_upd_eq by (rewrite upd_length; exact Hi). apply real_add; apply real_mul; auto.
      * rewrite rotate_other by (assumption || lia). apply R.
    + rewrite nth_overflow by (rewrite rotate_len; exact Hi). apply real_0.
Qed.
Lemma rotations_last cs sn : forall l col m, (forall i, In i l -> S i < m) -> nth m (fold_left (fun col i => rotate col i cs sn) l col) C0 = nth m col C0.
Proof. induction l as [|j l IH]; intros col m F; cbn [fold_left]; [reflexivity|]. rewrite IH by (intros; apply F; now right). specialize (F j (or_introl eq_refl)). apply rotate_other; lia. Qed.
Lemma nth_real l : (forall i, i < length l -> is_real (nth i l C0)) -> forall i, is_real (nth i l C0).
Proof. intros H i. destruct (Nat.lt_ge_cases i (length l)); [auto|]. rewrite nth_overflow by assumption. apply real_0. Qed.

Section P.
  Variables (V : Type) (h : hspace V) (A : V -> V) (b : V) (o : gopts).
  Hypothesis L : hlaws h.
  Hypothesis HA : linear h A.
  Notation z := (hzero h).
  Notation qn s i := (nth i (g_qs s) z).
  Notation pn s i := (pv h (g_cs s) (g_sn s) (g_qs s) i).
  Notation un s i := (uv h (g_cs s) (g_sn s) (g_qs s) i).
  Lemma perp_pv cs sn qs w k : (forall i, i <= k -> hinner h w (nth i qs z) = C0) -> forall i, i <= k -> hinner h w (pv h cs sn qs i) = C0.
  Proof.
    intros P. induction i as [|i IH]; intros Hi; cbn [pv]; [apply P; lia|]. rewrite (hl_inner_add L), !(hl_inner_scale L), IH, P by lia. ring.
  Qed.
  Lemma perp_uv cs sn qs w k : (forall i, i <= k -> hinner h w (nth i qs z) = C0) -> forall i, i < k -> hinner h w (uv h cs sn qs i) = C0.
  Proof. intros P i Hi. unfold uv. rewrite (hl_inner_add L), !(hl_inner_scale L), (perp_pv cs sn P), P by lia. ring. Qed.

  Record greal (k : nat) (s : gstate V) : Prop := {
    gr_c : forall i, i < k -> is_real (nth i (g_cs s) C0);
    gr_s : forall i, i < k -> is_real (nth i (g_sn s) C0);
    gr_e : is_real (nth k (g_e s) C0);
    gr_uu : forall i j, i < k -> j < k -> hinner h (un s i) (un s j) = if i =? j then C1 else C0;
    gr_up : forall i, i < k -> hinner h (un s i) (pn s k) = C0;
    gr_pp : hinner h (pn s k) (pn s k) = hinner h (qn s k) (qn s k);
    gr_z : qn s k = z -> nth k (g_e s) C0 = C0 }.
  Lemma greal_init x : greal 0 (g_init h A b o x).
  Proof.
    assert (I := init_inv A b o L x). constructor; try (intros; lia); try reflexivity.
    intros Z. assert (F := gi_first I). rewrite Z, (scale_0 L) in F. cbn [g_init g_e nth]. change (RtoC (hnorm h (residual h A b x)) = C0). rewrite <- F. rewrite (proj2 (norm_0_iff L z) eq_refl). reflexivity.
  Qed.
  Lemma greal_step r0 k s s' : ginv h A o r0 k s -> greal k s -> k < g_N_max o -> (forall i, i <= k -> is_real (hinner h (qn s i) (A (qn s k)))) -> g_step h A b k s = Some s' -> greal (S k) s'.
  Proof.
    intros I R Hk RA E. destruct (step_inv L HA I Hk E) as [I' [ON [col [q [c [sn [e [EA [EQ [EC [ES [GR [EE [EV _]]]]]]]]]]]]]].
    assert (AR := arnoldi_relation A L (gi_lq I)). rewrite EA in AR. destruct AR as [LC [AQ [[n [N0 CN]] [CZ [QQ [PERP CO]]]]]]. specialize (PERP ON). specialize (CO ON).
    assert (RCO : forall i, is_real (nth i col C0)).
    { apply nth_real. intros i Hi. rewrite LC in Hi. destruct (Nat.eq_dec i (S k)) as [-> |D]; [rewrite CN; reflexivity|]. rewrite CO by lia. apply RA. lia. }
    set (col' := fold_left (fun col i => rotate col i (g_cs s) (g_sn s)) (seq 0 k) col) in *. cbv zeta in GR.
    assert (RC' : forall i, is_real (nth i col' C0)).
    { apply rotations_real; [apply nth_real; rewrite (gi_lc I); apply (gr_c R)|apply nth_real; rewrite (gi_ls I); apply (gr_s R)|exact RCO]. }
    assert (V2 : nth (S k) col' C0 = nth (S k) col C0) by (apply rotations_last; intros i Hi; apply in_seq in Hi; lia).
    unfold givens_rotation in GR. set (v1 := nth k col' C0) in *. set (v2 := nth (S k) col' C0) in *.
    destruct (Csqrt_real (RC' k) (RC' (S k))) as [RT _]. fold v1 v2 in RT. set (t := Csqrt (Cadd (Cmul v1 v1) (Cmul v2 v2))) in *.
    destruct (Ceqb_spec t C0) as [T|T]; [discriminate|]. injection GR as GC GS.
    assert (Rc : is_real c) by (rewrite <- GC; apply real_mul; [apply RC'|now apply real_inv]). assert (Rs : is_real sn) by (rewrite <- GS; apply real_mul; [apply RC'|now apply real_inv]).
    assert (SZ : q = z -> sn = C0). { intros Z. rewrite <- GS. unfold Cdiv. rewrite V2, (proj2 CZ Z). ring. }
    assert (LQ := gi_lq I). assert (LCS := gi_lc I). assert (LSN := gi_ls I).
    assert (CA : forall i, i < k -> nth i (g_cs s ++ [c]) C0 = nth i (g_cs s) C0) by (intros i Hi; apply app_nth1; lia).
    assert (CNk : nth k (g_cs s ++ [c]) C0 = c) by (rewrite app_nth2 by lia; rewrite LCS, Nat.sub_diag; reflexivity).
    assert (SA : forall i, i < k -> nth i (g_sn s ++ [sn]) C0 = nth i (g_sn s) C0) by (intros i Hi; apply app_nth1; lia).
    assert (SNk : nth k (g_sn s ++ [sn]) C0 = sn) by (rewrite app_nth2 by lia; rewrite LSN, Nat.sub_diag; reflexivity).
    assert (QN : nth (S k) (g_qs s ++ [q]) z = q) by (rewrite app_nth2 by lia; rewrite LQ, Nat.sub_diag; reflexivity).
    assert (PA : forall i, i <= k -> pv h (g_cs s ++ [c]) (g_sn s ++ [sn]) (g_qs s ++ [q]) i = pn s i) by (intros i Hi; apply pv_app; lia).
    assert (UA : forall i, i < k -> uv h (g_cs s ++ [c]) (g_sn s ++ [sn]) (g_qs s ++ [q]) i = un s i) by (intros i Hi; apply uv_app; lia).
    assert (UN := gi_cs I' (i := k) (Nat.lt_succ_diag_r k)). unfold unitary_at in UN. rewrite EC, ES, CNk, SNk in UN.
    assert (PQ : forall i, i <= k -> hinner h q (qn s i) = C0) by (intros i Hi; apply (inner_sym0 L), PERP; exact Hi).
    assert (QP : hinner h q (pn s k) = C0) by (apply (perp_pv _ _ PQ); lia). assert (PQ' : hinner h (pn s k) q = C0) by now apply (inner_sym0 L).
    assert (UQ : forall i, i < k -> hinner h (un s i) q = C0) by (intros i Hi; apply (inner_sym0 L), (perp_uv _ _ PQ); exact Hi).
    assert (PP : hinner h (pn s k) (pn s k) = C1). { rewrite (gr_pp R). destruct (gi_last I) as [H|H]; [exact H|]. rewrite (step_exhausted b L HA I H) in E. discriminate. }
    assert (UK : uv h (g_cs s ++ [c]) (g_sn s ++ [sn]) (g_qs s ++ [q]) k = hadd h (hscale h c (pn s k)) (hscale h sn q)) by (unfold uv; rewrite PA, CNk, SNk, QN by lia; reflexivity).
    assert (PK : pv h (g_cs s ++ [c]) (g_sn s ++ [sn]) (g_qs s ++ [q]) (S k) = hadd h (hscale h (Copp sn) (pn s k)) (hscale h c q)) by (cbn [pv]; rewrite PA, CNk, SNk, QN by lia; reflexivity).
    assert (CC : Cconj c = c) by now apply real_conj. assert (CS : Cconj sn = sn) by now apply real_conj. assert (CSO : Cconj (Copp sn) = Copp sn) by (apply real_conj; now apply real_opp).
    set (g := hinner h q q) in *.
    assert (GG : (g = C1) \/ (g = C0 /\ sn = C0)). { destruct QQ as [Z|N]; [right|left; exact N]. split; [unfold g; rewrite Z; apply (inner_0_r L)|now apply SZ]. }
    assert (IX : forall a1 a2 b1 b2, Cconj a1 = a1 -> Cconj a2 = a2 -> hinner h (hadd h (hscale h a1 (pn s k)) (hscale h a2 q)) (hadd h (hscale h b1 (pn s k)) (hscale h b2 q)) = Cadd (Cmul a1 b1) (Cmul (Cmul a2 b2) g)).
    { intros a1 a2 b1 b2 H1 H2. rewrite (hl_inner_add L), !(inner_add_l L), !(hl_inner_scale L), !(inner_scale_l L), H1, H2, PP, QP, PQ'. unfold g. ring. }
    constructor; rewrite ?EC, ?ES, ?EQ.
    - intros i Hi. destruct (Nat.eq_dec i k) as [-> |D]; [now rewrite CNk|]. rewrite CA by lia. apply (gr_c R). lia.
    - intros i Hi. destruct (Nat.eq_dec i k) as [-> |D]; [now rewrite SNk|]. rewrite SA by lia. apply (gr_s R). lia.
    - rewrite EE, EV. apply real_mul; [now apply real_opp|apply (gr_e R)].
    - assert (K1 : forall i, i < k -> hinner h (un s i) (hadd h (hscale h c (pn s k)) (hscale h sn q)) = C0) by (intros i Hi; rewrite (hl_inner_add L), !(hl_inner_scale L), (gr_up R), UQ by exact Hi; ring).
      intros i j Hi Hj. destruct (Nat.eq_dec i k) as [-> |Di]; destruct (Nat.eq_dec j k) as [-> |Dj]; rewrite ?UK, ?UA by lia.
      + rewrite Nat.eqb_refl, IX by assumption. destruct GG as [-> |[-> Z]]; [transitivity (Cadd (Cmul c c) (Cmul sn sn)); [ring|exact UN]|]. rewrite Z in UN. rewrite Z. transitivity (Cadd (Cmul c c) (Cmul C0 C0)); [ring|exact UN].
      + destruct (Nat.eqb_spec k j); [lia|]. apply (inner_sym0 L). apply K1. lia.
      + destruct (Nat.eqb_spec i k); [lia|]. apply K1. lia.
      + apply (gr_uu R); lia.
    - intros i Hi. rewrite PK. destruct (Nat.eq_dec i k) as [-> |D].
      + rewrite UK, IX by assumption. destruct GG as [-> |[-> Z]]; [|rewrite Z]; ring.
      + rewrite UA by lia. rewrite (hl_inner_add L), !(hl_inner_scale L), (gr_up R), UQ by lia. ring.
    - rewrite PK, QN, IX by assumption. fold g. destruct GG as [-> |[-> Z]]; [|rewrite Z; ring]. transitivity (Cadd (Cmul c c) (Cmul sn sn)); [ring|exact UN].
    - rewrite QN. intros Z. rewrite EE, EV, (SZ Z). ring.
  Qed.

  (** the solution after k rounds is optimal, and its residual is the error estimate *)
  Lemma optimal x k s : ginv h A o (residual h A b x) k s -> gkry h A (residual h A b x) k (g_qs s) -> greal k s -> exists y, backsolve k (g_cols s) (g_e s) k [] = Some y /\
    let x' := fold_left (fun x i => hadd h x (hscale h (nth i y C0) (qn s i))) (seq 0 k) x in
    minimal h A b k x x' /\ relative_residual h A b x' = (Cabs (nth k (g_e s) C0) / denom h b)%R /\ residual h A b x' = hscale h (nth k (g_e s) C0) (pn s k).
  Proof.
    intros I K R. destruct (solve L HA I) as [y [E [X1 X2]]]. exists y. split; [exact E|]. cbv zeta in *. set (x' := fold_left _ _ _) in *.
    assert (QS : forall n v, n <= k -> in_span h (powers A n (residual h A b x)) v <-> in_span h (firstn n (g_qs s)) v) by (intros n v Hn; apply (gkry_span L HA v K Hn)).
    assert (IN : in_krylov h A b k x x').
    { unfold in_krylov. apply QS; [lia|]. rewrite X1. apply (vsum_span L). intros i Hi. apply (span_scale L), (span_In L). rewrite <- (nth_firstn_lt z (n := k)) by exact Hi. apply nth_In. rewrite firstn_length, (gi_lq I). lia. }
    assert (PA : forall j, j < k -> hinner h (A (qn s j)) (residual h A b x') = C0).
    { intros j Hj. rewrite X2, (hl_inner_scale L). replace (hinner h (A (qn s j)) (pn s k)) with C0; [ring|]. symmetry. apply (inner_sym0 L). rewrite (gi_A I Hj), (vsum_inner L).
      rewrite <- (sumn_zero (S j)). apply sumn_ext. intros i Hi. rewrite (hl_inner_scale L). rewrite (inner_sym0 L (gr_up R (i := i) ltac:(lia))). ring. }
    split; [|split; [|exact X2]].
    - split; [exact IN|]. intros x'' IN''. unfold in_krylov in *. apply QS in IN; [|lia]. apply QS in IN''; [|lia].
      assert (D : in_span h (firstn k (g_qs s)) (hsub h x'' x')).
      { replace (hsub h x'' x') with (hsub h (hsub h x'' x) (hsub h x' x)) by (hvec L). unfold hsub at 1. apply (span_add L); [exact IN''|]. now apply (span_scale L). }
      destruct D as [d [LD ED]]. rewrite firstn_length, (gi_lq I) in LD.
      assert (RE : residual h A b x'' = hsub h (residual h A b x') (A (hsub h x'' x'))).
      { unfold residual, hsub. rewrite (proj1 HA), (proj2 HA). hvec L. }
      assert (OR : hinner h (A (hsub h x'' x')) (residual h A b x') = C0).
      { rewrite ED, (linear_lincomb L HA). rewrite lincomb_vsum by (rewrite map_length, firstn_length, (gi_lq I); lia). apply (inner_sym0 L). rewrite (vsum_inner L). rewrite map_length, firstn_length, (gi_lq I).
        rewrite <- (sumn_zero (Nat.min k (S k))). apply sumn_ext. intros i Hi. rewrite (hl_inner_scale L). rewrite nth_map_lt with (d := z) by (rewrite firstn_length, (gi_lq I); lia). rewrite nth_firstn_lt by lia.
        rewrite (inner_sym0 L (PA i ltac:(lia))). ring. }
      set (r' := residual h A b x') in *. set (w := A (hsub h x'' x')) in *. rewrite RE.
      apply sqrt_le_1_alt. unfold hnorm2. rewrite (inner_sub_r L). unfold hsub. rewrite !(inner_add_l L), !(inner_scale_l L), (inner_sym0 L OR), OR. assert (W := norm2_pos L w). unfold hnorm2 in W.
      replace (Cconj (Copp C1)) with (Copp C1) by (apply C_eq; cbn; ring). cbn [Cadd Cmul Copp C1 C0 fst snd]. rewrite (inner_real L w). unfold hnorm2. cbn [RtoC fst snd]. lra.
    - unfold relative_residual, denom, b_norm. f_equal. rewrite X2, (norm_hscaleC L). destruct (gi_last I) as [N|Z].
      + replace (hnorm h (pn s k)) with 1%R; [ring|]. unfold hnorm, hnorm2. rewrite (gr_pp R), N. cbn. symmetry. apply sqrt_1.
      + rewrite (gr_z R Z). rewrite (proj2 (Cabs_0_iff C0) eq_refl). ring.
  Qed.
End P.
