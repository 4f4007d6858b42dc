(** The algebraic invariant of the GMRES loop (valid for complex operators too) *)
From Coq Require Import Reals Lra List Arith Bool Lia.
From Verif Require Import Util Cplx Hilbert LinOpModel LinOpSpec LinOpProofs LinOpMat KrylovModel KrylovSpec KrylovProofs3 KrylovProofs4 KrylovProofs6 GmresModel GmresSpec GmresProofs.
Import ListNotations.
Set Implicit Arguments. Unset Strict Implicit.
Open Scope nat_scope.

Lemma list_snoc X (d : X) (l : list X) n : length l = S n -> l = firstn n l ++ [nth n l d].
Proof.
  intros E. apply list_eq_nth with (d := d); [rewrite app_length, firstn_length; cbn; lia|]. intros i Hi. destruct (Nat.eq_dec i n) as [-> |D].
  - rewrite app_nth2 by (rewrite firstn_length; lia). rewrite firstn_length. replace (n - Nat.min n (length l)) with 0 by lia. reflexivity.
  - rewrite app_nth1 by (rewrite firstn_length; lia). symmetry. apply nth_firstn_lt. lia.
Qed.

Section P.
  Variables (V : Type) (h : hspace V) (A : V -> V) (b : V) (o : gopts).
  Hypothesis L : hlaws h.
  Hypothesis HA : linear h A.
  Notation z := (hzero h).
  Lemma coeffs_sum : forall os v, v = hadd h (lincomb h (fst (project_coeffs h os v)) os) (snd (project_coeffs h os v)).
  Proof.
    induction os as [|q os IH]; intros v; cbn [project_coeffs lincomb fst snd]; [symmetry; apply (hl_zero L)|].
    specialize (IH (axpy h (Copp (hinner h q v)) q v)). destruct (project_coeffs h os _) as [cs r]. cbn [fst snd lincomb] in *.
    rewrite <- (hl_assoc L). rewrite <- IH. unfold axpy. hvec L.
  Qed.
  Lemma lincomb_vsum : forall c q, length c = length q -> lincomb h c q = vsum h (length q) (fun i => hscale h (nth i c C0) (nth i q z)).
  Proof.
    induction c as [|a c IH]; intros [|x q] E; try discriminate; [reflexivity|]. cbn [lincomb length]. rewrite vsum_Sl. cbn [nth]. f_equal. apply IH. now injection E.
  Qed.
  Lemma coeffs_zero os : fst (project_coeffs h os z) = repeat C0 (length os) /\ snd (project_coeffs h os z) = z.
  Proof.
    induction os as [|q os [I1 I2]]; cbn [project_coeffs length repeat fst snd]; [now split|]. rewrite (inner_0_r L).
    assert (E : axpy h (Copp C0) q z = z) by (unfold axpy; replace (Copp C0) with C0 by ring; rewrite (hl_null L); apply (hl_zero L)). rewrite E.
    destruct (project_coeffs h os z) as [cs r]. cbn [fst snd] in *. subst. now split.
  Qed.

  Notation qn s i := (nth i (g_qs s) z).
  Notation pn s i := (pv h (g_cs s) (g_sn s) (g_qs s) i).
  Notation un s i := (uv h (g_cs s) (g_sn s) (g_qs s) i).
  (** after k rounds starting with residual r0 *)
  Record ginv (r0 : V) (k : nat) (s : gstate V) : Prop := {
    gi_k : k <= g_N_max o;
    gi_lq : length (g_qs s) = S k;
    gi_lc : length (g_cs s) = k;
    gi_ls : length (g_sn s) = k;
    gi_lh : length (g_cols s) = k;
    gi_le : length (g_e s) = S (g_N_max o);
    gi_orth : orthonormal h (firstn k (g_qs s));
    gi_perp : forall i, i < k -> hinner h (qn s i) (qn s k) = C0;
    gi_last : hinner h (qn s k) (qn s k) = C1 \/ qn s k = z;
    gi_first : hscale h (RtoC (hnorm h r0)) (qn s 0) = r0;
    gi_cs : forall i, i < k -> unitary_at (g_cs s) (g_sn s) i;
    gi_cols : forall j, j < k -> length (nth j (g_cols s) []) = j + 2 /\ hent (g_cols s) (S j) j = C0;
    gi_A : forall j, j < k -> A (qn s j) = vsum h (S j) (fun i => hscale h (hent (g_cols s) i j) (un s i));
    gi_diag : forall j, j < k -> hent (g_cols s) j j <> C0;
    gi_e : r0 = hadd h (vsum h k (fun i => hscale h (nth i (g_e s) C0) (un s i))) (hscale h (nth k (g_e s) C0) (pn s k)) }.

  Lemma init_inv x : ginv (residual h A b x) 0 (g_init h A b o x).
  Proof.
    unfold g_init. set (r := hsub h b (A x)). assert (E : residual h A b x = r) by reflexivity. rewrite E.
    assert (Q : let q := if Rlt_dec 0 (hnorm h r) then rscale h (/ hnorm h r) r else r in hscale h (RtoC (hnorm h r)) q = r /\ (hinner h q q = C1 \/ q = z)).
    { cbv zeta. destruct (Rlt_dec 0 (hnorm h r)) as [H|H].
      - split; [|left; apply (normalized L); lra]. unfold rscale. rewrite (hl_mul L), <- RtoC_mul, Rinv_r by lra. apply (hl_one L).
      - assert (Z : hnorm h r = 0%R) by (assert (X := norm_nonneg h r); lra). assert (RZ := proj1 (norm_0_iff L r) Z). rewrite RZ. split; [apply (scale_0 L)|now right]. }
    cbv zeta in Q. destruct Q as [Q1 Q2].
    constructor; cbn [g_qs g_cols g_cs g_sn g_e length]; try reflexivity; try (intros; lia).
    - now rewrite repeat_length.
    - apply orthonormal_nil.
    - exact Q2.
    - exact Q1.
    - cbn [vsum seq map fold_right nth pv]. rewrite (hl_zero L). symmetry. exact Q1.
  Qed.

  (** the vector computed by arnoldi *)
  Lemma arnoldi_relation k qs : length qs = S k -> let '(col, q) := g_arnoldi h A k qs in
    length col = k + 2 /\ A (nth k qs z) = vsum h (k + 2) (fun i => hscale h (nth i col C0) (nth i (qs ++ [q]) z)) /\
    (exists n, (0 <= n)%R /\ nth (S k) col C0 = RtoC n) /\ (nth (S k) col C0 = C0 <-> q = z) /\
    (q = z \/ hinner h q q = C1) /\ (orthonormal h qs -> forall i, i <= k -> hinner h (nth i qs z) q = C0) /\
    (orthonormal h qs -> forall i, i <= k -> nth i col C0 = hinner h (nth i qs z) (A (nth k qs z))).
  Proof.
    intros LQ. unfold g_arnoldi. assert (EL : last qs z = nth k qs z).
    { rewrite (list_snoc z LQ) at 1. apply last_last. }
    rewrite EL. set (w := A (nth k qs z)). rewrite (firstn_all2 qs) by lia. assert (CS := coeffs_sum qs w). assert (CL := coeffs_len h qs w).
    assert (CF := @project_coeffs_fst V h L qs w). assert (CP := project_coeffs_snd h qs w). assert (FP := @fold_project_orth V h L qs w). assert (PP := @projector_perp V h L qs w).
    destruct (project_coeffs h qs w) as [hs r]. cbn [fst snd] in *.
    assert (RN : let q := if Rlt_dec 0 (hnorm h r) then rscale h (/ hnorm h r) r else r in hscale h (RtoC (hnorm h r)) q = r /\ (q = z \/ hinner h q q = C1) /\ (hnorm h r = 0%R <-> q = z)).
    { cbv zeta. destruct (Rlt_dec 0 (hnorm h r)) as [H|H].
      - split; [unfold rscale; rewrite (hl_mul L), <- RtoC_mul, Rinv_r by lra; apply (hl_one L)|]. assert (N : hinner h (rscale h (/ hnorm h r) r) (rscale h (/ hnorm h r) r) = C1) by (apply (normalized L); lra).
        split; [now right|]. split; [lra|]. intros Z. rewrite Z, (inner_0_r L) in N. injection N as N. lra.
      - assert (Z : hnorm h r = 0%R) by (assert (X := norm_nonneg h r); lra). assert (RZ := proj1 (norm_0_iff L r) Z). rewrite Z, RZ. split; [apply (scale_0 L)|]. split; [now left|]. now split. }
    cbv zeta in RN. set (q := if Rlt_dec 0 (hnorm h r) then _ else _) in *. destruct RN as [R1 [R2 R3]].
    assert (LH : length hs = S k) by (now rewrite CL). split; [rewrite app_length; cbn; lia|]. split.
    { rewrite CS. rewrite lincomb_vsum by lia. rewrite LQ. replace (k + 2) with (S (S k)) by lia. rewrite (vsum_S L (S k)). f_equal.
      - apply vsum_ext. intros i Hi. rewrite !app_nth1 by lia. reflexivity.
      - rewrite (app_nth2 hs) by lia. rewrite (app_nth2 qs) by lia. rewrite LH, LQ, Nat.sub_diag. cbn [nth]. symmetry. exact R1. }
    assert (EK : nth (S k) (hs ++ [RtoC (hnorm h r)]) C0 = RtoC (hnorm h r)) by (rewrite app_nth2 by lia; rewrite LH, Nat.sub_diag; reflexivity).
    rewrite EK. split; [exists (hnorm h r); split; [apply norm_nonneg|reflexivity]|]. split.
    { rewrite <- R3. split; [intros X; now injection X|intros ->; reflexivity]. }
    split; [exact R2|]. split.
    - intros ON i Hi. specialize (FP (proj1 ON)). specialize (PP ON). assert (RP : hinner h (nth i qs z) r = C0) by (rewrite CP, FP; apply PP; apply nth_In; lia).
      unfold q. destruct (Rlt_dec 0 (hnorm h r)); [|exact RP]. rewrite (inner_rscale_r L), RP. ring.
    - intros ON i Hi. rewrite app_nth1 by lia. rewrite (CF (proj1 ON)). rewrite nth_map_lt with (d := z) by lia. reflexivity.
  Qed.
  Lemma orthonormal_all k qs : length qs = S k -> orthonormal h (firstn k qs) -> (forall i, i < k -> hinner h (nth i qs z) (nth k qs z) = C0) -> hinner h (nth k qs z) (nth k qs z) = C1 -> orthonormal h qs.
  Proof.
    intros LQ O P N. rewrite (list_snoc z LQ). apply (orthonormal_snoc (h := h)); [exact O|exact N|]. intros y Y. apply (In_nth _ _ z) in Y. destruct Y as [i [Hi <-]]. rewrite firstn_length in Hi.
    rewrite nth_firstn_lt by lia. apply P. lia.
  Qed.

  (** a step from an exhausted basis fails *)
  Lemma rot_zeros cs sn n l : fold_left (fun col i => rotate col i cs sn) l (repeat C0 n) = repeat C0 n.
  Proof.
    assert (NR : forall m, nth m (repeat C0 n) C0 = C0) by (intros m; destruct (Nat.lt_ge_cases m n); [now apply nth_repeat_lt|apply nth_overflow; now rewrite repeat_length]).
    assert (U : forall m, upd (repeat C0 n) m C0 = repeat C0 n).
    { intros m. apply list_eq_nth with (d := C0); [now rewrite upd_length|]. intros j Hj. rewrite upd_length, repeat_length in Hj. destruct (Nat.eq_dec j m) as [-> |D].
      - rewrite nth_upd_eq by (now rewrite repeat_length). now rewrite NR.
      - now rewrite nth_upd_neq by congruence. }
    induction l as [|i l IH]; cbn [fold_left]; [reflexivity|]. unfold rotate at 2. rewrite !NR. replace (Cadd _ _) with C0 by ring. rewrite U. replace (Cadd _ _) with C0 by ring. rewrite U. exact IH.
  Qed.
  Lemma step_exhausted k s r0 : ginv r0 k s -> qn s k = z -> g_step h A b k s = None.
  Proof.
    intros I Z. unfold g_step, g_arnoldi. assert (LQ := gi_lq I). assert (EL : last (g_qs s) z = z).
    { rewrite (list_snoc z LQ). rewrite last_last. exact Z. }
    rewrite EL, (linear_0 L HA). destruct (coeffs_zero (firstn (k + 1) (g_qs s))) as [C1' C2']. destruct (project_coeffs h _ z) as [hs r]. cbn [fst snd] in *. subst.
    assert (N0 : hnorm h z = 0%R) by now apply (norm_0_iff L). rewrite N0. unfold apply_givens.
    change [RtoC 0] with (repeat C0 1). rewrite <- repeat_app. rewrite rot_zeros. unfold givens_rotation.
    assert (NR : forall n m, nth m (repeat C0 n) C0 = C0) by (intros n m; destruct (Nat.lt_ge_cases m n); [now apply nth_repeat_lt|apply nth_overflow; now rewrite repeat_length]).
    rewrite !NR. replace (Cadd (Cmul C0 C0) (Cmul C0 C0)) with C0 by ring. rewrite Csqrt_0. destruct (Ceqb_spec C0 C0); [reflexivity|congruence].
  Qed.

  Lemma step_inv k s r0 s' : ginv r0 k s -> k < g_N_max o -> g_step h A b k s = Some s' ->
    ginv r0 (S k) s' /\ orthonormal h (g_qs s) /\
    exists col q c sn e, g_arnoldi h A k (g_qs s) = (col, q) /\ g_qs s' = g_qs s ++ [q] /\ g_cs s' = g_cs s ++ [c] /\ g_sn s' = g_sn s ++ [sn] /\
      (let col' := fold_left (fun col i => rotate col i (g_cs s) (g_sn s)) (seq 0 k) col in givens_rotation k col' = Some (c, sn)) /\
      nth (S k) (g_e s') C0 = e /\ e = Cmul (Copp sn) (nth k (g_e s) C0) /\ g_errs s' = g_errs s ++ [(Cabs e / denom h b)%R].
  Proof.
    intros I Hk E. assert (QK : hinner h (qn s k) (qn s k) = C1).
    { destruct (gi_last I) as [H|H]; [exact H|]. rewrite (step_exhausted I H) in E. discriminate. }
    assert (ON : orthonormal h (g_qs s)) by (apply (orthonormal_all (gi_lq I) (gi_orth I) (gi_perp I) QK)).
    unfold g_step in E. assert (AR := arnoldi_relation (gi_lq I)). destruct (g_arnoldi h A k (g_qs s)) as [col q]. destruct AR as [LC [AQ [_ [_ [QQ [PERP _]]]]]]. specialize (PERP ON).
    unfold apply_givens in E. set (col' := fold_left (fun col i => rotate col i (g_cs s) (g_sn s)) (seq 0 k) col) in *.
    assert (LC' : length col' = k + 2) by (unfold col'; now rewrite rotations_len).
    destruct (givens_rotation k col') as [[c sn]|] eqn:GR; [|discriminate].
    assert (GR' := GR). unfold givens_rotation in GR. set (v1 := nth k col' C0) in *. set (v2 := nth (S k) col' C0) in *. set (t := Csqrt (Cadd (Cmul v1 v1) (Cmul v2 v2))) in *.
    destruct (Ceqb_spec t C0) as [T|T]; [discriminate|]. injection GR as GC GS.
    assert (TT : Cmul t t = Cadd (Cmul v1 v1) (Cmul v2 v2)) by apply Csqrt_sq.
    assert (CT : Cmul c t = v1) by (rewrite <- GC; now apply Cdiv_mul). assert (ST : Cmul sn t = v2) by (rewrite <- GS; now apply Cdiv_mul).
    assert (UN : Cadd (Cmul c c) (Cmul sn sn) = C1).
    { apply (Cmul_cancel (a := Cmul t t)); [intros X; apply T; now apply (Cmul_0 X)|]. rewrite TT at 2. rewrite <- CT, <- ST. ring. }
    set (rkk := Cadd (Cmul c v1) (Cmul sn v2)) in *. assert (RK : rkk = t). { unfold rkk. rewrite <- CT, <- ST. replace (Cadd (Cmul c (Cmul c t)) (Cmul sn (Cmul sn t))) with (Cmul (Cadd (Cmul c c) (Cmul sn sn)) t) by ring. rewrite UN. ring. }
    assert (KE : S k < length (g_e s)) by (rewrite (gi_le I); lia).
    set (ek := nth k (g_e s) C0) in *. set (e' := upd (upd (g_e s) (S k) (Cmul (Copp sn) ek)) k (Cmul c ek)) in *.
    assert (E1 : nth (S k) e' C0 = Cmul (Copp sn) ek). { unfold e'. rewrite nth_upd_neq by lia. now rewrite nth_upd_eq. }
    assert (E2 : nth k e' C0 = Cmul c ek). { unfold e'. now rewrite nth_upd_eq by (rewrite upd_length; lia). }
    assert (E3 : forall i, i < k -> nth i e' C0 = nth i (g_e s) C0). { intros i Hi. unfold e'. now rewrite !nth_upd_neq by lia. }
    injection E as E. subst s'. set (colf := upd (upd col' k rkk) (S k) C0) in *.
    assert (F1 : nth k colf C0 = rkk). { unfold colf. rewrite nth_upd_neq by lia. rewrite nth_upd_eq by lia. reflexivity. }
    assert (F2 : nth (S k) colf C0 = C0). { unfold colf. rewrite nth_upd_eq by (rewrite upd_length; lia). reflexivity. }
    assert (F3 : forall i, i < k -> nth i colf C0 = nth i col' C0). { intros i Hi. unfold colf. now rewrite !nth_upd_neq by lia. }
    assert (LQ := gi_lq I). assert (LCS := gi_lc I). assert (LSN := gi_ls I). assert (LH := gi_lh I).
    assert (QA : forall i, i <= k -> nth i (g_qs s ++ [q]) z = qn s i) by (intros i Hi; apply app_nth1; lia).
    assert (QN : nth (S k) (g_qs s ++ [q]) z = q) by (rewrite app_nth2 by lia; rewrite LQ, Nat.sub_diag; reflexivity).
    assert (CA : forall i, i < k -> nth i (g_cs s ++ [c]) C0 = nth i (g_cs s) C0) by (intros i Hi; apply app_nth1; lia).
    assert (CN : nth k (g_cs s ++ [c]) C0 = c) by (rewrite app_nth2 by lia; rewrite LCS, Nat.sub_diag; reflexivity).
    assert (SA : forall i, i < k -> nth i (g_sn s ++ [sn]) C0 = nth i (g_sn s) C0) by (intros i Hi; apply app_nth1; lia).
    assert (SN : nth k (g_sn s ++ [sn]) C0 = sn) by (rewrite app_nth2 by lia; rewrite LSN, Nat.sub_diag; reflexivity).
    assert (PA : forall i, i <= k -> pv h (g_cs s ++ [c]) (g_sn s ++ [sn]) (g_qs s ++ [q]) i = pn s i) by (intros i Hi; apply pv_app; lia).
    assert (UA : forall i, i < k -> uv h (g_cs s ++ [c]) (g_sn s ++ [sn]) (g_qs s ++ [q]) i = un s i) by (intros i Hi; apply uv_app; lia).
    assert (HAo : forall i j, j < k -> hent (g_cols s ++ [colf]) i j = hent (g_cols s) i j) by (intros i j Hj; unfold hent; rewrite app_nth1 by lia; reflexivity).
    assert (HAn : forall i, hent (g_cols s ++ [colf]) i k = nth i colf C0) by (intros i; unfold hent; rewrite app_nth2 by lia; rewrite LH, Nat.sub_diag; reflexivity).
    assert (UNk : unitary_at (g_cs s ++ [c]) (g_sn s ++ [sn]) k) by (unfold unitary_at; rewrite CN, SN; exact UN).
    split; [|split; [exact ON|]].
    { constructor; cbn [g_qs g_cols g_cs g_sn g_e]; rewrite ?app_length; cbn [length]; try lia.
      - unfold e'. rewrite !upd_length. apply (gi_le I).
      - rewrite firstn_app. replace (S k - length (g_qs s)) with 0 by lia. rewrite firstn_O, app_nil_r, firstn_all2 by lia. exact ON.
      - intros i Hi. rewrite QN, QA by lia. apply PERP. lia.
      - rewrite QN. destruct QQ; [now right|now left].
      - rewrite QA by lia. apply (gi_first I).
      - intros i Hi. destruct (Nat.eq_dec i k) as [-> |D]; [exact UNk|]. unfold unitary_at. rewrite CA, SA by lia. apply (gi_cs I). lia.
      - intros j Hj. destruct (Nat.eq_dec j k) as [-> |D].
        + rewrite HAn, F2. split; [|reflexivity]. rewrite app_nth2 by lia. rewrite LH, Nat.sub_diag. cbn [nth]. unfold colf. now rewrite !upd_length.
        + rewrite HAo by lia. rewrite app_nth1 by lia. apply (gi_cols I). lia.
      - intros j Hj. destruct (Nat.eq_dec j k) as [-> |D].
        + rewrite QA by lia. rewrite AQ. rewrite (@rotations V h L (g_cs s ++ [c]) (g_sn s ++ [sn]) (g_qs s ++ [q]) k col k LC (le_n k)).
          * assert (FE : fold_left (fun col i => rotate col i (g_cs s ++ [c]) (g_sn s ++ [sn])) (seq 0 k) col = col').
            { unfold col'. clear - CA SA. assert (G : forall l, (forall i, In i l -> i < k) -> forall cl, fold_left (fun col i => rotate col i (g_cs s ++ [c]) (g_sn s ++ [sn])) l cl = fold_left (fun col i => rotate col i (g_cs s) (g_sn s)) l cl).
              { induction l as [|i l IH]; intros F cl; cbn [fold_left]; [reflexivity|]. rewrite IH by (intros; apply F; now right). f_equal. unfold rotate. rewrite CA, SA by (apply F; now left). reflexivity. }
              apply G. intros i Hi. apply in_seq in Hi. lia. }
            rewrite FE. replace (k + 1 - k) with 1 by lia. rewrite (vsum_S L k). f_equal; [apply vsum_ext; intros i Hi; rewrite HAn, F3 by exact Hi; reflexivity|].
            rewrite vsum_Sl, vsum_0, (add_0_r L). rewrite Nat.add_0_r. replace (k + 1) with (S k) by lia. fold v1 v2.
            rewrite (rotate_pair L (g_qs s ++ [q]) v1 v2 UNk). rewrite CN, SN, HAn, F1. fold rkk.
            replace (Cadd (Cmul (Copp sn) v1) (Cmul c v2)) with C0 by (rewrite <- CT, <- ST; ring). rewrite (hl_null L), (add_0_r L). reflexivity.
          * intros i Hi. unfold unitary_at. rewrite CA, SA by lia. apply (gi_cs I). lia.
        + rewrite QA by lia. rewrite (gi_A I) by lia. apply vsum_ext. intros i Hi. rewrite HAo, UA by lia. reflexivity.
      - intros j Hj. destruct (Nat.eq_dec j k) as [-> |D]; [rewrite HAn, F1, RK; exact T|]. rewrite HAo by lia. apply (gi_diag I). lia.
      - rewrite (gi_e I) at 1. rewrite (vsum_S L k). rewrite (vsum_ext h (n := k) (f := fun i => hscale h (nth i e' C0) (uv h (g_cs s ++ [c]) (g_sn s ++ [sn]) (g_qs s ++ [q]) i)) (g := fun i => hscale h (nth i (g_e s) C0) (un s i))) by (intros i Hi; rewrite E3, UA by lia; reflexivity).
        rewrite E1, E2. assert (RP := rotate_pair L (g_qs s ++ [q]) ek C0 UNk). rewrite CN, SN, (hl_null L), (add_0_r L), PA in RP by lia. fold ek. rewrite RP.
        replace (Cadd (Cmul c ek) (Cmul sn C0)) with (Cmul c ek) by ring. replace (Cadd (Cmul (Copp sn) ek) (Cmul c C0)) with (Cmul (Copp sn) ek) by ring. rewrite (hl_assoc L). reflexivity. }
    exists col, q, c, sn, (nth (S k) e' C0). cbn [g_qs g_cs g_sn g_e g_errs]. repeat (split; [first [reflexivity|exact GR'|exact E1]|]). reflexivity.
  Qed.
End P.
