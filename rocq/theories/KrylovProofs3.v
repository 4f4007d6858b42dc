(** Ritz values, Ritz vectors, and the Krylov space. *)
From Coq Require Import Reals Lra List Arith Lia Bool Permutation.
From Verif Require Import Cplx Hilbert LinOpModel LinOpSpec LinOpProofs LinOpMat KrylovModel KrylovSpec KrylovProofs KrylovProofs2.
Import ListNotations.
Set Implicit Arguments. Unset Strict Implicit.
Open Scope nat_scope.

Lemma RtoC_rsum n f : RtoC (rsum n f) = sumn n (fun i => RtoC (f i)).
Proof.
  unfold rsum, sumn, csum. induction (seq 0 n) as [|i l IH]; cbn [map fold_right]; [reflexivity|]. rewrite RtoC_add, IH. reflexivity.
Qed.
Lemma sumn_single n i f : i < n -> sumn n (fun j => if i =? j then f j else C0) = f i.
Proof. intros Hi. rewrite <- (sumn_delta (n := n) f Hi). apply sumn_ext. intros j _. destruct (i =? j); ring. Qed.
Lemma sumn_none n (f : nat -> C) i : n <= i -> sumn n (fun j => if i =? j then f j else C0) = C0.
Proof. intros Hi. rewrite (sumn_ext (g := fun _ => C0)); [apply sumn_zero|]. intros j Hj. destruct (Nat.eqb_spec i j); [lia|reflexivity]. Qed.
(** the column j of a tridiagonal matrix against g *)
Lemma tridiag_sum n al be j (g : nat -> C) : j < n ->
  sumn n (fun i => Cmul (RtoC (tridiag al be i j)) (g i)) =
  Cadd (Cadd (if j =? 0 then C0 else Cmul (RtoC (nth (j - 1) be 0%R)) (g (j - 1))) (Cmul (RtoC (nth j al 0%R)) (g j)))
       (if S j <? n then Cmul (RtoC (nth j be 0%R)) (g (S j)) else C0).
Proof.
  intros Hj.
  rewrite (sumn_ext (g := fun i => Cadd (Cadd (if (if j =? 0 then n else j - 1) =? i then Cmul (RtoC (nth (j - 1) be 0%R)) (g i) else C0)
     (if j =? i then Cmul (RtoC (nth j al 0%R)) (g i) else C0)) (if S j =? i then Cmul (RtoC (nth j be 0%R)) (g i) else C0))).
  2:{ intros i Hi. unfold tridiag. destruct (Nat.eqb_spec i j) as [E|N1].
      - subst i. rewrite Nat.eqb_refl. destruct (Nat.eqb_spec (S j) j); [lia|]. destruct (Nat.eqb_spec (if j =? 0 then n else j - 1) j) as [E|N]; [destruct (Nat.eqb_spec j 0); lia|]. ring.
      - destruct (Nat.eqb_spec j i); [lia|]. destruct (Nat.eqb_spec i (S j)) as [E|N2].
        + subst i. rewrite Nat.eqb_refl. destruct (Nat.eqb_spec (if j =? 0 then n else j - 1) (S j)) as [E|N]; [destruct (Nat.eqb_spec j 0); lia|]. ring.
        + destruct (Nat.eqb_spec (S j) i); [lia|]. destruct (Nat.eqb_spec j (S i)) as [E|N3].
          * subst j. cbn [Nat.eqb]. replace (S i - 1) with i by lia. rewrite Nat.eqb_refl. ring.
          * destruct (Nat.eqb_spec (if j =? 0 then n else j - 1) i) as [E|N]; [destruct (Nat.eqb_spec j 0); lia|]. apply C_eq; cbn; ring. }
  rewrite !sumn_add. f_equal; [f_equal|].
  - destruct (Nat.eqb_spec j 0); [now apply sumn_none|]. rewrite (sumn_single (fun i => Cmul (RtoC (nth (j - 1) be 0%R)) (g i))) by lia. reflexivity.
  - rewrite (sumn_single (fun i => Cmul (RtoC (nth j al 0%R)) (g i))) by lia. reflexivity.
  - destruct (Nat.ltb_spec (S j) n); [|apply sumn_none; lia]. rewrite (sumn_single (fun i => Cmul (RtoC (nth j be 0%R)) (g i))) by lia. reflexivity.
Qed.
Lemma tridiag_sym al be i j : tridiag al be i j = tridiag al be j i.
Proof.
  unfold tridiag. rewrite (Nat.eqb_sym j i). destruct (Nat.eqb_spec i j); [now subst|]. destruct (Nat.eqb_spec i (S j)); destruct (Nat.eqb_spec j (S i)); try reflexivity. lia.
Qed.
(** only the first n-1 off-diagonal entries matter *)
Lemma tridiag_firstn al be n i j : length al = n -> i < n -> j < n -> tridiag al (firstn (n - 1) be) i j = tridiag al be i j.
Proof.
  intros Hn Hi Hj. assert (G : forall k, k < n - 1 -> nth k (firstn (n - 1) be) 0%R = nth k be 0%R).
  { clear. intros k. generalize (n - 1). revert k. induction be as [|b be IH]; intros [|k] [|m] Hk; cbn [firstn nth]; try lia; auto. apply IH. lia. }
  unfold tridiag. destruct (Nat.eqb_spec i j); [reflexivity|]. destruct (Nat.eqb_spec i (S j)); [apply G; lia|]. destruct (Nat.eqb_spec j (S i)); [apply G; lia|reflexivity].
Qed.

Section P.
  Variables (V : Type) (h : hspace V) (H : V -> V).
  Hypothesis L : hlaws h.
  Hypothesis HH : hermitian h H.
  Notation z := (hzero h).

  Lemma inner_lincomb_n x : forall c q n, length c = n -> length q = n -> hinner h x (lincomb h c q) = sumn n (fun i => Cmul (nth i c C0) (hinner h x (nth i q z))).
  Proof.
    induction c as [|a c IH]; intros [|y q] n Hc Hq; cbn [length] in *; subst n; try discriminate; cbn [lincomb].
    - apply (inner_0_r L).
    - rewrite (hl_inner_add L), (hl_inner_scale L), (IH q (length c)) by lia. rewrite sumn_S. reflexivity.
  Qed.
  Lemma inner_lincomb_ln x c q n : length c = n -> length q = n -> hinner h (lincomb h c q) x = sumn n (fun i => Cmul (Cconj (nth i c C0)) (hinner h (nth i q z) x)).
  Proof.
    intros Hc Hq. rewrite (hl_inner_conj L), (inner_lincomb_n x Hc Hq), sumn_conj. apply sumn_ext. intros i Hi. rewrite Cconj_mul, <- (hl_inner_conj L). reflexivity.
  Qed.
  Lemma inner_lincombs c d q n : orthonormal h q -> length c = n -> length d = n -> length q = n ->
    hinner h (lincomb h c q) (lincomb h d q) = sumn n (fun i => Cmul (Cconj (nth i c C0)) (nth i d C0)).
  Proof.
    intros HO Hc Hd Hq. rewrite (inner_lincomb_ln _ Hc Hq). apply sumn_ext. intros i Hi. f_equal. rewrite (inner_lincomb_n _ Hd Hq).
    rewrite (sumn_ext (g := fun j => Cmul (if i =? j then C1 else C0) (nth j d C0))); [now rewrite sumn_delta|]. intros j Hj.
    rewrite (orthonormal_nth L HO) by lia. ring.
  Qed.

  Section Basis.
    Variables (N : nat) (q : list V) (w : V) (al be : list R).
    Hypothesis I : linv h H N q w al be.
    Lemma inner_Hq x j : j < N -> hinner h x (H (nth j q z)) = Cadd (sumn N (fun i => Cmul (RtoC (tridiag al be i j)) (hinner h x (nth i q z)))) (if S j =? N then hinner h x w else C0).
    Proof.
      intros Hj. rewrite (tridiag_sum _ _ (fun i => hinner h x (nth i q z)) Hj). rewrite (li_rec I) by (rewrite (li_len I); lia). rewrite (li_len I), !(hl_inner_add L), (inner_rscale_r L).
      unfold prev_term. assert (E1 : hinner h x (if j =? 0 then z else rscale h (nth (j - 1) be 0%R) (nth (j - 1) q z)) = (if j =? 0 then C0 else Cmul (RtoC (nth (j - 1) be 0%R)) (hinner h x (nth (j - 1) q z)))).
      { destruct (j =? 0); [apply (inner_0_r L)|apply (inner_rscale_r L)]. }
      rewrite E1. destruct (Nat.eqb_spec (S j) N); destruct (Nat.ltb_spec (S j) N); try lia; [ring|]. rewrite (inner_rscale_r L). ring.
    Qed.
    (** H (sum c_j q_j) = sum (T c)_i q_i + c_last w *)
    Lemma inner_H_lincomb x c : N <> 0 -> length c = N ->
      hinner h x (H (lincomb h c q)) = Cadd (sumn N (fun i => Cmul (sumn N (fun j => Cmul (RtoC (tridiag al be i j)) (nth j c C0))) (hinner h x (nth i q z)))) (Cmul (nth (N - 1) c C0) (hinner h x w)).
    Proof.
      intros NZ Hc. rewrite (linear_lincomb L (proj1 HH)). rewrite (inner_lincomb_n x (n := N) Hc) by (rewrite map_length; apply (li_len I)).
      rewrite (sumn_ext (g := fun j => Cadd (Cmul (nth j c C0) (sumn N (fun i => Cmul (RtoC (tridiag al be i j)) (hinner h x (nth i q z))))) (if N - 1 =? j then Cmul (nth j c C0) (hinner h x w) else C0))).
      2:{ intros j Hj. assert (Em : nth j (map H q) z = H (nth j q z)). { rewrite (nth_indep _ z (H z)) by (rewrite map_length, (li_len I); lia). apply map_nth. }
          rewrite Em, (inner_Hq x Hj). destruct (Nat.eqb_spec (S j) N); destruct (Nat.eqb_spec (N - 1) j); try lia; ring. }
      rewrite sumn_add. f_equal.
      - rewrite (sumn_ext (g := fun j => sumn N (fun i => Cmul (Cmul (RtoC (tridiag al be i j)) (nth j c C0)) (hinner h x (nth i q z))))).
        2:{ intros j Hj. rewrite <- sumn_scale. apply sumn_ext. intros. ring. }
        rewrite sumn_swap. apply sumn_ext. intros i Hi. rewrite sumn_scale_r. reflexivity.
      - rewrite (sumn_single (fun j => Cmul (nth j c C0) (hinner h x w))) by lia. reflexivity.
    Qed.
    Lemma w_perp c : length c = N -> hinner h (lincomb h c q) w = C0.
    Proof.
      intros Hc. rewrite (inner_lincomb_ln _ Hc (li_len I)). rewrite (sumn_ext (g := fun _ => C0)); [apply sumn_zero|]. intros i Hi. rewrite (li_perp I); [ring|]. apply nth_In. rewrite (li_len I). exact Hi.
    Qed.
    (** Ritz pair: T c = e c *)
    Lemma ritz_pair c (e : R) : N <> 0 -> length c = N -> (forall i, i < N -> sumn N (fun j => Cmul (RtoC (tridiag al be i j)) (nth j c C0)) = Cmul (RtoC e) (nth i c C0)) ->
      H (lincomb h c q) = hadd h (rscale h e (lincomb h c q)) (hscale h (nth (N - 1) c C0) w).
    Proof.
      intros NZ Hc E. apply (inner_ext L). intros x. rewrite (inner_H_lincomb x NZ Hc), (hl_inner_add L), (inner_rscale_r L), (hl_inner_scale L), (inner_lincomb_n x Hc (li_len I)). f_equal.
      rewrite <- sumn_scale. apply sumn_ext. intros i Hi. rewrite (E i Hi). ring.
    Qed.

    (** ** the Krylov space *)
    Lemma span_trans l l' v : (forall x, In x l -> in_span h l' x) -> in_span h l v -> in_span h l' v.
    Proof.
      intros Hl [c [Hc E]]. subst v. revert c Hc. induction l as [|x l IH]; intros [|a c] Hc; cbn [length] in Hc; try discriminate; cbn [lincomb]; [apply (span_zero L)|].
      apply (span_add L); [apply (span_scale L), Hl; now left|apply IH; [intros; apply Hl; now right|lia]].
    Qed.
    Lemma powers_length n psi : length (powers H n psi) = n. Proof. revert psi; induction n; intros; cbn [powers length]; auto. Qed.
    Lemma powers_map n psi : map H (powers H n psi) = powers H n (H psi). Proof. revert psi; induction n; intros; cbn [powers map]; [reflexivity|]. now rewrite IHn. Qed.
    Lemma powers_In n m psi x : n <= m -> In x (powers H n psi) -> In x (powers H m psi).
    Proof. revert m psi; induction n as [|n IH]; intros m psi Hm; [intros []|]. destruct m as [|m]; [lia|]. cbn [powers]. intros [E|Hx]; [now left|]. right. apply (IH m); [lia|exact Hx]. Qed.
    Lemma powers_H n psi v : in_span h (powers H n psi) v -> in_span h (powers H (S n) psi) (H v).
    Proof.
      intros [c [Hc E]]. subst v. rewrite powers_length in Hc. rewrite (linear_lincomb L (proj1 HH)), powers_map. exists (C0 :: c). split; [cbn [length powers]; rewrite powers_length; lia|]. cbn [powers lincomb].
      now rewrite (hl_null L), (hl_zero L).
    Qed.
    Hypothesis POS : forall j, j + 1 < N -> nth j be 0%R <> 0%R.
    Lemma q_in_powers : forall n j, j <= n -> j < N -> in_span h (powers H (S j) (nth 0 q z)) (nth j q z).
    Proof.
      induction n as [|n IH]; intros j Hj HjN.
      - replace j with 0 by lia. apply (span_In L). now left.
      - destruct (Nat.eq_dec j (S n)) as [E|NE]; [|apply IH; lia]. subst j.
        assert (R1 := li_rec I (j := n) ltac:(rewrite (li_len I); lia)). rewrite (li_len I) in R1. destruct (Nat.eqb_spec (S n) N); [lia|].
        assert (NB : nth n be 0%R <> 0%R) by (apply POS; lia).
        assert (E : nth (S n) q z = rscale h (/ nth n be 0%R) (hsub h (H (nth n q z)) (hadd h (prev_term h be q n) (rscale h (nth n al 0%R) (nth n q z))))).
        { apply (inner_ext L). intros x. rewrite (inner_rscale_r L), (inner_sub_r L), R1, !(hl_inner_add L), !(inner_rscale_r L). apply C_eq; cbn; field; exact NB. }
        rewrite E. unfold rscale. apply (span_scale L). unfold hsub.
        assert (Mono : forall i, i <= n -> in_span h (powers H (S (S n)) (nth 0 q z)) (nth i q z)).
        { intros i Hi. eapply span_trans; [|apply (IH i); lia]. intros y Hy. apply (span_In L). apply (powers_In (n := S i)); [lia|exact Hy]. }
        apply (span_add L); [apply powers_H, IH; lia|]. apply (span_scale L), (span_add L).
        + unfold prev_term. destruct (Nat.eqb_spec n 0); [apply (span_zero L)|]. unfold rscale. apply (span_scale L), Mono. lia.
        + apply (span_scale L), Mono. lia.
    Qed.
    Lemma firstn_In (l : list V) n x : In x (firstn n l) -> In x l. Proof. intros Hx. rewrite <- (firstn_skipn n l). apply in_app_iff. now left. Qed.
    Lemma nth_in_firstn i n : i < n -> n <= N -> In (nth i q z) (firstn n q).
    Proof.
      intros Hi Hn. assert (E : nth i (firstn n q) z = nth i q z). { generalize q as l. clear -Hi. intros l. revert i n Hi. induction l as [|x l IHl]; intros [|i] [|n] Hi; cbn [firstn nth]; try lia; auto. apply IHl. lia. }
      rewrite <- E. apply nth_In. rewrite firstn_length, (li_len I). lia.
    Qed.
    Lemma span_H_firstn n v : n < N -> in_span h (firstn n q) v -> in_span h (firstn (S n) q) (H v).
    Proof.
      intros Hn [c [Hc E]]. subst v. rewrite (linear_lincomb L (proj1 HH)). rewrite firstn_length, (li_len I) in Hc.
      eapply span_trans; [|exists c; split; [|reflexivity]; rewrite map_length, firstn_length, (li_len I); exact Hc].
      intros x Hx. apply in_map_iff in Hx. destruct Hx as [y [E Hy]]. subst x. destruct (In_nth _ y z Hy) as (j & Hj & Ej). rewrite firstn_length, (li_len I) in Hj.
      assert (E : nth j (firstn n q) z = nth j q z). { generalize q as l. assert (Hjn : j < n) by lia. clear -Hjn. intros l. revert j n Hjn. induction l as [|x l IHl]; intros [|j] [|n] Hi; cbn [firstn nth]; try lia; auto. apply IHl. lia. }
      rewrite E in Ej. subst y. rewrite (li_rec I) by (rewrite (li_len I); lia). rewrite (li_len I). destruct (Nat.eqb_spec (S j) N); [lia|].
      assert (M : forall i, i < S n -> in_span h (firstn (S n) q) (nth i q z)) by (intros i Hi; apply (span_In L), nth_in_firstn; lia).
      apply (span_add L); [apply (span_add L)|]; unfold rscale.
      - unfold prev_term. destruct (Nat.eqb_spec j 0); [apply (span_zero L)|]. apply (span_scale L), M. lia.
      - apply (span_scale L), M. lia.
      - apply (span_scale L), M. lia.
    Qed.
    Lemma powers_in_q x : N <> 0 -> In x (powers H N (nth 0 q z)) -> in_span h q x.
    Proof.
      intros NZ. assert (G : forall m n psi, n + m <= N -> n <> 0 -> in_span h (firstn n q) psi -> forall x, In x (powers H (S m) psi) -> in_span h q x).
      { induction m as [|m IH]; intros n psi Hn Hz Hp y Hy; cbn [powers] in Hy.
        - destruct Hy as [E|[]]. subst y. eapply span_trans; [|exact Hp]. intros y Hy. apply (span_In L). eapply firstn_In; exact Hy.
        - destruct Hy as [E|Hy].
          + subst y. eapply span_trans; [|exact Hp]. intros y Hy. apply (span_In L). eapply firstn_In; exact Hy.
          + apply (IH (S n) (H psi)); [lia|lia| |exact Hy]. apply span_H_firstn; [lia|exact Hp]. }
      intros Hx. destruct N as [|m] eqn:EN; [congruence|]. apply (G m 1 (nth 0 q z)); [lia|lia| |exact Hx].
      apply (span_In L). rewrite <- EN in *. apply nth_in_firstn; lia.
    Qed.
    Lemma krylov_space v : N <> 0 -> in_span h q v <-> in_span h (powers H N (nth 0 q z)) v.
    Proof.
      intros NZ. split; intros Hv.
      - eapply span_trans; [|exact Hv]. intros x Hx. destruct (In_nth q x z Hx) as (j & Hj & Ej). rewrite (li_len I) in Hj. rewrite <- Ej.
        eapply span_trans; [|apply (q_in_powers (le_n j) Hj)]. intros y Hy. apply (span_In L). apply (powers_In (n := S j)); [lia|exact Hy].
      - eapply span_trans; [|exact Hv]. intros x Hx. now apply powers_in_q.
    Qed.
  End Basis.

  (** the spans of the powers of psi and of its normalised version agree *)
  Lemma powers_scale a psi : linear h H -> forall n, powers H n (hscale h a psi) = map (hscale h a) (powers H n psi).
  Proof. intros HL n. revert psi. induction n as [|n IH]; intros psi; cbn [powers map]; [reflexivity|]. now rewrite (proj2 HL), IH. Qed.
  Lemma span_powers_scale a psi n v : a <> 0%R -> in_span h (powers H n (rscale h a psi)) v <-> in_span h (powers H n psi) v.
  Proof.
    intros Na. unfold rscale. rewrite (powers_scale _ _ (proj1 HH)). split; intros Hv.
    - eapply span_trans; [|exact Hv]. intros x Hx. apply in_map_iff in Hx. destruct Hx as [y [E Hy]]. subst x. apply (span_scale L), (span_In L), Hy.
    - eapply span_trans; [|exact Hv]. intros x Hx. replace x with (hscale h (RtoC (/ a)) (hscale h (RtoC a) x)).
      + apply (span_scale L), (span_In L), in_map, Hx.
      + rewrite (hl_mul L), <- RtoC_mul, Rinv_l by exact Na. apply (hl_one L).
  Qed.
End P.

(** ** the eigensolver for the tridiagonal matrix *)
Section Eig.
  Variables (eigh : eigh_fun) (al be : list R).
  Hypothesis OK : eigh_ok eigh al be.
  Notation n := (length al).
  Definition ev : list R := fst (eigh al be).
  Definition evec : nat -> nat -> R := snd (eigh al be).
  Lemma eig_len : length ev = n. Proof. unfold eigh_ok in OK. unfold ev. destruct (eigh al be). apply OK. Qed.
  Lemma eig_sorted i j : i < j < n -> (nth i ev 0 <= nth j ev 0)%R. Proof. unfold eigh_ok in OK. unfold ev. destruct (eigh al be). apply OK. Qed.
  Lemma eig_eq i j : i < n -> j < n -> rsum n (fun k => tridiag al be i k * evec k j)%R = (nth j ev 0 * evec i j)%R. Proof. unfold eigh_ok in OK. unfold ev, evec. destruct (eigh al be). apply OK. Qed.
  Lemma eig_orth i j : i < n -> j < n -> rsum n (fun k => evec k i * evec k j)%R = if i =? j then 1%R else 0%R. Proof. unfold eigh_ok in OK. unfold evec. destruct (eigh al be). apply OK. Qed.
  Lemma eig_compl i j : i < n -> j < n -> rsum n (fun k => evec i k * evec j k)%R = if i =? j then 1%R else 0%R. Proof. unfold eigh_ok in OK. unfold evec. destruct (eigh al be). apply OK. Qed.
  Definition dlt (i j : nat) : C := if i =? j then C1 else C0.
  Lemma eig_eqC i j : i < n -> j < n -> sumn n (fun k => Cmul (RtoC (tridiag al be i k)) (RtoC (evec k j))) = Cmul (RtoC (nth j ev 0%R)) (RtoC (evec i j)).
  Proof. intros Hi Hj. rewrite <- RtoC_mul, <- (eig_eq Hi Hj), RtoC_rsum. apply sumn_ext. intros. symmetry. apply RtoC_mul. Qed.
  Lemma eig_orthC i j : i < n -> j < n -> sumn n (fun k => Cmul (RtoC (evec k i)) (RtoC (evec k j))) = dlt i j.
  Proof. intros Hi Hj. transitivity (RtoC (if i =? j then 1 else 0)%R). { rewrite <- (eig_orth Hi Hj), RtoC_rsum. apply sumn_ext. intros. symmetry. apply RtoC_mul. } unfold dlt. destruct (i =? j); reflexivity. Qed.
  Lemma eig_complC i j : i < n -> j < n -> sumn n (fun k => Cmul (RtoC (evec i k)) (RtoC (evec j k))) = dlt i j.
  Proof. intros Hi Hj. transitivity (RtoC (if i =? j then 1 else 0)%R). { rewrite <- (eig_compl Hi Hj), RtoC_rsum. apply sumn_ext. intros. symmetry. apply RtoC_mul. } unfold dlt. destruct (i =? j); reflexivity. Qed.
  (** spectral decomposition *)
  Lemma eig_spectral i j : i < n -> j < n -> RtoC (tridiag al be i j) = sumn n (fun k => Cmul (RtoC (nth k ev 0%R)) (Cmul (RtoC (evec i k)) (RtoC (evec j k)))).
  Proof.
    intros Hi Hj. transitivity (sumn n (fun k => Cmul (sumn n (fun m => Cmul (RtoC (tridiag al be i m)) (RtoC (evec m k)))) (RtoC (evec j k)))).
    - transitivity (sumn n (fun m => Cmul (dlt j m) (RtoC (tridiag al be i m)))).
      + symmetry. unfold dlt. now apply (sumn_delta (fun m => RtoC (tridiag al be i m))).
      + rewrite (sumn_ext (g := fun m => sumn n (fun k => Cmul (Cmul (RtoC (tridiag al be i m)) (RtoC (evec m k))) (RtoC (evec j k))))).
        2:{ intros m Hm. rewrite <- (eig_complC Hj Hm), <- sumn_scale_r. apply sumn_ext. intros. ring. }
        rewrite sumn_swap. apply sumn_ext. intros k Hk. rewrite sumn_scale_r. reflexivity.
    - apply sumn_ext. intros k Hk. rewrite (eig_eqC Hi Hk). ring.
  Qed.
  (** Rayleigh-Ritz: the quadratic form is at least the lowest eigenvalue *)
  Lemma rayleigh_gen m (c : nat -> C) : (forall k, k < m -> sumn n (fun i => Cmul (RtoC (evec i k)) (c i)) = C0) ->
    (nth m ev 0 * fst (sumn n (fun i => Cmul (Cconj (c i)) (c i))) <= fst (sumn n (fun i => Cmul (Cconj (c i)) (sumn n (fun j => Cmul (RtoC (tridiag al be i j)) (c j))))))%R.
  Proof.
    intros Hm. set (d := fun k => sumn n (fun i => Cmul (RtoC (evec i k)) (c i))).
    assert (E1 : sumn n (fun i => Cmul (Cconj (c i)) (c i)) = sumn n (fun k => Cmul (Cconj (d k)) (d k))).
    { transitivity (sumn n (fun k => sumn n (fun i => sumn n (fun j => Cmul (Cmul (Cconj (c i)) (c j)) (Cmul (RtoC (evec i k)) (RtoC (evec j k))))))).
      - rewrite sumn_swap. apply sumn_ext. intros i Hi. rewrite sumn_swap.
        transitivity (sumn n (fun j => Cmul (dlt i j) (Cmul (Cconj (c i)) (c j)))); [symmetry; unfold dlt; now apply (sumn_delta (fun j => Cmul (Cconj (c i)) (c j)))|].
        apply sumn_ext. intros j Hj. rewrite sumn_scale, (eig_complC Hi Hj). ring.
      - apply sumn_ext. intros k Hk. unfold d. rewrite sumn_conj, <- sumn_scale_r. apply sumn_ext. intros i Hi. rewrite <- sumn_scale. apply sumn_ext. intros j Hj. rewrite Cconj_mul, RtoC_conj. ring. }
    assert (E2 : sumn n (fun i => Cmul (Cconj (c i)) (sumn n (fun j => Cmul (RtoC (tridiag al be i j)) (c j)))) = sumn n (fun k => Cmul (RtoC (nth k ev 0%R)) (Cmul (Cconj (d k)) (d k)))).
    { transitivity (sumn n (fun k => sumn n (fun i => sumn n (fun j => Cmul (Cmul (Cconj (c i)) (c j)) (Cmul (RtoC (nth k ev 0%R)) (Cmul (RtoC (evec i k)) (RtoC (evec j k)))))))).
      - rewrite sumn_swap. apply sumn_ext. intros i Hi. rewrite sumn_swap, <- sumn_scale. apply sumn_ext. intros j Hj. rewrite sumn_scale, <- (eig_spectral Hi Hj). ring.
      - apply sumn_ext. intros k Hk. unfold d. rewrite sumn_conj.
        replace (Cmul (RtoC (nth k ev 0%R)) (Cmul (sumn n (fun i => Cconj (Cmul (RtoC (evec i k)) (c i)))) (sumn n (fun i => Cmul (RtoC (evec i k)) (c i)))))
          with (Cmul (sumn n (fun i => Cconj (Cmul (RtoC (evec i k)) (c i)))) (Cmul (RtoC (nth k ev 0%R)) (sumn n (fun i => Cmul (RtoC (evec i k)) (c i))))) by ring.
        rewrite <- sumn_scale_r. apply sumn_ext. intros i Hi. rewrite <- sumn_scale, <- sumn_scale. apply sumn_ext. intros j Hj. rewrite Cconj_mul, RtoC_conj. ring. }
    rewrite E1, E2.
    assert (G : forall l, (forall k, In k l -> k < n) -> (nth m ev 0 * fst (csum (map (fun k => Cmul (Cconj (d k)) (d k)) l)) <= fst (csum (map (fun k => Cmul (RtoC (nth k ev 0%R)) (Cmul (Cconj (d k)) (d k))) l)))%R).
    { induction l as [|k l IH]; intros Hl; [cbn; lra|]. cbn [map].
      change (fst (csum (Cmul (Cconj (d k)) (d k) :: map (fun k => Cmul (Cconj (d k)) (d k)) l))) with (fst (Cmul (Cconj (d k)) (d k)) + fst (csum (map (fun k => Cmul (Cconj (d k)) (d k)) l)))%R.
      change (fst (csum (Cmul (RtoC (nth k ev 0%R)) (Cmul (Cconj (d k)) (d k)) :: map (fun k => Cmul (RtoC (nth k ev 0%R)) (Cmul (Cconj (d k)) (d k))) l)))
        with (fst (Cmul (RtoC (nth k ev 0%R)) (Cmul (Cconj (d k)) (d k))) + fst (csum (map (fun k => Cmul (RtoC (nth k ev 0%R)) (Cmul (Cconj (d k)) (d k))) l)))%R.
      assert (X := IH (fun k Hk => Hl k (or_intror Hk))). assert (Hk := Hl k (or_introl eq_refl)).
      destruct (le_lt_dec m k) as [Hmk|Hmk]; [|assert (Z : d k = C0) by (now apply Hm); rewrite Z; cbn [Cmul Cconj RtoC C0 fst snd] in *; lra].
      assert (S0 : (nth m ev 0 <= nth k ev 0)%R) by (destruct (Nat.eq_dec m k) as [<-|]; [lra|apply eig_sorted; lia]).
      destruct (d k) as [a b]. cbn [Cmul Cconj RtoC fst snd]. assert (Y := Rmult_le_compat_r (a * a + b * b)%R _ _ ltac:(assert (A := Rle_0_sqr a); assert (B := Rle_0_sqr b); unfold Rsqr in *; lra) S0). lra. }
    apply G. intros k Hk. apply in_seq in Hk. lia.
  Qed.
  Lemma rayleigh (c : nat -> C) :
    (nth 0 ev 0 * fst (sumn n (fun i => Cmul (Cconj (c i)) (c i))) <= fst (sumn n (fun i => Cmul (Cconj (c i)) (sumn n (fun j => Cmul (RtoC (tridiag al be i j)) (c j))))))%R.
  Proof. apply rayleigh_gen. intros k Hk. lia. Qed.
End Eig.
