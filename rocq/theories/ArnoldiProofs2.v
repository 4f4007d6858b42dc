(** Ritz pairs from the Krylov basis *)
From Coq Require Import Reals Lra List Arith Bool Lia FunctionalExtensionality Permutation.
From Verif Require Import Util Cplx Hilbert LinOpModel LinOpSpec LinOpProofs LinOpMat KrylovModel KrylovSpec KrylovProofs KrylovProofs3 KrylovProofs4 KrylovProofs5 KrylovProofs6 GmresProofs GmresProofs2 GmresProofs3 ArnoldiModel ArnoldiSpec ArnoldiProofs.
Import ListNotations.
Set Implicit Arguments. Unset Strict Implicit.
Open Scope nat_scope.

Lemma csum_n_sumn n f : csum_n n f = sumn n f. Proof. reflexivity. Qed.
Section P.
  Variables (V : Type) (h : hspace V) (H : V -> V) (o : aopts) (psi0 : V).
  Variable calc : nat -> (nat -> nat -> C) -> option (list C * list (list C) * R).
  Hypothesis L : hlaws h.
  Hypothesis HA : linear h H.
  Notation z := (hzero h).
  Lemma fold_add (f : nat -> V) : forall n a x, fold_left (fun p k => hadd h p (f k)) (seq a n) x = hadd h x (vsum h n (fun i => f (a + i))).
  Proof.
    induction n as [|n IH]; intros a x; cbn [seq fold_left]; [now rewrite vsum_0, (add_0_r L)|]. rewrite IH, vsum_Sl, Nat.add_0_r, (hl_assoc L). f_equal. apply vsum_ext. intros i Hi. f_equal. lia.
  Qed.
  Section Basis.
    Variables (n : nat) (s : astate V).
    Hypothesis I : ainv h H psi0 calc n s.
    Hypothesis N1 : 1 <= n.
    Notation q i := (nth i (s_cache s) z).
    Notation w := (s_w s).
    Notation m := (s_h s).
    Definition X (c : nat -> C) : V := vsum h n (fun i => hscale h (c i) (q i)).
    Lemma X_ext c c' : (forall i, i < n -> c i = c' i) -> X c = X c'.
    Proof. intros E. apply vsum_ext. intros i Hi. now rewrite E. Qed.
    Lemma combine_X vf : combine_basis h (s_cache s) n vf = X (fun i => nth i vf C0).
    Proof. unfold combine_basis, X. rewrite fold_add. destruct n as [|n']; [lia|]. rewrite vsum_Sl. cbn [Nat.sub]. rewrite Nat.sub_0_r. reflexivity. Qed.
    Lemma q_inner i j : i < n -> j < n -> hinner h (q i) (q j) = if i =? j then C1 else C0.
    Proof.
      intros Hi Hj. assert (ON := ai_orth I). assert (LC := ai_len I). destruct (Nat.eqb_spec i j) as [<-|D].
      - apply ON. apply nth_In. lia.
      - destruct (Nat.lt_ge_cases i j); [apply (proj1 ON)|apply (inner_sym0 L), (proj1 ON)]; lia.
    Qed.
    Lemma q_In i : i < n -> In (q i) (s_cache s).
    Proof. intros Hi. apply nth_In. rewrite (ai_len I). exact Hi. Qed.
    Lemma X_coef c i : i < n -> hinner h (q i) (X c) = c i.
    Proof.
      intros Hi. unfold X. rewrite (vsum_inner L). rewrite <- (sumn_delta (n := n) c Hi). apply sumn_ext. intros j Hj. rewrite (hl_inner_scale L), q_inner by assumption. ring.
    Qed.
    Lemma X_inner c c' : hinner h (X c) (X c') = sumn n (fun i => Cmul (Cconj (c i)) (c' i)).
    Proof.
      rewrite (hl_inner_conj L). unfold X at 2. rewrite (vsum_inner L), sumn_conj. apply sumn_ext. intros i Hi. rewrite (hl_inner_scale L), (hl_inner_conj L), X_coef by exact Hi. rewrite Cconj_mul, Cconj_invol. reflexivity.
    Qed.
    Lemma X_norm c : hinner h (X c) (X c) = RtoC (rsum_n n (fun i => Cnorm2 (c i))).
    Proof. rewrite X_inner, sum_norm2. reflexivity. Qed.
    Lemma X_w c : hinner h w (X c) = C0.
    Proof.
      unfold X. rewrite (vsum_inner L). rewrite <- (sumn_zero n). apply sumn_ext. intros i Hi. rewrite (hl_inner_scale L). rewrite (inner_sym0 L (ai_perp I (q_In Hi))). ring.
    Qed.
    Lemma krylov_X v : in_span h (powers H n psi0) v <-> exists c, v = X c.
    Proof.
      split.
      - intros K. apply (ai_pow I) in K. destruct K as [c [LC ->]]. exists (fun i => nth i c C0). unfold X. rewrite (lincomb_vsum h) by exact LC. now rewrite (ai_len I).
      - intros [c ->]. apply (vsum_span L). intros i Hi. apply (span_scale L), (ai_in I), nth_In. rewrite (ai_len I). exact Hi.
    Qed.
    Definition mv (c : nat -> C) (i : nat) : C := sumn n (fun j => Cmul (m i j) (c j)).
    Lemma H_X c : H (X c) = hadd h (X (mv c)) (hscale h (c (n - 1)) w).
    Proof.
      unfold X at 1. rewrite (vsum_linear L (A := H)) by exact HA. apply (inner_ext L). intros y. rewrite (vsum_inner L), (hl_inner_add L), (hl_inner_scale L). unfold X. rewrite (vsum_inner L).
      rewrite (sumn_ext (g := fun j => Cadd (sumn n (fun i => Cmul (Cmul (m i j) (c j)) (hinner h y (q i)))) (if n - 1 =? j then Cmul (c j) (hinner h y w) else C0))).
      - rewrite sumn_add, sumn_swap. f_equal.
        + apply sumn_ext. intros i Hi. rewrite (hl_inner_scale L). unfold mv. rewrite <- sumn_scale_r. reflexivity.
        + apply (sumn_single (fun j => Cmul (c j) (hinner h y w))). lia.
      - intros j Hj. rewrite (proj2 HA), (hl_inner_scale L), (ai_rel I Hj), (hl_inner_add L), (vsum_inner L). replace (n - 1 =? j) with (S j =? n) by (destruct (Nat.eqb_spec (S j) n), (Nat.eqb_spec (n - 1) j); try reflexivity; lia).
        transitivity (Cadd (Cmul (c j) (sumn n (fun i => hinner h y (hscale h (m i j) (q i))))) (Cmul (c j) (hinner h y (if S j =? n then w else z)))); [ring|]. f_equal.
        + rewrite <- sumn_scale. apply sumn_ext. intros i Hi. rewrite (hl_inner_scale L). ring.
        + destruct (S j =? n); [reflexivity|]. rewrite (inner_0_r L). ring.
    Qed.
    Lemma eig_residual c E : (forall i, i < n -> mv c i = Cmul E (c i)) -> hsub h (H (X c)) (hscale h E (X c)) = hscale h (c (n - 1)) w.
    Proof.
      intros EV. rewrite H_X. assert (Y : X (mv c) = hscale h E (X c)).
      { apply (inner_ext L). intros y. rewrite (hl_inner_scale L). unfold X. rewrite !(vsum_inner L), <- sumn_scale. apply sumn_ext. intros i Hi. rewrite !(hl_inner_scale L), EV by exact Hi. ring. }
      rewrite Y. hvec L.
    Qed.
    Lemma ritz_of_eig c E : (forall i, i < n -> mv c i = Cmul E (c i)) -> rsum_n n (fun i => Cnorm2 (c i)) = 1%R -> ritz_pair h H psi0 n E (X c) /\ residual_norm h H E (X c) = (Cabs (c (n - 1)%nat) * s_wn s)%R.
    Proof.
      intros EV U. assert (R := eig_residual EV). split; [constructor|].
      - rewrite X_norm, U. reflexivity.
      - apply krylov_X. now exists c.
      - intros phi Hp. apply krylov_X in Hp. destruct Hp as [d ->]. rewrite R, (hl_inner_scale L). rewrite (inner_sym0 L (X_w d)). ring.
      - unfold residual_norm. rewrite R, (norm_hscaleC L), (ai_wn I). reflexivity.
    Qed.
    Lemma eig_of_ritz E psi : ritz_pair h H psi0 n E psi -> exists c, psi = X c /\ (exists i, i < n /\ c i <> C0) /\ forall i, i < n -> mv c i = Cmul E (c i).
    Proof.
      intros [U IN G]. apply krylov_X in IN. destruct IN as [c ->]. exists c. split; [reflexivity|]. split.
      - rewrite X_norm in U. destruct (Forall_dec (fun i => c i = C0)) with (l := seq 0 n) as [F|F].
        + intros i. destruct (Ceqb_spec (c i) C0); [now left|now right].
        + exfalso. assert (Z : rsum_n n (fun i => Cnorm2 (c i)) = 0%R).
          { unfold rsum_n. rewrite Forall_forall in F. clear -F. induction (seq 0 n) as [|i l IH]; [reflexivity|]. cbn [map fold_right]. rewrite IH by (intros; apply F; now right). rewrite (F i (or_introl eq_refl)). unfold Cnorm2, C0. cbn. ring. }
          rewrite Z in U. injection U as U. lra.
        + apply Exists_Forall_neg in F. 2: { intros i. destruct (Ceqb_spec (c i) C0); [now left|now right]. } apply Exists_exists in F. destruct F as [i [Hi Ni]]. apply in_seq in Hi. exists i. split; [lia|exact Ni].
      - intros i Hi. assert (Y := G (q i)). rewrite (inner_sub_r L), (hl_inner_scale L), H_X, (hl_inner_add L), (hl_inner_scale L), !X_coef in Y by exact Hi.
        rewrite (ai_perp I (q_In Hi)) in Y. assert (IQ : in_span h (powers H n psi0) (q i)) by (apply (ai_in I), nth_In; rewrite (ai_len I); exact Hi). specialize (Y IQ).
        replace (mv c i) with (Cadd (Cadd (Cadd (mv c i) (Cmul (c (n - 1)) C0)) (Copp (Cmul E (c i)))) (Cmul E (c i))) by ring. rewrite Y. ring.
    Qed.
    Lemma X_first : X (fun i => if i =? 0 then C1 else C0) = rscale h (/ hnorm h psi0) psi0.
    Proof.
      rewrite <- (ai_first I N1). unfold X. destruct n as [|n']; [lia|]. rewrite vsum_Sl. cbn [Nat.eqb]. rewrite (hl_one L). rewrite (vsum_zeros L (n := 0) (m := n')); [|lia|intros i Hi; apply (hl_null L)]. rewrite vsum_0. apply (add_0_r L).
    Qed.
  End Basis.
End P.
