(** Shifted operators *)
From Coq Require Import Reals Lra List Arith Bool Lia FunctionalExtensionality Permutation String.
From Verif Require Import Util Cplx Hilbert LinOpModel LinOpSpec LinOpProofs LinOpMat KrylovModel KrylovSpec KrylovProofs KrylovProofs3 KrylovProofs4 KrylovProofs5 KrylovProofs6 GmresProofs GmresProofs2 GmresProofs3 ArnoldiModel ArnoldiSpec ArnoldiProofs ArnoldiProofs2 ArnoldiProofs3 ArnoldiProofs4.
Import ListNotations.
Set Implicit Arguments. Unset Strict Implicit.
Open Scope nat_scope.

Section Shift.
  Variables (V : Type) (h : hspace V) (H K : V -> V) (e : R) (W : V -> Prop) (o : aopts) (psi0 : V).
  Hypothesis L : hlaws h.
  Hypothesis HH : linear h H.
  Hypothesis HK : linear h K.
  Hypothesis W0 : W (hzero h).
  Hypothesis Wadd : forall x y, W x -> W y -> W (hadd h x y).
  Hypothesis Wscale : forall a x, W x -> W (hscale h a x).
  Hypothesis WH : forall x, W x -> W (H x).
  Hypothesis KH : forall x, W x -> K x = hadd h (H x) (rscale h e x).
  Hypothesis Wpsi : W psi0.
  Notation z := (hzero h).
  Lemma iter_in (F : V -> V) psi j n : j < n -> in_span h (powers F n psi) (Nat.iter j F psi).
  Proof. intros Hj. apply (span_In L), powers_iter. eauto. Qed.
  Lemma span_W' (F : V -> V) n v : (forall x, W x -> W (F x)) -> in_span h (powers F n psi0) v -> W v.
  Proof.
    intros WF [c [Hc E]]. subst v. assert (A : forall x, In x (powers F n psi0) -> W x). { intros x Hx. apply powers_iter in Hx. destruct Hx as [j [_ E]]. subst x. induction j; cbn; auto. }
    revert c Hc A. generalize (powers F n psi0). induction l as [|x l IH]; intros [|a c] Hc A; cbn [lincomb]; try discriminate; auto.
    apply Wadd; [apply Wscale, A; now left|]. apply IH; [cbn in Hc; lia|]. intros; apply A; now right.
  Qed.
  Lemma iter_span (F G : V -> V) (t : R) : linear h F -> (forall x, W x -> W (F x)) -> (forall x, W x -> G x = hadd h (F x) (rscale h t x)) -> forall j, in_span h (powers F (S j) psi0) (Nat.iter j G psi0).
  Proof.
    intros LF WF EG. induction j as [|j IH]; [apply (span_In L); now left|]. change (Nat.iter (S j) G psi0) with (G (Nat.iter j G psi0)). rewrite EG by (apply (span_W' WF IH)). apply (span_add L).
    - apply (powers_A L LF), IH.
    - unfold rscale. apply (span_scale L). eapply (span_mono L); [|exact IH]. intros x. apply powers_In. lia.
  Qed.
  Lemma WK x : W x -> W (K x). Proof. intros Hx. rewrite KH by exact Hx. unfold rscale. auto. Qed.
  Lemma powers_same n v : in_span h (powers K n psi0) v <-> in_span h (powers H n psi0) v.
  Proof.
    split; apply (span_trans L); intros x Hx; apply powers_iter in Hx; destruct Hx as [j [Hj E]]; subst x.
    - eapply (span_mono L); [|apply (@iter_span H K e HH WH KH j)]. intros x. apply powers_In. lia.
    - eapply (span_mono L); [|apply (@iter_span K H (- e)%R HK WK)]. { intros x. apply powers_In. lia. } intros x Hx. rewrite KH by exact Hx. unfold rscale. replace (RtoC (- e)) with (Copp (RtoC e)) by (apply C_eq; cbn; ring). hvec L.
  Qed.
  Lemma res_same E psi : W psi -> hsub h (K psi) (hscale h E psi) = hsub h (H psi) (hscale h (Csub E (RtoC e)) psi).
  Proof. intros Hp. rewrite KH by exact Hp. unfold rscale. hvec L. Qed.
  Lemma ritz_same n E psi : ritz_pair h K psi0 n E psi <-> ritz_pair h H psi0 n (Csub E (RtoC e)) psi.
  Proof.
    split; intros [U IN G]; (assert (Wp : W psi) by (first [exact (span_W' WK IN)|exact (span_W' WH IN)])); constructor; auto.
    - now apply powers_same.
    - intros phi Hp. rewrite <- res_same by exact Wp. apply G. now apply powers_same.
    - now apply powers_same.
    - intros phi Hp. rewrite res_same by exact Wp. apply G. now apply powers_same.
  Qed.
  Lemma ritz_value_same n c : ritz_value h H psi0 n c <-> ritz_value h K psi0 n (Cadd c (RtoC e)).
  Proof.
    split; intros [psi RP]; exists psi.
    - apply ritz_same. replace (Csub (Cadd c (RtoC e)) (RtoC e)) with c; [exact RP|]. apply C_eq; cbn; ring.
    - apply ritz_same in RP. replace (Csub (Cadd c (RtoC e)) (RtoC e)) with c in RP; [exact RP|]. apply C_eq; cbn; ring.
  Qed.
  Lemma key_same c : key 0 o c = key e o (Csub c (RtoC e)).
  Proof. unfold key. f_equal. apply C_eq; cbn; ring. Qed.
  Theorem result_shift E0 psis N : arnoldi_result h K psi0 0 o E0 psis N -> arnoldi_result h H psi0 e o (map (fun E => Csub E (RtoC e)) E0) psis N.
  Proof.
    intros [A1 A2 A3 A4 A5 A6 A7].
    assert (NE : forall i, i < a_num_ev o -> nth i (map (fun E => Csub E (RtoC e)) E0) C0 = Csub (nth i E0 C0) (RtoC e)) by (intros i Hi; rewrite nth_map_lt with (d := C0) by lia; reflexivity).
    assert (RN : forall i, i < Nat.min N (a_num_ev o) -> residual_norm h H (Csub (nth i E0 C0) (RtoC e)) (nth i psis z) = residual_norm h K (nth i E0 C0) (nth i psis z)).
    { intros i Hi. unfold residual_norm. rewrite res_same; [reflexivity|]. apply (span_W' WK (rp_in (A4 i Hi))). }
    assert (ADD : forall c, Csub (Cadd c (RtoC e)) (RtoC e) = c) by (intros c; apply C_eq; cbn; ring).
    constructor; auto.
    - now rewrite map_length.
    - intros i Hi. rewrite NE by lia. apply ritz_same, A4, Hi.
    - intros i j D. rewrite !NE, <- !key_same by lia. now apply A5.
    - intros c RV. apply ritz_value_same in RV. destruct (A6 _ RV) as [[i [Hi Ei]]|F].
      + left. exists i. split; [exact Hi|]. rewrite NE, Ei by lia. apply ADD.
      + right. intros i Hi. rewrite NE, <- key_same by lia. replace c with (Csub (Cadd c (RtoC e)) (RtoC e)) by apply ADD. rewrite <- key_same. auto.
    - intros LT NZ. assert (Z : residual_norm h H (nth 0 (map (fun E => Csub E (RtoC e)) E0) C0) (nth 0 psis z) = residual_norm h K (nth 0 E0 C0) (nth 0 psis z)) by (rewrite NE, RN by lia; reflexivity).
      destruct (A7 LT NZ) as [B|[B1 [B2 [B3 B4]]]].
      + left. intros i Hi. rewrite NE, RN by lia. auto.
      + right. split; [exact B1|]. rewrite Z. split; [|split].
        * intros i c Hi RV ND. apply ritz_value_same in RV. rewrite NE by lia. assert (G := B2 i (Cadd c (RtoC e)) Hi RV). replace (Csub c (Csub (nth i E0 C0) (RtoC e))) with (Csub (Cadd c (RtoC e)) (nth i E0 C0)) by (apply C_eq; cbn; ring).
          apply G. intros j Hj Ej. apply (ND j Hj). rewrite NE, Ej by lia. apply ADD.
        * intros i j D. rewrite !NE by lia. replace (Csub (Csub (nth j E0 C0) (RtoC e)) (Csub (nth i E0 C0) (RtoC e))) with (Csub (nth j E0 C0) (nth i E0 C0)) by (apply C_eq; cbn; ring). exact (B3 i j D).
        * destruct (a_E_tol o) as [t|]; [|exact B4]. destruct B4 as [E' [RV [LO DF]]]. exists (Csub E' (RtoC e)). split; [|split].
          -- apply ritz_value_same. replace (Cadd (Csub E' (RtoC e)) (RtoC e)) with E'; [exact RV|]. apply C_eq; cbn; ring.
          -- intros c RVc. rewrite <- key_same. replace c with (Csub (Cadd c (RtoC e)) (RtoC e)) by apply ADD. rewrite <- key_same. apply LO. now apply ritz_value_same.
          -- rewrite NE by lia. replace (Csub (Csub E' (RtoC e)) (Csub (nth 0 E0 C0) (RtoC e))) with (Csub E' (nth 0 E0 C0)) by (apply C_eq; cbn; ring). exact DF.
  Qed.
End Shift.
Lemma run_shift V (h : hspace V) H o eig srt e x : arnoldi_run h H o eig srt (Some e) x =
  match arnoldi_run h H o eig srt None x with Some (E0, psis, N, x') => Some (map (fun E => Csub E (RtoC e)) E0, psis, N, x') | None => None end.
Proof.
  unfold arnoldi_run. destruct (a_build _ _ _ _ _ _) as [[[p N] s]|]; [|reflexivity]. destruct (N =? 1); [now rewrite map_map|]. destruct (full_multi _ _ _ _); [now rewrite map_map|reflexivity].
Qed.
