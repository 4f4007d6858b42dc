(** A concrete instance of two-leg tensors: the square matrices of any size over C (specification vocabulary and non-vacuity). *)
From Coq Require Import Reals List Arith Lia.
From Verif Require Import Cplx Hilbert LinOpModel LinOpSpec LinOpProofs.
Import ListNotations.
Set Implicit Arguments. Unset Strict Implicit.
Open Scope nat_scope.

Definition mat := nat -> nat -> C.
Fixpoint get n : vecC n -> nat -> C := match n with O => fun _ _ => C0 | S n => fun v i => match i with O => fst v | S i => get (snd v) i end end.
Fixpoint tab n : (nat -> C) -> vecC n := match n with O => fun _ => tt | S n => fun f => (f 0, tab n (fun i => f (S i))) end.
Definition sumn (n : nat) (f : nat -> C) : C := csum (map f (seq 0 n)).
(** contract leg w of the matrix with the vector *)
Definition mat_dot n (w : nat) (t : mat) (v : vecC n) : vecC n := tab n (fun i => sumn n (fun j => Cmul (if w =? 1 then t i j else t j i) (get v j))).
Definition mat_ops (n : nat) : tensor_ops (vecC n) mat :=
  TensorOps (@mat_dot n) (fun t i j => t j i) (fun t i j => Cconj (t j i)) (fun a s b t i j => Cadd (Cmul a (s i j)) (Cmul b (t i j)))
            (fun i j => if i =? j then C1 else C0).

Lemma get_tab n : forall f i, i < n -> get (tab n f) i = f i.
Proof. induction n as [|n IH]; intros f i Hi; [lia|]. cbn [tab get]. destruct i as [|i]; [reflexivity|]. cbn [snd]. apply (IH (fun i => f (S i))). lia. Qed.
Lemma tab_ext n : forall f g, (forall i, i < n -> f i = g i) -> tab n f = tab n g.
Proof. induction n as [|n IH]; intros f g H; [reflexivity|]. cbn [tab]. f_equal; [apply H; lia|]. apply IH. intros i Hi. apply H. lia. Qed.
Lemma tab_get n : forall v : vecC n, tab n (get v) = v.
Proof. induction n as [|n IH]; [intros []; reflexivity|]. intros [a v]. cbn [tab get fst snd]. f_equal. apply IH. Qed.
Lemma vec_ext n (u v : vecC n) : (forall i, i < n -> get u i = get v i) -> u = v.
Proof. intros H. rewrite <- (tab_get u), <- (tab_get v). now apply tab_ext. Qed.
Lemma sumn_ext n f g : (forall i, i < n -> f i = g i) -> sumn n f = sumn n g.
Proof. intros H. unfold sumn. f_equal. apply map_ext_in. intros i Hi. apply in_seq in Hi. apply H. lia. Qed.
Lemma sumn_add n f g : sumn n (fun i => Cadd (f i) (g i)) = Cadd (sumn n f) (sumn n g). Proof. apply csum_add. Qed.
Lemma sumn_scale n a f : sumn n (fun i => Cmul a (f i)) = Cmul a (sumn n f). Proof. apply csum_scale. Qed.
Lemma sumn_scale_r n a f : sumn n (fun i => Cmul (f i) a) = Cmul (sumn n f) a.
Proof. replace (Cmul (sumn n f) a) with (Cmul a (sumn n f)) by ring. rewrite <- sumn_scale. apply sumn_ext. intros. ring. Qed.
Lemma sumn_zero n : sumn n (fun _ => C0) = C0.
Proof. apply csum_zero. intros c Hc. apply in_map_iff in Hc. destruct Hc as [i [E _]]. now symmetry. Qed.
Lemma sumn_S n f : sumn (S n) f = Cadd (f 0) (sumn n (fun i => f (S i))).
Proof. unfold sumn. cbn [seq map csum fold_right]. f_equal. unfold csum. f_equal. rewrite <- seq_shift, map_map. reflexivity. Qed.
Lemma sumn_swap n m (f : nat -> nat -> C) : sumn n (fun i => sumn m (fun j => f i j)) = sumn m (fun j => sumn n (fun i => f i j)).
Proof.
  revert f. induction n as [|n IH]; intros f.
  - change (sumn 0 (fun i => sumn m (fun j => f i j))) with C0. rewrite (sumn_ext (g := fun _ => C0)); [now rewrite sumn_zero|reflexivity].
  - rewrite sumn_S, IH, <- sumn_add. apply sumn_ext. intros j _. symmetry. apply sumn_S.
Qed.
Lemma sumn_conj n f : Cconj (sumn n f) = sumn n (fun i => Cconj (f i)). Proof. unfold sumn. rewrite csum_conj, map_map. reflexivity. Qed.
Lemma sumn_delta n : forall i f, i < n -> sumn n (fun j => Cmul (if i =? j then C1 else C0) (f j)) = f i.
Proof.
  induction n as [|n IH]; intros i f Hi; [lia|]. rewrite sumn_S. destruct i as [|i]; cbn [Nat.eqb].
  - rewrite (sumn_ext (g := fun _ => C0)) by (intros; ring). rewrite sumn_zero. ring.
  - rewrite (IH i (fun j => f (S j))) by lia. ring.
Qed.
Lemma inner_sumn n : forall x y : vecC n, vecC_inner x y = sumn n (fun i => Cmul (Cconj (get x i)) (get y i)).
Proof. induction n as [|n IH]; [intros; reflexivity|]. intros [a x] [b y]. rewrite sumn_S. cbn [vecC_inner get fst snd]. now rewrite IH. Qed.
Lemma get_add n : forall (x y : vecC n) i, i < n -> get (vecC_add x y) i = Cadd (get x i) (get y i).
Proof. induction n as [|n IH]; intros; [lia|]. destruct i as [|i]; [reflexivity|]. cbn [get vecC_add snd]. apply IH. lia. Qed.
Lemma get_scale n a : forall (x : vecC n) i, i < n -> get (vecC_scale a x) i = Cmul a (get x i).
Proof. induction n as [|n IH]; intros; [lia|]. destruct i as [|i]; [reflexivity|]. cbn [get vecC_scale snd]. apply IH. lia. Qed.
Lemma get_dot n w t (v : vecC n) i : i < n -> get (mat_dot w t v) i = sumn n (fun j => Cmul (if w =? 1 then t i j else t j i) (get v j)).
Proof. intros Hi. unfold mat_dot. now rewrite get_tab. Qed.
Theorem mat_laws n : tensor_laws (Cn n) (mat_ops n).
Proof.
  constructor; cbn [mat_ops t_dot t_swap t_dagger t_comb t_eye].
  - intros w t. split; cbn [Cn hadd hscale].
    + intros x y. apply vec_ext. intros i Hi. rewrite get_add, !get_dot by assumption. rewrite <- sumn_add. apply sumn_ext. intros j Hj. rewrite get_add by assumption. ring.
    + intros a x. apply vec_ext. intros i Hi. rewrite get_scale, !get_dot by assumption. rewrite <- sumn_scale. apply sumn_ext. intros j Hj. rewrite get_scale by assumption. ring.
  - intros t v. apply tab_ext. intros i Hi. apply sumn_ext. intros j Hj. reflexivity.
  - intros w t x y. cbn [Cn hinner]. rewrite !inner_sumn.
    rewrite (sumn_ext (g := fun i => sumn n (fun j => Cmul (Cmul (Cconj (get x i)) (if w =? 1 then t i j else t j i)) (get y j)))).
    2:{ intros i Hi. rewrite get_dot by assumption. rewrite <- sumn_scale. apply sumn_ext. intros. ring. }
    rewrite sumn_swap. apply sumn_ext. intros j Hj. rewrite get_dot by assumption. rewrite sumn_conj, <- sumn_scale_r. apply sumn_ext. intros i Hi.
    rewrite Cconj_mul. destruct (w =? 1); rewrite Cconj_invol; ring.
  - intros a s b t v. cbn [Cn hadd hscale]. apply vec_ext. intros i Hi. rewrite get_add, !get_scale, !get_dot by assumption. rewrite <- !sumn_scale, <- sumn_add. apply sumn_ext. intros. cbn [Nat.eqb]. ring.
  - intros v. rewrite <- (tab_get v) at 2. apply tab_ext. intros i Hi. cbn [Nat.eqb]. now apply sumn_delta.
Qed.
