(** Charges of the spin and clock couplings; the spin-1/2 AKLT coupling. *)
From Coq Require Import Reals ZArith List Arith Lia Bool Lra.
From Verif Require Import Util Cplx Hilbert SiteModel SiteSpec SiteProofs1 SiteProofs2 SiteProofs3 SiteProofs4 SiteProofs5 CouplingModel CouplingSpec CouplingProofs1 CouplingProofs2.
Import ListNotations.
Set Implicit Arguments. Unset Strict Implicit.
Open Scope nat_scope.
Add Ring CRc3 : C_ring.

Lemma spin_alg two_S : spin_algebra (two_S + 1) (spin_vector two_S).
Proof.
  assert (Q1 := PM_comm (two_S := two_S)). assert (Q2 := ZP_comm (two_S := two_S)). assert (Q3 := ZM_comm (two_S := two_S)).
  split; [|split]; [now apply ladder_xy|now apply ladder_yz|now apply ladder_zx].
Qed.
Lemma spin_herm two_S axis : hermitian (two_S + 1) (spin_vector two_S axis).
Proof. apply ladder_herm. rewrite Sz_diag. apply diag_herm. intros n. apply RtoC_conj. Qed.
Lemma spin_z two_S : meq (two_S + 1) (spin_vector two_S 2) (mdiag (fun n => RtoC (INR n - INR two_S / 2))).
Proof. intros i j Hi Hj. unfold spin_vector, spin_vector_from_Sp. rewrite Sz_diag. unfold mdiag. destruct (i =? j); [|reflexivity]. f_equal. ring. Qed.
Lemma spin_xy_odd two_S axis i j : axis < 2 -> i < two_S + 1 -> j < two_S + 1 -> spin_vector two_S axis i j <> C0 -> i = j + 1 \/ j = i + 1.
Proof.
  intros Ha Hi Hj H. destruct (Nat.eq_dec i (j + 1)); [now left|]. destruct (Nat.eq_dec j (i + 1)); [now right|]. exfalso. apply H.
  destruct axis as [|[|axis]]; [| |lia]; unfold spin_vector, spin_vector_from_Sp, mscale, madd, msub; rewrite Sm_entry, Sp_entry by assumption;
    rewrite (proj2 (Nat.eqb_neq _ _)) by assumption; rewrite (proj2 (Nat.eqb_neq _ _)) by assumption; unfold Csub; ring.
Qed.
Lemma spin_z_diag two_S i j : i < two_S + 1 -> j < two_S + 1 -> spin_vector two_S 2 i j <> C0 -> i = j.
Proof. intros Hi Hj H. rewrite spin_z in H by assumption. unfold mdiag in H. destruct (Nat.eqb_spec i j); [assumption|congruence]. Qed.
Lemma total_diag d0 d1 f g : meq (d0 * d1) (madd (on_left d1 (mdiag f)) (on_right d1 (mdiag g))) (mdiag (fun r => Cadd (f (r / d1)) (g (r mod d1)))).
Proof.
  intros r c Hr Hc. unfold madd, on_left, on_right, otimes, mdiag, meye. destruct (Nat.eqb_spec r c) as [ <- |N]; [rewrite !Nat.eqb_refl; ring|].
  destruct (Nat.eqb_spec (r / d1) (c / d1)) as [E1|]; destruct (Nat.eqb_spec (r mod d1) (c mod d1)) as [E2|]; try ring.
  exfalso. apply N. assert (d1 <> 0) by (intros ->; lia). rewrite (Nat.div_mod r d1), (Nat.div_mod c d1), E1, E2 by assumption. reflexivity.
Qed.
Lemma otimes_on_right d1 A A' d : meq d1 A A' -> meq (d * d1) (on_right d1 A) (on_right d1 A').
Proof. intros H. now apply otimes_ext with (d0 := d); [apply meq_refl|]. Qed.
Lemma otimes_on_left d0 d1 A A' : meq d0 A A' -> meq (d0 * d1) (on_left d1 A) (on_left d1 A').
Proof. intros H. now apply otimes_ext with (d0 := d0); [|apply meq_refl]. Qed.
Lemma total2_z a b : meq ((a + 1) * (b + 1)) (total2 (b + 1) (spin_vector a) (spin_vector b) 2) (mdiag (fun r => RtoC (INR (r / (b + 1)) - INR a / 2 + (INR (r mod (b + 1)) - INR b / 2)))).
Proof.
  eapply meq_trans; [apply meq_madd; [apply otimes_on_left, spin_z|apply otimes_on_right, spin_z]|]. eapply meq_trans; [apply total_diag|].
  intros r c Hr Hc. unfold mdiag. destruct (r =? c); [|reflexivity]. now rewrite <- RtoC_add.
Qed.
Lemma total3_z a b e : meq ((a + 1) * ((b + 1) * (e + 1))) (total3 (b + 1) (e + 1) (spin_vector a) (spin_vector b) (spin_vector e) 2)
  (mdiag (fun r => RtoC (INR (r / ((b + 1) * (e + 1))) - INR a / 2 + (INR (r mod ((b + 1) * (e + 1)) / (e + 1)) - INR b / 2 + (INR ((r mod ((b + 1) * (e + 1))) mod (e + 1)) - INR e / 2))))).
Proof.
  eapply meq_trans; [apply meq_madd; [apply otimes_on_left, spin_z|apply otimes_on_right, total2_z]|]. eapply meq_trans; [apply total_diag|].
  intros r c Hr Hc. unfold mdiag. destruct (r =? c); [|reflexivity]. now rewrite <- RtoC_add.
Qed.
(** an operator on two or three spins that commutes with the total S_z conserves the sum of the indices *)
Lemma conserve2 a b A r c : r < (a + 1) * (b + 1) -> c < (a + 1) * (b + 1) -> meq ((a + 1) * (b + 1)) (comm ((a + 1) * (b + 1)) A (total2 (b + 1) (spin_vector a) (spin_vector b) 2)) mzero ->
  A r c <> C0 -> r / (b + 1) + r mod (b + 1) = c / (b + 1) + c mod (b + 1).
Proof.
  intros Hr Hc H N. specialize (H r c Hr Hc). rewrite (comm_ext (@meq_refl _ A) (@total2_z a b) Hr Hc) in H. apply conserved in H; try assumption.
  apply INR_eq. rewrite !plus_INR. lra.
Qed.
Lemma conserve3 a b e A r c : let D := (a + 1) * ((b + 1) * (e + 1)) in r < D -> c < D -> meq D (comm D A (total3 (b + 1) (e + 1) (spin_vector a) (spin_vector b) (spin_vector e) 2)) mzero ->
  A r c <> C0 -> r / ((b + 1) * (e + 1)) + r mod ((b + 1) * (e + 1)) / (e + 1) + (r mod ((b + 1) * (e + 1))) mod (e + 1) =
                 c / ((b + 1) * (e + 1)) + c mod ((b + 1) * (e + 1)) / (e + 1) + (c mod ((b + 1) * (e + 1))) mod (e + 1).
Proof.
  intros D Hr Hc H N. subst D. specialize (H r c Hr Hc). rewrite (comm_ext (@meq_refl _ A) (@total3_z a b e) Hr Hc) in H. apply conserved in H; try assumption.
  apply INR_eq. rewrite !plus_INR. lra.
Qed.
(** XXZ *)
Lemma xxz_invariant d0 d1 v0 v1 Jxy Jz : spin_algebra d0 v0 -> spin_algebra d1 v1 -> meq (d0 * d1) (comm (d0 * d1) (as_operator2 d1 (spin_spin v0 v1 Jxy Jxy Jz)) (total2 d1 v0 v1 2)) mzero.
Proof.
  intros A0 A1 r c Hr Hc.
  set (H := madd (madd (mscale (RtoC Jxy) (otimes d1 (v0 0) (v1 0))) (mscale (RtoC Jxy) (otimes d1 (v0 1) (v1 1)))) (mscale (RtoC Jz) (otimes d1 (v0 2) (v1 2)))).
  assert (E : meq (d0 * d1) (as_operator2 d1 (spin_spin v0 v1 Jxy Jxy Jz)) H) by (intros x y Hx Hy; apply spin_spin_op).
  rewrite (comm_ext E (@meq_refl _ _) Hr Hc). unfold H. rewrite !comm_add_l, !comm_scale_l. unfold total2. rewrite !otimes_comm by assumption. unfold mzero.
  destruct (alg_all A0 (div_lt_mul Hr) (div_lt_mul Hc)) as [[? [? ?]] [[? [? ?]] [? [? ?]]]]. destruct (alg_all A1 (mod_lt_mul Hr) (mod_lt_mul Hc)) as [[? [? ?]] [[? [? ?]] [? [? ?]]]].
  use_alg. ring.
Qed.
Lemma C_eq_dec (a b : C) : {a = b} + {a <> b}.
Proof. destruct a as [x y], b as [z w]. destruct (Req_EM_T x z) as [ -> |N]; [destruct (Req_EM_T y w) as [ -> |N]; [now left|]|]; right; congruence. Qed.
Lemma Cadd3_nz a b c : Cadd (Cadd a b) c <> C0 -> a <> C0 \/ b <> C0 \/ c <> C0.
Proof.
  intros H. destruct (C_eq_dec a C0) as [ -> |]; [|now left]. destruct (C_eq_dec b C0) as [ -> |]; [|now right; left]. destruct (C_eq_dec c C0) as [ -> |]; [|now right; right].
  exfalso. apply H. ring.
Qed.
Lemma Cmul_nz a b : Cmul a b <> C0 -> a <> C0 /\ b <> C0.
Proof. intros H. split; intros ->; apply H; ring. Qed.
Lemma parity_two a b Jx Jy Jz r c : r < (a + 1) * (b + 1) -> c < (a + 1) * (b + 1) -> as_operator2 (b + 1) (spin_spin (spin_vector a) (spin_vector b) Jx Jy Jz) r c <> C0 ->
  (r / (b + 1) + r mod (b + 1)) mod 2 = (c / (b + 1) + c mod (b + 1)) mod 2.
Proof.
  intros Hr Hc H. rewrite spin_spin_op in H. unfold otimes in H. assert (A1 := div_lt_mul Hr). assert (A2 := div_lt_mul Hc). assert (B1 := mod_lt_mul Hr). assert (B2 := mod_lt_mul Hc).
  assert (P : forall x y z w, (x = y + 1 \/ y = x + 1) -> (z = w + 1 \/ w = z + 1) -> (x + z) mod 2 = (y + w) mod 2).
  { intros x y z w [E|E] [F|F]; subst.
    - replace (y + 1 + (w + 1)) with (y + w + 1 * 2) by lia. now rewrite Nat.mod_add.
    - f_equal. lia.
    - f_equal. lia.
    - replace (x + 1 + (z + 1)) with (x + z + 1 * 2) by lia. now rewrite Nat.mod_add. }
  apply Cadd3_nz in H. destruct H as [H|[H|H]]; apply Cmul_nz in H; destruct H as [_ H]; apply Cmul_nz in H; destruct H as [H G].
  - apply P; [apply (@spin_xy_odd a 0)|apply (@spin_xy_odd b 0)]; try assumption; lia.
  - apply P; [apply (@spin_xy_odd a 1)|apply (@spin_xy_odd b 1)]; try assumption; lia.
  - apply spin_z_diag in H; try assumption. apply spin_z_diag in G; try assumption. now rewrite H, G.
Qed.
(** clock: a factor of the coupling shifts the index *)
Lemma X_shift q i j : 0 < q -> i < q -> j < q -> clock_X q i j <> C0 -> j = (i + 1) mod q.
Proof. intros Q Hi Hj H. rewrite X_entry in H by assumption. destruct (Nat.eqb_spec j ((i + 1) mod q)); [assumption|congruence]. Qed.
