(** Invariance under rotations, conservation laws of the spin couplings. *)
From Coq Require Import Reals ZArith List Arith Lia Bool Lra.
From Verif Require Import Util Cplx Hilbert SiteModel SiteSpec SiteProofs1 SiteProofs2 SiteProofs3 SiteProofs4 SiteProofs5 CouplingModel CouplingSpec CouplingProofs1.
Import ListNotations.
Set Implicit Arguments. Unset Strict Implicit.
Open Scope nat_scope.
Add Ring CRc2 : C_ring.

Lemma comm_add_l d A B M i j : comm d (madd A B) M i j = Cadd (comm d A M i j) (comm d B M i j).
Proof. unfold comm. rewrite mmul_madd_l, mmul_madd_r. unfold Csub. ring. Qed.
Lemma comm_scale_l d a A M i j : comm d (mscale a A) M i j = Cmul a (comm d A M i j).
Proof. unfold comm. rewrite mmul_mscale_l, mmul_mscale_r. unfold Csub. ring. Qed.
Lemma comm_ext d A B A' B' : meq d A A' -> meq d B B' -> meq d (comm d A B) (comm d A' B').
Proof. intros H G i j Hi Hj. unfold comm. rewrite (mmul_ext Hi Hj H G), (mmul_ext Hi Hj G H). reflexivity. Qed.
Lemma comm_anti d A B i j : comm d A B i j = Copp (comm d B A i j). Proof. unfold comm, Csub. ring. Qed.
Lemma comm_self d A i j : comm d A A i j = C0. Proof. unfold comm, Csub. ring. Qed.
Lemma comm_square d A M : meq d (comm d A M) mzero -> meq d (comm d (mmul d A A) M) mzero.
Proof.
  intros H i j Hi Hj. assert (E : meq d (mmul d A M) (mmul d M A)).
  { intros a b Ha Hb. specialize (H a b Ha Hb). unfold comm, mzero in H. unfold Csub in H. transitivity (Cadd (Cadd (mmul d A M a b) (Copp (mmul d M A a b))) (mmul d M A a b)); [ring|]. rewrite H. ring. }
  unfold comm, mzero. rewrite mmul_assoc. rewrite (mmul_ext Hi Hj (@meq_refl d A) E). rewrite <- mmul_assoc. rewrite (mmul_ext Hi Hj E (@meq_refl d A)). rewrite mmul_assoc. unfold Csub. ring.
Qed.
Lemma otimes_comm d0 d1 A B M N r c : r < d0 * d1 -> c < d0 * d1 ->
  comm (d0 * d1) (otimes d1 A B) (madd (on_left d1 M) (on_right d1 N)) r c =
  Cadd (Cmul (comm d0 A M (r / d1) (c / d1)) (B (r mod d1) (c mod d1))) (Cmul (A (r / d1) (c / d1)) (comm d1 B N (r mod d1) (c mod d1))).
Proof.
  intros Hr Hc. unfold comm. rewrite mmul_madd_l, mmul_madd_r. rewrite (otimes_left A B M Hr Hc), (otimes_right A B N Hr Hc), (left_otimes A B M Hr Hc), (right_otimes A B N Hr Hc).
  unfold otimes, Csub. ring.
Qed.
(** the nine commutators *)
Lemma alg_all d v i j : spin_algebra d v -> i < d -> j < d ->
  (comm d (v 0) (v 0) i j = C0 /\ comm d (v 1) (v 1) i j = C0 /\ comm d (v 2) (v 2) i j = C0) /\
  (comm d (v 0) (v 1) i j = Cmul Ci (v 2 i j) /\ comm d (v 1) (v 2) i j = Cmul Ci (v 0 i j) /\ comm d (v 2) (v 0) i j = Cmul Ci (v 1 i j)) /\
  (comm d (v 1) (v 0) i j = Copp (Cmul Ci (v 2 i j)) /\ comm d (v 2) (v 1) i j = Copp (Cmul Ci (v 0 i j)) /\ comm d (v 0) (v 2) i j = Copp (Cmul Ci (v 1 i j))).
Proof.
  intros [H1 [H2 H3]] Hi Hj. split; [|split]; split; [|split| |split| |split]; try apply comm_self; try (now apply H1); try (now apply H2); try (now apply H3); rewrite comm_anti; f_equal.
  - now apply H1. - now apply H2. - now apply H3.
Qed.
Definition total2 (d1 : nat) (v0 v1 : nat -> mat) (b : nat) : mat := madd (on_left d1 (v0 b)) (on_right d1 (v1 b)).
Definition total3 (d1 d2 : nat) (v0 v1 v2 : nat -> mat) (b : nat) : mat := madd (on_left (d1 * d2) (v0 b)) (on_right (d1 * d2) (total2 d2 v1 v2 b)).
Ltac use_alg := repeat match goal with |- context [comm ?d (?v ?a) (?v ?b) ?i ?j] => match goal with H : comm d (v a) (v b) i j = _ |- _ => rewrite H end end.
Lemma SdS_invariant d0 d1 v0 v1 b : spin_algebra d0 v0 -> spin_algebra d1 v1 -> b < 3 -> meq (d0 * d1) (comm (d0 * d1) (SdS d1 v0 v1) (total2 d1 v0 v1 b)) mzero.
Proof.
  intros A0 A1 Hb r c Hr Hc. unfold SdS. rewrite !comm_add_l. unfold total2. rewrite !otimes_comm by assumption. unfold mzero.
  destruct (alg_all A0 (div_lt_mul Hr) (div_lt_mul Hc)) as [[? [? ?]] [[? [? ?]] [? [? ?]]]]. destruct (alg_all A1 (mod_lt_mul Hr) (mod_lt_mul Hc)) as [[? [? ?]] [[? [? ?]] [? [? ?]]]].
  destruct b as [|[|[|b]]]; [| | |lia]; use_alg; ring.
Qed.
Definition chi_op (d1 d2 : nat) (v0 v1 v2 : nat -> mat) : mat :=
  madd (madd (msub (trip d1 d2 (v0 0) (v1 1) (v2 2)) (trip d1 d2 (v0 0) (v1 2) (v2 1)))
             (msub (trip d1 d2 (v0 1) (v1 2) (v2 0)) (trip d1 d2 (v0 1) (v1 0) (v2 2))))
       (msub (trip d1 d2 (v0 2) (v1 0) (v2 1)) (trip d1 d2 (v0 2) (v1 1) (v2 0))).
Lemma comm_sub_l d A B M i j : comm d (msub A B) M i j = Csub (comm d A M i j) (comm d B M i j).
Proof. unfold comm, mmul, msub. rewrite (msum_ext (g := fun k => Cadd (Cmul (A i k) (M k j)) (Copp (Cmul (B i k) (M k j))))) by (intros; unfold Csub; ring).
  rewrite (msum_ext (f := fun k => Cmul (M i k) _) (g := fun k => Cadd (Cmul (M i k) (A k j)) (Copp (Cmul (M i k) (B k j))))) by (intros; unfold Csub; ring).
  rewrite !msum_add, !msum_opp. unfold Csub. ring. Qed.
Lemma trip_comm d0 d1 d2 A B M v0 v1 v2 b r c : r < d0 * (d1 * d2) -> c < d0 * (d1 * d2) ->
  let i := r / (d1 * d2) in let i' := c / (d1 * d2) in let j := r mod (d1 * d2) / d2 in let j' := c mod (d1 * d2) / d2 in let k := (r mod (d1 * d2)) mod d2 in let k' := (c mod (d1 * d2)) mod d2 in
  comm (d0 * (d1 * d2)) (trip d1 d2 A B M) (total3 d1 d2 v0 v1 v2 b) r c =
  Cadd (Cmul (comm d0 A (v0 b) i i') (Cmul (B j j') (M k k')))
       (Cmul (A i i') (Cadd (Cmul (comm d1 B (v1 b) j j') (M k k')) (Cmul (B j j') (comm d2 M (v2 b) k k')))).
Proof.
  intros Hr Hc. cbv zeta. unfold trip, total3. rewrite otimes_comm by assumption. assert (Hr' := mod_lt_mul Hr). assert (Hc' := mod_lt_mul Hc). unfold total2. rewrite otimes_comm by assumption. reflexivity.
Qed.
Lemma chi_invariant d0 d1 d2 v0 v1 v2 b : spin_algebra d0 v0 -> spin_algebra d1 v1 -> spin_algebra d2 v2 -> b < 3 ->
  meq (d0 * (d1 * d2)) (comm (d0 * (d1 * d2)) (chi_op d1 d2 v0 v1 v2) (total3 d1 d2 v0 v1 v2 b)) mzero.
Proof.
  intros A0 A1 A2 Hb r c Hr Hc. unfold chi_op. rewrite !comm_add_l, !comm_sub_l, !trip_comm by assumption. unfold mzero.
  destruct (alg_all A0 (div_lt_mul Hr) (div_lt_mul Hc)) as [[? [? ?]] [[? [? ?]] [? [? ?]]]].
  assert (Hr' := mod_lt_mul Hr). assert (Hc' := mod_lt_mul Hc).
  destruct (alg_all A1 (div_lt_mul Hr') (div_lt_mul Hc')) as [[? [? ?]] [[? [? ?]] [? [? ?]]]]. destruct (alg_all A2 (mod_lt_mul Hr') (mod_lt_mul Hc')) as [[? [? ?]] [[? [? ?]] [? [? ?]]]].
  destruct b as [|[|[|b]]]; [| | |lia]; use_alg; unfold Csub; ring.
Qed.
(** an operator that commutes with a diagonal operator conserves its values *)
Lemma comm_diag d A f i j : i < d -> j < d -> comm d A (mdiag f) i j = Cmul (A i j) (Csub (f j) (f i)).
Proof. intros Hi Hj. unfold comm. rewrite mmul_diag_r, mmul_diag_l by assumption. unfold Csub. ring. Qed.
Lemma conserved d A (f : nat -> R) i j : i < d -> j < d -> comm d A (mdiag (fun n => RtoC (f n))) i j = C0 -> A i j <> C0 -> f i = f j.
Proof.
  intros Hi Hj H N. rewrite comm_diag in H by assumption. destruct (Req_EM_T (f i) (f j)) as [E|E]; [assumption|]. exfalso. apply N.
  assert (D : (f j - f i <> 0)%R) by lra. unfold Csub in H. rewrite <- RtoC_opp, <- RtoC_add in H.
  transitivity (Cmul (RtoC (/ (f j - f i))) (Cmul (A i j) (RtoC (f j + - f i)))); [|rewrite H; apply C_eq; cbn; ring].
  replace (f j + - f i)%R with (f j - f i)%R by ring. transitivity (Cmul (A i j) (RtoC (/ (f j - f i) * (f j - f i)))); [|rewrite RtoC_mul; ring]. rewrite Rinv_l by assumption. apply C_eq; cbn; ring.
Qed.
