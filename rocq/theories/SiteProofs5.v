(** Spinful fermions; charges; the remaining derived operators. *)
From Coq Require Import Reals ZArith List Arith Lia Bool Lra.
From Verif Require Import Util Cplx Hilbert SiteModel SiteSpec SiteProofs1 SiteProofs2 SiteProofs3 SiteProofs4.
Import ListNotations.
Set Implicit Arguments. Unset Strict Implicit.
Open Scope nat_scope.

Lemma shf_occ s : s < 4 -> occ [1; 1] s 0 = s / 2 /\ occ [1; 1] s 1 = s mod 2.
Proof. intros Hs. destruct s as [|[|[|[|s]]]]; try lia; cbn; auto. Qed.
Lemma mm_bound d A B A' B' i j : i < d -> j < d -> (forall u v, u < d -> v < d -> A u v = A' u v) -> (forall u v, u < d -> v < d -> B u v = B' u v) -> mmul d A B i j = mmul d A' B' i j.
Proof. intros. now apply mmul_ext. Qed.
Lemma shf_Sp_ops : meq 4 shf_Sp (mmul 4 (get_creator (fermion_site 2) 0 true) (get_annihilator (fermion_site 2) 1 true)).
Proof.
  intros s t Hs Ht. symmetry. change 4 with (2 ^ 2) in *.
  rewrite (mm_bound (A' := bigop (repeat 1 2) (jwf 0 (cre 1))) (B' := bigop (repeat 1 2) (jwf 1 (ann 1)))); try assumption;
    [|intros; apply get_cre_bigop; (assumption || lia)|intros; apply get_ann_bigop; (assumption || lia)].
  change (2 ^ 2) with (sdim (repeat 1 2)) at 1. rewrite bigop_mul. change (2 ^ 2) with 4 in *. unfold bigop, cprod. cbn [repeat length seq map fold_right nth Nat.add jwf Nat.ltb Nat.leb Nat.eqb].
  destruct (shf_occ Hs) as [E1 E2]. destruct (shf_occ Ht) as [F1 F2]. rewrite E1, E2, F1, F2. rewrite !mm2. unfold shf_Sp, mset, mzero, Zm, mdiag, meye, msign.
  destruct s as [|[|[|[|s]]]]; try lia; destruct t as [|[|[|[|t]]]]; try lia;
    repeat match goal with |- context [(?a / 2)] => let x := eval vm_compute in (a / 2) in change (a / 2) with x end;
    repeat match goal with |- context [(?a mod 2)] => let x := eval vm_compute in (a mod 2) in change (a mod 2) with x end;
    rewrite ?(@cre2 1 Nat.lt_0_1), ?(@ann2 1 Nat.lt_0_1) by lia; cbn [Nat.eqb andb Nat.even]; ring.
Qed.
Lemma shf_Sz_ops : meq 4 shf_Sz (mscale (RtoC (1/2)) (msub (number_operator (fermion_site 2) 0) (number_operator (fermion_site 2) 1))).
Proof.
  intros s t Hs Ht. unfold mscale, msub. change 4 with (2 ^ 2) in *. rewrite !f_number by (assumption || lia). change (2 ^ 2) with 4 in *. unfold shf_Sz, mdiag.
  destruct (Nat.eqb_spec s t) as [ <- |]; [|apply C_eq; cbn; ring]. cbn [repeat]. destruct (shf_occ Hs) as [E1 E2]. rewrite E1, E2.
  destruct s as [|[|[|[|s]]]]; try lia; apply C_eq; cbn; lra.
Qed.
Lemma shf_1 i j : i < 4 -> j < 4 -> Csub (mmul 4 shf_Sp (mconjT shf_Sp) i j) (mmul 4 (mconjT shf_Sp) shf_Sp i j) = Cmul (RtoC 2) (shf_Sz i j).
Proof.
  intros Hi Hj. unfold mmul. rewrite !msum_S. change (msum 0 _) with C0. unfold mconjT, shf_Sp, mset, mzero, shf_Sz, mdiag.
  destruct i as [|[|[|[|i]]]]; try lia; destruct j as [|[|[|[|j]]]]; try lia; cbn [Nat.eqb andb nth]; apply C_eq; cbn; lra.
Qed.
Lemma shf_2 i j : i < 4 -> j < 4 -> Csub (mmul 4 shf_Sz shf_Sp i j) (mmul 4 shf_Sp shf_Sz i j) = shf_Sp i j.
Proof.
  intros Hi Hj. unfold shf_Sz. rewrite mmul_diag_l, mmul_diag_r by assumption. unfold shf_Sp, mset, mzero.
  destruct i as [|[|[|[|i]]]]; try lia; destruct j as [|[|[|[|j]]]]; try lia; cbn [Nat.eqb andb nth]; apply C_eq; cbn; lra.
Qed.
Lemma shf_3 i j : i < 4 -> j < 4 -> Csub (mmul 4 shf_Sz (mconjT shf_Sp) i j) (mmul 4 (mconjT shf_Sp) shf_Sz i j) = Copp (mconjT shf_Sp i j).
Proof.
  intros Hi Hj. unfold shf_Sz. rewrite mmul_diag_l, mmul_diag_r by assumption. unfold mconjT, shf_Sp, mset, mzero.
  destruct i as [|[|[|[|i]]]]; try lia; destruct j as [|[|[|[|j]]]]; try lia; cbn [Nat.eqb andb nth]; apply C_eq; cbn; lra.
Qed.
Lemma diag_herm d f : (forall n, Cconj (f n) = f n) -> hermitian d (mdiag f).
Proof. intros H i j _ _. unfold mconjT, mdiag. rewrite Nat.eqb_sym. destruct (Nat.eqb_spec i j) as [ -> |]; [apply H|apply C_eq; cbn; ring]. Qed.

(** removing a particle lowers the total by one *)
Lemma removes_total l k s t : k < length l -> removes l k s t = true -> occ_total l t = occ_total l s + 1.
Proof.
  intros Hk H. unfold removes in H. rewrite forallb_forall in H. unfold occ_total, occ_before.
  assert (E : map (occ l t) (seq 0 (length l)) = map (fun j => occ l s j + (if j =? k then 1 else 0)) (seq 0 (length l))).
  { apply map_ext_in. intros j Hj. specialize (H j Hj). apply Nat.eqb_eq in H. lia. }
  rewrite E. assert (G : forall m a, fold_right Nat.add 0 (map (fun j => occ l s j + (if j =? k then 1 else 0)) (seq a m)) = fold_right Nat.add 0 (map (occ l s) (seq a m)) + (if (a <=? k) && (k <? a + m) then 1 else 0)).
  { induction m as [|m IH]; intros a; cbn [seq map fold_right].
    - destruct (Nat.leb_spec a k); destruct (Nat.ltb_spec k (a + 0)); cbn [andb]; lia.
    - rewrite IH. destruct (Nat.eqb_spec a k); destruct (Nat.leb_spec a k); destruct (Nat.leb_spec (S a) k); destruct (Nat.ltb_spec k (S a + m)); destruct (Nat.ltb_spec k (a + S m)); cbn [andb]; lia. }
  rewrite G. destruct (Nat.leb_spec 0 k); destruct (Nat.ltb_spec k (0 + length l)); cbn [andb]; lia.
Qed.
Lemma removes_species l k j s t : j < length l -> removes l k s t = true -> occ l t j = occ l s j + (if j =? k then 1 else 0).
Proof. intros Hj H. unfold removes in H. rewrite forallb_forall in H. specialize (H j ltac:(apply in_seq; lia)). apply Nat.eqb_eq in H. lia. Qed.
Lemma parity_diag d (N : mat) (f : nat -> nat) : meq d N (mdiag (fun u => RtoC (INR (f u)))) -> meq d (op_parity N) (mdiag (fun u => msign (f u))).
Proof.
  intros H i j Hi Hj. unfold op_parity, mdiag. destruct (i =? j); [|reflexivity]. rewrite H by assumption. unfold mdiag. rewrite Nat.eqb_refl, np_mod2_nat.
  unfold msign. assert (E := Nat.div_mod (f i) 2 ltac:(lia)). assert (B := Nat.mod_upper_bound (f i) 2 ltac:(lia)).
  assert (Q : Nat.even (f i) = (f i mod 2 =? 0)).
  { destruct (Nat.eqb_spec (f i mod 2) 0) as [Z|Z].
    - apply Nat.even_spec. exists (f i / 2). lia.
    - rewrite <- Nat.negb_odd. replace (Nat.odd (f i)) with true; [reflexivity|]. symmetry. apply Nat.odd_spec. exists (f i / 2). lia. }
  rewrite Q. destruct (f i mod 2) as [|[|m]]; try lia; cbn [Nat.eqb INR]; apply C_eq; cbn; ring.
Qed.
Lemma square_diag d (N : mat) (f : nat -> R) i j : i < d -> j < d -> meq d N (mdiag (fun u => RtoC (f u))) -> mmul d N N i j = mdiag (fun u => RtoC (f u * f u)) i j.
Proof.
  intros Hi Hj H. rewrite (mmul_ext Hi Hj H H). rewrite mmul_diag_l by assumption. unfold mdiag. destruct (i =? j); [now rewrite RtoC_mul|ring].
Qed.
