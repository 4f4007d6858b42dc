(** Operators on product spaces; the dense blocks of the spin, density and clock couplings. *)
From Coq Require Import Reals ZArith List Arith Lia Bool Lra.
From Verif Require Import Util Cplx Hilbert SiteModel SiteSpec SiteProofs1 SiteProofs2 SiteProofs3 SiteProofs4 SiteProofs5 CouplingModel CouplingSpec.
Import ListNotations.
Set Implicit Arguments. Unset Strict Implicit.
Open Scope nat_scope.
Add Ring CRc : C_ring.

Lemma div_lt_mul r d0 d1 : r < d0 * d1 -> r / d1 < d0.
Proof. intros H. apply Nat.div_lt_upper_bound; [|lia]. intros ->. lia. Qed.
Lemma mod_lt_mul r d0 d1 : r < d0 * d1 -> r mod d1 < d1.
Proof. intros H. apply Nat.mod_upper_bound. intros ->. lia. Qed.
Lemma div_add_small q r d : r < d -> (q * d + r) / d = q.
Proof. intros H. symmetry. apply Nat.div_unique with (r := r); [assumption|lia]. Qed.
Lemma mod_add_small q r d : r < d -> (q * d + r) mod d = r.
Proof. intros H. symmetry. apply Nat.mod_unique with (q := q); [assumption|lia]. Qed.
(** the product of tensor products *)
Lemma otimes_mul d0 d1 A B A' B' r c : mmul (d0 * d1) (otimes d1 A B) (otimes d1 A' B') r c = otimes d1 (mmul d0 A A') (mmul d1 B B') r c.
Proof.
  unfold mmul, otimes. rewrite msum_mul, <- msum_scale_r. apply msum_ext. intros q Hq. rewrite <- msum_scale. apply msum_ext. intros s Hs.
  rewrite div_add_small, mod_add_small by assumption. ring.
Qed.
Lemma otimes_ext d0 d1 A B A' B' : meq d0 A A' -> meq d1 B B' -> meq (d0 * d1) (otimes d1 A B) (otimes d1 A' B').
Proof. intros HA HB r c Hr Hc. unfold otimes. rewrite (HA _ _ (div_lt_mul Hr) (div_lt_mul Hc)), (HB _ _ (mod_lt_mul Hr) (mod_lt_mul Hc)). reflexivity. Qed.
Lemma left_right d0 d1 A B : meq (d0 * d1) (mmul (d0 * d1) (on_left d1 A) (on_right d1 B)) (otimes d1 A B).
Proof.
  intros r c Hr Hc. unfold on_left, on_right. rewrite otimes_mul. unfold otimes. rewrite mmul_eye_r by now apply (@div_lt_mul c d0 d1). rewrite mmul_eye_l by now apply (@mod_lt_mul r d0 d1). reflexivity.
Qed.
Lemma right_left d0 d1 A B : meq (d0 * d1) (mmul (d0 * d1) (on_right d1 B) (on_left d1 A)) (otimes d1 A B).
Proof.
  intros r c Hr Hc. unfold on_left, on_right. rewrite otimes_mul. unfold otimes. rewrite mmul_eye_l by now apply (@div_lt_mul r d0 d1). rewrite mmul_eye_r by now apply (@mod_lt_mul c d0 d1). reflexivity.
Qed.
Lemma otimes_left d0 d1 A B M : meq (d0 * d1) (mmul (d0 * d1) (otimes d1 A B) (on_left d1 M)) (otimes d1 (mmul d0 A M) B).
Proof. intros r c Hr Hc. unfold on_left. rewrite otimes_mul. unfold otimes. rewrite mmul_eye_r by now apply (@mod_lt_mul c d0 d1). reflexivity. Qed.
Lemma otimes_right d0 d1 A B M : meq (d0 * d1) (mmul (d0 * d1) (otimes d1 A B) (on_right d1 M)) (otimes d1 A (mmul d1 B M)).
Proof. intros r c Hr Hc. unfold on_right. rewrite otimes_mul. unfold otimes. rewrite mmul_eye_r by now apply (@div_lt_mul c d0 d1). reflexivity. Qed.
Lemma left_otimes d0 d1 A B M : meq (d0 * d1) (mmul (d0 * d1) (on_left d1 M) (otimes d1 A B)) (otimes d1 (mmul d0 M A) B).
Proof. intros r c Hr Hc. unfold on_left. rewrite otimes_mul. unfold otimes. rewrite mmul_eye_l by now apply (@mod_lt_mul r d0 d1). reflexivity. Qed.
Lemma right_otimes d0 d1 A B M : meq (d0 * d1) (mmul (d0 * d1) (on_right d1 M) (otimes d1 A B)) (otimes d1 A (mmul d1 M B)).
Proof. intros r c Hr Hc. unfold on_right. rewrite otimes_mul. unfold otimes. rewrite mmul_eye_l by now apply (@div_lt_mul r d0 d1). reflexivity. Qed.
Lemma otimes_conjT d1 A B r c : mconjT (otimes d1 A B) r c = otimes d1 (mconjT A) (mconjT B) r c.
Proof. unfold mconjT, otimes. now rewrite Cconj_mul. Qed.
Lemma otimes_herm d0 d1 A B : hermitian d0 A -> hermitian d1 B -> hermitian (d0 * d1) (otimes d1 A B).
Proof. intros HA HB r c Hr Hc. rewrite otimes_conjT. now apply otimes_ext with (d0 := d0). Qed.
(** linearity *)
Lemma mmul_madd_l d A B M i j : mmul d (madd A B) M i j = Cadd (mmul d A M i j) (mmul d B M i j).
Proof. unfold mmul, madd. rewrite <- msum_add. apply msum_ext. intros. ring. Qed.
Lemma mmul_madd_r d A B M i j : mmul d M (madd A B) i j = Cadd (mmul d M A i j) (mmul d M B i j).
Proof. unfold mmul, madd. rewrite <- msum_add. apply msum_ext. intros. ring. Qed.
Lemma mmul_mscale_l d a A M i j : mmul d (mscale a A) M i j = Cmul a (mmul d A M i j).
Proof. unfold mmul, mscale. rewrite <- msum_scale. apply msum_ext. intros. ring. Qed.
Lemma mmul_mscale_r d a A M i j : mmul d M (mscale a A) i j = Cmul a (mmul d M A i j).
Proof. unfold mmul, mscale. rewrite <- msum_scale. apply msum_ext. intros. ring. Qed.
Lemma meq_trans d A B M : meq d A B -> meq d B M -> meq d A M. Proof. intros H G i j Hi Hj. rewrite H by assumption. now apply G. Qed.
Lemma meq_sym d A B : meq d A B -> meq d B A. Proof. intros H i j Hi Hj. symmetry. now apply H. Qed.
Lemma meq_mmul d A B A' B' : meq d A A' -> meq d B B' -> meq d (mmul d A B) (mmul d A' B'). Proof. intros H G i j Hi Hj. now apply mmul_ext. Qed.
Lemma meq_madd d A B A' B' : meq d A A' -> meq d B B' -> meq d (madd A B) (madd A' B'). Proof. intros H G i j Hi Hj. unfold madd. now rewrite H, G. Qed.
Lemma meq_mscale d a A A' : meq d A A' -> meq d (mscale a A) (mscale a A'). Proof. intros H i j Hi Hj. unfold mscale. now rewrite H. Qed.
Lemma herm_ext d A B : meq d A B -> hermitian d B -> hermitian d A.
Proof. intros E H i j Hi Hj. unfold mconjT. rewrite (E j i Hj Hi), (E i j Hi Hj). apply (H i j Hi Hj). Qed.
Lemma herm_add d A B : hermitian d A -> hermitian d B -> hermitian d (madd A B).
Proof. intros H G i j Hi Hj. unfold mconjT, madd. rewrite Cconj_add. now rewrite (H i j Hi Hj : Cconj (A j i) = A i j), (G i j Hi Hj : Cconj (B j i) = B i j). Qed.
Lemma herm_scale d (x : R) A : hermitian d A -> hermitian d (mscale (RtoC x) A).
Proof. intros H i j Hi Hj. unfold mconjT, mscale. rewrite Cconj_mul, RtoC_conj. now rewrite (H i j Hi Hj : Cconj (A j i) = A i j). Qed.
Lemma mmul_conjT d A B i j : mconjT (mmul d A B) i j = mmul d (mconjT B) (mconjT A) i j.
Proof. unfold mconjT, mmul. rewrite msum_conj. apply msum_ext. intros k _. rewrite Cconj_mul. ring. Qed.
Lemma herm_square d A : hermitian d A -> hermitian d (mmul d A A).
Proof. intros H i j Hi Hj. rewrite mmul_conjT. now apply mmul_ext. Qed.

(** ** numpy operations *)
Lemma add_if_eq pref term h r : add_if pref term h r = Cadd (h r) (Cmul (RtoC pref) (term r)).
Proof. unfold add_if. destruct (Req_EM_T pref 0) as [ -> |]; [|reflexivity]. apply C_eq; cbn; ring. Qed.
Lemma tensordot_outer A B a b x y : tensordot [] 2 2 [] [] (arr2 A) (arr2 B) [a; b; x; y] = Cmul (A a b) (B x y).
Proof. unfold tensordot. cbn -[Cmul Cadd Csub C0 C1]. unfold arr2. cbn [nth]. ring. Qed.
Lemma sum3 (f : nat -> C) : csums (map (fun k => f (nth 0 k 0)) (product [seq 0 3])) = Cadd (Cadd (f 0) (f 1)) (f 2).
Proof. cbn -[Cmul Cadd Csub C0 C1]. ring. Qed.
Lemma csums_app l m : csums (l ++ m) = Cadd (csums l) (csums m).
Proof. unfold csums. induction l as [|x l IH]; cbn [fold_right app]; [ring|]. rewrite IH. ring. Qed.
Lemma product2 a b (f : list nat -> C) : csums (map f (product [seq 0 a; seq 0 b])) = msum a (fun x => msum b (fun y => f [x; y])).
Proof.
  unfold product. cbn [fold_left flat_map]. rewrite app_nil_r. unfold msum. cbn [app].
  assert (G : forall l, csums (map f (flat_map (fun x => map (fun y => x ++ [y]) (seq 0 b)) (map (fun y => [y]) l))) = csums (map (fun x => csums (map (fun y => f [x; y]) (seq 0 b))) l)).
  { induction l as [|x l IH]; [reflexivity|]. cbn [map flat_map]. rewrite map_app, csums_app, IH. cbn [csums fold_right]. f_equal. now rewrite map_map. }
  apply G.
Qed.
Lemma product1 a (f : list nat -> C) : csums (map f (product [seq 0 a])) = msum a (fun x => f [x]).
Proof. unfold product. cbn [fold_left flat_map app]. rewrite app_nil_r, map_map. reflexivity. Qed.

(** ** spins *)
Lemma spin_spin_op d1 v0 v1 Jx Jy Jz r c : as_operator2 d1 (spin_spin v0 v1 Jx Jy Jz) r c =
  Cadd (Cadd (Cmul (RtoC Jx) (otimes d1 (v0 0) (v1 0) r c)) (Cmul (RtoC Jy) (otimes d1 (v0 1) (v1 1) r c))) (Cmul (RtoC Jz) (otimes d1 (v0 2) (v1 2) r c)).
Proof.
  unfold as_operator2, spin_spin, transpose. cbn [length seq map pos Nat.eqb nth fold_left]. rewrite !add_if_eq, !tensordot_outer. unfold azeros, otimes. ring.
Qed.
Definition SdS (d1 : nat) (v0 v1 : nat -> mat) : mat := madd (madd (otimes d1 (v0 0) (v1 0)) (otimes d1 (v0 1) (v1 1))) (otimes d1 (v0 2) (v1 2)).
Lemma aklt_op d0 d1 v0 v1 J r c : r < d0 * d1 -> c < d0 * d1 -> as_operator2 d1 (aklt d0 d1 v0 v1 J) r c =
  Cadd (Cmul (RtoC J) (SdS d1 v0 v1 r c)) (Cmul (RtoC (J / 3)) (mmul (d0 * d1) (SdS d1 v0 v1) (SdS d1 v0 v1) r c)).
Proof.
  intros Hr Hc. unfold as_operator2, aklt, aadd, ascale. set (T := transpose [0; 2; 3; 1] _).
  assert (ET : forall a b x y, T [a; b; x; y] = Cadd (Cadd (Cmul (v0 0 a y) (v1 0 b x)) (Cmul (v0 1 a y) (v1 1 b x))) (Cmul (v0 2 a y) (v1 2 b x))).
  { intros. unfold T, transpose. cbn [length seq map pos Nat.eqb nth]. unfold tensordot. cbn [map]. rewrite product1. unfold msum. cbn -[Cmul Cadd Csub C0 C1 Nat.div Nat.modulo]. unfold arr3. cbn [nth]. ring. }
  clearbody T. f_equal.
  - f_equal. rewrite ET. reflexivity.
  - f_equal. unfold tensordot. cbn [map]. rewrite product2. unfold mmul. rewrite msum_mul. apply msum_ext. intros q Hq. apply msum_ext. intros s Hs.
    unfold assemble. cbn -[Cmul Cadd Csub C0 C1 Nat.div Nat.modulo]. rewrite !ET. unfold SdS, madd, otimes. rewrite div_add_small, mod_add_small by assumption. reflexivity.
Qed.
Definition trip (d1 d2 : nat) (A B M : mat) : mat := otimes (d1 * d2) A (otimes d2 B M).
Lemma mod_mul_div r d1 d2 : d1 <> 0 -> d2 <> 0 -> (r mod (d1 * d2)) / d2 = (r / d2) mod d1.
Proof.
  intros H1 H2. rewrite (Nat.mul_comm d1 d2), Nat.mod_mul_r by assumption. rewrite (Nat.mul_comm d2 ((r / d2) mod d1)), Nat.div_add by assumption.
  rewrite (Nat.div_small (r mod d2)) by now apply Nat.mod_upper_bound. reflexivity.
Qed.
Lemma mod_mul_mod r d1 d2 : d1 <> 0 -> d2 <> 0 -> (r mod (d1 * d2)) mod d2 = r mod d2.
Proof. intros H1 H2. rewrite (Nat.mul_comm d1 d2), Nat.mod_mul_r by assumption. rewrite (Nat.mul_comm d2 ((r / d2) mod d1)), Nat.mod_add by assumption. now apply Nat.mod_mod. Qed.
Lemma chiral_op d0 d1 d2 v0 v1 v2 chi r c : r < d0 * (d1 * d2) -> as_operator3 d1 d2 (chiral_3spin v0 v1 v2 chi) r c = Cmul (RtoC chi)
  (Cadd (Cadd (Csub (trip d1 d2 (v0 0) (v1 1) (v2 2) r c) (trip d1 d2 (v0 0) (v1 2) (v2 1) r c))
              (Csub (trip d1 d2 (v0 1) (v1 2) (v2 0) r c) (trip d1 d2 (v0 1) (v1 0) (v2 2) r c)))
        (Csub (trip d1 d2 (v0 2) (v1 0) (v2 1) r c) (trip d1 d2 (v0 2) (v1 1) (v2 0) r c))).
Proof.
  intros Hr. assert (N1 : d1 <> 0) by (intros ->; lia). assert (N2 : d2 <> 0) by (intros ->; rewrite Nat.mul_0_r in Hr; lia).
  unfold as_operator3, chiral_3spin, transpose. cbn [length seq map pos Nat.eqb nth]. unfold ascale. f_equal.
  unfold tensordot. cbn [map]. rewrite product1. unfold msum. cbn -[Cmul Cadd Csub C0 C1 Nat.div Nat.modulo]. unfold trip, otimes. rewrite !mod_mul_div, !mod_mul_mod by assumption. unfold arr3, newaxes. cbn [nth map]. unfold Csub. ring.
Qed.
