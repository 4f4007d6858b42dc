(** C66: the spin, density and clock couplings are the documented operators, hermitian and symmetric. *)
From Coq Require Import Reals ZArith List Arith Lia Bool Lra.
From Verif Require Import Util Cplx Hilbert SiteModel SiteSpec SiteProofs1 SiteProofs2 SiteProofs3 SiteProofs4 SiteProofs5 CouplingModel CouplingSpec CouplingProofs1 CouplingProofs2 CouplingProofs3 CouplingProofs4 CouplingProofs5 CouplingProofs6.
Import ListNotations.
Open Scope nat_scope.
Add Ring CRcp : C_ring.

(** ** the documented formulas, for any two (three) sites of any dimensions and any spin vectors *)
(** h = Jx Sx Sx + Jy Sy Sy + Jz Sz Sz *)
Theorem C66_spin_spin : forall d0 d1 (v0 v1 : nat -> mat) Jx Jy Jz, let D := d0 * d1 in let S_i a := on_left d1 (v0 a) in let S_j a := on_right d1 (v1 a) in
  meq D (as_operator2 d1 (spin_spin v0 v1 Jx Jy Jz))
        (madd (madd (mscale (RtoC Jx) (mmul D (S_i 0) (S_j 0))) (mscale (RtoC Jy) (mmul D (S_i 1) (S_j 1)))) (mscale (RtoC Jz) (mmul D (S_i 2) (S_j 2)))).
Proof.
  intros d0 d1 v0 v1 Jx Jy Jz D S_i S_j r c Hr Hc. rewrite spin_spin_op. unfold madd, mscale, S_i, S_j, D. rewrite !left_right by assumption. reflexivity.
Qed.
Theorem C66_heisenberg : forall d0 d1 (v0 v1 : nat -> mat) J, let D := d0 * d1 in
  meq D (as_operator2 d1 (heisenberg v0 v1 J)) (mscale (RtoC J) (dot D (fun a => on_left d1 (v0 a)) (fun a => on_right d1 (v1 a)))).
Proof.
  intros d0 d1 v0 v1 J D r c Hr Hc. unfold heisenberg. rewrite (C66_spin_spin d0 d1 v0 v1 J J J r c Hr Hc). unfold dot, madd, mscale. cbv beta. subst D. ring.
Qed.
Theorem C66_spin_field : forall d (v : nat -> mat) hx hy hz,
  meq d (as_operator1 (spin_field v hx hy hz)) (madd (madd (mscale (RtoC hx) (v 0)) (mscale (RtoC hy) (v 1))) (mscale (RtoC hz) (v 2))).
Proof. intros d v hx hy hz r c Hr Hc. unfold as_operator1, spin_field. cbv zeta. rewrite !add_if_eq. unfold azeros, arr2, madd, mscale. cbn [nth]. ring. Qed.
(** h = J [S.S + (S.S)^2 / 3] *)
Theorem C66_aklt : forall d0 d1 (v0 v1 : nat -> mat) J, let D := d0 * d1 in let SS := dot D (fun a => on_left d1 (v0 a)) (fun a => on_right d1 (v1 a)) in
  meq D (as_operator2 d1 (aklt d0 d1 v0 v1 J)) (mscale (RtoC J) (madd SS (mscale (RtoC (1/3)) (mmul D SS SS)))).
Proof.
  intros d0 d1 v0 v1 J D SS r c Hr Hc. assert (E : meq D (SdS d1 v0 v1) SS).
  { apply meq_sym. unfold SS, dot, SdS. apply meq_madd; [apply meq_madd|]; apply left_right. }
  rewrite aklt_op by assumption. fold D. rewrite (mmul_ext Hr Hc E E), (E r c Hr Hc). unfold mscale, madd. rewrite <- (RtoC_mul_div3 J). ring.
Qed.
(** h = chi S_i . (S_j x S_k) *)
Theorem C66_chiral : forall d0 d1 d2 (v0 v1 v2 : nat -> mat) chi, let D := d0 * (d1 * d2) in
  let S_i a := on_left (d1 * d2) (v0 a) in let S_j a := on_right (d1 * d2) (on_left d2 (v1 a)) in let S_k a := on_right (d1 * d2) (on_right d2 (v2 a)) in
  meq D (as_operator3 d1 d2 (chiral_3spin v0 v1 v2 chi)) (mscale (RtoC chi) (dot D S_i (vcross D S_j S_k))).
Proof.
  intros d0 d1 d2 v0 v1 v2 chi D S_i S_j S_k.
  assert (RR : forall A B, meq D (mmul D (on_right (d1 * d2) (on_left d2 A)) (on_right (d1 * d2) (on_right d2 B))) (on_right (d1 * d2) (otimes d2 A B))).
  { intros A B r c Hr Hc. unfold D, on_right at 1 2. fold (on_right d2 B). rewrite otimes_mul. revert r c Hr Hc. apply otimes_ext; [|apply left_right]. intros i j Hi Hj. now apply mmul_eye_r. }
  assert (TT : forall a b c, meq D (mmul D (S_i a) (mmul D (S_j b) (S_k c))) (trip d1 d2 (v0 a) (v1 b) (v2 c))).
  { intros a b c. eapply meq_trans; [apply meq_mmul; [apply meq_refl|apply RR]|]. apply left_right. }
  intros r c Hr Hc. rewrite (chiral_op (d0 := d0)) by assumption. unfold mscale. f_equal. unfold dot, vcross, madd. rewrite !mmul_sub_r, !TT by assumption. reflexivity.
Qed.

(** ** symmetry *)
(** all of them are hermitian if the spin operators are *)
Theorem C66_spin_hermitian : forall d0 d1 d2 (v0 v1 v2 : nat -> mat), (forall a, hermitian d0 (v0 a)) -> (forall a, hermitian d1 (v1 a)) -> (forall a, hermitian d2 (v2 a)) ->
  (forall Jx Jy Jz, hermitian (d0 * d1) (as_operator2 d1 (spin_spin v0 v1 Jx Jy Jz))) /\
  (forall hx hy hz, hermitian d0 (as_operator1 (spin_field v0 hx hy hz))) /\
  (forall J, hermitian (d0 * d1) (as_operator2 d1 (aklt d0 d1 v0 v1 J))) /\
  (forall chi, hermitian (d0 * (d1 * d2)) (as_operator3 d1 d2 (chiral_3spin v0 v1 v2 chi))).
Proof.
  intros d0 d1 d2 v0 v1 v2 H0 H1 H2. assert (HO : forall a b, hermitian (d0 * d1) (otimes d1 (v0 a) (v1 b))) by (intros; now apply otimes_herm).
  assert (HS : hermitian (d0 * d1) (SdS d1 v0 v1)) by (unfold SdS; repeat apply herm_add; apply HO). split; [|split; [|split]].
  - intros Jx Jy Jz. apply herm_ext with (B := madd (madd (mscale (RtoC Jx) (otimes d1 (v0 0) (v1 0))) (mscale (RtoC Jy) (otimes d1 (v0 1) (v1 1)))) (mscale (RtoC Jz) (otimes d1 (v0 2) (v1 2)))).
    + intros r c _ _. apply spin_spin_op.
    + repeat apply herm_add; apply herm_scale, HO.
  - intros hx hy hz. eapply herm_ext; [apply C66_spin_field|]. repeat apply herm_add; apply herm_scale, H0.
  - intros J. apply herm_ext with (B := madd (mscale (RtoC J) (SdS d1 v0 v1)) (mscale (RtoC (J / 3)) (mmul (d0 * d1) (SdS d1 v0 v1) (SdS d1 v0 v1)))).
    + intros r c Hr Hc. now apply aklt_op.
    + apply herm_add; apply herm_scale; [assumption|]. now apply herm_square.
  - intros chi. apply herm_ext with (B := mscale (RtoC chi) (chi_op d1 d2 v0 v1 v2)).
    + intros r c Hr Hc. now apply chiral_op with (d0 := d0).
    + apply herm_scale. unfold chi_op. assert (HT : forall a b c, hermitian (d0 * (d1 * d2)) (trip d1 d2 (v0 a) (v1 b) (v2 c))) by (intros; unfold trip; apply otimes_herm; [apply H0|now apply otimes_herm]).
      assert (HM : forall A B, hermitian (d0 * (d1 * d2)) A -> hermitian (d0 * (d1 * d2)) B -> hermitian (d0 * (d1 * d2)) (msub A B)).
      { intros A B HA HB i j Hi Hj. unfold mconjT, msub, Csub. rewrite Cconj_add, Cconj_opp. f_equal; [apply (HA i j Hi Hj)|]. f_equal. apply (HB i j Hi Hj). }
      apply herm_add; [apply herm_add|]; apply HM; apply HT.
Qed.
(** Heisenberg, AKLT and chiral couplings commute with all components of the total spin, for any operators with the commutation relations of a spin *)
Theorem C66_rotation_invariant : forall d0 d1 d2 (v0 v1 v2 : nat -> mat) b, spin_algebra d0 v0 -> spin_algebra d1 v1 -> spin_algebra d2 v2 -> b < 3 ->
  let total2 := madd (on_left d1 (v0 b)) (on_right d1 (v1 b)) in
  let total3 := madd (on_left (d1 * d2) (v0 b)) (on_right (d1 * d2) (madd (on_left d2 (v1 b)) (on_right d2 (v2 b)))) in
  (forall J, meq (d0 * d1) (comm (d0 * d1) (as_operator2 d1 (heisenberg v0 v1 J)) total2) mzero) /\
  (forall J, meq (d0 * d1) (comm (d0 * d1) (as_operator2 d1 (aklt d0 d1 v0 v1 J)) total2) mzero) /\
  (forall chi, meq (d0 * (d1 * d2)) (comm (d0 * (d1 * d2)) (as_operator3 d1 d2 (chiral_3spin v0 v1 v2 chi)) total3) mzero).
Proof.
  intros d0 d1 d2 v0 v1 v2 b A0 A1 A2 Hb T2 T3. assert (I0 := @SdS_invariant d0 d1 v0 v1 b A0 A1 Hb). split; [|split].
  - intros J r c Hr Hc. assert (E : meq (d0 * d1) (as_operator2 d1 (heisenberg v0 v1 J)) (mscale (RtoC J) (SdS d1 v0 v1))).
    { intros x y Hx Hy. unfold heisenberg. rewrite spin_spin_op. unfold mscale, SdS, madd. ring. }
    rewrite (comm_ext E (@meq_refl _ T2) Hr Hc). rewrite comm_scale_l. unfold T2. fold (CouplingProofs2.total2 d1 v0 v1 b). rewrite (I0 r c Hr Hc). unfold mzero. ring.
  - intros J r c Hr Hc. assert (E : meq (d0 * d1) (as_operator2 d1 (aklt d0 d1 v0 v1 J)) (madd (mscale (RtoC J) (SdS d1 v0 v1)) (mscale (RtoC (J / 3)) (mmul (d0 * d1) (SdS d1 v0 v1) (SdS d1 v0 v1))))).
    { intros x y Hx Hy. now apply aklt_op. }
    rewrite (comm_ext E (@meq_refl _ T2) Hr Hc). rewrite comm_add_l, !comm_scale_l. unfold T2. fold (CouplingProofs2.total2 d1 v0 v1 b). rewrite (I0 r c Hr Hc), (comm_square I0 Hr Hc). unfold mzero. ring.
  - intros chi r c Hr Hc. assert (E : meq (d0 * (d1 * d2)) (as_operator3 d1 d2 (chiral_3spin v0 v1 v2 chi)) (mscale (RtoC chi) (chi_op d1 d2 v0 v1 v2))).
    { intros x y Hx Hy. now apply chiral_op with (d0 := d0). }
    rewrite (comm_ext E (@meq_refl _ T3) Hr Hc). rewrite comm_scale_l. unfold T3. fold (CouplingProofs2.total2 d2 v1 v2 b). fold (CouplingProofs2.total3 d1 d2 v0 v1 v2 b).
    rewrite (chi_invariant A0 A1 A2 Hb Hr Hc). unfold mzero. ring.
Qed.
(** the sites of the library meet the hypotheses: spin sites of every spin, and the spinful fermion *)
Theorem C66_sites_are_spins : (forall two_S, spin_algebra (two_S + 1) (spin_vector two_S) /\ forall a, hermitian (two_S + 1) (spin_vector two_S a)) /\
  spin_algebra 4 shf_vector /\ forall a, hermitian 4 (shf_vector a).
Proof.
  split; [intros two_S; split; [apply spin_alg|apply spin_herm]|]. split.
  - split; [|split]; [apply ladder_xy; exact shf_1|apply ladder_yz; [exact shf_2|exact shf_3]|apply ladder_zx; [exact shf_2|exact shf_3]].
  - intros axis. apply ladder_herm. apply diag_herm. intros n. apply RtoC_conj.
Qed.
(** conservation laws on spin sites: the dense block h[p0, p1, p1*, p0*] only connects states with the same total S_z (same parity), so it can be stored with the symmetry of the site *)
Theorem C66_spin_charges : forall a b i0 i1 j0 j1, i0 < a + 1 -> j0 < a + 1 -> i1 < b + 1 -> j1 < b + 1 ->
  (forall Jxy Jz, spin_spin (spin_vector a) (spin_vector b) Jxy Jxy Jz [i0; i1; j1; j0] <> C0 -> i0 + i1 = j0 + j1) /\
  (forall J, aklt (a + 1) (b + 1) (spin_vector a) (spin_vector b) J [i0; i1; j1; j0] <> C0 -> i0 + i1 = j0 + j1) /\
  (forall Jx Jy Jz, spin_spin (spin_vector a) (spin_vector b) Jx Jy Jz [i0; i1; j1; j0] <> C0 -> (i0 + i1) mod 2 = (j0 + j1) mod 2) /\
  (forall hz, spin_field (spin_vector a) 0 0 hz [i0; j0] <> C0 -> i0 = j0).
Proof.
  intros a b i0 i1 j0 j1 H0 H1 H2 H3.
  assert (E : forall h : arr, h [i0; i1; j1; j0] = as_operator2 (b + 1) h (i0 * (b + 1) + i1) (j0 * (b + 1) + j1)).
  { intros h. unfold as_operator2. now rewrite !div_add_small, !mod_add_small. }
  assert (R1 : i0 * (b + 1) + i1 < (a + 1) * (b + 1)) by nia. assert (R2 : j0 * (b + 1) + j1 < (a + 1) * (b + 1)) by nia. split; [|split; [|split]].
  - intros Jxy Jz H. rewrite E in H. apply (conserve2 R1 R2) in H; [now rewrite !div_add_small, !mod_add_small in H|]. apply xxz_invariant; apply spin_alg.
  - intros J H. rewrite E in H. apply (conserve2 R1 R2) in H; [now rewrite !div_add_small, !mod_add_small in H|].
    assert (A0 := spin_alg a). assert (A1 := spin_alg b). destruct (C66_rotation_invariant (a + 1) (b + 1) (b + 1) _ _ _ 2 A0 A1 A1 ltac:(lia)) as [_ [Q _]]. apply Q.
  - intros Jx Jy Jz H. rewrite E in H. apply (parity_two R1 R2) in H. now rewrite !div_add_small, !mod_add_small in H.
  - intros hz H. change (spin_field (spin_vector a) 0 0 hz [i0; j0]) with (as_operator1 (spin_field (spin_vector a) 0 0 hz) i0 j0) in H. rewrite (C66_spin_field (a + 1) _ _ _ _ i0 j0 H0 H1) in H.
    apply (@spin_z_diag a); try assumption. intros Z. apply H. unfold madd, mscale. rewrite Z. apply C_eq; cbn; ring.
Qed.
Theorem C66_chiral_charges : forall a b e i0 i1 i2 j0 j1 j2, i0 < a + 1 -> j0 < a + 1 -> i1 < b + 1 -> j1 < b + 1 -> i2 < e + 1 -> j2 < e + 1 ->
  forall chi, chiral_3spin (spin_vector a) (spin_vector b) (spin_vector e) chi [i0; i1; i2; j2; j1; j0] <> C0 -> i0 + i1 + i2 = j0 + j1 + j2.
Proof.
  intros a b e i0 i1 i2 j0 j1 j2 H0 H1 H2 H3 H4 H5 chi H.
  set (r := i0 * ((b + 1) * (e + 1)) + (i1 * (e + 1) + i2)). set (c := j0 * ((b + 1) * (e + 1)) + (j1 * (e + 1) + j2)).
  assert (X1 : i1 * (e + 1) + i2 < (b + 1) * (e + 1)) by nia. assert (X2 : j1 * (e + 1) + j2 < (b + 1) * (e + 1)) by nia.
  assert (R1 : r < (a + 1) * ((b + 1) * (e + 1))) by (unfold r; nia). assert (R2 : c < (a + 1) * ((b + 1) * (e + 1))) by (unfold c; nia).
  assert (N1 : b + 1 <> 0) by lia. assert (N2 : e + 1 <> 0) by lia.
  assert (D1 : forall q x, x < (b + 1) * (e + 1) -> ((q * ((b + 1) * (e + 1)) + x) / (e + 1)) mod (b + 1) = (x / (e + 1))).
  { intros q x Hx. rewrite <- mod_mul_div by assumption. now rewrite mod_add_small. }
  assert (D2 : forall q x, x < (b + 1) * (e + 1) -> (q * ((b + 1) * (e + 1)) + x) mod (e + 1) = x mod (e + 1)).
  { intros q x Hx. rewrite <- (mod_mul_mod (q * ((b + 1) * (e + 1)) + x) N1 N2). now rewrite mod_add_small. }
  assert (E : chiral_3spin (spin_vector a) (spin_vector b) (spin_vector e) chi [i0; i1; i2; j2; j1; j0] = as_operator3 (b + 1) (e + 1) (chiral_3spin (spin_vector a) (spin_vector b) (spin_vector e) chi) r c).
  { unfold as_operator3, r, c. rewrite !D1, !D2 by assumption. rewrite !div_add_small, !mod_add_small by assumption. reflexivity. }
  rewrite E in H. assert (A0 := spin_alg a). assert (A1 := spin_alg b). assert (A2 := spin_alg e).
  destruct (C66_rotation_invariant (a + 1) (b + 1) (e + 1) _ _ _ 2 A0 A1 A2 ltac:(lia)) as [_ [_ Q]]. apply (conserve3 R1 R2 (Q chi)) in H.
  unfold r, c in H. rewrite (mod_add_small i0 X1), (mod_add_small j0 X2) in H. rewrite !div_add_small, !mod_add_small in H by assumption. exact H.
Qed.

(** ** densities, on bosonic sites with any maximal occupations and on fermionic sites with any number of species *)
(** h = - mu sum n_k, h = U/2 n^2, h = V n_i n_j *)
Theorem C66_density_formulas : forall (s0 s1 : occ_site) mu U V sp sp', let D := os_dim s0 * os_dim s1 in
  (forall i j, as_operator1 (chemical_potential s0 mu sp) i j = mscale (RtoC (- mu)) (get_occupation s0 sp) i j) /\
  (forall i j, as_operator1 (onsite_interaction s0 U sp) i j = mscale (RtoC (U / 2)) (mmul (os_dim s0) (get_occupation s0 sp) (get_occupation s0 sp)) i j) /\
  meq D (as_operator2 (os_dim s1) (density_density s0 s1 V sp sp'))
        (mscale (RtoC V) (mmul D (on_left (os_dim s1) (get_occupation s0 sp)) (on_right (os_dim s1) (get_occupation s1 sp')))).
Proof.
  intros s0 s1 mu U V sp sp' D. split; [|split].
  - reflexivity.
  - intros i j. unfold as_operator1, onsite_interaction, ascale, mscale. cbv zeta. unfold arr2. cbn [nth]. f_equal. f_equal. field.
  - intros r c Hr Hc. unfold mscale. unfold D. rewrite left_right by assumption. reflexivity.
Qed.
Theorem C66_density_diagonal : forall Nmax sp mu U, Nmax <> [] -> (forall k, In k sp -> k < length Nmax) -> let s := boson_site Nmax in let n u := INR (natsum (map (occ Nmax u) sp)) in
  meq (sdim Nmax) (as_operator1 (chemical_potential s mu (Some sp))) (mdiag (fun u => RtoC (- mu * n u))) /\
  meq (sdim Nmax) (as_operator1 (onsite_interaction s U (Some sp))) (mdiag (fun u => RtoC (U / 2 * (n u * n u)))) /\
  forall Nmax' sp' V, Nmax' <> [] -> (forall k, In k sp' -> k < length Nmax') -> let n' u := INR (natsum (map (occ Nmax' u) sp')) in
    meq (sdim Nmax * sdim Nmax') (as_operator2 (sdim Nmax') (density_density s (boson_site Nmax') V (Some sp) (Some sp')))
        (mdiag (fun r => RtoC (V * (n (r / sdim Nmax') * n' (r mod sdim Nmax'))))).
Proof.
  intros l sp mu U L Hsp s n. assert (O : meq (sdim l) (get_occupation s (Some sp)) (mdiag (fun u => RtoC (n u)))) by (intros i j Hi Hj; now apply occupation_entry).
  split; [|split].
  - intros i j Hi Hj. destruct (C66_density_formulas s s mu U 0 (Some sp) None) as [E _]. rewrite E. unfold mscale. rewrite O by assumption. unfold mdiag. destruct (i =? j); [now rewrite RtoC_mul|]. ring.
  - intros i j Hi Hj. destruct (C66_density_formulas s s mu U 0 (Some sp) None) as [_ [E _]]. rewrite E. unfold mscale, s. rewrite boson_dim. fold s. rewrite (square_diag Hi Hj O). unfold mdiag. destruct (i =? j); [symmetry; apply RtoC_mul|]. ring.
  - intros l' sp' V L' Hsp' n' r c Hr Hc. assert (O' : meq (sdim l') (get_occupation (boson_site l') (Some sp')) (mdiag (fun u => RtoC (n' u)))) by (intros i j Hi Hj; now apply occupation_entry).
    destruct (C66_density_formulas s (boson_site l') 0 0 V (Some sp) (Some sp')) as [_ [_ E]]. cbv zeta in E. unfold s in E. rewrite !boson_dim in E. fold s in E. rewrite (E r c Hr Hc). unfold mscale. rewrite left_right by assumption.
    rewrite (otimes_ext O O' Hr Hc). unfold otimes, mdiag. destruct (Nat.eqb_spec r c) as [ <- |N]; [rewrite !Nat.eqb_refl, !RtoC_mul; reflexivity|].
    destruct (Nat.eqb_spec (r / sdim l') (c / sdim l')) as [E1|]; destruct (Nat.eqb_spec (r mod sdim l') (c mod sdim l')) as [E2|]; try ring.
    exfalso. apply N. assert (Q := sdim_pos l'). rewrite (Nat.div_mod r (sdim l')), (Nat.div_mod c (sdim l')), E1, E2 by lia. reflexivity.
Qed.

(** ** clocks *)
Theorem C66_clock_clock : forall d0 d1 X_i Z_i X_j Z_j Jx Jz, let D := d0 * d1 in
  meq D (as_operator2 d1 (clock_clock X_i Z_i X_j Z_j Jx Jz))
        (plus_hc (madd (mscale (RtoC Jx) (mmul D (on_left d1 X_i) (on_right d1 (mconjT X_j)))) (mscale (RtoC Jz) (mmul D (on_left d1 Z_i) (on_right d1 (mconjT Z_j)))))) /\
  hermitian D (as_operator2 d1 (clock_clock X_i Z_i X_j Z_j Jx Jz)).
Proof.
  intros d0 d1 X_i Z_i X_j Z_j Jx Jz D.
  assert (E : meq D (as_operator2 d1 (clock_clock X_i Z_i X_j Z_j Jx Jz))
        (plus_hc (madd (mscale (RtoC Jx) (mmul D (on_left d1 X_i) (on_right d1 (mconjT X_j)))) (mscale (RtoC Jz) (mmul D (on_left d1 Z_i) (on_right d1 (mconjT Z_j))))))).
  { intros r c Hr Hc. set (A := madd _ _). change (plus_hc A r c) with (Cadd (A r c) (Cconj (A c r))).
    assert (EA : forall r c, r < D -> c < D -> A r c = Cadd (Cmul (RtoC Jx) (Cmul (X_i (r / d1) (c / d1)) (Cconj (X_j (c mod d1) (r mod d1))))) (Cmul (RtoC Jz) (Cmul (Z_i (r / d1) (c / d1)) (Cconj (Z_j (c mod d1) (r mod d1)))))).
    { intros x y Hx Hy. unfold A, madd, mscale. unfold D. rewrite !left_right by assumption. reflexivity. }
    rewrite !EA by assumption. unfold clock_clock. cbv zeta. unfold as_operator2, aadd, transpose. cbn [length seq map pos Nat.eqb nth]. unfold aconj. rewrite !add_if_eq.
    unfold azeros, amul, newaxes, arr2, mconjT. cbn [map nth]. f_equal; [ring|]. f_equal. ring. }
  split; [exact E|]. eapply herm_ext; [exact E|]. apply plus_hc_herm.
Qed.
Theorem C66_clock_field : forall d X Z hx hz, let val o := match o with Some x => x | None => 0%R end in
  meq d (as_operator1 (clock_field X Z hx hz)) (plus_hc (madd (mscale (RtoC (val hx)) X) (mscale (RtoC (val hz)) Z))).
Proof.
  intros d X Z hx hz val r c Hr Hc. unfold as_operator1, clock_field, aadd, ascale, arr2, plus_hc, madd, mconjT, mscale. cbn [nth]. fold (val hx) (val hz). rewrite Cconj_add, !Cconj_mul, !RtoC_conj. ring.
Qed.
(** the clock coupling conserves the sum of the clock states modulo q *)
Theorem C66_clock_charges : forall q i0 i1 j0 j1 Jx Jz, i0 < q -> i1 < q -> j0 < q -> j1 < q ->
  clock_clock (clock_X q) (clock_Z q) (clock_X q) (clock_Z q) Jx Jz [i0; i1; j1; j0] <> C0 -> (i0 + i1) mod q = (j0 + j1) mod q.
Proof.
  intros q i0 i1 j0 j1 Jx Jz H0 H1 H2 H3 H. assert (Q : 0 < q) by lia.
  assert (E : forall h : arr, h [i0; i1; j1; j0] = as_operator2 q h (i0 * q + i1) (j0 * q + j1)) by (intros h; unfold as_operator2; now rewrite !div_add_small, !mod_add_small).
  assert (R1 : i0 * q + i1 < q * q) by nia. assert (R2 : j0 * q + j1 < q * q) by nia.
  rewrite E in H. destruct (C66_clock_clock q q (clock_X q) (clock_Z q) (clock_X q) (clock_Z q) Jx Jz) as [F _]. cbv zeta in F. rewrite (F _ _ R1 R2) in H.
  assert (G : forall r c, r < q * q -> c < q * q ->
    madd (mscale (RtoC Jx) (mmul (q * q) (on_left q (clock_X q)) (on_right q (mconjT (clock_X q))))) (mscale (RtoC Jz) (mmul (q * q) (on_left q (clock_Z q)) (on_right q (mconjT (clock_Z q))))) r c <> C0 ->
    (r / q + r mod q) mod q = (c / q + c mod q) mod q).
  { intros r c Hr Hc N. unfold madd, mscale in N. rewrite !left_right in N by assumption. apply Cadd_nz in N. assert (B1 := div_lt_mul Hr). assert (B2 := div_lt_mul Hc). assert (B3 := mod_lt_mul Hr). assert (B4 := mod_lt_mul Hc).
    destruct N as [N|N]; apply Cmul_nz in N; destruct N as [_ N]; unfold otimes in N; apply Cmul_nz in N; destruct N as [N1 N2].
    - apply X_shift in N1; try assumption. unfold mconjT in N2. apply conj_nz in N2. apply X_shift in N2; try assumption. revert N1 N2. generalize (r / q) (c / q) (r mod q) (c mod q). intros x y z w -> ->. rewrite Nat.add_mod_idemp_l, Nat.add_mod_idemp_r by lia. f_equal. lia.
    - unfold clock_Z, mdiag in N1. destruct (Nat.eqb_spec (r / q) (c / q)) as [E1|]; [|congruence]. unfold mconjT in N2. apply conj_nz in N2. unfold clock_Z, mdiag in N2. destruct (Nat.eqb_spec (c mod q) (r mod q)) as [E2|]; [|congruence]. now rewrite E1, E2. }
  apply plus_hc_nz in H. destruct H as [H|H]; [apply (G _ _ R1 R2) in H|apply (G _ _ R2 R1) in H]; rewrite !div_add_small, !mod_add_small in H by assumption; congruence.
Qed.

(** concrete cases *)
Example C66_ex_spin_half : spin_spin (spin_vector 1) (spin_vector 1) 1 1 1 [0; 0; 0; 0] = RtoC (1/4) /\ spin_spin (spin_vector 1) (spin_vector 2) 0 0 1 [0; 1; 1; 0] = C0.
Proof.
  split; unfold spin_spin, transpose; cbn [length seq map pos Nat.eqb nth fold_left]; rewrite !add_if_eq, !tensordot_outer.
  - assert (X := @spin_xy_odd 1 0 0 0). assert (Y := @spin_xy_odd 1 1 0 0).
    assert (EX : spin_vector 1 0 0 0 = C0) by (destruct (C_eq_dec (spin_vector 1 0 0 0) C0) as [|N]; [assumption|apply X in N; lia]).
    assert (EY : spin_vector 1 1 0 0 = C0) by (destruct (C_eq_dec (spin_vector 1 1 0 0) C0) as [|N]; [assumption|apply Y in N; lia]).
    rewrite EX, EY, (spin_z (two_S := 1)) by lia. unfold mdiag. cbn [Nat.eqb]. unfold azeros. apply C_eq; cbn; field.
  - rewrite (spin_z (two_S := 2)) by lia. unfold mdiag. cbn [Nat.eqb]. unfold azeros. apply C_eq; cbn; field.
Qed.

Print Assumptions C66_spin_spin.
Print Assumptions C66_heisenberg.
Print Assumptions C66_spin_field.
Print Assumptions C66_aklt.
Print Assumptions C66_chiral.
Print Assumptions C66_spin_hermitian.
Print Assumptions C66_rotation_invariant.
Print Assumptions C66_sites_are_spins.
Print Assumptions C66_spin_charges.
Print Assumptions C66_chiral_charges.
Print Assumptions C66_density_formulas.
Print Assumptions C66_density_diagonal.
Print Assumptions C66_clock_clock.
Print Assumptions C66_clock_field.
Print Assumptions C66_clock_charges.
