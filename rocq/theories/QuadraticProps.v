(** C67: hopping and pairing. *)
From Coq Require Import Reals ZArith List Arith Lia Bool Lra.
From Verif Require Import Util Cplx Hilbert SiteModel SiteSpec SiteProofs1 SiteProofs2 SiteProofs3 SiteProofs4 SiteProofs5 CouplingModel CouplingSpec CouplingProofs1 CouplingProofs2 CouplingProofs3 CouplingProofs4 CouplingProofs5 CouplingProofs6.
Import ListNotations.
Open Scope nat_scope.
Add Ring CRq : C_ring.

(** The operators of a pair of sites: the pair of a site with n species and one with m species is the site with n + m species, species n + k is species k of the second site
    (C65 gives the canonical commutation or anticommutation relations of its operators). *)
(** what the documentation promises for hopping, for sites with maximal occupations Nmax_i, Nmax_j and species lists of valid species, summed over zip(species_i, species_j) *)
Definition boson_hopping_spec (Nmax_i Nmax_j : list nat) (t : R) (species_i species_j : list Z) : mat :=
  let D := sdim Nmax_i * sdim Nmax_j in let ni := length Nmax_i in
  mscale (RtoC (- t)) (plus_hc (opsum (map (fun p => mmul D (creator (Nmax_i ++ Nmax_j) (species_no ni (fst p))) (annihilator (Nmax_i ++ Nmax_j) (ni + species_no (length Nmax_j) (snd p)))) (combine species_i species_j)))).
(** Proved for pairs of sites with the same occupations and the list of the second site at least as long as the first one.
    Missing: different sites and a longer first list; the claims are false there, see C67_hopping_sites_refuted and C67_species_refuted. *)
Theorem C67_boson_hopping_partial : forall Nmax t S1 S2, Nmax <> [] -> (forall k, In k S1 -> valid_species (length Nmax) k) -> (forall k, In k S2 -> valid_species (length Nmax) k) -> length S1 <= length S2 ->
  exists h, hopping false (boson_site Nmax) (boson_site Nmax) t (Some S1, Some S2) = Some h /\ let D := sdim Nmax * sdim Nmax in
    meq D (as_operator2 (sdim Nmax) h) (boson_hopping_spec Nmax Nmax t S1 S2) /\
    hermitian D (as_operator2 (sdim Nmax) h) /\
    (forall r c, r < D -> c < D -> as_operator2 (sdim Nmax) h r c <> C0 -> occ_total (Nmax ++ Nmax) r = occ_total (Nmax ++ Nmax) c).
Proof.
  intros l t S1 S2 L V1 V2 Le. destruct (@quadratic_op false false (boson_site l) (Some S1) (Some S2) V1 V2 Le) as [h [E H]]. unfold hopping. rewrite E. cbn [option_map]. eexists. split; [reflexivity|].
  rewrite boson_dim in H. cbn [species_list] in H. cbn [boson_site os_species] in H. fold (boson_site l) in H. set (D := sdim l * sdim l) in *.
  assert (F : meq D (as_operator2 (sdim l) (ascale (RtoC (- t)) h)) (boson_hopping_spec l l t S1 S2)).
  { intros r c Hr Hc. rewrite scale_op2. unfold boson_hopping_spec. cbv zeta. unfold mscale. f_equal. rewrite (H r c Hr Hc). revert r c Hr Hc. apply plus_hc_ext.
    apply (@zip_ext D (length l) _ (fun i j => mmul D (creator (l ++ l) i) (annihilator (l ++ l) (length l + j)))); try assumption. intros i j Hi Hj. exact (@boson_term l false i j Hi Hj). }
  split; [exact F|]. split.
  - eapply herm_ext; [exact F|]. apply herm_scale, plus_hc_herm.
  - intros r c Hr Hc N. rewrite (F r c Hr Hc) in N. unfold boson_hopping_spec in N. cbv zeta in N. unfold mscale in N. apply Cmul_nz in N. destruct N as [_ N].
    assert (G : forall r c, r < D -> c < D -> zip_sum (length l) (fun i j => mmul D (creator (l ++ l) i) (annihilator (l ++ l) (length l + j))) S1 S2 r c <> C0 -> occ_total (l ++ l) r = occ_total (l ++ l) c).
    { intros x y Hx Hy M. destruct (@zip_nz D _ _ _ _ _ _ V1 V2 M Hx Hy) as [i [j [Hi [Hj K]]]]. assert (Q : occ_total (l ++ l) x + 1 = occ_total (l ++ l) y + 0 + 1); [|lia].
      assert (NE : l ++ l <> []) by (destruct l; [congruence|discriminate]).
      apply (@product_counts (occ_total (l ++ l)) D (creator (l ++ l) i) (annihilator (l ++ l) (length l + j))); try assumption; intros s u Hs Hu Z; unfold D in *; rewrite <- sdim_app in *.
      - apply (@cre_counts (l ++ l) NE i); try assumption. rewrite app_length; lia.
      - rewrite Nat.add_0_r. symmetry. apply (@ann_counts (l ++ l) (length l + j)); try assumption. rewrite app_length; lia. }
    apply plus_hc_nz in N. destruct N as [N|N]; [now apply G|symmetry; now apply G].
Qed.
(** pairing: h = Delta sum a_i^dagger a_j^dagger + h.c.; it conserves the parity *)
Theorem C67_boson_pairing_partial : forall Nmax Delta S1 S2, Nmax <> [] -> (forall k, In k S1 -> valid_species (length Nmax) k) -> (forall k, In k S2 -> valid_species (length Nmax) k) -> length S1 <= length S2 ->
  exists h, pairing false (boson_site Nmax) (boson_site Nmax) Delta (Some S1, Some S2) = Some h /\ let D := sdim Nmax * sdim Nmax in let n := length Nmax in
    meq D (as_operator2 (sdim Nmax) h) (mscale (RtoC Delta) (plus_hc (zip_sum n (fun i j => mmul D (creator (Nmax ++ Nmax) i) (creator (Nmax ++ Nmax) (n + j))) S1 S2))) /\
    hermitian D (as_operator2 (sdim Nmax) h) /\
    (forall r c, r < D -> c < D -> as_operator2 (sdim Nmax) h r c <> C0 ->
       occ_total (Nmax ++ Nmax) r = occ_total (Nmax ++ Nmax) c + 2 \/ occ_total (Nmax ++ Nmax) c = occ_total (Nmax ++ Nmax) r + 2).
Proof.
  intros l t S1 S2 L V1 V2 Le. destruct (@quadratic_op false true (boson_site l) (Some S1) (Some S2) V1 V2 Le) as [h [E H]]. unfold pairing. rewrite E. cbn [option_map]. eexists. split; [reflexivity|].
  rewrite boson_dim in H. cbn [species_list] in H. cbn [boson_site os_species] in H. fold (boson_site l) in H. set (D := sdim l * sdim l) in *. set (n := length l) in *.
  assert (F : meq D (as_operator2 (sdim l) (ascale (RtoC t) h)) (mscale (RtoC t) (plus_hc (zip_sum n (fun i j => mmul D (creator (l ++ l) i) (creator (l ++ l) (n + j))) S1 S2)))).
  { intros r c Hr Hc. rewrite scale_op2. unfold mscale. f_equal. rewrite (H r c Hr Hc). revert r c Hr Hc. apply plus_hc_ext.
    apply (@zip_ext D (length l) _ (fun i j => mmul D (creator (l ++ l) i) (creator (l ++ l) (length l + j)))); try assumption. intros i j Hi Hj. exact (@boson_term l true i j Hi Hj). }
  split; [exact F|]. split.
  - eapply herm_ext; [exact F|]. apply herm_scale, plus_hc_herm.
  - intros r c Hr Hc N. rewrite (F r c Hr Hc) in N. unfold mscale in N. apply Cmul_nz in N. destruct N as [_ N].
    assert (G : forall r c, r < D -> c < D -> zip_sum (length l) (fun i j => mmul D (creator (l ++ l) i) (creator (l ++ l) (length l + j))) S1 S2 r c <> C0 -> occ_total (l ++ l) r = occ_total (l ++ l) c + 2).
    { intros x y Hx Hy M. destruct (@zip_nz D _ _ _ _ _ _ V1 V2 M Hx Hy) as [i [j [Hi [Hj K]]]]. assert (Q : occ_total (l ++ l) x + 0 = occ_total (l ++ l) y + 1 + 1); [|lia].
      assert (NE : l ++ l <> []) by (destruct l; [congruence|discriminate]).
      apply (@product_counts (occ_total (l ++ l)) D (creator (l ++ l) i) (creator (l ++ l) (length l + j))); try assumption; intros s u Hs Hu Z; unfold D in *; rewrite <- sdim_app in *.
      - apply (@cre_counts (l ++ l) NE i); try assumption. rewrite app_length; lia.
      - rewrite Nat.add_0_r. apply (@cre_counts (l ++ l) NE (length l + j)); try assumption. rewrite app_length; lia. }
    apply plus_hc_nz in N. destruct N as [N|N]; [left; now apply G|right; now apply G].
Qed.
(** fermions, with the Jordan-Wigner strings within and between the sites *)
Theorem C67_fermion_quadratic_partial : forall n x S1 S2, 0 < n -> (forall k, In k S1 -> valid_species n k) -> (forall k, In k S2 -> valid_species n k) -> length S1 <= length S2 ->
  let s := fermion_site n in let D := 2 ^ n * 2 ^ n in let c k := get_annihilator (fermion_site (n + n)) k true in let cd k := get_creator (fermion_site (n + n)) k true in let N u := occ_total (repeat 1 (n + n)) u in
  (exists h, hopping true s s x (Some S1, Some S2) = Some h /\
     meq D (as_operator2 (2 ^ n) h) (mscale (RtoC (- x)) (plus_hc (zip_sum n (fun i j => mmul D (cd i) (c (n + j))) S1 S2))) /\
     hermitian D (as_operator2 (2 ^ n) h) /\
     (forall u v, u < D -> v < D -> as_operator2 (2 ^ n) h u v <> C0 -> N u = N v)) /\
  (exists h, pairing true s s x (Some S1, Some S2) = Some h /\
     meq D (as_operator2 (2 ^ n) h) (mscale (RtoC x) (plus_hc (zip_sum n (fun i j => mmul D (cd i) (cd (n + j))) S1 S2))) /\
     hermitian D (as_operator2 (2 ^ n) h) /\
     (forall u v, u < D -> v < D -> as_operator2 (2 ^ n) h u v <> C0 -> N u = N v + 2 \/ N v = N u + 2)).
Proof.
  intros n x S1 S2 P V1 V2 Le s D c cd N. assert (P2 : 0 < n + n) by lia. assert (DD : D = 2 ^ (n + n)) by (unfold D; now rewrite Nat.pow_add_r). split.
  - destruct (@quadratic_op true false s (Some S1) (Some S2) V1 V2 Le) as [h [E H]]. unfold hopping. rewrite E. cbn [option_map]. eexists. split; [reflexivity|]. cbn [species_list] in H. change (os_dim s) with (2 ^ n) in H. change (os_species s) with n in H.
    assert (F : meq D (as_operator2 (2 ^ n) (ascale (RtoC (- x)) h)) (mscale (RtoC (- x)) (plus_hc (zip_sum n (fun i j => mmul D (cd i) (c (n + j))) S1 S2)))).
    { intros u v Hu Hv. rewrite scale_op2. unfold mscale. f_equal. rewrite (H u v Hu Hv). revert u v Hu Hv. apply plus_hc_ext.
      apply (@zip_ext D n (qterm true false s) (fun i j => mmul D (cd i) (c (n + j)))); try assumption. intros i j Hi Hj. exact (@fermion_term n false i j P Hi Hj). }
    split; [exact F|]. split; [eapply herm_ext; [exact F|]; apply herm_scale, plus_hc_herm|].
    intros u v Hu Hv M. rewrite (F u v Hu Hv) in M. unfold mscale in M. apply Cmul_nz in M. destruct M as [_ M].
    assert (G : forall u v, u < D -> v < D -> zip_sum n (fun i j => mmul D (cd i) (c (n + j))) S1 S2 u v <> C0 -> N u = N v).
    { intros y z Hy Hz K. destruct (@zip_nz D _ _ _ _ _ _ V1 V2 K Hy Hz) as [i [j [Hi [Hj K']]]]. assert (Q : N y + 1 = N z + 0 + 1); [|lia].
      apply (@product_counts N D (cd i) (c (n + j))); try assumption; intros a b Ha Hb Z; rewrite DD in *.
      - apply (@f_cre_counts (n + n) P2 i); try assumption. lia.
      - rewrite Nat.add_0_r. symmetry. apply (@f_ann_counts (n + n) P2 (n + j)); try assumption. lia. }
    apply plus_hc_nz in M. destruct M as [M|M]; [now apply G|symmetry; now apply G].
  - destruct (@quadratic_op true true s (Some S1) (Some S2) V1 V2 Le) as [h [E H]]. unfold pairing. rewrite E. cbn [option_map]. eexists. split; [reflexivity|]. cbn [species_list] in H. change (os_dim s) with (2 ^ n) in H. change (os_species s) with n in H.
    assert (F : meq D (as_operator2 (2 ^ n) (ascale (RtoC x) h)) (mscale (RtoC x) (plus_hc (zip_sum n (fun i j => mmul D (cd i) (cd (n + j))) S1 S2)))).
    { intros u v Hu Hv. rewrite scale_op2. unfold mscale. f_equal. rewrite (H u v Hu Hv). revert u v Hu Hv. apply plus_hc_ext.
      apply (@zip_ext D n (qterm true true s) (fun i j => mmul D (cd i) (cd (n + j)))); try assumption. intros i j Hi Hj. exact (@fermion_term n true i j P Hi Hj). }
    split; [exact F|]. split; [eapply herm_ext; [exact F|]; apply herm_scale, plus_hc_herm|].
    intros u v Hu Hv M. rewrite (F u v Hu Hv) in M. unfold mscale in M. apply Cmul_nz in M. destruct M as [_ M].
    assert (G : forall u v, u < D -> v < D -> zip_sum n (fun i j => mmul D (cd i) (cd (n + j))) S1 S2 u v <> C0 -> N u = N v + 2).
    { intros y z Hy Hz K. destruct (@zip_nz D _ _ _ _ _ _ V1 V2 K Hy Hz) as [i [j [Hi [Hj K']]]]. assert (Q : N y + 0 = N z + 1 + 1); [|lia].
      apply (@product_counts N D (cd i) (cd (n + j))); try assumption; intros a b Ha Hb Z; rewrite DD in *.
      - apply (@f_cre_counts (n + n) P2 i); try assumption. lia.
      - rewrite Nat.add_0_r. apply (@f_cre_counts (n + n) P2 (n + j)); try assumption. lia. }
    apply plus_hc_nz in M. destruct M as [M|M]; [left; now apply G|right; now apply G].
Qed.
(** without a choice of species all species of the sites are used; an invalid species is an error *)
Theorem C67_default_species : forall f p s s',
  quadratic f p s s' (None, None) = quadratic f p s s' (Some (map Z.of_nat (seq 0 (os_species s))), Some (map Z.of_nat (seq 0 (os_species s')))) /\
  (forall k S1 S2, ~ valid_species (os_species s) k -> S2 <> [] -> quadratic f p s s' (Some (k :: S1), Some S2) = None).
Proof.
  intros f p s s'. split; [reflexivity|]. intros k S1 S2 V NE. unfold quadratic. cbn [fst snd species_list]. destruct S2 as [|k2 S2]; [congruence|]. cbn [quadratic_loop]. unfold creator_numpy at 1. rewrite (species_invalid V). reflexivity.
Qed.
(** onsite pairing *)
Theorem C67_onsite_pairing_partial : forall (f : bool) (s : occ_site) Delta S1 S2, (forall k, In k S1 -> valid_species (os_species s) k) -> (forall k, In k S2 -> valid_species (os_species s) k) -> length S1 <= length S2 ->
  let cd k := if f then get_creator s k true else os_creators s k in
  exists h, onsite_pairing f s Delta (Some S1, Some S2) = Some h /\
    (forall i j, as_operator1 h i j = plus_hc (mscale (RtoC Delta) (zip_sum (os_species s) (fun k1 k2 => mmul (os_dim s) (cd k1) (cd k2)) S1 S2)) i j) /\
    hermitian (os_dim s) (as_operator1 h).
Proof.
  intros f s Delta S1 S2 V1 V2 Le cd. destruct (@onsite_op f s Delta (Some S1) (Some S2) V1 V2 Le) as [h [E H]]. exists h. split; [exact E|]. split; [exact H|].
  intros i j Hi Hj. unfold mconjT. rewrite !H. apply (@plus_hc_herm (os_dim s) _ i j Hi Hj).
Qed.
(** for fermions the default choice of species (k_1 = k_2) gives the zero operator, for every number of species *)
Theorem C67_fermion_onsite_default_zero : forall n Delta, 0 < n -> exists h, onsite_pairing true (fermion_site n) Delta (None, None) = Some h /\ meq (2 ^ n) (as_operator1 h) mzero.
Proof.
  intros n Delta P. destruct (@onsite_op true (fermion_site n) Delta None None) as [h [E H]]; try (cbn [species_list fermion_site os_species]; intros k Hk; now apply all_valid); [lia|].
  exists h. split; [exact E|].
  assert (Z : meq (2 ^ n) (zip_sum n (fun k1 k2 => mmul (2 ^ n) (op_cre true (fermion_site n) k1) (op_cre true (fermion_site n) k2)) (map Z.of_nat (seq 0 n)) (map Z.of_nat (seq 0 n))) mzero).
  { unfold zip_sum. rewrite combine_self, map_map. apply opsum_zero. intros k Hk. cbn [fst snd]. assert (V := all_valid Hk). apply in_map_iff in Hk. destruct Hk as [i [ <- Hi]]. apply in_seq in Hi. rewrite species_no_nat by lia.
    intros a b Ha Hb. cbn [op_cre]. assert (Q := @car_dd n P i i ltac:(lia) ltac:(lia) a b Ha Hb). unfold anticomm, mzero in *. apply double_zero. exact Q. }
  intros i j Hi Hj. rewrite H. cbn [species_list fermion_site os_species os_dim]. fold (fermion_site n). unfold plus_hc, madd, mconjT, mscale. rewrite (Z i j Hi Hj), (Z j i Hj Hi). unfold mzero. apply C_eq; cbn; ring.
Qed.

(** ** defects *)
Lemma sites_term i j r c : i < 2 -> j < 2 -> r < 8 * 8 -> c < 8 * 8 ->
  mmul (8 * 8) (creator ([1; 3] ++ [3; 1]) i) (annihilator ([1; 3] ++ [3; 1]) (2 + j)) r c
  = Cmul (if removes [1; 3] i (c / 8) (r / 8) then RtoC (sqrt (INR (occ [1; 3] (r / 8) i))) else C0) (if removes [3; 1] j (r mod 8) (c mod 8) then RtoC (sqrt (INR (occ [3; 1] (c mod 8) j))) else C0).
Proof.
  intros Hi Hj Hr Hc. assert (A : [1; 3] <> []) by discriminate. assert (B : [3; 1] <> []) by discriminate.
  assert (L : meq (8 * 8) (creator ([1; 3] ++ [3; 1]) i) (on_left 8 (creator [1; 3] i))) by (apply (@bos_cre_left [1; 3] [3; 1] A i); cbn; lia).
  assert (K : meq (8 * 8) (annihilator ([1; 3] ++ [3; 1]) (2 + j)) (on_right 8 (annihilator [3; 1] j))) by (apply (@bos_ann_right [1; 3] [3; 1] A B j); cbn; lia).
  rewrite (@mmul_ext (8 * 8) _ _ _ _ r c Hr Hc L K). rewrite (@left_right 8 8 _ _ r c Hr Hc). unfold otimes.
  assert (r / 8 < 8) by (apply Nat.div_lt_upper_bound; lia). assert (c / 8 < 8) by (apply Nat.div_lt_upper_bound; lia). assert (r mod 8 < 8) by (apply Nat.mod_upper_bound; lia). assert (c mod 8 < 8) by (apply Nat.mod_upper_bound; lia).
  rewrite creator_conjT by (try assumption; exact A). unfold mconjT. rewrite !annihilator_entry by (cbn [length]; try lia; try assumption). f_equal.
  destruct (removes _ _ _ _); apply C_eq; cbn; ring.
Qed.
Lemma sites_good : boson_hopping_spec [1; 3] [3; 1] 1 [0; 1]%Z [0; 1]%Z 34 4 = RtoC (- sqrt 2).
Proof.
  unfold boson_hopping_spec. cbv zeta. change (sdim [1; 3] * sdim [3; 1]) with (8 * 8). cbn [length combine map fst snd opsum fold_right]. change (species_no 2 0) with 0. change (species_no 2 1) with 1.
  unfold mscale, plus_hc, madd, mconjT, opsum. cbn [fold_right]. unfold madd, mzero. rewrite !sites_term by lia.
  change (34 / 8) with 4. change (34 mod 8) with 2. change (4 / 8) with 0. change (4 mod 8) with 4.
  cbn [removes forallb seq length Nat.eqb]. cbv [removes]. 
  repeat match goal with |- context [forallb ?f ?l] => let v := eval vm_compute in (forallb f l) in change (forallb f l) with v end.
  cbv iota. change (occ [1; 3] 4 0) with 1. change (occ [3; 1] 4 0) with 2. cbn [INR]. rewrite sqrt_1. replace (1 + 1)%R with 2%R by ring. apply C_eq; cbn; ring.
Qed.
(** hopping takes the operators of the second site from the first one: for two different sites of the same dimension the result is not the documented operator *)
Theorem C67_hopping_sites_refuted : exists h, hopping false (boson_site [1; 3]) (boson_site [3; 1]) 1 (None, None) = Some h /\
  ~ meq (8 * 8) (as_operator2 8 h) (boson_hopping_spec [1; 3] [3; 1] 1 [0; 1]%Z [0; 1]%Z).
Proof.
  destruct (@C67_boson_hopping_partial [1; 3] 1 [0; 1]%Z [0; 1]%Z) as [h [E [_ [_ H]]]]; [discriminate| | |reflexivity|].
  1-2: intros k [ <- |[ <- |[]]]; unfold valid_species; cbn; lia.
  exists h. split; [exact E|]. intros G. specialize (G 34 4 ltac:(lia) ltac:(lia)). rewrite sites_good in G.
  assert (Q : as_operator2 (sdim [1; 3]) h 34 4 <> C0).
  { change (sdim [1; 3]) with 8. rewrite G. intros F. apply (f_equal fst) in F. cbn in F. assert (P := sqrt_lt_R0 2 ltac:(lra)). lra. }
  apply H in Q; [|cbn; lia|cbn; lia]. discriminate Q.
Qed.
(** ... and for sites of different dimensions the call fails *)
Theorem C67_hopping_dims_refuted : forall f p n m, 0 < n -> n <> m -> 0 < m -> quadratic f p (fermion_site n) (fermion_site m) (None, None) = None.
Proof.
  intros f p n m Pn Nm Pm. unfold quadratic. cbn [fst snd species_list fermion_site os_species]. fold (fermion_site n) (fermion_site m). destruct n as [|n]; [lia|]. destruct m as [|m]; [lia|]. cbn [seq map quadratic_loop].
  assert (V : valid_species (os_species (fermion_site (S n))) (Z.of_nat 0)) by (unfold valid_species; cbn [fermion_site os_species]; lia).
  rewrite (creator_numpy_eq f V), (annihilator_numpy_eq f V).
  assert (D : os_dim (fermion_site (S n)) =? os_dim (fermion_site (S m)) = false).
  { apply Nat.eqb_neq. cbn [fermion_site os_dim]. intros E. apply Nat.pow_inj_r in E; lia. }
  assert (D1 : os_dim (fermion_site (S n)) =? 1 = false).
  { apply Nat.eqb_neq. cbn [fermion_site os_dim]. cbn [Nat.pow]. assert (Q := Nat.pow_nonzero 2 n ltac:(lia)). lia. }
  rewrite D, D1. cbn [orb negb]. destruct p; reflexivity.
Qed.
(** the documented zip(species_1, species_2) stops at the shorter list; the code fails if the second one is shorter (but not empty) *)
Theorem C67_species_refuted : forall f p s, valid_species (os_species s) 0 -> valid_species (os_species s) 1 -> quadratic f p s s (Some [0; 1]%Z, Some [0]%Z) = None.
Proof.
  intros f p s V0 V1. unfold quadratic. cbn [fst snd species_list quadratic_loop]. rewrite (creator_numpy_eq f V0), (annihilator_numpy_eq f V0). rewrite Nat.eqb_refl. cbn [orb negb].
  destruct p; reflexivity.
Qed.

Example C67_ex : valid_species 2 (-1) /\ species_no 2 (-1) = 1 /\ valid_species 2 0 /\ (exists h, hopping true (fermion_site 2) (fermion_site 2) 1 (Some [0; 1]%Z, Some [-1; 0]%Z) = Some h) /\ sdim [1; 3] = 8.
Proof. split; [unfold valid_species; lia|]. split; [reflexivity|]. split; [unfold valid_species; lia|]. split; [eexists; reflexivity|reflexivity]. Qed.

Print Assumptions C67_boson_hopping_partial.
Print Assumptions C67_boson_pairing_partial.
Print Assumptions C67_fermion_quadratic_partial.
Print Assumptions C67_default_species.
Print Assumptions C67_onsite_pairing_partial.
Print Assumptions C67_fermion_onsite_default_zero.
Print Assumptions C67_hopping_sites_refuted.
Print Assumptions C67_hopping_dims_refuted.
Print Assumptions C67_species_refuted.
