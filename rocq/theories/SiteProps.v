(** C65: the operators and states of the sites in the model library. *)
From Coq Require Import Reals ZArith List Arith Lia Bool Lra.
From Verif Require Import Util Cplx Hilbert SiteModel SiteSpec SiteProofs1 SiteProofs2 SiteProofs3 SiteProofs4 SiteProofs5.
Import ListNotations.
Open Scope nat_scope.

(** ** spin sites, for every total spin *)
Theorem C65_spin_site : forall (two_S : Z) c,
  ((two_S < 0)%Z -> spin_prepare two_S c = None) /\
  ((0 <= two_S)%Z -> exists s, spin_prepare two_S c = Some s /\ ss_dim s = Z.to_nat two_S + 1 /\ ss_vector s = spin_vector (Z.to_nat two_S) /\
     length (ss_basis s) = ss_dim s /\
     forall n, n < ss_dim s ->
       (** the charge of state n: twice its S_z for U(1), the parity of n for Z_2 *)
       nth n (ss_basis s) 0%Z = match c with SpinU1 => (2 * Z.of_nat n - two_S)%Z | SpinParity => (Z.of_nat n mod 2)%Z | SpinNone => 0%Z end /\
       In ((2 * Z.of_nat n - two_S)%Z, n) (ss_labels s)).
Proof.
  intros two_S c. unfold spin_prepare. split; intros H.
  - destruct (Z.ltb_spec two_S 0); [reflexivity|lia].
  - destruct (Z.ltb_spec two_S 0); [lia|]. eexists. split; [reflexivity|]. cbn [ss_dim ss_vector ss_basis ss_labels]. split; [reflexivity|]. split; [reflexivity|].
    assert (LB : length (spin_leg_basis c (Z.to_nat two_S)) = Z.to_nat two_S + 1).
    { unfold spin_leg_basis, arange. destruct c; rewrite ?map_length, ?seq_length, ?repeat_length; try reflexivity.
      - rewrite Z2Nat.id by lia. replace ((two_S + 2 - - two_S + 2 - 1) / 2)%Z with (two_S + 1)%Z; [lia|]. apply Z.div_unique with (r := 1%Z); lia.
      - rewrite Z2Nat.id by lia. replace ((two_S + 1 - 0 + 1 - 1) / 1)%Z with (two_S + 1)%Z; [lia|]. rewrite Z.div_1_r. lia. }
    split; [exact LB|]. intros n Hn. split.
    + unfold spin_leg_basis, arange in *. destruct c.
      * rewrite nth_map_lt with (d := 0) by (now rewrite map_length in LB; rewrite LB). rewrite map_length in LB. rewrite seq_nth by (rewrite seq_length in LB; rewrite LB; exact Hn). lia.
      * rewrite !map_length in LB. rewrite nth_map_lt with (d := 0%Z) by (rewrite map_length; now rewrite LB). rewrite nth_map_lt with (d := 0) by (now rewrite LB). rewrite seq_nth by (rewrite seq_length in LB; rewrite LB; exact Hn). f_equal. lia.
      * now rewrite nth_repeat_lt.
    + unfold spin_labels. apply in_map_iff. exists n. split; [f_equal; lia|]. apply in_seq. lia.
Qed.
(** [S_x, S_y] = i S_z and cyclic; S^2 = S (S + 1); all hermitian; S_z is diagonal with the values -S, ..., S *)
Theorem C65_spin_algebra : forall two_S, let d := two_S + 1 in let v := spin_vector two_S in
  meq d (comm d (v 0) (v 1)) (mscale Ci (v 2)) /\ meq d (comm d (v 1) (v 2)) (mscale Ci (v 0)) /\ meq d (comm d (v 2) (v 0)) (mscale Ci (v 1)) /\
  meq d (madd (madd (mmul d (v 0) (v 0)) (mmul d (v 1) (v 1))) (mmul d (v 2) (v 2))) (mscale (RtoC (INR two_S / 2 * (INR two_S / 2 + 1))) meye) /\
  (forall axis, hermitian d (v axis)) /\
  meq d (v 2) (mdiag (fun n => RtoC (INR n - INR two_S / 2))).
Proof.
  intros two_S d v. subst d v. assert (Q1 := PM_comm (two_S := two_S)). assert (Q2 := ZP_comm (two_S := two_S)). assert (Q3 := ZM_comm (two_S := two_S)).
  split; [|split; [|split; [|split; [|split]]]].
  - now apply ladder_xy.
  - now apply ladder_yz.
  - now apply ladder_zx.
  - intros i j Hi Hj. unfold madd at 1 2. unfold spin_vector. rewrite ladder_sq. unfold mscale, meye. rewrite (PM_entry Hi Hj), (MP_entry Hi Hj).
    rewrite Sz_diag, mmul_diag_l by assumption. unfold mdiag. destruct (i =? j); [|unfold half; apply C_eq; cbn; ring].
    unfold half. rewrite <- RtoC_add, <- !RtoC_mul, <- RtoC_add. transitivity (RtoC (INR two_S / 2 * (INR two_S / 2 + 1))); [f_equal; field|]. apply C_eq; cbn; ring.
  - intros axis. apply ladder_herm. rewrite Sz_diag. apply diag_herm. intros n. apply RtoC_conj.
  - intros i j Hi Hj. unfold spin_vector, spin_vector_from_Sp. rewrite Sz_diag. unfold mdiag. destruct (i =? j); [|reflexivity]. f_equal. ring.
Qed.
(** the operators "Sp", "Sm" of the site are the ladder operators: S_+ |m> = sqrt(S(S+1) - m(m+1)) |m+1> *)
Theorem C65_spin_ladder : forall two_S i j, i < two_S + 1 -> j < two_S + 1 ->
  spin_op_Sp (spin_vector two_S) i j = (if i =? j + 1 then RtoC (sqrt (INR (j + 1) * (INR two_S - INR j))) else C0) /\
  spin_op_Sm (spin_vector two_S) i j = Cconj (spin_op_Sp (spin_vector two_S) j i) /\
  (spin_op_Sp (spin_vector two_S) i j <> C0 -> nth i (spin_leg_basis SpinU1 two_S) 0%Z = (nth j (spin_leg_basis SpinU1 two_S) 0 + 2)%Z).
Proof.
  intros two_S i j Hi Hj. unfold spin_vector. rewrite !ladder_Sp, ladder_Sm. split; [|split].
  - rewrite Sp_entry by assumption. destruct (i =? j + 1); [|reflexivity]. unfold coeff. do 2 f_equal. rewrite plus_INR. change (INR 1) with 1%R. field.
  - reflexivity.
  - rewrite Sp_entry by assumption. destruct (Nat.eqb_spec i (j + 1)) as [E|]; [|congruence]. intros _.
    destruct (C65_spin_site (Z.of_nat two_S) SpinU1) as [_ H]. destruct (H ltac:(lia)) as [s [E1 [E2 [E3 [E4 E5]]]]]. unfold spin_prepare in E1.
    destruct (Z.ltb_spec (Z.of_nat two_S) 0); [lia|]. rewrite Nat2Z.id in *. injection E1 as <-. cbn [ss_basis ss_dim] in *.
    destruct (E5 i Hi) as [A _]. destruct (E5 j Hj) as [B _]. cbn [spin_leg_basis] in *. rewrite A, B. subst i. lia.
Qed.

(** ** bosonic sites, for every list of maximal occupations *)
(** the states are the lists of occupation numbers: no two states have the same, and each list occurs *)
Theorem C65_states_distinct : forall Nmax s t, s < sdim Nmax -> t < sdim Nmax -> occs Nmax s = occs Nmax t -> s = t.
Proof.
  intros l s t Hs Ht E. apply (@occ_inj l); try assumption. intros k Hk. unfold occs in E.
  assert (Q : nth k (map (occ l s) (seq 0 (length l))) 0 = nth k (map (occ l t) (seq 0 (length l))) 0) by now rewrite E.
  rewrite !nth_map_lt with (d := 0) in Q by (rewrite seq_length; lia). now rewrite seq_nth in Q.
Qed.
Theorem C65_states_complete : forall Nmax x, length x = length Nmax -> (forall k, k < length Nmax -> nth k x 0 <= nth k Nmax 0) -> exists s, s < sdim Nmax /\ occs Nmax s = x.
Proof.
  intros l x Hx H. destruct (@occ_surj l x Hx) as [s [Hs E]]; [intros k Hk; specialize (H k Hk); lia|]. exists s. split; [assumption|].
  apply list_eq_nth with (d := 0).
  - unfold occs. now rewrite map_length, seq_length.
  - unfold occs. intros k Hk. rewrite map_length, seq_length in Hk. rewrite nth_map_lt with (d := 0) by now rewrite seq_length. rewrite seq_nth by assumption. now apply E.
Qed.
(** the labels "(n_0, n_1, ...)" name the state with these occupations, and the basis passed to the leg has the matching charges *)
Theorem C65_boson_states : forall Nmax,
  os_dim (boson_site Nmax) = sdim Nmax /\
  boson_labels Nmax = map (fun s => (occs Nmax s, s)) (seq 0 (sdim Nmax)) /\
  boson_leg_basis BosonN Nmax = Some (map (fun s => [Z.of_nat (occ_total Nmax s)]) (seq 0 (sdim Nmax))) /\
  boson_leg_basis BosonParity Nmax = Some (map (fun s => [(Z.of_nat (occ_total Nmax s) mod 2)%Z]) (seq 0 (sdim Nmax))) /\
  boson_leg_basis BosonNone Nmax = Some (map (fun _ => [0%Z]) (seq 0 (sdim Nmax))).
Proof.
  intros l. split; [apply boson_dim|]. split; [apply boson_labels_eq|]. unfold boson_leg_basis. rewrite product_occs, !map_map. split; [reflexivity|]. split; [reflexivity|].
  rewrite occ_dim_sdim. f_equal. generalize (sdim l). intros n. assert (G : forall a, repeat [0%Z] n = map (fun _ : nat => [0%Z]) (seq a n)); [|apply G].
  induction n as [|n IH]; intros a; [reflexivity|]. cbn [repeat seq map]. f_equal. apply IH.
Qed.
(** individual conservation laws: the k-th entry of the charge belongs to species k *)
Theorem C65_boson_states_each : forall Nmax cs, length cs = length Nmax -> existsb (fun c => match c with BosonNone => false | _ => true end) cs = true ->
  exists B, boson_leg_basis (BosonEach cs) Nmax = Some B /\ length B = sdim Nmax /\
  forall s k, s < sdim Nmax -> k < length Nmax ->
    nth k (nth s B []) 0%Z = match nth k cs BosonNone with BosonNone => 0%Z | BosonParity => (Z.of_nat (occ Nmax s k) mod 2)%Z | _ => Z.of_nat (occ Nmax s k) end.
Proof.
  intros l cs Hl Ex. unfold boson_leg_basis. rewrite Hl, Nat.eqb_refl. cbn [negb].
  destruct (forallb _ cs) eqn:F.
  { exfalso. apply existsb_exists in Ex. destruct Ex as [c [Ic Hc]]. rewrite forallb_forall in F. specialize (F c Ic). destruct c; congruence. }
  eexists. split; [reflexivity|]. rewrite product_occs, map_map. split; [now rewrite map_length, seq_length|]. intros s k Hs Hk.
  rewrite nth_map_lt with (d := 0) by now rewrite seq_length. rewrite seq_nth by assumption. cbn [Nat.add].
  assert (LO : length (occs l s) = length l) by (unfold occs; now rewrite map_length, seq_length).
  rewrite nth_map_lt with (d := (BosonNone, 0)) by (rewrite combine_length, LO; lia). rewrite combine_nth by (rewrite LO; assumption). cbn [fst snd].
  unfold occs. rewrite nth_map_lt with (d := 0) by now rewrite seq_length. rewrite seq_nth by assumption. cbn [Nat.add]. reflexivity.
Qed.
(** a_k removes one particle of species k with amplitude sqrt(n_k), and the creator is its adjoint *)
Theorem C65_boson_annihilator : forall Nmax k s t, k < length Nmax -> s < sdim Nmax -> t < sdim Nmax ->
  os_annihilators (boson_site Nmax) k s t = (if removes Nmax k s t then RtoC (sqrt (INR (occ Nmax t k))) else C0) /\
  os_creators (boson_site Nmax) k s t = Cconj (os_annihilators (boson_site Nmax) k t s).
Proof.
  intros l k s t Hk Hs Ht. cbn [boson_site os_annihilators os_creators]. split; [now apply annihilator_entry|]. apply creator_conjT; try assumption. destruct l; [cbn in Hk; lia|congruence].
Qed.
(** it lowers the total charge, and only the charge of species k *)
Theorem C65_boson_charges : forall Nmax k s t, k < length Nmax -> s < sdim Nmax -> t < sdim Nmax -> os_annihilators (boson_site Nmax) k s t <> C0 ->
  occ_total Nmax t = occ_total Nmax s + 1 /\ forall j, j < length Nmax -> occ Nmax t j = occ Nmax s j + (if j =? k then 1 else 0).
Proof.
  intros l k s t Hk Hs Ht H. cbn [boson_site os_annihilators] in H. rewrite annihilator_entry in H by assumption. destruct (removes l k s t) eqn:E; [|congruence].
  split; [now apply removes_total with (k := k)|]. intros j Hj. now apply removes_species.
Qed.
(** number operators, total number, any selection of species, squares, parities and deviations from a filling are the diagonal operators of the occupations *)
Theorem C65_boson_number : forall Nmax, Nmax <> [] -> let site := boson_site Nmax in let d := sdim Nmax in
  (forall k, k < length Nmax -> meq d (number_operator site k) (mdiag (fun s => RtoC (INR (occ Nmax s k))))) /\
  meq d (n_tot site) (mdiag (fun s => RtoC (INR (occ_total Nmax s)))) /\
  (forall sp, (forall k, In k sp -> k < length Nmax) -> meq d (get_occupation site (Some sp)) (mdiag (fun s => RtoC (INR (natsum (map (occ Nmax s) sp)))))) /\
  meq d (get_occupation site None) (n_tot site) /\
  (forall k, k < length Nmax -> meq d (op_square site (number_operator site k)) (mdiag (fun s => RtoC (INR (occ Nmax s k) * INR (occ Nmax s k))))) /\
  (forall k, k < length Nmax -> meq d (op_parity (number_operator site k)) (mdiag (fun s => msign (occ Nmax s k)))) /\
  meq d (op_square site (n_tot site)) (mdiag (fun s => RtoC (INR (occ_total Nmax s) * INR (occ_total Nmax s)))) /\
  meq d (op_parity (n_tot site)) (mdiag (fun s => msign (occ_total Nmax s))) /\
  (forall f, meq d (op_dN site f) (mdiag (fun s => RtoC (INR (occ_total Nmax s) - f)))) /\
  (forall f, meq d (op_dNdN site f) (mmul d (op_dN site f) (op_dN site f))).
Proof.
  intros l Hl site d. assert (NE : forall k, k < length l -> meq d (number_operator site k) (mdiag (fun s => RtoC (INR (occ l s k))))) by (intros k Hk s t Hs Ht; now apply number_entry).
  assert (NT : meq d (n_tot site) (mdiag (fun s => RtoC (INR (occ_total l s))))) by (intros s t Hs Ht; now apply n_tot_entry).
  assert (DN : forall f, meq d (op_dN site f) (mdiag (fun s => RtoC (INR (occ_total l s) - f)))).
  { intros f i j Hi Hj. unfold op_dN, mdiag. destruct (i =? j); [|reflexivity]. rewrite NT by assumption. unfold mdiag. rewrite Nat.eqb_refl. unfold Csub. rewrite <- RtoC_opp, <- RtoC_add. reflexivity. }
  split; [exact NE|]. split; [exact NT|]. split; [|split; [|split; [|split; [|split; [|split; [|split]]]]]].
  - intros sp Hsp s t Hs Ht. now apply occupation_entry.
  - intros s t Hs Ht. reflexivity.
  - intros k Hk s t Hs Ht. unfold op_square, site. rewrite boson_dim. now apply square_diag with (f := fun s => INR (occ l s k)); [| |apply NE].
  - intros k Hk. apply parity_diag. now apply NE.
  - intros s t Hs Ht. unfold op_square, site. rewrite boson_dim. now apply square_diag with (f := fun s => INR (occ_total l s)).
  - now apply parity_diag.
  - exact DN.
  - intros f s t Hs Ht. rewrite (square_diag Hs Ht (DN f)). unfold op_dNdN, mdiag. destruct (s =? t); [|reflexivity]. rewrite NT by assumption. unfold mdiag. rewrite Nat.eqb_refl.
    unfold Csub. rewrite <- RtoC_opp, <- RtoC_add, <- RtoC_mul. reflexivity.
Qed.
(** canonical commutation relations, except at the maximal occupation *)
Theorem C65_boson_commutators : forall Nmax i j, i < length Nmax -> j < length Nmax -> let site := boson_site Nmax in let d := sdim Nmax in
  meq d (comm d (os_annihilators site i) (os_annihilators site j)) mzero /\
  meq d (comm d (os_creators site i) (os_creators site j)) mzero /\
  meq d (comm d (os_annihilators site i) (os_creators site j))
        (if i =? j then mdiag (fun s => if occ Nmax s i <? nth i Nmax 0 then C1 else Copp (RtoC (INR (nth i Nmax 0)))) else mzero).
Proof.
  intros l i j Hi Hj site d. assert (Hl : l <> []) by (destruct l; [cbn in Hi; lia|congruence]). split; [|split].
  - now apply AA_comm.
  - now apply CC_comm.
  - now apply AC_comm.
Qed.
(** selecting a species: python indices, or no index for a single species *)
Theorem C65_species_index : forall site k,
  get_species_idx site (Some k) = (if ((- Z.of_nat (os_species site) <=? k) && (k <? Z.of_nat (os_species site)))%Z then Some (Z.to_nat (k mod Z.of_nat (os_species site))) else None) /\
  (forall i, get_species_idx site (Some k) = Some i -> i < os_species site) /\
  (get_species_idx site None <> None <-> os_species site <= 1).
Proof.
  intros site k. assert (A : get_species_idx site (Some k) = (if ((- Z.of_nat (os_species site) <=? k) && (k <? Z.of_nat (os_species site)))%Z then Some (Z.to_nat (k mod Z.of_nat (os_species site))) else None)).
  { unfold get_species_idx. destruct (Z.leb_spec (- Z.of_nat (os_species site)) k); destruct (Z.ltb_spec k (Z.of_nat (os_species site))); cbn [andb]; try reflexivity. do 2 f_equal.
    destruct (Z.ltb_spec k 0); [|symmetry; apply Z.mod_small; lia]. rewrite <- (Z.mod_add k 1) by lia. rewrite Z.mod_small; lia. }
  split; [exact A|]. split.
  - intros i. rewrite A. destruct (Z.leb_spec (- Z.of_nat (os_species site)) k); destruct (Z.ltb_spec k (Z.of_nat (os_species site))); cbn [andb]; try discriminate. intros [= <-].
    assert (B := Z.mod_pos_bound k (Z.of_nat (os_species site)) ltac:(lia)). lia.
  - unfold get_species_idx. destruct (Nat.ltb_spec 1 (os_species site)); split; intros; try lia; congruence.
Qed.

(** ** fermionic sites, for every number of species *)
Theorem C65_fermion_states : forall n, let ones := repeat 1 n in
  os_dim (fermion_site n) = sdim ones /\
  fermion_labels n = map (fun s => (occs ones s, s)) (seq 0 (2 ^ n)) /\
  fermion_leg_basis FermionParity n = map (fun s => [(Z.of_nat (occ_total ones s) mod 2)%Z]) (seq 0 (2 ^ n)) /\
  fermion_leg_basis FermionN n = map (fun s => [Z.of_nat (occ_total ones s); (Z.of_nat (occ_total ones s) mod 2)%Z]) (seq 0 (2 ^ n)) /\
  forall cs, length cs = n -> existsb (fun c => match c with BosonNone => false | _ => true end) cs = true ->
    fermion_leg_basis (FermionEach cs) n =
      map (fun s => map (fun k => match nth k cs BosonNone with BosonNone => 0%Z | _ => Z.of_nat (occ ones s k) end) (seq 0 n) ++ [(Z.of_nat (occ_total ones s) mod 2)%Z]) (seq 0 (2 ^ n)).
Proof.
  intros n ones. split; [cbn [fermion_site os_dim]; symmetry; apply sdim_rep|]. split; [apply fermion_labels_eq|]. unfold fermion_leg_basis. cbv zeta.
  rewrite ranges_rep, product_occs, sdim_rep, !map_map. split; [reflexivity|]. split; [reflexivity|]. intros cs Hc Ex.
  destruct (forallb _ cs) eqn:F.
  { exfalso. apply existsb_exists in Ex. destruct Ex as [c [Ic Hx]]. rewrite forallb_forall in F. specialize (F c Ic). destruct c; congruence. }
  rewrite map_map. apply map_ext. intros s. f_equal. unfold occs. rewrite repeat_length. clear F Ex. subst n.
  apply list_eq_nth with (d := 0%Z).
  - rewrite map_length, combine_length, !map_length, seq_length. lia.
  - intros k Hk. rewrite map_length, combine_length, map_length, seq_length in Hk. rewrite nth_map_lt with (d := (BosonNone, 0)) by (rewrite combine_length, map_length, seq_length; lia).
    rewrite combine_nth by (now rewrite map_length, seq_length). cbn [fst snd]. rewrite nth_map_lt with (d := 0) by (rewrite seq_length; lia).
    rewrite nth_map_lt with (d := 0) by (rewrite seq_length; lia). rewrite seq_nth by lia. reflexivity.
Qed.
(** canonical anticommutation relations of the operators with the Jordan-Wigner strings *)
Theorem C65_fermion_anticommutators : forall n i j, i < n -> j < n -> let c k := get_annihilator (fermion_site n) k true in let cd k := get_creator (fermion_site n) k true in
  meq (2 ^ n) (anticomm (2 ^ n) (c i) (c j)) mzero /\
  meq (2 ^ n) (anticomm (2 ^ n) (cd i) (cd j)) mzero /\
  meq (2 ^ n) (anticomm (2 ^ n) (c i) (cd j)) (if i =? j then meye else mzero) /\
  meq (2 ^ n) (cd i) (mconjT (c i)) /\
  meq (2 ^ n) (mmul (2 ^ n) (cd i) (c i)) (number_operator (fermion_site n) i).
Proof.
  intros n i j Hi Hj c cd. assert (P : 0 < n) by lia. split; [|split; [|split; [|split]]].
  - now apply car_cc.
  - now apply car_dd.
  - now apply car_cd.
  - now apply cd_conjT.
  - now apply cd_c.
Qed.
(** without the strings the species commute; the number operators count the particles; JW is the total parity and anticommutes with every c_k *)
Theorem C65_fermion_number : forall n, 0 < n -> let site := fermion_site n in let d := 2 ^ n in let ones := repeat 1 n in
  (forall k, k < n -> meq d (number_operator site k) (mdiag (fun s => RtoC (INR (occ ones s k))))) /\
  meq d (n_tot site) (mdiag (fun s => RtoC (INR (occ_total ones s)))) /\
  meq d (JW site) (mdiag (fun s => msign (occ_total ones s))) /\
  (forall k, k < n -> meq d (anticomm d (JW site) (get_annihilator site k true)) mzero) /\
  (forall k, k < n -> meq d (get_annihilator site k true) (fun s t => if removes ones k s t then msign (occ_before ones t k) else C0)) /\
  (forall i j, i < n -> j < n -> i <> j -> meq d (comm d (get_annihilator site i false) (get_annihilator site j false)) mzero).
Proof.
  intros n P site d ones. split; [|split; [|split; [|split; [|split]]]].
  - intros k Hk s t Hs Ht. now apply f_number.
  - intros s t Hs Ht. now apply f_ntot.
  - intros s t Hs Ht. now apply JW_entry.
  - intros k Hk. now apply JW_anti.
  - intros k Hk s t Hs Ht. unfold get_annihilator. change (os_dim site) with d.
    rewrite (@mmul_ext d _ _ (os_annihilators site k) (mdiag (fun u => msign (occ_before ones u k)))); try assumption; [|apply meq_refl|intros u v Hu Hv; now apply partial_JW_entry].
    rewrite mmul_diag_r by assumption. change (os_annihilators site k) with (annihilator ones k). rewrite annihilator_entry; unfold ones; rewrite ?repeat_length, ?sdim_rep; try assumption.
    destruct (removes (repeat 1 n) k s t) eqn:E; [|apply C_eq; cbn; ring]. assert (L : k < length (repeat 1 n)) by (now rewrite repeat_length). assert (Q := removes_species (j := k) L E). rewrite Nat.eqb_refl in Q.
    assert (B := occ_lt (repeat 1 n) t k). rewrite nth_rep in B by assumption. replace (occ (repeat 1 n) t k) with 1 by lia. cbn [INR]. rewrite sqrt_1. apply C_eq; cbn; ring.
  - intros i j Hi Hj Ne. unfold get_annihilator. change (os_annihilators site) with (annihilator ones). unfold d. rewrite <- sdim_rep. apply AA_comm; unfold ones; rewrite ?repeat_length; try assumption. now apply rep_ne.
Qed.
(** spinful fermions (species 0 = up, 1 = down): S_+ = c_up^dagger c_down, S_z = (n_up - n_down) / 2, the spin algebra holds, and the basis has the charges (2 S_z, N, parity) *)
Theorem C65_spinful_fermion :
  meq 4 (spin_op_Sp shf_vector) (mmul 4 (get_creator (fermion_site 2) 0 true) (get_annihilator (fermion_site 2) 1 true)) /\
  meq 4 (shf_vector 2) (mscale (RtoC (1/2)) (msub (number_operator (fermion_site 2) 0) (number_operator (fermion_site 2) 1))) /\
  meq 4 (comm 4 (shf_vector 0) (shf_vector 1)) (mscale Ci (shf_vector 2)) /\
  meq 4 (comm 4 (shf_vector 1) (shf_vector 2)) (mscale Ci (shf_vector 0)) /\
  meq 4 (comm 4 (shf_vector 2) (shf_vector 0)) (mscale Ci (shf_vector 1)) /\
  (forall axis, hermitian 4 (shf_vector axis)) /\
  shf_leg_basis = map (fun s => [(Z.of_nat (occ [1; 1]%nat s 0) - Z.of_nat (occ [1; 1]%nat s 1))%Z; Z.of_nat (occ_total [1; 1]%nat s); (Z.of_nat (occ_total [1; 1]%nat s) mod 2)%Z]) (seq 0 4).
Proof.
  split; [|split; [|split; [|split; [|split; [|split]]]]].
  - intros i j Hi Hj. unfold shf_vector. rewrite ladder_Sp. now apply shf_Sp_ops.
  - intros i j Hi Hj. unfold shf_vector, spin_vector_from_Sp. now apply shf_Sz_ops.
  - apply ladder_xy. exact shf_1.
  - apply ladder_yz; [exact shf_2|exact shf_3].
  - apply ladder_zx; [exact shf_2|exact shf_3].
  - intros axis. apply ladder_herm. apply diag_herm. intros n. apply RtoC_conj.
  - reflexivity.
Qed.

(** ** clock sites, for every q *)
Theorem C65_clock : forall q, 0 < q ->
  meq q (mmul q (clock_X q) (clock_Z q)) (mscale (cis (2 * PI / INR q)) (mmul q (clock_Z q) (clock_X q))) /\
  meq q (mpow q (clock_X q) q) meye /\ meq q (mpow q (clock_Z q) q) meye /\
  meq q (mmul q (clock_X q) (mconjT (clock_X q))) meye /\ meq q (mmul q (clock_Z q) (mconjT (clock_Z q))) meye /\
  (forall i j, i < q -> j < q -> clock_X q i j = if j =? (i + 1) mod q then C1 else C0) /\
  clock_leg_basis q = map Z.of_nat (seq 0 q).
Proof.
  intros q Hq. split; [|split; [|split; [|split; [|split; [|split]]]]].
  - now apply XZ_comm.
  - now apply X_q.
  - now apply Z_q.
  - now apply X_unitary.
  - now apply Z_unitary.
  - intros i j Hi Hj. now apply X_entry.
  - unfold clock_leg_basis, arange. rewrite Z.div_1_r. replace (Z.to_nat (Z.of_nat q - 0 + 1 - 1)) with q by lia. apply map_ext. intros n. lia.
Qed.

(** ** state_index: python indices of the states *)
Theorem C65_state_index : forall dim k,
  (forall i, state_index dim k = Some i <-> (- Z.of_nat dim <= k < Z.of_nat dim)%Z /\ Z.of_nat i = (k mod Z.of_nat dim)%Z).
Proof.
  intros dim k i. unfold state_index. destruct (Z.leb_spec (- Z.of_nat dim) k); destruct (Z.ltb_spec k (Z.of_nat dim)); cbn [andb negb].
  - assert (E : (k mod Z.of_nat dim = if (k <? 0)%Z then k + Z.of_nat dim else k)%Z).
    { destruct (Z.ltb_spec k 0); [|apply Z.mod_small; lia]. rewrite <- (Z.mod_add k 1) by lia. rewrite Z.mod_small; lia. }
    rewrite E. destruct (Z.ltb_spec k 0); split.
    + intros [= <-]. lia.
    + intros [_ Q]. f_equal. lia.
    + intros [= <-]. lia.
    + intros [_ Q]. f_equal. lia.
  - split; [discriminate|]. intros [? _]. lia.
  - split; [discriminate|]. intros [? _]. lia.
  - split; [discriminate|]. intros [? _]. lia.
Qed.

(** concrete cases *)
Example C65_ex_boson : occs [2; 1] 5 = [2; 1] /\ occs [2; 1] 2 = [1; 0] /\ sdim [2; 1] = 6 /\ removes [2; 1] 0 2 4 = true /\ removes [2; 1] 0 4 2 = false /\
  boson_leg_basis BosonN [2; 1] = Some [[0]; [1]; [1]; [2]; [2]; [3]]%Z.
Proof. repeat split. Qed.
Example C65_ex_fermion : fermion_labels 2 = [([0; 0], 0); ([0; 1], 1); ([1; 0], 2); ([1; 1], 3)] /\ fermion_leg_basis FermionN 2 = [[0; 0]; [1; 1]; [1; 1]; [2; 0]]%Z.
Proof. split; reflexivity. Qed.
Example C65_ex_spin : spin_leg_basis SpinU1 2 = [-2; 0; 2]%Z /\ spin_leg_basis SpinParity 2 = [0; 1; 0]%Z /\ spin_labels 1 = [((-1)%Z, 0); (1%Z, 1)].
Proof. repeat split. Qed.
Example C65_ex_index : state_index 3 (-1) = Some 2 /\ state_index 3 3 = None /\ get_species_idx (boson_site [2; 1]) None = None.
Proof. repeat split. Qed.

Print Assumptions C65_spin_site.
Print Assumptions C65_spin_algebra.
Print Assumptions C65_spin_ladder.
Print Assumptions C65_states_distinct.
Print Assumptions C65_states_complete.
Print Assumptions C65_boson_states.
Print Assumptions C65_boson_states_each.
Print Assumptions C65_boson_annihilator.
Print Assumptions C65_boson_charges.
Print Assumptions C65_boson_number.
Print Assumptions C65_boson_commutators.
Print Assumptions C65_species_index.
Print Assumptions C65_fermion_states.
Print Assumptions C65_fermion_anticommutators.
Print Assumptions C65_fermion_number.
Print Assumptions C65_spinful_fermion.
Print Assumptions C65_clock.
Print Assumptions C65_state_index.
