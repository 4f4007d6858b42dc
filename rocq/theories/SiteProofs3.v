(** Number operators, commutation relations of bosons and fermions, the labels of the states. *)
From Coq Require Import Reals ZArith List Arith Lia Bool Lra.
From Verif Require Import Util Cplx Hilbert SiteModel SiteSpec SiteProofs1 SiteProofs2.
Import ListNotations.
Set Implicit Arguments. Unset Strict Implicit.
Open Scope nat_scope.

Lemma csums_RtoC A (f : A -> nat) l : csums (map (fun k => RtoC (INR (f k))) l) = RtoC (INR (fold_right Nat.add 0 (map f l))).
Proof. induction l as [|x l IH]; [reflexivity|]. cbn [map csums fold_right]. fold (csums (map (fun k => RtoC (INR (f k))) l)). rewrite IH, plus_INR. now rewrite RtoC_add. Qed.
Lemma csums_zero l : (forall x, In x l -> x = C0) -> csums l = C0.
Proof. induction l as [|x l IH]; intros H; [reflexivity|]. cbn [csums fold_right]. fold (csums l). rewrite (H x) by now left. rewrite IH by (intros y Hy; apply H; now right). ring. Qed.

Section Boson.
  Variable l : list nat.
  Hypothesis L : l <> [].
  Notation D := (sdim l).
  Lemma boson_dim : os_dim (boson_site l) = D. Proof. apply occ_dim_sdim. Qed.
  Lemma number_entry k s t : k < length l -> s < D -> t < D -> number_operator (boson_site l) k s t = mdiag (fun u => RtoC (INR (occ l u k))) s t.
  Proof.
    intros Hk Hs Ht. unfold number_operator. rewrite boson_dim. cbn [boson_site os_creators os_annihilators].
    rewrite (@mmul_ext D _ _ (bigop l (single k (cre (nth k l 0)))) (bigop l (single k (ann (nth k l 0))))); try assumption;
      try (intros i j Hi Hj; (now apply creator_bigop || now apply annihilator_bigop)).
    rewrite single_mul_same. rewrite (bigop_ext (G := single k (mdiag (fun n => RtoC (INR n))))).
    2:{ intros j x y Hj Hx Hy. unfold single. destruct (Nat.eqb_spec j k); [subst j; now apply num_entry|reflexivity]. }
    now apply (@single_diag l k (fun n => RtoC (INR n))).
  Qed.
  Lemma occupation_entry sp s t : (forall k, In k sp -> k < length l) -> s < D -> t < D ->
    get_occupation (boson_site l) (Some sp) s t = mdiag (fun u => RtoC (INR (fold_right Nat.add 0 (map (occ l u) sp)))) s t.
  Proof.
    intros Hk Hs Ht. unfold get_occupation. rewrite (map_ext_in _ (fun k => mdiag (fun u => RtoC (INR (occ l u k))) s t)).
    2:{ intros k Ik. now apply number_entry; [apply Hk| |]. }
    unfold mdiag. destruct (s =? t); [apply csums_RtoC|]. apply csums_zero. intros x Hx. apply in_map_iff in Hx. destruct Hx as [? [ <- _]]. reflexivity.
  Qed.
  Lemma n_tot_entry s t : s < D -> t < D -> n_tot (boson_site l) s t = mdiag (fun u => RtoC (INR (occ_total l u))) s t.
  Proof. intros Hs Ht. apply (@occupation_entry (seq 0 (length l))); try assumption. intros k Hk. apply in_seq in Hk. lia. Qed.

  (** different species commute, whatever the two operators *)
  Lemma AA_comm i j : i < length l -> j < length l -> meq D (comm D (annihilator l i) (annihilator l j)) mzero.
  Proof.
    intros Hi Hj s t Hs Ht. unfold comm. rewrite !(@mmul_ext D (annihilator l _) (annihilator l _) (bigop l (single _ (ann (nth _ l 0)))) (bigop l (single _ (ann (nth _ l 0))))) by
      (try assumption; intros u v Hu Hv; now apply annihilator_bigop).
    destruct (Nat.eq_dec i j) as [ -> |Ne]; [unfold mzero; ring|]. rewrite single_comm by assumption. unfold mzero. ring.
  Qed.
  Lemma CC_comm i j : i < length l -> j < length l -> meq D (comm D (creator l i) (creator l j)) mzero.
  Proof.
    intros Hi Hj s t Hs Ht. unfold comm. rewrite !(@mmul_ext D (creator l _) (creator l _) (bigop l (single _ (cre (nth _ l 0)))) (bigop l (single _ (cre (nth _ l 0))))) by
      (try assumption; intros u v Hu Hv; now apply creator_bigop).
    destruct (Nat.eq_dec i j) as [ -> |Ne]; [unfold mzero; ring|]. rewrite single_comm by assumption. unfold mzero. ring.
  Qed.
  Lemma AC_comm i j : i < length l -> j < length l ->
    meq D (comm D (annihilator l i) (creator l j))
          (if i =? j then mdiag (fun u => if occ l u i <? nth i l 0 then C1 else Copp (RtoC (INR (nth i l 0)))) else mzero).
  Proof.
    intros Hi Hj s t Hs Ht. unfold comm.
    rewrite (@mmul_ext D (annihilator l i) (creator l j) (bigop l (single i (ann (nth i l 0)))) (bigop l (single j (cre (nth j l 0))))) by
      (try assumption; intros u v Hu Hv; (now apply annihilator_bigop || now apply creator_bigop)).
    rewrite (@mmul_ext D (creator l j) (annihilator l i) (bigop l (single j (cre (nth j l 0)))) (bigop l (single i (ann (nth i l 0))))) by
      (try assumption; intros u v Hu Hv; (now apply annihilator_bigop || now apply creator_bigop)).
    destruct (Nat.eqb_spec i j) as [ <- |Ne].
    - rewrite !single_mul_same.
      transitivity (bigop l (single i (mdiag (fun n => if n <? nth i l 0 then C1 else Copp (RtoC (INR (nth i l 0)))))) s t).
      + symmetry. rewrite (@bigop_lin l i C1 (Copp C1) (single i (mmul (nth i l 0 + 1) (ann (nth i l 0)) (cre (nth i l 0)))) (single i (mmul (nth i l 0 + 1) (cre (nth i l 0)) (ann (nth i l 0))))).
        * unfold Csub. ring.
        * assumption.
        * intros k x y _ Nk _ _. unfold single. destruct (Nat.eqb_spec k i); [lia|reflexivity].
        * intros k x y _ Nk _ _. unfold single. destruct (Nat.eqb_spec k i); [lia|reflexivity].
        * unfold single. rewrite Nat.eqb_refl. assert (P := occ_lt l s i). assert (Q := occ_lt l t i). rewrite anti_entry, num_entry by assumption. unfold mdiag.
          destruct (occ l s i =? occ l t i); [|ring]. destruct (Nat.ltb_spec (occ l s i) (nth i l 0)).
          -- rewrite plus_INR, RtoC_add. change (INR 1) with 1%R. change (RtoC 1) with C1. ring.
          -- replace (occ l s i) with (nth i l 0) by lia. ring.
      + now apply (@single_diag l i (fun n => if n <? nth i l 0 then C1 else Copp (RtoC (INR (nth i l 0))))).
    - rewrite single_comm by congruence. unfold mzero. ring.
  Qed.
End Boson.

(** ** np.mod, np.power *)
Lemma Int_part_unique z r : (IZR z <= r < IZR z + 1)%R -> z = Int_part r.
Proof. intros [A B]. unfold Int_part. rewrite <- (tech_up r (z + 1)); [lia| |]; rewrite plus_IZR; lra. Qed.
Lemma Int_part_half n : Int_part (INR n / 2) = Z.of_nat (n / 2).
Proof.
  assert (E := Nat.div_mod n 2 ltac:(lia)). assert (B := Nat.mod_upper_bound n 2 ltac:(lia)).
  assert (X : INR n = (2 * INR (n / 2) + INR (n mod 2))%R) by (rewrite E at 1; rewrite plus_INR, mult_INR; cbn [INR]; ring).
  symmetry. apply Int_part_unique. rewrite <- INR_IZR_INZ. rewrite X.
  assert (B2 : (0 <= INR (n mod 2) <= 1)%R) by (split; [apply pos_INR|]; change 1%R with (INR 1); apply le_INR; lia). lra.
Qed.
Lemma np_mod2_nat n : np_mod2 (RtoC (INR n)) = RtoC (INR (n mod 2)).
Proof.
  unfold np_mod2. cbn [RtoC fst]. rewrite Int_part_half, <- INR_IZR_INZ. f_equal. rewrite (Nat.div_mod n 2) at 1 by lia. rewrite plus_INR, mult_INR. cbn [INR]. ring.
Qed.
Lemma np_power_nat n : np_power_m1 (RtoC (INR n)) = msign n.
Proof. unfold np_power_m1, msign. cbn [RtoC fst]. rewrite Int_part_INR. replace (Z.even (Z.of_nat n)) with (Nat.even n); [reflexivity|].
  destruct (Nat.Even_or_Odd n) as [E|O].
  - rewrite (proj2 (Nat.even_spec n) E). symmetry. apply Z.even_spec. destruct E as [m ->]. exists (Z.of_nat m). lia.
  - assert (X : Nat.even n = false) by (rewrite <- Nat.negb_odd; rewrite (proj2 (Nat.odd_spec n) O); reflexivity). rewrite X. symmetry. rewrite <- Z.negb_odd.
    rewrite (proj2 (Z.odd_spec _)); [reflexivity|]. destruct O as [m ->]. exists (Z.of_nat m). lia.
Qed.
Lemma msign_add a b : msign (a + b) = Cmul (msign a) (msign b).
Proof. unfold msign. rewrite Nat.even_add. destruct (Nat.even a), (Nat.even b); cbn; apply C_eq; cbn; ring. Qed.
Lemma msign_S a : msign (S a) = Copp (msign a).
Proof. unfold msign. rewrite Nat.even_succ, <- Nat.negb_even. destruct (Nat.even a); cbn; [reflexivity|]. apply C_eq; cbn; ring. Qed.
Lemma msign_sq a : Cmul (msign a) (msign a) = C1.
Proof. unfold msign. destruct (Nat.even a); apply C_eq; cbn; ring. Qed.
Lemma msign_conj a : Cconj (msign a) = msign a.
Proof. unfold msign. destruct (Nat.even a); apply C_eq; cbn; ring. Qed.

(** ** fermions *)
Lemma sdim_rep n : sdim (repeat 1 n) = 2 ^ n.
Proof. induction n as [|n IH]; [reflexivity|]. cbn [repeat sdim Nat.pow]. lia. Qed.
Lemma fermion_is_boson n : fermion_site n = boson_site (repeat 1 n).
Proof. unfold fermion_site, boson_site. rewrite occ_dim_sdim, sdim_rep, repeat_length. reflexivity. Qed.
Lemma nth_rep n k : k < n -> nth k (repeat 1 n) 0 = 1.
Proof. revert k. induction n as [|n IH]; intros k Hk; [lia|]. destruct k; [reflexivity|]. cbn [repeat nth]. apply IH. lia. Qed.

Lemma cprod_prefix k m f : k <= m -> cprod k f = cprod m (fun j => if j <? k then f j else C1).
Proof.
  intros H. replace m with (k + (m - k)) by lia. generalize (m - k). clear H m. intros m. induction m as [|m IH].
  - rewrite Nat.add_0_r. apply cprod_ext. intros j Hj. destruct (Nat.ltb_spec j k); [reflexivity|lia].
  - rewrite Nat.add_succ_r, cprod_Sr, <- IH. destruct (Nat.ltb_spec (k + m) k); [lia|]. ring.
Qed.
Section Fermion.
  Variable n : nat.
  Hypothesis P : 0 < n.
  Notation l := (repeat 1 n).
  Notation D := (2 ^ n).
  Lemma rep_ne : l <> []. Proof. destruct n; [lia|discriminate]. Qed.
  Lemma f_number k s t : k < n -> s < D -> t < D -> number_operator (fermion_site n) k s t = mdiag (fun u => RtoC (INR (occ l u k))) s t.
  Proof. intros Hk Hs Ht. rewrite fermion_is_boson. apply number_entry; rewrite ?repeat_length, ?sdim_rep; try assumption. apply rep_ne. Qed.
  Lemma f_ntot s t : s < D -> t < D -> n_tot (fermion_site n) s t = mdiag (fun u => RtoC (INR (occ_total l u))) s t.
  Proof. intros Hs Ht. rewrite fermion_is_boson. apply n_tot_entry; rewrite ?sdim_rep; try assumption. apply rep_ne. Qed.
  Lemma firstn_seq k m : k <= m -> firstn k (seq 0 m) = seq 0 k.
  Proof. intros H. replace m with (k + (m - k)) by lia. rewrite seq_app, firstn_app, seq_length, Nat.sub_diag. cbn [firstn]. rewrite app_nil_r. apply firstn_all2. rewrite seq_length. lia. Qed.
  Lemma n_before_entry s k : s < D -> k < n -> nth k (n_before (fermion_site n) s) C0 = RtoC (INR (occ_before l s k)).
  Proof.
    intros Hs Hk. unfold n_before, cumsum. change (os_species (fermion_site n)) with n.
    set (f := fun k0 => number_operator (fermion_site n) k0 s s).
    assert (E : removelast (map f (seq 0 n)) = map f (seq 0 (n - 1))).
    { replace n with (S (n - 1)) at 1 by lia. rewrite seq_S, map_app. cbn [map]. apply removelast_last. }
    rewrite E. cbn [length]. rewrite map_length, seq_length. replace (S (n - 1)) with n by lia.
    rewrite nth_map_lt with (d := 0) by (rewrite seq_length; lia). rewrite seq_nth by lia. cbn [Nat.add firstn csums fold_right]. rewrite firstn_map, firstn_seq by lia.
    rewrite (map_ext_in _ (fun k0 => RtoC (INR (occ l s k0)))).
    2:{ intros k0 Hk0. apply in_seq in Hk0. unfold f. rewrite (@f_number k0 s s ltac:(lia) Hs Hs). unfold mdiag. now rewrite Nat.eqb_refl. }
    fold (csums (map (fun k0 => RtoC (INR (occ l s k0))) (seq 0 k))). rewrite csums_RtoC. unfold occ_before. ring.
  Qed.
  Definition Zm : mat := mdiag msign.
  Definition jwf (i : nat) (A : mat) : nat -> mat := fun k => if k <? i then Zm else if k =? i then A else meye.
  Lemma sign_before s k : k <= n -> msign (occ_before l s k) = cprod n (fun j => if j <? k then msign (occ l s j) else C1).
  Proof.
    intros Hk. unfold occ_before. transitivity (cprod k (fun j => msign (occ l s j))).
    - clear Hk. induction k as [|k IH]; [reflexivity|]. rewrite seq_S, map_app, fold_right_app. cbn [map fold_right Nat.add]. rewrite cprod_Sr, <- IH.
      assert (G : forall m a, fold_right Nat.add a m = fold_right Nat.add 0 m + a) by (clear; induction m; intros; cbn [fold_right]; [lia|]; rewrite IHm; lia).
      rewrite G, msign_add. now rewrite Nat.add_0_r.
    - now apply cprod_prefix.
  Qed.
  Lemma partial_JW_entry k s t : k < n -> s < D -> t < D -> partial_JW (fermion_site n) k s t = mdiag (fun u => msign (occ_before l u k)) s t.
  Proof.
    intros Hk Hs Ht. unfold partial_JW, mdiag. destruct (s =? t); [|reflexivity]. rewrite n_before_entry by assumption. apply np_power_nat.
  Qed.
  Lemma with_JW A B k s t : k < n -> s < D -> t < D -> (forall s t, s < D -> t < D -> A s t = bigop l (single k B) s t) ->
    mmul D A (partial_JW (fermion_site n) k) s t = bigop l (jwf k B) s t.
  Proof.
    intros Hk Hs Ht HA. rewrite (@mmul_ext D _ _ A (mdiag (fun u => msign (occ_before l u k)))); try assumption; [|apply meq_refl|intros u v Hu Hv; now apply partial_JW_entry].
    rewrite mmul_diag_r by assumption. rewrite HA by assumption. rewrite sign_before by lia. unfold bigop. rewrite repeat_length. rewrite <- cprod_mul. apply cprod_ext. intros j Hj.
    unfold single, jwf. destruct (Nat.ltb_spec j k); destruct (Nat.eqb_spec j k); try lia; try ring.
    unfold meye, Zm, mdiag. destruct (Nat.eqb_spec (occ l s j) (occ l t j)) as [ -> |]; ring.
  Qed.
  Lemma get_ann_bigop k s t : k < n -> s < D -> t < D -> get_annihilator (fermion_site n) k true s t = bigop l (jwf k (ann 1)) s t.
  Proof.
    intros Hk Hs Ht. unfold get_annihilator. cbn [os_annihilators os_dim fermion_site]. apply with_JW; try assumption. intros u v Hu Hv.
    rewrite annihilator_bigop; rewrite ?sdim_rep; try assumption; [now rewrite nth_rep|apply rep_ne].
  Qed.
  Lemma get_cre_bigop k s t : k < n -> s < D -> t < D -> get_creator (fermion_site n) k true s t = bigop l (jwf k (cre 1)) s t.
  Proof.
    intros Hk Hs Ht. unfold get_creator. cbn [os_creators os_dim fermion_site]. apply with_JW; try assumption. intros u v Hu Hv.
    rewrite creator_bigop; rewrite ?sdim_rep; try assumption; [now rewrite nth_rep|apply rep_ne].
  Qed.
  (** hopping between the two states of a species *)
  Definition offdiag (A : mat) : Prop := forall x, A x x = C0.
  Lemma ann_off N : offdiag (ann N).
  Proof. intros x. unfold ann, single_ops. cbn [snd]. rewrite single_fold. destruct (Nat.eqb_spec x (x + 1)); [lia|reflexivity]. Qed.
  Lemma cre_off N : offdiag (cre N). Proof. intros x. change (cre N x x) with (ann N x x). apply ann_off. Qed.
  Lemma off_Z A x y : offdiag A -> x < 2 -> y < 2 -> mmul 2 A Zm x y = Cmul (Copp C1) (mmul 2 Zm A x y).
  Proof.
    intros HA Hx Hy. unfold Zm. rewrite mmul_diag_r, mmul_diag_l by assumption. destruct x as [|[|x]], y as [|[|y]]; try lia; rewrite ?HA; unfold msign; cbn [Nat.even]; ring.
  Qed.
  Lemma Z_Z x y : x < 2 -> y < 2 -> mmul 2 Zm Zm x y = meye x y.
  Proof. intros Hx Hy. unfold Zm. rewrite mmul_diag_r by assumption. unfold mdiag, meye. destruct (Nat.eqb_spec x y) as [ -> |]; [apply msign_sq|ring]. Qed.
  Lemma jw_anti_lt i j A B s t : i < j -> j < n -> offdiag A ->
    Cadd (mmul (sdim l) (bigop l (jwf i A)) (bigop l (jwf j B)) s t) (mmul (sdim l) (bigop l (jwf j B)) (bigop l (jwf i A)) s t) = C0.
  Proof.
    intros Hij Hj HA. rewrite !bigop_mul. rewrite (@bigop_one l i (Copp C1) (fun k => mmul (nth k l 0 + 1) (jwf i A k) (jwf j B k)) (fun k => mmul (nth k l 0 + 1) (jwf j B k) (jwf i A k))); [ring|rewrite repeat_length; lia| |].
    - intros k x y Hk Ni Hx Hy. rewrite repeat_length in Hk. unfold jwf. destruct (Nat.ltb_spec k i); destruct (Nat.ltb_spec k j); destruct (Nat.eqb_spec k i); destruct (Nat.eqb_spec k j); try lia;
        rewrite ?mmul_eye_l, ?mmul_eye_r by assumption; reflexivity.
    - assert (X := occ_lt l s i). assert (Y := occ_lt l t i). rewrite nth_rep in * by lia. cbn [Nat.add] in *. unfold jwf. rewrite Nat.ltb_irrefl, Nat.eqb_refl. destruct (Nat.ltb_spec i j); [|lia]. now apply off_Z.
  Qed.
  Lemma jw_anti_ne i j A B s t : i <> j -> i < n -> j < n -> offdiag A -> offdiag B -> anticomm (sdim l) (bigop l (jwf i A)) (bigop l (jwf j B)) s t = C0.
  Proof.
    intros Ne Hi Hj HA HB. unfold anticomm. destruct (Nat.lt_total i j) as [Lt|[Eq|Lt]]; [now apply jw_anti_lt|lia|].
    assert (Q := @jw_anti_lt j i B A s t Lt Hi HB). rewrite <- Q. ring.
  Qed.
  Lemma jw_same i A B M a b s t : i < n -> (forall x y, x < 2 -> y < 2 -> M x y = Cadd (Cmul a (mmul 2 A B x y)) (Cmul b (mmul 2 B A x y))) ->
    Cadd (Cmul a (mmul (sdim l) (bigop l (jwf i A)) (bigop l (jwf i B)) s t)) (Cmul b (mmul (sdim l) (bigop l (jwf i B)) (bigop l (jwf i A)) s t)) = bigop l (single i M) s t.
  Proof.
    intros Hi HM. rewrite !bigop_mul. symmetry. apply bigop_lin with (i := i); [now rewrite repeat_length| | |].
    1, 2: intros k x y Hk Nk Hx Hy; rewrite repeat_length in Hk; rewrite nth_rep in * by lia; cbn [Nat.add] in *; unfold jwf, single;
      destruct (Nat.ltb_spec k i); destruct (Nat.eqb_spec k i); try lia; [now apply Z_Z|now apply mmul_eye_l].
    assert (X := occ_lt l s i). assert (Y := occ_lt l t i). rewrite nth_rep in * by lia. cbn [Nat.add] in *. unfold jwf, single. rewrite Nat.ltb_irrefl, Nat.eqb_refl. now apply HM.
  Qed.
  Lemma ann2 x y : x < 2 -> y < 2 -> ann 1 x y = if (x =? 0) && (y =? 1) then C1 else C0.
  Proof. intros Hx Hy. rewrite ann_entry by lia. destruct x as [|[|x]], y as [|[|y]]; try lia; cbn; try reflexivity. now rewrite sqrt_1. Qed.
  Lemma cre2 x y : x < 2 -> y < 2 -> cre 1 x y = if (x =? 1) && (y =? 0) then C1 else C0.
  Proof. intros Hx Hy. change (cre 1 x y) with (ann 1 y x). rewrite ann2 by assumption. now rewrite andb_comm. Qed.
  Lemma mm2 A B x y : mmul 2 A B x y = Cadd (Cmul (A x 0) (B 0 y)) (Cmul (A x 1) (B 1 y)).
  Proof. unfold mmul. rewrite !msum_S. change (msum 0 _) with C0. ring. Qed.
  Lemma bigop_zero i s t : i < n -> bigop l (single i mzero) s t = C0.
  Proof. intros Hi. apply cprod_zero with (k := i); [now rewrite repeat_length|]. unfold single. now rewrite Nat.eqb_refl. Qed.

  Notation c k := (get_annihilator (fermion_site n) k true).
  Notation cd k := (get_creator (fermion_site n) k true).
  Lemma car_ext (A B A' B' : mat) s t : s < D -> t < D -> meq D A A' -> meq D B B' -> anticomm D A B s t = anticomm (sdim l) A' B' s t.
  Proof. intros Hs Ht EA EB. unfold anticomm. rewrite sdim_rep. f_equal; now apply mmul_ext. Qed.
  Lemma c_eq k : k < n -> meq D (c k) (bigop l (jwf k (ann 1))). Proof. intros Hk s t Hs Ht. now apply get_ann_bigop. Qed.
  Lemma cd_eq k : k < n -> meq D (cd k) (bigop l (jwf k (cre 1))). Proof. intros Hk s t Hs Ht. now apply get_cre_bigop. Qed.
  Lemma anti_same_nil A : (forall x y, x < 2 -> y < 2 -> mmul 2 A A x y = C0) -> forall i s t, i < n -> anticomm (sdim l) (bigop l (jwf i A)) (bigop l (jwf i A)) s t = C0.
  Proof.
    intros HA i s t Hi. rewrite <- (@bigop_zero i s t Hi). rewrite <- (@jw_same i A A mzero C1 C1 s t Hi); [unfold anticomm; ring|]. intros x y Hx Hy. rewrite HA by assumption. unfold mzero. ring.
  Qed.
  Theorem car_cc i j : i < n -> j < n -> meq D (anticomm D (c i) (c j)) mzero.
  Proof.
    intros Hi Hj s t Hs Ht. rewrite (car_ext Hs Ht (c_eq Hi) (c_eq Hj)). destruct (Nat.eq_dec i j) as [ <- |Ne]; [|apply jw_anti_ne; try assumption; apply ann_off].
    apply anti_same_nil; [|assumption]. intros x y Hx Hy. rewrite mm2, !ann2 by lia. destruct x as [|[|x]], y as [|[|y]]; try lia; cbn; ring.
  Qed.
  Theorem car_dd i j : i < n -> j < n -> meq D (anticomm D (cd i) (cd j)) mzero.
  Proof.
    intros Hi Hj s t Hs Ht. rewrite (car_ext Hs Ht (cd_eq Hi) (cd_eq Hj)). destruct (Nat.eq_dec i j) as [ <- |Ne]; [|apply jw_anti_ne; try assumption; apply cre_off].
    apply anti_same_nil; [|assumption]. intros x y Hx Hy. rewrite mm2, !cre2 by lia. destruct x as [|[|x]], y as [|[|y]]; try lia; cbn; ring.
  Qed.
  Theorem car_cd i j : i < n -> j < n -> meq D (anticomm D (c i) (cd j)) (if i =? j then meye else mzero).
  Proof.
    intros Hi Hj s t Hs Ht. rewrite (car_ext Hs Ht (c_eq Hi) (cd_eq Hj)). destruct (Nat.eqb_spec i j) as [ <- |Ne]; [|apply jw_anti_ne; try assumption; [apply ann_off|apply cre_off]].
    transitivity (bigop l (single i meye) s t).
    - rewrite <- (@jw_same i (ann 1) (cre 1) meye C1 C1 s t Hi); [unfold anticomm; ring|]. intros x y Hx Hy. rewrite !mm2, !cre2, !ann2 by lia. destruct x as [|[|x]], y as [|[|y]]; try lia; cbn; ring.
    - rewrite (bigop_ext (G := fun _ => meye)) by (intros k x y _ _ _; unfold single; destruct (k =? i); reflexivity). apply bigop_eye; now rewrite sdim_rep.
  Qed.
  (** creator and annihilator are adjoint; the occupation is c^dagger c *)
  Theorem cd_conjT k : k < n -> meq D (cd k) (mconjT (c k)).
  Proof.
    intros Hk s t Hs Ht. unfold mconjT. rewrite get_cre_bigop, get_ann_bigop by assumption. unfold bigop. rewrite cprod_conj. apply cprod_ext. intros j Hj. unfold jwf.
    destruct (j <? k); [|destruct (j =? k)].
    - unfold Zm, mdiag. rewrite Nat.eqb_sym. destruct (Nat.eqb_spec (occ l t j) (occ l s j)) as [ -> |]; [now rewrite msign_conj|apply C_eq; cbn; ring].
    - change (cre 1 (occ l s j) (occ l t j)) with (ann 1 (occ l t j) (occ l s j)). now rewrite ann_real.
    - unfold meye. rewrite Nat.eqb_sym. destruct (_ =? _); apply C_eq; cbn; ring.
  Qed.
  Theorem cd_c k : k < n -> meq D (mmul D (cd k) (c k)) (number_operator (fermion_site n) k).
  Proof.
    intros Hk s t Hs Ht. rewrite f_number by assumption. rewrite (mmul_ext Hs Ht (cd_eq Hk) (c_eq Hk)). rewrite <- sdim_rep at 1. rewrite bigop_mul.
    rewrite (bigop_ext (G := single k (mdiag (fun x => RtoC (INR x))))).
    - apply (@single_diag l k (fun x => RtoC (INR x))); rewrite ?repeat_length, ?sdim_rep; assumption.
    - intros j x y Hj Hx Hy. rewrite repeat_length in Hj. rewrite nth_rep in * by lia. cbn [Nat.add] in *. unfold jwf, single. destruct (Nat.ltb_spec j k); destruct (Nat.eqb_spec j k); try lia.
      + now apply Z_Z.
      + now apply (@num_entry 1).
      + now apply mmul_eye_l.
  Qed.
  Lemma JW_entry s t : s < D -> t < D -> JW (fermion_site n) s t = mdiag (fun u => msign (occ_total l u)) s t.
  Proof. intros Hs Ht. unfold JW, mdiag. destruct (s =? t); [|reflexivity]. rewrite f_ntot by assumption. unfold mdiag. rewrite Nat.eqb_refl. apply np_power_nat. Qed.
  Lemma JW_bigop s t : s < D -> t < D -> JW (fermion_site n) s t = bigop l (fun _ => Zm) s t.
  Proof.
    intros Hs Ht. rewrite JW_entry by assumption. unfold Zm. rewrite bigop_diag by (now rewrite sdim_rep). unfold mdiag. destruct (s =? t); [|reflexivity].
    unfold occ_total. rewrite repeat_length. rewrite sign_before by lia. apply cprod_ext. intros j Hj. destruct (Nat.ltb_spec j n); [reflexivity|lia].
  Qed.
  Theorem JW_anti k : k < n -> meq D (anticomm D (JW (fermion_site n)) (c k)) mzero.
  Proof.
    intros Hk s t Hs Ht. rewrite (@car_ext _ _ (bigop l (fun _ => Zm)) (bigop l (jwf k (ann 1)))); try assumption; [|intros u v Hu Hv; now apply JW_bigop|now apply c_eq].
    unfold anticomm, mzero. rewrite !bigop_mul. rewrite (@bigop_one l k (Copp C1) (fun j => mmul (nth j l 0 + 1) (jwf k (ann 1) j) Zm) (fun j => mmul (nth j l 0 + 1) Zm (jwf k (ann 1) j))); [ring|now rewrite repeat_length| |].
    - intros j x y Hj Nj Hx Hy. unfold jwf. destruct (Nat.ltb_spec j k); destruct (Nat.eqb_spec j k); try lia; [reflexivity|]. rewrite mmul_eye_l, mmul_eye_r by assumption. reflexivity.
    - assert (X := occ_lt l s k). assert (Y := occ_lt l t k). rewrite nth_rep in * by lia. cbn [Nat.add] in *. unfold jwf. rewrite Nat.ltb_irrefl, Nat.eqb_refl. apply off_Z; try assumption. apply ann_off.
  Qed.
End Fermion.
