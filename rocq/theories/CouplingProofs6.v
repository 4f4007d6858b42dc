(** onsite pairing; conservation laws of hopping and pairing *)
From Coq Require Import Reals ZArith List Arith Lia Bool Lra.
From Verif Require Import Util Cplx Hilbert SiteModel SiteSpec SiteProofs1 SiteProofs2 SiteProofs3 SiteProofs4 SiteProofs5 CouplingModel CouplingSpec CouplingProofs1 CouplingProofs2 CouplingProofs3 CouplingProofs4 CouplingProofs5.
Import ListNotations.
Set Implicit Arguments. Unset Strict Implicit.
Open Scope nat_scope.
Add Ring CRc6 : C_ring.

Section Onsite.
  Variables (f : bool) (s : occ_site) (Delta : R).
  Notation d := (os_dim s).
  Notation n := (os_species s).
  Lemma onsite_loop_op : forall S1 S2 (h : mat), (forall k, In k S1 -> valid_species n k) -> (forall k, In k S2 -> valid_species n k) -> length S1 <= length S2 ->
    exists h', onsite_pairing_loop f s Delta S1 S2 h = Some h' /\ forall i j, h' i j = Cadd (h i j) (Cmul (RtoC Delta) (zip_sum n (fun k1 k2 => mmul d (op_cre f s k1) (op_cre f s k2)) S1 S2 i j)).
  Proof.
    induction S1 as [|k1 S1 IH]; intros S2 h V1 V2 Le.
    - exists h. split; [reflexivity|]. intros i j. unfold zip_sum. cbn [combine map opsum fold_right]. unfold mzero. ring.
    - destruct S2 as [|k2 S2]; [cbn in Le; lia|]. cbn [onsite_pairing_loop].
      assert (W1 : valid_species n k1) by (apply V1; now left). assert (W2 : valid_species n k2) by (apply V2; now left). rewrite (creator_numpy_eq f W1), (creator_numpy_eq f W2).
      destruct (IH S2 (madd h (mscale (RtoC Delta) (mmul d (op_cre f s (species_no n k1)) (op_cre f s (species_no n k2)))))) as [h' [E H]].
      + intros k Hk. apply V1. now right.
      + intros k Hk. apply V2. now right.
      + cbn in Le. lia.
      + exists h'. split; [exact E|]. intros i j. rewrite H, zip_cons. unfold madd, mscale. ring.
  Qed.
  Lemma onsite_op sp1 sp2 :
    (forall k, In k (species_list s sp1) -> valid_species n k) -> (forall k, In k (species_list s sp2) -> valid_species n k) -> length (species_list s sp1) <= length (species_list s sp2) ->
    exists h, onsite_pairing f s Delta (sp1, sp2) = Some h /\ forall i j, as_operator1 h i j = plus_hc (mscale (RtoC Delta) (zip_sum n (fun k1 k2 => mmul d (op_cre f s k1) (op_cre f s k2)) (species_list s sp1) (species_list s sp2))) i j.
  Proof.
    unfold onsite_pairing. cbn [fst snd]. generalize (species_list s sp1) (species_list s sp2). intros S1 S2 V1 V2 Le.
    destruct (@onsite_loop_op S1 S2 mzero V1 V2 Le) as [h [E H]]. rewrite E. eexists. split; [reflexivity|]. intros i j. unfold as_operator1, arr2. cbn [nth]. unfold plus_hc, madd, mconjT, mscale. rewrite !H.
    unfold mzero. rewrite Cconj_add. apply C_eq; cbn; ring.
  Qed.
End Onsite.
(** nonzero entries *)
Lemma Cadd_nz a b : Cadd a b <> C0 -> a <> C0 \/ b <> C0.
Proof. intros H. destruct (C_eq_dec a C0) as [ -> |]; [|now left]. right. intros ->. apply H. ring. Qed.
Lemma msum_nz m f : msum m f <> C0 -> exists i, i < m /\ f i <> C0.
Proof.
  induction m as [|m IH]; intros H; [exfalso; now apply H|]. rewrite msum_Sr in H. apply Cadd_nz in H. destruct H as [H|H]; [|exists m; split; [lia|assumption]].
  destruct (IH H) as [i [Hi Hf]]. exists i. split; [lia|assumption].
Qed.
Lemma zip_nz d n F S1 S2 r c : (forall k, In k S1 -> valid_species n k) -> (forall k, In k S2 -> valid_species n k) ->
  zip_sum n F S1 S2 r c <> C0 -> r < d -> c < d -> exists i j, i < n /\ j < n /\ F i j r c <> C0.
Proof.
  revert S2. induction S1 as [|a S1 IH]; intros S2 V1 V2 H Hr Hc; [exfalso; now apply H|]. destruct S2 as [|b S2]; [exfalso; now apply H|]. rewrite zip_cons in H. unfold madd in H. apply Cadd_nz in H.
  assert (A := V1 a (or_introl eq_refl)). assert (B := V2 b (or_introl eq_refl)). unfold valid_species in *. destruct H as [H|H].
  - exists (species_no n a), (species_no n b). unfold species_no in *. assert (Q1 := Z.mod_pos_bound a (Z.of_nat n) ltac:(lia)). assert (Q2 := Z.mod_pos_bound b (Z.of_nat n) ltac:(lia)). split; [lia|]. split; [lia|]. exact H.
  - apply (IH S2); try assumption; intros k Hk; [apply V1|apply V2]; now right.
Qed.
Lemma conj_nz a : Cconj a <> C0 -> a <> C0. Proof. intros H ->. apply H. apply C_eq; cbn; ring. Qed.
Lemma plus_hc_nz A r c : plus_hc A r c <> C0 -> A r c <> C0 \/ A c r <> C0.
Proof. intros H. unfold plus_hc, madd, mconjT in H. apply Cadd_nz in H. destruct H as [H|H]; [now left|right; now apply conj_nz]. Qed.
Section Counting.
  Variable l : list nat.
  Hypothesis L : l <> [].
  Notation D := (sdim l).
  Lemma ann_counts k s t : k < length l -> s < D -> t < D -> annihilator l k s t <> C0 -> occ_total l t = occ_total l s + 1.
  Proof. intros Hk Hs Ht H. rewrite annihilator_entry in H by assumption. destruct (removes l k s t) eqn:E; [|congruence]. now apply removes_total with (k := k). Qed.
  Lemma cre_counts k s t : k < length l -> s < D -> t < D -> creator l k s t <> C0 -> occ_total l s = occ_total l t + 1.
  Proof. intros Hk Hs Ht H. rewrite creator_conjT in H by assumption. apply conj_nz in H. now apply ann_counts with (k := k). Qed.
End Counting.
Section CountingF.
  Variable n : nat.
  Hypothesis P : 0 < n.
  Notation l := (repeat 1 n).
  Notation D := (2 ^ n).
  Lemma f_with_nz (A : mat) k s t : k < n -> s < D -> t < D -> mmul D A (partial_JW (fermion_site n) k) s t <> C0 -> A s t <> C0.
  Proof.
    intros Hk Hs Ht H. rewrite (@mmul_ext D _ _ A (mdiag (fun u => msign (occ_before l u k)))) in H; try assumption; [|apply meq_refl|intros u v Hu Hv; now apply partial_JW_entry].
    rewrite mmul_diag_r in H by assumption. now apply Cmul_nz in H.
  Qed.
  Lemma f_ann_counts k s t : k < n -> s < D -> t < D -> get_annihilator (fermion_site n) k true s t <> C0 -> occ_total l t = occ_total l s + 1.
  Proof. intros Hk Hs Ht H. apply f_with_nz in H; try assumption. apply ann_counts with (k := k); rewrite ?repeat_length, ?sdim_rep; assumption. Qed.
  Lemma f_cre_counts k s t : k < n -> s < D -> t < D -> get_creator (fermion_site n) k true s t <> C0 -> occ_total l s = occ_total l t + 1.
  Proof. intros Hk Hs Ht H. apply f_with_nz in H; try assumption. apply cre_counts with (k := k); rewrite ?repeat_length, ?sdim_rep; try assumption. now apply rep_ne. Qed.
End CountingF.
(** a product of a creator with a creator or an annihilator *)
Lemma product_counts (T : nat -> nat) D A B (a b : nat) r c : r < D -> c < D -> (forall s t, s < D -> t < D -> A s t <> C0 -> T s = T t + 1) ->
  (forall s t, s < D -> t < D -> B s t <> C0 -> T s + a = T t + b) -> mmul D A B r c <> C0 -> T r + a = T c + b + 1.
Proof.
  intros Hr Hc HA HB H. unfold mmul in H. apply msum_nz in H. destruct H as [u [Hu H]]. apply Cmul_nz in H. destruct H as [H1 H2]. specialize (HA _ _ Hr Hu H1). specialize (HB _ _ Hu Hc H2). lia.
Qed.
(** all species *)
Lemma all_valid n k : In k (map Z.of_nat (seq 0 n)) -> valid_species n k.
Proof. intros H. apply in_map_iff in H. destruct H as [i [ <- Hi]]. apply in_seq in Hi. unfold valid_species. lia. Qed.
Lemma species_no_nat n i : i < n -> species_no n (Z.of_nat i) = i.
Proof. intros H. unfold species_no. rewrite Z.mod_small by lia. apply Nat2Z.id. Qed.
Lemma combine_self A (l : list A) : combine l l = map (fun x => (x, x)) l. Proof. induction l as [|x l IH]; [reflexivity|]. cbn. now rewrite IH. Qed.
Lemma opsum_zero d A (l : list A) F : (forall x, In x l -> meq d (F x) mzero) -> meq d (opsum (map F l)) mzero.
Proof. induction l as [|x l IH]; intros H i j Hi Hj; [reflexivity|]. cbn [map opsum fold_right]. unfold madd. rewrite (H x (or_introl eq_refl) i j Hi Hj). fold (opsum (map F l)). rewrite IH; try assumption; [unfold mzero; ring|]. intros y Hy. apply H. now right. Qed.
Lemma RtoC_mul_div3 J : Cmul (RtoC J) (RtoC (1/3)) = RtoC (J / 3).
Proof. rewrite <- RtoC_mul. f_equal. field. Qed.
Lemma double_zero a : Cadd a a = C0 -> a = C0.
Proof. destruct a as [x y]. intros H. injection H as H1 H2. apply C_eq; cbn; lra. Qed.
