(** hopping, pairing, onsite pairing *)
From Coq Require Import Reals ZArith List Arith Lia Bool Lra.
From Verif Require Import Util Cplx Hilbert SiteModel SiteSpec SiteProofs1 SiteProofs2 SiteProofs3 SiteProofs4 SiteProofs5 CouplingModel CouplingSpec CouplingProofs1 CouplingProofs2 CouplingProofs3 CouplingProofs4.
Import ListNotations.
Set Implicit Arguments. Unset Strict Implicit.
Open Scope nat_scope.
Add Ring CRc5 : C_ring.

Lemma species_valid s k : valid_species (os_species s) k -> get_species_idx s (Some k) = Some (species_no (os_species s) k) /\ species_no (os_species s) k < os_species s.
Proof.
  intros H. unfold valid_species in H. assert (Q := Z.mod_pos_bound k (Z.of_nat (os_species s)) ltac:(lia)). split; [|unfold species_no; lia]. unfold get_species_idx, species_no.
  destruct (Z.leb_spec (- Z.of_nat (os_species s)) k); [|lia]. destruct (Z.ltb_spec k (Z.of_nat (os_species s))); [|lia]. cbn [andb]. do 2 f_equal.
  destruct (Z.ltb_spec k 0); [|symmetry; apply Z.mod_small; lia]. rewrite <- (Z.mod_add k 1) by lia. rewrite Z.mod_small; lia.
Qed.
Lemma species_invalid s k : ~ valid_species (os_species s) k -> get_species_idx s (Some k) = None.
Proof. intros H. unfold valid_species in H. unfold get_species_idx. destruct (Z.leb_spec (- Z.of_nat (os_species s)) k); destruct (Z.ltb_spec k (Z.of_nat (os_species s))); cbn [andb]; try reflexivity. lia. Qed.
Definition op_cre (fermionic : bool) (s : occ_site) (i : nat) : mat := if fermionic then get_creator s i true else os_creators s i.
Definition op_ann (fermionic : bool) (s : occ_site) (i : nat) : mat := if fermionic then get_annihilator s i true else os_annihilators s i.
Lemma creator_numpy_eq f s k : valid_species (os_species s) k -> creator_numpy f s k = Some (op_cre f s (species_no (os_species s) k)).
Proof. intros H. unfold creator_numpy. destruct (species_valid H) as [E _]. now rewrite E. Qed.
Lemma annihilator_numpy_eq f s k : valid_species (os_species s) k -> annihilator_numpy f s k = Some (op_ann f s (species_no (os_species s) k)).
Proof. intros H. unfold annihilator_numpy. destruct (species_valid H) as [E _]. now rewrite E. Qed.
Lemma as_op2_term d A (B : mat) r c : r < d * d -> c < d * d ->
  as_operator2 d (amul (newaxes [0; 3] (arr2 A)) (newaxes [1; 2] (fun r => B (bidx d (nth 0 r 0)) (bidx d (nth 1 r 0))))) r c = otimes d A B r c.
Proof.
  intros Hr Hc. unfold as_operator2, amul, newaxes, otimes, arr2. cbn [map nth]. f_equal. assert (E : forall x, x < d -> bidx d x = x).
  { intros x Hx. unfold bidx. destruct (Nat.eqb_spec d 1); lia. }
  now rewrite !E by (now apply (@mod_lt_mul _ d d)).
Qed.
Lemma opsum_ext d l f g : (forall x : Z * Z, In x l -> meq d (f x) (g x)) -> meq d (opsum (map f l)) (opsum (map g l)).
Proof.
  induction l as [|x l IH]; intros H; [apply meq_refl|]. cbn [map opsum fold_right]. apply meq_madd; [apply H; now left|]. apply IH. intros y Hy. apply H. now right.
Qed.
Lemma zip_cons n F a S1 b S2 : zip_sum n F (a :: S1) (b :: S2) = madd (F (species_no n a) (species_no n b)) (zip_sum n F S1 S2). Proof. reflexivity. Qed.
Section Loop.
  Variables (f p : bool) (s : occ_site).
  Notation d := (os_dim s).
  Definition qterm (k1 k2 : nat) : mat := otimes d (mmul d (op_cre f s k1) (occupation_jw f s)) (if p then op_cre f s k2 else op_ann f s k2).
  Lemma loop_op : forall spi spj h, (forall k, In k spi -> valid_species (os_species s) k) -> (forall k, In k spj -> valid_species (os_species s) k) -> length spi <= length spj ->
    exists h', quadratic_loop f p s s spi spj h = Some h' /\ meq (d * d) (as_operator2 d h') (madd (as_operator2 d h) (zip_sum (os_species s) qterm spi spj)).
  Proof.
    induction spi as [|ki spi IH]; intros spj h Vi Vj Le.
    - exists h. split; [reflexivity|]. intros r c _ _. unfold madd, zip_sum. cbn [combine map opsum fold_right]. unfold mzero. ring.
    - destruct spj as [|kj spj]; [cbn in Le; lia|]. cbn [quadratic_loop].
      assert (V1 : valid_species (os_species s) ki) by (apply Vi; now left). assert (V2 : valid_species (os_species s) kj) by (apply Vj; now left).
      rewrite creator_numpy_eq by assumption. rewrite (creator_numpy_eq f V2), (annihilator_numpy_eq f V2).
      rewrite Nat.eqb_refl. cbn [orb negb].
      destruct (IH spj (aadd h (amul (newaxes [0; 3] (arr2 (mmul d (op_cre f s (species_no (os_species s) ki)) (occupation_jw f s))))
                                   (newaxes [1; 2] (fun r => (if p then op_cre f s (species_no (os_species s) kj) else op_ann f s (species_no (os_species s) kj)) (bidx d (nth 0 r 0)) (bidx d (nth 1 r 0))))))) as [h' [E H]].
      + intros k Hk. apply Vi. now right.
      + intros k Hk. apply Vj. now right.
      + cbn in Le. lia.
      + exists h'. split; [destruct p; exact E|]. eapply meq_trans; [exact H|]. intros r c Hr Hc. rewrite zip_cons. unfold madd.
        assert (Q : as_operator2 d (aadd h (amul (newaxes [0; 3] (arr2 (mmul d (op_cre f s (species_no (os_species s) ki)) (occupation_jw f s))))
                                   (newaxes [1; 2] (fun r => (if p then op_cre f s (species_no (os_species s) kj) else op_ann f s (species_no (os_species s) kj)) (bidx d (nth 0 r 0)) (bidx d (nth 1 r 0)))))) r c
                    = Cadd (as_operator2 d h r c) (qterm (species_no (os_species s) ki) (species_no (os_species s) kj) r c)).
        { unfold qterm. rewrite <- as_op2_term by assumption. reflexivity. }
        rewrite Q. ring.
  Qed.
  Lemma quadratic_op spi spj :
    (forall k, In k (species_list s spi) -> valid_species (os_species s) k) -> (forall k, In k (species_list s spj) -> valid_species (os_species s) k) -> length (species_list s spi) <= length (species_list s spj) ->
    exists h, quadratic f p s s (spi, spj) = Some h /\ meq (d * d) (as_operator2 d h) (plus_hc (zip_sum (os_species s) qterm (species_list s spi) (species_list s spj))).
  Proof.
    unfold quadratic. cbn [fst snd]. generalize (species_list s spi) (species_list s spj). intros S1 S2 V1 V2 Le. destruct S1 as [|k1 S1].
    - exists azeros. split; [reflexivity|]. intros r c _ _. unfold zip_sum, plus_hc, madd, mconjT. cbn [combine map opsum fold_right]. unfold as_operator2, azeros, mzero. apply C_eq; cbn; ring.
    - destruct S2 as [|k2 S2]; [cbn in Le; lia|]. destruct (@loop_op (k1 :: S1) (k2 :: S2) azeros V1 V2 Le) as [h [E H]]. rewrite E. eexists. split; [reflexivity|].
      intros r c Hr Hc. unfold as_operator2 at 1. unfold aadd, transpose. cbn [length seq map pos Nat.eqb nth]. unfold aconj. unfold plus_hc, madd, mconjT.
      change (h [r / d; r mod d; c mod d; c / d]) with (as_operator2 d h r c). change (h [c / d; c mod d; r mod d; r / d]) with (as_operator2 d h c r). rewrite !H by assumption.
      unfold madd. change (as_operator2 d azeros) with (fun _ _ : nat => C0). cbv beta. rewrite Cconj_add. apply C_eq; cbn; ring.
  Qed.
End Loop.
Lemma otimes_eye_jw d A i j : j < d -> mmul d A (mdiag (fun _ => C1)) i j = A i j.
Proof. intros Hj. rewrite mmul_diag_r by assumption. ring. Qed.
Lemma zip_ext d n F G S1 S2 : (forall i j, i < n -> j < n -> meq d (F i j) (G i j)) -> (forall k, In k S1 -> valid_species n k) -> (forall k, In k S2 -> valid_species n k) ->
  meq d (zip_sum n F S1 S2) (zip_sum n G S1 S2).
Proof.
  intros H V1 V2. unfold zip_sum. apply opsum_ext. intros [a b] I0. cbn [fst snd]. assert (A := V1 a (in_combine_l _ _ _ _ I0)). assert (B := V2 b (in_combine_r _ _ _ _ I0)). unfold valid_species in *.
  apply H; unfold species_no; match goal with |- Z.to_nat (?k mod _) < _ => assert (Q := Z.mod_pos_bound k (Z.of_nat n) ltac:(lia)) end; lia.
Qed.
Lemma plus_hc_ext d A B : meq d A B -> meq d (plus_hc A) (plus_hc B).
Proof. intros H i j Hi Hj. unfold plus_hc, madd, mconjT. now rewrite (H i j Hi Hj), (H j i Hj Hi). Qed.
Lemma plus_hc_herm d A : hermitian d (plus_hc A).
Proof. intros i j Hi Hj. unfold plus_hc, mconjT, madd. rewrite Cconj_add, Cconj_invol. ring. Qed.
(** the two kinds of sites *)
Lemma fermion_term n p k1 k2 : 0 < n -> k1 < n -> k2 < n ->
  meq (2 ^ n * 2 ^ n) (qterm true p (fermion_site n) k1 k2)
      (mmul (2 ^ n * 2 ^ n) (get_creator (fermion_site (n + n)) k1 true) (if p then get_creator (fermion_site (n + n)) (n + k2) true else get_annihilator (fermion_site (n + n)) (n + k2) true)).
Proof.
  intros P H1 H2. unfold qterm. cbn [fermion_site os_dim]. fold (fermion_site n). cbn [op_cre op_ann occupation_jw]. apply meq_sym. destruct p.
  - eapply meq_trans; [apply meq_mmul; [now apply fer_cre_left|now apply fer_cre_right]|]. apply left_otimes.
  - eapply meq_trans; [apply meq_mmul; [now apply fer_cre_left|now apply fer_ann_right]|]. apply left_otimes.
Qed.
Lemma boson_term l p k1 k2 : k1 < length l -> k2 < length l ->
  meq (sdim l * sdim l) (qterm false p (boson_site l) k1 k2)
      (mmul (sdim l * sdim l) (creator (l ++ l) k1) (if p then creator (l ++ l) (length l + k2) else annihilator (l ++ l) (length l + k2))).
Proof.
  intros H1 H2. assert (P : l <> []) by (destruct l; [cbn in H1; lia|congruence]). unfold qterm. rewrite boson_dim. cbn [op_cre op_ann occupation_jw boson_site os_creators os_annihilators].
  apply meq_trans with (otimes (sdim l) (creator l k1) (if p then creator l k2 else annihilator l k2)).
  - apply otimes_ext; [|apply meq_refl]. intros i j Hi Hj. now apply otimes_eye_jw.
  - apply meq_sym. destruct p.
    + eapply meq_trans; [apply meq_mmul; [now apply bos_cre_left|now apply bos_cre_right]|]. apply left_right.
    + eapply meq_trans; [apply meq_mmul; [now apply bos_cre_left|now apply bos_ann_right]|]. apply left_right.
Qed.
Lemma scale_op2 d a h r c : as_operator2 d (ascale a h) r c = mscale a (as_operator2 d h) r c. Proof. reflexivity. Qed.
