(** Bosonic operators. *)
From Coq Require Import Reals ZArith List Arith Lia Bool Lra.
From Verif Require Import Cplx Hilbert SiteModel SiteSpec SiteProofs1.
Import ListNotations.
Set Implicit Arguments. Unset Strict Implicit.
Open Scope nat_scope.

Lemma mmul_ext d A B A' B' i j : i < d -> j < d -> meq d A A' -> meq d B B' -> mmul d A B i j = mmul d A' B' i j.
Proof. intros Hi Hj E F. apply msum_ext. intros k Hk. now rewrite E, F. Qed.
Lemma mmul_eye_r d A i j : j < d -> mmul d A meye i j = A i j.
Proof. intros Hj. unfold mmul. rewrite msum_one with (k := j); [unfold meye; rewrite Nat.eqb_refl; ring|assumption|]. intros k Hk Nk. unfold meye. destruct (Nat.eqb_spec k j); [lia|ring]. Qed.
Lemma mmul_eye_l d A i j : i < d -> mmul d meye A i j = A i j.
Proof. intros Hi. unfold mmul. rewrite msum_one with (k := i); [unfold meye; rewrite Nat.eqb_refl; ring|assumption|]. intros k Hk Nk. unfold meye. destruct (Nat.eqb_spec i k); [lia|ring]. Qed.
Lemma mmul_diag_r d A f i j : j < d -> mmul d A (mdiag f) i j = Cmul (A i j) (f j).
Proof. intros Hj. unfold mmul. rewrite msum_one with (k := j); [unfold mdiag; now rewrite Nat.eqb_refl|assumption|]. intros k Hk Nk. unfold mdiag. destruct (Nat.eqb_spec k j); [lia|ring]. Qed.
Lemma mmul_diag_l d A f i j : i < d -> mmul d (mdiag f) A i j = Cmul (f i) (A i j).
Proof. intros Hi. unfold mmul. rewrite msum_one with (k := i); [unfold mdiag; now rewrite Nat.eqb_refl|assumption|]. intros k Hk Nk. unfold mdiag. destruct (Nat.eqb_spec i k); [lia|ring]. Qed.
Lemma mmul_assoc d A B M i j : mmul d (mmul d A B) M i j = mmul d A (mmul d B M) i j.
Proof.
  unfold mmul. rewrite (msum_ext (g := fun k => msum d (fun l => Cmul (Cmul (A i l) (B l k)) (M k j)))) by (intros k Hk; now rewrite msum_scale_r).
  rewrite msum_swap. apply msum_ext. intros l Hl. rewrite <- msum_scale. apply msum_ext. intros k Hk. ring.
Qed.

(** ** one species *)
Lemma single_fold n i j : fold_left (fun M n => mset M (n - 1) n (RtoC (sqrt (INR n)))) (seq 1 n) mzero i j
  = if (j =? i + 1) && (j <=? n) then RtoC (sqrt (INR j)) else C0.
Proof.
  induction n as [|n IH].
  - cbn [seq fold_left]. destruct (Nat.eqb_spec j (i + 1)); destruct (Nat.leb_spec j 0); cbn [andb]; try lia; reflexivity.
  - rewrite seq_S, fold_left_app. cbn [fold_left]. unfold mset at 1. rewrite IH.
    destruct (Nat.eqb_spec i (1 + n - 1)); destruct (Nat.eqb_spec j (1 + n)); destruct (Nat.eqb_spec j (i + 1));
      destruct (Nat.leb_spec j n); destruct (Nat.leb_spec j (S n)); cbn [andb]; try lia; try reflexivity. now subst j.
Qed.
Definition ann (N : nat) : mat := snd (single_ops N).
Definition cre (N : nat) : mat := fst (single_ops N).
Lemma ann_entry N i j : i < N + 1 -> j < N + 1 -> ann N i j = if j =? i + 1 then RtoC (sqrt (INR j)) else C0.
Proof.
  intros Hi Hj. unfold ann, single_ops. cbn [snd]. rewrite single_fold. destruct (Nat.leb_spec j (N + 1 - 1)); [now rewrite andb_true_r|lia].
Qed.
Lemma cre_entry N i j : i < N + 1 -> j < N + 1 -> cre N i j = if i =? j + 1 then RtoC (sqrt (INR i)) else C0.
Proof. intros Hi Hj. change (cre N i j) with (ann N j i). now apply ann_entry. Qed.
Lemma sqrt_sq n : Cmul (RtoC (sqrt (INR n))) (RtoC (sqrt (INR n))) = RtoC (INR n).
Proof. rewrite <- RtoC_mul. f_equal. apply sqrt_sqrt. apply pos_INR. Qed.
Lemma num_entry N i j : i < N + 1 -> j < N + 1 -> mmul (N + 1) (cre N) (ann N) i j = mdiag (fun n => RtoC (INR n)) i j.
Proof.
  intros Hi Hj. unfold mmul, mdiag. destruct (Nat.eqb_spec i j) as [ <- |Ne].
  - destruct i as [|i].
    + rewrite msum_zero'; [cbn [INR]; reflexivity|]. intros k Hk. rewrite cre_entry by lia. destruct (Nat.eqb_spec 0 (k + 1)); [lia|ring].
    + rewrite msum_one with (k := i); [|lia|].
      * rewrite cre_entry, ann_entry by lia. rewrite Nat.add_1_r, Nat.eqb_refl. apply sqrt_sq.
      * intros k Hk Nk. rewrite cre_entry by lia. destruct (Nat.eqb_spec (S i) (k + 1)); [lia|ring].
  - apply msum_zero'. intros k Hk. rewrite cre_entry, ann_entry by lia. destruct (Nat.eqb_spec i (k + 1)); [|ring]. destruct (Nat.eqb_spec j (k + 1)); [lia|ring].
Qed.
Lemma anti_entry N i j : i < N + 1 -> j < N + 1 -> mmul (N + 1) (ann N) (cre N) i j = mdiag (fun n => if n <? N then RtoC (INR (n + 1)) else C0) i j.
Proof.
  intros Hi Hj. unfold mmul, mdiag. destruct (Nat.eqb_spec i j) as [ <- |Ne].
  - destruct (Nat.ltb_spec i N) as [Hn|Hn].
    + rewrite msum_one with (k := i + 1); [|lia|].
      * rewrite cre_entry, ann_entry by lia. rewrite Nat.eqb_refl. apply sqrt_sq.
      * intros k Hk Nk. rewrite ann_entry by lia. destruct (Nat.eqb_spec k (i + 1)); [lia|ring].
    + apply msum_zero'. intros k Hk. rewrite ann_entry by lia. destruct (Nat.eqb_spec k (i + 1)); [lia|ring].
  - apply msum_zero'. intros k Hk. rewrite cre_entry, ann_entry by lia. destruct (Nat.eqb_spec k (i + 1)); [|ring]. destruct (Nat.eqb_spec k (j + 1)); [lia|ring].
Qed.

(** ** all species *)
Definition single (i : nat) (A : mat) : nat -> mat := fun k => if k =? i then A else meye.
Lemma occ_dim_sdim l : occ_dim l = sdim l.
Proof.
  unfold occ_dim. assert (H : forall l a, fold_left Nat.mul (map (fun N => 1 + N) l) a = a * sdim l); [|rewrite H; lia].
  clear l. induction l as [|N l IH]; intros a; cbn [map fold_left sdim]; [lia|]. rewrite IH. ring.
Qed.
Lemma species_factors_eq op l i : species_factors op l i = map (fun k => (nth k l 0 + 1, single i (op (nth i l 0)) k)) (seq 0 (length l)).
Proof.
  unfold species_factors. apply map_ext. intros k. unfold single. destruct (Nat.ltb_spec k i); destruct (Nat.eqb_spec k i); try lia; try reflexivity. now subst k.
Qed.
Lemma annihilator_bigop l i s t : l <> [] -> s < sdim l -> t < sdim l -> annihilator l i s t = bigop l (single i (ann (nth i l 0))) s t.
Proof.
  intros Hl Hs Ht. unfold annihilator. rewrite species_factors_eq.
  destruct (reduce_kron_bigop (single i (ann (nth i l 0))) Hl) as [_ H]. exact (H s t Hs Ht).
Qed.
Lemma creator_bigop l i s t : l <> [] -> s < sdim l -> t < sdim l -> creator l i s t = bigop l (single i (cre (nth i l 0))) s t.
Proof.
  intros Hl Hs Ht. unfold creator. rewrite species_factors_eq.
  destruct (reduce_kron_bigop (single i (cre (nth i l 0))) Hl) as [_ H]. exact (H s t Hs Ht).
Qed.
(** replacing one factor *)
Definition mone : mat := fun _ _ => C1.
Definition rest (i : nat) (F : nat -> mat) : nat -> mat := fun k => if k =? i then mone else F k.
Lemma bigop_split l i (F : nat -> mat) s t : i < length l -> bigop l F s t = Cmul (F i (occ l s i) (occ l t i)) (bigop l (rest i F) s t).
Proof.
  intros Hi. unfold bigop. rewrite (@cprod_split _ i) by assumption. f_equal. apply cprod_ext. intros k Hk. unfold but, rest. destruct (k =? i); reflexivity.
Qed.
Lemma bigop_one l i a (F G : nat -> mat) s t : i < length l -> (forall k x y, k < length l -> k <> i -> x < nth k l 0 + 1 -> y < nth k l 0 + 1 -> F k x y = G k x y) ->
  F i (occ l s i) (occ l t i) = Cmul a (G i (occ l s i) (occ l t i)) -> bigop l F s t = Cmul a (bigop l G s t).
Proof.
  intros Hi H E. rewrite (bigop_split F s t Hi), (bigop_split G s t Hi), E. rewrite (@bigop_ext l (rest i F) (rest i G)); [ring|].
  intros k x y Hk Hx Hy. unfold rest. destruct (Nat.eqb_spec k i); [reflexivity|]. now apply H.
Qed.
Lemma bigop_lin l i a b (F G H : nat -> mat) s t : i < length l ->
  (forall k x y, k < length l -> k <> i -> x < nth k l 0 + 1 -> y < nth k l 0 + 1 -> F k x y = H k x y) ->
  (forall k x y, k < length l -> k <> i -> x < nth k l 0 + 1 -> y < nth k l 0 + 1 -> G k x y = H k x y) ->
  H i (occ l s i) (occ l t i) = Cadd (Cmul a (F i (occ l s i) (occ l t i))) (Cmul b (G i (occ l s i) (occ l t i))) ->
  bigop l H s t = Cadd (Cmul a (bigop l F s t)) (Cmul b (bigop l G s t)).
Proof.
  intros Hi EF EG E. rewrite (bigop_split F s t Hi), (bigop_split G s t Hi), (bigop_split H s t Hi), E.
  rewrite (@bigop_ext l (rest i F) (rest i H)).
  2:{ intros k x y Hk Hx Hy. unfold rest. destruct (Nat.eqb_spec k i); [reflexivity|]. now apply EF. }
  rewrite (@bigop_ext l (rest i G) (rest i H)).
  2:{ intros k x y Hk Hx Hy. unfold rest. destruct (Nat.eqb_spec k i); [reflexivity|]. now apply EG. }
  ring.
Qed.
(** an operator on one species *)
Lemma bigop_single l i A s t : i < length l -> s < sdim l -> t < sdim l ->
  bigop l (single i A) s t = if forallb (fun j => (j =? i) || (occ l s j =? occ l t j)) (seq 0 (length l)) then A (occ l s i) (occ l t i) else C0.
Proof.
  intros Hi Hs Ht. rewrite (bigop_split _ s t Hi). unfold single at 1. rewrite Nat.eqb_refl.
  destruct (forallb _ _) eqn:E.
  - rewrite forallb_forall in E. replace (bigop l _ s t) with C1; [ring|]. symmetry. apply cprod_one. intros k Hk.
    unfold rest. destruct (k =? i) eqn:Ek; [reflexivity|]. unfold single. rewrite Ek. unfold meye. specialize (E k). rewrite Ek in E. cbn [orb] in E. rewrite E; [reflexivity|]. apply in_seq. lia.
  - destruct (existsb (fun j => negb ((j =? i) || (occ l s j =? occ l t j))) (seq 0 (length l))) eqn:X.
    + apply existsb_exists in X. destruct X as [k [Hk Nk]]. apply in_seq in Hk. apply negb_true_iff, orb_false_iff in Nk. destruct Nk as [N1 N2].
      replace (bigop l _ s t) with C0; [ring|]. symmetry. apply cprod_zero with (k := k); [lia|]. unfold rest. rewrite N1. unfold single. rewrite N1. unfold meye. now rewrite N2.
    + exfalso. apply not_true_iff_false in E. apply E. apply forallb_forall. intros k Hk. destruct ((k =? i) || (occ l s k =? occ l t k)) eqn:Y; [reflexivity|]. exfalso.
      apply not_true_iff_false in X. apply X. apply existsb_exists. exists k. split; [assumption|]. now rewrite Y.
Qed.
Lemma annihilator_entry l i s t : i < length l -> s < sdim l -> t < sdim l ->
  annihilator l i s t = if removes l i s t then RtoC (sqrt (INR (occ l t i))) else C0.
Proof.
  intros Hi Hs Ht. assert (Hl : l <> []) by (destruct l; [cbn in Hi; lia|congruence]). rewrite annihilator_bigop, bigop_single by assumption.
  rewrite ann_entry by apply occ_lt. unfold removes.
  destruct (forallb (fun j => (j =? i) || _) _) eqn:E; destruct (forallb (fun j => occ l s j + _ =? _) _) eqn:F.
  - rewrite forallb_forall in F. specialize (F i). rewrite Nat.eqb_refl in F. assert (Q := F ltac:(apply in_seq; lia)). apply Nat.eqb_eq in Q. rewrite Q, Nat.eqb_refl. reflexivity.
  - destruct (Nat.eqb_spec (occ l t i) (occ l s i + 1)) as [Q|Q]; [|reflexivity]. exfalso. apply not_true_iff_false in F. apply F. apply forallb_forall. intros j Hj.
    rewrite forallb_forall in E. specialize (E j Hj). destruct (Nat.eqb_spec j i) as [Ej|Nj]; [subst j; apply Nat.eqb_eq; lia|]. cbn [orb] in E. rewrite Nat.add_0_r. exact E.
  - exfalso. apply not_true_iff_false in E. apply E. apply forallb_forall. intros j Hj. rewrite forallb_forall in F. specialize (F j Hj).
    destruct (j =? i); [reflexivity|]. cbn [orb]. now rewrite Nat.add_0_r in F.
  - reflexivity.
Qed.
Lemma ann_real N i j : Cconj (ann N i j) = ann N i j.
Proof. unfold ann, single_ops. cbn [snd]. rewrite single_fold. destruct ((j =? i + 1) && _); apply C_eq; cbn; ring. Qed.
Lemma creator_conjT l i s t : l <> [] -> s < sdim l -> t < sdim l -> creator l i s t = mconjT (annihilator l i) s t.
Proof.
  intros Hl Hs Ht. unfold mconjT. rewrite creator_bigop, annihilator_bigop by assumption. unfold bigop. rewrite cprod_conj. apply cprod_ext. intros k Hk. unfold single.
  destruct (k =? i).
  - change (cre (nth i l 0) (occ l s k) (occ l t k)) with (ann (nth i l 0) (occ l t k) (occ l s k)). now rewrite ann_real.
  - unfold meye. rewrite Nat.eqb_sym. destruct (_ =? _); apply C_eq; cbn; ring.
Qed.

(** products of operators on single species *)
Lemma meq_refl d A : meq d A A. Proof. intros i j _ _. reflexivity. Qed.
Lemma single_mul_same l i A B s t : mmul (sdim l) (bigop l (single i A)) (bigop l (single i B)) s t = bigop l (single i (mmul (nth i l 0 + 1) A B)) s t.
Proof.
  rewrite bigop_mul. apply bigop_ext. intros k x y Hk Hx Hy. unfold single. destruct (Nat.eqb_spec k i) as [ -> |Nk]; [reflexivity|]. now rewrite mmul_eye_l.
Qed.
Lemma single_mul_diff l i j A B s t : i <> j ->
  mmul (sdim l) (bigop l (single i A)) (bigop l (single j B)) s t = bigop l (fun k => if k =? i then A else if k =? j then B else meye) s t.
Proof.
  intros Ne. rewrite bigop_mul. apply bigop_ext. intros k x y Hk Hx Hy. unfold single. destruct (Nat.eqb_spec k i) as [ -> |Nk].
  - destruct (Nat.eqb_spec i j); [lia|]. now rewrite mmul_eye_r.
  - now rewrite mmul_eye_l.
Qed.
Lemma single_comm l i j A B s t : i <> j ->
  mmul (sdim l) (bigop l (single i A)) (bigop l (single j B)) s t = mmul (sdim l) (bigop l (single j B)) (bigop l (single i A)) s t.
Proof.
  intros Ne. rewrite !single_mul_diff by congruence. apply bigop_ext. intros k x y _ _ _. destruct (Nat.eqb_spec k i); destruct (Nat.eqb_spec k j); try reflexivity. lia.
Qed.
Lemma single_diag l i f s t : i < length l -> s < sdim l -> t < sdim l -> bigop l (single i (mdiag f)) s t = mdiag (fun u => f (occ l u i)) s t.
Proof.
  intros Hi Hs Ht. rewrite (bigop_ext (G := fun k => mdiag (if k =? i then f else fun _ => C1))).
  2:{ intros k x y _ _ _. unfold single. destruct (k =? i); reflexivity. }
  rewrite bigop_diag by assumption. unfold mdiag. destruct (s =? t); [|reflexivity]. rewrite (@cprod_split _ i) by assumption. rewrite Nat.eqb_refl.
  rewrite cprod_one; [ring|]. intros k Hk. unfold but. destruct (k =? i); reflexivity.
Qed.
