(** Sums and products of complex numbers, the product basis, Kronecker products. *)
From Coq Require Import Reals ZArith List Arith Lia Bool.
From Verif Require Import Cplx Hilbert LinOpMat SiteModel SiteSpec.
Import ListNotations.
Set Implicit Arguments. Unset Strict Implicit.
Open Scope nat_scope.

Notation mat := SiteModel.mat.
Add Ring Cring2 : C_ring.

Lemma msum_ext n f g : (forall i, i < n -> f i = g i) -> msum n f = msum n g. Proof. exact (@sumn_ext n f g). Qed.
Lemma msum_add n f g : msum n (fun i => Cadd (f i) (g i)) = Cadd (msum n f) (msum n g). Proof. exact (@sumn_add n f g). Qed.
Lemma msum_scale n a f : msum n (fun i => Cmul a (f i)) = Cmul a (msum n f). Proof. exact (@sumn_scale n a f). Qed.
Lemma msum_scale_r n a f : msum n (fun i => Cmul (f i) a) = Cmul (msum n f) a. Proof. exact (@sumn_scale_r n a f). Qed.
Lemma msum_zero n : msum n (fun _ => C0) = C0. Proof. exact (sumn_zero n). Qed.
Lemma msum_S n f : msum (S n) f = Cadd (f 0) (msum n (fun i => f (S i))). Proof. exact (sumn_S n f). Qed.
Lemma msum_swap n m f : msum n (fun i => msum m (fun j => f i j)) = msum m (fun j => msum n (fun i => f i j)). Proof. exact (sumn_swap n m f). Qed.
Lemma msum_conj n f : Cconj (msum n f) = msum n (fun i => Cconj (f i)). Proof. exact (@sumn_conj n f). Qed.
Lemma msum_zero' n f : (forall i, i < n -> f i = C0) -> msum n f = C0.
Proof. intros H. rewrite (msum_ext (g := fun _ => C0)) by assumption. apply msum_zero. Qed.
Lemma msum_one n k f : k < n -> (forall i, i < n -> i <> k -> f i = C0) -> msum n f = f k.
Proof.
  revert k f. induction n as [|n IH]; intros k f Hk H; [lia|]. rewrite msum_S. destruct k as [|k].
  - rewrite msum_zero'; [ring|]. intros i Hi. apply H; lia.
  - rewrite (H 0) by lia. rewrite (IH k (fun i => f (S i))); [ring|lia|]. intros i Hi Ni. apply H; lia.
Qed.
Lemma msum_app n m f : msum (n + m) f = Cadd (msum n f) (msum m (fun i => f (n + i))).
Proof.
  revert f. induction n as [|n IH]; intros f.
  - change (msum 0 f) with C0. change (msum (0 + m) f) with (msum m (fun i => f (0 + i))). ring.
  - cbn [Nat.add]. rewrite !msum_S, IH. ring.
Qed.
Lemma msum_Sr n f : msum (S n) f = Cadd (msum n f) (f n).
Proof. rewrite <- Nat.add_1_r, msum_app. f_equal. rewrite msum_S. change (msum 0 _) with C0. rewrite Nat.add_0_r. ring. Qed.
Lemma msum_mul n m f : msum (n * m) f = msum n (fun q => msum m (fun r => f (q * m + r))).
Proof.
  induction n as [|n IH]; [reflexivity|]. replace (S n * m) with (n * m + m) by lia. rewrite msum_app, msum_Sr, IH. reflexivity.
Qed.
Lemma msum_opp n f : msum n (fun i => Copp (f i)) = Copp (msum n f).
Proof. rewrite (msum_ext (g := fun i => Cmul (Copp C1) (f i))) by (intros; ring). rewrite msum_scale. ring. Qed.

(** products *)
Definition cprod (n : nat) (f : nat -> C) : C := fold_right Cmul C1 (map f (seq 0 n)).
Lemma cprod_ext n f g : (forall i, i < n -> f i = g i) -> cprod n f = cprod n g.
Proof. intros H. unfold cprod. f_equal. apply map_ext_in. intros i Hi. apply in_seq in Hi. apply H. lia. Qed.
Lemma cprod_Sr n f : cprod (S n) f = Cmul (cprod n f) (f n).
Proof.
  unfold cprod. rewrite seq_S, map_app, fold_right_app. cbn [map fold_right Nat.add]. generalize (map f (seq 0 n)). intros l.
  induction l as [|x l IH]; cbn [fold_right]; [ring|]. rewrite IH. ring.
Qed.
Lemma cprod_mul n f g : cprod n (fun i => Cmul (f i) (g i)) = Cmul (cprod n f) (cprod n g).
Proof. induction n as [|n IH]; [unfold cprod; cbn; ring|]. rewrite !cprod_Sr, IH. ring. Qed.
Lemma cprod_one n f : (forall i, i < n -> f i = C1) -> cprod n f = C1.
Proof. induction n as [|n IH]; intros H; [reflexivity|]. rewrite cprod_Sr, H, IH by (try lia; intros; apply H; lia). ring. Qed.
Lemma cprod_zero n k f : k < n -> f k = C0 -> cprod n f = C0.
Proof.
  induction n as [|n IH]; intros Hk E; [lia|]. rewrite cprod_Sr. destruct (Nat.eq_dec k n) as [ -> |Nk]; [rewrite E; ring|]. rewrite IH by (try lia; assumption). ring.
Qed.
(** pulling out the factor k *)
Definition but (k : nat) (f : nat -> C) : nat -> C := fun i => if i =? k then C1 else f i.
Lemma cprod_split n k f : k < n -> cprod n f = Cmul (f k) (cprod n (but k f)).
Proof.
  induction n as [|n IH]; intros Hk; [lia|]. rewrite !cprod_Sr. destruct (Nat.eq_dec k n) as [ -> |Nk].
  - unfold but at 2. rewrite Nat.eqb_refl. rewrite (@cprod_ext n f (but n f)); [ring|]. intros i Hi. unfold but. destruct (Nat.eqb_spec i n); [lia|reflexivity].
  - rewrite IH by lia. unfold but at 3. destruct (Nat.eqb_spec n k); [lia|]. ring.
Qed.
Lemma cprod_conj n f : Cconj (cprod n f) = cprod n (fun i => Cconj (f i)).
Proof. induction n as [|n IH]; [apply C_eq; cbn; ring|]. rewrite !cprod_Sr, Cconj_mul, IH. reflexivity. Qed.

(** the product basis *)
Lemma sdim_pos l : 0 < sdim l. Proof. induction l as [|N l IH]; cbn [sdim]; nia. Qed.
Lemma sdim_snoc l N : sdim (l ++ [N]) = sdim l * (N + 1).
Proof. induction l as [|M l IH]; cbn [app sdim]; [lia|]. rewrite IH. ring. Qed.
Lemma stride_snoc l N k : k < length l -> stride (l ++ [N]) k = stride l k * (N + 1).
Proof. intros Hk. unfold stride. rewrite skipn_app. replace (k + 1 - length l) with 0 by lia. cbn [skipn]. apply sdim_snoc. Qed.
Lemma occ_snoc l N s k : k < length l -> occ (l ++ [N]) s k = occ l (s / (N + 1)) k.
Proof.
  intros Hk. unfold occ. rewrite stride_snoc by assumption. rewrite app_nth1 by assumption. f_equal.
  assert (P := sdim_pos (skipn (k + 1) l)). fold (stride l k) in P. rewrite (Nat.mul_comm (stride l k)). rewrite Nat.div_div by lia. reflexivity.
Qed.
Lemma occ_last l N s : occ (l ++ [N]) s (length l) = s mod (N + 1).
Proof.
  unfold occ, stride. rewrite skipn_all2 by (rewrite app_length; cbn; lia). cbn [sdim]. rewrite Nat.div_1_r. rewrite app_nth2, Nat.sub_diag by lia. reflexivity.
Qed.
Lemma occ_lt l s k : occ l s k < nth k l 0 + 1. Proof. unfold occ. apply Nat.mod_upper_bound. lia. Qed.
Lemma snoc_div l N s : s < sdim (l ++ [N]) -> s / (N + 1) < sdim l.
Proof. rewrite sdim_snoc. intros H. apply Nat.div_lt_upper_bound; lia. Qed.
(** different states differ in an occupation number *)
Lemma occ_inj l : forall s t, s < sdim l -> t < sdim l -> (forall k, k < length l -> occ l s k = occ l t k) -> s = t.
Proof.
  induction l as [|N l IH] using rev_ind; intros s t Hs Ht H; [cbn in Hs, Ht; lia|].
  assert (E : s / (N + 1) = t / (N + 1)).
  { apply IH; try now apply snoc_div. intros k Hk. rewrite <- !occ_snoc with (N := N) by assumption. apply H. rewrite app_length. lia. }
  assert (M : s mod (N + 1) = t mod (N + 1)). { rewrite <- !(occ_last l N). apply H. rewrite app_length. cbn. lia. }
  rewrite (Nat.div_mod s (N + 1)), (Nat.div_mod t (N + 1)) by lia. now rewrite E, M.
Qed.
(** every list of occupations belongs to a state *)
Lemma occ_surj l : forall x, length x = length l -> (forall k, k < length l -> nth k x 0 < nth k l 0 + 1) -> exists s, s < sdim l /\ forall k, k < length l -> occ l s k = nth k x 0.
Proof.
  induction l as [|N l IH] using rev_ind; intros x Hx H; [exists 0; cbn; split; [lia|intros; lia]|].
  rewrite app_length in *. cbn [length] in *. destruct (IH (firstn (length l) x)) as [q [Hq Eq]].
  { rewrite firstn_length. lia. }
  { intros k Hk. specialize (H k). rewrite app_nth1 in H by lia. replace (nth k (firstn (length l) x) 0) with (nth k x 0); [apply H; lia|].
    rewrite <- (firstn_skipn (length l) x) at 1. rewrite app_nth1; [reflexivity|]. rewrite firstn_length. lia. }
  assert (Hl : nth (length l) x 0 < N + 1). { specialize (H (length l)). rewrite app_nth2, Nat.sub_diag in H by lia. cbn in H. lia. }
  exists (q * (N + 1) + nth (length l) x 0). split; [rewrite sdim_snoc; nia|]. intros k Hk. destruct (Nat.eq_dec k (length l)) as [ -> |Nk].
  - rewrite occ_last. rewrite Nat.add_comm, Nat.mod_add by lia. apply Nat.mod_small. lia.
  - rewrite occ_snoc by lia. replace ((q * (N + 1) + nth (length l) x 0) / (N + 1)) with q.
    2:{ rewrite Nat.add_comm, Nat.div_add by lia. rewrite Nat.div_small by lia. reflexivity. }
    rewrite Eq by lia. rewrite <- (firstn_skipn (length l) x) at 2. rewrite app_nth1; [reflexivity|]. rewrite firstn_length. lia.
Qed.

(** the operator with the factor F k on species k *)
Definition bigop (l : list nat) (F : nat -> mat) : mat := fun s t => cprod (length l) (fun k => F k (occ l s k) (occ l t k)).
Lemma bigop_snoc l N F s t : bigop (l ++ [N]) F s t = Cmul (bigop l F (s / (N + 1)) (t / (N + 1))) (F (length l) (s mod (N + 1)) (t mod (N + 1))).
Proof.
  unfold bigop. rewrite app_length, Nat.add_1_r. rewrite cprod_Sr, !occ_last. f_equal. apply cprod_ext. intros k Hk. now rewrite !occ_snoc.
Qed.
Lemma bigop_ext l F G s t : (forall k i j, k < length l -> i < nth k l 0 + 1 -> j < nth k l 0 + 1 -> F k i j = G k i j) -> bigop l F s t = bigop l G s t.
Proof. intros H. apply cprod_ext. intros k Hk. apply H; [assumption| |]; apply occ_lt. Qed.
Lemma reduce_snoc l x : l <> [] -> reduce_kron (l ++ [x]) = kron (reduce_kron l) x.
Proof. destruct l as [|y l]; [congruence|]. intros _. cbn [app reduce_kron]. now rewrite fold_left_app. Qed.
Lemma reduce_kron_bigop l F : l <> [] ->
  fst (reduce_kron (map (fun k => (nth k l 0 + 1, F k)) (seq 0 (length l)))) = sdim l /\
  forall s t, s < sdim l -> t < sdim l -> snd (reduce_kron (map (fun k => (nth k l 0 + 1, F k)) (seq 0 (length l)))) s t = bigop l F s t.
Proof.
  induction l as [|N l IH] using rev_ind; [congruence|]. intros _. rewrite app_length, Nat.add_1_r, seq_S, map_app. cbn [map Nat.add].
  rewrite app_nth2, Nat.sub_diag by lia. cbn [nth].
  rewrite (map_ext_in _ (fun k => (nth k l 0 + 1, F k))).
  2:{ intros k Hk. apply in_seq in Hk. now rewrite app_nth1 by lia. }
  destruct l as [|M l].
  - cbn [map seq length app reduce_kron fst snd fold_left]. split; [cbn; lia|]. intros s t Hs Ht. cbn [sdim] in Hs, Ht.
    unfold bigop, cprod. cbn [map seq length fold_right]. change [N] with ([] ++ [N]). rewrite !(occ_last [] N). rewrite !Nat.mod_small by lia. ring.
  - assert (Q : M :: l <> []) by congruence. specialize (IH Q). revert IH Q. generalize (M :: l). clear M l. intros l [E1 E2] Q.
    rewrite reduce_snoc by (intros H; apply map_eq_nil in H; destruct l; [congruence|discriminate]). cbn [kron fst snd]. rewrite E1.
    split; [now rewrite sdim_snoc|]. intros s t Hs Ht. rewrite bigop_snoc. f_equal. apply E2; now apply snoc_div.
Qed.
(** products of such operators *)
Lemma bigop_mul l F G s t : mmul (sdim l) (bigop l F) (bigop l G) s t = bigop l (fun k => mmul (nth k l 0 + 1) (F k) (G k)) s t.
Proof.
  revert s t. induction l as [|N l IH] using rev_ind; intros s t.
  - cbn [sdim]. unfold mmul at 1. rewrite msum_S. change (msum 0 _) with C0. unfold bigop, cprod. cbn [length seq map fold_right]. ring.
  - unfold mmul at 1. rewrite sdim_snoc, msum_mul.
    rewrite (msum_ext (g := fun q => msum (N + 1) (fun r => Cmul (Cmul (bigop l F (s / (N + 1)) q) (bigop l G q (t / (N + 1))))
                                       (Cmul (F (length l) (s mod (N + 1)) r) (G (length l) r (t mod (N + 1))))))).
    2:{ intros q Hq. apply msum_ext. intros r Hr. rewrite !bigop_snoc.
        replace ((q * (N + 1) + r) / (N + 1)) with q by (rewrite Nat.add_comm, Nat.div_add, Nat.div_small by lia; reflexivity).
        replace ((q * (N + 1) + r) mod (N + 1)) with r by (rewrite Nat.add_comm, Nat.mod_add, Nat.mod_small by lia; reflexivity). ring. }
    rewrite (msum_ext (g := fun q => Cmul (Cmul (bigop l F (s / (N + 1)) q) (bigop l G q (t / (N + 1)))) (mmul (N + 1) (F (length l)) (G (length l)) (s mod (N + 1)) (t mod (N + 1))))).
    2:{ intros q Hq. now rewrite msum_scale. }
    rewrite msum_scale_r. fold (mmul (sdim l) (bigop l F) (bigop l G) (s / (N + 1)) (t / (N + 1))). rewrite IH.
    rewrite bigop_snoc. f_equal.
    + apply cprod_ext. intros k Hk. now rewrite app_nth1.
    + rewrite app_nth2, Nat.sub_diag by lia. reflexivity.
Qed.
(** diagonal operators *)
Lemma bigop_diag l f s t : s < sdim l -> t < sdim l ->
  bigop l (fun k => mdiag (f k)) s t = if s =? t then cprod (length l) (fun k => f k (occ l s k)) else C0.
Proof.
  intros Hs Ht. unfold bigop. destruct (Nat.eqb_spec s t) as [ <- |Ne].
  - apply cprod_ext. intros k _. unfold mdiag. now rewrite Nat.eqb_refl.
  - assert (D : ~ (forall k, k < length l -> occ l s k = occ l t k)) by (intros H; apply Ne; now apply (@occ_inj l)).
    destruct (existsb (fun k => negb (occ l s k =? occ l t k)) (seq 0 (length l))) eqn:E.
    + apply existsb_exists in E. destruct E as [k [Hk Nk]]. apply in_seq in Hk. apply cprod_zero with (k := k); [lia|]. unfold mdiag.
      destruct (occ l s k =? occ l t k); [discriminate|reflexivity].
    + exfalso. apply D. intros k Hk. apply Nat.eqb_eq. destruct (occ l s k =? occ l t k) eqn:F; [reflexivity|]. exfalso.
      assert (X : existsb (fun k => negb (occ l s k =? occ l t k)) (seq 0 (length l)) = true); [|congruence].
      apply existsb_exists. exists k. split; [apply in_seq; lia|now rewrite F].
Qed.
Lemma mdiag_one : forall i j, mdiag (fun _ => C1) i j = meye i j. Proof. reflexivity. Qed.
Lemma bigop_eye l s t : s < sdim l -> t < sdim l -> bigop l (fun _ => meye) s t = meye s t.
Proof.
  intros Hs Ht. change (fun _ : nat => meye) with (fun _ : nat => mdiag (fun _ => C1)). rewrite bigop_diag by assumption. unfold meye.
  destruct (s =? t); [|reflexivity]. now apply cprod_one.
Qed.
