(** The operators of a site with the species of two sites, and hopping and pairing. *)
From Coq Require Import Reals ZArith List Arith Lia Bool Lra.
From Verif Require Import Util Cplx Hilbert SiteModel SiteSpec SiteProofs1 SiteProofs2 SiteProofs3 SiteProofs4 SiteProofs5 CouplingModel CouplingSpec CouplingProofs1 CouplingProofs2 CouplingProofs3.
Import ListNotations.
Set Implicit Arguments. Unset Strict Implicit.
Open Scope nat_scope.
Add Ring CRc4 : C_ring.

Lemma sdim_app a b : sdim (a ++ b) = sdim a * sdim b.
Proof. induction a as [|x a IH]; cbn [app sdim]; [lia|]. rewrite IH. lia. Qed.
Lemma occ_app_l a : forall b s k, k < length a -> occ (a ++ b) s k = occ a (s / sdim b) k.
Proof.
  intros b. induction b as [|N b IH] using rev_ind; intros s k Hk.
  - rewrite app_nil_r. cbn [sdim]. now rewrite Nat.div_1_r.
  - rewrite app_assoc, occ_snoc by (rewrite app_length; lia). rewrite IH by assumption. rewrite sdim_snoc, Nat.div_div by (assert (Q := sdim_pos b); lia). do 2 f_equal. lia.
Qed.
Lemma occ_app_r a : forall b s k, k < length b -> occ (a ++ b) s (length a + k) = occ b (s mod sdim b) k.
Proof.
  intros b. induction b as [|N b IH] using rev_ind; intros s k Hk; [cbn in Hk; lia|]. rewrite app_length in Hk. cbn in Hk. assert (Q := sdim_pos b).
  rewrite app_assoc. destruct (Nat.eq_dec k (length b)) as [ -> |Ne].
  - rewrite <- app_length, !occ_last. rewrite sdim_snoc. now rewrite mod_mul_mod by lia.
  - rewrite occ_snoc by (rewrite app_length; lia). rewrite IH by lia. rewrite occ_snoc by lia. rewrite sdim_snoc, mod_mul_div by lia. reflexivity.
Qed.
Lemma cprod_app n m f : cprod (n + m) f = Cmul (cprod n f) (cprod m (fun k => f (n + k))).
Proof.
  induction m as [|m IH].
  - rewrite Nat.add_0_r. change (cprod 0 (fun k => f (n + k))) with C1. ring.
  - rewrite Nat.add_succ_r, !cprod_Sr, IH. ring.
Qed.
Lemma bigop_app a b F s t : bigop (a ++ b) F s t = otimes (sdim b) (bigop a F) (bigop b (fun k => F (length a + k))) s t.
Proof.
  unfold bigop, otimes. rewrite app_length, cprod_app. f_equal; apply cprod_ext; intros k Hk.
  - now rewrite !occ_app_l.
  - now rewrite !occ_app_r.
Qed.
Lemma meye_bigop l : meq (sdim l) (bigop l (fun _ => meye)) meye. Proof. intros s t Hs Ht. now apply bigop_eye. Qed.
Lemma bigop_ext' l F G : (forall k i j, k < length l -> i < nth k l 0 + 1 -> j < nth k l 0 + 1 -> F k i j = G k i j) -> meq (sdim l) (bigop l F) (bigop l G).
Proof. intros H s t _ _. now apply bigop_ext. Qed.
Lemma nth_app_l (a b : list nat) k : k < length a -> nth k (a ++ b) 0 = nth k a 0. Proof. intros. now apply app_nth1. Qed.
Lemma nth_app_r (a b : list nat) k : nth (length a + k) (a ++ b) 0 = nth k b 0. Proof. rewrite app_nth2 by lia. f_equal. lia. Qed.

(** ** bosons: species k of the first site is species k of the pair, species k of the second one is species length a + k *)
Section Bosons.
  Variables a b : list nat.
  Hypotheses (Ha : a <> []) (Hb : b <> []).
  Lemma app_ne : a ++ b <> []. Proof. destruct a; [congruence|discriminate]. Qed.
  Lemma bos_left (op : nat -> mat) k : k < length a -> meq (sdim a * sdim b) (bigop (a ++ b) (single k (op (nth k (a ++ b) 0)))) (on_left (sdim b) (bigop a (single k (op (nth k a 0))))).
  Proof.
    intros Hk s t Hs Ht. rewrite bigop_app. unfold on_left. apply otimes_ext with (d0 := sdim a); try assumption.
    - intros u v Hu Hv. rewrite nth_app_l by assumption. reflexivity.
    - eapply meq_trans; [|apply meye_bigop]. apply bigop_ext'. intros j x y Hj _ _. unfold single. rewrite (proj2 (Nat.eqb_neq _ _)) by lia. reflexivity.
  Qed.
  Lemma bos_right (op : nat -> mat) k : k < length b -> meq (sdim a * sdim b) (bigop (a ++ b) (single (length a + k) (op (nth (length a + k) (a ++ b) 0)))) (on_right (sdim b) (bigop b (single k (op (nth k b 0))))).
  Proof.
    intros Hk s t Hs Ht. rewrite bigop_app. unfold on_right. apply otimes_ext with (d0 := sdim a); try assumption.
    - eapply meq_trans; [|apply meye_bigop]. apply bigop_ext'. intros j x y Hj _ _. unfold single. rewrite (proj2 (Nat.eqb_neq _ _)) by lia. reflexivity.
    - apply bigop_ext'. intros j x y Hj _ _. unfold single. rewrite nth_app_r. replace (length a + j =? length a + k) with (j =? k); [reflexivity|]. destruct (Nat.eqb_spec j k), (Nat.eqb_spec (length a + j) (length a + k)); lia.
  Qed.
  Lemma bos_ann l k : l <> [] -> meq (sdim l) (annihilator l k) (bigop l (single k (ann (nth k l 0)))).
  Proof. intros H s t Hs Ht. now apply annihilator_bigop. Qed.
  Lemma bos_cre l k : l <> [] -> meq (sdim l) (creator l k) (bigop l (single k (cre (nth k l 0)))).
  Proof. intros H s t Hs Ht. now apply creator_bigop. Qed.
  Lemma bos_cre_left k : k < length a -> meq (sdim a * sdim b) (creator (a ++ b) k) (on_left (sdim b) (creator a k)).
  Proof.
    intros Hk. rewrite <- sdim_app. eapply meq_trans; [apply bos_cre, app_ne|]. rewrite sdim_app. eapply meq_trans; [apply (@bos_left cre k Hk)|]. apply otimes_on_left. apply meq_sym, bos_cre, Ha.
  Qed.
  Lemma bos_cre_right k : k < length b -> meq (sdim a * sdim b) (creator (a ++ b) (length a + k)) (on_right (sdim b) (creator b k)).
  Proof.
    intros Hk. rewrite <- sdim_app. eapply meq_trans; [apply bos_cre, app_ne|]. rewrite sdim_app. eapply meq_trans; [apply (@bos_right cre k Hk)|]. apply otimes_on_right. apply meq_sym, bos_cre, Hb.
  Qed.
  Lemma bos_ann_right k : k < length b -> meq (sdim a * sdim b) (annihilator (a ++ b) (length a + k)) (on_right (sdim b) (annihilator b k)).
  Proof.
    intros Hk. rewrite <- sdim_app. eapply meq_trans; [apply bos_ann, app_ne|]. rewrite sdim_app. eapply meq_trans; [apply (@bos_right ann k Hk)|]. apply otimes_on_right. apply meq_sym, bos_ann, Hb.
  Qed.
End Bosons.
(** ** fermions *)
Section Fermions.
  Variables n m : nat.
  Hypotheses (Hn : 0 < n) (Hm : 0 < m).
  Notation D2 := (2 ^ m).
  Lemma rep_app : repeat 1 (n + m) = repeat 1 n ++ repeat 1 m. Proof. apply repeat_app. Qed.
  Lemma fer_left A k : k < n -> meq (2 ^ n * 2 ^ m) (bigop (repeat 1 (n + m)) (jwf k A)) (on_left D2 (bigop (repeat 1 n) (jwf k A))).
  Proof.
    intros Hk s t Hs Ht. rewrite rep_app, bigop_app, sdim_rep. unfold on_left. apply otimes_ext with (d0 := 2 ^ n); try assumption; [apply meq_refl|].
    rewrite <- sdim_rep. eapply meq_trans; [|apply meye_bigop]. apply bigop_ext'. intros j x y Hj _ _. rewrite repeat_length. unfold jwf.
    rewrite (proj2 (Nat.ltb_ge _ _)) by lia. rewrite (proj2 (Nat.eqb_neq _ _)) by lia. reflexivity.
  Qed.
  Lemma fer_right A k : k < m -> meq (2 ^ n * 2 ^ m) (bigop (repeat 1 (n + m)) (jwf (n + k) A)) (otimes D2 (bigop (repeat 1 n) (fun _ => Zm)) (bigop (repeat 1 m) (jwf k A))).
  Proof.
    intros Hk s t Hs Ht. rewrite rep_app, bigop_app, sdim_rep. apply otimes_ext with (d0 := 2 ^ n); try assumption; rewrite <- sdim_rep; apply bigop_ext'; intros j x y Hj _ _; rewrite repeat_length in Hj; unfold jwf.
    - rewrite (proj2 (Nat.ltb_lt _ _)) by lia. reflexivity.
    - rewrite repeat_length. replace (n + j <? n + k) with (j <? k) by (destruct (Nat.ltb_spec j k), (Nat.ltb_spec (n + j) (n + k)); lia).
      replace (n + j =? n + k) with (j =? k) by (destruct (Nat.eqb_spec j k), (Nat.eqb_spec (n + j) (n + k)); lia). reflexivity.
  Qed.
  Lemma fer_cre N k : 0 < N -> k < N -> meq (2 ^ N) (get_creator (fermion_site N) k true) (bigop (repeat 1 N) (jwf k (cre 1))).
  Proof. intros H Hk s t Hs Ht. now apply get_cre_bigop. Qed.
  Lemma fer_ann N k : 0 < N -> k < N -> meq (2 ^ N) (get_annihilator (fermion_site N) k true) (bigop (repeat 1 N) (jwf k (ann 1))).
  Proof. intros H Hk s t Hs Ht. now apply get_ann_bigop. Qed.
  Lemma fer_JW N : 0 < N -> meq (2 ^ N) (JW (fermion_site N)) (bigop (repeat 1 N) (fun _ => Zm)).
  Proof. intros H s t Hs Ht. now apply JW_bigop. Qed.
  Lemma fer_cre_left k : k < n -> meq (2 ^ n * 2 ^ m) (get_creator (fermion_site (n + m)) k true) (on_left D2 (get_creator (fermion_site n) k true)).
  Proof.
    intros Hk. rewrite <- Nat.pow_add_r. eapply meq_trans; [apply fer_cre; lia|]. rewrite Nat.pow_add_r. eapply meq_trans; [now apply fer_left|]. apply otimes_on_left. apply meq_sym, fer_cre; assumption.
  Qed.
  Lemma fer_cre_right k : k < m -> meq (2 ^ n * 2 ^ m) (get_creator (fermion_site (n + m)) (n + k) true) (otimes D2 (JW (fermion_site n)) (get_creator (fermion_site m) k true)).
  Proof.
    intros Hk. rewrite <- Nat.pow_add_r. eapply meq_trans; [apply fer_cre; lia|]. rewrite Nat.pow_add_r. eapply meq_trans; [now apply fer_right|]. apply otimes_ext; apply meq_sym; [now apply fer_JW|now apply fer_cre].
  Qed.
  Lemma fer_ann_right k : k < m -> meq (2 ^ n * 2 ^ m) (get_annihilator (fermion_site (n + m)) (n + k) true) (otimes D2 (JW (fermion_site n)) (get_annihilator (fermion_site m) k true)).
  Proof.
    intros Hk. rewrite <- Nat.pow_add_r. eapply meq_trans; [apply fer_ann; lia|]. rewrite Nat.pow_add_r. eapply meq_trans; [now apply fer_right|]. apply otimes_ext; apply meq_sym; [now apply fer_JW|now apply fer_ann].
  Qed.
End Fermions.
