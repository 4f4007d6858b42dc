(** Proofs for C71: attaching a tensor at consecutive legs of another one; the pairs; the checks. *)
From Coq Require Import ZArith List Bool Lia Permutation.
From Verif Require Import Util GridModel PermLegsModel PermLegsSpec PermLegsProps PlanarModel PlanarSpec PlanarProofs1 PlanarProofs2 PlanarProofs4 PlanarProofs7 PlanarProofs8 PcModel PcSpec PcProofs1.
Import ListNotations.
Set Implicit Arguments. Unset Strict Implicit.
Open Scope nat_scope.

Lemma skipn_len A (a b : list A) : skipn (length a) (a ++ b) = b.
Proof. induction a; cbn; auto. Qed.
Lemma firstn_len A (a b : list A) : firstn (length a) (a ++ b) = a.
Proof. induction a; cbn; f_equal; auto. Qed.

(** the tensor [t] has the contracted legs [seg] in its codomain, [u] has theirs as its domain [q] *)
Lemma attach_cod A (pre seg post : list A) dom uo q : length q = length seg -> 0 < length seg ->
  (if length seg <? length (pre ++ seg ++ post) then partial_compose (pre ++ seg ++ post, dom) (uo, q) (length pre) else compose (uo, q) (pre ++ seg ++ post, dom)) =
  COk (Joined (if length seg <? length (pre ++ seg ++ post) then combine seg q else combine q seg) (pre ++ uo ++ post, dom)).
Proof.
  intros LQ LS. destruct (Nat.ltb_spec (length seg) (length (pre ++ seg ++ post))) as [H|H]; rewrite !app_length in H.
  - unfold partial_compose. cbn [fst snd]. rewrite !app_length, LQ. destruct (Nat.ltb_spec (length pre) (length pre + (length seg + length post))) as [_|]; [|lia].
    destruct (Nat.eqb_spec (length seg) 0) as [|_]; [lia|]. destruct (Nat.leb_spec (length pre + (length seg + length post)) (length pre + length seg - 1)) as [|_]; [lia|].
    destruct (Nat.leb_spec (length pre + (length seg + length post)) (length seg)) as [|_]; [lia|]. cbn [orb]. rewrite skipn_len, firstn_len, firstn_len.
    do 5 f_equal. rewrite <- app_length, app_assoc, skipn_len. reflexivity.
  - assert (pre = []) as -> by (apply length_zero_iff_nil; lia). assert (post = []) as -> by (apply length_zero_iff_nil; lia). cbn [app]. rewrite !app_nil_r. unfold compose. cbn [fst snd]. now rewrite LQ, Nat.eqb_refl.
Qed.
(** the tensor [t] has them in its domain, [u] has theirs as its codomain *)
Lemma attach_dom A (co pre seg post : list A) u q : length q = length seg -> 0 < length seg ->
  let dom := rev (pre ++ seg ++ post) in
  (if length seg <? length dom then partial_compose (co, dom) (q, u) (length co + length pre) else compose (co, dom) (q, u)) =
  COk (Joined (combine (rev seg) q) (co, rev post ++ u ++ rev pre)).
Proof.
  intros LQ LS dom. assert (LD : length dom = length pre + (length seg + length post)) by (unfold dom; rewrite rev_length, !app_length; lia).
  assert (ED : dom = rev post ++ rev seg ++ rev pre) by (unfold dom; rewrite !rev_app_distr, <- app_assoc; reflexivity).
  destruct (Nat.ltb_spec (length seg) (length dom)) as [H|H].
  - unfold partial_compose. cbn [fst snd]. rewrite LQ, LD. destruct (Nat.ltb_spec (length co + length pre) (length co)) as [|_]; [lia|].
    destruct (Nat.eqb_spec (length seg) 0) as [|_]; [lia|]. destruct (Nat.leb_spec (length co + (length pre + (length seg + length post))) (length co + length pre + length seg - 1)) as [|_]; [lia|].
    destruct (Nat.leb_spec (length pre + (length seg + length post)) (length seg)) as [|_]; [lia|]. cbn [orb].
    replace (length co + (length pre + (length seg + length post)) - 1 - (length co + length pre + length seg - 1)) with (length (rev post)) by (rewrite rev_length; lia).
    rewrite ED, skipn_len, firstn_len. replace (length seg) with (length (rev seg)) at 1 2 by apply rev_length. rewrite firstn_len. do 4 f_equal.
    rewrite <- app_length, app_assoc, skipn_len. reflexivity.
  - assert (pre = []) as -> by (apply length_zero_iff_nil; lia). assert (post = []) as -> by (apply length_zero_iff_nil; lia). unfold compose. cbn [fst snd]. rewrite LD, LQ. cbn [length plus]. rewrite Nat.add_0_r, Nat.eqb_refl. cbn [negb].
    rewrite ED. cbn [rev app]. now rewrite !app_nil_r.
Qed.

Lemma joins_12 (a b : list nat) : length a = length b -> Forall2 joins (combine (map inl a) (map inr b)) (combine a b).
Proof. revert b. induction a as [|x a IH]; intros [|y b] L; cbn in *; try lia; constructor; [now left|]. apply IH. lia. Qed.
Lemma joins_21 (a b : list nat) : length a = length b -> Forall2 joins (combine (map inr b) (map inl a)) (combine a b).
Proof. revert b. induction a as [|x a IH]; intros [|y b] L; cbn in *; try lia; constructor; [now right|]. apply IH. lia. Qed.
Lemma combine_app A B (a a' : list A) (b b' : list B) : length a = length b -> combine (a ++ a') (b ++ b') = combine a b ++ combine a' b'.
Proof. revert b. induction a as [|x a IH]; intros [|y b] L; cbn in *; try lia; [reflexivity|]. f_equal. apply IH. lia. Qed.
Lemma combine_rev A B (a : list A) (b : list B) : length a = length b -> combine (rev a) (rev b) = rev (combine a b).
Proof. revert b. induction a as [|x a IH]; intros [|y b] L; cbn in *; try lia; [reflexivity|]. rewrite combine_app by (rewrite !rev_length; lia). rewrite IH by lia. reflexivity. Qed.
Lemma map_fst_combine A B (a : list A) (b : list B) : length a = length b -> map fst (combine a b) = a.
Proof. revert b. induction a as [|x a IH]; intros [|y b] L; cbn in *; try lia; [reflexivity|]. f_equal. apply IH. lia. Qed.
Lemma map_snd_combine A B (a : list A) (b : list B) : length a = length b -> map snd (combine a b) = b.
Proof. revert b. induction a as [|x a IH]; intros [|y b] L; cbn in *; try lia; [reflexivity|]. f_equal. apply IH. lia. Qed.

Lemma partner_nth legs1 : forall legs2 x y, NoDup legs1 -> In (x, y) (combine legs1 legs2) -> nth (index_of legs1 x) legs2 0 = y.
Proof.
  induction legs1 as [|a legs1 IH]; intros legs2 x y ND I; [easy|]. destruct legs2 as [|b legs2]; [easy|]. cbn [index_of]. inversion ND as [|? ? NI ND']; subst. cbn [combine] in I. destruct I as [I|I].
  - injection I as -> ->. now rewrite Nat.eqb_refl.
  - destruct (Nat.eqb_spec a x) as [->|N]; [apply in_combine_l in I; contradiction|]. cbn [nth]. now apply IH.
Qed.
Lemma partners_eq legs1 legs2 contr1 contr2 : NoDup legs1 -> length contr1 = length contr2 -> Permutation (combine contr1 contr2) (combine legs1 legs2) ->
  map (fun c1 => nth (index_of legs1 c1) legs2 0) contr1 = contr2.
Proof.
  intros ND L P. assert (Q : forall x y, In (x, y) (combine contr1 contr2) -> nth (index_of legs1 x) legs2 0 = y) by (intros x y I; apply partner_nth; [exact ND|now apply (Permutation_in _ P)]). clear P.
  revert contr2 L Q. induction contr1 as [|x contr1 IH]; intros [|y contr2] L Q; cbn in L; try lia; [reflexivity|]. cbn [map]. f_equal; [apply Q; now left|]. apply IH; [lia|]. intros; apply Q. now right.
Qed.

(** the condition on neighbours *)
Definition descends (n2 : nat) (l : list nat) : bool := forallb (fun i => nth (i + 1) l 0 =? (nth i l 0 + n2 - 1) mod n2) (seq 0 (length l - 1)).
Lemma mod_pred x n : 0 < n -> (S x mod n + n - 1) mod n = x mod n.
Proof.
  intros N. replace (S x mod n + n - 1) with (S x mod n + (n - 1)) by lia. rewrite Nat.add_mod_idemp_l by lia. replace (S x + (n - 1)) with (x + 1 * n) by lia. now rewrite Nat.mod_add by lia.
Qed.
Lemma descends_arc n2 s m : 0 < n2 -> descends n2 (rev (arc n2 s m)) = true.
Proof.
  intros N. unfold descends. apply forallb_forall. intros i I. apply in_seq in I. rewrite rev_length, arc_length in I. apply Nat.eqb_eq. rewrite !rev_nth by (rewrite arc_length; lia). rewrite arc_length, !nth_arc by lia.
  replace (s + (m - S i)) with (S (s + (m - S (i + 1)))) by lia. now rewrite mod_pred.
Qed.
Lemma descends_inv n2 l : 0 < n2 -> Forall (fun i => i < n2) l -> descends n2 l = true -> l = rev (arc n2 (last l 0) (length l)).
Proof.
  intros N F D. unfold descends in D. rewrite forallb_forall in D.
  assert (X : forall j, j < length l -> nth (length l - 1 - j) l 0 = (last l 0 + j) mod n2).
  { intros j. assert (LB : forall i, i < length l -> nth i l 0 < n2) by (intros i H; rewrite Forall_forall in F; apply F; now apply nth_In).
    assert (EL : last l 0 = nth (length l - 1) l 0).
    { clear. induction l as [|x l IH]; [reflexivity|]. destruct l as [|y l]; [reflexivity|]. change (last (x :: y :: l) 0) with (last (y :: l) 0). rewrite IH. cbn. now rewrite Nat.sub_0_r. }
    induction j as [|j IH]; intros H.
    - rewrite Nat.sub_0_r, Nat.add_0_r, EL. rewrite Nat.mod_small; [reflexivity|]. apply LB. lia.
    - assert (D' := D (length l - 1 - S j)). rewrite in_seq in D'. specialize (D' ltac:(lia)). apply Nat.eqb_eq in D'. replace (length l - 1 - S j + 1) with (length l - 1 - j) in D' by lia.
      rewrite IH in D' by lia. specialize (LB (length l - 1 - S j) ltac:(lia)). set (v := nth (length l - 1 - S j) l 0) in *. clearbody v. 
      replace (last l 0 + S j) with ((last l 0 + j) + 1) by lia. rewrite Nat.add_mod by lia. rewrite D'. rewrite <- Nat.add_mod by lia. replace (v + n2 - 1 + 1) with (v + 1 * n2) by lia. rewrite Nat.mod_add by lia. symmetry. now apply Nat.mod_small. }
  apply rev_eq. apply list_eq_nth with (d := 0). { now rewrite rev_length, arc_length. }
  intros i H. rewrite rev_length in H. rewrite rev_nth by lia. rewrite nth_arc by lia. rewrite <- X by lia. f_equal. lia.
Qed.
