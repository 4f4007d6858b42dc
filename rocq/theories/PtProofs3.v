(** C70, part 3: the order of legs in FusionTreeBackend::partial_trace. *)
From Coq Require Import ZArith List Bool Lia Permutation Sorted.
From Verif Require Import Util PlanarModel PlanarSpec PlanarProofs1 PlanarProofs2 PtModel PtSpec PtProofs1.
Import ListNotations.
Set Implicit Arguments. Unset Strict Implicit.
Open Scope nat_scope.

(** inserting at the end of a prefix *)
Lemma insert_at_app i x l l' : length l = i -> insert_at i x (l ++ l') = l ++ x :: l'.
Proof. intros <-. unfold insert_at. rewrite firstn_app, firstn_all, skipn_app, skipn_all, Nat.sub_diag. cbn [firstn skipn]. now rewrite app_nil_r. Qed.

(** the pairs, each before the remaining leg with the number [slot] *)
Fixpoint weave (slot : nat * nat -> nat) (prev : nat) (ps : list (nat * nat)) (rem : list nat) : list nat :=
  match ps with
  | [] => rem
  | p :: t => firstn (slot p - prev) rem ++ fst p :: snd p :: weave slot (slot p) t (skipn (slot p - prev) rem)
  end.
Fixpoint slots_ascend (slot : nat * nat -> nat) (prev : nat) (ps : list (nat * nat)) : Prop :=
  match ps with [] => True | p :: t => prev <= slot p /\ slots_ascend slot (slot p) t end.
Lemma insert_pairs_weave rem0 ps : let slot := fun p : nat * nat => length (filter (fun r => r <? fst p) rem0) in
  forall i prev pre rem, length pre = prev + 2 * i -> prev + length rem = length rem0 -> slots_ascend slot prev ps ->
  insert_pairs rem0 i ps (pre ++ rem) = pre ++ weave slot prev ps rem.
Proof.
  intros slot. induction ps as [|p t IH]; intros i prev pre rem LP LR SA; [reflexivity|]. cbn [insert_pairs weave]. destruct SA as [SA1 SA2].
  assert (SL : slot p <= length rem0) by (unfold slot; apply filter_length_le). change (length (filter (fun r => r <? fst p) rem0)) with (slot p).
  assert (E : pre ++ rem = (pre ++ firstn (slot p - prev) rem) ++ skipn (slot p - prev) rem) by (rewrite <- app_assoc, firstn_skipn; reflexivity). rewrite E.
  assert (L1 : length (pre ++ firstn (slot p - prev) rem) = slot p + 2 * i) by (rewrite app_length, firstn_length; lia).
  rewrite (insert_at_app (fst p) _ L1).
  replace (insert_at (slot p + 2 * i + 1) (snd p) ((pre ++ firstn (slot p - prev) rem) ++ fst p :: skipn (slot p - prev) rem)) with ((pre ++ firstn (slot p - prev) rem ++ [fst p; snd p]) ++ skipn (slot p - prev) rem).
  - rewrite (IH (i + 1) (slot p)); [rewrite <- !app_assoc; reflexivity| | |exact SA2].
    + rewrite !app_length, firstn_length. cbn [length]. lia.
    + rewrite skipn_length. lia.
  - symmetry. etransitivity; [|symmetry; rewrite !app_assoc; reflexivity]. replace ((pre ++ firstn (slot p - prev) rem) ++ fst p :: skipn (slot p - prev) rem) with (((pre ++ firstn (slot p - prev) rem) ++ [fst p]) ++ skipn (slot p - prev) rem) by (rewrite <- app_assoc; reflexivity).
    rewrite insert_at_app by (rewrite app_length, L1; cbn [length]; lia). rewrite <- !app_assoc. reflexivity.
Qed.

Lemma weave_perm slot prev ps rem : Permutation (weave slot prev ps rem) (rem ++ pair_legs ps).
Proof.
  revert prev rem. induction ps as [|p t IH]; intros prev rem; cbn [weave]; [cbn; now rewrite app_nil_r|].
  rewrite IH. cbn [pair_legs flat_map app]. fold (pair_legs t). rewrite <- (firstn_skipn (slot p - prev) rem) at 3. rewrite <- app_assoc. apply Permutation_app_head.
  transitivity ((fst p :: snd p :: []) ++ (skipn (slot p - prev) rem ++ pair_legs t)); [reflexivity|]. apply Permutation_app_swap_app.
Qed.
Lemma weave_pair slot prev ps rem p : In p ps -> exists i, nth_error (weave slot prev ps rem) i = Some (fst p) /\ nth_error (weave slot prev ps rem) (i + 1) = Some (snd p).
Proof.
  revert prev rem. induction ps as [|q t IH]; intros prev rem I; [destruct I|]. cbn [weave]. set (f := firstn (slot q - prev) rem). destruct I as [->|I].
  - exists (length f). rewrite !nth_error_app2 by lia. rewrite Nat.sub_diag. replace (length f + 1 - length f) with 1 by lia. split; reflexivity.
  - destruct (IH (slot q) (skipn (slot q - prev) rem) I) as (i & A & B). exists (length f + 2 + i). rewrite !nth_error_app2 by lia. replace (length f + 2 + i - length f) with (Datatypes.S (Datatypes.S i)) by lia.
    replace (length f + 2 + i + 1 - length f) with (Datatypes.S (Datatypes.S (i + 1))) by lia. cbn [nth_error]. now split.
Qed.
Lemma weave_filter slot prev ps rem (f : nat -> bool) : (forall p, In p ps -> f (fst p) = false /\ f (snd p) = false) -> filter f (weave slot prev ps rem) = filter f rem.
Proof.
  revert prev rem. induction ps as [|p t IH]; intros prev rem H; [reflexivity|]. cbn [weave]. rewrite filter_app. cbn [filter]. destruct (H p (or_introl eq_refl)) as [-> ->]. rewrite IH by (intros q I; apply H; now right).
  rewrite <- filter_app. now rewrite firstn_skipn.
Qed.

(** cutting the weave behind the first [k] remaining legs and some pairs *)
Lemma weave_cut slot prev ps rem k c : slots_ascend slot prev ps -> prev <= k -> k <= prev + length rem ->
  length (filter (fun p => slot p <? k) ps) <= c -> c <= length (filter (fun p => slot p <=? k) ps) ->
  exists j, j <= length ps /\ firstn (k - prev + 2 * c) (weave slot prev ps rem) = weave slot prev (firstn j ps) (firstn (k - prev) rem) /\ c = j /\ (forall p, In p (firstn j ps) -> slot p <= k).
Proof.
  revert prev rem c. induction ps as [|p t IH]; intros prev rem c SA PK KR C1 C2.
  - cbn in C2. exists 0. replace c with 0 by lia. cbn [weave firstn]. rewrite Nat.add_0_r. repeat split; auto. intros p [].
  - destruct SA as [SA1 SA2]. cbn [weave]. destruct c as [|c].
    + exists 0. rewrite Nat.add_0_r. repeat split; [lia| |intros q []]. cbn [filter] in C1. destruct (Nat.ltb_spec (slot p) k); [cbn in C1; lia|]. rewrite firstn_app. rewrite firstn_firstn, Nat.min_l by lia.
      replace (k - prev - length (firstn (slot p - prev) rem)) with 0 by (rewrite firstn_length; lia). cbn [firstn weave]. now rewrite app_nil_r.
    + cbn [filter] in C1, C2. assert (Pk : slot p <= k).
      { destruct (Nat.leb_spec (slot p) k); [assumption|]. exfalso. assert (Z : length (filter (fun q => slot q <=? k) t) = 0); [|lia]. clear -SA2 H. revert H SA2. generalize (slot p). induction t as [|q t IH]; intros s H X; [reflexivity|]. destruct X as [A B]. cbn [filter]. destruct (Nat.leb_spec (slot q) k); [lia|]. now apply (IH (slot q)). }
      assert (D1 : length (filter (fun q => slot q <? k) t) <= c).
      { destruct (Nat.ltb_spec (slot p) k) as [Q|Q]; [cbn [length] in C1; lia|]. assert (Z : length (filter (fun q => slot q <? k) t) = 0); [|lia]. clear -SA2 Q. revert Q SA2. generalize (slot p). induction t as [|q t IH]; intros s H X; [reflexivity|]. destruct X as [A B]. cbn [filter]. destruct (Nat.ltb_spec (slot q) k); [lia|]. now apply (IH (slot q)). }
      assert (D2 : c <= length (filter (fun q => slot q <=? k) t)) by (destruct (slot p <=? k); cbn [length] in C2; lia).
      destruct (IH (slot p) (skipn (slot p - prev) rem) c SA2 Pk) as (j & J & E & -> & Q); [rewrite skipn_length; lia|exact D1|exact D2|].
      exists (Datatypes.S j). cbn [length firstn weave]. split; [lia|]. split; [|split; [reflexivity|intros q [<-|I]; auto]].
      rewrite firstn_app. assert (LF : length (firstn (slot p - prev) rem) = slot p - prev) by (rewrite firstn_length; lia). rewrite LF. rewrite firstn_all2 by (rewrite LF; lia).
      replace (k - prev + 2 * Datatypes.S j - (slot p - prev)) with (Datatypes.S (Datatypes.S (k - slot p + 2 * j))) by lia. cbn [firstn]. rewrite E. rewrite firstn_firstn, Nat.min_l by lia. do 3 f_equal. f_equal.
      rewrite skipn_firstn_comm. f_equal. lia.
Qed.
Lemma weave_length slot prev ps rem : length (weave slot prev ps rem) = length rem + 2 * length ps.
Proof. rewrite (Permutation_length (weave_perm slot prev ps rem)), app_length. f_equal. clear. induction ps as [|p t IH]; [reflexivity|]. cbn [pair_legs flat_map app length]. fold (pair_legs t). rewrite IH. lia. Qed.
