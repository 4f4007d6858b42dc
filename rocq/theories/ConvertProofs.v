(** The odometer enumerates the grid; folding the legs of a block into a matrix and back. *)
From Verif Require Import Util StableSort RowModel RowProofs GridModel GridProofs SymModel CatSpec Sums SpaceModel SpaceSpec PipeModel PipeProofs PipeProofs4 TreeModel TensorModel BlockModel BlockProofs SparseModel SparseSpec ConvertModel.
Set Implicit Arguments. Unset Strict Implicit.
Open Scope nat_scope.

Lemma bump_spec ranges : forall cur, valid_idx ranges cur ->
  (exists c, bump ranges cur = Some c /\ valid_idx ranges c /\ fval c ranges = fval cur ranges + 1) \/ (bump ranges cur = None /\ fval cur ranges + 1 = prod ranges).
Proof.
  induction ranges as [|r ranges IH]; intros cur V; inversion V as [|c n cur' t Hc V']; subst; cbn [bump]; [right; split; reflexivity|].
  destruct (Nat.ltb_spec (c + 1) r) as [L|L].
  - left. exists (c + 1 :: cur'). split; [reflexivity|]. split; [now constructor|]. cbn [fval]. lia.
  - destruct (IH _ V') as [[c' [E [Vc F]]]|[E F]]; rewrite E.
    + left. exists (0 :: c'). split; [reflexivity|]. split; [constructor; [lia|exact Vc]|]. cbn [fval]. rewrite F. nia.
    + right. split; [reflexivity|]. cbn [fval]. change (prod (r :: ranges)) with (r * prod ranges). nia.
Qed.
Lemma odo_next_spec ranges cur : valid_idx ranges cur ->
  (exists c, odo_next ranges cur = Some c /\ valid_idx ranges c /\ flat_index ranges true c = flat_index ranges true cur + 1) \/ (odo_next ranges cur = None /\ flat_index ranges true cur + 1 = prod ranges).
Proof.
  intros V. unfold odo_next, flat_index. apply valid_rev in V. destruct (bump_spec V) as [[c [E [Vc F]]]|[E F]]; rewrite E.
  - left. exists (rev c). rewrite rev_involutive. split; [reflexivity|]. split; [apply valid_rev; now rewrite rev_involutive|exact F].
  - right. split; [reflexivity|]. rewrite F. apply prod_rev.
Qed.
Lemma odo_from_spec ranges n : forall cur, valid_idx ranges cur -> flat_index ranges true cur + n = prod ranges ->
  map (flat_index ranges true) (odo_from n ranges cur) = seq (flat_index ranges true cur) n /\ Forall (valid_idx ranges) (odo_from n ranges cur).
Proof.
  induction n as [|n IH]; intros cur V E; [split; [reflexivity|constructor]|]. cbn [odo_from map seq]. destruct (odo_next_spec V) as [[c [Ec [Vc F]]]|[Ec F]]; rewrite Ec.
  - destruct (IH c Vc) as [A B]; [lia|]. split; [|constructor; assumption]. f_equal. rewrite A, F. f_equal. lia.
  - assert (n = 0) by lia. subst. split; [reflexivity|]. constructor; [exact V|constructor].
Qed.
Lemma odo_all_eq ranges : odo_all ranges = make_grid ranges true.
Proof.
  unfold odo_all. destruct (existsb _ ranges) eqn:X.
  - apply existsb_exists in X. destruct X as [r [I L]]. apply Nat.leb_le in L. assert (Z : prod ranges = 0).
    { assert (r = 0) by lia. subst r. clear L. revert I. clear. induction ranges as [|x t IH]; [intros []|]; intros [I|I]; [subst; reflexivity|]. change (prod (x :: t)) with (x * prod t). rewrite IH by exact I. lia. }
    assert (L' := make_grid_length ranges true). rewrite Z in L'. destruct (make_grid ranges true); [reflexivity|discriminate].
  - assert (PO : Forall (fun n => 0 < n) ranges).
    { apply Forall_forall. intros r I. destruct (Nat.ltb_spec 0 r); [assumption|]. assert (existsb (fun r => r <=? 0) ranges = true); [|congruence]. apply existsb_exists. exists r. split; [exact I|now apply Nat.leb_le]. }
    assert (V0 : valid_idx ranges (repeat 0 (length ranges))) by (clear X; unfold valid_idx; induction PO; cbn; constructor; assumption).
    assert (F0 : flat_index ranges true (repeat 0 (length ranges)) = 0).
    { unfold flat_index. assert (Z : forall l n, fval (repeat 0 n) l = 0) by (induction l as [|x l IH]; intros [|n]; cbn; auto; rewrite IH; lia).
      assert (R : forall n, rev (repeat 0 n) = repeat 0 n) by (induction n; cbn; auto; rewrite IHn; clear; induction n; cbn; congruence). now rewrite R. }
    destruct (odo_from_spec (n := prod ranges) V0) as [A B]; [lia|]. rewrite F0 in A. rewrite <- (make_grid_index ranges true) in A.
    assert (B' : Forall (valid_idx ranges) (make_grid ranges true)) by (apply Forall_forall; intros r I; now apply make_grid_In in I).
    revert A B B'. generalize (odo_from (prod ranges) ranges (repeat 0 (length ranges))) as l, (make_grid ranges true) as l'. clear.
    induction l as [|x l IH]; intros [|y l'] A B B'; try discriminate; [reflexivity|]. inversion B; inversion B'; subst. cbn [map] in A. inversion A as [[A1 A2]]. f_equal; [|now apply IH]. exact (flat_index_inj (c := true) H1 H5 A1).
Qed.

Lemma sectors_at_row S legs : forall r, sectors_at S legs r = zipw (fun L i => nth i (es_decomp S L) []) legs r.
Proof. unfold sectors_at. induction legs as [|L legs IH]; intros [|i r]; cbn; auto. now rewrite IH. Qed.
Lemma mults_at_shp legs : forall r, mults_at legs r = shp (mults legs) r.
Proof. unfold mults_at, mults. induction legs as [|L legs IH]; intros [|i r]; cbn; auto. now rewrite IH. Qed.

(** ** folding *)
Lemma fold_perm k n : is_perm (k + n) (seq 0 k ++ rev (seq k n)).
Proof. unfold is_perm. rewrite seq_app. apply Permutation_app_head. symmetry. apply Permutation_rev. Qed.
Lemma slice_mid A (l1 l2 : list A) k : k = length l1 -> slice (l1 ++ l2) 0 k = l1.
Proof. intros ->. unfold slice. rewrite Nat.sub_0_r. cbn [skipn]. rewrite firstn_app, firstn_all, Nat.sub_diag. cbn. apply app_nil_r. Qed.
Lemma slice_end A (l1 l2 : list A) a b : a = length l1 -> b = length l1 + length l2 -> slice (l1 ++ l2) a b = l2.
Proof. intros -> ->. unfold slice. rewrite skipn_app, skipn_all, Nat.sub_diag. cbn. apply firstn_all2. lia. Qed.
Lemma take_fold A (d : A) (l1 l2 : list A) k n : k = length l1 -> n = length l2 -> take d (l1 ++ l2) (seq 0 k ++ rev (seq k n)) = l1 ++ rev l2.
Proof.
  intros -> ->. rewrite take_app_idx. f_equal.
  - rewrite take_seq_slice by (rewrite app_length; lia). cbn [skipn]. rewrite firstn_app, firstn_all, Nat.sub_diag. cbn. apply app_nil_r.
  - unfold take. rewrite map_rev. fold (take d (l1 ++ l2) (seq (length l1) (length l2))). rewrite take_seq_slice by (rewrite app_length; lia). rewrite skipn_app, skipn_all, Nat.sub_diag. cbn. now rewrite firstn_all2.
Qed.
Lemma last_seq' a n : 0 < n -> last (seq a n) 0 + 1 = a + n.
Proof. intros H. destruct n; [lia|]. rewrite seq_S, last_last. lia. Qed.
Lemma hd_seq a n : 0 < n -> hd 0 (seq a n) = a.
Proof. destruct n; [lia|reflexivity]. Qed.
Section Fold.
  Variable K : Type.
  Variable o : ops K.
  Notation block := (blk K).
  Lemma combine_loop2 s1 s2 : s1 <> [] -> s2 <> [] ->
    combine_loop (s1 ++ rev s2) 0 (combine [seq 0 (length s1); seq (length s1) (length s2)] [true; false]) = Some ([prod s1; prod s2], seq 0 (length s1) ++ rev (seq (length s1) (length s2))).
  Proof.
    intros N1 N2. assert (P1 : 0 < length s1) by (destruct s1; [easy|cbn; lia]). assert (P2 : 0 < length s2) by (destruct s2; [easy|cbn; lia]).
    cbn [combine combine_loop]. rewrite !hd_seq, !last_seq', !seq_length by assumption. rewrite !Nat.add_0_l, !Nat.ltb_irrefl.
    destruct (list_eq_dec _ _ _) as [_|X]; [|now destruct X]. destruct (list_eq_dec _ _ _) as [_|X]; [|now destruct X]. cbn [negb]. rewrite app_length, rev_length, !Nat.sub_diag, Nat.sub_0_r. cbn [seq app].
    assert (SL0 : slice (s1 ++ rev s2) 0 0 = []) by (unfold slice; cbn; destruct (s1 ++ rev s2); reflexivity). assert (SL1 : slice (s1 ++ rev s2) (length s1) (length s1) = []) by (unfold slice; rewrite Nat.sub_diag; reflexivity).
    rewrite SL0, SL1. cbn [app].
    rewrite skipn_all2 by (rewrite app_length, rev_length; lia). rewrite slice_mid by reflexivity. rewrite (slice_end (a := length s1)) by (rewrite ?rev_length; lia).
    replace (length s1 + length s2 - length s1) with (length s2) by lia. rewrite prod_rev, app_nil_r.
    reflexivity.
  Qed.
  Lemma combine2_spec (B : block) s1 s2 : bwf B -> bshape B = s1 ++ rev s2 -> s1 <> [] -> s2 <> [] ->
    exists V, bcombine_legs o B [seq 0 (length s1); seq (length s1) (length s2)] [true; false] = Some V /\ bshape V = [prod s1; prod s2] /\ bwf V /\
      forall p q, valid_idx s1 p -> valid_idx s2 q -> bat o V [flat_index s1 true p; flat_index s2 true q] = bat o B (p ++ rev q).
  Proof.
    intros WF SH N1 N2. unfold bcombine_legs. rewrite SH, combine_loop2 by assumption. set (perm := seq 0 (length s1) ++ rev (seq (length s1) (length s2))).
    assert (IP : is_perm (bndim B) perm) by (unfold bndim; rewrite SH, app_length, rev_length; apply fold_perm).
    assert (ST : bshape (btranspose o B perm) = s1 ++ s2) by (rewrite btranspose_shape, SH; unfold perm; rewrite take_fold by (rewrite ?rev_length; reflexivity); now rewrite rev_involutive).
    eexists. split; [reflexivity|]. split; [reflexivity|]. split; [apply breshape_wf; [apply btranspose_wf|rewrite ST, prod_app; cbn; lia]|].
    intros p q Vp Vq. assert (Vpq : valid_idx (s1 ++ s2) (p ++ q)) by (apply valid_app; [now apply valid_length|now split]).
    rewrite (@bat_reshape _ o _ _ (p ++ q)); [|now rewrite ST, (valid_length Vpq)|reflexivity|].
    - assert (TK : p ++ q = take 0 (p ++ rev q) perm) by (unfold perm; rewrite take_fold; [now rewrite rev_involutive|symmetry; now apply valid_length|rewrite rev_length; symmetry; now apply valid_length]).
      rewrite TK. apply bat_transpose_take; [exact IP|]. rewrite SH. apply valid_app; [now apply valid_length|]. split; [exact Vp|]. now apply valid_rev in Vq.
    - rewrite flat_index_2, ST. now rewrite flat_index_app by (now apply valid_length).
  Qed.
  Definition unfolded (s1 s2 : list nat) (V B : block) : Prop :=
    bshape B = s1 ++ rev s2 /\ bwf B /\ forall p q, valid_idx s1 p -> valid_idx s2 q -> bat o B (p ++ rev q) = bat o V [flat_index s1 true p; flat_index s2 true q].
  Lemma slice_nil A (l : list A) a : slice l a a = [].
  Proof. unfold slice. rewrite Nat.sub_diag. reflexivity. Qed.
  Lemma combine_dom_spec (B : block) s2 : bwf B -> bshape B = rev s2 -> s2 <> [] ->
    exists V, bcombine_legs o B [seq 0 (length s2)] [false] = Some V /\ bshape V = [prod s2] /\ bwf V /\
      forall q, valid_idx s2 q -> bat o (breshape V (1 :: bshape V)) [0; flat_index s2 true q] = bat o B (rev q).
  Proof.
    intros WF SH N2. assert (P2 : 0 < length s2) by (destruct s2; [easy|cbn; lia]).
    assert (CL : combine_loop (bshape B) 0 (combine [seq 0 (length s2)] [false]) = Some ([prod s2], rev (seq 0 (length s2)))).
    { rewrite SH. cbn [combine combine_loop]. rewrite !hd_seq, !last_seq', !seq_length by assumption. rewrite Nat.ltb_irrefl. destruct (list_eq_dec _ _ _) as [_|X]; [|now destruct X]. cbn [negb].
      rewrite rev_length, !Nat.add_0_l, !Nat.sub_diag, Nat.sub_0_r. cbn [seq app]. rewrite skipn_all2 by (rewrite rev_length; lia). rewrite slice_nil, app_nil_r. rewrite <- (rev_length s2). rewrite <- (app_nil_r (rev s2)) at 1. rewrite slice_mid by reflexivity. now rewrite prod_rev. }
    unfold bcombine_legs. rewrite CL. set (perm := rev (seq 0 (length s2))).
    assert (IP : is_perm (bndim B) perm) by (unfold bndim; rewrite SH, rev_length; apply (fold_perm 0)).
    assert (TF : forall A (d : A) l, length l = length s2 -> take d (rev l) perm = l) by (intros A d l L; unfold perm; change (rev (seq 0 (length s2))) with (seq 0 0 ++ rev (seq 0 (length s2))); change (rev l) with ([] ++ rev l); rewrite take_fold by (rewrite ?rev_length; auto); cbn; apply rev_involutive).
    assert (ST : bshape (btranspose o B perm) = s2) by (rewrite btranspose_shape, SH; now apply TF).
    eexists. split; [reflexivity|]. split; [reflexivity|]. split; [apply breshape_wf; [apply btranspose_wf|rewrite ST; cbn; lia]|].
    intros q Vq. change (breshape (breshape (btranspose o B perm) [prod s2]) _) with (breshape (btranspose o B perm) [1; prod s2]).
    rewrite (@bat_reshape _ o _ _ q); [|now rewrite ST, (valid_length Vq)|reflexivity|].
    - rewrite <- (TF _ 0 q) at 1 by (now rewrite (valid_length Vq)). apply bat_transpose_take; [exact IP|]. rewrite SH. now apply valid_rev in Vq.
    - rewrite flat_index_2, ST. lia.
  Qed.
  Lemma combine_cod_spec (B : block) s1 : bwf B -> bshape B = s1 -> s1 <> [] ->
    exists V, bcombine_legs o B [seq 0 (length s1)] [true] = Some V /\ bshape V = [prod s1] /\ bwf V /\
      forall p, valid_idx s1 p -> bat o (breshape V (bshape V ++ [1])) [flat_index s1 true p; 0] = bat o B p.
  Proof.
    intros WF SH N1. assert (P1 : 0 < length s1) by (destruct s1; [easy|cbn; lia]).
    assert (CL : combine_loop (bshape B) 0 (combine [seq 0 (length s1)] [true]) = Some ([prod s1], seq 0 (length s1))).
    { rewrite SH. cbn [combine combine_loop]. rewrite !hd_seq, !last_seq', !seq_length by assumption. rewrite Nat.ltb_irrefl. destruct (list_eq_dec _ _ _) as [_|X]; [|now destruct X]. cbn [negb].
      rewrite !Nat.add_0_l, !Nat.sub_diag, Nat.sub_0_r. cbn [seq app]. rewrite skipn_all2 by lia. rewrite slice_nil, app_nil_r. rewrite <- (app_nil_r s1) at 1. rewrite slice_mid by reflexivity. reflexivity. }
    unfold bcombine_legs. rewrite CL. set (perm := seq 0 (length s1)).
    assert (IP : is_perm (bndim B) perm) by (unfold bndim; rewrite SH; apply seq_is_perm).
    assert (TF : forall A (d : A) l, length l = length s1 -> take d l perm = l) by (intros A d l L; unfold perm; rewrite <- L; apply take_seq).
    assert (ST : bshape (btranspose o B perm) = s1) by (rewrite btranspose_shape, SH; now apply TF).
    eexists. split; [reflexivity|]. split; [reflexivity|]. split; [apply breshape_wf; [apply btranspose_wf|rewrite ST; cbn; lia]|].
    intros p Vp. change (breshape (breshape (btranspose o B perm) [prod s1]) _) with (breshape (btranspose o B perm) [prod s1; 1]).
    rewrite (@bat_reshape _ o _ _ p); [|now rewrite ST, (valid_length Vp)|reflexivity|].
    - rewrite <- (TF _ 0 p) at 1 by (now rewrite (valid_length Vp)). apply bat_transpose_take; [exact IP|]. now rewrite SH.
    - rewrite flat_index_2, ST. lia.
  Qed.
  Lemma split2_spec (V : block) s1 s2 : bwf V -> bshape V = [prod s1; prod s2] -> s1 <> [] -> s2 <> [] ->
    exists B, bsplit_legs o V [0; 1] [s1; s2] [true; false] = Some B /\ unfolded s1 s2 V B.
  Proof.
    intros WF SH N1 N2. unfold bsplit_legs, bndim. rewrite SH. cbn [length Nat.eqb andb negb forallb Nat.ltb Nat.leb seq Nat.sub nth Nat.add combine split_loop]. rewrite !Nat.eqb_refl. cbn [negb].
    rewrite !slice_nil. cbn [app skipn seq Nat.sub Nat.add]. rewrite !app_nil_r, !Nat.add_0_r.
    set (perm := seq 0 (length s1) ++ rev (seq (length s1) (length s2))).
    assert (IP : is_perm (bndim (breshape V (s1 ++ s2))) perm) by (unfold bndim, breshape; cbn [bshape]; rewrite app_length; apply fold_perm).
    assert (SB : bshape (btranspose o (breshape V (s1 ++ s2)) perm) = s1 ++ rev s2) by (rewrite btranspose_shape; unfold breshape; cbn [bshape]; unfold perm; now apply take_fold).
    eexists. split; [reflexivity|]. split; [exact SB|]. split; [apply btranspose_wf|]. intros p q Vp Vq.
    assert (Vpq : valid_idx (s1 ++ s2) (p ++ q)) by (apply valid_app; [now apply valid_length|now split]).
    assert (TK : p ++ rev q = take 0 (p ++ q) perm) by (unfold perm; rewrite take_fold; [reflexivity|symmetry; now apply valid_length|symmetry; now apply valid_length]).
    rewrite TK, bat_transpose_take by (assumption || exact Vpq). rewrite (@bat_reshape _ o _ _ [flat_index s1 true p; flat_index s2 true q]); [reflexivity|now rewrite SH|now rewrite (valid_length Vpq)|].
    rewrite SH, flat_index_2. now rewrite flat_index_app by (now apply valid_length).
  Qed.
  Lemma split_dom_spec (V : block) s2 : bwf V -> bshape V = [1; prod s2] -> s2 <> [] ->
    exists B, bsplit_legs o (breshape V (tl (bshape V))) [0] [s2] [false] = Some B /\ unfolded [] s2 V B.
  Proof.
    intros WF SH N2. unfold bsplit_legs, bndim. rewrite SH. cbn [tl bshape breshape length Nat.eqb andb negb forallb Nat.ltb Nat.leb seq Nat.sub nth Nat.add combine split_loop]. rewrite !Nat.eqb_refl. cbn [negb].
    rewrite !slice_nil. cbn [app skipn seq Nat.sub Nat.add]. rewrite !app_nil_r.
    set (perm := rev (seq 0 (length s2))). change (breshape (breshape V [prod s2]) s2) with (breshape V s2).
    assert (IP : is_perm (bndim (breshape V s2)) perm) by (unfold bndim, breshape; cbn [bshape]; apply (fold_perm 0)).
    assert (TF : forall A (d : A) l, length l = length s2 -> take d l perm = rev l) by (intros A d l L; unfold perm; change (rev (seq 0 (length s2))) with (seq 0 0 ++ rev (seq 0 (length s2))); change l with ([] ++ l) at 1; now rewrite take_fold by auto).
    assert (SB : bshape (btranspose o (breshape V s2) perm) = rev s2) by (rewrite btranspose_shape; unfold breshape; cbn [bshape]; now apply TF).
    eexists. split; [reflexivity|]. split; [exact SB|]. split; [apply btranspose_wf|]. intros p q Vp Vq. inversion Vp; subst. cbn [app].
    rewrite <- (TF _ 0 q) by (now apply valid_length). rewrite bat_transpose_take by (assumption || exact Vq). rewrite (@bat_reshape _ o _ _ [flat_index [] true []; flat_index s2 true q]); [reflexivity|now rewrite SH|now rewrite (valid_length Vq)|].
    rewrite SH, flat_index_2. cbn. lia.
  Qed.
  Lemma split_cod_spec (V : block) s1 : bwf V -> bshape V = [prod s1; 1] -> s1 <> [] ->
    exists B, bsplit_legs o (breshape V (removelast (bshape V))) [0] [s1] [true] = Some B /\ unfolded s1 [] V B.
  Proof.
    intros WF SH N2. unfold bsplit_legs, bndim. rewrite SH. cbn [removelast bshape breshape length Nat.eqb andb negb forallb Nat.ltb Nat.leb seq Nat.sub nth Nat.add combine split_loop]. rewrite !Nat.eqb_refl. cbn [negb].
    rewrite !slice_nil. cbn [app skipn seq Nat.sub Nat.add]. rewrite !app_nil_r.
    set (perm := seq 0 (length s1)). change (breshape (breshape V [prod s1]) s1) with (breshape V s1).
    assert (IP : is_perm (bndim (breshape V s1)) perm) by (unfold bndim, breshape; cbn [bshape]; apply seq_is_perm).
    assert (TF : forall A (d : A) l, length l = length s1 -> take d l perm = l) by (intros A d l L; unfold perm; rewrite <- L; apply take_seq).
    assert (SB : bshape (btranspose o (breshape V s1) perm) = s1) by (rewrite btranspose_shape; unfold breshape; cbn [bshape]; now apply TF).
    eexists. split; [reflexivity|]. split; [rewrite SB; cbn; now rewrite app_nil_r|]. split; [apply btranspose_wf|]. intros p q Vp Vq. inversion Vq; subst. cbn [rev]. rewrite app_nil_r.
    rewrite <- (TF _ 0 p) at 1 by (now apply valid_length). rewrite bat_transpose_take by (assumption || exact Vp). rewrite (@bat_reshape _ o _ _ [flat_index s1 true p; flat_index [] true []]); [reflexivity|now rewrite SH|now rewrite (valid_length Vp)|].
    rewrite SH, flat_index_2. cbn [flat_index fval]. cbn. lia.
  Qed.
End Fold.
