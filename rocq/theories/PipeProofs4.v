(** LegPipe: dual, flattening, nested indices. *)
From Verif Require Import Util StableSort RowModel RowProofs GridModel GridProofs SymModel SymProofs SpaceModel SpaceSpec SpaceProofs SpaceProofs2 SpaceProofs3 SpaceProofs7 PipeModel PipeProofs PipeProofs2 PipeProofs3.
Set Implicit Arguments. Unset Strict Implicit.
Open Scope nat_scope.

Section LegInd.
  Variable P : leg -> Prop.
  Hypothesis PS : forall E, P (LSpace E).
  Hypothesis PP : forall legs d c, Forall P legs -> P (LPipe legs d c).
  Fixpoint leg_ind' (L : leg) : P L :=
    match L with
    | LSpace E => PS E
    | LPipe legs d c => PP d c ((fix go ls : Forall P ls := match ls with [] => Forall_nil _ | l :: ls' => Forall_cons _ (leg_ind' l) (go ls') end) legs)
    end.
End LegInd.

(** every pipe has at least one leg (the constructor demands it, spaces.cpp:667, 672) and all spaces are sane *)
Fixpoint leg_wf (S : symm) (L : leg) : Prop :=
  match L with
  | LSpace E => es_ok S E
  | LPipe legs _ _ => legs <> [] /\ (fix go ls := match ls with [] => True | l :: ls' => leg_wf S l /\ go ls' end) legs
  end.
Lemma leg_wf_pipe S legs d c : leg_wf S (LPipe legs d c) <-> legs <> [] /\ Forall (leg_wf S) legs.
Proof.
  cbn [leg_wf]. split; intros [H H']; split; auto.
  - clear H. induction legs; constructor; destruct H'; auto.
  - clear H. induction H'; auto.
Qed.

(** reading the basis index of a (nested) leg from the indices of its flat legs *)
Fixpoint nest_index (S : symmetry) (L : leg) (r : list nat) : nat :=
  match L with
  | LSpace _ => nth 0 r 0
  | LPipe legs _ c =>
      flat_index (map (leg_dim S) legs) c
        ((fix go ls r := match ls with [] => [] | l :: ls' => nest_index S l (firstn (num_flat_legs l) r) :: go ls' (skipn (num_flat_legs l) r) end) legs r)
  end.
Fixpoint nest_parts (S : symmetry) (legs : list leg) (r : list nat) : list nat :=
  match legs with [] => [] | l :: ls' => nest_index S l (firstn (num_flat_legs l) r) :: nest_parts S ls' (skipn (num_flat_legs l) r) end.
Lemma nest_index_pipe S legs d c r : nest_index S (LPipe legs d c) r = flat_index (map (leg_dim S) legs) c (nest_parts S legs r).
Proof. cbn [nest_index]. f_equal. revert r. induction legs as [|l ls IH]; intros r; auto. cbn [nest_parts]. now rewrite <- IH. Qed.

(** flat data in the order in which the flat legs vary in the combined index, slowest first *)
Fixpoint corder (A : Type) (L : leg) (x : list A) : list A :=
  match L with
  | LSpace _ => x
  | LPipe legs _ c =>
      let parts := (fix go ls x := match ls with [] => [] | l :: ls' => corder l (firstn (num_flat_legs l) x) :: go ls' (skipn (num_flat_legs l) x) end) legs x in
      concat (if c then parts else rev parts)
  end.
Fixpoint corder_parts (A : Type) (legs : list leg) (x : list A) : list (list A) :=
  match legs with [] => [] | l :: ls' => corder l (firstn (num_flat_legs l) x) :: corder_parts ls' (skipn (num_flat_legs l) x) end.
Lemma corder_pipe A legs d c (x : list A) : corder (LPipe legs d c) x = concat (if c then corder_parts legs x else rev (corder_parts legs x)).
Proof.
  cbn [corder]. f_equal.
  enough (E : forall x, (fix go ls x := match ls with [] => [] | l :: ls' => corder l (firstn (num_flat_legs l) x) :: go ls' (skipn (num_flat_legs l) x) end) legs x = corder_parts legs x) by now rewrite E.
  clear x. induction legs as [|l ls IH]; intros x; auto. cbn [corder_parts]. now rewrite <- IH.
Qed.

(** * counting *)
Lemma num_flat_length L : num_flat_legs L = length (flat_legs L).
Proof.
  induction L as [E|legs d c F] using leg_ind'; auto. cbn [num_flat_legs flat_legs]. rewrite length_flat_map. f_equal. apply map_ext_in. intros l Hl. rewrite Forall_forall in F. now apply F.
Qed.
Lemma num_flat_pos S L : leg_wf S L -> 0 < num_flat_legs L.
Proof.
  induction L as [E|legs d c F] using leg_ind'; cbn [num_flat_legs]; [lia|]. intros W. apply leg_wf_pipe in W. destruct W as [N W].
  destruct legs as [|l ls]; [congruence|]. inversion F; inversion W; subst. cbn [map]. rewrite nsum_cons. assert (0 < num_flat_legs l) by auto. lia.
Qed.
Lemma leg_dim_flat (S : symmetry) L : leg_dim S L = prod (map (es_dim S) (flat_legs L)).
Proof.
  induction L as [E|legs d c F] using leg_ind'; cbn [leg_dim flat_legs map]; [unfold prod; cbn; lia|].
  rewrite fold_left_mul, Nat.mul_1_l. induction F as [|l ls H F IH]; auto. cbn [map flat_map]. rewrite map_app, prod_app, <- H, <- IH. reflexivity.
Qed.

(** * dual *)
Lemma dual_es_invol E : dual_es (dual_es E) = E.
Proof. destruct E. unfold dual_es. cbn. now rewrite Bool.negb_involutive. Qed.
Lemma dual_leg_invol L : dual_leg (dual_leg L) = L.
Proof.
  induction L as [E|legs d c F] using leg_ind'; cbn [dual_leg]; [now rewrite dual_es_invol|]. rewrite !Bool.negb_involutive. f_equal.
  rewrite map_rev, rev_involutive, map_map. rewrite <- map_id. apply map_ext_in. intros l Hl. rewrite Forall_forall in F. now apply F.
Qed.
Lemma rev_flat_map A B (f : A -> list B) l : rev (flat_map f l) = flat_map (fun x => rev (f x)) (rev l).
Proof. induction l as [|a l IH]; auto. cbn [flat_map rev]. rewrite rev_app_distr, IH, flat_map_app. cbn [flat_map]. now rewrite app_nil_r. Qed.
Lemma flat_legs_dual L : flat_legs (dual_leg L) = rev (map dual_es (flat_legs L)).
Proof.
  induction L as [E|legs d c F] using leg_ind'; auto. cbn [dual_leg flat_legs]. rewrite flat_map_map_out, rev_flat_map, <- map_rev, flat_map_map'.
  apply flat_map_ext_in. intros l Hl. rewrite Forall_forall in F. apply F. now apply in_rev.
Qed.
Lemma num_flat_dual L : num_flat_legs (dual_leg L) = num_flat_legs L.
Proof. rewrite !num_flat_length, flat_legs_dual, rev_length. apply map_length. Qed.
Lemma leg_wf_flat S L : leg_wf S L -> forall E, In E (flat_legs L) -> es_ok S E.
Proof.
  induction L as [E|legs d c F] using leg_ind'; cbn [flat_legs].
  - intros W E' [<-|[]]. exact W.
  - intros W E' H. apply leg_wf_pipe in W. destruct W as [_ W]. apply in_flat_map in H. destruct H as (l & Hl & H). rewrite Forall_forall in F, W. eapply F; eauto.
Qed.
Lemma leg_wf_dual S L : symm_ok S -> leg_wf S L -> leg_wf S (dual_leg L).
Proof.
  intros SO. induction L as [E|legs d c F] using leg_ind'; intros W.
  - now apply dual_ok.
  - apply leg_wf_pipe in W. destruct W as [N W]. cbn [dual_leg]. apply leg_wf_pipe. split.
    + intros E. apply N. apply length_zero_iff_nil. apply (f_equal (@length _)) in E. rewrite rev_length, map_length in E. exact E.
    + apply Forall_forall. intros l Hl. apply in_rev in Hl. apply in_map_iff in Hl. destruct Hl as (m & <- & Hm). rewrite Forall_forall in F, W. auto.
Qed.
Lemma leg_dim_dual S L : symm_ok S -> leg_wf S L -> leg_dim S (dual_leg L) = leg_dim S L.
Proof.
  intros SO W. rewrite !leg_dim_flat, flat_legs_dual, map_rev, prod_rev, map_map. f_equal. apply map_ext_in. intros E HE. apply dual_dim; auto. eapply leg_wf_flat; eauto.
Qed.

(** * the flattening permutation *)
Fixpoint gp (c : bool) (ls : list leg) : list nat :=
  match ls with
  | [] => []
  | l :: ls' => if c then flat_leg_permutation l 0 ++ map (fun i => i + num_flat_legs l) (gp c ls')
                else map (fun i => i + nsum (map num_flat_legs ls')) (flat_leg_permutation l 0) ++ gp c ls'
  end.
Definition gpc (off : nat) (c : bool) (legs : list leg) : list nat :=
  let ordered := if c then map num_flat_legs legs else rev (map num_flat_legs legs) in
  let offsets := offsets_from off ordered in
  let offsets := if c then offsets else rev offsets in
  concat (map (fun pf => snd pf (fst pf)) (combine offsets (map flat_leg_permutation legs))).
Lemma offsets_app a : forall off b, offsets_from off (a ++ b) = offsets_from off a ++ offsets_from (off + nsum a) b.
Proof. induction a as [|x a IH]; intros off b; cbn [app offsets_from]; [now rewrite Nat.add_0_r|]. rewrite IH, nsum_cons. do 3 f_equal. lia. Qed.
Lemma nsum_rev a : nsum (rev a) = nsum a.
Proof. apply nsum_perm. symmetry. apply Permutation_rev. Qed.
Lemma gpc_gp legs c off : Forall (fun l => forall off, flat_leg_permutation l off = map (fun i => i + off) (flat_leg_permutation l 0)) legs ->
  gpc off c legs = map (fun i => i + off) (gp c legs).
Proof.
  intros F. unfold gpc. destruct c; cbv zeta.
  - revert off. induction F as [|l ls H F IH]; intros off; auto. cbn [map offsets_from combine concat fst snd gp]. rewrite IH, map_app, H, map_map. f_equal.
    apply map_ext. intros i. lia.
  - induction F as [|l ls H F IH]; auto. cbn [map rev]. rewrite offsets_app. cbn [offsets_from]. rewrite rev_app_distr. cbn [rev app combine map concat fst snd gp].
    rewrite IH, map_app, H, map_map. f_equal. rewrite nsum_rev. apply map_ext. intros i. lia.
Qed.
Lemma all_ones l : Forall (fun n => 0 < n) l -> length l = nsum l -> Forall (fun n => n = 1) l.
Proof.
  assert (G : forall l, Forall (fun n => 0 < n) l -> length l <= nsum l) by (clear; induction 1 as [|n l H F IH]; [cbn; lia|]; rewrite nsum_cons; cbn [length]; lia).
  induction 1 as [|n l H F IH]; constructor; rewrite nsum_cons in *; cbn [length] in *; specialize (G l F); [lia|apply IH; lia].
Qed.
Lemma flp_one S L : leg_wf S L -> num_flat_legs L = 1 -> forall off, flat_leg_permutation L off = [off].
Proof.
  induction L as [E|legs d c F] using leg_ind'; intros W N off; auto. apply leg_wf_pipe in W. destruct W as [NE W].
  cbn [num_flat_legs] in N. assert (LE : length legs = 1).
  { assert (FP : Forall (fun n => 0 < n) (map num_flat_legs legs)) by (apply Forall_forall; intros n Hn; apply in_map_iff in Hn; destruct Hn as (l & <- & Hl); rewrite Forall_forall in W; eapply num_flat_pos; eauto).
    destruct legs as [|l [|m ls]]; [congruence|reflexivity|]. inversion FP as [|? ? A B]; inversion B; subst. cbn [map] in N. rewrite !nsum_cons in N. lia. }
  cbn [flat_leg_permutation]. rewrite N, LE. cbn [Nat.eqb seq]. destruct c; reflexivity.
Qed.
Lemma flp_pipe S legs d c off : leg_wf S (LPipe legs d c) -> Forall (fun l => forall off, flat_leg_permutation l off = map (fun i => i + off) (flat_leg_permutation l 0)) legs ->
  flat_leg_permutation (LPipe legs d c) off = map (fun i => i + off) (gp c legs).
Proof.
  intros W F. rewrite <- gpc_gp by exact F. cbn [flat_leg_permutation]. destruct (Nat.eqb_spec (length legs) (nsum (map num_flat_legs legs))) as [E|]; [|reflexivity].
  apply leg_wf_pipe in W. destruct W as [_ W].
  assert (ONE : Forall (fun n => n = 1) (map num_flat_legs legs)).
  { apply all_ones; [|now rewrite map_length]. apply Forall_forall; intros n Hn; apply in_map_iff in Hn; destruct Hn as (l & <- & Hl); rewrite Forall_forall in W; eapply num_flat_pos; eauto. }
  assert (OF : forall ls off, Forall (fun l => num_flat_legs l = 1) ls -> offsets_from off (map num_flat_legs ls) = seq off (length ls)).
  { clear. induction ls as [|l ls IH]; intros off H; auto. inversion H; subst. cbn [map offsets_from length seq]. f_equal. rewrite IH by auto. f_equal. lia. }
  assert (ONE' : Forall (fun l => num_flat_legs l = 1) legs) by (apply Forall_forall; intros l Hl; rewrite Forall_forall in ONE; apply ONE, in_map, Hl).
  assert (CC : forall ls offs, length offs = length ls -> Forall (leg_wf S) ls -> Forall (fun l => num_flat_legs l = 1) ls ->
            concat (map (fun pf => snd pf (fst pf)) (combine offs (map flat_leg_permutation ls))) = offs).
  { clear. induction ls as [|l ls IH]; intros [|o offs] L W O; try discriminate; auto. inversion W; inversion O; subst. cbn [map combine concat fst snd].
    rewrite (@flp_one S) by auto. cbn [app]. rewrite IH; auto. }
  unfold gpc. cbv zeta. destruct c.
  - rewrite OF by exact ONE'. rewrite CC; auto. apply seq_length.
  - rewrite <- map_rev. rewrite OF by (apply Forall_forall; intros l Hl; apply in_rev in Hl; rewrite Forall_forall in ONE'; auto).
    rewrite rev_length. rewrite CC; auto. now rewrite rev_length, seq_length.
Qed.
Lemma flp_shift S L : leg_wf S L -> forall off, flat_leg_permutation L off = map (fun i => i + off) (flat_leg_permutation L 0).
Proof.
  induction L as [E|legs d c F] using leg_ind'; intros W off; [reflexivity|].
  assert (W' := proj1 (leg_wf_pipe S legs d c) W). destruct W' as [_ W'].
  assert (F' : Forall (fun l => forall off, flat_leg_permutation l off = map (fun i => i + off) (flat_leg_permutation l 0)) legs).
  { apply Forall_forall. intros l Hl. rewrite Forall_forall in F, W'. apply F; auto. }
  rewrite !(flp_pipe _ W F'). rewrite map_map. apply map_ext. intros i. lia.
Qed.

Lemma arranged_app_rev A p1 p2 (i1 i2 pub1 pub2 : list A) : arranged p1 i1 pub1 -> arranged p2 i2 pub2 ->
  arranged (map (fun i => i + length i2) p1 ++ p2) (i1 ++ i2) (pub2 ++ pub1).
Proof.
  intros (P1 & L1 & H1) (P2 & L2 & H2). assert (LP1 := is_perm_length P1). assert (LP2 := is_perm_length P2). split; [|split].
  - rewrite app_length. unfold is_perm. rewrite Nat.add_comm, seq_app. rewrite Permutation_app_comm. apply Permutation_app; auto.
    cbn [Nat.add]. rewrite seq_shift_map. rewrite (Permutation_map (fun i => i + length i2) P1). replace (map (fun i => i + length i2) (seq 0 (length i1))) with (map (fun i => length i2 + i) (seq 0 (length i1))); [reflexivity|].
    apply map_ext. intros; lia.
  - rewrite !app_length. lia.
  - intros k d Hk. rewrite app_length in Hk. destruct (Nat.ltb_spec k (length i1)) as [LT|GE].
    + rewrite !app_nth1 with (n := k) by (rewrite ?map_length; lia). rewrite nth_map_lt with (d := 0) by lia.
      rewrite app_nth2 by lia. replace (nth k p1 0 + length i2 - length pub2) with (nth k p1 0) by lia. now apply H1.
    + rewrite !app_nth2 with (n := k) by (rewrite ?map_length; lia). rewrite map_length, LP1.
      assert (X := is_perm_nth_lt P2 (i := k - length i1) ltac:(lia)). rewrite app_nth1 by lia. apply H2. lia.
Qed.
Lemma corder_length_parts A legs : forall (x : list A), length x = nsum (map num_flat_legs legs) ->
  Forall (fun l => forall (x : list A), length x = num_flat_legs l -> length (corder l x) = length x) legs -> length (concat (corder_parts legs x)) = length x.
Proof.
  induction legs as [|l ls IH]; intros x L F; cbn [corder_parts concat map] in *; [cbn in L; now rewrite L|]. inversion F; subst. rewrite nsum_cons in L.
  rewrite app_length. rewrite H1 by (rewrite firstn_length; lia). rewrite IH; auto; [|rewrite skipn_length; lia]. rewrite firstn_length, skipn_length. lia.
Qed.
(** flat leg k is number perm[k] in C order *)
Lemma flp_arranged S L : leg_wf S L -> forall A (x : list A), length x = num_flat_legs L -> arranged (flat_leg_permutation L 0) x (corder L x).
Proof.
  induction L as [E|legs d c F] using leg_ind'; intros W A x LX.
  - cbn [num_flat_legs] in LX. cbn [flat_leg_permutation corder]. change [0] with (seq 0 1). rewrite <- LX. apply arranged_seq.
  - assert (W' := proj1 (leg_wf_pipe S legs d c) W). destruct W' as [_ W'].
    assert (F' : Forall (fun l => forall off, flat_leg_permutation l off = map (fun i => i + off) (flat_leg_permutation l 0)) legs).
    { apply Forall_forall. intros l Hl. rewrite Forall_forall in W'. apply (@flp_shift S); auto. }
    rewrite (flp_pipe _ W F'). replace (map (fun i => i + 0) (gp c legs)) with (gp c legs) by (rewrite <- map_id at 1; apply map_ext; intros; lia).
    rewrite corder_pipe. cbn [num_flat_legs] in LX. clear W F'. revert x LX. induction legs as [|l ls IH]; intros x LX.
    + cbn in LX. destruct x; [|discriminate]. destruct c; cbn; apply (arranged_seq (@nil A)).
    + inversion F as [|? ? Fl Fs]; inversion W' as [|? ? Wl Ws]; subst. cbn [map] in LX. rewrite nsum_cons in LX.
      assert (A1 := Fl Wl A (firstn (num_flat_legs l) x) ltac:(rewrite firstn_length; lia)).
      assert (A2 := IH Fs Ws (skipn (num_flat_legs l) x) ltac:(rewrite skipn_length; lia)).
      rewrite <- (firstn_skipn (num_flat_legs l) x) at 1. destruct c; cbn [gp corder_parts concat rev].
      * replace (map (fun i => i + num_flat_legs l) (gp true ls)) with (map (fun i => i + length (firstn (num_flat_legs l) x)) (gp true ls)) by (apply map_ext; intros; rewrite firstn_length; lia).
        now apply arranged_app.
      * rewrite concat_app. cbn [concat]. rewrite app_nil_r.
        replace (nsum (map num_flat_legs ls)) with (length (skipn (num_flat_legs l) x)) by (rewrite skipn_length; lia). now apply arranged_app_rev.
Qed.

(** * the nested index *)
Lemma fval_app r : forall shape r' shape', length r = length shape -> fval (r ++ r') (shape ++ shape') = fval r shape + prod shape * fval r' shape'.
Proof.
  induction r as [|x r IH]; intros [|n shape] r' shape' L; try discriminate.
  - unfold prod; cbn [fold_right app fval]. lia.
  - cbn [app fval]. cbn in L. rewrite IH by lia. unfold prod. cbn [fold_right]. fold (prod shape). nia.
Qed.
Lemma flat_index_app shape shape' r r' : length r = length shape -> length r' = length shape' ->
  flat_index (shape ++ shape') true (r ++ r') = flat_index shape true r * prod shape' + flat_index shape' true r'.
Proof.
  intros L L'. cbn [flat_index]. rewrite !rev_app_distr, fval_app by (rewrite !rev_length; lia). rewrite prod_rev. lia.
Qed.
Lemma arranged_Permutation A p (i pub : list A) : arranged p i pub -> Permutation i pub.
Proof.
  intros (P & L & H). destruct i as [|a i]; [destruct pub; [constructor|discriminate]|].
  assert (E : a :: i = take a pub p).
  { apply list_eq_nth with (d := a); [rewrite take_length; symmetry; apply (is_perm_length P)|]. intros k Hk. rewrite nth_take by (rewrite (is_perm_length P); exact Hk). symmetry. now apply H. }
  rewrite E. apply take_Permutation. rewrite L. exact P.
Qed.
Lemma corder_Permutation S L : leg_wf S L -> forall A (x : list A), length x = num_flat_legs L -> Permutation x (corder L x).
Proof. intros W A x H. apply (arranged_Permutation (flp_arranged W H)). Qed.
Lemma prod_perm a b : Permutation a b -> prod a = prod b.
Proof. induction 1; unfold prod in *; cbn [fold_right]; try lia. Qed.

Definition fis (DR : list (list nat * list nat)) : list nat := map (fun p => flat_index (fst p) true (snd p)) DR.
Lemma flat_index_concat DR : Forall (fun p => length (snd p) = length (fst p)) DR ->
  flat_index (map (fun p => prod (fst p)) DR) true (fis DR) = flat_index (concat (map fst DR)) true (concat (map snd DR)).
Proof.
  induction 1 as [|[D R] DR H F IH]; auto. cbn [map fis concat fst snd] in *.
  change (prod D :: map (fun p => prod (fst p)) DR) with ([prod D] ++ map (fun p => prod (fst p)) DR).
  change (flat_index D true R :: map (fun p => flat_index (fst p) true (snd p)) DR) with ([flat_index D true R] ++ fis DR).
  rewrite flat_index_app; [|reflexivity|unfold fis; now rewrite !map_length]. rewrite flat_index_app; auto.
  - rewrite IH. f_equal. unfold flat_index at 1. cbn [rev app fval]. rewrite Nat.mul_0_r, Nat.add_0_r. f_equal.
    clear. induction DR as [|[D R] DR IH]; auto. cbn [map concat fst]. rewrite prod_app, <- IH. reflexivity.
  - clear -F. induction F as [|[D R] DR H F IH]; auto. cbn [map concat fst snd] in *. rewrite !app_length. lia.
Qed.
Lemma flat_index_style shape r c : flat_index shape c r = if c then flat_index shape true r else flat_index (rev shape) true (rev r).
Proof. destruct c; auto. cbn [flat_index]. now rewrite !rev_involutive. Qed.

Fixpoint parts_of (A : Type) (legs : list leg) (x : list A) : list (list A) :=
  match legs with [] => [] | l :: ls' => firstn (num_flat_legs l) x :: parts_of ls' (skipn (num_flat_legs l) x) end.
Definition fdims (S : symmetry) (L : leg) : list nat := map (es_dim S) (flat_legs L).
Lemma fdims_length S L : length (fdims S L) = num_flat_legs L.
Proof. unfold fdims. now rewrite map_length, <- num_flat_length. Qed.

Lemma nest_index_corder (S : symm) L : leg_wf S L -> forall r, length r = num_flat_legs L ->
  nest_index S L r = flat_index (corder L (fdims S L)) true (corder L r).
Proof.
  induction L as [E|legs d c F] using leg_ind'; intros W r LR.
  - cbn [num_flat_legs] in LR. destruct r as [|i [|j r]]; try discriminate. cbn [nest_index corder fdims flat_legs map flat_index rev app fval nth]. lia.
  - rewrite nest_index_pipe, !corder_pipe. assert (W' := proj1 (leg_wf_pipe S legs d c) W). destruct W' as [_ W']. cbn [num_flat_legs] in LR. clear W.
    set (DR := combine (corder_parts legs (fdims S (LPipe legs d c))) (corder_parts legs r)).
    assert (K : map fst DR = corder_parts legs (fdims S (LPipe legs d c)) /\ map snd DR = corder_parts legs r /\ Forall (fun p => length (snd p) = length (fst p)) DR /\
                map (leg_dim S) legs = map (fun p => prod (fst p)) DR /\ nest_parts S legs r = fis DR).
    { unfold DR. clear DR. unfold fdims. cbn [flat_legs]. clear d c. revert r LR. induction legs as [|l ls IH]; intros r LR; [repeat split; constructor|].
      inversion F as [|? ? Fl Fs]; inversion W' as [|? ? Wl Ws]; subst. cbn [map] in LR. rewrite nsum_cons in LR.
      destruct (IH Fs Ws (skipn (num_flat_legs l) r) ltac:(rewrite skipn_length; lia)) as (K1 & K2 & K3 & K4 & K5).
      cbn [corder_parts combine map flat_map fst snd nest_parts fis].
      assert (E1 : firstn (num_flat_legs l) (map (es_dim S) (flat_legs l ++ flat_map flat_legs ls)) = fdims S l).
      { rewrite map_app, firstn_app. rewrite firstn_all2 by (rewrite map_length, <- num_flat_length; lia). rewrite map_length, <- num_flat_length, Nat.sub_diag. cbn [firstn]. apply app_nil_r. }
      assert (E2 : skipn (num_flat_legs l) (map (es_dim S) (flat_legs l ++ flat_map flat_legs ls)) = map (es_dim S) (flat_map flat_legs ls)).
      { rewrite map_app, skipn_app. rewrite skipn_all2 by (rewrite map_length, <- num_flat_length; lia). rewrite map_length, <- num_flat_length, Nat.sub_diag. reflexivity. }
      rewrite E1, E2. rewrite K1, K2, <- K4.
      assert (LF : length (firstn (num_flat_legs l) r) = num_flat_legs l) by (rewrite firstn_length; lia).
      assert (P1 := corder_Permutation Wl LF). assert (P2 := corder_Permutation Wl (fdims_length S l)).
      repeat split; auto.
      - constructor; auto. cbn [fst snd]. rewrite <- (Permutation_length P1), <- (Permutation_length P2). now rewrite fdims_length.
      - f_equal. rewrite leg_dim_flat. apply prod_perm. exact P2.
      - f_equal; [|exact K5]. apply Fl; auto. }
    destruct K as (K1 & K2 & K3 & K4 & K5). rewrite <- K1, <- K2, K4, K5. rewrite flat_index_style. destruct c.
    + now apply flat_index_concat.
    + rewrite <- !map_rev. unfold fis. rewrite <- map_rev. apply flat_index_concat. apply Forall_forall. intros p Hp. apply in_rev in Hp. rewrite Forall_forall in K3. auto.
Qed.

(** flattening is what split_legs / permute_axes in the fusion tree backend assume *)
Lemma nest_index_flat (S : symm) L : leg_wf S L -> forall r r' dims', length r = num_flat_legs L ->
  arranged (flat_leg_permutation L 0) r r' -> arranged (flat_leg_permutation L 0) (fdims S L) dims' -> nest_index S L r = flat_index dims' true r'.
Proof.
  intros W r r' dims' LR A1 A2. rewrite (nest_index_corder W LR).
  rewrite (arranged_unique A1 (flp_arranged W LR)). rewrite (arranged_unique A2 (flp_arranged W (fdims_length S L))). reflexivity.
Qed.

(** * the dual pipe *)
Lemma nest_parts_app S a : forall b x y, length x = nsum (map num_flat_legs a) -> nest_parts S (a ++ b) (x ++ y) = nest_parts S a x ++ nest_parts S b y.
Proof.
  induction a as [|l a IH]; intros b x y L; cbn [map] in L.
  - cbn in L. destruct x; [reflexivity|discriminate].
  - rewrite nsum_cons in L. cbn [app nest_parts]. rewrite firstn_app, skipn_app. replace (num_flat_legs l - length x) with 0 by lia. cbn [firstn skipn]. rewrite app_nil_r.
    rewrite IH by (rewrite skipn_length; lia). reflexivity.
Qed.
Lemma nest_index_dual (S : symm) (SO : symm_ok S) L : leg_wf S L -> forall r, length r = num_flat_legs L -> nest_index S (dual_leg L) (rev r) = nest_index S L r.
Proof.
  induction L as [E|legs d c F] using leg_ind'; intros W r LR.
  - cbn [num_flat_legs] in LR. destruct r as [|i [|j r]]; try discriminate. reflexivity.
  - cbn [dual_leg]. rewrite !nest_index_pipe. assert (W' := proj1 (leg_wf_pipe S legs d c) W). destruct W' as [_ W']. cbn [num_flat_legs] in LR.
    assert (ED : map (leg_dim S) (rev (map dual_leg legs)) = rev (map (leg_dim S) legs)).
    { rewrite map_rev, map_map. f_equal. apply map_ext_in. intros l Hl. rewrite Forall_forall in W'. apply leg_dim_dual; auto. }
    rewrite ED. enough (EN : nest_parts S (rev (map dual_leg legs)) (rev r) = rev (nest_parts S legs r)) by (rewrite EN; apply flat_index_rev).
    clear W ED. revert r LR. induction legs as [|l ls IH]; intros r LR.
    + cbn in LR. destruct r; [reflexivity|discriminate].
    + inversion F as [|? ? Fl Fs]; inversion W' as [|? ? Wl Ws]; subst. cbn [map] in LR. rewrite nsum_cons in LR. cbn [map rev nest_parts].
      rewrite <- (firstn_skipn (num_flat_legs l) r) at 1. rewrite rev_app_distr. rewrite nest_parts_app.
      * rewrite IH by (auto; rewrite skipn_length; lia). f_equal. cbn [nest_parts]. f_equal. rewrite num_flat_dual.
        rewrite firstn_all2 by (rewrite rev_length, firstn_length; lia). apply Fl; auto. rewrite firstn_length; lia.
      * rewrite rev_length, skipn_length, map_rev, nsum_rev, map_map. replace (map (fun x => num_flat_legs (dual_leg x)) ls) with (map num_flat_legs ls) by (apply map_ext; intros; symmetry; apply num_flat_dual). lia.
Qed.

(** * basis permutations *)
Definition leg_bperm (S : symmetry) (L : leg) : list nat := match leg_perm S L with Some p => p | None => seq 0 (leg_dim S L) end.
Lemma zipw_valid_id (l : list leg) (h : leg -> list nat) (dm : leg -> nat) : forall r, valid_idx (map dm l) r -> (forall a i, In a l -> i < dm a -> nth i (h a) 0 = i) -> zipw (fun a i => nth i (h a) 0) l r = r.
Proof. induction l as [|a l IH]; intros r V H; inversion V; subst; auto. cbn [zipw]. f_equal; [apply H; cbn; auto|]. apply IH; auto. intros; apply H; cbn; auto. Qed.
Lemma zipw_combine A (h : A -> list nat) l : forall idx, map (fun pi => nth (snd pi) (fst pi) 0) (combine (map h l) idx) = zipw (fun a i => nth i (h a) 0) l idx.
Proof. induction l as [|a l IH]; intros [|i idx]; cbn [map combine zipw fst snd]; auto. now rewrite IH. Qed.
Lemma leg_dim_pipe S legs d c : leg_dim S (LPipe legs d c) = prod (map (leg_dim S) legs).
Proof. cbn [leg_dim]. rewrite fold_left_mul. lia. Qed.
Lemma leg_bperm_pipe (S : symm) legs d c : Forall (fun l => is_perm (leg_dim S l) (leg_bperm S l)) legs ->
  is_perm (leg_dim S (LPipe legs d c)) (leg_bperm S (LPipe legs d c)) /\
  forall idx, valid_idx (map (leg_dim S) legs) idx ->
    nth (flat_index (map (leg_dim S) legs) c idx) (leg_bperm S (LPipe legs d c)) 0 = flat_index (map (leg_dim S) legs) c (zipw (fun l i => nth i (leg_bperm S l) 0) legs idx).
Proof.
  intros F. unfold leg_bperm at 1 2. rewrite leg_dim_pipe. cbn [leg_perm].
  destruct (existsb (fun p => match p with Some _ => true | None => false end) (map (leg_perm S) legs)) eqn:EX.
  - change (map (fun L => match leg_perm S L with Some p => p | None => seq 0 (leg_dim S L) end) legs) with (map (leg_bperm S) legs).
    assert (ES : map (@length nat) (map (leg_bperm S) legs) = map (leg_dim S) legs).
    { rewrite map_map. apply map_ext_in. intros l Hl. rewrite Forall_forall in F. apply is_perm_length, F, Hl. }
    destruct (combine_permutations (map (leg_bperm S) legs) c) as [out|] eqn:EC.
    + destruct (combine_permutations_spec EC) as [A B]. rewrite ES in A, B. split; [exact A|]. intros idx V. rewrite B by exact V. now rewrite zipw_combine.
    + exfalso. unfold combine_permutations in EC. replace (forallb is_permutation (map (leg_bperm S) legs)) with true in EC; [discriminate|].
      symmetry. apply forallb_forall. intros p Hp. apply in_map_iff in Hp. destruct Hp as (l & <- & Hl). apply is_permutation_spec. rewrite Forall_forall in F.
      assert (X := F l Hl). now rewrite (is_perm_length X).
  - split; [apply seq_is_perm|]. intros idx V. rewrite seq_nth by now apply flat_index_lt. cbn [Nat.add]. f_equal. symmetry. apply zipw_valid_id with (dm := leg_dim S); [exact V|].
    intros l i Hl Hi. unfold leg_bperm. destruct (leg_perm S l) as [p|] eqn:EP; [|now rewrite seq_nth].
    exfalso. enough (existsb (fun p => match p with Some _ => true | None => false end) (map (leg_perm S) legs) = true) by congruence.
    apply existsb_exists. exists (Some p). split; auto. rewrite <- EP. now apply in_map.
Qed.
Lemma leg_bperm_ok (S : symm) L : leg_wf S L -> is_perm (leg_dim S L) (leg_bperm S L).
Proof.
  induction L as [E|legs d c F] using leg_ind'; intros W.
  - exact (ok_bperm W).
  - apply leg_wf_pipe in W. destruct W as [_ W]. apply leg_bperm_pipe. apply Forall_forall. intros l Hl. rewrite Forall_forall in F, W. auto.
Qed.
(** the basis permutation of a pipe acts leg by leg *)
Lemma nest_parts_valid (S : symm) legs : Forall (fun l => forall r, valid_idx (fdims S l) r -> nest_index S l r < leg_dim S l) legs -> forall r, valid_idx (map (es_dim S) (flat_map flat_legs legs)) r ->
  valid_idx (map (leg_dim S) legs) (nest_parts S legs r).
Proof.
  induction 1 as [|l ls H F IH]; intros r V; cbn [nest_parts map]; [constructor|].
  cbn [flat_map] in V. rewrite map_app in V. apply Forall2_app_inv_r in V. destruct V as (r1 & r2 & V1 & V2 & ->).
  assert (L1 := valid_length V1). change (map (es_dim S) (flat_legs l)) with (fdims S l) in L1. rewrite fdims_length in L1.
  rewrite firstn_app, skipn_app. rewrite firstn_all2, skipn_all2 by lia. rewrite L1, Nat.sub_diag. cbn [firstn skipn app]. rewrite app_nil_r.
  constructor; [apply H; exact V1|]. now apply IH.
Qed.
Lemma nest_index_lt (S : symm) L : forall r, valid_idx (fdims S L) r -> nest_index S L r < leg_dim S L.
Proof.
  induction L as [E|legs d c F] using leg_ind'; intros r V.
  - cbn [fdims flat_legs map] in V. inversion V; subst. cbn [nest_index nth leg_dim]. assumption.
  - rewrite nest_index_pipe, leg_dim_pipe. apply flat_index_lt. apply nest_parts_valid; auto.
Qed.
Lemma nest_bperm (S : symm) L : leg_wf S L -> forall r, valid_idx (fdims S L) r ->
  nth (nest_index S L r) (leg_bperm S L) 0 = nest_index S L (zipw (fun E i => nth i (basis_perm S E) 0) (flat_legs L) r).
Proof.
  induction L as [E|legs d c F] using leg_ind'; intros W r V.
  - cbn [fdims flat_legs map] in V. inversion V as [|x y l l' Hx Hl]; subst. inversion Hl; subst. reflexivity.
  - assert (W' := proj1 (leg_wf_pipe S legs d c) W). destruct W' as [_ W']. rewrite !nest_index_pipe.
    assert (FB : Forall (fun l => is_perm (leg_dim S l) (leg_bperm S l)) legs) by (apply Forall_forall; intros l Hl; rewrite Forall_forall in W'; now apply leg_bperm_ok, W').
    rewrite (proj2 (leg_bperm_pipe d c FB)).
    2:{ apply nest_parts_valid; auto. apply Forall_forall. intros l Hl. apply nest_index_lt. }
    f_equal. unfold fdims in V. cbn [flat_legs] in *. clear W FB. revert r V. induction legs as [|l ls IH]; intros r V; auto.
    inversion F as [|? ? Fl Fs]; inversion W' as [|? ? Wl Ws]; subst. cbn [flat_map] in V. rewrite map_app in V. apply Forall2_app_inv_r in V. destruct V as (r1 & r2 & V1 & V2 & ->).
    assert (L1 := valid_length V1). change (map (es_dim S) (flat_legs l)) with (fdims S l) in L1. rewrite fdims_length in L1.
    cbn [nest_parts flat_map zipw]. rewrite zipw_app by (rewrite <- num_flat_length; exact L1).
    assert (LZ : length (zipw (fun E i => nth i (basis_perm S E) 0) (flat_legs l) r1) = num_flat_legs l) by (rewrite zipw_length; rewrite <- num_flat_length; auto).
    set (z := zipw (fun E i => nth i (basis_perm S E) 0) (flat_legs l) r1) in *.
    rewrite !firstn_app, !skipn_app. rewrite LZ, L1, Nat.sub_diag. rewrite (firstn_all2 r1), (firstn_all2 z), (skipn_all2 r1), (skipn_all2 z) by lia. cbn [firstn skipn app]. rewrite !app_nil_r. f_equal.
    + now apply Fl.
    + apply IH; auto.
Qed.
Lemma nest_index_surj (S : symm) L : forall m, m < leg_dim S L -> exists r, valid_idx (fdims S L) r /\ nest_index S L r = m.
Proof.
  induction L as [E|legs d c F] using leg_ind'; intros m Hm.
  - exists [m]. split; [repeat constructor; exact Hm|reflexivity].
  - rewrite leg_dim_pipe in Hm. destruct (flat_index_surj c Hm) as (idx & V & <-).
    enough (K : exists r, valid_idx (map (es_dim S) (flat_map flat_legs legs)) r /\ nest_parts S legs r = idx).
    { destruct K as (r & A & <-). exists r. split; auto. apply nest_index_pipe. }
    clear Hm. revert idx V. induction legs as [|l ls IH]; intros idx V; inversion V as [|x y t t' Hx Ht]; subst.
    + exists []. split; [constructor|reflexivity].
    + inversion F as [|? ? Fl Fs]; subst. destruct (Fl x Hx) as (r1 & A1 & B1). destruct (IH Fs _ Ht) as (r2 & A2 & B2). exists (r1 ++ r2). split.
      * cbn [flat_map]. rewrite map_app. apply Forall2_app; assumption.
      * assert (L1 := valid_length A1). rewrite fdims_length in L1. cbn [nest_parts]. rewrite firstn_app, skipn_app. rewrite firstn_all2, skipn_all2 by lia.
        rewrite L1, Nat.sub_diag. cbn [firstn skipn app]. rewrite app_nil_r. congruence.
Qed.
Lemma leg_bperm_dual (S : symm) (SO : symm_ok S) L : leg_wf S L -> leg_bperm S (dual_leg L) = leg_bperm S L.
Proof.
  intros W. assert (WD := leg_wf_dual SO W). assert (P := leg_bperm_ok W). assert (PD := leg_bperm_ok WD). rewrite (leg_dim_dual SO W) in PD.
  apply list_eq_nth with (d := 0); [now rewrite (is_perm_length P), (is_perm_length PD)|]. intros m Hm. rewrite (is_perm_length PD) in Hm.
  destruct (nest_index_surj Hm) as (r & V & <-). assert (LR := valid_length V). rewrite fdims_length in LR. rewrite (nest_bperm W V).
  rewrite <- (nest_index_dual SO W LR).
  assert (ED : fdims S (dual_leg L) = rev (fdims S L)).
  { unfold fdims. rewrite flat_legs_dual, map_rev, map_map. f_equal. apply map_ext_in. intros E HE. apply (dual_dim SO). exact (leg_wf_flat W HE). }
  rewrite (nest_bperm WD) by (rewrite ED; now apply valid_rev in V).
  rewrite <- (nest_index_dual SO W) by (rewrite zipw_length; rewrite <- num_flat_length; auto). f_equal.
  rewrite flat_legs_dual, <- map_rev, zipw_map. rewrite zipw_rev by (rewrite <- num_flat_length; exact LR). f_equal. apply zipw_ext.
  intros E i HE. rewrite (dual_bperm SO); auto. exact (leg_wf_flat W HE).
Qed.
Lemma es_eqb_refl S E : es_eqb S E E = true.
Proof.
  unfold es_eqb. rewrite Bool.eqb_reflx, Nat.eqb_refl. cbn [andb]. rewrite (proj2 (nats_eqb_eq _ _) eq_refl), (proj2 (rows_eqb_eq _ _) eq_refl).
  destruct (es_perm E); [apply nats_eqb_eq|]; reflexivity.
Qed.
Lemma leg_eqb_refl S L : leg_eqb S L L = true.
Proof.
  induction L as [E|legs d c F] using leg_ind'; cbn [leg_eqb]; [apply es_eqb_refl|]. rewrite !Bool.eqb_reflx, Nat.eqb_refl. cbn [andb].
  induction F as [|l ls H F IH]; auto. rewrite H. exact IH.
Qed.
Lemma flp_perm S L off : leg_wf S L -> Permutation (flat_leg_permutation L off) (seq off (num_flat_legs L)).
Proof.
  intros W. rewrite (flp_shift W). assert (A := flp_arranged W (x := seq 0 (num_flat_legs L)) (seq_length _ _)). destruct A as [P _]. rewrite seq_length in P.
  rewrite (Permutation_map (fun i => i + off) P). rewrite (seq_shift_map off). erewrite map_ext; [reflexivity|]. intros; cbn; lia.
Qed.
(** several legs *)
Lemma flps_eq S legs d : Forall (leg_wf S) legs -> flat_leg_permutations legs = match legs with [] => [] | _ => flat_leg_permutation (LPipe legs d true) 0 end.
Proof.
  intros W. destruct legs as [|l0 ls0]; [reflexivity|]. set (legs := l0 :: ls0) in *.
  assert (F' : Forall (fun l => forall off, flat_leg_permutation l off = map (fun i => i + off) (flat_leg_permutation l 0)) legs).
  { apply Forall_forall. intros l Hl. rewrite Forall_forall in W. apply (@flp_shift S); auto. }
  rewrite (@flp_pipe S legs d true 0).
  - rewrite <- gpc_gp by exact F'. reflexivity.
  - apply leg_wf_pipe. split; [discriminate|exact W].
  - exact F'.
Qed.

(** ** when two legs are the same *)
Inductive same_leg (S : symmetry) : leg -> leg -> Prop :=
| same_space E F : es_dual E = es_dual F -> es_def E = es_def F -> es_mults E = es_mults F -> basis_perm S E = basis_perm S F ->
    same_leg S (LSpace E) (LSpace F)
| same_pipe ls ms d c : Forall2 (same_leg S) ls ms -> same_leg S (LPipe ls d c) (LPipe ms d c).
Lemma es_eqb_iff S E F : es_eqb S E F = true <->
  es_dual E = es_dual F /\ es_def E = es_def F /\ es_mults E = es_mults F /\ basis_perm S E = basis_perm S F.
Proof.
  unfold es_eqb. rewrite !andb_true_iff, Bool.eqb_true_iff, Nat.eqb_eq, nats_eqb_eq, rows_eqb_eq. split.
  - intros [[[[HD _] HM] HR] HP]. split; [auto|]. split; [auto|]. split; [auto|].
    unfold basis_perm in *. destruct (es_perm E) as [p|], (es_perm F) as [q|]; try (apply nats_eqb_eq in HP; exact HP).
    unfold es_dim, es_space. now rewrite HD, HM, HR.
  - intros (HD & HR & HM & HP). rewrite HR. repeat (split; [now auto|]). destruct (es_perm E), (es_perm F); auto; now apply nats_eqb_eq.
Qed.
Lemma leg_eqb_iff S L M : leg_eqb S L M = true <-> same_leg S L M.
Proof.
  revert M. induction L as [E|ls d c F] using leg_ind'; intros [E'|ms d' c']; cbn [leg_eqb].
  - rewrite es_eqb_iff. split; [intros (A & B & C & D); now constructor|intros H; inversion H; auto].
  - split; [discriminate|intros H; inversion H].
  - split; [discriminate|intros H; inversion H].
  - assert (Q : (length ls =? length ms) && (fix go ls ms := match ls, ms with l :: ls', m :: ms' => leg_eqb S l m && go ls' ms' | _, _ => true end) ls ms = true
                 <-> Forall2 (same_leg S) ls ms).
    { revert ms. induction F as [|l ls H F IH]; intros [|m ms].
      - split; [constructor|reflexivity].
      - split; [discriminate|intros H; inversion H].
      - split; [discriminate|intros H'; inversion H'].
      - rewrite andb_true_iff, andb_true_iff. split.
        + intros (A & B & C). constructor; [now apply H|]. apply IH. apply andb_true_iff. split; [exact A|exact C].
        + intros H'. inversion H' as [|? ? ? ? A B]; subst. apply IH in B. apply andb_true_iff in B. destruct B as [B B'].
          split; [exact B|]. split; [now apply H|exact B']. }
    rewrite <- andb_assoc, andb_true_iff, Q, andb_true_iff, !Bool.eqb_true_iff. split.
    + intros [[-> ->] H]. now constructor.
    + intros H. inversion H; subst. auto.
Qed.
