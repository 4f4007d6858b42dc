From Verif Require Import Util StableSort RowModel RowProofs GridModel GridProofs SymModel SpaceModel SpaceSpec.
Set Implicit Arguments. Unset Strict Implicit.
Open Scope nat_scope.

(** * Lists cut into chunks *)
Fixpoint chunks (A : Type) (v : list nat) (l : list A) : list (list A) :=
  match v with [] => [] | n :: v' => firstn n l :: chunks v' (skipn n l) end.
Lemma chunks_length A v : forall l : list A, length (chunks v l) = length v.
Proof. induction v; intros; cbn; auto. Qed.
Lemma chunks_concat A v : forall l : list A, length l = nsum v -> concat (chunks v l) = l.
Proof.
  induction v as [|n v IH]; intros l H; cbn in *; [destruct l; [reflexivity | discriminate]|].
  rewrite IH; [apply firstn_skipn|]. rewrite skipn_length. unfold nsum in *. cbn in H. lia.
Qed.
Lemma chunks_lens A v : forall l : list A, length l = nsum v -> map (@length A) (chunks v l) = v.
Proof.
  induction v as [|n v IH]; intros l H; cbn in *; [reflexivity|]. unfold nsum in H. cbn in H. fold (nsum v) in H.
  rewrite firstn_length, IH; [f_equal; lia|]. rewrite skipn_length. lia.
Qed.
Lemma skipn_skipn' A m n (l : list A) : skipn m (skipn n l) = skipn (n + m) l.
Proof. revert l; induction n; intros; cbn; [reflexivity|]. destruct l; [rewrite skipn_nil; reflexivity | apply IHn]. Qed.
Lemma chunks_nth A v : forall (l : list A) i, i < length v ->
  nth i (chunks v l) [] = firstn (nth i v 0) (skipn (nsum (firstn i v)) l).
Proof.
  induction v as [|n v IH]; intros l i H; cbn in H; [lia|]. destruct i; [reflexivity|].
  cbn [chunks nth firstn]. rewrite IH by lia. change (nsum (n :: firstn i v)) with (n + nsum (firstn i v)).
  rewrite skipn_skipn'. reflexivity.
Qed.
Lemma nth_concat A (d : A) cs : forall j x, j < length cs -> x < length (nth j cs []) ->
  nth (nsum (firstn j (map (@length A) cs)) + x) (concat cs) d = nth x (nth j cs []) d.
Proof.
  induction cs as [|c cs IH]; intros j x Hj Hx; cbn in Hj; [lia|]. destruct j as [|j]; cbn [nth firstn map concat] in *.
  - apply app_nth1. cbn. exact Hx.
  - change (nsum (length c :: firstn j (map (@length A) cs))) with (length c + nsum (firstn j (map (@length A) cs))).
    rewrite app_nth2 by lia. rewrite <- (IH j x) by (lia || exact Hx). f_equal. lia.
Qed.

Lemma boundaries_from_length v : forall a, length (boundaries_from a v) = S (length v).
Proof. induction v; intros; cbn; auto. Qed.
Lemma boundaries_from_nth v : forall a i, i <= length v -> nth i (boundaries_from a v) 0 = a + nsum (firstn i v).
Proof.
  induction v as [|n v IH]; intros a i H; cbn in H.
  - replace i with 0 by lia. cbn. lia.
  - destruct i; [cbn; lia|]. cbn [boundaries_from nth firstn]. rewrite IH by lia. unfold nsum. cbn. lia.
Qed.
Lemma boundaries_nth v i : i <= length v -> nth i (slice_boundaries v) 0 = nsum (firstn i v).
Proof. intros. unfold slice_boundaries. rewrite boundaries_from_nth by assumption. reflexivity. Qed.
Lemma boundaries_last v : last (slice_boundaries v) 0 = nsum v.
Proof.
  assert (E : forall l : list nat, l <> [] -> last l 0 = nth (length l - 1) l 0).
  { induction l as [|x l IH]; [congruence|]. intros _. destruct l as [|y l]; [reflexivity|]. change (last (x :: y :: l) 0) with (last (y :: l) 0). rewrite IH by discriminate. cbn [length]. replace (S (S (length l)) - 1) with (S (S (length l) - 1)) by lia. reflexivity. }
  rewrite E by (unfold slice_boundaries; destruct v; discriminate). unfold slice_boundaries at 1. rewrite boundaries_from_length.
  rewrite Nat.sub_succ, Nat.sub_0_r. rewrite boundaries_nth by lia. rewrite firstn_all. reflexivity.
Qed.
Lemma nsum_firstn_S v i : i < length v -> nsum (firstn (S i) v) = nsum (firstn i v) + nth i v 0.
Proof.
  revert i; induction v as [|n v IH]; intros i H; cbn in H; [lia|]. destruct i; [cbn; lia|].
  cbn [nth]. change (firstn (S (S i)) (n :: v)) with (n :: firstn (S i) v). change (firstn (S i) (n :: v)) with (n :: firstn i v).
  change (nsum (n :: firstn (S i) v)) with (n + nsum (firstn (S i) v)).
  change (nsum (n :: firstn i v)) with (n + nsum (firstn i v)). rewrite IH by lia. lia.
Qed.

Definition nstate (S : symmetry) (p : sector * nat) : nat := sym_dim S (fst p) * snd p.
Lemma num_states_eq S secs mults : length mults = length secs -> num_states S secs mults = map (nstate S) (combine secs mults).
Proof.
  intros L. unfold num_states. apply list_eq_nth with (d := 0).
  - rewrite !map_length, seq_length, combine_length. lia.
  - intros i H. rewrite map_length, seq_length in H. rewrite nth_map_lt with (d := 0) by (rewrite seq_length; exact H). rewrite seq_nth by exact H. cbn [Nat.add].
    rewrite nth_map_lt with (d := []) by exact H. rewrite nth_map_lt with (d := ([], 0)) by (rewrite combine_length; lia).
    rewrite combine_nth by lia. reflexivity.
Qed.
Lemma num_states_length S secs mults : length (num_states S secs mults) = length secs.
Proof. unfold num_states. rewrite map_length, seq_length. reflexivity. Qed.

(** * Labelled pairs *)
Definition labels (S : symmetry) (p : sector * nat) : list (sector * nat) :=
  flat_map (fun k => repeat (fst p, k) (snd p)) (seq 0 (sym_dim S (fst p))).
Lemma labels_length S p : length (labels S p) = nstate S p.
Proof.
  unfold labels, nstate. rewrite length_flat_map. rewrite map_ext with (g := fun _ => snd p) by (intros; apply repeat_length).
  generalize 0. induction (sym_dim S (fst p)) as [|n IH]; intros s; [reflexivity|]. cbn. unfold nsum in IH. rewrite IH. reflexivity.
Qed.
Lemma states_labels S secs mults : states S secs mults = flat_map (labels S) (combine secs mults).
Proof. reflexivity. Qed.
Lemma states_length S secs mults : length mults = length secs -> length (states S secs mults) = nsum (num_states S secs mults).
Proof.
  intros L. rewrite states_labels, length_flat_map, num_states_eq by exact L. f_equal. apply map_ext. intros. apply labels_length.
Qed.
Lemma combine_app' A B (l l' : list A) (m m' : list B) : length l = length m -> combine (l ++ l') (m ++ m') = combine l m ++ combine l' m'.
Proof. revert m; induction l; intros [|y m] H; cbn in *; try discriminate; [reflexivity|]. f_equal. apply IHl. lia. Qed.
Lemma combine_flat_map A B C (f : A -> list B) (l : list A) : forall (cs : list (list C)),
  map (fun x => length (f x)) l = map (@length C) cs ->
  combine (flat_map f l) (concat cs) = flat_map (fun x => combine (f (fst x)) (snd x)) (combine l cs).
Proof.
  induction l as [|x l IH]; intros [|c cs] H; cbn in *; try discriminate; [reflexivity|]. injection H as H1 H2.
  rewrite combine_app' by exact H1. f_equal. apply IH. exact H2.
Qed.

(** equal sets of (label, public position) pairs give the same public list *)
Lemma arranged_take A (d : A) p internal : is_perm (length internal) p ->
  arranged p internal (take d internal (inverse_permutation p)).
Proof.
  intros P. split; [exact P|]. split; [rewrite take_length, inverse_permutation_length; apply (is_perm_length P)|].
  intros k e Hk. assert (Hp : nth k p 0 < length internal) by (apply (is_perm_nth_lt P); exact Hk).
  assert (HL : length p = length internal) by (apply (is_perm_length P)).
  unfold take. rewrite nth_map_lt with (d := 0) by (rewrite inverse_permutation_length, HL; exact Hp).
  rewrite (inverse_permutation_l P Hk). apply nth_indep. exact Hk.
Qed.
Lemma arranged_unique A p (internal pub pub' : list A) : arranged p internal pub -> arranged p internal pub' -> pub = pub'.
Proof.
  intros (P & L & H) (_ & L' & H'). destruct internal as [|d t] eqn:EI.
  - destruct pub, pub'; cbn in *; congruence || discriminate.
  - rewrite <- EI in *. apply list_eq_nth with (d := d); [congruence|]. intros i Hi. rewrite L in Hi.
    destruct (is_perm_surj P Hi) as (j & Hj & <-). rewrite H, H' by exact Hj. reflexivity.
Qed.
Lemma arranged_pairs A p q (i1 i2 pub : list A) : arranged p i1 pub -> is_perm (length i2) q -> length i2 = length i1 ->
  Permutation (combine i1 p) (combine i2 q) -> arranged q i2 pub.
Proof.
  intros (P & L & H) Q L2 PM. split; [exact Q|]. split; [congruence|]. intros k d Hk.
  assert (LQ := is_perm_length Q). assert (LP := is_perm_length P).
  assert (Hin : In (nth k i2 d, nth k q 0) (combine i2 q)).
  { rewrite <- combine_nth by congruence. apply nth_In. rewrite combine_length. lia. }
  apply (Permutation_in _ (Permutation_sym PM)) in Hin. apply In_nth with (d := (d, 0)) in Hin as (j & Hj & E).
  rewrite combine_length in Hj. rewrite combine_nth in E by congruence. injection E as E1 E2.
  rewrite <- E2, <- E1. apply H. lia.
Qed.

(** * Sorting step *)
Lemma sort_perm_eq (S : symm) sectors mults perm : s_drop S = true -> length mults = length sectors ->
  let v := num_states S sectors mults in
  let p := match perm with None => seq 0 (nsum v) | Some p => p end in
  length p = nsum v -> sectors <> [] ->
  sort_basis_perm S sectors mults perm (lexsort_indices sectors) =
  Some (concat (take [] (chunks v p) (lexsort_indices sectors))).
Proof.
  intros HD L v p Lp NE. unfold sort_basis_perm. rewrite HD. destruct (Nat.eqb_spec (length sectors) 0) as [E0|_]; [destruct sectors; [congruence | discriminate]|].
  fold v. rewrite boundaries_last. fold p. f_equal. unfold take. rewrite flat_map_concat_map. f_equal. apply map_ext_in. intros i Hi.
  apply (is_perm_In i (lexsort_perm sectors)) in Hi.
  assert (Hv : length v = length sectors) by apply num_states_length.
  rewrite chunks_nth by (rewrite Hv; exact Hi). rewrite !boundaries_nth by lia. rewrite Nat.add_1_r, nsum_firstn_S by lia.
  replace (nsum (firstn i v) + nth i v 0 - nsum (firstn i v)) with (nth i v 0) by lia.
  assert (B : nsum (firstn i v) + nth i v 0 <= length p).
  { rewrite Lp. assert (E := nsum_app (firstn (Datatypes.S i) v) (skipn (Datatypes.S i) v)). rewrite firstn_skipn in E. rewrite nsum_firstn_S in E by lia. lia. }
  apply list_eq_nth with (d := 0); [rewrite map_length, seq_length, firstn_length, skipn_length; lia|].
  intros j Hj. rewrite map_length, seq_length in Hj. rewrite nth_map_lt with (d := 0) by (rewrite seq_length; exact Hj).
  rewrite seq_nth by exact Hj. rewrite nth_firstn_lt by exact Hj. rewrite nth_skipn'. reflexivity.
Qed.

(** * Row differences *)
Lemma frd_from_range (K : Type) (eqb : K -> K -> bool) l : forall i prev x, In x (frd_from eqb i prev l) -> i <= x < i + length l.
Proof.
  induction l as [|y l IH]; intros i prev x H; cbn in H; [destruct H|]. cbn [length].
  destruct (eqb prev y); [apply IH in H; lia|]. destruct H as [ <- |H]; [lia|]. apply IH in H. lia.
Qed.
Lemma frd_from_sorted (K : Type) (eqb : K -> K -> bool) l : forall i prev, StronglySorted lt (frd_from eqb i prev l).
Proof.
  induction l as [|y l IH]; intros i prev; cbn; [constructor|]. destruct (eqb prev y); [apply IH|]. constructor; [apply IH|].
  apply Forall_forall. intros x H. apply frd_from_range in H. lia.
Qed.
Lemma frd_sorted (K : Type) (eqb : K -> K -> bool) rows : StronglySorted lt (frd eqb true rows).
Proof.
  destruct rows as [|x t]; [cbn; repeat constructor|]. unfold frd. constructor.
  - apply StronglySorted_app. split; [apply frd_from_sorted|]. split; [repeat constructor|].
    intros a b Ha [ <- |[]]. apply frd_from_range in Ha. cbn [length]. lia.
  - apply Forall_forall. intros y H. apply in_app_or in H as [H|[ <- |[]]]; [apply frd_from_range in H; lia | cbn; lia].
Qed.
Lemma frd_head (K : Type) (eqb : K -> K -> bool) rows : exists D, frd eqb true rows = 0 :: D.
Proof. destruct rows; cbn; eauto. Qed.
Lemma frd_last (K : Type) (eqb : K -> K -> bool) rows : last (frd eqb true rows) 0 = length rows.
Proof.
  destruct rows as [|x t]; [reflexivity|]. unfold frd.
  change (0 :: frd_from eqb 1 x t ++ [length (x :: t)]) with ((0 :: frd_from eqb 1 x t) ++ [length (x :: t)]). apply last_last.
Qed.
Lemma frd_le (K : Type) (eqb : K -> K -> bool) rows x : In x (frd eqb true rows) -> x <= length rows.
Proof.
  destruct rows as [|y t]; [intros [ <- |[]]; cbn; lia|]. unfold frd. intros [ <- |H]; [lia|].
  apply in_app_or in H as [H|[ <- |[]]]; [apply frd_from_range in H; cbn; lia | lia].
Qed.
Lemma slice_In A (l : list A) a b x : In x (slice l a b) -> In x l.
Proof. intros H. unfold slice in H. rewrite <- (firstn_skipn a l). apply in_or_app. right. rewrite <- (firstn_skipn (b - a) (skipn a l)). apply in_or_app. left. exact H. Qed.
Lemma frd_group_const rows p x : In p (adj (frd row_eqb true rows)) -> In x (slice rows (fst p) (snd p)) -> x = nth (fst p) rows [].
Proof.
  intros Hp Hx. pose proof (@frd_groups _ _ row_eqb_eq row [] rows rows eq_refl) as G.
  assert (Hin : In (nth (fst p) rows [], slice rows (fst p) (snd p)) (groups row_eqb (combine rows rows))).
  { rewrite <- G. apply in_map_iff. exists p. split; [reflexivity | exact Hp]. }
  assert (Hu : In (nth (fst p) rows [], x) (ungroup (groups row_eqb (combine rows rows)))).
  { unfold ungroup. apply in_flat_map. eexists. split; [exact Hin|]. cbn. apply in_map. exact Hx. }
  rewrite (groups_ungroup row_eqb_eq) in Hu. revert Hu. generalize (nth (fst p) rows []). clear.
  intros y Hu. apply In_nth with (d := ([], [])) in Hu as (j & Hj & E). rewrite combine_nth in E by reflexivity. injection E as E1 E2. congruence.
Qed.

(** * Regrouping *)
Lemma flat_map_ext_in A B (f g : A -> list B) l : (forall x, In x l -> f x = g x) -> flat_map f l = flat_map g l.
Proof. intros H. induction l as [|x l IH]; [reflexivity|]. cbn. rewrite (H x), IH by (cbn; auto; intros; apply H; cbn; auto). reflexivity. Qed.
Lemma firstn_combine A B n : forall (l : list A) (m : list B), firstn n (combine l m) = combine (firstn n l) (firstn n m).
Proof. induction n; intros [|x l] [|y m]; cbn; try reflexivity. f_equal. apply IHn. Qed.
Lemma skipn_combine A B n : forall (l : list A) (m : list B), skipn n (combine l m) = combine (skipn n l) (skipn n m).
Proof. induction n; intros [|x l] [|y m]; cbn; try reflexivity; [destruct (skipn n l); reflexivity | apply IHn]. Qed.
Definition regrouped (d : nat) (xs : list (nat * list nat)) : list nat :=
  flat_map (fun k => flat_map (fun x => firstn (fst x) (skipn (k * fst x) (snd x))) xs) (seq 0 d).

Lemma slice_nth_list A (l : list A) a b : slice l a b = firstn (b - a) (skipn a l).
Proof. reflexivity. Qed.
Lemma slice_map A B (f : A -> B) l a b : slice (map f l) a b = map f (slice l a b).
Proof. unfold slice. rewrite skipn_map, firstn_map. reflexivity. Qed.
Lemma flat_map_seq_nth A B (f : A -> list B) (d : A) l : flat_map (fun j => f (nth j l d)) (seq 0 (length l)) = flat_map f l.
Proof.
  rewrite !flat_map_concat_map. f_equal. apply list_eq_nth with (d := []); [rewrite !map_length, seq_length; reflexivity|].
  intros i Hi. rewrite map_length, seq_length in Hi. rewrite nth_map_lt with (d := 0) by (rewrite seq_length; exact Hi).
  rewrite seq_nth by exact Hi. rewrite nth_map_lt with (d := d) by exact Hi. reflexivity.
Qed.
Lemma flat_map_length_const A B (f : A -> list B) l n : (forall x, In x l -> length (f x) = n) -> length (flat_map f l) = length l * n.
Proof. intros H. induction l as [|x l IH]; [reflexivity|]. cbn. rewrite app_length, IH, H by (intros; try apply H; cbn; auto). reflexivity. Qed.

Lemma regrouped_length d xs : (forall x, In x xs -> length (snd x) = d * fst x) -> length (regrouped d xs) = nsum (map (fun x => length (snd x)) xs).
Proof.
  intros H. unfold regrouped.
  rewrite flat_map_length_const with (n := nsum (map fst xs)).
  - rewrite seq_length. induction xs as [|x xs IH]; [cbn; lia|]. cbn [map].
    change (nsum (fst x :: map fst xs)) with (fst x + nsum (map fst xs)).
    change (nsum (length (snd x) :: map (fun x => length (snd x)) xs)) with (length (snd x) + nsum (map (fun x => length (snd x)) xs)).
    rewrite <- IH by (intros; apply H; cbn; auto). rewrite (H x) by (cbn; auto). lia.
  - intros k Hk. apply in_seq in Hk. rewrite length_flat_map. f_equal. apply map_ext_in. intros x Hx.
    rewrite firstn_length, skipn_length, (H x Hx). nia.
Qed.

Section Regroup.
  Variables (S : symmetry) (secs : list sector) (ms : list nat) (cs : list (list nat)).
  Hypothesis Lm : length ms = length secs.
  Hypothesis Lc : length cs = length secs.
  Hypothesis Hlen : map (@length nat) cs = num_states S secs ms.
  Let v := num_states S secs ms.

  Lemma cs_len i : i < length secs -> length (nth i cs []) = sym_dim S (nth i secs []) * nth i ms 0.
  Proof.
    intros H. transitivity (nth i (map (@length nat) cs) 0); [rewrite nth_map_lt with (d := []) by lia; reflexivity|].
    rewrite Hlen. unfold num_states. rewrite nth_map_lt with (d := 0) by (rewrite seq_length; exact H). rewrite seq_nth by exact H. cbn [Nat.add].
    rewrite nth_map_lt with (d := []) by exact H. reflexivity.
  Qed.

  Lemma regroup_one_spec pre post a b : a <= b <= length secs ->
    (forall x, In x (slice secs a b) -> x = nth a secs []) ->
    length pre = nsum (firstn a v) ->
    regroup_one S secs ms (pre ++ concat (slice cs a b) ++ post) (a, b) =
    pre ++ regrouped (sym_dim S (nth a secs [])) (combine (slice ms a b) (slice cs a b)) ++ post.
  Proof.
    intros [Hab Hb] Hc Hpre. set (d := sym_dim S (nth a secs [])).
    set (M := slice ms a b). set (C := slice cs a b).
    assert (LM : length M = b - a) by (apply slice_length; lia). assert (LC : length C = b - a) by (apply slice_length; lia).
    assert (CL : forall j, j < b - a -> length (nth j C []) = d * nth j M 0).
    { intros j Hj. unfold C, M. rewrite !nth_slice by exact Hj. rewrite cs_len by lia. f_equal. unfold d. f_equal.
      apply Hc. replace (nth (a + j) secs []) with (nth j (slice secs a b) []) by (apply nth_slice; exact Hj). apply nth_In. rewrite slice_length; lia. }
    assert (X : forall x, In x (combine M C) -> length (snd x) = d * fst x).
    { intros x Hx. apply In_nth with (d := (0, [])) in Hx as (j & Hj & <-). rewrite combine_length in Hj. rewrite combine_nth by lia. cbn [fst snd]. apply CL. lia. }
    assert (LT : length (concat C) = nsum (map (fun x => length (snd x)) (combine M C))).
    { rewrite <- (combine_snd (l := M) (l' := C)) at 1 by lia. rewrite <- (map_map snd (@length nat)).
      clear. induction (combine M C) as [|x l IH]; [reflexivity|]. cbn. rewrite app_length, IH. reflexivity. }
    unfold regroup_one. fold d. destruct (Nat.eqb_spec d 1) as [E1|N1].
    - f_equal. f_equal. unfold regrouped. rewrite E1. cbn [seq flat_map]. rewrite app_nil_r.
      rewrite flat_map_concat_map. f_equal. rewrite <- (combine_snd (l := M) (l' := C)) at 1 by lia. apply map_ext_in. intros x Hx.
      cbn [Nat.mul skipn]. symmetry. rewrite firstn_all2; [reflexivity|]. rewrite (X x Hx). lia.
    - fold v M.
      assert (Hstart : nth a (slice_boundaries v) 0 = length pre) by (rewrite Hpre; apply boundaries_nth; unfold v; rewrite num_states_length; lia).
      rewrite Hstart.
      match goal with |- overwrite _ ?n _ = _ => assert (EN : n = regrouped d (combine M C)) end.
      { unfold regrouped. apply flat_map_ext_in. intros k Hk. apply in_seq in Hk.
        rewrite <- (@flat_map_seq_nth _ _ (fun x => firstn (fst x) (skipn (k * fst x) (snd x))) (0, []) (combine M C)).
        rewrite combine_length, LC, LM, Nat.min_id. apply flat_map_ext_in. intros j Hj. apply in_seq in Hj.
        rewrite combine_nth by lia. cbn [fst snd]. assert (CJ := CL j ltac:(lia)). set (m := nth j M 0) in *. set (c := nth j C []) in *.
        assert (KM : k * m + m <= d * m) by nia.
        apply list_eq_nth with (d := 0); [rewrite map_length, seq_length, firstn_length, skipn_length; lia|].
        intros t Ht. rewrite map_length, seq_length in Ht. rewrite nth_map_lt with (d := 0) by (rewrite seq_length; exact Ht). rewrite seq_nth by exact Ht. cbn [Nat.add].
        rewrite nth_firstn_lt by exact Ht. rewrite nth_skipn'.
        rewrite boundaries_nth by (rewrite map_length; lia).
        rewrite app_nth2 by lia. replace (length pre + _ - length pre) with (nsum (firstn j (map (fun m0 => m0 * d) M)) + (k * m + t)) by lia.
        replace (map (fun m0 => m0 * d) M) with (map (@length nat) C).
        - rewrite app_nth1.
          + apply nth_concat; [lia|]. fold c. lia.
          + assert (Q : j < length (map (@length nat) C)) by (rewrite map_length; lia).
            pose proof (nsum_firstn_S Q) as QE. rewrite nth_map_lt with (d := []) in QE by lia. fold c in QE.
            assert (Z : nsum (firstn (Datatypes.S j) (map (@length nat) C)) <= nsum (map (@length nat) C)).
            { rewrite <- (firstn_skipn (Datatypes.S j) (map (@length nat) C)) at 2. rewrite nsum_app. lia. }
            replace (length (concat C)) with (nsum (map (@length nat) C)); [lia|]. clear. induction C; [reflexivity|]. cbn. rewrite app_length. unfold nsum in IHC. rewrite <- IHC. reflexivity.
        - apply list_eq_nth with (d := 0); [rewrite !map_length; lia|]. intros i Hi. rewrite map_length in Hi.
          rewrite nth_map_lt with (d := []) by exact Hi. rewrite nth_map_lt with (d := 0) by lia. rewrite CL by lia. lia. }
      rewrite EN. unfold overwrite. rewrite firstn_app, firstn_all, Nat.sub_diag, firstn_O, app_nil_r. f_equal. f_equal.
      rewrite regrouped_length by exact X. rewrite <- LT.
      rewrite skipn_app. rewrite skipn_all2 by lia. cbn [app]. replace (length pre + length (concat C) - length pre) with (length (concat C)) by lia.
      rewrite skipn_app, skipn_all, Nat.sub_diag. reflexivity.
  Qed.

  Lemma slice_concat_skip a b : a <= b -> b <= length cs -> concat (skipn a cs) = concat (slice cs a b) ++ concat (skipn b cs).
  Proof.
    intros H1 H2. unfold slice. rewrite <- concat_app. f_equal. rewrite <- (firstn_skipn (b - a) (skipn a cs)) at 1. f_equal.
    rewrite skipn_skipn'. f_equal. lia.
  Qed.
  Lemma regroup_fold D : forall s pre, StronglySorted lt (s :: D) -> (forall x, In x (s :: D) -> x <= length secs) ->
    last (s :: D) 0 = length secs ->
    (forall p x, In p (adj (s :: D)) -> In x (slice secs (fst p) (snd p)) -> x = nth (fst p) secs []) ->
    length pre = nsum (firstn s v) ->
    fold_left (regroup_one S secs ms) (adj (s :: D)) (pre ++ concat (skipn s cs)) =
    pre ++ flat_map (fun p => regrouped (sym_dim S (nth (fst p) secs [])) (combine (slice ms (fst p) (snd p)) (slice cs (fst p) (snd p)))) (adj (s :: D)).
  Proof.
    induction D as [|e D IH]; intros s pre HS HB HL HC HP.
    - cbn in HL. subst s. cbn. rewrite <- Lc, skipn_all. reflexivity.
    - change (adj (s :: e :: D)) with ((s, e) :: adj (e :: D)) in *. cbn [fold_left flat_map fst snd].
      assert (Lse : s < e). { inversion HS as [|? ? _ F]; subst. inversion F; subst. assumption. }
      assert (He : e <= length secs) by (apply HB; cbn; auto).
      rewrite (slice_concat_skip (a := s) (b := e)) by lia. rewrite regroup_one_spec; [| lia | intros x Hx; apply (HC (s, e) x); [left; reflexivity | exact Hx] | exact HP].
      rewrite app_assoc, IH.
      + rewrite <- app_assoc. reflexivity.
      + inversion HS; assumption.
      + intros x Hx. apply HB. right. exact Hx.
      + exact HL.
      + intros p x Hp. apply HC. right. exact Hp.
      + rewrite app_length, HP. rewrite regrouped_length.
        * assert (E : firstn e v = firstn s v ++ slice v s e).
          { unfold slice. rewrite <- (firstn_skipn s (firstn e v)) at 1. rewrite firstn_firstn, Nat.min_l by lia. f_equal. rewrite skipn_firstn_comm. reflexivity. }
          rewrite E, nsum_app. f_equal. unfold v. rewrite <- Hlen, slice_map. f_equal.
          rewrite <- (map_map snd (@length nat)). rewrite combine_snd by (rewrite !slice_length; lia). reflexivity.
        * intros x Hx. apply In_nth with (d := (0, [])) in Hx as (j & Hj & <-). rewrite combine_length, !slice_length in Hj by lia.
          rewrite combine_nth by (rewrite !slice_length; lia). cbn [fst snd]. rewrite !nth_slice by lia. rewrite cs_len by lia. f_equal. f_equal.
          apply (HC (s, e)); [left; reflexivity|]. cbn [fst snd]. replace (nth (s + j) secs []) with (nth j (slice secs s e) []) by (apply nth_slice; lia). apply nth_In. rewrite slice_length; lia.
  Qed.
  Lemma regroup_eq :
    regroup S secs ms (find_row_differences true secs) (concat cs) =
    flat_map (fun g => regrouped (sym_dim S (fst g)) (snd g)) (groups row_eqb (combine secs (combine ms cs))).
  Proof.
    unfold regroup, find_row_differences. set (D := frd row_eqb true secs).
    assert (EF : fold_left (fun perm i => regroup_one S secs ms perm (nth i D 0, nth (i + 1) D 0)) (seq 0 (length D - 1)) (concat cs) = fold_left (regroup_one S secs ms) (adj D) (concat cs)).
    { assert (EA : adj D = map (fun u => (nth u D 0, nth (u + 1) D 0)) (seq 0 (length D - 1))).
      { transitivity (map (fun p : nat * nat => (fst p, snd p)) (adj D)); [symmetry; transitivity (map (fun p : nat * nat => p) (adj D)); [apply map_ext; intros []; reflexivity | apply map_id]|].
        rewrite <- (adj_seq (fun a b => (a, b))). apply map_ext. intros u. rewrite Nat.add_1_r. reflexivity. }
      rewrite EA. clear EA. generalize (concat cs). induction (seq 0 (length D - 1)) as [|i l IH]; intros q; [reflexivity|]. cbn. apply IH. }
    rewrite EF. clear EF.
    destruct (frd_head row_eqb secs) as [D' ED]. fold D in ED.
    pose proof (@regroup_fold D' 0 []) as R. rewrite <- ED in R. cbn [app skipn] in R. rewrite R; clear R.
    - rewrite <- (@frd_groups _ _ row_eqb_eq (nat * list nat) [] secs (combine ms cs)) by (rewrite combine_length; lia).
      fold D. rewrite flat_map_concat_map, (flat_map_concat_map _ (map _ _)), map_map. f_equal. apply map_ext. intros p. cbn [fst snd]. f_equal.
      unfold slice. rewrite skipn_combine, firstn_combine. reflexivity.
    - apply frd_sorted.
    - apply frd_le.
    - apply frd_last.
    - apply frd_group_const.
    - reflexivity.
  Qed.
End Regroup.
