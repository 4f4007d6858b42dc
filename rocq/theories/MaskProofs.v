(** Masks: the loops push one pair per sector with a kept state; which states are kept. *)
From Verif Require Import Util StableSort RowModel RowProofs GridModel GridProofs SymModel SymProofs CatSpec Sums SpaceModel SpaceSpec SpaceProofs SpaceProofs2 SpaceProofs3 SpaceProofs6 TensorModel
  PipeModel PipeProofs PipeProofs2 BlockModel BlockProofs SparseModel SparseSpec SparseProofs FtOpsModel FtOpsSpec AbDecModel AbDecSpec AbDecProofs2 AbDecProofs3 AbDiagModel AbDiagProofs AbDiagProofs2 AbDiagProofs3 MaskModel MaskSpec.
Set Implicit Arguments. Unset Strict Implicit.
Open Scope nat_scope.

(** ** kept positions *)
Lemma kept_take v : kept v = take_mask (seq 0 (length v)) v.
Proof.
  rewrite (take_mask_positions 0) by (now rewrite seq_length). rewrite seq_length. unfold kept. rewrite <- (map_id (filter _ _)) at 1. apply map_ext_in. intros i I. apply filter_In in I. destruct I as [I _]. apply in_seq in I. now rewrite seq_nth by lia.
Qed.
Lemma kept_length v : length (kept v) = trues v.
Proof. rewrite kept_take. apply take_mask_length. now rewrite seq_length. Qed.
Lemma take_mask_seq m : forall i, take_mask (seq i (length m)) m = map (fun x => i + x) (kept m).
Proof. intros i. rewrite kept_take, <- take_mask_map. f_equal. rewrite seq_shift_map. apply map_ext. intros; lia. Qed.
Lemma kept_app u w : kept (u ++ w) = kept u ++ map (fun x => length u + x) (kept w).
Proof. rewrite kept_take, app_length, seq_app, take_mask_app by (now rewrite seq_length). rewrite <- kept_take. f_equal. rewrite Nat.add_0_l. apply take_mask_seq. Qed.
Lemma kept_sorted v : StronglySorted lt (kept v).
Proof. apply StronglySorted_filter, StronglySorted_seq. Qed.
Lemma kept_In v i : In i (kept v) <-> nth i v false = true.
Proof.
  unfold kept. rewrite filter_In, in_seq. split; [tauto|]. intros H. split; [|exact H]. split; [lia|]. destruct (Nat.lt_ge_cases i (length v)) as [X|X]; [exact X|]. rewrite nth_overflow in H by exact X. discriminate.
Qed.
Lemma kept_nth v k : k < trues v -> nth (nth k (kept v) 0) v false = true.
Proof. intros H. apply kept_In, nth_In. now rewrite kept_length. Qed.
Lemma kept_lt v k : k < trues v -> nth k (kept v) 0 < length v.
Proof. intros H. assert (I : In (nth k (kept v) 0) (kept v)) by (apply nth_In; now rewrite kept_length). apply filter_In in I. destruct I as [I _]. apply in_seq in I. lia. Qed.
Lemma trues_concat ll : trues (concat ll) = nsum (map trues ll).
Proof. induction ll as [|l ll IH]; [reflexivity|]. cbn [concat map]. rewrite trues_app, IH. reflexivity. Qed.
(** the number of kept positions before [i] *)
Lemma kept_before v i : nth i v false = true -> trues (firstn i v) < trues v /\ nth (trues (firstn i v)) (kept v) 0 = i.
Proof.
  intros H. assert (Hi : i < length v) by (destruct (Nat.lt_ge_cases i (length v)) as [X|X]; [exact X|rewrite nth_overflow in H by exact X; discriminate]).
  assert (E : v = firstn i v ++ true :: skipn (S i) v).
  { rewrite <- H. clear H. revert i Hi. induction v as [|b v IH]; intros [|i] Hi; cbn in *; try lia; [reflexivity|]. f_equal. apply IH. lia. }
  assert (LF : length (firstn i v) = i) by (rewrite firstn_length; lia). split.
  - rewrite E at 2. rewrite trues_app. unfold trues at 3. cbn. lia.
  - rewrite E at 2. rewrite kept_app, <- kept_length, app_nth2 by lia. rewrite Nat.sub_diag. change (true :: skipn (S i) v) with ([true] ++ skipn (S i) v). rewrite kept_app. cbn. lia.
Qed.
Lemma kept_before_nth v k : k < trues v -> trues (firstn (nth k (kept v) 0) v) = k.
Proof.
  intros H. destruct (kept_before (kept_nth H)) as [L E]. pose proof (kept_sorted v) as SS. rewrite <- kept_length in H. rewrite <- (kept_length v) in L.
  assert (ND : NoDup (kept v)) by (apply StronglySorted_NoDup with (R := lt); [intros x Hx; lia|exact SS]). exact (proj1 (NoDup_nth (kept v) 0) ND _ _ L H E).
Qed.
(** the kept positions of a concatenation *)
Lemma kept_concat (ll : list (list bool)) : kept (concat ll) = concat (map (fun n => map (fun x => nsum (firstn n (map (@length bool) ll)) + x) (kept (nth n ll []))) (seq 0 (length ll))).
Proof.
  induction ll as [|l ll IH]; [reflexivity|]. cbn [concat length seq map]. cbn [nth firstn nsum fold_right]. rewrite kept_app. f_equal; [symmetry; apply map_id|].
  rewrite IH, concat_map, map_map. f_equal. rewrite <- seq_shift, map_map. apply map_ext. intros n. rewrite map_map. apply map_ext. intros x. cbn [nth firstn map]. change (nsum (length l :: ?y)) with (length l + nsum y). lia.
Qed.

Lemma trues_repeat n : trues (repeat false n) = 0.
Proof. induction n as [|n IH]; [reflexivity|exact IH]. Qed.
Lemma trues_zero v : trues v = 0 -> v = repeat false (length v).
Proof. induction v as [|[|] v IH]; intros H; [reflexivity|discriminate|]. cbn. f_equal. now apply IH. Qed.
Lemma trues_exists v : existsb (fun x : bool => x) v = negb (trues v =? 0).
Proof. induction v as [|[|] v IH]; [reflexivity|reflexivity|exact IH]. Qed.

(** ** the pairs that are pushed *)
Definition pushed (F : nat -> bblk) (ns : list nat) : list (nat * bblk) := flat_map (fun i => if btrues (F i) =? 0 then [] else [(i, F i)]) ns.
Definition mdiag (M : mdata) : mdata := map (fun e => ([nth 1 (fst e) 0; nth 1 (fst e) 0], snd e)) M.
Lemma mdiag_cols M : map (@dcol bool) (mdiag M) = map (fun e => nth 1 (fst e) 0) M.
Proof. unfold mdiag. rewrite map_map. reflexivity. Qed.
Lemma mask_diag L N M : mask_ok L N M -> diag_data_ok L (mdiag M).
Proof.
  intros OM. constructor.
  - apply sorted_diag; [rewrite mdiag_cols; exact (mk_large OM)|]. intros e I. apply in_map_iff in I. destruct I as (e0 & <- & _). reflexivity.
  - intros e I. apply in_map_iff in I. destruct I as (e0 & <- & I). destruct (mk_rows OM I) as (k & l & R & _ & Hl & _ & SH & _). exists l. rewrite R. cbn [fst snd nth]. auto.
  - intros e I. apply in_map_iff in I. destruct I as (e0 & <- & I). destruct (mk_rows OM I) as (k & l & R & _ & Hl & _ & SH & LE & _). cbn [snd]. rewrite LE, SH. cbn. lia.
Qed.
Lemma btrues_zeros m : btrues (bzeros Bops [m]) = 0.
Proof. unfold btrues. rewrite zeros_vec. exact (trues_repeat m). Qed.
Lemma pushed_from (z : nat -> nat) : forall n i W, from i W -> (forall e, In e W -> dcol e < i + n) ->
  pushed (fun k => fills Bops [z k] W k) (seq i n) = flat_map (fun e => if btrues (snd e) =? 0 then [] else [(dcol e, snd e)]) W.
Proof.
  induction n as [|n IH]; intros i W F HB.
  - destruct W as [|e W]; [reflexivity|]. exfalso. destruct F as [_ F]. pose proof (HB e (or_introl eq_refl)). destruct (F e (or_introl eq_refl)). lia.
  - unfold pushed. cbn [seq flat_map]. fold (pushed (fun k => fills Bops [z k] W k) (seq (S i) n)). replace (S i) with (i + 1) by lia. destruct (step F) as [(e & W' & EW & Ed & F' & D & DS)|(NEW & F' & D)].
    + replace (pushed (fun k => fills Bops [z k] W k) (seq (i + 1) n)) with (pushed (fun k => fills Bops [z k] W' k) (seq (i + 1) n)).
      * rewrite (IH (i + 1) W' F') by (intros e' I; assert (X : In e' W) by (rewrite EW; now right); specialize (HB e' X); lia). unfold fills. rewrite D. rewrite EW. cbn [flat_map]. now rewrite Ed.
      * unfold pushed. rewrite !flat_map_concat_map. f_equal. apply map_ext_in. intros k Ik. apply in_seq in Ik. unfold fills. now rewrite (DS k) by lia.
    + rewrite (IH (i + 1) W F') by (intros e' I; specialize (HB e' I); lia). unfold fills. rewrite D. now rewrite btrues_zeros.
Qed.
Lemma flat_map_none (A B : Type) (f : A -> list B) (g : A -> B) l : (forall x, In x l -> f x = [g x]) -> flat_map f l = map g l.
Proof. intros H. induction l as [|x l IH]; [reflexivity|]. cbn [flat_map map]. rewrite (H x (or_introl eq_refl)). cbn [app]. f_equal. apply IH. intros y I. apply H. now right. Qed.
Definition mfill (L : espace) (M : mdata) (k : nat) : bblk := fills Bops [nth k (es_mults L) 0] (mdiag M) k.
(** the rows of a mask are what is pushed *)
Lemma mask_pushed (S : symm) L N M : es_ok S N -> mask_ok L N M -> pushed (mfill L M) (seq 0 (nsec L)) = map (fun e => (nth 1 (fst e) 0, snd e)) M.
Proof.
  intros ON OM. unfold mfill. rewrite (pushed_from _ (n := nsec L) (dd_from (mask_diag OM))) by (intros e I; apply (dd_bound (mask_diag OM) I)).
  rewrite flat_map_none with (g := fun e => (dcol e, snd e)).
  - unfold mdiag. rewrite map_map. reflexivity.
  - intros e I. unfold mdiag in I. apply in_map_iff in I. destruct I as (e0 & <- & I). destruct (mk_rows OM I) as (k & l & R & Hk & _ & _ & _ & _ & T). cbn [snd]. unfold btrues. rewrite T. destruct (Nat.eqb_spec (nth k (es_mults N) 0) 0) as [E|_]; [|reflexivity].
    exfalso. pose proof (ok_pos ON (nth_In _ 0 Hk)). lia.
Qed.
Definition mrows (l : list (nat * bblk)) : mdata := map (fun kp => ([fst kp; fst (snd kp)], snd (snd kp))) (combine (seq 0 (length l)) l).
Lemma mrows_large l : map (fun e : list nat * bblk => (nth 1 (fst e) 0, snd e)) (mrows l) = l.
Proof. unfold mrows. rewrite map_map. cbn [fst snd nth]. generalize 0. induction l as [|[x B] l IH]; intros i; [reflexivity|]. cbn [length seq combine map fst snd]. f_equal. apply IH. Qed.
Lemma mrows_nth l k : k < length l -> nth k (mrows l) (noentry bool) = ([k; fst (nth k l (0, Blk [] []))], snd (nth k l (0, Blk [] []))).
Proof.
  intros H. unfold mrows. rewrite nth_map_lt with (d := (0, (0, Blk [] []))) by (rewrite combine_length, seq_length; lia). rewrite combine_nth_lt with (x := 0) (y := (0, Blk [] [])) by (rewrite ?seq_length; lia). rewrite seq_nth by exact H. reflexivity.
Qed.
Lemma mrows_length l : length (mrows l) = length l.
Proof. unfold mrows. rewrite map_length, combine_length, seq_length. lia. Qed.
(** the data of a mask is determined by the pairs *)
Lemma mask_rows (S : symm) L N M : es_ok S N -> mask_ok L N M -> M = mrows (pushed (mfill L M) (seq 0 (nsec L))).
Proof.
  intros ON OM. rewrite (mask_pushed ON OM). assert (LM : length M = nsec N) by (pose proof (f_equal (@length nat) (mk_small OM)) as E; rewrite map_length, seq_length in E; exact E).
  apply list_eq_nth with (d := noentry bool); [now rewrite mrows_length, map_length|]. intros k Hk. rewrite mrows_nth by (now rewrite map_length). rewrite nth_map_lt with (d := noentry bool) by exact Hk. cbn [fst snd].
  assert (I : In (nth k M (noentry bool)) M) by (now apply nth_In). destruct (mk_rows OM I) as (k' & l & R & _). 
  assert (E : nth k (map (fun e => nth 0 (fst e) 0) M) 0 = k) by (rewrite (mk_small OM), seq_nth by lia; reflexivity). rewrite nth_map_lt with (d := noentry bool) in E by exact Hk. rewrite R in E |- *. cbn [nth] in *. rewrite <- E at 2. rewrite <- R. now destruct (nth k M (noentry bool)).
Qed.
Lemma mask_legs (S : symm) L N M : es_ok S N -> mask_ok L N M -> let l := pushed (mfill L M) (seq 0 (nsec L)) in
  es_def N = map (fun p => nth (fst p) (es_def L) []) l /\ es_mults N = map (fun p => btrues (snd p)) l.
Proof.
  intros ON OM. cbv zeta. rewrite (mask_pushed ON OM), !map_map. cbn [fst snd]. assert (LM : length M = nsec N) by (pose proof (f_equal (@length nat) (mk_small OM)) as E; rewrite map_length, seq_length in E; exact E).
  assert (X : forall k, k < length M -> exists l, fst (nth k M (noentry bool)) = [k; l] /\ nth k (es_def N) [] = nth l (es_def L) [] /\ btrues (snd (nth k M (noentry bool))) = nth k (es_mults N) 0).
  { intros k Hk. assert (I : In (nth k M (noentry bool)) M) by (now apply nth_In). destruct (mk_rows OM I) as (k' & l & R & _ & _ & D & _ & _ & T).
    assert (E : nth k (map (fun e => nth 0 (fst e) 0) M) 0 = k) by (rewrite (mk_small OM), seq_nth by lia; reflexivity). rewrite nth_map_lt with (d := noentry bool) in E by exact Hk. rewrite R in E. cbn [nth] in E. subst k'. exists l. auto. }
  split.
  - apply list_eq_nth with (d := @nil Z); [rewrite map_length, LM; symmetry; apply (ok_len ON)|]. intros k Hk. rewrite <- (ok_len ON) in Hk. fold (nsec N) in Hk. rewrite <- LM in Hk. rewrite nth_map_lt with (d := noentry bool) by exact Hk. destruct (X k Hk) as (l & R & D & _). rewrite R. exact D.
  - apply list_eq_nth with (d := 0); [rewrite map_length; symmetry; exact LM|]. intros k Hk. fold (nsec N) in Hk. rewrite <- LM in Hk. rewrite nth_map_lt with (d := noentry bool) by exact Hk. destruct (X k Hk) as (l & _ & _ & T). now rewrite T.
Qed.
(** the loops *)
Lemma mdiag_cons e M : mdiag (e :: M) = ([nth 1 (fst e) 0; nth 1 (fst e) 0], snd e) :: mdiag M.
Proof. reflexivity. Qed.
Definition mfirst (i : nat) (A : mdata) : bool := match A with e :: _ => nth 1 (fst e) 0 =? i | [] => false end.
Lemma mstep i z (A : mdata) : from i (mdiag A) ->
  exists A', (if mfirst i A then tl A else A) = A' /\ from (i + 1) (mdiag A') /\
    (if mfirst i A then match A with e :: _ => snd e | [] => Blk [] [] end else bzeros Bops z) = fills Bops z (mdiag A) i /\ forall n, i < n -> dg (mdiag A) n = dg (mdiag A') n.
Proof.
  intros F. exists (if mfirst i A then tl A else A). split; [reflexivity|]. destruct (step F) as [(e & W' & EW & Ed & F' & D & DS)|(NEW & F' & D)].
  - destruct A as [|a A]; [discriminate|]. rewrite mdiag_cons in EW. injection EW as <- <-. unfold dcol in Ed. cbn [fst nth] in Ed. cbn [mfirst]. rewrite (proj2 (Nat.eqb_eq _ _) Ed). cbn [tl]. split; [exact F'|]. split; [unfold fills; now rewrite D|exact DS].
  - assert (E : mfirst i A = false). { destruct A as [|a A]; [reflexivity|]. cbn [mfirst]. apply Nat.eqb_neq. exact (NEW _ _ (mdiag_cons a A)). }
    rewrite E. split; [exact F'|]. split; [unfold fills; now rewrite D|auto].
Qed.
Lemma pushed_ext F F' ns : (forall i, In i ns -> F i = F' i) -> pushed F ns = pushed F' ns.
Proof. intros H. unfold pushed. rewrite !flat_map_concat_map. f_equal. apply map_ext_in. intros i I. now rewrite (H i I). Qed.
Section Loops.
  Variable L : espace.
  Notation ms := (es_mults L).
  Lemma skipn_cons' i : i < length ms -> skipn i ms = nth i ms 0 :: skipn (i + 1) ms.
  Proof. generalize ms. intros l. revert i. induction l as [|x l IH]; intros [|i] H; cbn in *; try lia; [reflexivity|]. apply IH. lia. Qed.
  Lemma binary_pushed f : forall n i (A B : mdata), i + n = length ms -> from i (mdiag A) -> from i (mdiag B) ->
    mask_binary_loop f (skipn i ms) i A B = pushed (fun k => bbinary f (mfill L A k) (mfill L B k)) (seq i n).
  Proof.
    induction n as [|n IH]; intros i A B Hi FA FB.
    - rewrite skipn_all2 by lia. reflexivity.
    - rewrite skipn_cons' by lia. unfold pushed. cbn [mask_binary_loop seq flat_map]. fold (mfirst i A) (mfirst i B). cbv zeta. replace (S i) with (i + 1) by lia.
      destruct (mstep [nth i ms 0] FA) as (A' & EA & FA' & XA & DA). destruct (mstep [nth i ms 0] FB) as (B' & EB & FB' & XB & DB). rewrite EA, EB, XA, XB. fold (mfill L A i) (mfill L B i).
      rewrite (IH (i + 1) A' B') by (auto; lia). replace (pushed (fun k => bbinary f (mfill L A' k) (mfill L B' k)) (seq (i + 1) n)) with (pushed (fun k => bbinary f (mfill L A k) (mfill L B k)) (seq (i + 1) n)).
      + destruct (btrues _ =? 0); reflexivity.
      + apply pushed_ext. intros k Ik. apply in_seq in Ik. unfold mfill, fills. now rewrite (DA k), (DB k) by lia.
  Qed.
  Lemma unary_pushed f : forall n i (A : mdata), i + n = length ms -> from i (mdiag A) -> mask_unary_loop f (skipn i ms) i A = pushed (fun k => bunary f (mfill L A k)) (seq i n).
  Proof.
    induction n as [|n IH]; intros i A Hi FA.
    - rewrite skipn_all2 by lia. reflexivity.
    - rewrite skipn_cons' by lia. unfold pushed. cbn [mask_unary_loop seq flat_map]. fold (mfirst i A). cbv zeta. replace (S i) with (i + 1) by lia.
      destruct (mstep [nth i ms 0] FA) as (A' & EA & FA' & XA & DA). rewrite EA, XA. fold (mfill L A i).
      rewrite (IH (i + 1) A') by (auto; lia). replace (pushed (fun k => bunary f (mfill L A' k)) (seq (i + 1) n)) with (pushed (fun k => bunary f (mfill L A k)) (seq (i + 1) n)).
      + destruct (btrues _ =? 0); reflexivity.
      + apply pushed_ext. intros k Ik. apply in_seq in Ik. unfold mfill, fills. now rewrite (DA k) by lia.
  Qed.
  Lemma to_mask_pushed (A : mdata) : diag_data_ok L A ->
    flat_map (fun e => if existsb (fun x : bool => x) (bdata (snd e)) then [(nth 0 (fst e) 0, snd e)] else []) A = pushed (fun k => fills Bops [nth k ms 0] A k) (seq 0 (nsec L)).
  Proof.
    intros OA. rewrite (pushed_from _ (n := nsec L) (dd_from OA)) by (intros e I; apply (dd_bound OA I)). rewrite !flat_map_concat_map. f_equal. apply map_ext. intros e. rewrite trues_exists. unfold btrues, trues. now destruct (_ =? 0).
  Qed.
End Loops.
