(** Proofs about AbelianLegPipe. *)
From Verif Require Import Util StableSort RowModel RowProofs GridModel GridProofs SymModel SymProofs SpaceModel SpaceSpec SpaceProofs SpaceProofs2 SpaceProofs3 PipeModel.
Set Implicit Arguments. Unset Strict Implicit.
Open Scope nat_scope.

(** * list helpers *)
Lemma fold_left_mul l : forall a, fold_left Nat.mul l a = a * prod l.
Proof. induction l as [|x l IH]; intros a; cbn [fold_left prod fold_right]; [lia|]. rewrite IH. unfold prod; cbn [fold_right]. lia. Qed.
Lemma fold_left_mul_map A (f : A -> nat) l : forall a, fold_left (fun d x => d * f x) l a = a * prod (map f l).
Proof. induction l as [|x l IH]; intros a; cbn [fold_left map]; [unfold prod; cbn; lia|]. rewrite IH. unfold prod; cbn [map fold_right]. lia. Qed.
Lemma grid_rows nums c : map (fun m => map (grid_entry m (make_stride nums c) nums) (seq 0 (length nums))) (seq 0 (prod nums)) = make_grid nums c.
Proof.
  apply list_eq_nth with (d := []); rewrite map_length, seq_length; [now rewrite make_grid_length|].
  intros i Hi. rewrite nth_map_lt with (d := 0) by now rewrite seq_length. rewrite seq_nth by auto. cbn [Nat.add].
  symmetry. exact (proj1 (@make_grid_nth nums c i Hi)).
Qed.

Lemma nsum_map_dot N (f g : nat -> nat) : nsum (map (fun n => f n * g n) (seq 0 N)) = dot (map f (seq 0 N)) (map g (seq 0 N)).
Proof. generalize 0. induction N as [|N IH]; intros s; cbn [seq map nsum fold_right dot]; auto. Qed.
Lemma map_nth_seq A (d : A) l : map (fun n => nth n l d) (seq 0 (length l)) = l.
Proof. exact (take_seq d l). Qed.

(** overwriting consecutive slices *)
Lemma overwrite_app A (done : list A) new l : length new <= length l ->
  overwrite (length done) new (done ++ l) = (done ++ new) ++ skipn (length new) l.
Proof.
  intros H. unfold overwrite. rewrite firstn_app, Nat.sub_diag, firstn_all, app_nil_r, <- app_assoc. do 2 f_equal.
  rewrite skipn_app. rewrite skipn_all2 by lia. replace (length done + length new - length done) with (length new) by lia. reflexivity.
Qed.
Lemma overwrite_fold A B (dflt : B) (start : B -> nat) (chunk : B -> list A) rs : forall done l,
  nsum (map (fun r => length (chunk r)) rs) <= length l ->
  (forall m, m < length rs -> start (nth m rs dflt) = length done + nsum (firstn m (map (fun r => length (chunk r)) rs))) ->
  fold_left (fun p r => overwrite (start r) (chunk r) p) rs (done ++ l) =
  done ++ flat_map chunk rs ++ skipn (nsum (map (fun r => length (chunk r)) rs)) l.
Proof.
  induction rs as [|r rs IH]; intros done l HL HS; cbn [fold_left flat_map map nsum fold_right app skipn]; auto.
  cbn [map nsum fold_right] in HL. fold (nsum (map (fun r => length (chunk r)) rs)) in *.
  assert (H0 := HS 0 ltac:(cbn; lia)). cbn [firstn nth nsum fold_right] in H0. rewrite Nat.add_0_r in H0. rewrite H0.
  rewrite overwrite_app by lia. rewrite IH.
  - rewrite skipn_skipn', <- !app_assoc. reflexivity.
  - rewrite skipn_length. lia.
  - intros m Hm. specialize (HS (Datatypes.S m) ltac:(cbn; lia)). cbn [nth] in HS. rewrite HS, app_length.
    cbn [map firstn]. change (nsum (length (chunk r) :: firstn m (map (fun r => length (chunk r)) rs))) with (length (chunk r) + nsum (firstn m (map (fun r => length (chunk r)) rs))). lia.
Qed.

(** * locations: block index and offset within the block, per leg *)
Fixpoint shp (mss : list (list nat)) (idx : list nat) : list nat :=
  match mss, idx with ms :: mss', i :: idx' => nth i ms 0 :: shp mss' idx' | _, _ => [] end.
Fixpoint locs (mss : list (list nat)) (idx r : list nat) : list nat :=
  match mss, idx, r with ms :: mss', i :: idx', o :: r' => (nsum (firstn i ms) + o) :: locs mss' idx' r' | _, _, _ => [] end.

Lemma loc_lt ms : forall i o, i < length ms -> o < nth i ms 0 -> nsum (firstn i ms) + o < nsum ms.
Proof.
  induction ms as [|m ms IH]; intros i o Hi Ho; [cbn in Hi; lia|]. change (nsum (m :: ms)) with (m + nsum ms). destruct i as [|i]; cbn [firstn nth] in *.
  - cbn. lia.
  - change (nsum (m :: firstn i ms)) with (m + nsum (firstn i ms)). specialize (IH i o ltac:(cbn in Hi; lia) Ho). lia.
Qed.
Lemma nsum_cons a l : nsum (a :: l) = a + nsum l.
Proof. reflexivity. Qed.
Lemma loc_inj ms : forall i o i' o', i < length ms -> o < nth i ms 0 -> i' < length ms -> o' < nth i' ms 0 ->
  nsum (firstn i ms) + o = nsum (firstn i' ms) + o' -> i = i' /\ o = o'.
Proof.
  induction ms as [|m ms IH]; intros i o i' o' Hi Ho Hi' Ho' E; [cbn in Hi; lia|]. cbn [length] in *.
  destruct i as [|i], i' as [|i']; cbn [firstn nth] in *; rewrite ?nsum_cons in E; try (change (nsum []) with 0 in E; lia).
  destruct (IH i o i' o'); lia.
Qed.
Lemma loc_surj ms : forall j, j < nsum ms -> exists i o, i < length ms /\ o < nth i ms 0 /\ j = nsum (firstn i ms) + o.
Proof.
  induction ms as [|m ms IH]; intros j Hj; [cbn in Hj; lia|]. change (nsum (m :: ms)) with (m + nsum ms) in Hj.
  destruct (Nat.ltb_spec j m) as [L|L].
  - exists 0, j. cbn. lia.
  - destruct (IH (j - m) ltac:(lia)) as (i & o & Hi & Ho & E). exists (Datatypes.S i), o. cbn [length nth firstn].
    change (nsum (m :: firstn i ms)) with (m + nsum (firstn i ms)). lia.
Qed.

Lemma shp_length mss : forall idx, valid_idx (map (@length nat) mss) idx -> length (shp mss idx) = length mss.
Proof. induction mss as [|ms mss IH]; intros idx V; inversion V; subst; cbn [shp length]; auto. Qed.
Lemma locs_length mss : forall idx r, valid_idx (map (@length nat) mss) idx -> valid_idx (shp mss idx) r -> length (locs mss idx r) = length mss.
Proof. induction mss as [|ms mss IH]; intros idx r V W; inversion V; subst; cbn [shp] in W; inversion W; subst; cbn [locs length]; auto. Qed.
Lemma locs_valid mss : forall idx r, valid_idx (map (@length nat) mss) idx -> valid_idx (shp mss idx) r -> valid_idx (map nsum mss) (locs mss idx r).
Proof.
  induction mss as [|ms mss IH]; intros idx r V W; inversion V; subst; cbn [shp] in W; inversion W; subst; cbn [locs map]; constructor; auto.
  - now apply loc_lt.
  - now apply IH.
Qed.
Lemma locs_inj mss : forall idx r idx' r', valid_idx (map (@length nat) mss) idx -> valid_idx (shp mss idx) r ->
  valid_idx (map (@length nat) mss) idx' -> valid_idx (shp mss idx') r' -> locs mss idx r = locs mss idx' r' -> idx = idx' /\ r = r'.
Proof.
  induction mss as [|ms mss IH]; intros idx r idx' r' V W V' W' E; inversion V; inversion V'; subst; cbn [shp] in W, W'; inversion W; inversion W'; subst; auto.
  cbn [locs] in E. assert (E1 := f_equal (hd 0) E). assert (E2 := f_equal (@tl nat) E). cbn [hd tl] in E1, E2.
  apply loc_inj in E1; auto. destruct E1 as [-> ->].
  eapply IH in E2; eauto. destruct E2 as [-> ->]. auto.
Qed.
Lemma locs_surj mss : forall j, valid_idx (map nsum mss) j -> exists idx r, valid_idx (map (@length nat) mss) idx /\ valid_idx (shp mss idx) r /\ j = locs mss idx r.
Proof.
  induction mss as [|ms mss IH]; intros j V; inversion V as [|x y l l' Hx Hl]; subst.
  - exists [], []. repeat constructor.
  - destruct (loc_surj Hx) as (i & o & Hi & Ho & ->). destruct (IH _ Hl) as (idx & r & A & B & ->).
    exists (i :: idx), (o :: r). cbn [shp locs map]. split; [constructor; auto|]. split; [constructor; auto|reflexivity].
Qed.

(** all locations, block after block *)
Definition block_locs (c : bool) (mss : list (list nat)) (idx : list nat) : list (list nat) := map (locs mss idx) (make_grid (shp mss idx) c).
Lemma block_locs_perm c mss : Permutation (flat_map (block_locs c mss) (make_grid (map (@length nat) mss) c)) (make_grid (map nsum mss) c).
Proof.
  apply NoDup_Permutation_iff; [|apply make_grid_NoDup|].
  - apply NoDup_flat_map; [apply make_grid_NoDup| |].
    + intros idx Hi. apply make_grid_In in Hi. apply NoDup_map_inj; [|apply make_grid_NoDup]. intros x y Hx Hy E.
      apply make_grid_In in Hx, Hy. now apply locs_inj in E.
    + intros x y z Hx Hy Hz Hz'. apply make_grid_In in Hx, Hy. apply in_map_iff in Hz, Hz'.
      destruct Hz as (r & <- & Hr), Hz' as (r' & E & Hr'). apply make_grid_In in Hr, Hr'. apply locs_inj in E; auto. now destruct E.
  - intros j. rewrite in_flat_map, make_grid_In. split.
    + intros (idx & Hi & Hj). apply make_grid_In in Hi. apply in_map_iff in Hj. destruct Hj as (r & <- & Hr). apply make_grid_In in Hr. now apply locs_valid.
    + intros V. destruct (locs_surj V) as (idx & r & A & B & ->). exists idx. split; [now apply make_grid_In|]. apply in_map_iff. exists r. split; auto. now apply make_grid_In.
Qed.
Lemma block_locs_length c mss idx : length (block_locs c mss idx) = prod (shp mss idx).
Proof. unfold block_locs. now rewrite map_length, make_grid_length. Qed.

(** per-leg application *)
Fixpoint zipw (A B : Type) (f : A -> nat -> B) (l : list A) (r : list nat) : list B :=
  match l, r with a :: l', i :: r' => f a i :: zipw f l' r' | _, _ => [] end.
Lemma zipw_length A B (f : A -> nat -> B) l : forall r, length r = length l -> length (zipw f l r) = length l.
Proof. induction l as [|a l IH]; intros [|i r] H; try discriminate; cbn [zipw length]; auto. Qed.
Lemma zipw_nth A B (d : A) (e : B) (f : A -> nat -> B) l : forall r n, n < length l -> length r = length l -> nth n (zipw f l r) e = f (nth n l d) (nth n r 0).
Proof. induction l as [|a l IH]; intros [|i r] n Hn H; try discriminate; [cbn in Hn; lia|]. cbn in H. destruct n as [|n]; cbn [zipw nth]; auto. apply IH; cbn in Hn; lia. Qed.
Lemma zipw_seq A B (d : A) (e : B) (f : A -> nat -> B) l r : length r = length l -> map (fun n => f (nth n l d) (nth n r 0)) (seq 0 (length l)) = zipw f l r.
Proof.
  intros H. apply list_eq_nth with (d := e); rewrite map_length, seq_length; [now rewrite zipw_length|]. intros n Hn.
  rewrite nth_map_lt with (d := 0) by now rewrite seq_length. rewrite seq_nth by auto. now rewrite (zipw_nth d).
Qed.
Lemma zipw_map A A' B (g : A' -> A) (f : A -> nat -> B) l : forall r, zipw f (map g l) r = zipw (fun x i => f (g x) i) l r.
Proof. induction l as [|a l IH]; intros [|i r]; cbn [map zipw]; auto. now rewrite IH. Qed.
Lemma zipw_ext A B (f g : A -> nat -> B) l : forall r, (forall a i, In a l -> f a i = g a i) -> zipw f l r = zipw g l r.
Proof. induction l as [|a l IH]; intros [|i r] H; cbn [zipw]; auto. rewrite (H a i), IH; auto; cbn; auto. intros; apply H; cbn; auto. Qed.
Lemma zipw_app A B (f : A -> nat -> B) l l' : forall r r', length r = length l -> zipw f (l ++ l') (r ++ r') = zipw f l r ++ zipw f l' r'.
Proof. induction l as [|a l IH]; intros [|i r] r' H; try discriminate; cbn [app zipw]; auto. now rewrite IH by (cbn in H; lia). Qed.
Lemma zipw_rev A B (f : A -> nat -> B) l : forall r, length r = length l -> zipw f (rev l) (rev r) = rev (zipw f l r).
Proof. induction l as [|a l IH]; intros [|i r] H; try discriminate; auto. cbn [rev]. cbn in H. rewrite zipw_app by (rewrite !rev_length; lia). rewrite IH by lia. reflexivity. Qed.
Lemma map_zipw A B C (g : B -> C) (f : A -> nat -> B) l : forall r, map g (zipw f l r) = zipw (fun a i => g (f a i)) l r.
Proof. induction l as [|a l IH]; intros [|i r]; cbn [zipw map]; auto. now rewrite IH. Qed.
Lemma shp_zipw mss : forall idx, shp mss idx = zipw (fun ms i => nth i ms 0) mss idx.
Proof. induction mss as [|m mss IH]; intros [|i idx]; cbn [shp zipw]; auto. now rewrite IH. Qed.

(** the group of a row *)
Lemma group_of_spec diffs : forall m, StronglySorted lt diffs -> nth 0 diffs 0 <= m -> m < last diffs 0 ->
  group_of diffs m + 1 < length diffs /\ nth (group_of diffs m) diffs 0 <= m < nth (group_of diffs m + 1) diffs 0.
Proof.
  induction diffs as [|a [|b t] IH]; intros m SS H0 HL; cbn [last length nth] in *; try lia.
  inversion SS as [|? ? SS' F]; subst. change (group_of (a :: b :: t) m) with (if m <? b then 0 else Datatypes.S (group_of (b :: t) m)). destruct (Nat.ltb_spec m b) as [L|L].
  - cbn [nth length Nat.add]. lia.
  - change (match t with [] => b | _ :: _ => last t 0 end) with (last (b :: t) 0) in HL.
    destruct (IH m SS' L HL) as [A B]. cbn [Nat.add length] in *. split; [lia|].
    change (nth (Datatypes.S (group_of (b :: t) m)) (a :: b :: t) 0) with (nth (group_of (b :: t) m) (b :: t) 0).
    change (nth (Datatypes.S (group_of (b :: t) m) + 1) (a :: b :: t) 0) with (nth (group_of (b :: t) m + 1) (b :: t) 0). exact B.
Qed.
Lemma telescope (f : nat -> nat) n : (forall i, i < n -> f i <= f (i + 1)) -> forall k, k <= n ->
  nsum (firstn k (map (fun i => f (i + 1) - f i) (seq 0 n))) = f k - f 0 /\ f 0 <= f k.
Proof.
  intros Mono. induction k as [|k IH]; intros Hk; [cbn; lia|].
  rewrite nsum_firstn_S by (rewrite map_length, seq_length; lia). rewrite nth_map_lt with (d := 0) by (rewrite seq_length; lia).
  rewrite seq_nth by lia. cbn [Nat.add]. destruct (IH ltac:(lia)) as [A B]. specialize (Mono k ltac:(lia)). replace (Datatypes.S k) with (k + 1) by lia. lia.
Qed.

(** * fusing columns *)
Section Fuse.
  Variable S : symmetry.
  Variable fuse : sector -> sector -> sector.
  Hypothesis G : abelian_group_laws S fuse.
  Definition fuse_all (l : list sector) : sector := match l with [] => sym_trivial S | a :: r => fsum fuse a r end.
  Lemma mfb_loop X (xs : list X) cols : forall g : X -> sector, (forall x, In x xs -> sym_valid S (g x) = true) ->
    (forall h x, In h cols -> In x xs -> sym_valid S (h x) = true) ->
    multiple_fusion_broadcast_loop S (map g xs) (map (fun h : X -> sector => map h xs) cols) = Some (map (fun x => fsum fuse (g x) (map (fun h => h x) cols)) xs).
  Proof.
    unfold multiple_fusion_broadcast_loop. induction cols as [|h cols IH]; intros g Vg Vc; cbn [map fold_left fsum]; auto.
    rewrite (fob_spec G).
    - rewrite <- IH.
      + replace (map (fun p => fuse (fst p) (snd p)) (combine (map g xs) (map h xs))) with (map (fun x => fuse (g x) (h x)) xs); [reflexivity|].
        clear. induction xs; cbn [map combine fst snd]; congruence.
      + intros x Hx. apply (ag_closed G); [now apply Vg|apply Vc; cbn; auto].
      + intros; apply Vc; cbn; auto.
    - apply Forall_forall. intros y Hy. apply in_map_iff in Hy. destruct Hy as (x & <- & Hx). now apply Vg.
    - apply Forall_forall. intros y Hy. apply in_map_iff in Hy. destruct Hy as (x & <- & Hx). apply Vc; cbn; auto.
    - now rewrite !map_length.
  Qed.
  Lemma mfb_cols X (xs : list X) cols : cols <> [] -> (forall h x, In h cols -> In x xs -> sym_valid S (h x) = true) ->
    multiple_fusion_broadcast S (map (fun h : X -> sector => map h xs) cols) = Some (map (fun x => fuse_all (map (fun h => h x) cols)) xs).
  Proof.
    destruct cols as [|g cols]; [congruence|]. intros _ V. cbn [map multiple_fusion_broadcast].
    transitivity (multiple_fusion_broadcast_loop S (map g xs) (map (fun h : X -> sector => map h xs) cols)).
    - destruct cols; reflexivity.
    - rewrite mfb_loop; [reflexivity| |]; intros; apply V; cbn; auto.
  Qed.
  Lemma fuse_all_valid l : Forall (fun a => sym_valid S a = true) l -> sym_valid S (fuse_all l) = true.
  Proof. intros F. destruct l as [|a l]; cbn [fuse_all]; [apply (ag_trivial_valid G)|]. inversion F; subst. now apply (fsum_valid G). Qed.
  Lemma fuse_all_multiple l : l <> [] -> Forall (fun a => sym_valid S a = true) l -> multiple_fusion S l = Some (fuse_all l).
  Proof. intros H F. destruct l as [|a l]; [congruence|]. inversion F; subst. now apply (multiple_fusion_spec G). Qed.
  Lemma fuse_all_cons a l : sym_valid S a = true -> Forall (fun a => sym_valid S a = true) l -> fuse_all (a :: l) = fuse a (fuse_all l).
  Proof.
    intros V F. destruct l as [|b l]; cbn [fuse_all fsum].
    - rewrite (ag_comm G), (ag_unit G); auto. apply (ag_trivial_valid G).
    - inversion F; subst. now rewrite (fsum_assoc G).
  Qed.
  Lemma fuse_all_app l l' : Forall (fun a => sym_valid S a = true) l -> Forall (fun a => sym_valid S a = true) l' -> fuse_all (l ++ l') = fuse (fuse_all l) (fuse_all l').
  Proof.
    induction 1 as [|a l Ha F IH]; intros F'; cbn [app].
    - cbn [fuse_all]. symmetry. apply (ag_unit G). now apply fuse_all_valid.
    - rewrite !fuse_all_cons; auto; [|apply Forall_app; auto]. rewrite IH by auto. symmetry. apply (ag_assoc G); auto; now apply fuse_all_valid.
  Qed.
  Lemma fuse_all_rev l : Forall (fun a => sym_valid S a = true) l -> fuse_all (rev l) = fuse_all l.
  Proof.
    induction 1 as [|a l Ha F IH]; auto. cbn [rev]. assert (F' : Forall (fun a => sym_valid S a = true) (rev l)) by (apply Forall_forall; intros x Hx; apply in_rev in Hx; rewrite Forall_forall in F; auto).
    rewrite fuse_all_app, IH, (@fuse_all_cons a l); auto. change (fuse_all [a]) with a. apply (ag_comm G); auto. now apply fuse_all_valid.
  Qed.
  Lemma fuse_all_dual l : Forall (fun a => sym_valid S a = true) l -> fuse_all (map (sym_dual S) l) = sym_dual S (fuse_all l).
  Proof.
    induction 1 as [|a l Ha F IH]; cbn [map].
    - cbn [fuse_all]. symmetry. apply (ag_dual_trivial G).
    - assert (F' : Forall (fun a => sym_valid S a = true) (map (sym_dual S) l)).
      { apply Forall_forall. intros x Hx. apply in_map_iff in Hx. destruct Hx as (y & <- & Hy). rewrite Forall_forall in F. now apply (ag_dual_valid G), F. }
      rewrite !fuse_all_cons; auto; [|now apply (ag_dual_valid G)]. rewrite IH. symmetry. apply (ag_dual_fuse G); auto. now apply fuse_all_valid.
  Qed.
End Fuse.
Lemma ag_symm_ok (S : symm) fuse : abelian_group_laws S fuse -> symm_ok S.
Proof.
  intros G. constructor; intros.
  - now apply (ag_len G). - now apply (ag_dual_valid G). - now apply (ag_dual_invol G). - rewrite (ag_dim G); lia. - now rewrite !(ag_dim G). - apply (ag_dim G).
Qed.
