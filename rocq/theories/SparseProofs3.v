(** Outer products, inner products, full traces. *)
From Coq Require Import Ring.
From Verif Require Import Util StableSort RowModel RowProofs GridModel GridProofs SymModel SymProofs CatSpec Sums SpaceModel SpaceSpec SpaceProofs SpaceProofs2 SpaceProofs3
  PipeModel PipeProofs PipeProofs2 PipeProofs4 BlockModel BlockProofs SparseModel SparseSpec SparseProofs SparseProofs2.
Set Implicit Arguments. Unset Strict Implicit.
Open Scope nat_scope.

(** * locations *)
Lemma locs_app ms ms' : forall b b' q q', length b = length ms -> length q = length ms -> locs (ms ++ ms') (b ++ b') (q ++ q') = locs ms b q ++ locs ms' b' q'.
Proof. induction ms as [|m ms IH]; intros [|x b] b' [|y q] q' L L'; try discriminate; cbn [app locs]; auto. f_equal. apply IH; cbn in *; lia. Qed.
Lemma locs_rev ms : forall b q, length b = length ms -> length q = length ms -> locs (rev ms) (rev b) (rev q) = rev (locs ms b q).
Proof.
  induction ms as [|m ms IH]; intros [|x b] [|y q] L L'; try discriminate; auto. cbn [rev locs].
  rewrite locs_app by (rewrite !rev_length; cbn in *; lia). rewrite IH by (cbn in *; lia). reflexivity.
Qed.
Lemma locs_len ms : forall b q, length b = length ms -> length q = length ms -> length (locs ms b q) = length ms.
Proof. induction ms as [|m ms IH]; intros [|x b] [|y q] L L'; try discriminate; auto. cbn [locs length]. f_equal. apply IH; cbn in *; lia. Qed.
Lemma locs_nth ms : forall b q i, length b = length ms -> length q = length ms -> i < length ms -> nth i (locs ms b q) 0 = nsum (firstn (nth i b 0) (nth i ms [])) + nth i q 0.
Proof. induction ms as [|m ms IH]; intros [|x b] [|y q] [|i] L L' H; try discriminate; cbn [length] in *; try lia; cbn [locs nth]; auto. apply IH; lia. Qed.
Lemma locs_take ms b q p : length b = length ms -> length q = length ms -> Forall (fun i => i < length ms) p ->
  locs (take [] ms p) (take 0 b p) (take 0 q p) = take 0 (locs ms b q) p.
Proof.
  intros L L' F. unfold take. induction F as [|i p Hi F IH]; auto. cbn [map locs]. rewrite IH. f_equal. symmetry. now apply locs_nth.
Qed.
Lemma shp_app ms ms' : forall b b', length b = length ms -> shp (ms ++ ms') (b ++ b') = shp ms b ++ shp ms' b'.
Proof. intros b b' L. rewrite !shp_zipw. now apply zipw_app. Qed.
Lemma shp_len ms b : length b = length ms -> length (shp ms b) = length ms.
Proof. intros L. rewrite shp_zipw. now apply zipw_length. Qed.

(** * the merge walk over keys *)
Section Walk.
  Variable K : Type.
  Variable o : ops K.
  Hypothesis SR : semi_ring_theory (o0 o) (o1 o) (oadd o) (omul o) (@eq K).
  Add Ring Kring : SR.
  Variables (X Y : Type) (ka : X -> nat) (kb : Y -> nat) (dx : X) (dy : Y) (f : X -> Y -> K).
  Lemma walk_1d_sum : forall a pa b pb, StronglySorted lt (map ka a) -> StronglySorted lt (map kb b) ->
    osum o (map (fun ij => f (nth (fst ij) (pa ++ a) dx) (nth (snd ij) (pb ++ b) dy)) (walk_1d (length pa) (map ka a) (length pb) (map kb b))) =
    osum o (map (fun x => osum o (map (fun y => if ka x =? kb y then f x y else o0 o) b)) a).
  Proof.
    induction a as [|x a IHa]; intros pa b pb Sa Sb; [reflexivity|].
    revert pb Sb. induction b as [|y b IHb]; intros pb Sb.
    { cbn [map walk_1d]. symmetry. apply (sum_zero SR (f := fun x0 => osum o []) (l := x :: a)). reflexivity. }
    cbn [map] in Sa, Sb. inversion Sa as [|? ? Sa' Fa]; subst. inversion Sb as [|? ? Sb' Fb]; subst. rewrite Forall_forall in Fa, Fb.
    assert (EA : pa ++ x :: a = (pa ++ [x]) ++ a) by (rewrite <- app_assoc; reflexivity).
    assert (EB : pb ++ y :: b = (pb ++ [y]) ++ b) by (rewrite <- app_assoc; reflexivity).
    assert (LA : S (length pa) = length (pa ++ [x])) by (rewrite app_length; cbn; lia).
    assert (LB : S (length pb) = length (pb ++ [y])) by (rewrite app_length; cbn; lia).
    change (walk_1d (length pa) (map ka (x :: a)) (length pb) (map kb (y :: b))) with
      (if ka x <? kb y then walk_1d (S (length pa)) (map ka a) (length pb) (map kb (y :: b))
       else if kb y <? ka x then walk_1d (length pa) (map ka (x :: a)) (S (length pb)) (map kb b)
       else (length pa, length pb) :: walk_1d (S (length pa)) (map ka a) (S (length pb)) (map kb b)).
    destruct (ka x <? kb y) eqn:E1; [|destruct (kb y <? ka x) eqn:E2].
    - apply Nat.ltb_lt in E1. rewrite EA, LA. rewrite IHa by auto.
      change (map (fun x0 => osum o (map (fun y0 => if ka x0 =? kb y0 then f x0 y0 else o0 o) (y :: b))) (x :: a)) with
        (osum o (map (fun y0 => if ka x =? kb y0 then f x y0 else o0 o) (y :: b)) :: map (fun x0 => osum o (map (fun y0 => if ka x0 =? kb y0 then f x0 y0 else o0 o) (y :: b))) a).
      rewrite (sum_cons o). rewrite (sum_zero SR (f := fun y0 => if ka x =? kb y0 then f x y0 else o0 o)); [ring|].
      intros z [<-|Hz]; destruct (Nat.eqb_spec (ka x) (kb y)); try lia; auto.
      destruct (Nat.eqb_spec (ka x) (kb z)); auto. specialize (Fb _ (in_map kb _ _ Hz)). lia.
    - apply Nat.ltb_lt in E2. rewrite EB, LB. rewrite IHb by auto. apply (sum_ext o). intros z Hz. cbn [map]. rewrite (sum_cons o).
      destruct (Nat.eqb_spec (ka z) (kb y)) as [E|E]; [exfalso|ring].
      destruct Hz as [<-|Hz]; [lia|]. specialize (Fa _ (in_map ka _ _ Hz)). lia.
    - apply Nat.ltb_ge in E1, E2. assert (E : ka x = kb y) by lia.
      change (map (fun x0 => osum o (map (fun y0 => if ka x0 =? kb y0 then f x0 y0 else o0 o) (y :: b))) (x :: a)) with
        (osum o ((if ka x =? kb y then f x y else o0 o) :: map (fun y0 => if ka x =? kb y0 then f x y0 else o0 o) b) :: map (fun x0 => osum o (map (fun y0 => if ka x0 =? kb y0 then f x0 y0 else o0 o) (y :: b))) a).
      assert (R : osum o (map (fun x0 => osum o (map (fun y0 => if ka x0 =? kb y0 then f x0 y0 else o0 o) (y :: b))) a)
        = osum o (map (fun x0 => osum o (map (fun y0 => if ka x0 =? kb y0 then f x0 y0 else o0 o) b)) a)).
      { apply (sum_ext o). intros z Hz. cbn [map]. rewrite (sum_cons o). destruct (Nat.eqb_spec (ka z) (kb y)); [|ring]. specialize (Fa _ (in_map ka _ _ Hz)). lia. }
      rewrite !(sum_cons o), R. clear R. rewrite (sum_zero SR (f := fun y0 => if ka x =? kb y0 then f x y0 else o0 o)).
      2:{ intros z Hz. destruct (Nat.eqb_spec (ka x) (kb z)); auto. specialize (Fb _ (in_map kb _ _ Hz)). lia. }
      destruct (Nat.eqb_spec (ka x) (kb y)); [|lia].
      cbn [map fst snd]. rewrite (sum_cons o). rewrite (app_nth2 pa), Nat.sub_diag by lia. rewrite (app_nth2 pb), Nat.sub_diag by lia. cbn [nth].
      rewrite EA, EB, LA, LB, IHa by auto. ring.
  Qed.
End Walk.

Lemma fold_oadd K (o : ops K) (SR : semi_ring_theory (o0 o) (o1 o) (oadd o) (omul o) (@eq K)) X (g : X -> K) l : forall a,
  fold_left (fun res x => oadd o res (g x)) l a = oadd o a (osum o (map g l)).
Proof.
  induction l as [|x l IH]; intros a; cbn [fold_left map].
  - rewrite (sum_nil o). rewrite (SRadd_comm SR). symmetry. apply (SRadd_0_l SR).
  - rewrite IH, (sum_cons o). symmetry. apply (SRadd_assoc SR).
Qed.

Lemma app_inj T (a a' b b' : list T) : length a = length a' -> a ++ b = a' ++ b' -> a = a' /\ b = b'.
Proof.
  revert a'. induction a as [|x a IH]; intros [|y a'] L E; try discriminate; auto. cbn in E, L. injection E as -> E. apply IH in E; [|lia]. destruct E as [-> ->]. auto.
Qed.

Section Ops3.
  Variable K : Type.
  Variable o : ops K.
  Hypothesis SR : semi_ring_theory (o0 o) (o1 o) (oadd o) (omul o) (@eq K).
  Add Ring Kring2 : SR.
  Notation block := (blk K).
  Notation adata := (list (list nat * blk K)).
  Notation sval := (sval o).
  Implicit Types D A B V W : adata.

  (** sums over all rows reduce to the stored rows *)
  Lemma sum_stored legs D (F : list nat -> K) : data_ok legs D -> (forall b, valid_idx (map nsec legs) b -> ~ In b (map fst D) -> F b = o0 o) ->
    osum o (map F (make_grid (map nsec legs) true)) = osum o (map (fun e => F (fst e)) D).
  Proof.
    intros H Z. rewrite <- (map_map fst F). symmetry. apply (sum_incl SR row_dec).
    - apply (data_ok_NoDup H).
    - apply make_grid_NoDup.
    - intros b Hb. apply in_map_iff in Hb. destruct Hb as (e & <- & He). apply make_grid_In, (do_valid H He).
    - intros b Hb NI. apply make_grid_In in Hb. auto.
  Qed.
  (** entries of a stored block *)
  Lemma sval_entry legs D e q : data_ok legs D -> In e D -> sval D (fst e) q = bat o (snd e) q.
  Proof. intros H. apply sval_in'. apply (data_ok_NoDup H). Qed.

  (** ** outer products *)
  Lemma outer_pairs k A B e : In e (outer_data o k A B) <->
    exists ea eb, In ea A /\ In eb B /\ e = (firstn k (fst ea) ++ fst eb ++ skipn k (fst ea), btensor_outer o (snd ea) (snd eb) k).
  Proof.
    unfold outer_data. rewrite make_data_In, in_map_iff. split.
    - intros (ij & <- & H). apply make_grid_In in H. inversion H as [|i n ij' s Hi H']; subst. inversion H' as [|j m ij'' s' Hj H'']; subst. inversion H''; subst. cbn [nth].
      exists (nth i A (noentry K)), (nth j B (noentry K)). split; [now apply nth_In|]. split; [now apply nth_In|reflexivity].
    - intros (ea & eb & Ha & Hb & ->). destruct (In_nth _ _ (noentry K) Ha) as (i & Hi & <-). destruct (In_nth _ _ (noentry K) Hb) as (j & Hj & <-).
      exists [i; j]. split; [reflexivity|]. apply make_grid_In. constructor; [exact Hi|]. constructor; [exact Hj|]. constructor.
  Qed.
  Lemma row_parts legs1 legs2 r : valid_idx (map nsec (legs1 ++ legs2)) r ->
    exists r1 r2, r = r1 ++ r2 /\ valid_idx (map nsec legs1) r1 /\ valid_idx (map nsec legs2) r2 /\ length r1 = length legs1.
  Proof.
    rewrite map_app. intros V. destruct (valid_split V) as (V1 & V2 & E). exists (firstn (length (map nsec legs1)) r), (skipn (length (map nsec legs1)) r).
    split; [auto|]. split; [auto|]. split; [auto|]. rewrite (valid_length V1). apply map_length.
  Qed.
  Lemma valid_row_app legs1 legs2 r1 r2 : valid_idx (map nsec legs1) r1 -> valid_idx (map nsec legs2) r2 -> valid_idx (map nsec (legs1 ++ legs2)) (r1 ++ r2).
  Proof. intros V1 V2. rewrite map_app. apply valid_app; [apply (valid_length V1)|auto]. Qed.
  Lemma firstn_len (T : Type) (l l' : list T) : firstn (length l) (l ++ l') = l.
  Proof. rewrite firstn_app, Nat.sub_diag, firstn_all. apply app_nil_r. Qed.
  Lemma skipn_len (T : Type) (l l' : list T) : skipn (length l) (l ++ l') = l'.
  Proof. rewrite skipn_app, Nat.sub_diag, skipn_all. reflexivity. Qed.
  Lemma outer_ok cod1 legs2 legsB A B : data_ok (cod1 ++ legs2) A -> data_ok legsB B ->
    data_ok (cod1 ++ legsB ++ legs2) (outer_data o (length cod1) A B) /\
    forall r1 r2 r q1 q2 q, valid_idx (map nsec cod1) r1 -> valid_idx (map nsec legs2) r2 -> valid_idx (map nsec legsB) r ->
      valid_idx (shp (mults cod1) r1) q1 -> valid_idx (shp (mults legs2) r2) q2 -> valid_idx (shp (mults legsB) r) q ->
      sval (outer_data o (length cod1) A B) (r1 ++ r ++ r2) (q1 ++ q ++ q2) = omul o (sval A (r1 ++ r2) (q1 ++ q2)) (sval B r q).
  Proof.
    intros HA HB. set (k := length cod1). set (R := outer_data o k A B).
    assert (OK : data_ok (cod1 ++ legsB ++ legs2) R).
    { unfold R, outer_data. apply data_ok_make.
      - rewrite map_map. cbn [fst]. apply NoDup_map_inj; [|apply make_grid_NoDup]. intros x y Hx Hy.
        apply make_grid_In in Hx, Hy. inversion Hx as [|i n x' s Hi Hx']; subst. inversion Hx' as [|j m x'' s' Hj Hx'']; subst. inversion Hx''; subst.
        inversion Hy as [|i' n' y' s Hi' Hy']; subst. inversion Hy' as [|j' m' y'' s' Hj' Hy'']; subst. inversion Hy''; subst. cbn [nth]. intros E.
        set (ea := nth i A (noentry K)) in *. set (ea' := nth i' A (noentry K)) in *. set (eb := nth j B (noentry K)) in *. set (eb' := nth j' B (noentry K)) in *.
        assert (Ia : In ea A) by now apply nth_In. assert (Ia' : In ea' A) by now apply nth_In. assert (Ib : In eb B) by now apply nth_In. assert (Ib' : In eb' B) by now apply nth_In.
        destruct (row_parts (do_valid HA Ia)) as (r1 & r2 & E1 & V1 & V2 & L1). destruct (row_parts (do_valid HA Ia')) as (r1' & r2' & E1' & V1' & V2' & L1').
        assert (VB := do_valid HB Ib). assert (VB' := do_valid HB Ib').
        rewrite E1, E1' in E. unfold k in E. 
        replace (firstn (length cod1) (r1 ++ r2)) with r1 in E by (rewrite <- L1; now rewrite firstn_len).
        replace (skipn (length cod1) (r1 ++ r2)) with r2 in E by (rewrite <- L1; now rewrite skipn_len).
        replace (firstn (length cod1) (r1' ++ r2')) with r1' in E by (rewrite <- L1'; now rewrite firstn_len).
        replace (skipn (length cod1) (r1' ++ r2')) with r2' in E by (rewrite <- L1'; now rewrite skipn_len).
        apply app_inj in E; [|lia]. destruct E as [E2 E3]. apply app_inj in E3; [|rewrite (valid_length VB), (valid_length VB'); reflexivity]. destruct E3 as [E3 E4].
        assert (F1 : fst ea = fst ea') by congruence.
        assert (NA := data_ok_NoDup HA). assert (NB := data_ok_NoDup HB). rewrite (NoDup_nth (map fst A) []), map_length in NA. rewrite (NoDup_nth (map fst B) []), map_length in NB.
        f_equal; [|f_equal]; [apply NA|apply NB]; auto; rewrite !(@nth_fst K); auto.
      - intros e He. apply make_data_In with (s := false) in He. apply outer_pairs in He. destruct He as (ea & eb & Ia & Ib & ->). cbn [fst snd].
        destruct (row_parts (do_valid HA Ia)) as (r1 & r2 & E1 & V1 & V2 & L1). assert (SA := do_shape HA Ia). assert (SB := do_shape HB Ib).
        assert (LM : length r1 = length (mults cod1)) by (unfold mults; now rewrite map_length).
        assert (LB : length (fst eb) = length (mults legsB)) by (unfold mults; rewrite map_length, (valid_length (do_valid HB Ib)); apply map_length).
        rewrite E1. unfold k. rewrite <- L1. rewrite firstn_len, skipn_len. split; [|split].
        + apply valid_row_app; auto. apply valid_row_app; auto. apply (do_valid HB Ib).
        + rewrite E1 in SA. unfold mults in SA. rewrite map_app in SA. fold (mults cod1) (mults legs2) in SA. rewrite shp_app in SA by auto.
          rewrite btensor_outer_shape by (unfold bndim; rewrite SA, app_length, shp_len by auto; lia).
          rewrite SA, SB. unfold mults. rewrite !map_app. fold (mults cod1) (mults legs2) (mults legsB). rewrite !shp_app by auto. rewrite LM, <- (shp_len LM). now rewrite firstn_len, skipn_len.
        + apply btranspose_wf. }
    split; [exact OK|]. intros r1 r2 r q1 q2 q V1 V2 V W1 W2 W.
    assert (L1 : length r1 = k) by (rewrite (valid_length V1); apply map_length).
    assert (LM : length r1 = length (mults cod1)) by (unfold mults; now rewrite map_length).
    destruct (in_dec row_dec (r1 ++ r2) (map fst A)) as [IA|IA].
    - destruct (in_rows IA) as [X HX]. rewrite (sval_in o _ (data_ok_NoDup HA) HX). destruct (in_dec row_dec r (map fst B)) as [IB|IB].
      + destruct (in_rows IB) as [Y HY]. rewrite (sval_in o _ (data_ok_NoDup HB) HY).
        assert (I : In (r1 ++ r ++ r2, btensor_outer o X Y k) R).
        { apply outer_pairs. exists (r1 ++ r2, X), (r, Y). split; [auto|]. split; [auto|]. cbn [fst snd]. rewrite <- L1. now rewrite firstn_len, skipn_len. }
        rewrite (sval_in o _ (data_ok_NoDup OK) I).
        assert (SX := do_shape HA HX). assert (SY := do_shape HB HY). cbn [fst snd] in SX, SY.
        unfold mults in SX. rewrite map_app in SX. fold (mults cod1) (mults legs2) in SX. rewrite shp_app in SX by auto.
        apply bat_tensor_outer.
        * rewrite (valid_length W1), shp_len by auto. now rewrite <- LM.
        * rewrite SX. apply valid_app; [apply (valid_length W1)|auto].
        * now rewrite SY.
      + rewrite (sval_notin o q IB), sval_notin; [ring|]. intros I. apply in_map_iff in I. destruct I as (e & E & He). apply outer_pairs in He.
        destruct He as (ea & eb & Ia & Ib & ->). cbn [fst] in E. destruct (row_parts (do_valid HA Ia)) as (s1 & s2 & E1 & U1 & U2 & L1'). rewrite E1 in E. unfold k in E. rewrite <- L1' in E. rewrite firstn_len, skipn_len in E.
        apply app_inj in E; [|rewrite L1', L1; reflexivity]. destruct E as [_ E]. apply app_inj in E; [|rewrite (valid_length (do_valid HB Ib)), (valid_length V); reflexivity]. apply IB. rewrite <- (proj1 E). now apply in_map.
    - rewrite (sval_notin o _ IA), sval_notin; [ring|]. intros I. apply in_map_iff in I. destruct I as (e & E & He). apply outer_pairs in He.
      destruct He as (ea & eb & Ia & Ib & ->). cbn [fst] in E. destruct (row_parts (do_valid HA Ia)) as (s1 & s2 & E1 & U1 & U2 & L1'). rewrite E1 in E. unfold k in E. rewrite <- L1' in E. rewrite firstn_len, skipn_len in E.
      apply app_inj in E; [|rewrite L1', L1; reflexivity]. destruct E as [E0 E]. apply app_inj in E; [|rewrite (valid_length (do_valid HB Ib)), (valid_length V); reflexivity].
      apply IA. rewrite <- E0, <- (proj2 E), <- E1. now apply in_map.
  Qed.
End Ops3.
