(** Linear combinations, scalar multiples, dagger, leg permutations, outer products, single entries. *)
From Coq Require Import Ring.
From Verif Require Import Util StableSort RowModel RowProofs GridModel GridProofs SymModel SymProofs CatSpec Sums SpaceModel SpaceSpec SpaceProofs SpaceProofs2 SpaceProofs3
  PipeModel PipeProofs PipeProofs2 PipeProofs4 BlockModel BlockProofs SparseModel SparseSpec SparseProofs.
Set Implicit Arguments. Unset Strict Implicit.
Open Scope nat_scope.

(** the merge walk lists the rows in sorted order *)
Definition wkey (a b : list row) (u : option nat * option nat) : row :=
  match u with (Some p, _) => nth p a [] | (None, Some q) => nth q b [] | _ => [] end.
Lemma noncommon_walk_sorted w : forall a pa b pb, same_width w a -> same_width w b -> strictly_sorted a -> strictly_sorted b ->
  let keys := map (wkey (pa ++ a) (pb ++ b)) (noncommon_walk (length pa) a (length pb) b) in
  StronglySorted lex_lt keys /\ forall k, In k keys -> In k a \/ In k b.
Proof.
  assert (KN : forall (pa a : list row), map (fun k => nth k (pa ++ a) []) (seq (length pa) (length a)) = a).
  { intros pa a. change (take [] (pa ++ a) (seq (length pa) (length a)) = a). rewrite take_seq_slice by (rewrite app_length; lia).
    rewrite skipn_app, skipn_all, Nat.sub_diag. cbn [skipn app]. apply firstn_all. }
  induction a as [|x a IHa]; intros pa b pb Wa Wb Sa Sb.
  { cbn [noncommon_walk]. cbv zeta. rewrite map_map. cbn [wkey]. rewrite KN. split; [exact Sb|]. auto. }
  revert pb Wb Sb. induction b as [|y b IHb]; intros pb Wb Sb.
  { change (noncommon_walk (length pa) (x :: a) (length pb) []) with (map (fun k : nat => (Some k, None : option nat)) (seq (length pa) (length (x :: a)))).
    cbv zeta. rewrite map_map. cbn [wkey]. rewrite KN. split; [exact Sa|]. auto. }
  inversion Sa as [|? ? Sa' Fa]; subst. inversion Sb as [|? ? Sb' Fb]; subst. rewrite Forall_forall in Fa, Fb.
  assert (Hx : length x = w) by (inversion Wa; auto). assert (Hy : length y = w) by (inversion Wb; auto).
  assert (Wa' : same_width w a) by (inversion Wa; auto). assert (Wb' : same_width w b) by (inversion Wb; auto).
  assert (EA : pa ++ x :: a = (pa ++ [x]) ++ a) by (rewrite <- app_assoc; reflexivity).
  assert (EB : pb ++ y :: b = (pb ++ [y]) ++ b) by (rewrite <- app_assoc; reflexivity).
  assert (LA : S (length pa) = length (pa ++ [x])) by (rewrite app_length; cbn; lia).
  assert (LB : S (length pb) = length (pb ++ [y])) by (rewrite app_length; cbn; lia).
  assert (NA : forall t, wkey (pa ++ x :: a) (pb ++ y :: b) (Some (length pa), t) = x) by (intros t; cbn [wkey]; rewrite app_nth2, Nat.sub_diag by lia; reflexivity).
  assert (NB : wkey (pa ++ x :: a) (pb ++ y :: b) (None, Some (length pb)) = y) by (cbn [wkey]; rewrite app_nth2, Nat.sub_diag by lia; reflexivity).
  cbv zeta. cbn [noncommon_walk]. destruct (cmp_lexsort_spec (a := x) (b := y)) as [E|E|E]; [congruence| | |].
  - subst y. cbn [map]. rewrite NA. rewrite EA, EB, LA, LB. destruct (IHa (pa ++ [x]) b (pb ++ [x]) Wa' Wb' Sa' Sb') as [A B]. split.
    + constructor; [exact A|]. apply Forall_forall. intros k Hk. destruct (B k Hk); auto.
    + intros k [<-|Hk]; [left; now left|]. destruct (B k Hk); [left|right]; now right.
  - cbn [map]. rewrite NA. rewrite EA, LA. destruct (IHa (pa ++ [x]) (y :: b) pb Wa' Wb Sa' Sb) as [A B]. split.
    + constructor; [exact A|]. apply Forall_forall. intros k Hk. destruct (B k Hk) as [H|[<-|H]]; auto. apply (lex_lt_trans E). auto.
    + intros k [<-|Hk]; [left; now left|]. destruct (B k Hk); [left; now right|now right].
  - cbn [map]. rewrite NB. specialize (IHb (pb ++ [y]) Wb' Sb'). cbv zeta in IHb. rewrite <- LB, <- EB in IHb. cbn [noncommon_walk] in IHb. destruct IHb as [A B]. split.
    + constructor; [exact A|]. apply Forall_forall. intros k Hk. destruct (B k Hk) as [[<-|H]|H]; auto. apply (lex_lt_trans E). auto.
    + intros k [<-|Hk]; [right; now left|]. destruct (B k Hk); [now left|right; now right].
Qed.

Section Ops.
  Variable K : Type.
  Variable o : ops K.
  Hypothesis SR : semi_ring_theory (o0 o) (o1 o) (oadd o) (omul o) (@eq K).
  Add Ring Kring : SR.
  Notation block := (blk K).
  Notation adata := (list (list nat * blk K)).
  Notation sval := (sval o).
  Implicit Types D A B V W : adata.

  Lemma data_width legs D : data_ok legs D -> same_width (length legs) (zrows (map fst D)).
  Proof.
    intros H. apply Forall_forall. intros r Hr. unfold zrows in Hr. rewrite map_map in Hr. apply in_map_iff in Hr. destruct Hr as (e & <- & He).
    rewrite map_length, (valid_length (do_valid H He)). apply map_length.
  Qed.
  Lemma nth_fst D i : nth i (map fst D) [] = fst (nth i D (noentry K)).
  Proof. change (@nil nat) with (fst (noentry K)). apply map_nth. Qed.
  Lemma entry_eq legs D e e' : data_ok legs D -> In e D -> In e' D -> fst e = fst e' -> e = e'.
  Proof.
    intros H He He' E. assert (ND := data_ok_NoDup H). destruct (In_nth _ _ (noentry K) He) as (i & Hi & <-). destruct (In_nth _ _ (noentry K) He') as (j & Hj & <-).
    f_equal. rewrite <- !nth_fst in E. rewrite (NoDup_nth _ []) in ND. rewrite map_length in ND. apply ND; auto.
  Qed.

  Section LinComb.
    Variable legs : list espace.
    Variables (a b : K) (V W : adata).
    Hypothesis HV : data_ok legs V.
    Hypothesis HW : data_ok legs W.
    Notation R := (linear_combination o a V b W).
    Notation walk := (noncommon_walk 0 (zrows (map fst V)) 0 (zrows (map fst W))).
    Lemma walk_spec : NoDup walk /\ ~ In (None, None) walk /\
      (forall p q, In (Some p, Some q) walk <-> p < length V /\ q < length W /\ fst (nth p V (noentry K)) = fst (nth q W (noentry K))) /\
      (forall p, In (Some p, None) walk <-> p < length V /\ ~ In (fst (nth p V (noentry K))) (map fst W)) /\
      (forall q, In (None, Some q) walk <-> q < length W /\ ~ In (fst (nth q W (noentry K))) (map fst V)).
    Proof.
      destruct (@noncommon_walk_spec (length legs) (zrows (map fst V)) 0 (zrows (map fst W)) 0 (data_width HV) (data_width HW) (do_sorted HV) (do_sorted HW)) as (N & NN & I1 & I2 & I3).
      rewrite !zrows_length, !map_length in *. split; [auto|]. split; [auto|]. split; [|split].
      - intros p q. rewrite I1, !Nat.sub_0_r, !zrows_nth, !nth_fst. split; intros (H1 & H2 & H3); (split; [lia|split; [lia|]]); [now apply zrow_inj|now rewrite H3].
      - intros p. rewrite I2, !Nat.sub_0_r, !zrows_nth, zrows_In, nth_fst. split; intros (H1 & H2); (split; [lia|auto]).
      - intros p. rewrite I3, !Nat.sub_0_r, !zrows_nth, zrows_In, nth_fst. split; intros (H1 & H2); (split; [lia|auto]).
    Qed.
    Lemma lincomb_rows : zrows (map fst R) = map (wkey (zrows (map fst V)) (zrows (map fst W))) walk.
    Proof.
      unfold linear_combination, zrows at 1. rewrite !map_map. apply map_ext_in. intros [[p|] [q|]] H; cbn [wkey fst]; rewrite ?zrows_nth, ?nth_fst; try reflexivity.
    Qed.
    Lemma lincomb_sorted : strictly_sorted (zrows (map fst R)).
    Proof.
      rewrite lincomb_rows. exact (proj1 (@noncommon_walk_sorted (length legs) (zrows (map fst V)) [] (zrows (map fst W)) [] (data_width HV) (data_width HW) (do_sorted HV) (do_sorted HW))).
    Qed.
    Lemma nth_In' D i : i < length D -> In (nth i D (noentry K)) D.
    Proof. apply nth_In. Qed.
    (** every entry of the result *)
    Lemma lincomb_cases e : In e R ->
      (exists v, In v V /\ ~ In (fst v) (map fst W) /\ e = (fst v, bmul o a (snd v))) \/
      (exists w, In w W /\ ~ In (fst w) (map fst V) /\ e = (fst w, bmul o b (snd w))) \/
      (exists v w, In v V /\ In w W /\ fst v = fst w /\ e = (fst v, blincomb o a (snd v) b (snd w))).
    Proof.
      destruct walk_spec as (_ & NN & I1 & I2 & I3). unfold linear_combination. rewrite in_map_iff. intros ([[p|] [q|]] & <- & H).
      - right; right. apply I1 in H. destruct H as (Hp & Hq & E). exists (nth p V (noentry K)), (nth q W (noentry K)). split; [now apply nth_In'|]. split; [now apply nth_In'|]. auto.
      - left. apply I2 in H. destruct H as (Hp & E). exists (nth p V (noentry K)). split; [now apply nth_In'|]. auto.
      - right; left. apply I3 in H. destruct H as (Hp & E). exists (nth q W (noentry K)). split; [now apply nth_In'|]. auto.
      - contradiction.
    Qed.
    Lemma lincomb_In_v v : In v V -> ~ In (fst v) (map fst W) -> In (fst v, bmul o a (snd v)) R.
    Proof.
      destruct walk_spec as (_ & NN & I1 & I2 & I3). intros H N. destruct (In_nth _ _ (noentry K) H) as (p & Hp & E). unfold linear_combination. apply in_map_iff.
      exists (Some p, None). rewrite E. split; [reflexivity|]. apply I2. rewrite E. auto.
    Qed.
    Lemma lincomb_In_w w : In w W -> ~ In (fst w) (map fst V) -> In (fst w, bmul o b (snd w)) R.
    Proof.
      destruct walk_spec as (_ & NN & I1 & I2 & I3). intros H N. destruct (In_nth _ _ (noentry K) H) as (p & Hp & E). unfold linear_combination. apply in_map_iff.
      exists (None, Some p). rewrite E. split; [reflexivity|]. apply I3. rewrite E. auto.
    Qed.
    Lemma lincomb_In_vw v w : In v V -> In w W -> fst v = fst w -> In (fst v, blincomb o a (snd v) b (snd w)) R.
    Proof.
      destruct walk_spec as (_ & NN & I1 & I2 & I3). intros H H' E0. destruct (In_nth _ _ (noentry K) H) as (p & Hp & E). destruct (In_nth _ _ (noentry K) H') as (q & Hq & E').
      unfold linear_combination. apply in_map_iff. exists (Some p, Some q). rewrite E, E'. split; [reflexivity|]. apply I1. rewrite E, E'. auto.
    Qed.
    Lemma lincomb_ok : data_ok legs R.
    Proof.
      constructor.
      - exact lincomb_sorted.
      - intros e He. destruct (lincomb_cases He) as [(v & Hv & _ & ->)|[(w & Hw & _ & ->)|(v & w & Hv & Hw & _ & ->)]]; cbn [fst]; [apply (do_valid HV Hv)|apply (do_valid HW Hw)|apply (do_valid HV Hv)].
      - intros e He. destruct (lincomb_cases He) as [(v & Hv & _ & ->)|[(w & Hw & _ & ->)|(v & w & Hv & Hw & _ & ->)]]; cbn [fst snd bmul blincomb badd bshape]; [apply (do_shape HV Hv)|apply (do_shape HW Hw)|apply (do_shape HV Hv)].
      - intros e He. destruct (lincomb_cases He) as [(v & Hv & _ & ->)|[(w & Hw & _ & ->)|(v & w & Hv & Hw & E & ->)]]; cbn [fst snd].
        + apply bmul_wf. apply (do_wf HV Hv).
        + apply bmul_wf. apply (do_wf HW Hw).
        + apply blincomb_wf; [apply (do_wf HV Hv)|apply (do_wf HW Hw)|]. rewrite (do_shape HV Hv), (do_shape HW Hw). now rewrite E.
    Qed.
    Lemma lincomb_sval r q : valid_idx (shp (mults legs) r) q -> sval R r q = oadd o (omul o a (sval V r q)) (omul o b (sval W r q)).
    Proof.
      intros Hq. assert (NV := data_ok_NoDup HV). assert (NW := data_ok_NoDup HW). assert (NR := data_ok_NoDup lincomb_ok).
      destruct (in_dec row_dec r (map fst V)) as [IV|IV]; destruct (in_dec row_dec r (map fst W)) as [IW|IW].
      - destruct (in_rows IV) as [X HX]. destruct (in_rows IW) as [Y HY]. rewrite (sval_in o q NV HX), (sval_in o q NW HY).
        assert (I := @lincomb_In_vw (r, X) (r, Y) HX HY eq_refl). cbn [fst snd] in I. rewrite (sval_in o q NR I).
        assert (SX := do_shape HV HX). assert (SY := do_shape HW HY). cbn [fst snd] in SX, SY.
        apply bat_lincomb; [exact (do_full HV HX)|exact (do_full HW HY)|congruence|]. now rewrite SX.
      - destruct (in_rows IV) as [X HX]. rewrite (sval_in o q NV HX), (sval_notin o q IW).
        assert (I := @lincomb_In_v (r, X) HX IW). cbn [fst snd] in I. rewrite (sval_in o q NR I). rewrite bat_mul; [ring|exact (do_full HV HX)|].
        assert (SX := do_shape HV HX). cbn [fst snd] in SX. now rewrite SX.
      - destruct (in_rows IW) as [X HX]. rewrite (sval_in o q NW HX), (sval_notin o q IV).
        assert (I := @lincomb_In_w (r, X) HX IV). cbn [fst snd] in I. rewrite (sval_in o q NR I). rewrite bat_mul; [ring|exact (do_full HW HX)|].
        assert (SX := do_shape HW HX). cbn [fst snd] in SX. now rewrite SX.
      - rewrite (sval_notin o q IV), (sval_notin o q IW). rewrite sval_notin; [ring|]. intros I. apply in_map_iff in I. destruct I as (e & E & He).
        destruct (lincomb_cases He) as [(v & Hv & _ & ->)|[(w & Hw & _ & ->)|(v & w & Hv & Hw & _ & ->)]]; cbn [fst] in E; subst r; [apply IV|apply IW|apply IV]; now apply in_map.
    Qed.
    Lemma lincomb_charge S cod dom : charge_ok S cod dom V -> charge_ok S cod dom W -> charge_ok S cod dom R.
    Proof.
      intros CV CW e He. destruct (lincomb_cases He) as [(v & Hv & _ & ->)|[(w & Hw & _ & ->)|(v & w & Hv & Hw & _ & ->)]]; cbn [fst]; auto.
    Qed.
  End LinComb.

  (** ** scalar multiples *)
  Lemma mul_ok legs is_zero a B : data_ok legs B -> data_ok legs (mul_data o is_zero a B).
  Proof.
    intros H. unfold mul_data. destruct (is_zero a).
    - constructor; try contradiction. constructor.
    - constructor.
      + rewrite map_map. cbn [fst]. apply (do_sorted H).
      + intros e He. apply in_map_iff in He. destruct He as (x & <- & Hx). apply (do_valid H Hx).
      + intros e He. apply in_map_iff in He. destruct He as (x & <- & Hx). apply (do_shape H Hx).
      + intros e He. apply in_map_iff in He. destruct He as (x & <- & Hx). apply bmul_wf. apply (do_wf H Hx).
  Qed.
  Lemma mul_sval legs is_zero a B r q : data_ok legs B -> (forall x, is_zero x = true -> x = o0 o) -> valid_idx (shp (mults legs) r) q ->
    sval (mul_data o is_zero a B) r q = omul o a (sval B r q).
  Proof.
    intros H Z Hq. assert (NB := data_ok_NoDup H). assert (OKm := mul_ok is_zero a H). unfold mul_data in *. destruct (is_zero a) eqn:E.
    - rewrite (Z _ E). cbn. ring.
    - destruct (in_dec row_dec r (map fst B)) as [I|I].
      + destruct (in_rows I) as [X HX]. rewrite (sval_in o q NB HX).
        assert (I' : In (r, bmul o a X) (map (fun e => (fst e, bmul o a (snd e))) B)) by (apply in_map_iff; exists (r, X); auto).
        rewrite (sval_in o q (data_ok_NoDup OKm) I'). apply bat_mul; [exact (do_full H HX)|]. assert (SX := do_shape H HX). cbn [fst snd] in SX. now rewrite SX.
      + rewrite (sval_notin o q I). rewrite sval_notin; [ring|]. rewrite map_map. cbn [fst]. exact I.
  Qed.

  (** ** entry-wise maps of rows and blocks, followed by sorting *)
  Lemma mapped_ok legs legs' (f : list nat -> list nat) (g : block -> block) A : data_ok legs A ->
    (forall r r', valid_idx (map nsec legs) r -> valid_idx (map nsec legs) r' -> f r = f r' -> r = r') ->
    (forall r, valid_idx (map nsec legs) r -> valid_idx (map nsec legs') (f r)) ->
    (forall r X, valid_idx (map nsec legs) r -> bshape X = shp (mults legs) r -> bwf X -> bshape (g X) = shp (mults legs') (f r) /\ bwf (g X)) ->
    data_ok legs' (make_data (map (fun e => (f (fst e), g (snd e))) A) false) /\
    (forall r X q, In (r, X) A -> sval (make_data (map (fun e => (f (fst e), g (snd e))) A) false) (f r) q = bat o (g X) q) /\
    (forall r q, valid_idx (map nsec legs) r -> ~ In r (map fst A) -> sval (make_data (map (fun e => (f (fst e), g (snd e))) A) false) (f r) q = o0 o).
  Proof.
    intros H INJ VAL SH. set (M := map (fun e => (f (fst e), g (snd e))) A).
    assert (ND : NoDup (map fst M)).
    { unfold M. rewrite map_map. cbn [fst]. rewrite <- (map_map fst f). apply NoDup_map_inj; [|apply (data_ok_NoDup H)].
      intros x y Hx Hy. apply in_map_iff in Hx, Hy. destruct Hx as (e & <- & He), Hy as (e' & <- & He'). apply INJ; apply (do_valid H); auto. }
    assert (OK : data_ok legs' (make_data M false)).
    { apply data_ok_make; auto. intros e He. unfold M in He. apply in_map_iff in He. destruct He as (x & <- & Hx). cbn [fst snd].
      split; [apply VAL, (do_valid H Hx)|]. apply SH; [apply (do_valid H Hx)|apply (do_shape H Hx)|apply (do_wf H Hx)]. }
    split; [exact OK|]. split.
    - intros r X q HX. apply sval_in; [apply (data_ok_NoDup OK)|]. apply make_data_In. unfold M. apply in_map_iff. exists (r, X). auto.
    - intros r q V NI. apply sval_notin. intros I. apply in_map_iff in I. destruct I as (e & E & He). apply make_data_In in He. unfold M in He. apply in_map_iff in He.
      destruct He as (x & <- & Hx). cbn [fst] in E. apply INJ in E; [|apply (do_valid H Hx)|auto]. apply NI. rewrite <- E. now apply in_map.
  Qed.
  Lemma mapped_charge S cod dom cod' dom' (f : list nat -> list nat) (g : block -> block) A : charge_ok S cod dom A ->
    (forall e, In e A -> row_charge_ok S cod dom (fst e) -> row_charge_ok S cod' dom' (f (fst e))) ->
    charge_ok S cod' dom' (make_data (map (fun e => (f (fst e), g (snd e))) A) false).
  Proof. intros H HF e He. apply make_data_In in He. apply in_map_iff in He. destruct He as (x & <- & Hx). cbn [fst]. auto. Qed.

  (** ** dagger *)
  Lemma shp_rev ms : forall b, length b = length ms -> shp (rev ms) (rev b) = rev (shp ms b).
  Proof. intros b L. rewrite !shp_zipw. now apply zipw_rev. Qed.
  Lemma rev_inj (T : Type) (l l' : list T) : rev l = rev l' -> l = l'.
  Proof. intros E. rewrite <- (rev_involutive l), E. apply rev_involutive. Qed.
  Lemma dagger_ok legs A : data_ok legs A -> data_ok (rev legs) (dagger_data o A) /\
    forall r q, valid_idx (map nsec legs) r -> valid_idx (shp (mults legs) r) q -> oconj o (o0 o) = o0 o -> sval (dagger_data o A) (rev r) (rev q) = oconj o (sval A r q).
  Proof.
    intros H. unfold dagger_data.
    destruct (@mapped_ok legs (rev legs) (@rev nat) (bdagger o) A H) as (OK & IN & OUT).
    - intros r r' _ _. apply rev_inj.
    - intros r V. rewrite map_rev. now apply (proj1 (valid_rev _ _)) in V.
    - intros r X V SX WX. split; [|apply bdagger_wf]. rewrite bdagger_shape, SX. unfold mults. rewrite map_rev. symmetry. apply shp_rev. rewrite map_length. rewrite (valid_length V). apply map_length.
    - split; [exact OK|]. intros r q V Vq C0. destruct (in_dec row_dec r (map fst A)) as [I|I].
      + destruct (in_rows I) as [X HX]. rewrite (IN r X _ HX), (sval_in o q (data_ok_NoDup H) HX). apply bat_dagger; [exact (do_full H HX)|].
        assert (SX := do_shape H HX). cbn [fst snd] in SX. now rewrite SX.
      + rewrite (OUT r _ V I), (sval_notin o q I). auto.
  Qed.

  (** ** leg permutations *)
  Lemma shp_take ms b p : length b = length ms -> Forall (fun i => i < length ms) p -> shp (take [] ms p) (take 0 b p) = take 0 (shp ms b) p.
  Proof.
    intros L F. rewrite !shp_zipw. unfold take. induction F as [|i p Hi F IH]; auto. cbn [map zipw]. rewrite IH. f_equal. symmetry. exact (@zipw_nth _ _ [] 0 (fun (m : list nat) j => nth j m 0) ms b i Hi L).
  Qed.
  Definition noleg : espace := ES [] [] false None.
  Lemma mults_take legs p : mults (take noleg legs p) = take [] (mults legs) p.
  Proof. unfold mults, take. rewrite map_map. apply map_ext. intros i. change (@nil nat) with (es_mults noleg). symmetry. apply map_nth. Qed.
  Lemma nsec_take legs p : map nsec (take noleg legs p) = take 0 (map nsec legs) p.
  Proof. unfold take. rewrite map_map. apply map_ext. intros i. change 0 with (nsec noleg). symmetry. apply map_nth. Qed.
  Lemma take_inj (T : Type) (d : T) p (l l' : list T) : is_perm (length l) p -> length l' = length l -> take d l p = take d l' p -> l = l'.
  Proof.
    intros P L E. rewrite <- (proj1 (take_inverse d P)), E. assert (P' : is_perm (length l') p) by now rewrite L. apply (proj1 (take_inverse d P')).
  Qed.
  Lemma permute_ok legs p A : data_ok legs A -> is_perm (length legs) p -> data_ok (take noleg legs p) (permute_data o A p) /\
    forall r q, valid_idx (map nsec legs) r -> valid_idx (shp (mults legs) r) q -> sval (permute_data o A p) (take 0 r p) (take 0 q p) = sval A r q.
  Proof.
    intros H P. unfold permute_data. assert (F := is_perm_Forall P).
    assert (LR : forall r, valid_idx (map nsec legs) r -> length r = length legs) by (intros r V; rewrite (valid_length V); apply map_length).
    destruct (@mapped_ok legs (take noleg legs p) (fun r => take 0 r p) (fun X => btranspose o X p) A H) as (OK & IN & OUT).
    - intros r r' V V' E. apply take_inj in E; auto; rewrite ?(LR _ V), ?(LR _ V'); auto.
    - intros r V. rewrite nsec_take. apply valid_take; auto. rewrite map_length. exact F.
    - intros r X V SX WX. split; [|apply btranspose_wf]. rewrite btranspose_shape, SX, mults_take. symmetry. apply shp_take; unfold mults; rewrite map_length; auto.
    - split; [exact OK|]. intros r q V Vq. destruct (in_dec row_dec r (map fst A)) as [I|I].
      + destruct (in_rows I) as [X HX]. rewrite (IN r X _ HX), (sval_in o q (data_ok_NoDup H) HX). assert (SX := do_shape H HX). cbn [fst snd] in SX. apply bat_transpose_take.
        * unfold bndim. rewrite SX, shp_zipw, zipw_length; unfold mults; rewrite map_length; auto.
        * now rewrite SX.
      + rewrite (OUT r _ V I), (sval_notin o q I). reflexivity.
  Qed.
End Ops.
