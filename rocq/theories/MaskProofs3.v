(** Replacing one leg of a tensor by another one with matching sectors. *)
From Verif Require Import Util StableSort RowModel RowProofs GridModel GridProofs SymModel SymProofs CatSpec Sums SpaceModel SpaceSpec SpaceProofs SpaceProofs2 SpaceProofs3 SpaceProofs6 TensorModel
  PipeModel PipeProofs PipeProofs2 BlockModel BlockProofs SparseModel SparseSpec SparseProofs SparseProofs3 SparseDense FtOpsModel FtOpsSpec AbDecModel AbDecSpec AbDecProofs2 AbDecProofs3 AbDiagModel AbDiagProofs AbDiagProofs2 AbDiagProofs3 AbDiagProofs4 MaskModel MaskSpec MaskProofs MaskProofs2.
Set Implicit Arguments. Unset Strict Implicit.
Open Scope nat_scope.

Lemma upd_upd A (l : list A) : forall i x y, upd (upd l i x) i y = upd l i y.
Proof. induction l as [|z l IH]; intros [|i] x y; cbn; auto. now rewrite IH. Qed.
Lemma upd_nth A (d : A) (l : list A) : forall i, upd l i (nth i l d) = l.
Proof. induction l as [|z l IH]; intros [|i]; cbn; auto. now rewrite IH. Qed.
Lemma upd_map A B (f : A -> B) (l : list A) : forall i x, map f (upd l i x) = upd (map f l) i (f x).
Proof. induction l as [|z l IH]; intros [|i] x; cbn; auto. now rewrite IH. Qed.
Lemma upd_app_l A (u w : list A) : forall i x, i < length u -> upd (u ++ w) i x = upd u i x ++ w.
Proof. induction u as [|z u IH]; intros [|i] x H; cbn in *; try lia; auto. now rewrite IH by lia. Qed.
Lemma upd_app_r A (u w : list A) : forall i x, upd (u ++ w) (length u + i) x = u ++ upd w i x.
Proof. induction u as [|z u IH]; intros i x; cbn; auto. now rewrite IH. Qed.
Lemma upd_rev A (l : list A) : forall i x, i < length l -> rev (upd l i x) = upd (rev l) (length l - 1 - i) x.
Proof.
  induction l as [|z l IH]; intros [|i] x H; cbn [length] in *; try lia; cbn [upd rev].
  - replace (S (length l) - 1 - 0) with (length (rev l) + 0) by (rewrite rev_length; lia). now rewrite upd_app_r.
  - rewrite IH by lia. rewrite upd_app_l by (rewrite rev_length; lia). do 2 f_equal. lia.
Qed.
Lemma upd_firstn A (l : list A) : forall n i x, firstn n (upd l i x) = upd (firstn n l) i x.
Proof. induction l as [|z l IH]; intros [|n] [|i] x; cbn; auto. now rewrite IH. Qed.
Lemma upd_beyond A (l : list A) : forall i x, length l <= i -> upd l i x = l.
Proof. induction l as [|z l IH]; intros [|i] x H; cbn in *; try lia; auto. now rewrite IH by lia. Qed.
Lemma skipn_upd_lo A (l : list A) : forall n i x, i < n -> skipn n (upd l i x) = skipn n l.
Proof. induction l as [|z l IH]; intros [|n] [|i] x H; cbn; auto; try lia. apply IH. lia. Qed.
Lemma skipn_upd_hi A (l : list A) : forall n i x, skipn n (upd l (n + i) x) = upd (skipn n l) i x.
Proof. induction l as [|z l IH]; intros [|n] i x; cbn; auto. Qed.
Lemma zipw_upd A B (f : A -> nat -> B) (d : A) : forall ls r i X c, length r = length ls -> (i < length ls -> f X c = f (nth i ls d) (nth i r 0)) -> zipw f (upd ls i X) (upd r i c) = zipw f ls r.
Proof. induction ls as [|a ls IH]; intros [|y r] [|i] X c E H; try discriminate; cbn in *; auto; [now rewrite H by lia|]. f_equal. apply IH; [lia|]. intros Hi. apply H. lia. Qed.
Lemma zipw_upd2 A B (f : A -> nat -> B) : forall ls r i X c, length r = length ls -> zipw f (upd ls i X) (upd r i c) = upd (zipw f ls r) i (f X c).
Proof. induction ls as [|a ls IH]; intros [|y r] [|i] X c E; try discriminate; cbn; auto. f_equal. apply IH. now injection E. Qed.
Lemma locs_upd mss : forall b q i ms k c, length b = length mss -> length q = length mss -> locs (upd mss i ms) (upd b i k) (upd q i c) = upd (locs mss b q) i (pos ms k c).
Proof. induction mss as [|m mss IH]; intros [|x b] [|y q] [|i] ms k c E E'; try discriminate; cbn in *; auto. f_equal. apply IH; lia. Qed.
Lemma shp_upd mss : forall b i ms k, length b = length mss -> shp (upd mss i ms) (upd b i k) = upd (shp mss b) i (nth k ms 0).
Proof. induction mss as [|m mss IH]; intros [|x b] [|i] ms k E; try discriminate; cbn in *; auto. f_equal. apply IH. lia. Qed.
Lemma valid_upd sh : forall r i n c, valid_idx sh r -> c < n -> valid_idx (upd sh i n) (upd r i c).
Proof. induction sh as [|m sh IH]; intros r i n c V H; inversion V; subst; destruct i; cbn; constructor; auto. now apply IH. Qed.

(** ** the leg in the conventional order *)
Definition idx_ok (cod dom : list espace) (in_domain : bool) (idx : nat) : Prop := if in_domain then idx < length dom else idx < length cod.
Lemma leg_of_lt cod dom in_domain idx : idx_ok cod dom in_domain idx -> leg_of cod dom in_domain idx < length (leg_order cod dom).
Proof. unfold leg_order, leg_of, idx_ok. rewrite app_length, rev_length. destruct in_domain; lia. Qed.
Lemma replaced_legs cod dom in_domain idx X : idx_ok cod dom in_domain idx ->
  leg_order (fst (mask_contract_legs cod dom in_domain idx X)) (snd (mask_contract_legs cod dom in_domain idx X)) = upd (leg_order cod dom) (leg_of cod dom in_domain idx) X.
Proof.
  unfold leg_order, leg_of, idx_ok, mask_contract_legs. intros H. destruct in_domain; cbn [fst snd].
  - rewrite upd_app_r. f_equal. now apply upd_rev.
  - now rewrite upd_app_l.
Qed.
Lemma replaced_charge (S : symmetry) cod dom in_domain idx X r c L0 : idx_ok cod dom in_domain idx -> length r = length (leg_order cod dom) ->
  nth c (es_decomp S X) [] = nth (nth (leg_of cod dom in_domain idx) r 0) (es_decomp S (nth (leg_of cod dom in_domain idx) (leg_order cod dom) L0)) [] -> row_charge_ok S cod dom r ->
  row_charge_ok S (fst (mask_contract_legs cod dom in_domain idx X)) (snd (mask_contract_legs cod dom in_domain idx X)) (upd r (leg_of cod dom in_domain idx) c).
Proof.
  unfold row_charge_ok, row_sectors, leg_of, idx_ok, mask_contract_legs, leg_order. intros H LR E C. rewrite app_length, rev_length in LR. destruct in_domain; cbn [fst snd].
  - rewrite upd_firstn, upd_beyond by (rewrite firstn_length; lia). rewrite skipn_upd_hi. rewrite upd_rev by (rewrite skipn_length; lia). rewrite skipn_length.
    replace (length r - length cod - 1 - (length dom - 1 - idx)) with idx by lia. rewrite zipw_upd with (d := L0); [exact C|rewrite rev_length, skipn_length; lia|]. intros _.
    rewrite app_nth2 in E by lia. replace (length cod + (length dom - 1 - idx) - length cod) with (length dom - 1 - idx) in E by lia. rewrite rev_nth in E by lia. replace (length dom - Datatypes.S (length dom - 1 - idx)) with idx in E by lia.
    rewrite rev_nth by (rewrite skipn_length; lia). rewrite skipn_length, nth_skipn'. replace (length cod + (length r - length cod - Datatypes.S idx)) with (length cod + (length dom - 1 - idx)) by lia. exact E.
  - rewrite upd_length, upd_firstn, skipn_upd_lo by exact H. rewrite zipw_upd with (d := L0); [exact C|rewrite firstn_length; lia|]. intros _. rewrite app_nth1 in E by exact H. rewrite nth_firstn_lt by exact H. exact E.
Qed.

(** ** the kept positions of a mask *)
Section Kept.
  Variable S : tsymm.
  Variable fuse : sector -> sector -> sector.
  Hypothesis G : abelian_group_laws S fuse.
  Variables L N : espace.
  Hypothesis OL : es_ok S L.
  Hypothesis ON : es_ok S N.
  Variable M : mdata.
  Hypothesis OM : mask_ok L N M.
  Notation v := (mask_vector S L M).
  Lemma mask_len : length M = nsec N.
  Proof. pose proof (f_equal (@length nat) (mk_small OM)) as E. rewrite map_length, seq_length in E. exact E. Qed.
  Lemma mask_nth k : k < nsec N -> exists l B, nth k M (noentry bool) = ([k; l], B) /\ In ([k; l], B) M /\ l < nsec L /\ nth k (es_def N) [] = nth l (es_def L) [] /\
    bshape B = [nth l (es_mults L) 0] /\ length (bdata B) = nth l (es_mults L) 0 /\ trues (bdata B) = nth k (es_mults N) 0.
  Proof.
    intros Hk. rewrite <- mask_len in Hk. assert (I : In (nth k M (noentry bool)) M) by (now apply nth_In). destruct (mk_rows OM I) as (k' & l & R & _ & Hl & D & SH & LE & T).
    assert (E : nth k (map (fun e => nth 0 (fst e) 0) M) 0 = k) by (rewrite (mk_small OM), seq_nth by (rewrite <- mask_len; lia); reflexivity). rewrite nth_map_lt with (d := noentry bool) in E by exact Hk. rewrite R in E. cbn [nth] in E. subst k'.
    exists l, (snd (nth k M (noentry bool))). assert (Q : nth k M (noentry bool) = ([k; l], snd (nth k M (noentry bool)))) by (rewrite <- R; now destruct (nth k M (noentry bool))). rewrite <- Q. auto 10.
  Qed.
  Lemma mask_fill k l B : In ([k; l], B) M -> mfill L M l = B.
  Proof.
    intros I. unfold mfill, fills. assert (D : dg (mdiag M) l = Some B); [|now rewrite D]. apply (dg_In _ _ (dd_from (mask_diag OM))). unfold mdiag. apply in_map_iff. exists ([k; l], B). split; [reflexivity|exact I].
  Qed.
  Lemma mask_unstored l : (forall k B, ~ In ([k; l], B) M) -> mfill L M l = bzeros Bops [nth l (es_mults L) 0].
  Proof.
    intros H. unfold mfill, fills. destruct (dg (mdiag M) l) as [B|] eqn:D; [|reflexivity]. exfalso. apply (dg_In _ _ (dd_from (mask_diag OM))) in D. unfold mdiag in D. apply in_map_iff in D. destruct D as (e & E & I). destruct (mk_rows OM I) as (k & l' & R & _). rewrite R in E. cbn [nth] in E. injection E as -> E2. apply (H k (snd e)). rewrite <- R. now destruct e.
  Qed.
  Lemma vec_at l c : l < nsec L -> c < nth l (es_mults L) 0 -> nth (pos (es_mults L) l c) v false = nth c (bdata (mfill L M l)) false.
  Proof.
    intros Hl Hc. rewrite (mask_vec G OL OM). rewrite <- (segs_length (mfill_ok OM)) at 1. rewrite concat_nth.
    - rewrite nth_map_lt with (d := 0) by (now rewrite seq_length). rewrite seq_nth by exact Hl. reflexivity.
    - now rewrite map_length, seq_length.
    - rewrite nth_map_lt with (d := 0) by (now rewrite seq_length). rewrite seq_nth by exact Hl. cbn [plus]. now rewrite (proj2 (mfill_ok OM Hl)).
  Qed.
  Lemma kept_form : kept v = concat (map (fun p => map (fun x => nsum (firstn (fst p) (es_mults L)) + x) (kept (bdata (snd p)))) (pushed (mfill L M) (seq 0 (nsec L)))).
  Proof.
    rewrite (@pushed_concat nat (mfill L M) (fun i B => map (fun x => nsum (firstn i (es_mults L)) + x) (kept (bdata B)))).
    - rewrite (mask_vec G OL OM), kept_concat, map_length, seq_length. f_equal. apply map_ext_in. intros n I. apply in_seq in I. rewrite (segs_length (mfill_ok OM)). rewrite nth_map_lt with (d := 0) by (rewrite seq_length; lia). rewrite seq_nth by lia. reflexivity.
    - intros i _ Z. unfold btrues in Z. change (trues (bdata (mfill L M i)) = 0) in Z. rewrite <- kept_length in Z. destruct (kept (bdata (mfill L M i))); [reflexivity|discriminate].
  Qed.
  Lemma kept_at k l B c : In ([k; l], B) M -> c < nth k (es_mults N) 0 -> nth (pos (es_mults N) k c) (kept v) 0 = pos (es_mults L) l (nth c (kept (bdata B)) 0).
  Proof.
    intros I Hc. assert (Hk : k < nsec N) by (destruct (mk_rows OM I) as (k' & l' & R & Hk & _); cbn [fst] in R; injection R as <- <-; exact Hk).
    destruct (mask_nth Hk) as (l' & B' & E & I' & Hl & _ & SH & LE & T). assert (X : l' = l /\ B' = B).
    { destruct (In_nth _ _ (noentry bool) I) as (j & Hj & Ej). rewrite mask_len in Hj. destruct (mask_nth Hj) as (l2 & B2 & E2 & _). rewrite Ej in E2. injection E2 as -> -> ->. rewrite Ej in E. injection E as <- <-. auto. }
    destruct X as [-> ->]. pose proof (mask_pushed ON OM) as P. rewrite kept_form, P. destruct (mask_legs ON OM) as [_ EM]. cbv zeta in EM. rewrite P in EM.
    rewrite map_map in *. cbn [fst snd] in *. assert (EL : map (@length nat) (map (fun x : list nat * bblk => map (fun x0 => nsum (firstn (nth 1 (fst x) 0) (es_mults L)) + x0) (kept (bdata (snd x)))) M) = es_mults N).
    { rewrite EM, map_map. apply map_ext. intros e. rewrite map_length, kept_length. reflexivity. }
    rewrite <- EL at 1. rewrite concat_nth.
    - rewrite nth_map_lt with (d := noentry bool) by (now rewrite mask_len). rewrite E. cbn [fst snd nth]. rewrite nth_map_lt with (d := 0) by (rewrite kept_length, T; exact Hc). reflexivity.
    - rewrite map_length. now rewrite mask_len.
    - rewrite nth_map_lt with (d := noentry bool) by (now rewrite mask_len). rewrite E. cbn [fst snd nth]. rewrite map_length, kept_length, T. exact Hc.
  Qed.
  Lemma mask_trues : trues v = nsum (es_mults N).
  Proof.
    destruct (mask_legs ON OM) as [_ EM]. cbv zeta in EM. rewrite <- kept_length, kept_form, concat_length_nsum, EM, map_map. f_equal. apply map_ext. intros p. now rewrite map_length, kept_length.
  Qed.
  Lemma count_at k l B c : In ([k; l], B) M -> c < nth l (es_mults L) 0 -> nth c (bdata B) false = true -> trues (firstn (pos (es_mults L) l c) v) = pos (es_mults N) k (trues (firstn c (bdata B))).
  Proof.
    intros I Hc H. destruct (mk_rows OM I) as (k' & l' & R & Hk & Hl & _ & SH & LE & T). cbn [fst snd] in *. injection R as <- <-. change (trues (bdata B) = nth k (es_mults N) 0) in T.
    destruct (kept_before H) as [J1 J2]. rewrite T in J1. pose proof (kept_at I J1) as E. rewrite J2 in E. rewrite <- E. apply kept_before_nth. rewrite mask_trues. now apply pos_lt.
  Qed.
  Lemma vec_stored k l B c : In ([k; l], B) M -> c < nth l (es_mults L) 0 -> nth (pos (es_mults L) l c) v false = nth c (bdata B) false.
  Proof. intros I Hc. destruct (mk_rows OM I) as (k' & l' & R & Hk & Hl & _). cbn [fst] in R. injection R as <- <-. rewrite vec_at by assumption. now rewrite (mask_fill I). Qed.
  Lemma vec_unstored l c : l < nsec L -> c < nth l (es_mults L) 0 -> (forall k B, ~ In ([k; l], B) M) -> nth (pos (es_mults L) l c) v false = false.
  Proof. intros Hl Hc H. rewrite vec_at by assumption. rewrite (mask_unstored H), zeros_vec. apply nth_repeat. Qed.
  Lemma mask_decomp k l B : In ([k; l], B) M -> nth k (es_decomp S N) [] = nth l (es_decomp S L) [].
  Proof.
    intros I. destruct (mk_rows OM I) as (k' & l' & R & Hk & Hl & D & _). cbn [fst] in R. injection R as <- <-. unfold es_decomp, es_space. cbn [sp_secs]. rewrite (mk_dual OM). destruct (es_dual L); [|exact D].
    unfold dual_sectors. rewrite !nth_map_lt with (d := @nil Z); [now rewrite D| |]; [rewrite <- (ok_len OL)|rewrite <- (ok_len ON)]; assumption.
  Qed.
  Lemma row_unique1 k l B k' B' : In ([k; l], B) M -> In ([k'; l], B') M -> k = k' /\ B = B'.
  Proof.
    intros I I'. pose proof (mk_large OM) as SS. assert (ND : NoDup (map (fun e : list nat * bblk => nth 1 (fst e) 0) M)) by (apply StronglySorted_NoDup with (R := lt); [intros x Hx; lia|exact SS]).
    clear -I I' ND. induction M as [|e M' IH]; [destruct I|]. cbn [map] in ND. apply NoDup_cons_iff in ND. destruct ND as [NI ND]. destruct I as [ -> |I], I' as [E|I'].
    - injection E as -> ->. auto.
    - exfalso. apply NI. apply in_map_iff. exists ([k'; l], B'). split; [reflexivity|exact I'].
    - subst e. exfalso. apply NI. apply in_map_iff. exists ([k; l], B). split; [reflexivity|exact I].
    - now apply IH.
  Qed.
  Lemma row_unique0 k l B l' B' : In ([k; l], B) M -> In ([k; l'], B') M -> l = l' /\ B = B'.
  Proof.
    intros I I'. assert (ND : NoDup (map (fun e : list nat * bblk => nth 0 (fst e) 0) M)) by (rewrite (mk_small OM); apply seq_NoDup).
    clear -I I' ND. induction M as [|e M' IH]; [destruct I|]. cbn [map] in ND. apply NoDup_cons_iff in ND. destruct ND as [NI ND]. destruct I as [ -> |I], I' as [E|I'].
    - injection E as -> ->. auto.
    - exfalso. apply NI. apply in_map_iff. exists ([k; l'], B'). split; [reflexivity|exact I'].
    - subst e. exfalso. apply NI. apply in_map_iff. exists ([k; l], B). split; [reflexivity|exact I].
    - now apply IH.
  Qed.
End Kept.
