(** The eigendecomposition of the abelian backend. *)
From Verif Require Import Util StableSort RowModel RowProofs GridModel GridProofs SymModel SymProofs CatSpec Sums SpaceModel SpaceSpec SpaceProofs SpaceProofs2 SpaceProofs7
  PipeModel PipeProofs PipeProofs2 TreeModel TensorModel TensorSpec BlockModel BlockProofs SparseModel SparseSpec SparseProofs SparseProofs3 SparseProofs6 SparseDense ConvertModel ConvertProofs3
  FtOpsModel FtOpsSpec FtOpsProofs2 FtOpsProofs3 FtOpsProofs4 FtOpsProofs8 FtOpsProofs9 FtOpsProofs10 AbDecModel AbDecSpec AbDecProofs AbDecProofs2 AbDecProofs3.
Set Implicit Arguments. Unset Strict Implicit.
Open Scope nat_scope.

(** two legs with the same multiplicities and the same duality have the same sectors in the same order *)
Lemma same_leg (S : tsymm) fuse (OK : tsymm_ok S) (G : abelian_group_laws S fuse) L M : es_ok S L -> es_ok S M -> es_dual L = es_dual M -> (forall c, es_mult S L c = es_mult S M c) -> es_decomp S L = es_decomp S M /\ es_mults L = es_mults M.
Proof.
  intros OL OM ED EM.
  assert (IN : forall c, In c (es_decomp S L) <-> In c (es_decomp S M)) by (intros c; rewrite (sec_In G OL), (sec_In G OM), EM; reflexivity).
  assert (DEF : es_def L = es_def M).
  { apply (StronglySorted_unique (R := lex_lt)); [exact lex_lt_irrefl|exact lex_lt_trans|apply (ok_sorted OL)|apply (ok_sorted OM)|]. intros c. unfold es_decomp, es_space in IN. cbn [sp_secs] in IN. rewrite <- ED in IN. destruct (es_dual L); [|apply IN].
    unfold dual_sectors in IN. assert (DI : forall X, es_ok S X -> forall c, In c (es_def X) -> sym_dual S (sym_dual S c) = c) by (intros X OX x Ix; apply (fr_dual_invol (to_ring OK)); now apply (ok_valid OX)).
    split; intros I.
    - assert (J : In (sym_dual S c) (map (sym_dual S) (es_def M))) by (apply IN; now apply in_map). apply in_map_iff in J. destruct J as (d & E & J). assert (d = c) by (rewrite <- (DI M OM d J), E; apply (DI L OL c I)). now subst.
    - assert (J : In (sym_dual S c) (map (sym_dual S) (es_def L))) by (apply IN; now apply in_map). apply in_map_iff in J. destruct J as (d & E & J). assert (d = c) by (rewrite <- (DI L OL d J), E; apply (DI M OM c I)). now subst. }
  assert (DEC : es_decomp S L = es_decomp S M) by (unfold es_decomp, es_space; cbn [sp_secs]; now rewrite ED, DEF). split; [exact DEC|].
  assert (LE : length (es_mults L) = length (es_mults M)) by (rewrite (ok_len OL), (ok_len OM), DEF; reflexivity).
  apply (list_eq_nth (d := 0)); [exact LE|]. intros i Hi. rewrite <- (sec_mult G OL Hi). rewrite LE in Hi. rewrite <- (sec_mult G OM Hi), EM, DEC. reflexivity.
Qed.

Section Eigh.
  Variable K : Type.
  Variable o : ops K.
  Hypothesis SR : is_semiring o.
  Hypothesis C0 : oconj o (o0 o) = o0 o.
  Hypothesis C1 : oconj o (o1 o) = o1 o.
  Variable S : tsymm.
  Variable fuse : sector -> sector -> sector.
  Hypothesis OK : tsymm_ok S.
  Hypothesis G : abelian_group_laws S fuse.
  Notation adata := (list (list nat * blk K)).
  Variable E : espace.
  Hypothesis OE : es_ok S E.
  Variable A : adata.
  Hypothesis TA : tensor_ok S [E] [E] A.
  Notation ms := (es_mults E).
  Lemma A_diag e : In e A -> fst e = [col0 e; col0 e] /\ col0 e < nsec E.
  Proof. intros I. destruct (row_form TA I) as (F & F0 & F1 & F2). assert (X : col0 e = col1 e) by (apply (sec_inj G OE); auto). rewrite <- X in F. auto. Qed.
  Lemma A_key e e' : In e A -> In e' A -> col0 e = col0 e' -> e = e'.
  Proof.
    intros I I' X. assert (ND := rows_NoDup TA). assert (F : fst e = fst e') by (rewrite (proj1 (A_diag I)), (proj1 (A_diag I')), X; reflexivity). clear -ND I I' F. induction A as [|t l IH]; [destruct I|]. cbn [map] in ND. apply NoDup_cons_iff in ND. destruct ND as [NI ND].
    destruct I as [ -> |I], I' as [ -> |I']; auto; exfalso; apply NI; [rewrite F|rewrite <- F]; now apply in_map.
  Qed.
  Lemma A_dec i : (exists e, In e A /\ col0 e = i) \/ (forall e, In e A -> col0 e <> i).
  Proof.
    clear. induction A as [|t l IH]; [right; intros e []|]. destruct (Nat.eq_dec (col0 t) i) as [X|X]; [left; exists t; split; [now left|exact X]|]. destruct IH as [(e & I & Y)|Z]; [left; exists e; split; [now right|exact Y]|right]. intros e [<-|I]; [exact X|now apply Z].
  Qed.
  Variable f : blk K -> blk K * blk K.
  Definition estep (v : adata) (e : list nat * blk K) : adata := let i := nth 0 (fst e) 0 in upd v i (fst (nth i v (noentry K)), snd (f (snd e))).
  Lemma estep_fold : forall (F v : adata), (forall e, In e F -> col0 e < length v) -> (forall e e', In e F -> In e' F -> col0 e = col0 e' -> e = e') -> NoDup F ->
    let w := fold_left estep F v in length w = length v /\ (forall i, i < length v -> fst (nth i w (noentry K)) = fst (nth i v (noentry K))) /\
      (forall e, In e F -> snd (nth (col0 e) w (noentry K)) = snd (f (snd e))) /\ (forall i, (forall e, In e F -> col0 e <> i) -> nth i w (noentry K) = nth i v (noentry K)).
  Proof.
    induction F as [|e F IH]; intros v R KEY ND; cbv zeta; cbn [fold_left].
    - split; [reflexivity|]. split; [reflexivity|]. split; [intros e []|reflexivity].
    - assert (Re := R e (or_introl eq_refl)). assert (Le : length (estep v e) = length v) by apply upd_length. destruct (IH (estep v e)) as (L & F1 & F2 & F3).
      + intros e' I. rewrite Le. apply R. now right.
      + intros x y Ix Iy. apply KEY; now right.
      + now inversion ND.
      + rewrite L, Le. split; [reflexivity|]. assert (ST : forall i, i < length v -> fst (nth i (estep v e) (noentry K)) = fst (nth i v (noentry K))).
        { intros i Hi. unfold estep. cbv zeta. fold (col0 e). destruct (Nat.eq_dec i (col0 e)) as [ -> |NE]; [now rewrite nth_upd_eq|now rewrite nth_upd_neq by auto]. }
        split; [intros i Hi; rewrite F1 by (rewrite Le; exact Hi); now apply ST|]. split.
        * intros e' [<-|I]; [|now apply F2]. rewrite F3.
          -- unfold estep. cbv zeta. fold (col0 e). now rewrite nth_upd_eq.
          -- intros e' I Q. assert (e' = e) by (apply KEY; [now right|now left|exact Q]). subst e'. inversion ND; contradiction.
        * intros i NI. rewrite F3 by (intros e' I; apply NI; now right). unfold estep. cbv zeta. fold (col0 e). apply nth_upd_neq. intros Q. exact (NI e (or_introl eq_refl) Q).
  Qed.
  Lemma eye_data_one : eye_data o [E] = map (fun i => ([i; i], beye_block o [nth i ms 0])) (seq 0 (nsec E)).
  Proof.
    unfold eye_data. cbn [rev app map]. assert (MG : make_grid [nsec E] false = map (fun i => [i]) (seq 0 (nsec E))).
    { unfold make_grid. cbn [rev app cgrid]. rewrite flat_map_concat_map. cbn [map]. induction (seq 0 (nsec E)) as [|x l IH]; [reflexivity|]. cbn [map concat app]. rewrite <- IH. reflexivity. }
    rewrite MG, map_map. apply map_ext. intros i. reflexivity.
  Qed.
  Lemma eye_block_one m : is_matrix m m (beye_block o [m]) /\ forall a c, a < m -> c < m -> mat o (beye_block o [m]) a c = delta o a c.
  Proof.
    unfold beye_block. cbn [length seq rev app]. split; [split; [reflexivity|apply btranspose_wf]|]. intros a c Ha Hc. unfold mat.
    change [a; c] with (take 0 [a; c] [0; 1]) at 1. rewrite bat_transpose_take.
    - rewrite (@bat_reshape K o _ _ [a; c]); [|reflexivity|reflexivity|].
      + cbn [prod fold_right]. rewrite Nat.mul_1_r. now apply eye_at.
      + cbn [beye bmk bshape prod fold_right]. now rewrite Nat.mul_1_r.
    - exact (seq_is_perm 2).
    - constructor; [exact Ha|]. constructor; [exact Hc|constructor].
  Qed.
  Definition eV : adata := snd (ab_eigh o E f A).
  Definition eW : adata := fst (ab_eigh o E f A).
  Lemma A_NoDup : NoDup A.
  Proof. apply (NoDup_map_inv fst). apply (rows_NoDup TA). Qed.
  Lemma eV_spec : length eV = nsec E /\ (forall i, i < nsec E -> fst (nth i eV (noentry K)) = [i; i]) /\ (forall e, In e A -> nth (col0 e) eV (noentry K) = (fst e, snd (f (snd e)))) /\
    (forall i, i < nsec E -> (forall e, In e A -> col0 e <> i) -> nth i eV (noentry K) = ([i; i], beye_block o [nth i ms 0])).
  Proof.
    unfold eV, ab_eigh. cbn [snd]. change (fold_left _ A _) with (fold_left estep A (eye_data o [E])). rewrite eye_data_one.
    set (v0 := map _ (seq 0 (nsec E))). assert (L0 : length v0 = nsec E) by (unfold v0; now rewrite map_length, seq_length).
    assert (N0 : forall i, i < nsec E -> nth i v0 (noentry K) = ([i; i], beye_block o [nth i ms 0])).
    { intros i Hi. unfold v0. rewrite nth_map_lt with (d := 0) by now rewrite seq_length. now rewrite seq_nth. }
    destruct (@estep_fold A v0) as (W1 & W2 & W3 & W4).
    - intros e I. rewrite L0. apply (A_diag I).
    - exact A_key.
    - exact A_NoDup.
    - split; [rewrite <- L0; exact W1|]. assert (F : forall i, i < nsec E -> fst (nth i (fold_left estep A v0) (noentry K)) = [i; i]) by (intros i Hi; rewrite W2 by lia; now rewrite N0). split; [exact F|]. split.
      + intros e I. destruct (A_diag I) as [D1 D2]. rewrite (surjective_pairing (nth _ _ _)). rewrite (F _ D2), (W3 e I), D1. reflexivity.
      + intros i Hi NI. rewrite (W4 i NI). now apply N0.
  Qed.
  Variable good : K -> Prop.
  Hypothesis EC : eigh_contract o (map snd A) good f.
  Hypothesis G0 : good (o0 o).
  Hypothesis HER : forall x y, x < es_dim S E -> y < es_dim S E -> entry o S [E] [E] A [x; y] = oconj o (entry o S [E] [E] A [y; x]).
  Lemma blk_spec e : In e A -> let m := nth (col0 e) ms 0 in is_vector m (fst (f (snd e))) /\ is_matrix m m (snd (f (snd e))) /\ iso_cols o m m (mat o (snd (f (snd e)))) /\ (forall z, z < m -> good (vec o (fst (f (snd e))) z)) /\
    forall x y, x < m -> y < m -> mat o (snd e) x y = sumn o m (fun z => omul o (omul o (mat o (snd (f (snd e))) x z) (vec o (fst (f (snd e))) z)) (oconj o (mat o (snd (f (snd e))) y z))).
  Proof.
    intros I m. destruct (A_diag I) as [D1 D2]. assert (M : is_matrix m m (snd e)).
    { split; [|apply (do_full (to_data TA) I)]. rewrite (do_shape (to_data TA) I), D1. reflexivity. }
    refine (EC (in_map snd _ _ I) M _ (surjective_pairing (f (snd e)))). intros x y Hx Hy. unfold mat.
    rewrite <- !(sval_in' o _ (rows_NoDup TA) I), D1. rewrite <- !(two_entry o G OE OE (to_data TA)) by assumption. apply HER; rewrite (dim_eq G OE); now apply loc_lt.
  Qed.
  Definition eL : list drow := map (fun i => DRow i i i None) (seq 0 (nsec E)).
  Lemma eL_In r : In r eL <-> exists i, i < nsec E /\ r = DRow i i i None.
  Proof. unfold eL. rewrite in_map_iff. split; [intros (i & <- & I); apply in_seq in I; exists i; split; [lia|reflexivity]|intros (i & Hi & ->); exists i; split; [reflexivity|apply in_seq; lia]]. Qed.
  Lemma eL_ND (p : drow -> nat) : (forall i, p (DRow i i i None) = i) -> NoDup (map p eL).
  Proof. intros H. unfold eL. rewrite map_map. erewrite map_ext; [|exact H]. rewrite map_id. apply seq_NoDup. Qed.
  Lemma eV_In e : In e eV -> exists i, i < nsec E /\ fst e = [i; i] /\ is_matrix (nth i ms 0) (nth i ms 0) (snd e).
  Proof.
    intros I. destruct eV_spec as (L & V1 & V2 & V3). apply In_nth with (d := noentry K) in I. destruct I as (i & Hi & <-). rewrite L in Hi. exists i. split; [exact Hi|]. split; [now apply V1|].
    destruct (A_dec i) as [(e & I & <-)|NI]; [rewrite (V2 e I); apply (blk_spec I)|rewrite (V3 i Hi NI); apply eye_block_one].
  Qed.
  Lemma eV_rows : map fst eV = map (fun i => [i; i]) (seq 0 (nsec E)).
  Proof.
    destruct eV_spec as (L & V1 & _). apply (list_eq_nth (d := [])); [now rewrite !map_length, seq_length|]. intros i Hi. rewrite map_length, L in Hi. rewrite nth_map_lt with (d := noentry K) by lia. rewrite nth_map_lt with (d := 0) by now rewrite seq_length. rewrite seq_nth by exact Hi. now apply V1.
  Qed.
  Lemma eV_ok : data_ok [E; E] eV.
  Proof.
    constructor.
    - rewrite eV_rows. unfold zrows. rewrite map_map. cbn [map]. generalize 0. induction (nsec E) as [|n IH]; intros k; [constructor|]. cbn [seq map]. constructor; [apply IH|]. apply Forall_forall. intros z I. apply in_map_iff in I. destruct I as (i & <- & I). apply in_seq in I. split; [reflexivity|]. exists 1. cbn [length nth]. split; [lia|]. split; [lia|]. intros k' Hk. lia.
    - intros e I. destruct (eV_In I) as (i & Hi & E1 & E2). rewrite E1. repeat constructor; exact Hi.
    - intros e I. destruct (eV_In I) as (i & Hi & E1 & E2). rewrite E1. apply E2.
    - intros e I. destruct (eV_In I) as (i & Hi & E1 & E2). apply E2.
  Qed.
  Lemma eV_sval i q : i < nsec E -> sval o eV [i; i] q = bat o (snd (nth i eV (noentry K))) q.
  Proof.
    intros Hi. destruct eV_spec as (L & V1 & _). rewrite <- (V1 i Hi). apply sval_in'; [apply (data_ok_NoDup eV_ok)|]. apply nth_In. now rewrite L.
  Qed.
  Lemma eW_ok : diag_data_ok E eW.
  Proof.
    unfold eW, ab_eigh. cbn [fst make_data]. constructor.
    - rewrite map_map. cbn [fst]. apply (do_sorted (to_data TA)).
    - intros e I. apply in_map_iff in I. destruct I as (e' & <- & I). destruct (A_diag I) as [D1 D2]. exists (col0 e'). cbn [fst snd]. split; [exact D2|]. split; [exact D1|]. apply (blk_spec I).
    - intros e I. apply in_map_iff in I. destruct I as (e' & <- & I). apply (blk_spec I).
  Qed.
  Lemma eW_val i c : i < nsec E -> c < nth i ms 0 -> (forall e, In e A -> col0 e = i -> vec o (ab_diag_block S o E eW) (pos ms i c) = vec o (fst (f (snd e))) c) /\ ((forall e, In e A -> col0 e <> i) -> vec o (ab_diag_block S o E eW) (pos ms i c) = o0 o).
  Proof.
    intros Hi Hc. unfold vec, ab_diag_block. rewrite (one_entry o G OE (diag_vector eW_ok) Hi Hc). split.
    - intros e I <-. apply sval_in; [apply (data_ok_NoDup (diag_vector eW_ok))|]. apply in_map_iff. exists (fst e, fst (f (snd e))). split; [reflexivity|]. unfold eW, ab_eigh. cbn [fst make_data]. apply in_map_iff. exists e. auto.
    - intros NI. apply sval_notin. intros J. apply in_map_iff in J. destruct J as (e & X & J). apply in_map_iff in J. destruct J as (e' & <- & J). unfold eW, ab_eigh in J. cbn [fst make_data] in J. apply in_map_iff in J. destruct J as (e2 & <- & J). cbn [fst nth] in X. injection X as X. exact (NI e2 J X).
  Qed.
  Notation EN C D M x y := (entry o S [C] [D] M [x; y]).
  Lemma eigh_core : iso_cols o (es_dim S E) (es_dim S E) (fun x z => EN E E eV x z) /\ (forall z, z < es_dim S E -> good (vec o (ab_diag_block S o E eW) z)) /\
    forall x y, x < es_dim S E -> y < es_dim S E -> EN E E A x y = sumn o (es_dim S E) (fun z => omul o (omul o (EN E E eV x z) (vec o (ab_diag_block S o E eW) z)) (oconj o (EN E E eV y z))).
  Proof.
    destruct eV_spec as (L & V1 & V2 & V3).
    assert (N1 := eL_ND (p := dr_j) (fun i => eq_refl)). assert (N2 := eL_ND (p := dr_n) (fun i => eq_refl)). assert (N3 := eL_ND (p := dr_k) (fun i => eq_refl)).
    assert (R1 : forall r, In r eL -> dr_j r < length ms) by (intros r I; apply eL_In in I; destruct I as (i & Hi & ->); exact Hi).
    assert (R2 : forall r, In r eL -> dr_n r < length ms) by (intros r I; apply eL_In in I; destruct I as (i & Hi & ->); exact Hi).
    assert (AL : forall n, n < length ms -> In n (map dr_n eL)) by (intros n Hn; apply in_map_iff; exists (DRow n n n None); split; [reflexivity|apply eL_In; now exists n]).
    assert (VF : blockform o eL ms ms dr_j dr_n (fun x z => EN E E eV x z) (fun r a c => sval o eV [dr_j r; dr_n r] [a; c])).
    { apply (tensor_form o G OE OE eV_ok). intros e I. destruct (eV_In I) as (i & Hi & X & _). exists (DRow i i i None). split; [apply eL_In; now exists i|exact X]. }
    assert (VK : blockform o eL ms ms dr_k dr_n (fun x z => EN E E eV x z) (fun r a c => sval o eV [dr_k r; dr_n r] [a; c])).
    { apply (tensor_form o G OE OE eV_ok). intros e I. destruct (eV_In I) as (i & Hi & X & _). exists (DRow i i i None). split; [apply eL_In; now exists i|exact X]. }
    assert (AF : blockform o eL ms ms dr_j dr_k (fun x y => EN E E A x y) (fun r a c => sval o A [dr_j r; dr_k r] [a; c])).
    { apply (tensor_form o G OE OE (to_data TA)). intros e I. destruct (A_diag I) as [D1 D2]. exists (DRow (col0 e) (col0 e) (col0 e) None). split; [apply eL_In; now exists (col0 e)|exact D1]. }
    rewrite (dim_eq G OE). split; [|split].
    - apply (bf_iso_cols SR C0 N1 N2 R1 AL VF). intros r I. apply eL_In in I. destruct I as (i & Hi & ->). cbn [dr_j dr_n]. destruct (A_dec i) as [(e & I & <-)|NI].
      + apply iso_cols_ext with (g := mat o (snd (f (snd e)))); [|apply (blk_spec I)]. intros x z _ _. rewrite (eV_sval _ Hi), (V2 e I). reflexivity.
      + apply iso_cols_ext with (g := delta o); [intros x z Hx Hz; rewrite (eV_sval _ Hi), (V3 i Hi NI); now apply eye_block_one|]. intros z y Hz Hy. transitivity (sumn o (nth i ms 0) (fun x => omul o (delta o x z) (delta o x y))); [apply sumn_ext; intros x _; now rewrite (conj_delta C0 C1)|]. now rewrite (sum_delta SR (fun x => delta o x y)).
    - intros z Hz. destruct (loc_surj Hz) as (i & c & Hi & Hc & ->). destruct (eW_val Hi Hc) as [W1 W2]. unfold pos in W1, W2. destruct (A_dec i) as [(e & I & X)|NI]; [rewrite (W1 e I X); subst i; now apply (blk_spec I)|now rewrite (W2 NI)].
    - intros x y Hx Hy. transitivity (sumn o (nsum ms) (fun z => omul o (EN E E eV x z) (omul o (vec o (ab_diag_block S o E eW) z) (oconj o (EN E E eV y z))))).
      2:{ apply sumn_ext. intros z _. apply (SRmul_assoc SR). }
      set (gw := fun r c => vec o (ab_diag_block S o E eW) (pos ms (dr_n r) c)).
      refine (bf_unique AF (bf_mul SR N1 N2 R2 VF (bf_scale (gw := gw) SR (fun r c _ _ _ => eq_refl) (bf_dagger C0 VK))) _ Hx Hy). intros r a b I Ha Hb. apply eL_In in I. destruct I as (i & Hi & ->). cbn [dr_j dr_n dr_k] in *. unfold gw. cbn [dr_n]. destruct (A_dec i) as [(e & I & X)|NI].
      + subst i. destruct (A_diag I) as [D1 D2]. rewrite <- D1 at 1. rewrite (sval_in' o _ (rows_NoDup TA) I). destruct (blk_spec I) as (_ & _ & _ & _ & BS). etransitivity; [exact (BS a b Ha Hb)|]. apply sumn_ext. intros z Hz. rewrite !(eV_sval _ Hi), (V2 e I), (proj1 (eW_val Hi Hz) e I eq_refl). cbn [snd]. symmetry. apply (SRmul_assoc SR).
      + rewrite sval_notin; [|intros J; apply in_map_iff in J; destruct J as (e & X & J); apply (NI e J); unfold col0; now rewrite X]. symmetry. apply (sumn_zero SR). intros z Hz. rewrite (proj2 (eW_val Hi Hz) NI), (SRmul_0_l SR). apply (mul_0_r SR).
  Qed.
  (** with the new leg *)
  Variable N : espace.
  Hypothesis ON : es_ok S N.
  Hypothesis EDN : es_dual N = es_dual E.
  Hypothesis NM : forall c, es_mult S N c = es_mult S E c.
  Theorem eigh_rows : exists w v, ab_eigh o E f A = (w, v) /\ diag_data_ok N w /\ tensor_ok S [E] [N] v /\ iso_cols o (es_dim S E) (es_dim S N) (fun x z => EN E N v x z) /\ (forall z, z < es_dim S N -> good (vec o (ab_diag_block S o N w) z)) /\
    forall x y, x < es_dim S E -> y < es_dim S E -> EN E E A x y = sumn o (es_dim S N) (fun z => omul o (omul o (EN E N v x z) (vec o (ab_diag_block S o N w) z)) (oconj o (EN E N v y z))).
  Proof.
    exists eW, eV. split; [unfold eW, eV; apply surjective_pairing|]. destruct (same_leg OK G ON OE EDN NM) as [DE MU]. assert (DIM : es_dim S N = es_dim S E) by (rewrite (dim_eq G ON), (dim_eq G OE), MU; reflexivity).
    assert (NS : nsec N = nsec E) by (unfold nsec; now rewrite MU).
    assert (OV : data_ok [E; N] eV).
    { destruct eV_ok as [X1 X2 X3 X4]. constructor; auto; [|]; cbn [map mults]; rewrite ?NS, ?MU; assumption. }
    assert (EQ : forall x y, x < es_dim S E -> y < es_dim S E -> EN E N eV x y = EN E E eV x y).
    { intros x y Hx Hy. rewrite (dim_eq G OE) in Hx, Hy. destruct (loc_surj Hx) as (j & a & Hj & Ha & ->). destruct (loc_surj Hy) as (k & b & Hk & Hb & ->). assert (T := two_entry o G OE OE eV_ok Hj Ha Hk Hb). unfold pos in T. rewrite T. rewrite <- MU at 2. apply (two_entry o G OE ON OV); auto; rewrite ?NS, ?MU; auto. }
    assert (DW : diag_data_ok N eW).
    { destruct eW_ok as [X1 X2 X3]. constructor; auto. intros e I. rewrite NS, MU. now apply X2. }
    assert (EW : forall z, z < es_dim S E -> vec o (ab_diag_block S o N eW) z = vec o (ab_diag_block S o E eW) z).
    { intros z Hz. rewrite (dim_eq G OE) in Hz. destruct (loc_surj Hz) as (i & c & Hi & Hc & ->). unfold vec, ab_diag_block. assert (T := one_entry o G OE (diag_vector eW_ok) Hi Hc). unfold pos in T. rewrite T. rewrite <- MU at 1. apply (one_entry o G ON (diag_vector DW)); rewrite ?NS, ?MU; auto. }
    destruct eigh_core as (H1 & H2 & H3). split; [exact DW|]. split; [|split; [|split]].
    - constructor; [intros X [<-|[<-|[]]]; assumption|exact OV|]. intros e I. destruct (eV_In I) as (i & Hi & X & _). rewrite X. apply charge_two. now rewrite DE.
    - rewrite DIM. apply iso_cols_ext with (g := fun x z => EN E E eV x z); [exact EQ|exact H1].
    - rewrite DIM. intros z Hz. rewrite (EW z Hz). now apply H2.
    - rewrite DIM. intros x y Hx Hy. rewrite (H3 x y Hx Hy). apply sumn_ext. intros z Hz. now rewrite !EQ, EW.
  Qed.
End Eigh.
