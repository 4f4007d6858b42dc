(** combine_legs / split_legs: one pipe. *)
From Verif Require Import Util StableSort RowModel RowProofs GridModel GridProofs SymModel SymProofs CatSpec SpaceModel SpaceSpec SpaceProofs SpaceProofs2 SpaceProofs3 SpaceProofs5
  PipeModel PipeProofs PipeProofs2 PipeProofs3 BlockModel BlockProofs SparseModel SparseSpec SparseProofs CombineModel CombineSpec.
Set Implicit Arguments. Unset Strict Implicit.
Open Scope nat_scope.

Lemma oriented_length A d (l : list A) : length (oriented d l) = length l.
Proof. destruct d; cbn; auto using rev_length. Qed.
Lemma oriented_invol A d (l : list A) : oriented d (oriented d l) = l.
Proof. destruct d; cbn; auto using rev_involutive. Qed.
Lemma oriented_map A B (f : A -> B) d l : map f (oriented d l) = oriented d (map f l).
Proof. destruct d; cbn; auto using map_rev. Qed.
Lemma oriented_valid d s r : valid_idx s r -> valid_idx (oriented d s) (oriented d r).
Proof. destruct d; cbn; auto. apply valid_rev. Qed.
Lemma oriented_shp d mss r : length r = length mss -> shp (oriented d mss) (oriented d r) = oriented d (shp mss r).
Proof. destruct d; cbn; auto. apply shp_rev. Qed.
Lemma oriented_locs d mss r q : length r = length mss -> length q = length mss -> locs (oriented d mss) (oriented d r) (oriented d q) = oriented d (locs mss r q).
Proof. destruct d; cbn; auto. apply locs_rev. Qed.
Lemma oriented_zipw A B (f : A -> nat -> B) d l r : length r = length l -> zipw f (oriented d l) (oriented d r) = oriented d (zipw f l r).
Proof. destruct d; cbn; auto. apply zipw_rev. Qed.

Section OnePipe.
  Variable S : symm.
  Variable fuse : sector -> sector -> sector.
  Hypothesis G : abelian_group_laws S fuse.
  Hypothesis HA : s_abelian S = true.
  Hypothesis HD : s_drop S = true.
  Variable P : pipe.
  Hypothesis POK : item_ok S (Group P).
  Notation legs := (p_legs P).
  Notation c := (p_cstyle P).
  Notation mss := (mults (p_legs P)).
  Notation norow := (Bim 0 0 [] 0).

  Definition mix (cols : list nat) : nat := nth (pack_row cols (p_strides P)) (inverse_permutation (p_sort P)) 0.
  Notation E0 := (pE S fuse legs (es_dual (p_es P)) c).
  Lemma P_eq : legs <> [] /\ p_es P = E0 /\ p_strides P = make_stride (leg_nums legs) c /\ p_sort P = psort S fuse legs (es_dual (p_es P)) c /\
     p_slices P = pdiffs S fuse legs (es_dual (p_es P)) c /\ p_map P = pbim S fuse legs (es_dual (p_es P)) c.
  Proof.
    destruct POK as [OK E]. assert (HN : legs <> []) by (intros E'; rewrite E' in E; discriminate E).
    split; [exact HN|]. rewrite (new_pipe_eq G HA HD HN OK) in E.
    assert (E' : Pipe legs c E0 (make_stride (leg_nums legs) c) (psort S fuse legs (es_dual (p_es P)) c) (pdiffs S fuse legs (es_dual (p_es P)) c) (pbim S fuse legs (es_dual (p_es P)) c) = P) by congruence.
    clear E. split; [exact (eq_sym (f_equal p_es E'))|]. split; [exact (eq_sym (f_equal p_strides E'))|]. split; [exact (eq_sym (f_equal p_sort E'))|].
    split; [exact (eq_sym (f_equal p_slices E'))|exact (eq_sym (f_equal p_map E'))].
  Qed.
  Lemma P_OK L : In L legs -> es_ok S L.
  Proof. apply POK. Qed.
  Lemma P_nums : map nsec legs = leg_nums legs.
  Proof. apply map_ext_in. intros L HL. unfold nsec. apply (ok_len (P_OK HL)). Qed.
  Lemma mss_nums : map (@length nat) mss = map nsec legs.
  Proof. unfold mults. rewrite map_map. reflexivity. Qed.
  Lemma P_map_len : length (p_map P) = prod (map nsec legs).
  Proof. destruct P_eq as (_ & _ & _ & _ & _ & E). rewrite E. rewrite bim_length, P_nums. reflexivity. Qed.
  Lemma mix_spec cols : valid_idx (map nsec legs) cols -> mix cols < length (p_map P) /\ bim_idx (nth (mix cols) (p_map P) norow) = cols.
  Proof.
    intros V. rewrite P_nums in V. destruct P_eq as (_ & _ & E1 & E2 & _ & E).
    assert (EM : mix cols = nth (flat_index (leg_nums legs) c cols) (inverse_permutation (psort S fuse legs (es_dual (p_es P)) c)) 0) by (unfold mix, pack_row; rewrite E1, E2, dot_make_stride; [reflexivity|apply (valid_length V)]).
    rewrite EM. assert (PP := psort_perm S fuse legs (es_dual (p_es P)) c). rewrite (pgrid_length legs c) in PP.
    assert (FL := flat_index_lt c V). destruct (nth_inv_perm PP FL) as [A B]. set (m := nth _ _ _) in *.
    split; [now rewrite P_map_len, P_nums|].
    rewrite E, bim_nth by (rewrite bim_length; exact A). cbn [prow bim_idx]. unfold psgrid. rewrite nth_take by (rewrite (is_perm_length PP); exact A). rewrite B. unfold pgrid.
    rewrite (proj1 (@make_grid_nth (leg_nums legs) c _ FL)). apply (grid_row_flat c V).
  Qed.
  Lemma mix_back m : m < length (p_map P) -> valid_idx (map nsec legs) (bim_idx (nth m (p_map P) norow)) /\ mix (bim_idx (nth m (p_map P) norow)) = m.
  Proof.
    intros Hm. set (idx := bim_idx (nth m (p_map P) norow)). destruct P_eq as (_ & _ & _ & _ & _ & E).
    assert (PM : Permutation (map bim_idx (p_map P)) (make_grid (leg_nums legs) c)) by (rewrite E; apply bim_idx_perm).
    assert (V : valid_idx (map nsec legs) idx).
    { rewrite P_nums. apply (make_grid_In _ c). eapply Permutation_in; [exact PM|]. apply in_map. now apply nth_In. }
    split; [exact V|]. destruct (mix_spec V) as [A B].
    assert (ND : NoDup (map bim_idx (p_map P))) by (eapply Permutation_NoDup; [symmetry; exact PM|apply make_grid_NoDup]).
    rewrite (NoDup_nth _ []) in ND. apply ND; [now rewrite map_length|now rewrite map_length|].
    rewrite !nth_map_lt with (d := norow) by assumption. rewrite B. reflexivity.
  Qed.
  Lemma P_row m : m < length (p_map P) -> let row := nth m (p_map P) norow in
    bim_J row < nsec (p_es P) /\ nth (bim_J row) (p_slices P) 0 <= m < nth (bim_J row + 1) (p_slices P) 0 /\
    bim_stop row = bim_start row + prod (shp mss (bim_idx row)) /\ bim_stop row <= nth (bim_J row) (es_mults (p_es P)) 0 /\
    nth (bim_J row) (es_decomp S (p_es P)) [] = fuse_all S fuse (row_sectors S legs (bim_idx row)).
  Proof.
    intros Hm. cbv zeta. destruct P_eq as (_ & EE & _ & _ & ED & EMap). assert (OK := P_OK).
    rewrite EMap in Hm |- *. destruct (row_facts G HA HD OK Hm) as (A1 & A2 & A3 & A4 & A5 & _).
    unfold nsec. rewrite ED. rewrite <- EE in A1, A4, A5. assert (EOK : es_ok S (p_es P)) by (rewrite EE; apply (pE_ok G HD OK)).
    rewrite (ok_len EOK). split; [exact A1|]. split; [exact A2|]. unfold mults. rewrite shp_zipw, zipw_map. split; [exact A3|]. split; [apply A4|exact A5].
  Qed.
  Lemma P_es_ok : es_ok S (p_es P).
  Proof. destruct P_eq as (_ & EE & _). rewrite EE. apply (pE_ok G HD P_OK). Qed.
  Lemma P_es_dim : es_dim S (p_es P) = prod (map (es_dim S) legs).
  Proof. destruct P_eq as (_ & EE & _). rewrite EE. apply (pE_dim G HD P_OK). Qed.
  Lemma P_dims : map nsum mss = map (es_dim S) legs.
  Proof. unfold mults. rewrite map_map. apply map_ext_in. intros L HL. symmetry. apply (p_dim_one G). apply (P_OK HL). Qed.
  (** the position on the pipe of entry [q] of block [r] of its legs *)
  Definition pJof (r : list nat) : nat := bim_J (nth (mix r) (p_map P) norow).
  Definition pSof (r : list nat) : nat := bim_start (nth (mix r) (p_map P) norow).
  Definition ppsi (r q : list nat) : nat := nsum (firstn (pJof r) (es_mults (p_es P))) + (pSof r + flat_index (shp mss r) c q).
  Definition pub (j : list nat) : list nat := zipw (fun L i => nth i (basis_perm S L) 0) legs j.
  Lemma ppsi_state r q : valid_idx (map nsec legs) r -> valid_idx (shp mss r) q ->
    nth (ppsi r q) (basis_perm S (p_es P)) 0 = flat_index (map (es_dim S) legs) c (pub (locs mss r q)).
  Proof.
    intros V Q. destruct (mix_spec V) as [Hm EI]. assert (FL := flat_index_lt c Q). unfold ppsi, pJof, pSof. destruct P_eq as (_ & EE & _ & _ & ED & EMap). assert (OK := P_OK).
    assert (ESH : shp mss (bim_idx (nth (mix r) (p_map P) norow)) = zipw (fun L i => nth i (es_mults L) 0) legs (bim_idx (nth (mix r) (p_map P) norow))) by (unfold mults; rewrite shp_zipw, zipw_map; reflexivity).
    rewrite EMap in Hm. assert (RS := @row_states S fuse G HA HD legs OK (es_dual (p_es P)) c (mix r) (flat_index (shp mss r) c q) Hm). cbv zeta in RS.
    rewrite <- EMap, <- EE in RS. rewrite <- ESH, EI in RS. specialize (RS FL). rewrite (grid_row_flat c Q) in RS. rewrite Nat.add_assoc. exact RS.
  Qed.
  Lemma ppsi_lt r q : valid_idx (map nsec legs) r -> valid_idx (shp mss r) q ->
    pJof r < nsec (p_es P) /\ pSof r + flat_index (shp mss r) c q < nth (pJof r) (es_mults (p_es P)) 0 /\ pSof r + prod (shp mss r) <= nth (pJof r) (es_mults (p_es P)) 0.
  Proof.
    intros V Q. destruct (mix_spec V) as [Hm EI]. assert (FL := flat_index_lt c Q). destruct (P_row Hm) as (A1 & A2 & A3 & A4 & _).
    rewrite EI in A3. unfold pJof, pSof. split; [exact A1|]. lia.
  Qed.
  Lemma locs_dims r q : valid_idx (map nsec legs) r -> valid_idx (shp mss r) q -> valid_idx (map (es_dim S) legs) (locs mss r q).
  Proof. intros V Q. rewrite <- P_dims. apply locs_valid; [now rewrite mss_nums|exact Q]. Qed.
  Lemma ppsi_inj r q r' q' : valid_idx (map nsec legs) r -> valid_idx (shp mss r) q -> valid_idx (map nsec legs) r' -> valid_idx (shp mss r') q' ->
    ppsi r q = ppsi r' q' -> r = r' /\ q = q'.
  Proof.
    intros V Q V' Q' E. assert (E1 := ppsi_state V Q). assert (E2 := ppsi_state V' Q'). rewrite E in E1. rewrite E1 in E2.
    apply flat_index_inj in E2; [|apply (ppl_valid P_OK); now apply locs_dims|apply (ppl_valid P_OK); now apply locs_dims].
    apply (ppl_inj P_OK) in E2; [|now apply locs_dims|now apply locs_dims].
    apply locs_inj in E2; auto; now rewrite mss_nums.
  Qed.
  Lemma psi_inj r q r' q' : valid_idx (map nsec legs) r -> valid_idx (shp mss r) q -> valid_idx (map nsec legs) r' -> valid_idx (shp mss r') q' ->
    pJof r = pJof r' -> pSof r + flat_index (shp mss r) c q = pSof r' + flat_index (shp mss r') c q' -> r = r' /\ q = q'.
  Proof. intros V Q V' Q' E1 E2. apply ppsi_inj; auto. unfold ppsi. rewrite E1, E2. reflexivity. Qed.
  Lemma psi_surj J x : J < nsec (p_es P) -> x < nth J (es_mults (p_es P)) 0 ->
    exists r q, valid_idx (map nsec legs) r /\ valid_idx (shp mss r) q /\ pJof r = J /\ pSof r + flat_index (shp mss r) c q = x.
  Proof.
    intros HJ Hx. set (j := nsum (firstn J (es_mults (p_es P))) + x).
    assert (Hj : j < es_dim S (p_es P)) by (rewrite (p_dim_one G P_es_ok); apply loc_lt; assumption).
    assert (BP := ok_bperm P_es_ok). set (k := nth j (basis_perm S (p_es P)) 0).
    assert (Hk : k < prod (map (es_dim S) legs)) by (rewrite <- P_es_dim; apply (is_perm_nth_lt BP Hj)).
    destruct (flat_index_surj c Hk) as (g & Vg & Eg). destruct (ppl_surj P_OK Vg) as (l & Vl & El).
    unfold pdims in Vl. rewrite <- P_dims in Vl. destruct (locs_surj Vl) as (r & q & Vr & Vq & ->). rewrite mss_nums in Vr. exists r, q. split; [exact Vr|]. split; [exact Vq|].
    assert (E1 := ppsi_state Vr Vq). unfold pub in E1. unfold ppl in El. rewrite El, Eg in E1.
    destruct (ppsi_lt Vr Vq) as (A1 & A2 & _).
    assert (EP : ppsi r q = j).
    { apply (is_perm_nth_inj BP); [|exact Hj|exact E1]. rewrite (p_dim_one G P_es_ok). apply loc_lt; assumption. }
    unfold ppsi, j in EP. apply loc_inj in EP; auto.
  Qed.
  Lemma pJ_sector r : valid_idx (map nsec legs) r -> nth (pJof r) (es_decomp S (p_es P)) [] = fuse_all S fuse (row_sectors S legs r).
  Proof. intros V. destruct (mix_spec V) as [Hm EI]. destruct (P_row Hm) as (_ & _ & _ & _ & A5). rewrite EI in A5. exact A5. Qed.
End OnePipe.
