(** The leg created by a decomposition: its multiplicities, for symmetries without positive dimensions as well (anyons). *)
From Verif Require Import Util StableSort RowModel RowProofs GridModel GridProofs SymModel SymProofs SpaceModel SpaceSpec SpaceProofs SpaceProofs2 SpaceProofs7
  PipeModel PipeProofs PipeProofs4 TreeModel TreeProofs TreeProofs2 TreeProofs4 FormalSum TensorModel TensorSpec TensorProofs TensorProofs2 TensorProofs3 TensorProofs4 TensorProofs5.
Set Implicit Arguments. Unset Strict Implicit.
Open Scope nat_scope.

(** the same symmetry with all dimensions 1 *)
Definition undim (S : symm) : symm := Symm (Sym (sym_len S) (sym_valid S) (sym_trivial S) (sym_outcomes S) (sym_n S) (sym_dual S) (fun _ => 1)) (s_drop S) (s_abelian S).
Lemma undim_ok (S : symm) : fusion_ring S -> symm_ok (undim S).
Proof. intros R. constructor; cbn; try (intros; reflexivity || lia); [apply (fr_len R)|apply (fr_dual_valid R)|apply (fr_dual_invol R)]. Qed.
Lemma undim_space (S : symm) V : space_ok S V -> space_ok (undim S) V.
Proof. intros O. constructor; [exact (sk_valid O)|exact (sk_nodup O)|exact (sk_len O)|exact (sk_pos O)|exact (sk_order O)]. Qed.
Lemma undim_es (S : symm) E : es_perm E = None -> es_ok (undim S) E -> es_ok S E.
Proof. intros N O. constructor; [exact (ok_valid O)|exact (ok_sorted O)|exact (ok_len O)|exact (ok_pos O)|]. intros p H. rewrite N in H. discriminate. Qed.

Section New.
  Variable S : tsymm.
  Hypothesis OK : tsymm_ok S.
  Lemma fds_def_dim (sy : symm) secs ms d : es_def (from_defining_sectors (undim sy) secs ms d None true) = es_def (from_defining_sectors sy secs ms d None true) /\
    es_mults (from_defining_sectors (undim sy) secs ms d None true) = es_mults (from_defining_sectors sy secs ms d None true).
  Proof. unfold from_defining_sectors. destruct (sort_sectors secs ms) as [[a b] c]. split; reflexivity. Qed.
  Lemma common_two_undim V W d : common_two (undim S) V W d = common_two S V W d.
  Proof. unfold common_two, from_sector_decomposition, from_defining_sectors, dual_sectors. cbn [undim s_sym sym_dual]. destruct (sort_sectors _ _) as [[a b] c]. reflexivity. Qed.
  Lemma common_two_leg V W d : space_ok S V -> space_ok S W -> let L := common_two S V W d in
    es_ok S L /\ es_dual L = d /\ forall c, es_mult S L c = Nat.min (sp_mult V c) (sp_mult W c).
  Proof.
    intros OV OW L. pose proof (undim_ok (to_ring OK)) as U. pose proof (undim_space OV) as UV. pose proof (undim_space OW) as UW. unfold L.
    split; [|split].
    - apply undim_es; [reflexivity|]. rewrite <- common_two_undim. now apply common_two_ok.
    - apply common_two_dual.
    - intros c. rewrite <- (common_two_mult U UV UW d). rewrite common_two_undim. reflexivity.
  Qed.
  Lemma one_leg_product L : es_ok S L -> exists N, new_tprod S [LSpace L] = Some N /\ tp_factors N = [LSpace L] /\ tp_ok S N /\ forall c, block_size N c = es_mult S L c.
  Proof.
    intros O. assert (OL : Forall (es_ok S) (flat_map flat_legs [LSpace L])) by (constructor; [exact O|constructor]).
    destruct (new_tprod_spec OK OL) as (N & E & EF & _ & _). exists N. split; [exact E|]. split; [exact EF|].
    assert (HN : tp_ok S N) by (split; [unfold tp_flat_legs; now rewrite EF|now rewrite EF]). split; [exact HN|].
    intros c. rewrite (block_size_spec OK c HN). unfold tp_flat_legs. rewrite EF.
    change (fmult (convs S [leg_pairs S L]) c = es_mult S L c). rewrite (convs_one (to_ring OK)); [reflexivity|].
    apply space_ok_valids. now apply es_space_ok'.
  Qed.
  (** the leg of a QR, LQ or singular value decomposition *)
  Lemma new_leg_min P Q d : tp_ok S P -> tp_ok S Q -> exists L N, from_largest_common_subspace S [tp_space P; tp_space Q] d = Some L /\ es_ok S L /\ es_dual L = d /\
    new_tprod S [LSpace L] = Some N /\ tp_ok S N /\ forall c, block_size N c = Nat.min (block_size P c) (block_size Q c).
  Proof.
    intros HP HQ. destruct (tp_ok_spec OK HP) as [OP _]. destruct (tp_ok_spec OK HQ) as [OQ _].
    destruct (common_two_leg d OP OQ) as (A & B & C). destruct (one_leg_product A) as (N & E & _ & HN & M).
    exists (common_two S (tp_space P) (tp_space Q) d), N. split; [reflexivity|]. split; [exact A|]. split; [exact B|]. split; [exact E|]. split; [exact HN|].
    intros c. rewrite M, C. f_equal; symmetry; [exact (sector_multiplicity_spec c (sk_nodup OP) (sk_len OP))|exact (sector_multiplicity_spec c (sk_nodup OQ) (sk_len OQ))].
  Qed.
  (** the leg of an eigendecomposition; a symmetry that can be dropped has positive dimensions *)
  Lemma as_elementary_leg V d : (s_drop S = true -> symm_ok S) -> space_ok S V -> let L := as_elementary S V d in es_ok S L /\ es_dual L = d /\ forall c, es_mult S L c = sp_mult V c.
  Proof.
    intros SD OV L. unfold L. destruct (s_drop S) eqn:D; [apply as_elementary_spec; auto|].
    assert (ND : es_perm (as_elementary S V d) = None).
    { unfold as_elementary. cbv zeta. destruct (match sp_order V with Some o => _ | None => false end); [reflexivity|]. unfold from_defining_sectors.
      destruct (sort_sectors _ _) as [[a b] s]. cbn [es_perm]. unfold sort_basis_perm. rewrite D. reflexivity. }
    assert (E : as_elementary (undim S) V d = as_elementary S V d).
    { unfold as_elementary. cbv zeta. unfold dual_sectors. cbn [undim s_sym sym_dual]. destruct (match sp_order V with Some o => _ | None => false end); [reflexivity|].
      unfold from_defining_sectors, sort_basis_perm. cbn [undim s_drop]. rewrite D. reflexivity. }
    destruct (as_elementary_spec d (undim_ok (to_ring OK)) (undim_space OV)) as (A & B & C). rewrite E in A, B, C.
    split; [now apply undim_es|]. split; [exact B|]. exact C.
  Qed.
  Lemma new_leg_all P d : (s_drop S = true -> symm_ok S) -> tp_ok S P -> exists N, es_ok S (as_elementary S (tp_space P) d) /\ es_dual (as_elementary S (tp_space P) d) = d /\
    new_tprod S [LSpace (as_elementary S (tp_space P) d)] = Some N /\ tp_ok S N /\ forall c, block_size N c = block_size P c.
  Proof.
    intros SD HP. destruct (tp_ok_spec OK HP) as [OP _]. destruct (as_elementary_leg d SD OP) as (A & B & C). destruct (one_leg_product A) as (N & E & _ & HN & M).
    exists N. split; [exact A|]. split; [exact B|]. split; [exact E|]. split; [exact HN|]. intros c. rewrite M, C. symmetry. exact (sector_multiplicity_spec c (sk_nodup OP) (sk_len OP)).
  Qed.
End New.
