(** C23-C29: elementary spaces.  [S] is any symmetry satisfying [symm_ok] (proved for every product of the library's
    factors in C23_symmetries_qualify), [public_states S E] is the specification of the public basis (SpaceSpec.v):
    the list of (sector, position within the multiplet). *)
From Coq Require Import Reals String.
From Verif Require Import Util StableSort RowModel RowProofs GridModel GridProofs SymModel SymProofs AbelianModel AbelianProofs
  Su2Model Su2Proofs CatSpec CatProofs Cplx Tower ProductModel ProductProofs SpaceModel SpaceSpec
  SpaceProofs SpaceProofs2 SpaceProofs3 SpaceProofs4 SpaceProofs5 SpaceProofs6 SpaceProofs7 DropModel DropProofs.
From Verif Require ProductProps.
Open Scope nat_scope.

(** every product of well-behaved factors is a symmetry to which the theorems below apply *)
Theorem C23_symmetries_qualify : forall (fs : list (factor C)), fs <> [] -> Forall (honest Cops) fs ->
  Forall (fun f => dim_law (fac_sym f)) fs -> symm_ok (prod_symm Cops fs).
Proof. exact (@prod_symm_ok C Cops). Qed.
Print Assumptions C23_symmetries_qualify.

(** [sectors_of_basis] lists the sectors of the public basis *)
Theorem C23_sectors_of_basis : forall S E, es_ok S E ->
  sectors_of_basis S E = map fst (public_states S E) /\ length (sectors_of_basis S E) = es_dim S E.
Proof.
  intros S E OK. split; [apply (sectors_of_basis_public OK)|]. rewrite (sectors_of_basis_public OK), map_length. apply (ok_public_len OK).
Qed.
Print Assumptions C23_sectors_of_basis.

(** ** C23 *)
Theorem C23_from_basis_inverse : forall S, symm_ok S -> forall l, (forall s, In s l -> sym_valid S s = true) ->
  forall E, from_basis S l = Some E ->
  es_ok S E /\ es_dual E = false /\ sectors_of_basis S E = l /\ (forall s, es_mult S E s * sym_dim S s = count_in s l).
Proof. intros S SO l HV E HE. exact (from_basis_some SO HV HE). Qed.
Print Assumptions C23_from_basis_inverse.
(** rejection happens exactly for non-droppable symmetries and for sectors that occur a wrong number of times *)
Theorem C23_from_basis_rejects : forall S, symm_ok S -> forall l, (forall s, In s l -> sym_valid S s = true) ->
  from_basis S l = None <-> (s_drop S = false \/ exists s, In s l /\ count_in s l mod sym_dim S s <> 0).
Proof. intros S SO l HV. exact (from_basis_none SO HV). Qed.
Print Assumptions C23_from_basis_rejects.

(** ** C24.  [basis_perm_or_identity] is the optional argument basis_perm. *)
Definition basis_perm_or_identity (n : nat) (perm : option (list nat)) : list nat :=
  match perm with None => seq 0 n | Some p => p end.
Theorem C24_public_basis_preserved : forall S, symm_ok S -> s_drop S = true -> forall sectors mults dual perm unique,
  (forall s, In s sectors -> sym_valid S s = true) -> length mults = length sectors ->
  let n := length (states S sectors mults) in
  is_perm n (basis_perm_or_identity n perm) ->
  let E := from_defining_sectors S sectors mults dual perm unique in
  (* the public basis is the given internal basis (of the un-sorted, un-merged sectors, dualised if is_dual)
     arranged by the given permutation: public state perm[k] is internal state k *)
  arranged (basis_perm_or_identity n perm) (states S (if dual then dual_sectors S sectors else sectors) mults) (public_states S E) /\
  es_dim S E = n /\ is_perm n (basis_perm S E).
Proof.
  intros S SO HD sectors mults dual perm u HV HL n HP E.
  destruct (@fds_public S SO sectors mults dual perm u HV HL HD HP) as (A & B & _ & D). fold E in A, B, D. rewrite B in A.
  split; [exact D|]. split; [exact B | exact A].
Qed.
Print Assumptions C24_public_basis_preserved.
Theorem C24_sorted_merged : forall S, symm_ok S -> forall sectors mults dual perm unique,
  (forall s, In s sectors -> sym_valid S s = true) -> length mults = length sectors ->
  (unique = true -> NoDup sectors) ->
  let E := from_defining_sectors S sectors mults dual perm unique in
  strictly_sorted (es_def E) /\ (forall s, In s (es_def E) <-> In s sectors) /\
  (forall s, mult_of (es_def E) (es_mults E) s = mult_of sectors mults s) /\
  (forall s, es_mult S E s = mult_of (if dual then dual_sectors S sectors else sectors) mults s) /\ es_dual E = dual.
Proof.
  intros S SO sectors mults dual perm u HV HL HU E. unfold E. split; [apply (@fds_def_sorted S SO sectors mults HV HL); exact HU|].
  split; [intros s; apply (@fds_def_In S sectors mults HL)|]. split; [intros s; apply (psum_fds (fun x => row_eqb x s)); exact HL|].
  split; [intros s; apply fds_es_mult; exact HL | apply fds_dual].
Qed.
Print Assumptions C24_sorted_merged.
Theorem C24_result_sane : forall S, symm_ok S -> forall sectors mults dual perm unique,
  (forall s, In s sectors -> sym_valid S s = true) -> length mults = length sectors -> (forall m, In m mults -> 0 < m) ->
  (unique = true -> NoDup sectors) ->
  let n := length (states S sectors mults) in
  (s_drop S = true -> is_perm n (basis_perm_or_identity n perm)) -> (s_drop S = false -> perm = None) ->
  es_ok S (from_defining_sectors S sectors mults dual perm unique).
Proof. intros S SO sectors mults dual perm u HV HL HP HU n H1 H2. apply fds_ok; assumption. Qed.
Print Assumptions C24_result_sane.

(** ** C25.  [start s] is the first internal position of sector number s. *)
Definition start (S : symmetry) (E : espace) (s : nat) : nat := nsum (firstn s (num_states S (es_decomp S E) (es_mults E))).
Theorem C25_parse_index : forall S E, s_drop S = true -> es_ok S E -> forall idx : Z,
  (- Z.of_nat (es_dim S E) <= idx < Z.of_nat (es_dim S E))%Z ->
  let i := Z.to_nat (if idx <? 0 then idx + Z.of_nat (es_dim S E) else idx)%Z in
  exists s m, parse_index S E idx = Some (s, m) /\
    s < length (es_decomp S E) /\ m < sym_dim S (nth s (es_decomp S E) []) * nth s (es_mults E) 0 /\
    (* the internal position of public state i is start s + m *)
    nth i (inverse_basis_perm S E) 0 = start S E s + m /\
    idx_to_sector S E idx = Some (nth s (es_decomp S E) []) /\
    nth i (sectors_of_basis S E) [] = nth s (es_decomp S E) [].
Proof.
  intros S E HD OK idx HR i. destruct (parse_index_spec HD OK HR) as (s & m & PI & Hs & Hm & Hi & HB & Hn). fold i in Hi, HB.
  assert (LM : length (es_mults E) = length (es_decomp S E)) by (rewrite ok_decomp_len; apply (ok_len OK)).
  exists s, m. split; [exact PI|]. split; [exact Hs|]. split.
  - rewrite num_states_eq in Hm by exact LM. rewrite nth_map_lt with (d := ([], 0)) in Hm by (rewrite combine_length; lia).
    rewrite combine_nth in Hm by (symmetry; exact LM). exact Hm.
  - split; [|split].
    + rewrite (inv_bperm S E). rewrite <- HB. exact (inverse_permutation_l (ok_bperm OK) Hn).
    + unfold idx_to_sector. rewrite PI. reflexivity.
    + rewrite (sectors_of_basis_public OK). destruct (arranged_map fst (ok_public OK)) as (_ & _ & A).
      rewrite <- HB. rewrite A by (rewrite map_length, (ok_states OK); exact Hn). apply (@states_sector S E (es_decomp S E) (es_mults E) s m LM Hs Hm).
Qed.
Print Assumptions C25_parse_index.
Theorem C25_out_of_range : forall S E, s_drop S = true -> forall idx : Z,
  (idx < - Z.of_nat (es_dim S E) \/ Z.of_nat (es_dim S E) <= idx)%Z -> parse_index S E idx = None /\ idx_to_sector S E idx = None.
Proof. intros S E HD idx H. assert (P := parse_index_out HD H). split; [exact P|]. unfold idx_to_sector. rewrite P. reflexivity. Qed.
Print Assumptions C25_out_of_range.

(** ** C26 *)
Theorem C26_take_slice_sectors : forall S, symm_ok S -> forall E, es_ok S E -> forall mask E', take_slice S E mask = Some E' ->
  es_ok S E' /\ es_dual E' = es_dual E /\ sectors_of_basis S E' = take_mask (sectors_of_basis S E) mask.
Proof.
  intros S SO E OK mask E' HT. split; [apply (ts_ok SO OK HT)|]. split; [apply (ts_data SO OK HT) | apply (ts_sectors SO OK HT)].
Qed.
Print Assumptions C26_take_slice_sectors.
(** the internal projection is a plain mask: the k-th internal state of the result is the k-th kept internal state,
    i.e. both are the same public state (position in the list of kept public indices) *)
Theorem C26_internal_projection_is_mask : forall S, symm_ok S -> forall E, es_ok S E -> forall mask E', take_slice S E mask = Some E' ->
  let internal_mask := take false mask (basis_perm S E) in
  let kept_public := filter (fun i => nth i mask false) (seq 0 (length mask)) in
  length (basis_perm S E') = length (take_mask (basis_perm S E) internal_mask) /\
  forall k, k < length (basis_perm S E') ->
    nth (nth k (basis_perm S E') 0) kept_public 0 = nth k (take_mask (basis_perm S E) internal_mask) 0.
Proof. intros S SO E OK mask E' HT. apply (ts_internal SO OK HT). Qed.
Print Assumptions C26_internal_projection_is_mask.
(** abelian symmetries (one dimensional sectors): the labelled basis states are selected, every mask is accepted *)
Theorem C26_take_slice_states_partial : forall S, symm_ok S -> forall E, es_ok S E -> (forall s, In s (es_decomp S E) -> sym_dim S s = 1) ->
  forall mask E', take_slice S E mask = Some E' -> public_states S E' = take_mask (public_states S E) mask.
Proof. intros S SO E OK D1 mask E' HT. apply (ts_public SO OK HT D1). Qed.
Print Assumptions C26_take_slice_states_partial.
Lemma count_kept_1 : forall n mask, exists k, count_kept n 1 mask = Some k.
Proof.
  induction n as [|n IH]; intros mask; cbn [count_kept]; [eexists; reflexivity|]. destruct (IH (skipn 1 mask)) as (k & ->).
  destruct mask as [|b mask]; cbn; [|rewrite Bool.eqb_reflx]; cbn; eexists; reflexivity.
Qed.
Theorem C26_accepts_every_mask : forall S E, s_drop S = true -> (forall s, In s (es_decomp S E) -> sym_dim S s = 1) ->
  forall mask, length mask = es_dim S E -> exists E', take_slice S E mask = Some E'.
Proof.
  intros S E HD D1 mask L. unfold take_slice. rewrite HD, L, Nat.eqb_refl. cbn [negb]. cbv zeta.
  assert (X : forall secs defs mults m, (forall s, In s secs -> sym_dim S s = 1) -> exists l, slice_sectors S secs defs mults m = Some l).
  { induction secs as [|s secs IH]; intros defs mults m H1; [eexists; reflexivity|]. destruct defs as [|t defs]; [eexists; reflexivity|]. destruct mults as [|k mults]; [eexists; reflexivity|].
    cbn [slice_sectors]. rewrite (H1 s (or_introl eq_refl)). destruct (count_kept_1 k (firstn (k * 1) m)) as (c & ->).
    destruct (IH defs mults (skipn (k * 1) m)) as (r & ->); [intros; apply H1; right; assumption|]. eexists; reflexivity. }
  destruct (X (es_decomp S E) (es_def E) (es_mults E) (take false mask (basis_perm S E)) D1) as (l & ->). eexists; reflexivity.
Qed.
Print Assumptions C26_accepts_every_mask.

(** ** C27 *)
Theorem C27_direct_sum : forall S, symm_ok S -> s_drop S = true -> forall E others, es_ok S E -> (forall o, In o others -> es_ok S o) ->
  (forall o, In o others -> es_dual o = es_dual E) ->
  let D := direct_sum S E others in
  es_ok S D /\ es_dual D = es_dual E /\
  sectors_of_basis S D = sectors_of_basis S E ++ flat_map (sectors_of_basis S) others /\
  public_states S D = public_states S E ++ flat_map (public_states S) others.
Proof.
  intros S SO HD E others OKE OKO DU D. assert (OKD : es_ok S D) by (apply direct_sum_ok; assumption).
  assert (P : public_states S D = public_states S E ++ flat_map (public_states S) others) by (apply direct_sum_public; assumption).
  split; [exact OKD|]. split; [apply direct_sum_dual; assumption|]. split; [|exact P].
  rewrite (sectors_of_basis_public OKD), P, map_app, flat_map_map_out. rewrite (sectors_of_basis_public OKE). f_equal.
  apply flat_map_ext_in. intros o Ho. symmetry. apply sectors_of_basis_public, OKO, Ho.
Qed.
Print Assumptions C27_direct_sum.
(** multiplicities add up; also for symmetries that can not be dropped *)
Theorem C27_multiplicities_add : forall S, symm_ok S -> forall E others, es_ok S E -> (forall o, In o others -> es_ok S o) ->
  (forall o, In o others -> es_dual o = es_dual E) ->
  es_ok S (direct_sum S E others) /\
  forall s, es_mult S (direct_sum S E others) s = es_mult S E s + nsum (map (fun o => es_mult S o s) others).
Proof. intros S SO E others OKE OKO DU. split; [apply direct_sum_ok; assumption | intros s; apply direct_sum_mult; assumption]. Qed.
Print Assumptions C27_multiplicities_add.

(** ** C28 *)
Theorem C28_opposite_duality : forall S, symm_ok S -> forall E, es_ok S E ->
  let F := with_opposite_duality S E in
  es_ok S F /\ es_dual F = negb (es_dual E) /\ (forall s, es_mult S F s = es_mult S E s) /\
  (s_drop S = true -> public_states S F = public_states S E /\ sectors_of_basis S F = sectors_of_basis S E /\ es_dim S F = es_dim S E).
Proof.
  intros S SO E OK F. assert (OKF : es_ok S F) by (apply opp_ok; assumption). split; [exact OKF|]. split; [apply opp_dual|]. split; [intros s; apply opp_mult; assumption|].
  intros HD. assert (P : public_states S F = public_states S E) by (apply opp_public; assumption). split; [exact P|].
  rewrite (sectors_of_basis_public OKF), (sectors_of_basis_public OK), P. split; [reflexivity|]. rewrite <- (ok_public_len OKF), <- (ok_public_len OK), P. reflexivity.
Qed.
Print Assumptions C28_opposite_duality.
Theorem C28_with_is_dual : forall S, symm_ok S -> forall E, es_ok S E -> forall d,
  let F := with_is_dual S E d in
  es_ok S F /\ es_dual F = d /\ (forall s, es_mult S F s = es_mult S E s) /\ (s_drop S = true -> public_states S F = public_states S E).
Proof.
  intros S SO E OK d F. unfold F, with_is_dual. destruct (Bool.eqb d (es_dual E)) eqn:EB.
  - apply Bool.eqb_prop in EB. split; [exact OK|]. split; [congruence|]. split; reflexivity.
  - destruct (C28_opposite_duality S SO E OK) as (A & B & C & D). split; [exact A|]. split; [rewrite B; destruct d, (es_dual E); cbn in *; congruence|].
    split; [exact C|]. intros HD. apply (D HD).
Qed.
Print Assumptions C28_with_is_dual.
(** the dual of the dual is the original space; the dual has the dual sectors at the same public positions *)
Theorem C28_dual_involution : forall S, symm_ok S -> forall E, es_ok S E ->
  dual_es (dual_es E) = E /\ es_eqb S (dual_es (dual_es E)) E = true /\
  sectors_of_basis S (dual_es E) = dual_sectors S (sectors_of_basis S E) /\ es_dim S (dual_es E) = es_dim S E.
Proof.
  intros S SO E OK. assert (DD : dual_es (dual_es E) = E) by (destruct E; unfold dual_es; cbn; rewrite Bool.negb_involutive; reflexivity).
  split; [exact DD|]. split.
  - rewrite DD. unfold es_eqb. rewrite Bool.eqb_reflx, Nat.eqb_refl. cbn [andb]. rewrite (proj2 (nats_eqb_eq _ _) eq_refl), (proj2 (rows_eqb_eq _ _) eq_refl).
    destruct (es_perm E); [apply nats_eqb_eq|]; reflexivity.
  - assert (EDD : es_decomp S (dual_es E) = dual_sectors S (es_decomp S E)).
    { unfold es_decomp, es_space, dual_es. cbn [es_dual es_def sp_secs]. destruct (es_dual E); cbn [negb]; [|reflexivity].
      unfold dual_sectors. rewrite map_map. symmetry. rewrite <- map_id. apply map_ext_in. intros s Hs. apply (so_dual_invol SO), (ok_valid OK), Hs. }
    assert (ST : states S (es_decomp S (dual_es E)) (es_mults E) = map (relabel S true) (states S (es_decomp S E) (es_mults E))).
    { rewrite EDD. apply (@states_relabel S true (es_decomp S E) (es_mults E) SO). intros s Hs. apply (ok_decomp_valid SO OK Hs). }
    assert (DIM : es_dim S (dual_es E) = es_dim S E).
    { rewrite !es_dim_states by apply (ok_len OK). change (es_mults (dual_es E)) with (es_mults E). rewrite ST, map_length. reflexivity. }
    assert (OKD : es_ok S (dual_es E)).
    { constructor; cbn [dual_es es_def es_mults es_perm]; [apply (ok_valid OK) | apply (ok_sorted OK) | apply (ok_len OK) | apply (ok_pos OK)|].
      intros p Ep. fold (dual_es E). rewrite DIM. apply (ok_perm OK Ep). }
    split; [|exact DIM]. rewrite (sectors_of_basis_public OKD), (sectors_of_basis_public OK).
    assert (BP : basis_perm S (dual_es E) = basis_perm S E) by (unfold basis_perm; rewrite DIM; reflexivity).
    pose proof (arranged_map fst (ok_public OKD)) as A1. pose proof (arranged_map (sym_dual S) (arranged_map fst (ok_public OK))) as A2.
    rewrite BP in A1. change (es_mults (dual_es E)) with (es_mults E) in A1. rewrite ST, map_map in A1. rewrite map_map in A2. cbn [relabel fst] in A1, A2.
    unfold dual_sectors. apply (arranged_unique A1). exact A2.
Qed.
Print Assumptions C28_dual_involution.

(** ** C29 *)
Theorem C29_elementary_spaces_qualify : forall S, symm_ok S -> forall E, es_ok S E -> space_ok S (es_space S E).
Proof. intros S SO E OK. apply es_space_ok; assumption. Qed.
Print Assumptions C29_elementary_spaces_qualify.
Theorem C29_isomorphic : forall S, symm_ok S -> forall V W, space_ok S V -> space_ok S W ->
  is_isomorphic_to S V W = true <-> forall s, sp_mult V s = sp_mult W s.
Proof. intros. apply iso_spec; assumption. Qed.
Print Assumptions C29_isomorphic.
Theorem C29_subspace : forall S V W, space_ok S V -> space_ok S W ->
  is_subspace_of V W = true <-> forall s, sp_mult V s <= sp_mult W s.
Proof. intros S V W OV OW. apply (subspace_spec OV OW). Qed.
Print Assumptions C29_subspace.
Theorem C29_sector_multiplicity : forall S V, space_ok S V -> forall s, sector_multiplicity V s = sp_mult V s.
Proof. intros S V OV s. apply sector_multiplicity_spec; [apply (sk_nodup OV) | apply (sk_len OV)]. Qed.
Print Assumptions C29_sector_multiplicity.
Theorem C29_largest_common_subspace : forall S, symm_ok S -> forall spaces d, (forall V, In V spaces -> space_ok S V) ->
  match from_largest_common_subspace S spaces d with
  | None => spaces = []
  | Some E => es_ok S E /\ es_dual E = d /\
      (* multiplicity = minimum over the given spaces *)
      (forall s V, In V spaces -> es_mult S E s <= sp_mult V s) /\
      (forall s, exists V, In V spaces /\ es_mult S E s = sp_mult V s) /\
      (forall V, In V spaces -> is_subspace_of (es_space S E) V = true)
  end.
Proof.
  intros S SO [|V rest] d H; [reflexivity|]. cbn [from_largest_common_subspace].
  destruct (largest_common_spec SO (rest := rest) (V := V) d (H V (or_introl eq_refl)) (fun X HX => H X (or_intror HX))) as (A & B & M).
  assert (LE : forall s X, In X (V :: rest) -> es_mult S (largest_common_from S V rest d) s <= sp_mult X s) by (intros s X HX; rewrite M; apply min_mult_le; exact HX).
  split; [exact A|]. split; [exact B|]. split; [exact LE|]. split; [intros s; rewrite M; apply min_mult_le|].
  intros X HX. apply (subspace_spec (es_space_ok SO A) (H X HX)). intros s. rewrite es_sp_mult. apply LE. exact HX.
Qed.
Print Assumptions C29_largest_common_subspace.

(** ** C32.  [restrict fs which a]: the concatenation of the parts of [a] for the factors that are not dropped. *)
Theorem C32_drop_factors_partial : forall (fs : list (factor C)), fs <> [] -> Forall (honest Cops) fs ->
  Forall (fun f => dim_law (fac_sym f)) fs -> s_drop (prod_symm Cops fs) = true ->
  forall E, es_ok (prod_symm Cops fs) E -> forall w S' E',
  drop_symmetry Cops fs E (Some w) = Some (S', E') -> length w <> length fs ->
  forall valid, valid_inds w (length fs) = Some valid ->
  (* the dropped factors are abelian *)
  (forall i, In i valid -> fac_style (nth i fs (nofac Cops)) = style_single) ->
  S' = prod_symm Cops (rem_facs Cops fs valid) /\ es_ok S' E' /\ es_dual E' = es_dual E /\
  es_dim S' E' = es_dim (prod_symm Cops fs) E /\
  sectors_of_basis S' E' = map (restrict fs valid) (sectors_of_basis (prod_symm Cops fs) E) /\
  public_states S' E' = map (fun p => (restrict fs valid (fst p), snd p)) (public_states (prod_symm Cops fs) E).
Proof.
  intros fs NE HH HDl HDr E OK w S' E' HE LW valid HV HAb. destruct (valid_inds_spec HV) as (LV & FV & _).
  unfold drop_symmetry, parse_inputs_drop_symmetry in HE. rewrite HV in HE. destruct (Nat.eqb_spec (length valid) (length fs)) as [E0|_]; [congruence|].
  fold (rem_inds fs valid) in HE. fold (rem_facs Cops fs valid) in HE. destruct (product_ok (rem_facs Cops fs valid)) eqn:PO; [|discriminate].
  injection HE as <- <-.
  assert (NR : rem_facs Cops fs valid <> []) by (intros Q; rewrite Q in PO; discriminate).
  assert (DR : s_drop (prod_symm Cops (rem_facs Cops fs valid)) = true).
  { cbn [prod_symm s_drop] in *. apply Nat.leb_le in HDr. apply Nat.leb_le.
    assert (BL : forall gs x, max_braiding_style (K := C) gs <= x <-> Forall (fun g => fac_braiding g <= x) gs \/ False).
    { intros gs x. destruct gs as [|g gs]; cbn [max_braiding_style]; [split; [left; constructor | lia]|].
      assert (G : forall l a, fold_left (fun s h => if s <? fac_braiding h then fac_braiding h else s) l a <= x <-> a <= x /\ Forall (fun h : factor C => fac_braiding h <= x) l).
      { induction l as [|h l IH]; intros a; cbn [fold_left]; [split; [split; [assumption | constructor] | tauto]|]. rewrite IH. split.
        - intros [A B]. destruct (Nat.ltb_spec a (fac_braiding h)); (split; [lia | constructor; [lia | exact B]]).
        - intros [A B]. inversion B; subst. split; [destruct (a <? fac_braiding h); assumption | assumption]. }
      rewrite G. split; [intros [A B]; left; constructor; assumption | intros [Q|[]]; inversion Q; split; assumption]. }
    apply BL. left. apply BL in HDr as [HDr|[]]. apply Forall_forall. intros f Hf. apply in_map_iff in Hf as (i & <- & Hi). rewrite Forall_forall in HDr.
    apply HDr, nth_In. apply filter_In in Hi as [Hi _]. apply in_seq in Hi. lia. }
  destruct (drop_public NE HH HDl FV HAb NR OK DR) as (D1 & D2).
  assert (OK' := drop_ok NE HH HDl FV HAb NR OK DR).
  split; [reflexivity|]. split; [exact OK'|]. split; [apply (drop_dual NE HH FV OK)|]. split; [exact D1|]. split; [|exact D2].
  rewrite (sectors_of_basis_public OK'), D2, (sectors_of_basis_public OK), !map_map. reflexivity.
Qed.
Print Assumptions C32_drop_factors_partial.
Theorem C32_drop_all : forall (fs : list (factor C)) E, s_drop (prod_symm Cops fs) = true -> es_ok (prod_symm Cops fs) E ->
  exists E', drop_symmetry Cops fs E None = Some (no_symm, E') /\ es_ok no_symm E' /\
  es_dim no_symm E' = es_dim (prod_symm Cops fs) E /\ sectors_of_basis no_symm E' = repeat [0%Z] (es_dim (prod_symm Cops fs) E) /\ es_dual E' = es_dual E.
Proof. intros fs E HD OK. eexists. split; [reflexivity|]. apply (drop_all_ok OK). Qed.
Print Assumptions C32_drop_all.
(** the inverse direction: combining descriptions by independent symmetries concatenates the sectors state by state *)
Theorem C32_from_independent_symmetries : forall dim (descs : list (list (factor C) * espace)) S E, descs <> [] ->
  (forall d, In d descs -> fst d <> [] /\ Forall (honest Cops) (fst d) /\ Forall (fun f => dim_law (fac_sym f)) (fst d) /\
     es_ok (prod_symm Cops (fst d)) (snd d) /\ es_dim (prod_symm Cops (fst d)) (snd d) = dim) ->
  from_independent_symmetries Cops dim descs = Some (S, E) ->
  S = prod_symm Cops (flat_map fst descs) /\ es_ok S E /\ length (sectors_of_basis S E) = dim /\
  (forall i, i < dim -> nth i (sectors_of_basis S E) [] = flat_map (fun d => nth i (sectors_of_basis (prod_symm Cops (fst d)) (snd d)) []) descs).
Proof. exact (@independent_spec C Cops). Qed.
Print Assumptions C32_from_independent_symmetries.

(** * Concrete instances *)
Definition su2 : symm := Symm SU2 true false.
Example su2_ok : symm_ok su2.
Proof.
  constructor; cbn [su2 s_sym s_abelian sym_valid sym_dual sym_len sym_dim SU2]; auto.
  - intros a H. apply andb_true_iff in H as [H _]. apply Nat.eqb_eq in H. exact H.
  - intros a H. apply andb_true_iff in H as [_ H]. apply Z.leb_le in H. lia.
  - discriminate.
Qed.
Definition ex_sectors : list sector := [[1%Z]; [0%Z]; [1%Z]].
Definition ex_space : espace := from_defining_sectors su2 ex_sectors [1; 2; 2] false (Some [3; 1; 0; 2; 7; 6; 5; 4]) false.
Example C24_ex : ex_space = ES [[0%Z]; [1%Z]] [2; 3] false (Some [0; 2; 3; 7; 6; 1; 5; 4]) /\
  sectors_of_basis su2 ex_space = [[0%Z]; [1%Z]; [0%Z]; [1%Z]; [1%Z]; [1%Z]; [1%Z]; [1%Z]] /\ es_ok su2 ex_space.
Proof.
  split; [reflexivity|]. split; [reflexivity|]. apply (C24_result_sane su2 su2_ok).
  - intros s [ <- |[ <- |[ <- |[]]]]; reflexivity.
  - reflexivity.
  - intros m [ <- |[ <- |[ <- |[]]]]; lia.
  - discriminate.
  - intros _. vm_compute. apply NoDup_Permutation; [repeat (constructor; [intros X; repeat (destruct X as [X|X]; [discriminate X|]); exact X|]); constructor .. | intros x; cbn [In]; tauto].
  - discriminate.
Qed.
Example C23_ex : exists E, from_basis su2 [[1%Z]; [0%Z]; [1%Z]; [2%Z]; [2%Z]; [2%Z]] = Some E /\ es_mults E = [1; 1; 1] /\
  from_basis su2 [[1%Z]; [0%Z]; [1%Z]; [2%Z]; [2%Z]] = None.
Proof. eexists. split; [reflexivity|]. split; reflexivity. Qed.
Example C25_ex : parse_index su2 ex_space (-3)%Z = Some (1, 4) /\ parse_index su2 ex_space 8%Z = None.
Proof. split; reflexivity. Qed.
Example C27_ex : sectors_of_basis su2 (direct_sum su2 ex_space [ex_space]) = sectors_of_basis su2 ex_space ++ sectors_of_basis su2 ex_space.
Proof. reflexivity. Qed.
Definition u1 : symm := Symm U1 true true.
Definition ex_u1 : espace := ES [[(-1)%Z]; [2%Z]] [2; 1] false (Some [2; 0; 1]).
Example C28_ex : with_opposite_duality u1 ex_u1 = ES [[(-2)%Z]; [1%Z]] [1; 2] true (Some [1; 2; 0]) /\
  sectors_of_basis u1 (with_opposite_duality u1 ex_u1) = sectors_of_basis u1 ex_u1 /\ sectors_of_basis u1 ex_u1 = [[(-1)%Z]; [2%Z]; [(-1)%Z]].
Proof. repeat split; reflexivity. Qed.
Example C26_ex : take_slice u1 ex_u1 [true; false; true] = Some (ES [[(-1)%Z]] [2] false (Some [1; 0])).
Proof. reflexivity. Qed.
Example C29_ex : is_isomorphic_to u1 (es_space u1 ex_u1) (es_space u1 (with_opposite_duality u1 ex_u1)) = true /\
  is_subspace_of (es_space u1 (ES [[2%Z]] [1] false None)) (es_space u1 ex_u1) = true /\
  is_subspace_of (es_space u1 (ES [[2%Z]] [2] false None)) (es_space u1 ex_u1) = false /\
  option_map es_mults (from_largest_common_subspace u1 [es_space u1 ex_u1; es_space u1 (ES [[(-3)%Z]; [(-2)%Z]; [2%Z]] [1; 1; 5] true None);
     es_space u1 (ES [[(-3)%Z]; [(-2)%Z]] [1; 4] true None)] false) = Some [1].
Proof. repeat split; reflexivity. Qed.

(** * Refutations *)
(** C26 for non-abelian symmetries: take_slice checks contiguous groups of sector_dim states, but the states of one
    multiplet are not contiguous in the internal basis (spaces.cpp:1272-1274, fusion_tree_backend.cpp:1925-1932).
    Two spins 1/2: the mask of the first spin's two states is rejected, the mask of the two spin-up states is accepted
    and gives a space with an up and a down state. *)
Theorem C26_take_slice_nonabelian_refuted : exists E, es_ok su2 E /\
  public_states su2 E = [([1%Z], 0); ([1%Z], 0); ([1%Z], 1); ([1%Z], 1)] /\
  take_slice su2 E [true; false; true; false] = None /\
  exists E', take_slice su2 E [true; true; false; false] = Some E' /\
    public_states su2 E' = [([1%Z], 0); ([1%Z], 1)] /\
    take_mask (public_states su2 E) [true; true; false; false] = [([1%Z], 0); ([1%Z], 0)].
Proof.
  exists (ES [[1%Z]] [2] false None). split.
  - constructor; cbn [es_def es_mults es_perm].
    + intros s [ <- |[]]. reflexivity.
    + repeat constructor.
    + reflexivity.
    + intros m [ <- |[]]. lia.
    + discriminate.
  - split; [reflexivity|]. split; [reflexivity|]. eexists. split; [reflexivity|]. split; reflexivity.
Qed.
Print Assumptions C26_take_slice_nonabelian_refuted.
(** C32: dropping a non-abelian factor (but not all factors) loses dimension *)
Theorem C32_drop_nonabelian_factor_refuted : exists E S' E',
  es_ok (prod_symm Cops [ProductProps.facSU2; ProductProps.facU1]) E /\
  drop_symmetry Cops [ProductProps.facSU2; ProductProps.facU1] E (Some [0%Z]) = Some (S', E') /\
  es_dim (prod_symm Cops [ProductProps.facSU2; ProductProps.facU1]) E = 2 /\ es_dim S' E' = 1.
Proof.
  exists (ES [[1%Z; 3%Z]] [1] false None). eexists. eexists. split.
  - constructor; cbn [es_def es_mults es_perm].
    + intros s [ <- |[]]. reflexivity.
    + repeat constructor.
    + reflexivity.
    + intros m [ <- |[]]. lia.
    + discriminate.
  - split; [reflexivity|]. split; reflexivity.
Qed.
Print Assumptions C32_drop_nonabelian_factor_refuted.
(** C32: a repeated index counts twice: which=[0, 0] on a product of two factors drops both *)
Theorem C32_duplicate_index_refuted :
  exists E', drop_symmetry Cops [ProductProps.facU1; ProductProps.facU1] (ES [[1%Z; 3%Z]] [1] false None) (Some [0%Z; 0%Z]) = Some (no_symm, E').
Proof. eexists. reflexivity. Qed.
Print Assumptions C32_duplicate_index_refuted.
(** Space.is_trivial reads element 0 of an empty vector for the zero dimensional space *)
Theorem C29_is_trivial_empty_refuted : sp_is_trivial U1 (es_space U1 (from_null_space false)) = None.
Proof. reflexivity. Qed.
Print Assumptions C29_is_trivial_empty_refuted.
Example C32_ex : exists S' E', drop_symmetry Cops [ProductProps.facSU2; ProductProps.facU1] (ES [[1%Z; 3%Z]; [1%Z; 4%Z]] [1; 2] false None) (Some [(-1)%Z]) = Some (S', E') /\
  es_def E' = [[1%Z]] /\ es_mults E' = [3] /\ es_dim S' E' = 6.
Proof. eexists. eexists. split; [reflexivity|]. repeat split; reflexivity. Qed.
