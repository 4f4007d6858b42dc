From Verif Require Import Util StableSort RowModel RowProofs GridModel GridProofs SymModel CatSpec AbelianModel AbelianProofs ProductModel ProductProofs
  SpaceModel SpaceSpec SpaceProofs SpaceProofs2 SpaceProofs3 SpaceProofs4 DropModel.
Set Implicit Arguments. Unset Strict Implicit.
Open Scope nat_scope.

Lemma chunks_of_concat A (cs : list (list A)) : forall v, map (@length A) cs = v -> chunks v (concat cs) = cs.
Proof.
  induction cs as [|c cs IH]; intros v <-; [reflexivity|]. cbn [map chunks concat]. rewrite firstn_app, firstn_all, Nat.sub_diag, app_nil_r.
  rewrite skipn_app, skipn_all, Nat.sub_diag. cbn [app skipn firstn]. rewrite ?app_nil_r. rewrite IH by reflexivity. reflexivity.
Qed.

Section P.
  Variable K : Type.
  Variable o : ops K.
  Notation facs := (list (factor K)).
  Notation nf := (nofac o).
  Notation fsym fs i := (fac_sym (nth i fs nf)).
  Notation fsec := (@factor_sector K).
  Definition lens (fs : facs) : list nat := map (fun f => sym_len (fac_sym f)) fs.
  Lemma slice_nsum (fs : facs) i : sector_slice fs i = nsum (firstn i (lens fs)).
  Proof.
    unfold sector_slice, lens. rewrite firstn_map. rewrite <- (Nat.add_0_l (nsum _)). generalize 0. generalize (firstn i fs).
    induction l as [|f l IH]; intros x; cbn; [lia|]. rewrite IH. unfold nsum. lia.
  Qed.
  Lemma lens_nth (fs : facs) i : i < length fs -> nth i (lens fs) 0 = sym_len (fsym fs i).
  Proof. intros H. unfold lens. rewrite nth_map_lt with (d := nf) by exact H. reflexivity. Qed.
  Lemma slice_S (fs : facs) i : i < length fs -> sector_slice fs (i + 1) = sector_slice fs i + sym_len (fsym fs i).
  Proof. intros H. rewrite !slice_nsum, Nat.add_1_r, nsum_firstn_S by (unfold lens; rewrite map_length; exact H). rewrite lens_nth by exact H. reflexivity. Qed.
  Lemma fsec_chunks (fs : facs) a i : i < length fs -> fsec fs a i = nth i (chunks (lens fs) a) [].
  Proof.
    intros H. rewrite chunks_nth by (unfold lens; rewrite map_length; exact H). unfold factor_sector. rewrite slice_S by exact H. rewrite slice_nsum, lens_nth by exact H.
    f_equal. lia.
  Qed.
  Lemma fsec_concat (fs : facs) cs i : i < length fs -> map (@length Z) cs = lens fs -> fsec fs (concat cs) i = nth i cs [].
  Proof. intros H E. rewrite fsec_chunks by exact H. rewrite chunks_of_concat by exact E. reflexivity. Qed.
  Lemma slice_le (fs : facs) i j : i <= j -> sector_slice fs i <= sector_slice fs j.
  Proof.
    intros H. rewrite !slice_nsum. replace (firstn i (lens fs)) with (firstn i (firstn j (lens fs))) by (rewrite firstn_firstn, Nat.min_l by exact H; reflexivity).
    rewrite <- (firstn_skipn i (firstn j (lens fs))) at 2. rewrite nsum_app. lia.
  Qed.

  (** restriction, factor by factor *)
  Definition rem_inds (fs : facs) (which : list nat) : list nat := filter (fun i => negb (memb i which)) (seq 0 (length fs)).
  Definition rem_facs (fs : facs) (which : list nat) : facs := map (fun i => nth i fs nf) (rem_inds fs which).
  Definition restrict (fs : facs) (which : list nat) (a : sector) : sector := flat_map (fsec fs a) (rem_inds fs which).

  Lemma seq_pieces (fs : facs) : seq 0 (total_len fs) = flat_map (fun i => seq (sector_slice fs i) (sym_len (fsym fs i))) (seq 0 (length fs)).
  Proof.
    unfold total_len. assert (G : forall n, n <= length fs -> seq 0 (sector_slice fs n) = flat_map (fun i => seq (sector_slice fs i) (sym_len (fsym fs i))) (seq 0 n)).
    { induction n as [|n IH]; intros H; [reflexivity|]. rewrite <- Nat.add_1_r, slice_S by lia. rewrite seq_app, IH by lia. rewrite Nat.add_1_r, seq_S, flat_map_app. cbn [flat_map Nat.add]. rewrite app_nil_r. reflexivity. }
    apply G. lia.
  Qed.
  Lemma filter_flat_map A B (p : B -> bool) (q : A -> bool) (f : A -> list B) l :
    (forall x y, In x l -> In y (f x) -> p y = q x) -> filter p (flat_map f l) = flat_map f (filter q l).
  Proof.
    intros H. induction l as [|x l IH]; [reflexivity|]. cbn [flat_map filter]. rewrite filter_app, IH by (intros; apply H; [right|]; assumption).
    assert (Q : filter p (f x) = if q x then f x else []).
    { destruct (q x) eqn:E; [apply filter_all | apply filter_none]; intros y Hy; rewrite <- E; apply H; [left; reflexivity | exact Hy | left; reflexivity | exact Hy]. }
    rewrite Q. destruct (q x); reflexivity.
  Qed.
  Lemma memb_In i l : memb i l = true <-> In i l.
  Proof. unfold memb. rewrite existsb_exists. split; [intros (x & H & E); apply Nat.eqb_eq in E; congruence | intros H; exists i; split; [exact H | apply Nat.eqb_refl]]. Qed.
  Lemma kept_eq (fs : facs) which : Forall (fun i => i < length fs) which ->
    kept_components fs which = flat_map (fun i => seq (sector_slice fs i) (sym_len (fsym fs i))) (rem_inds fs which).
  Proof.
    intros HW. unfold kept_components. rewrite seq_pieces. unfold rem_inds. apply filter_flat_map. intros i k Hi Hk. apply in_seq in Hi. apply in_seq in Hk. f_equal.
    rewrite Forall_forall in HW. apply Bool.eq_iff_eq_true. rewrite memb_In, existsb_exists. split.
    - intros (j & Hj & E). apply andb_true_iff in E as [E1 E2]. apply Nat.leb_le in E1. apply Nat.ltb_lt in E2.
      destruct (Nat.lt_trichotomy i j) as [C|[ -> |C]]; [|exact Hj|].
      + pose proof (@slice_le fs (i + 1) j ltac:(lia)) as L. rewrite slice_S in L by lia. lia.
      + pose proof (@slice_le fs (j + 1) i ltac:(lia)) as L. lia.
    - intros Hin. exists i. split; [exact Hin|]. apply andb_true_iff. rewrite slice_S by lia. split; [apply Nat.leb_le; lia | apply Nat.ltb_lt; lia].
  Qed.
  Lemma map_nth_seq (a : sector) s n : s + n <= length a -> map (fun k => nth k a 0%Z) (seq s n) = firstn n (skipn s a).
  Proof.
    intros H. apply list_eq_nth with (d := 0%Z); [rewrite map_length, seq_length, firstn_length, skipn_length; lia|]. intros i Hi. rewrite map_length, seq_length in Hi.
    rewrite nth_map_lt with (d := 0) by (rewrite seq_length; exact Hi). rewrite seq_nth by exact Hi. rewrite nth_firstn_lt by exact Hi. rewrite nth_skipn'. reflexivity.
  Qed.
  Lemma restrict_eq (fs : facs) which a : Forall (fun i => i < length fs) which -> length a = total_len fs ->
    map (fun k => nth k a 0%Z) (kept_components fs which) = restrict fs which a.
  Proof.
    intros HW L. rewrite kept_eq by exact HW. unfold restrict. rewrite flat_map_map_out. apply flat_map_ext_in. intros i Hi. apply filter_In in Hi as [Hi _]. apply in_seq in Hi.
    rewrite map_nth_seq.
    - unfold factor_sector. rewrite slice_S by lia. f_equal. lia.
    - rewrite L. unfold total_len. rewrite <- slice_S by lia. apply slice_le. lia.
  Qed.

  Section Restrict.
    Variables (fs : facs) (which : list nat).
    Hypothesis HH : Forall (honest o) fs.
    Hypothesis HDl : Forall (fun f => dim_law (fac_sym f)) fs.
    Let R := rem_inds fs which.
    Let fs' := rem_facs fs which.
    Lemma rem_In i : In i R -> i < length fs /\ ~ In i which.
    Proof. intros H. apply filter_In in H as [H1 H2]. apply in_seq in H1. split; [lia|]. apply negb_true_iff in H2. rewrite <- memb_In. congruence. Qed.
    Lemma rem_len : length fs' = length R.
    Proof. apply map_length. Qed.
    Lemma rem_nth j : j < length R -> nth j fs' nf = nth (nth j R 0) fs nf.
    Proof. intros H. unfold fs', rem_facs. fold R. rewrite nth_map_lt with (d := 0) by exact H. reflexivity. Qed.
    Lemma fac_honest i : i < length fs -> honest o (nth i fs nf).
    Proof. intros H. rewrite Forall_forall in HH. apply HH, nth_In, H. Qed.
    Lemma part_len a i : product_valid o fs a = true -> i < length fs -> length (fsec fs a i) = sym_len (fsym fs i).
    Proof. intros V H. apply (fr_len (ho_ring (fac_honest H))). apply valid_parts; assumption. Qed.
    Lemma restrict_concat a : restrict fs which a = concat (map (fsec fs a) R).
    Proof. unfold restrict. apply flat_map_concat_map. Qed.
    Lemma restrict_lens a : product_valid o fs a = true -> map (@length Z) (map (fsec fs a) R) = lens fs'.
    Proof.
      intros V. rewrite map_map. unfold lens, fs', rem_facs. rewrite map_map. fold R. apply map_ext_in. intros i Hi. apply part_len; [exact V | apply rem_In; exact Hi].
    Qed.
    Lemma restrict_part a j : product_valid o fs a = true -> j < length R -> fsec fs' (restrict fs which a) j = fsec fs a (nth j R 0).
    Proof.
      intros V H. rewrite restrict_concat, fsec_concat by (rewrite ?rem_len; assumption || apply restrict_lens; exact V). apply nth_map_lt. exact H.
    Qed.
    Lemma restrict_valid a : product_valid o fs a = true -> product_valid o fs' (restrict fs which a) = true.
    Proof.
      intros V. unfold product_valid. apply andb_true_iff. split.
      - apply Nat.eqb_eq. rewrite restrict_concat, length_concat, restrict_lens by exact V. unfold total_len. rewrite slice_nsum. rewrite firstn_all2; [reflexivity | unfold lens; rewrite map_length; lia].
      - apply forallb_forall. intros j Hj. apply in_seq in Hj. rewrite rem_len in Hj. rewrite restrict_part by (assumption || lia). rewrite rem_nth by lia.
        apply valid_parts; [exact V|]. apply rem_In, nth_In. lia.
    Qed.
    Lemma restrict_dual a : product_valid o fs a = true -> restrict fs which (product_dual o fs a) = product_dual o fs' (restrict fs which a).
    Proof.
      intros V. unfold product_dual at 2. rewrite rem_len. rewrite restrict_concat.
      assert (EP : forall i, i < length fs -> fsec fs (product_dual o fs a) i = sym_dual (fsym fs i) (fsec fs a i)).
      { intros i Hi. unfold product_dual. rewrite flat_map_concat_map, fsec_concat; [| exact Hi |].
        - rewrite nth_map_lt with (d := 0) by (rewrite seq_length; exact Hi). rewrite seq_nth by exact Hi. reflexivity.
        - rewrite map_map. unfold lens. apply list_eq_nth with (d := 0); [rewrite !map_length, seq_length; reflexivity|]. intros j Hj. rewrite map_length, seq_length in Hj.
          rewrite nth_map_lt with (d := 0) by (rewrite seq_length; exact Hj). rewrite seq_nth by exact Hj. rewrite nth_map_lt with (d := nf) by exact Hj. cbn [Nat.add].
          apply (fr_len (ho_ring (fac_honest Hj))), (fr_dual_valid (ho_ring (fac_honest Hj))), valid_parts; assumption. }
      rewrite (@flat_map_ext_in _ _ _ (fun j => fsec fs (product_dual o fs a) (nth j R 0))).
      - rewrite flat_map_concat_map. f_equal. apply list_eq_nth with (d := []); [rewrite !map_length, seq_length; reflexivity|]. intros j Hj. rewrite map_length in Hj.
        rewrite nth_map_lt with (d := 0) by exact Hj. rewrite nth_map_lt with (d := 0) by (rewrite seq_length; exact Hj). rewrite seq_nth by exact Hj. reflexivity.
      - intros j Hj. apply in_seq in Hj. rewrite restrict_part by (assumption || lia). rewrite rem_nth by lia. symmetry. apply EP. apply rem_In, nth_In. lia.
    Qed.
    Lemma product_dim_nprod gs a : Forall (honest o) gs -> product_valid o gs a = true -> product_dim o gs a = nprod (map (fun i => sym_dim (fsym gs i) (fsec gs a i)) (seq 0 (length gs))).
    Proof.
      intros HG V. unfold product_dim. destruct (Nat.eqb_spec (max_fusion_style gs) style_single) as [E|E].
      - assert (LE : max_fusion_style gs <= 0) by lia. apply max_style_le in LE. symmetry.
        assert (N1 : forall l, (forall x, In x l -> x = 1) -> nprod l = 1) by (induction l as [|x l IH]; intros Q; [reflexivity|]; change (nprod (x :: l)) with (x * nprod l); rewrite (Q x), IH by (cbn; auto; intros; apply Q; cbn; auto); reflexivity).
        apply N1. intros x Hx. apply in_map_iff in Hx as (i & <- & Hi). apply in_seq in Hi. rewrite Forall_forall in HG, LE.
        assert (Hin : In (nth i gs nf) gs) by (apply nth_In; lia). apply (ho_dim1 (HG _ Hin)); [specialize (LE _ Hin); lia | apply valid_parts; [exact V | lia]].
      - rewrite fold_nprod. lia.
    Qed.
    Lemma rem_honest : Forall (honest o) fs'.
    Proof. apply Forall_forall. intros f Hf. apply in_map_iff in Hf as (i & <- & Hi). apply fac_honest, rem_In, Hi. Qed.
    Lemma rem_dims : Forall (fun f => dim_law (fac_sym f)) fs'.
    Proof. apply Forall_forall. intros f Hf. apply in_map_iff in Hf as (i & <- & Hi). rewrite Forall_forall in HDl. apply HDl, nth_In, rem_In, Hi. Qed.
    Hypothesis HAb : forall i, In i which -> fac_style (nth i fs nf) = style_single.
    Lemma restrict_dim a : product_valid o fs a = true -> product_dim o fs' (restrict fs which a) = product_dim o fs a.
    Proof.
      intros V. rewrite !product_dim_nprod by (assumption || apply rem_honest || apply restrict_valid; exact V). rewrite rem_len.
      transitivity (nprod (map (fun i => sym_dim (fsym fs i) (fsec fs a i)) R)).
      - f_equal. apply list_eq_nth with (d := 0); [rewrite !map_length, seq_length; reflexivity|]. intros j Hj. rewrite map_length, seq_length in Hj.
        rewrite nth_map_lt with (d := 0) by (rewrite seq_length; exact Hj). rewrite nth_map_lt with (d := 0) by exact Hj. rewrite seq_nth by exact Hj. cbn [Nat.add].
        rewrite restrict_part by assumption. rewrite rem_nth by exact Hj. reflexivity.
      - unfold R, rem_inds. assert (HS : forall i, In i (seq 0 (length fs)) -> i < length fs) by (intros i Hi; apply in_seq in Hi; lia).
        revert HS. generalize (seq 0 (length fs)). induction l as [|i l IH]; intros HS; [reflexivity|]. cbn [filter]. destruct (memb i which) eqn:M; cbn [negb map].
        + rewrite IH by (intros; apply HS; right; assumption). change (nprod (?x :: ?t)) with (x * nprod t). assert (Hi : i < length fs) by (apply HS; left; reflexivity).
          rewrite (ho_dim1 (fac_honest Hi)); [unfold nprod; lia | apply HAb, memb_In, M | apply valid_parts; assumption].
        + change (nprod (?x :: ?t)) with (x * nprod t). rewrite IH by (intros; apply HS; right; assumption). reflexivity.
    Qed.
  End Restrict.

  Lemma prod_symm_ok fs : fs <> [] -> Forall (honest o) fs -> Forall (fun f => dim_law (fac_sym f)) fs -> symm_ok (prod_symm o fs).
  Proof.
    intros NE HH HD. assert (FR := product_ring NE HH). destruct (product_dims NE HH HD) as (D1 & D2 & D3 & D4). constructor.
    - apply (fr_len FR).
    - apply (fr_dual_valid FR).
    - apply (fr_dual_invol FR).
    - exact D1.
    - exact D3.
    - cbn [prod_symm s_abelian s_sym sym_dim product_sym]. intros E a _. unfold product_dim. rewrite E. reflexivity.
  Qed.
  Lemma no_symm_ok : symm_ok no_symm.
  Proof.
    constructor; cbn; auto. intros a H. apply andb_true_iff in H as [H _]. apply Nat.eqb_eq in H. exact H.
  Qed.
  Lemma valid_inds_spec w n valid : valid_inds w n = Some valid -> length valid = length w /\ Forall (fun i => i < n) valid /\
    (forall j, j < length w -> nth j valid 0 = Z.to_nat (if (nth j w 0%Z <? 0)%Z then (nth j w 0%Z + Z.of_nat n)%Z else nth j w 0%Z)).
  Proof.
    revert valid. induction w as [|i w IH]; intros valid H; cbn in H.
    - injection H as <-. split; [reflexivity|]. split; [constructor|]. cbn. lia.
    - destruct (to_valid_idx i n) as [j|] eqn:T; [|discriminate]. destruct (valid_inds w n) as [r|]; [|discriminate]. injection H as <-.
      destruct (IH r eq_refl) as (A & B & C). unfold to_valid_idx in T. destruct ((i <? - Z.of_nat n) || (Z.of_nat n <=? i))%Z eqn:O; [discriminate|]. injection T as <-.
      apply orb_false_iff in O as [O1 O2]. apply Z.ltb_ge in O1. apply Z.leb_gt in O2.
      split; [cbn; lia|]. split; [constructor; [destruct (Z.ltb_spec i 0); lia | exact B]|]. intros [|k] Hk; [reflexivity|]. cbn in Hk. cbn [nth]. apply C. lia.
  Qed.

  Section DropSome.
    Variables (fs : facs) (E : espace) (valid : list nat).
    Hypothesis NE : fs <> [].
    Hypothesis HH : Forall (honest o) fs.
    Hypothesis HDl : Forall (fun f => dim_law (fac_sym f)) fs.
    Hypothesis HV : Forall (fun i => i < length fs) valid.
    Hypothesis HAb : forall i, In i valid -> fac_style (nth i fs nf) = style_single.
    Hypothesis NR : rem_facs fs valid <> [].
    Hypothesis OK : es_ok (prod_symm o fs) E.
    Let S := prod_symm o fs.
    Let S' := prod_symm o (rem_facs fs valid).
    Let E' := change_symmetry S' E (restrict_sectors fs valid) false.
    Let r := restrict fs valid.
    Let SO : symm_ok S := prod_symm_ok NE HH HDl.
    Let SO' : symm_ok S' := prod_symm_ok NR (rem_honest valid HH) (rem_dims valid HDl).
    Lemma drop_secs : restrict_sectors fs valid (es_def E) = map r (es_def E).
    Proof. unfold restrict_sectors. apply map_ext_in. intros s Hs. apply restrict_eq; [exact HV|]. apply (fr_len (product_ring NE HH)), (ok_valid OK), Hs. Qed.
    Lemma drop_valid s : In s (map r (es_def E)) -> sym_valid S' s = true.
    Proof. intros H. apply in_map_iff in H as (x & <- & Hx). apply restrict_valid; [exact HH | apply (ok_valid OK), Hx]. Qed.
    Lemma drop_states secs mults : (forall s, In s secs -> sym_valid S s = true) ->
      states S' (map r secs) mults = map (fun p => (r (fst p), snd p)) (states S secs mults).
    Proof.
      intros V. unfold states. revert mults. induction secs as [|s secs IH]; intros [|m mults]; cbn [map combine flat_map]; try reflexivity.
      rewrite map_app, IH by (intros; apply V; right; assumption). f_equal. cbn [fst snd]. rewrite flat_map_map_out.
      assert (ED : sym_dim S' (r s) = sym_dim S s) by (apply restrict_dim; [exact HH | exact HAb | apply V; left; reflexivity]). rewrite ED.
      apply flat_map_ext_in. intros k _. rewrite map_repeat'. reflexivity.
    Qed.
    Lemma drop_decomp : (if es_dual E then dual_sectors S' (map r (es_def E)) else map r (es_def E)) = map r (es_decomp S E).
    Proof.
      unfold es_decomp, es_space. cbn [sp_secs]. destruct (es_dual E); [|reflexivity]. unfold dual_sectors. rewrite !map_map. apply map_ext_in. intros s Hs.
      symmetry. apply restrict_dual; [exact HH | apply (ok_valid OK), Hs].
    Qed.
    Lemma drop_eq : E' = from_defining_sectors S' (map r (es_def E)) (es_mults E) (es_dual E) (es_perm E) false.
    Proof. unfold E', change_symmetry. rewrite drop_secs. reflexivity. Qed.
    Lemma drop_len : length (es_mults E) = length (map r (es_def E)).
    Proof. rewrite map_length. apply (ok_len OK). Qed.
    Lemma drop_n : length (states S' (map r (es_def E)) (es_mults E)) = es_dim S E.
    Proof.
      rewrite drop_states by apply (ok_valid OK). rewrite map_length. unfold S at 2. rewrite <- (ok_states OK). unfold es_decomp, es_space. cbn [sp_secs].
      symmetry. apply (@states_dual_length S); [exact SO | apply (ok_valid OK)].
    Qed.
    Lemma drop_perm : is_perm (length (states S' (map r (es_def E)) (es_mults E))) (match es_perm E with None => seq 0 (length (states S' (map r (es_def E)) (es_mults E))) | Some p => p end).
    Proof. rewrite drop_n. apply (ok_bperm OK). Qed.
    Hypothesis HDr : s_drop S' = true.
    Lemma drop_public : es_dim S' E' = es_dim S E /\ public_states S' E' = map (fun p => (r (fst p), snd p)) (public_states S E).
    Proof.
      rewrite drop_eq. destruct (@fds_public S' SO' (map r (es_def E)) (es_mults E) (es_dual E) (es_perm E) false drop_valid drop_len HDr drop_perm) as (_ & DM & _ & AR).
      split; [rewrite DM; apply drop_n|]. apply (arranged_unique AR). rewrite drop_decomp. rewrite drop_n. rewrite drop_states by apply (ok_decomp_valid SO OK).
      apply arranged_map. apply (ok_public OK).
    Qed.
    Lemma drop_ok : es_ok S' E'.
    Proof.
      rewrite drop_eq. apply fds_ok; [exact SO' | exact drop_valid | exact drop_len | apply (ok_pos OK) | discriminate | intros; apply drop_perm |]. congruence.
    Qed.
    Lemma drop_dual : es_dual E' = es_dual E.
    Proof. rewrite drop_eq. apply fds_dual. Qed.
  End DropSome.

  (** dropping everything *)
  Section DropAll.
    Variables (S : symm) (E : espace).
    Hypothesis SO : symm_ok S.
    Hypothesis OK : es_ok S E.
    Hypothesis HDr : s_drop S = true.
    Let E' := from_trivial_sector no_symm (es_dim S E) (es_dual E) (es_perm E).
    Lemma drop_all_ok : es_ok no_symm E' /\ es_dim no_symm E' = es_dim S E /\ sectors_of_basis no_symm E' = repeat [0%Z] (es_dim S E) /\ es_dual E' = es_dual E.
    Proof.
      assert (DM : es_dim no_symm E' = es_dim S E).
      { unfold E', from_trivial_sector. destruct (Nat.eqb_spec (es_dim S E) 0) as [Z0|Z0].
        - rewrite Z0. unfold es_dim, sp_dim, es_space, from_null_space. cbn. destruct (es_dual E); reflexivity.
        - unfold es_dim at 1, sp_dim, es_space. cbn [es_def es_mults es_dual sp_secs sp_mults]. unfold num_states. destruct (es_dual E); cbn; lia. }
      assert (OK' : es_ok no_symm E').
      { unfold E', from_trivial_sector in *. destruct (Nat.eqb_spec (es_dim S E) 0) as [Z0|Z0].
        - constructor; cbn; try discriminate; try (intros ? []); [constructor | reflexivity].
        - constructor; cbn [es_def es_mults es_perm].
          + intros s [ <- |[]]. reflexivity.
          + constructor; [constructor | constructor].
          + reflexivity.
          + intros m [ <- |[]]. lia.
          + intros p Ep. split; [reflexivity|]. rewrite DM. apply (ok_perm OK Ep). }
      split; [exact OK'|]. split; [exact DM|]. split.
      - assert (L : length (sectors_of_basis no_symm E') = es_dim S E) by (rewrite (sectors_of_basis_public OK'), map_length, (ok_public_len OK'); exact DM).
        assert (A : forall s, In s (sectors_of_basis no_symm E') -> s = [0%Z]).
        { intros s Hs. rewrite (sectors_of_basis_public OK') in Hs. apply in_map_iff in Hs as ([x k] & <- & Hx). cbn.
          unfold public_states, take in Hx. apply in_map_iff in Hx as (i & Ei & Hi).
          assert (Hlt : i < length (states no_symm (es_decomp no_symm E') (es_mults E'))).
          { rewrite (ok_states OK'). assert (P := inverse_permutation_perm (ok_bperm OK')). apply (is_perm_In i P). exact Hi. }
          apply (nth_In _ ([], 0)) in Hlt. rewrite Ei in Hlt. unfold states in Hlt. apply in_flat_map in Hlt as ([s m] & H1 & H2). apply in_flat_map in H2 as (k' & _ & H2). apply repeat_spec in H2. cbn in H2. assert (x = s) by congruence. subst x.
          apply in_combine_l in H1. apply (ok_decomp_valid no_symm_ok OK') in H1. cbn in H1. apply andb_true_iff in H1 as [H1 H3]. destruct s as [|z [|? ?]]; try discriminate. cbn in H3. apply Z.eqb_eq in H3. cbn in H3. congruence. }
        rewrite <- L. clear L. revert A. induction (sectors_of_basis no_symm E') as [|s l IH]; intros A; [reflexivity|]. cbn. rewrite (A s (or_introl eq_refl)), <- IH by (intros; apply A; right; assumption). reflexivity.
      - unfold E', from_trivial_sector. destruct (es_dim S E =? 0); reflexivity.
    Qed.
  End DropAll.
End P.

Section Independent.
  Variable K : Type.
  Variable o : ops K.
  Notation facs := (list (factor K)).
  Lemma chunks_app A v w : forall (l m : list A), length l = nsum v -> chunks (v ++ w) (l ++ m) = chunks v l ++ chunks w m.
  Proof.
    induction v as [|n v IH]; intros l m L; cbn [chunks app].
    - destruct l; [reflexivity | discriminate].
    - change (nsum (n :: v)) with (n + nsum v) in L. rewrite firstn_app, skipn_app. replace (n - length l) with 0 by lia. cbn [firstn skipn]. rewrite app_nil_r. f_equal. apply IH. rewrite skipn_length. lia.
  Qed.
  Lemma total_nsum (fs : facs) : total_len fs = nsum (lens fs).
  Proof. unfold total_len. rewrite slice_nsum. rewrite firstn_all2; [reflexivity | unfold lens; rewrite map_length; lia]. Qed.
  Lemma product_valid_app (fs gs : facs) a b : product_valid o fs a = true -> product_valid o gs b = true -> product_valid o (fs ++ gs) (a ++ b) = true.
  Proof.
    intros Va Vb. assert (La := valid_len Va). assert (Lb := valid_len Vb). unfold product_valid. apply andb_true_iff. split.
    - apply Nat.eqb_eq. rewrite app_length, La, Lb, !total_nsum. unfold lens. rewrite map_app, nsum_app. reflexivity.
    - apply forallb_forall. intros i Hi. apply in_seq in Hi. rewrite app_length in Hi. rewrite (fsec_chunks o) by (rewrite app_length; lia).
      assert (EL : lens (fs ++ gs) = lens fs ++ lens gs) by apply map_app. rewrite EL, chunks_app by (rewrite <- total_nsum; exact La).
      assert (LC : length (chunks (lens fs) a) = length fs) by (rewrite chunks_length; apply map_length).
      destruct (Nat.lt_ge_cases i (length fs)) as [C|C].
      + rewrite !app_nth1 by lia. rewrite <- (fsec_chunks o) by exact C. apply valid_parts; assumption.
      + rewrite !app_nth2 by lia. rewrite LC. rewrite <- (fsec_chunks o) by lia. apply valid_parts; [assumption | lia].
  Qed.
  Lemma independent_valid (descs : list (facs * espace)) rows : length rows = length descs ->
    (forall j, j < length descs -> product_valid o (fst (nth j descs ([], ES [] [] false None))) (nth j rows []) = true) ->
    product_valid o (flat_map fst descs) (concat rows) = true.
  Proof.
    revert rows. induction descs as [|d descs IH]; intros [|r rows] L H; cbn in L; try discriminate; [reflexivity|]. cbn [flat_map concat].
    apply product_valid_app; [apply (H 0); cbn; lia|]. apply IH; [lia|]. intros j Hj. apply (H (S j)). cbn. lia.
  Qed.
  Lemma sectors_of_basis_valid (S : symm) E : symm_ok S -> es_ok S E -> forall s, In s (sectors_of_basis S E) -> sym_valid S s = true.
  Proof.
    intros SO OK s Hs. rewrite (sectors_of_basis_public OK) in Hs. apply in_map_iff in Hs as ([x k] & <- & Hx). cbn.
    unfold public_states, take in Hx. apply in_map_iff in Hx as (i & Ei & Hi).
    assert (Hlt : i < length (states S (es_decomp S E) (es_mults E))).
    { rewrite (ok_states OK). apply (is_perm_In i (inverse_permutation_perm (ok_bperm OK))). exact Hi. }
    apply (nth_In _ ([], 0)) in Hlt. rewrite Ei in Hlt. unfold states in Hlt. apply in_flat_map in Hlt as ([s m] & H1 & H2). apply in_flat_map in H2 as (k' & _ & H2).
    apply repeat_spec in H2. cbn in H2. assert (x = s) by congruence. subst x. apply in_combine_l in H1. apply (ok_decomp_valid SO OK H1).
  Qed.
  Lemma independent_spec dim (descs : list (facs * espace)) S E : descs <> [] ->
    (forall d, In d descs -> fst d <> [] /\ Forall (honest o) (fst d) /\ Forall (fun f => dim_law (fac_sym f)) (fst d) /\ es_ok (prod_symm o (fst d)) (snd d) /\ es_dim (prod_symm o (fst d)) (snd d) = dim) ->
    from_independent_symmetries o dim descs = Some (S, E) ->
    S = prod_symm o (flat_map fst descs) /\ es_ok S E /\ length (sectors_of_basis S E) = dim /\
    (forall i, i < dim -> nth i (sectors_of_basis S E) [] = flat_map (fun d => nth i (sectors_of_basis (prod_symm o (fst d)) (snd d)) []) descs).
  Proof.
    intros NE H HE. unfold from_independent_symmetries in HE. destruct descs as [|d0 rest] eqn:ED; [congruence|]. rewrite <- ED in *. cbv zeta in HE.
    assert (NEf : flat_map fst descs <> []).
    { rewrite ED. cbn. destruct (H d0) as (N & _); [rewrite ED; left; reflexivity|]. destruct (fst d0); [congruence | discriminate]. }
    clear ED. destruct (negb (product_ok (flat_map fst descs))); [discriminate|].
    set (l := map _ _) in HE. destruct (from_basis _ l) as [E0|] eqn:FB; [|discriminate]. injection HE as <- <-.
    assert (SO : symm_ok (prod_symm o (flat_map fst descs))).
    { apply prod_symm_ok; [exact NEf | |]; apply Forall_forall; intros f Hf; apply in_flat_map in Hf as (d & Hd & Hf); destruct (H d Hd) as (_ & A & B & _); rewrite Forall_forall in A, B; auto. }
    assert (VL : forall s, In s l -> sym_valid (prod_symm o (flat_map fst descs)) s = true).
    { intros s Hs. unfold l in Hs. apply in_map_iff in Hs as (i & <- & Hi). apply in_seq in Hi. rewrite flat_map_map'. rewrite (flat_map_concat_map (fun x => nth i (sectors_of_basis (prod_symm o (fst x)) (snd x)) [])). apply (@independent_valid descs); [apply map_length|].
      intros j Hj. rewrite nth_map_lt with (d := ([], ES [] [] false None)) by exact Hj. set (d := nth j descs _). assert (Hd : In d descs) by (apply nth_In; exact Hj).
      destruct (H d Hd) as (A & B & C & D & F). apply (sectors_of_basis_valid (prod_symm_ok A B C) D). apply nth_In. rewrite (sectors_of_basis_public D), map_length, (ok_public_len D). lia. }
    destruct (from_basis_some SO VL FB) as (OKE & _ & SB & _). split; [reflexivity|]. split; [exact OKE|]. rewrite SB. unfold l. split; [rewrite map_length, seq_length; reflexivity|].
    intros i Hi. rewrite nth_map_lt with (d := 0) by (rewrite seq_length; exact Hi). rewrite seq_nth by exact Hi. cbn [Nat.add]. apply flat_map_map'.
  Qed.
End Independent.
