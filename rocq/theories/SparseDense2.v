(** partial_trace and get_element on the level of dense arrays. *)
From Coq Require Import Ring.
From Verif Require Import Util StableSort RowModel RowProofs GridModel GridProofs SymModel SymProofs CatSpec Sums SpaceModel SpaceSpec SpaceProofs SpaceProofs2 SpaceProofs3 SpaceProofs5
  PipeModel PipeProofs PipeProofs2 PipeProofs4 BlockModel BlockProofs SparseModel SparseSpec SparseProofs SparseProofs2 SparseProofs3 SparseProofs4 SparseProofs5 SparseProofs6 SparseCharge SparseCompose SparseCompose2 SparseCompose3 SparseCompose4 SparseDense.
Set Implicit Arguments. Unset Strict Implicit.
Open Scope nat_scope.

Lemma sorted_threshold k l : StronglySorted lt l -> l = filter (fun n => n <? k) l ++ filter (fun n => negb (n <? k)) l.
Proof.
  induction l as [|a l IH]; intros H; auto. inversion H as [|? ? H1 H2]; subst. cbn [filter]. destruct (Nat.ltb_spec a k); cbn [negb].
  - cbn [app]. f_equal. auto.
  - rewrite filter_none by (rewrite Forall_forall in H2; intros x Hx; specialize (H2 _ Hx); apply Nat.ltb_ge; lia). cbn [app]. f_equal. symmetry. apply filter_all. rewrite Forall_forall in H2. intros x Hx. specialize (H2 _ Hx). apply negb_true_iff, Nat.ltb_ge. lia.
Qed.
Lemma seq_sorted' n : forall a, StronglySorted lt (seq a n).
Proof. induction n as [|n IH]; intros a; constructor; auto. apply Forall_forall. intros x Hx. apply in_seq in Hx. lia. Qed.

(** the legs that stay, split into codomain and domain *)
Definition untraced (n : nat) (pairs : list (nat * nat)) : list nat := filter (fun i => negb (existsb (Nat.eqb i) (map fst pairs ++ map snd pairs))) (seq 0 n).

Section Dense.
  Variable K : Type.
  Variable o : ops K.
  Hypothesis SR : semi_ring_theory (o0 o) (o1 o) (oadd o) (omul o) (@eq K).
  Add Ring Kring : SR.
  Notation block := (blk K).
  Notation adata := (list (list nat * blk K)).
  Notation sval := (sval o).
  Variable S : symm.
  Variable fuse : sector -> sector -> sector.
  Hypothesis G : abelian_group_laws S fuse.
  Section Trace.
    Variables cod dom : list espace.
    Variable pairs : list (nat * nat).
    Let legs := leg_order cod dom.
    Let k := length cod.
    Let N := length legs.
    Let i1 := map fst pairs.
    Let i2 := map snd pairs.
    Let rem := untraced N pairs.
    Hypothesis OK : forall L, In L legs -> es_ok S L.
    Hypothesis ND : NoDup (i1 ++ i2).
    Hypothesis RNG : Forall (fun i => i < N) (i1 ++ i2).
    Hypothesis PO : forall ij, In ij pairs -> pair_ok k legs ij.
    Let asm := pt_asm cod dom pairs.
    Definition on_pairs (x h : list nat) : bool := (if list_eq_dec Nat.eq_dec (take 0 h rem) x then true else false) && (if list_eq_dec Nat.eq_dec (take 0 h i1) (take 0 h i2) then true else false).
    Lemma on_pairs_iff x h : on_pairs x h = true <-> take 0 h rem = x /\ take 0 h i1 = take 0 h i2.
    Proof.
      unfold on_pairs. destruct (list_eq_dec Nat.eq_dec (take 0 h rem) x); destruct (list_eq_dec Nat.eq_dec (take 0 h i1) (take 0 h i2)); cbn [andb]; split; try tauto; intros H; try discriminate.
    Qed.
    Lemma grid_pairs s x : length s = N -> take 0 s i1 = take 0 s i2 -> valid_idx (take 0 s rem) x ->
      Permutation (filter (on_pairs x) (make_grid s true)) (map (asm x) (make_grid (take 0 s i1) true)).
    Proof.
      intros Ls Es Vx. assert (Lx : length x = length rem) by (rewrite (valid_length Vx); apply take_length).
      assert (LT : forall t, valid_idx (take 0 s i1) t -> length t = length pairs) by (intros t Ht; rewrite (valid_length Ht), take_length; apply map_length).
      assert (P : is_perm N (rem ++ i1 ++ i2)) by apply (pt_perm ND RNG).
      assert (VA : forall t, valid_idx (take 0 s i1) t -> valid_idx s (asm x t)).
      { intros t Ht. apply valid_untake; [rewrite Ls; exact P|]. rewrite !take_app_idx. apply valid_app; [apply (valid_length Vx)|]. split; auto. apply valid_app; [apply (valid_length Ht)|]. split; auto. fold i1 i2. now rewrite <- Es. }
      assert (SPL : forall t r, valid_idx (take 0 s i1) t -> valid_idx s r -> (r = asm x t <-> take 0 r rem = x /\ take 0 r i1 = t /\ take 0 r i2 = t)).
      { intros t r Ht Hr. apply (pt_asm_split ND RNG Lx (LT _ Ht)). rewrite (valid_length Hr). exact Ls. }
      apply NoDup_Permutation.
      - apply NoDup_filter, make_grid_NoDup.
      - apply NoDup_map_inj; [|apply make_grid_NoDup]. intros t t' Ht Ht' E. apply make_grid_In in Ht. apply make_grid_In in Ht'.
        assert (Q := proj1 (SPL t (asm x t) Ht (VA _ Ht)) eq_refl). assert (Q' := proj1 (SPL t' (asm x t) Ht' (VA _ Ht)) E). destruct Q as (_ & Q & _). destruct Q' as (_ & Q' & _). congruence.
      - intros r. rewrite filter_In, make_grid_In, on_pairs_iff, in_map_iff. split.
        + intros (Vr & E1 & E2). exists (take 0 r i1). assert (Vt : valid_idx (take 0 s i1) (take 0 r i1)) by (apply valid_take; auto; rewrite Ls; apply Forall_app in RNG; apply RNG).
          split; [|now apply make_grid_In]. symmetry. apply SPL; auto.
        + intros (t & <- & Ht). apply make_grid_In in Ht. split; [now apply VA|]. destruct (proj1 (SPL t (asm x t) Ht (VA _ Ht)) eq_refl) as (Q1 & Q2 & Q3). split; [exact Q1|congruence].
    Qed.
    Lemma sum_pairs s x (F : list nat -> K) : length s = N -> take 0 s i1 = take 0 s i2 -> valid_idx (take 0 s rem) x ->
      osum o (map (fun h => if on_pairs x h then F h else o0 o) (make_grid s true)) = osum o (map (fun t => F (asm x t)) (make_grid (take 0 s i1) true)).
    Proof.
      intros Ls Es Vx. rewrite <- (sum_filter SR). rewrite (sum_perm SR (Permutation_map F (grid_pairs Ls Es Vx))). now rewrite map_map.
    Qed.
    Let kc := filter (fun n => n <? k) rem.
    Let kd := filter (fun n => negb (n <? k)) rem.
    Lemma rem_split : rem = kc ++ kd.
    Proof. apply sorted_threshold. apply StronglySorted_filter, seq_sorted'. Qed.
    Variable A : adata.
    Hypothesis HA : tensor_ok S cod dom A.
    Let cod' := take noleg legs kc.
    Let dom' := rev (take noleg legs kd).
    Lemma legs_rem : leg_order cod' dom' = take noleg legs rem.
    Proof. unfold leg_order, cod', dom'. rewrite rev_involutive, <- take_app_idx. now rewrite <- rem_split. Qed.
    Lemma frem' : Forall (fun i => i < N) rem.
    Proof. apply Forall_forall. intros n H. apply filter_In in H. destruct H as [H _]. apply in_seq in H. lia. Qed.
    Lemma dense_partial_trace : exists R, partial_trace o S cod dom pairs A = Some R /\ tensor_ok S cod' dom' R /\
      forall g, dense_idx S (leg_order cod' dom') g ->
        entry o S cod' dom' R g = osum o (map (entry o S cod dom A) (filter (on_pairs g) (positions S legs))).
    Proof.
      destruct (partial_trace_ok SR G OK ND RNG PO (to_data HA)) as (R & ER & DR & SV & RW). exists R. split; [exact ER|].
      assert (FR := frem'). assert (OK' : forall L, In L (leg_order cod' dom') -> es_ok S L).
      { intros L HL. rewrite legs_rem in HL. unfold take in HL. apply in_map_iff in HL. destruct HL as (i & <- & Hi). apply OK, nth_In. rewrite Forall_forall in FR. apply FR, Hi. }
      assert (T : tensor_ok S cod' dom' R).
      { constructor; auto.
        - rewrite legs_rem. exact DR.
        - intros e He. destruct (list_eq_dec Nat.eq_dec rem []) as [E|E].
          + assert (E1 : kc = []) by (unfold kc; now rewrite E). assert (E2 : kd = []) by (unfold kd; now rewrite E). unfold cod', dom'. rewrite E1, E2. cbn [take map rev]. 
            assert (V : valid_idx (map nsec (take noleg legs rem)) (fst e)) by exact (do_valid DR He). rewrite E in V. cbn [take map] in V. inversion V. reflexivity.
          + destruct (RW E e He) as (e' & He' & E1 & ->). exact (proj2 (@trace_charge S fuse G cod dom pairs (fst e') OK ND RNG PO (do_valid (to_data HA) He') E1 (to_charge HA He'))). }
      split; auto. intros g Hg. destruct (locate G OK' Hg) as (r & q & Vr & Vq & ->). rewrite (entry_locs o G T Vr Vq).
      rewrite legs_rem in Vr, Vq. rewrite (SV r q Vr Vq). unfold pt_sum. fold asm legs i1. rewrite nsec_take in Vr. rewrite mults_take in Vq.
      rewrite (sum_filter SR). unfold positions. rewrite (dense_sum SR G OK).
      assert (LM : length (mults legs) = N) by apply map_length.
      assert (F1 : Forall (fun i => i < N) i1) by (apply Forall_app in RNG; apply RNG). assert (F2 : Forall (fun i => i < N) i2) by (apply Forall_app in RNG; apply RNG).
      assert (LRm : length r = length rem) by (rewrite (valid_length Vr); apply take_length). assert (LQm : length q = length rem) by (rewrite (valid_length Vq), shp_len; rewrite ?take_length; auto).
      symmetry. transitivity (osum o (map (fun b => if on_pairs r b then osum o (map (fun q' => if on_pairs q q' then sval A b q' else o0 o) (make_grid (shp (mults legs) b) true)) else o0 o) (make_grid (map nsec legs) true))).
      - apply (sum_ext o). intros b Hb. apply make_grid_In in Hb. assert (LB : length b = length (mults legs)) by (rewrite (valid_length Hb); unfold mults; now rewrite !map_length).
        assert (Vt : forall p, Forall (fun i => i < N) p -> valid_idx (map nsec (take noleg legs p)) (take 0 b p)) by (intros p Fp; rewrite nsec_take; apply valid_take; auto; rewrite map_length; auto).
        assert (LOC : forall q', valid_idx (shp (mults legs) b) q' -> forall p, Forall (fun i => i < N) p -> take 0 (locs (mults legs) b q') p = locs (take [] (mults legs) p) (take 0 b p) (take 0 q' p)).
        { intros q' Hq' p Fp. symmetry. apply locs_take; auto; [now apply (pos_len Hb Hq')|now rewrite LM]. }
        assert (INJ : forall q', valid_idx (shp (mults legs) b) q' -> on_pairs (locs (mults (leg_order cod' dom')) r q) (locs (mults legs) b q') = on_pairs r b && on_pairs q q').
        { intros q' Hq'. apply Bool.eq_iff_eq_true. rewrite andb_true_iff, !on_pairs_iff. rewrite legs_rem, mults_take.
          rewrite !(LOC q' Hq') by auto.
          assert (Wt : forall p, Forall (fun i => i < N) p -> valid_idx (shp (take [] (mults legs) p) (take 0 b p)) (take 0 q' p)).
          { intros p Fp. rewrite shp_take by (auto; now rewrite LM). apply valid_take; auto. rewrite shp_len by auto. now rewrite LM. }
          assert (Vt' : forall p, Forall (fun i => i < N) p -> valid_idx (map (@length nat) (take [] (mults legs) p)) (take 0 b p)) by (intros p Fp; rewrite <- mults_take, <- nsecs_eq; auto).
          assert (TM := take_mults_pairs PO). fold legs i1 i2 in TM.
          split.
          - intros [E1 E2]. apply locs_inj in E1; [|apply Vt'; auto|apply Wt; auto|rewrite <- mults_take, <- nsecs_eq, nsec_take; exact Vr|exact Vq].
            rewrite TM in E2. apply locs_inj in E2; [tauto|rewrite <- TM; apply Vt'; auto|rewrite <- TM; apply Wt; auto|apply Vt'; auto|apply Wt; auto].
          - intros [[A1 A2] [A3 A4]]. rewrite A1, A3. split; auto. rewrite A2, A4, TM. reflexivity. }
        destruct (on_pairs r b) eqn:EB.
        + apply (sum_ext o). intros q' Hq'. apply make_grid_In in Hq'. rewrite (INJ q' Hq'). cbn [andb]. destruct (on_pairs q q'); auto. apply (entry_locs o G HA Hb Hq').
        + apply (sum_zero SR). intros q' Hq'. apply make_grid_In in Hq'. rewrite (INJ q' Hq'). reflexivity.
      - rewrite (sum_pairs (s := map nsec legs) (x := r) (fun b => osum o (map (fun q' => if on_pairs q q' then sval A b q' else o0 o) (make_grid (shp (mults legs) b) true)))); [|apply map_length|apply (take_nsec_pairs PO)|exact Vr].
        apply (sum_ext o). intros t Ht. apply make_grid_In in Ht.
        assert (LT : length t = length pairs) by (rewrite (valid_length Ht), take_length; apply map_length).
        assert (LA : length (asm r t) = N). { unfold asm, pt_asm. rewrite take_length, inverse_permutation_length. apply (is_perm_length (pt_perm ND RNG)). }
        destruct (proj1 (pt_asm_split ND RNG LRm LT LA) eq_refl) as (Q1 & Q2 & Q3). fold i1 i2 in Q2, Q3. change (filter _ _) with rem in Q1.
        assert (LAM : length (asm r t) = length (mults legs)) by now rewrite LM.
        rewrite (sum_pairs (s := shp (mults legs) (asm r t)) (x := q) (fun q' => sval A (asm r t) q')).
        + rewrite <- (shp_take LAM) by now rewrite LM. rewrite Q2. reflexivity.
        + now rewrite shp_len.
        + rewrite <- !(shp_take LAM) by now rewrite LM. rewrite Q2, Q3. f_equal. apply (take_mults_pairs PO).
        + rewrite <- (shp_take LAM) by now rewrite LM. rewrite Q1. exact Vq.
    Qed.
  End Trace.

  (** ** get_element *)
  Lemma mults_states L : es_ok S L -> num_states S (es_decomp S L) (es_mults L) = es_mults L.
  Proof. intros OK. apply (num_states_one G). rewrite ok_decomp_len. apply (ok_len OK). Qed.
  (** [j] is the internal position of public index [idx] (negative indices count from the end) *)
  Definition internal_position (L : espace) (idx : Z) (j : nat) : Prop :=
    (- Z.of_nat (es_dim S L) <= idx < Z.of_nat (es_dim S L))%Z /\ j < es_dim S L /\
    nth j (basis_perm S L) 0 = Z.to_nat (if idx <? 0 then idx + Z.of_nat (es_dim S L) else idx)%Z.
  Hypothesis HD : s_drop S = true.
  Lemma parse_position L idx j : es_ok S L -> internal_position L idx j -> exists s m, parse_index S L idx = Some (s, m) /\ s < nsec L /\ m < nth s (es_mults L) 0 /\ j = nsum (firstn s (es_mults L)) + m.
  Proof.
    intros OK (HR & Hj & EJ). destruct (parse_index_spec HD OK HR) as (s & m & E & Hs & Hm & Hi & EP & HN). rewrite (mults_states OK) in *.
    exists s, m. split; auto. rewrite (decomp_len OK) in Hs. split; auto. split; auto. 
    apply (is_perm_nth_inj (ok_bperm OK)); auto. congruence.
  Qed.
  Lemma get_element_ok legs A idcs : (forall L, In L legs -> es_ok S L) -> data_ok legs A -> forall g, Forall2 (fun Li j => internal_position (fst Li) (snd Li) j) (combine legs idcs) g -> length idcs = length legs ->
    get_element o S legs A idcs = Some (bat o (to_dense o S legs A) g).
  Proof.
    intros OK HA g HG LE.
    assert (P : exists b q, valid_idx (map nsec legs) b /\ valid_idx (shp (mults legs) b) q /\ g = locs (mults legs) b q /\ map (fun p => parse_index S (fst p) (snd p)) (combine legs idcs) = map Some (combine b q)).
    { clear HA. revert idcs g HG LE. induction legs as [|L legs IH]; intros [|i idcs] g HG LE; try discriminate; cbn [combine] in HG; inversion HG as [|? j ? g' HJ HG']; subst.
      - exists [], []. repeat split; constructor.
      - destruct (IH ltac:(intros; apply OK; now right) idcs g' HG' ltac:(now injection LE)) as (b & q & Vb & Vq & -> & E). cbn [fst snd] in HJ.
        destruct (parse_position (OK L ltac:(now left)) HJ) as (s & m & EP & Hs & Hm & ->). exists (s :: b), (m :: q). cbn [map mults shp locs combine fst snd].
        split; [now constructor|]. split; [now constructor|]. split; [reflexivity|]. now rewrite EP, E. }
    destruct P as (b & q & Vb & Vq & -> & E). unfold get_element. rewrite E.
    assert (FA : forallb (fun p : option (nat * nat) => match p with Some _ => true | None => false end) (map Some (combine b q)) = true) by (apply forallb_forall; intros x Hx; apply in_map_iff in Hx; destruct Hx as (y & <- & _); reflexivity).
    rewrite FA. cbv zeta. replace (map (fun p : option (nat * nat) => match p with Some q0 => q0 | None => (0, 0) end) (map Some (combine b q))) with (combine b q) by (rewrite map_map; symmetry; apply map_id). assert (LQ : length b = length q) by (rewrite (row_len Vb), (pos_len Vb Vq); reflexivity).
    rewrite (combine_fst LQ), (combine_snd LQ). rewrite (sval_ok o G OK HA Vb Vq).
    assert (GB := get_block_spec b (data_ok_NoDup HA)). destruct (get_block A b) as [B|].
    - now rewrite (sval_in o q (data_ok_NoDup HA) GB).
    - now rewrite (sval_notin o q GB).
  Qed.
  Lemma get_element_out legs A idcs : length idcs = length legs -> Exists (fun Li => (snd Li < - Z.of_nat (es_dim S (fst Li)) \/ Z.of_nat (es_dim S (fst Li)) <= snd Li)%Z) (combine legs idcs) -> get_element o S legs A idcs = None.
  Proof.
    intros LE HX. unfold get_element. apply Exists_exists in HX. destruct HX as (x & Hx & HR).
    match goal with |- (if ?c then _ else _) = _ => assert (F : c = false) end; [|now rewrite F].
    apply not_true_is_false. intros F. rewrite forallb_forall in F. specialize (F _ (in_map _ _ _ Hx)). cbv beta in F. now rewrite (parse_index_out HD HR) in F.
  Qed.
End Dense.
