(** Partial traces. *)
From Coq Require Import Ring.
From Verif Require Import Util StableSort RowModel RowProofs GridModel GridProofs SymModel SymProofs CatSpec Sums SpaceModel SpaceSpec SpaceProofs SpaceProofs2 SpaceProofs3
  PipeModel PipeProofs PipeProofs2 PipeProofs4 BlockModel BlockProofs SparseModel SparseSpec SparseProofs SparseProofs2 SparseProofs3 SparseProofs4 SparseProofs5.
Set Implicit Arguments. Unset Strict Implicit.
Open Scope nat_scope.

(** legs carried by a symmetry with abelian group laws *)
Section Legs.
  Variable S : symm.
  Variable fuse : sector -> sector -> sector.
  Hypothesis G : abelian_group_laws S fuse.
  Lemma decomp_len L : es_ok S L -> length (es_decomp S L) = nsec L.
  Proof. intros H. unfold nsec. rewrite (ok_len H). apply ok_decomp_len. Qed.
  Lemma decomp_valid L s : es_ok S L -> In s (es_decomp S L) -> sym_valid S s = true.
  Proof. intros H. apply (ok_decomp_valid (ag_symm_ok G) H). Qed.
  Lemma decomp_NoDup L : es_ok S L -> NoDup (es_decomp S L).
  Proof.
    intros H. assert (N : NoDup (es_def L)) by (eapply StronglySorted_NoDup; [intros x; apply lex_lt_irrefl|apply (ok_sorted H)]).
    unfold es_decomp, es_space. cbn [sp_secs]. destruct (es_dual L); auto. apply NoDup_map_inj; auto.
    intros x y Hx Hy E. rewrite <- (ag_dual_invol G (ok_valid H Hx)), E. apply (ag_dual_invol G (ok_valid H Hy)).
  Qed.
  Lemma decomp_dual L : es_ok S L -> es_decomp S (dual_es L) = map (sym_dual S) (es_decomp S L).
  Proof.
    intros H. unfold es_decomp, es_space, dual_es. cbn [sp_secs es_def es_mults es_dual es_perm]. destruct (es_dual L); cbn [negb]; auto.
    unfold dual_sectors. rewrite map_map. rewrite <- (map_id (es_def L)) at 1. apply map_ext_in. intros s Hs. symmetry. apply (ag_dual_invol G). apply (ok_valid H Hs).
  Qed.
  Lemma dim_dual L : es_ok S L -> es_dim S (dual_es L) = es_dim S L.
  Proof.
    intros H. rewrite (p_dim_one G H). unfold es_dim, sp_dim, es_space. cbn [sp_secs sp_mults dual_es es_mults es_def es_dual]. f_equal. apply (num_states_one G).
    rewrite (ok_len H). destruct (negb (es_dual L)); auto. unfold dual_sectors. now rewrite map_length.
  Qed.
  Lemma dual_ok L : es_ok S L -> es_ok S (dual_es L).
  Proof. intros H. constructor; try apply H. rewrite (dim_dual H). apply H. Qed.
  Lemma as_cod_ok k legs i : (forall L, In L legs -> es_ok S L) -> i < length legs -> es_ok S (as_codomain_leg k legs i).
  Proof. intros H Hi. unfold as_codomain_leg. destruct (i <? k); [|apply dual_ok]; apply H, nth_In, Hi. Qed.
  Lemma as_dom_ok k legs i : (forall L, In L legs -> es_ok S L) -> i < length legs -> es_ok S (as_domain_leg k legs i).
  Proof. intros H Hi. unfold as_domain_leg. destruct (i <? k); [apply dual_ok|]; apply H, nth_In, Hi. Qed.
  Lemma as_cod_mults k legs i : es_mults (as_codomain_leg k legs i) = es_mults (nth i legs noleg).
  Proof. unfold as_codomain_leg. fold noleg. destruct (i <? k); reflexivity. Qed.
  Lemma as_dom_mults k legs i : es_mults (as_domain_leg k legs i) = es_mults (nth i legs noleg).
  Proof. unfold as_domain_leg. fold noleg. destruct (i <? k); reflexivity. Qed.
  (** the condition check_legs imposes on a traced pair *)
  Definition pair_ok (k : nat) (legs : list espace) (ij : nat * nat) : Prop := as_codomain_leg k legs (fst ij) = as_domain_leg k legs (snd ij).
  Lemma pair_mults k legs ij : pair_ok k legs ij -> es_mults (nth (fst ij) legs noleg) = es_mults (nth (snd ij) legs noleg).
  Proof. intros H. rewrite <- (as_cod_mults k), <- (as_dom_mults k). unfold pair_ok in H. now rewrite H. Qed.
  Lemma pair_decomp k legs i j : (forall L, In L legs -> es_ok S L) -> i < length legs -> j < length legs -> pair_ok k legs (i, j) -> xorb (i <? k) (j <? k) = false ->
    es_decomp S (nth i legs noleg) = map (sym_dual S) (es_decomp S (nth j legs noleg)).
  Proof.
    intros OK Hi Hj H X. unfold pair_ok, as_codomain_leg, as_domain_leg in H. cbn [fst snd] in H. fold noleg in H.
    assert (OI : es_ok S (nth i legs noleg)) by now apply OK, nth_In. assert (OJ : es_ok S (nth j legs noleg)) by now apply OK, nth_In.
    destruct (i <? k), (j <? k); cbn in X; try discriminate.
    - rewrite H. now apply decomp_dual.
    - rewrite <- H, decomp_dual by auto. rewrite map_map. rewrite <- (map_id (es_decomp S (nth i legs noleg))) at 1. apply map_ext_in. intros s Hs. symmetry. apply (ag_dual_invol G). now apply (decomp_valid OI).
  Qed.
  Lemma on_diag_pair k legs i j r : (forall L, In L legs -> es_ok S L) -> i < length legs -> j < length legs -> pair_ok k legs (i, j) -> valid_idx (map nsec legs) r ->
    (if xorb (i <? k) (j <? k) then nth i r 0 =? nth j r 0
     else row_eqb (nth (nth i r 0) (es_decomp S (nth i legs noleg)) []) (sym_dual S (nth (nth j r 0) (es_decomp S (nth j legs noleg)) []))) = (nth i r 0 =? nth j r 0).
  Proof.
    intros OK Hi Hj H V. destruct (xorb (i <? k) (j <? k)) eqn:X; auto.
    assert (OI : es_ok S (nth i legs noleg)) by now apply OK, nth_In. assert (OJ : es_ok S (nth j legs noleg)) by now apply OK, nth_In.
    assert (E := pair_decomp OK Hi Hj H X). apply valid_nth in V. destruct V as [L V]. rewrite map_length in L, V.
    assert (Vi := V i Hi). assert (Vj := V j Hj). change 0 with (nsec noleg) in Vi at 2. change 0 with (nsec noleg) in Vj at 2. rewrite map_nth in Vi, Vj.
    assert (LI := decomp_len OI). assert (LJ := decomp_len OJ).
    assert (ME : nsec (nth i legs noleg) = nsec (nth j legs noleg)) by (unfold nsec; assert (PM := pair_mults H); cbn [fst snd] in PM; now rewrite PM).
    replace (sym_dual S (nth (nth j r 0) (es_decomp S (nth j legs noleg)) [])) with (nth (nth j r 0) (es_decomp S (nth i legs noleg)) []).
    2:{ rewrite E. apply nth_map_lt. lia. }
    destruct (Nat.eqb_spec (nth i r 0) (nth j r 0)) as [->|NE]; [apply row_eqb_refl|]. apply row_eqb_neq. intros Q. apply NE.
    assert (ND := decomp_NoDup OI). rewrite (NoDup_nth _ []) in ND. apply ND; auto; lia.
  Qed.
End Legs.

Lemma ne_match (T : Type) (l : list nat) (x y : T) : l <> [] -> match l with [] => x | _ :: _ => y end = y.
Proof. destruct l; congruence. Qed.

Section PTrace.
  Variable K : Type.
  Variable o : ops K.
  Hypothesis SR : semi_ring_theory (o0 o) (o1 o) (oadd o) (omul o) (@eq K).
  Add Ring Kring : SR.
  Notation block := (blk K).
  Notation adata := (list (list nat * blk K)).
  Notation sval := (sval o).
  Lemma sum_entry legs (D : adata) b (F : list nat * block -> K) v : data_ok legs D -> (forall X, In (b, X) D -> F (b, X) = v) -> (~ In b (map fst D) -> v = o0 o) ->
    osum o (map (fun e => if row_dec (fst e) b then F e else o0 o) D) = v.
  Proof.
    intros H HI HO. destruct (in_dec row_dec b (map fst D)) as [I|I].
    - destruct (in_rows I) as [X HX]. rewrite <- (HI X HX). etransitivity; [apply (sum_single SR (f := fun e => if row_dec (fst e) b then F e else o0 o) (x := (b, X)))|].
      + apply (NoDup_map_inv fst), (data_ok_NoDup H).
      + exact HX.
      + intros y Hy NE. destruct (row_dec (fst y) b) as [E|]; auto. exfalso. apply NE. apply (entry_eq H); auto.
      + cbn [fst]. destruct (row_dec b b); congruence.
    - rewrite (HO I). apply (sum_zero SR). intros e He. destruct (row_dec (fst e) b) as [E|]; auto. exfalso. apply I. rewrite <- E. now apply in_map.
  Qed.

  Variable S : symm.
  Variable fuse : sector -> sector -> sector.
  Hypothesis G : abelian_group_laws S fuse.
  Variables cod dom : list espace.
  Variable pairs : list (nat * nat).
  Let legs := leg_order cod dom.
  Let k := length cod.
  Let N := length legs.
  Let i1 := map fst pairs.
  Let i2 := map snd pairs.
  Let rem := filter (fun n => negb (existsb (Nat.eqb n) (i1 ++ i2))) (seq 0 N).
  Let p := rem ++ i1 ++ i2.
  Hypothesis OK : forall L, In L legs -> es_ok S L.
  Hypothesis ND : NoDup (i1 ++ i2).
  Hypothesis RNG : Forall (fun i => i < N) (i1 ++ i2).
  Hypothesis PO : forall ij, In ij pairs -> pair_ok k legs ij.
  Lemma existsb_In n l : existsb (Nat.eqb n) l = true <-> In n l.
  Proof. rewrite existsb_exists. split; [intros (x & H & E); apply Nat.eqb_eq in E; now subst|intros H; exists n; split; auto; apply Nat.eqb_refl]. Qed.
  Lemma rem_In n : In n rem <-> n < N /\ ~ In n (i1 ++ i2).
  Proof.
    unfold rem. rewrite filter_In, in_seq, negb_true_iff, <- existsb_In. split; intros [A B]; (split; [lia|]); [rewrite B; discriminate|]. now destruct (existsb (Nat.eqb n) (i1 ++ i2)); [elim B|].
  Qed.
  Lemma pt_perm : is_perm N p.
  Proof.
    unfold is_perm. apply NoDup_Permutation.
    - unfold p. apply NoDup_app_intro; auto.
      + unfold rem. apply NoDup_filter, seq_NoDup.
      + intros x Hx. apply rem_In in Hx. apply Hx.
    - apply seq_NoDup.
    - intros x. unfold p. rewrite in_app_iff, rem_In, in_seq. rewrite Forall_forall in RNG. destruct (in_dec Nat.eq_dec x (i1 ++ i2)) as [I|I]; split; intros H.
      + specialize (RNG _ I). lia.
      + right. exact I.
      + destruct H as [[A B]|]; [lia|contradiction].
      + left. split; [lia|auto].
  Qed.
  Lemma pt_diag r : valid_idx (map nsec legs) r ->
    (forallb (fun ij => if xorb (fst ij <? k) (snd ij <? k) then nth (fst ij) r 0 =? nth (snd ij) r 0
        else let sec n := nth (nth n r 0) (es_decomp S (nth n legs (ES [] [] false None))) [] in
             row_eqb (sec (fst ij)) (sym_dual S (sec (snd ij)))) pairs = true <-> take 0 r i1 = take 0 r i2).
  Proof.
    intros V. rewrite forallb_forall. unfold i1, i2, take. rewrite !map_map. fold noleg.
    assert (RN : forall ij, In ij pairs -> fst ij < length legs /\ snd ij < length legs).
    { rewrite Forall_forall in RNG. intros ij H. split; apply RNG; apply in_app_iff; [left|right]; now apply in_map. }
    assert (Q : forall ij, In ij pairs -> (if xorb (fst ij <? k) (snd ij <? k) then nth (fst ij) r 0 =? nth (snd ij) r 0
        else let sec n := nth (nth n r 0) (es_decomp S (nth n legs noleg)) [] in
             row_eqb (sec (fst ij)) (sym_dual S (sec (snd ij)))) = (nth (fst ij) r 0 =? nth (snd ij) r 0)).
    { intros [i j] H. cbn [fst snd]. cbv zeta. destruct (RN _ H) as [RA RB]. cbn [fst snd] in RA, RB. exact (on_diag_pair G OK RA RB (PO H) V). }
    split.
    - intros H. apply map_ext_in. intros ij Hij. apply Nat.eqb_eq. exact (eq_trans (eq_sym (Q _ Hij)) (H _ Hij)).
    - intros E ij Hij. refine (eq_trans (Q _ Hij) _). apply Nat.eqb_eq. apply ext_in_map with (a := ij) in E; auto.
  Qed.
  (** the row (or position) with remaining entries [x] and the entries [t] at both legs of every pair *)
  Definition pt_asm (x t : list nat) : list nat := take 0 (x ++ t ++ t) (inverse_permutation p).
  Lemma pt_len (T : Type) (s : list T) d : length s = N -> length (take d s rem) = length rem /\ length (take d s i1) = length pairs /\ length (take d s i2) = length pairs.
  Proof. intros L. rewrite !take_length. unfold i1, i2. rewrite !map_length. auto. Qed.
  Lemma p_len : length p = N.
  Proof. apply (is_perm_length pt_perm). Qed.
  Lemma p_len' : length rem + (length pairs + length pairs) = N.
  Proof. rewrite <- p_len. unfold p. rewrite !app_length. unfold i1, i2. now rewrite !map_length. Qed.
  Lemma pt_asm_split x t r : length x = length rem -> length t = length pairs -> length r = N ->
    (r = pt_asm x t <-> take 0 r rem = x /\ take 0 r i1 = t /\ take 0 r i2 = t).
  Proof.
    intros Lx Lt Lr. assert (P' : is_perm (length r) p) by (rewrite Lr; apply pt_perm).
    assert (LL : length (x ++ t ++ t) = N) by (rewrite !app_length, Lx, Lt; apply p_len').
    split.
    - intros ->. assert (E : take 0 (pt_asm x t) p = x ++ t ++ t).
      { unfold pt_asm. apply (proj2 (take_inverse 0 (l := x ++ t ++ t) (p := p) ltac:(rewrite LL; apply pt_perm))). }
      unfold p in E. rewrite !take_app_idx in E. apply app_inj in E; [|now rewrite take_length]. destruct E as [E1 E]. apply app_inj in E; [|rewrite take_length; unfold i1; now rewrite map_length]. tauto.
    - intros (E1 & E2 & E3). unfold pt_asm. rewrite <- E1. rewrite <- E2 at 1. rewrite <- E3. rewrite <- !take_app_idx. fold p. symmetry. apply (proj1 (take_inverse 0 P')).
  Qed.
  Lemma take_nsec_pairs : take 0 (map nsec legs) i1 = take 0 (map nsec legs) i2.
  Proof.
    unfold i1, i2, take. rewrite !map_map. apply map_ext_in. intros ij H. change 0 with (nsec noleg). rewrite !map_nth. unfold nsec. now rewrite (pair_mults (PO H)).
  Qed.
  Lemma take_mults_pairs : take [] (mults legs) i1 = take [] (mults legs) i2.
  Proof.
    unfold mults, i1, i2, take. rewrite !map_map. apply map_ext_in. intros ij H. change (@nil nat) with (es_mults noleg). rewrite !map_nth. apply (pair_mults (PO H)).
  Qed.
  Lemma frem : Forall (fun i => i < N) rem.
  Proof. apply Forall_forall. intros n H. apply rem_In in H. tauto. Qed.
  Lemma fi1 : Forall (fun i => i < N) i1.
  Proof. apply Forall_app in RNG. tauto. Qed.
  Lemma fi2 : Forall (fun i => i < N) i2.
  Proof. apply Forall_app in RNG. tauto. Qed.

  Section WithData.
    Variable A : adata.
    Hypothesis HA : data_ok legs A.
    Let shpr r := shp (take [] (mults legs) rem) r.
    Let on_diag (r : list nat) := forallb (fun ij => if xorb (fst ij <? k) (snd ij <? k) then nth (fst ij) r 0 =? nth (snd ij) r 0
        else let sec n := nth (nth n r 0) (es_decomp S (nth n legs (ES [] [] false None))) [] in
             row_eqb (sec (fst ij)) (sym_dual S (sec (snd ij)))) pairs.
    Definition pt_contrib (e : list nat * block) := (take 0 (fst e) rem, btrace_partial o (snd e) i1 i2 rem).
    Definition pt_res : adata := fold_left (fun m e => if on_diag (fst e) then map_add o (take 0 (fst e) rem) (btrace_partial o (snd e) i1 i2 rem) m else m) A [].
    Lemma lmults : length (mults legs) = N.
    Proof. unfold mults. apply map_length. Qed.
    Lemma lrow r : valid_idx (map nsec legs) r -> length r = N.
    Proof. intros V. rewrite (valid_length V). apply map_length. Qed.
    Lemma pt_block e : In e A -> take 0 (fst e) i1 = take 0 (fst e) i2 ->
      bshape (btrace_partial o (snd e) i1 i2 rem) = shpr (take 0 (fst e) rem) /\ bwf (btrace_partial o (snd e) i1 i2 rem) /\
      forall q, valid_idx (shpr (take 0 (fst e) rem)) q ->
        bat o (btrace_partial o (snd e) i1 i2 rem) q = osum o (map (fun u => bat o (snd e) (pt_asm q u)) (make_grid (shp (take [] (mults legs) i1) (take 0 (fst e) i1)) true)).
    Proof.
      intros He E. assert (V := do_valid HA He). assert (SH := do_shape HA He). assert (L := lrow V).
      assert (SR1 : take 0 (bshape (snd e)) rem = shpr (take 0 (fst e) rem)).
      { rewrite SH. unfold shpr. symmetry. apply shp_take; rewrite lmults; auto. apply frem. }
      assert (S1 : take 0 (bshape (snd e)) i1 = shp (take [] (mults legs) i1) (take 0 (fst e) i1)).
      { rewrite SH. symmetry. apply shp_take; rewrite lmults; auto. apply fi1. }
      assert (S2 : take 0 (bshape (snd e)) i2 = shp (take [] (mults legs) i2) (take 0 (fst e) i2)).
      { rewrite SH. symmetry. apply shp_take; rewrite lmults; auto. apply fi2. }
      assert (P' : is_perm (bndim (snd e)) (rem ++ i1 ++ i2)).
      { unfold bndim. rewrite SH, shp_len by (rewrite lmults; auto). rewrite lmults. apply pt_perm. }
      assert (EE : take 0 (bshape (snd e)) i1 = take 0 (bshape (snd e)) i2) by (rewrite S1, S2, take_mults_pairs, E; reflexivity).
      destruct (trace_partial_block o P' EE) as [T1 T2]. rewrite SR1 in T1, T2. split; [exact T1|]. split; [apply btrace_wf|].
      intros q Vq. rewrite (T2 q Vq), S1. reflexivity.
    Qed.
    Lemma pt_res_spec : NoDup (map fst pt_res) /\
      (forall e, In e pt_res -> valid_idx (take 0 (map nsec legs) rem) (fst e) /\ bshape (snd e) = shpr (fst e) /\ bwf (snd e)) /\
      (forall e, In e pt_res -> exists e', In e' A /\ take 0 (fst e') i1 = take 0 (fst e') i2 /\ fst e = take 0 (fst e') rem) /\
      forall r q, valid_idx (take 0 (map nsec legs) rem) r -> valid_idx (shpr r) q ->
        sval pt_res r q = osum o (map (fun t => osum o (map (fun u => sval A (pt_asm r t) (pt_asm q u)) (make_grid (shp (take [] (mults legs) i1) t) true))) (make_grid (take 0 (map nsec legs) i1) true)).
    Proof.
      assert (EQ : pt_res = fold_left (fun m e => map_add o (fst e) (snd e) m) (map pt_contrib (filter (fun e => on_diag (fst e)) A)) []) by (apply (fold_cond o A on_diag pt_contrib)).
      assert (OD : forall e, In e A -> on_diag (fst e) = true <-> take 0 (fst e) i1 = take 0 (fst e) i2) by (intros e He; apply pt_diag, (do_valid HA He)).
      assert (HL : forall e, In e (map pt_contrib (filter (fun e => on_diag (fst e)) A)) -> bshape (snd e) = shpr (fst e) /\ bwf (snd e)).
      { intros e He. apply in_map_iff in He. destruct He as (x & <- & Hx). apply filter_In in Hx. destruct Hx as [Hx D]. apply (OD x Hx) in D. destruct (pt_block Hx D) as (B1 & B2 & _). auto. }
      destruct (@map_add_all K o SR shpr _ HL [] ltac:(constructor) ltac:(contradiction)) as (M1 & M2 & M3 & M4). cbv zeta in *. rewrite <- EQ in *. split; [exact M1|].
      assert (EX : forall e, In e pt_res -> exists e', In e' A /\ take 0 (fst e') i1 = take 0 (fst e') i2 /\ fst e = take 0 (fst e') rem).
      { intros e He. apply (in_map fst) in He. apply M3 in He. destruct He as [He|[]]. rewrite map_map in He. apply in_map_iff in He. destruct He as (x & E & Hx). apply filter_In in Hx. destruct Hx as [Hx D].
        exists x. split; auto. split; [now apply OD|]. symmetry. exact E. }
      split; [|split; [exact EX|]].
      - intros e He. split; [|apply (M2 e He)]. destruct (EX e He) as (x & Hx & _ & ->). apply valid_take; [apply (do_valid HA Hx)|]. rewrite map_length. apply frem.
      - intros r q Vr Vq. rewrite (M4 r q Vq). cbn [SparseProofs.sval]. rewrite (SRadd_0_l SR). rewrite map_map, (sum_filter SR). cbn [fst snd pt_contrib].
        assert (Lr : length r = length rem) by (rewrite (valid_length Vr); apply take_length).
        transitivity (osum o (map (fun e => osum o (map (fun t => if row_dec (fst e) (pt_asm r t) then bat o (btrace_partial o (snd e) i1 i2 rem) q else o0 o) (make_grid (take 0 (map nsec legs) i1) true))) A)).
        { apply (sum_ext o). intros e He. assert (V := do_valid HA He). assert (Le := lrow V).
          assert (SP : forall t, valid_idx (take 0 (map nsec legs) i1) t -> fst e = pt_asm r t <-> take 0 (fst e) rem = r /\ take 0 (fst e) i1 = t /\ take 0 (fst e) i2 = t).
          { intros t Vt. apply pt_asm_split; auto. rewrite (valid_length Vt), take_length. unfold i1. apply map_length. }
          assert (Vt0 : valid_idx (take 0 (map nsec legs) i1) (take 0 (fst e) i1)) by (apply valid_take; auto; rewrite map_length; apply fi1).
          destruct (on_diag (fst e)) eqn:D.
          - apply (OD e He) in D. destruct (row_dec (take 0 (fst e) rem) r) as [E|E].
            + symmetry. etransitivity; [apply (sum_single SR (f := fun t => if row_dec (fst e) (pt_asm r t) then bat o (btrace_partial o (snd e) i1 i2 rem) q else o0 o) (x := take 0 (fst e) i1))|].
              * apply make_grid_NoDup.
              * now apply make_grid_In.
              * intros t Ht NE. apply make_grid_In in Ht. destruct (row_dec (fst e) (pt_asm r t)) as [Q|]; auto. apply (SP t Ht) in Q. exfalso. apply NE. symmetry. tauto.
              * cbv beta. destruct (row_dec (fst e) (pt_asm r (take 0 (fst e) i1))) as [|Q]; auto. exfalso. apply Q. apply SP; auto.
            + symmetry. apply (sum_zero SR). intros t Ht. apply make_grid_In in Ht. destruct (row_dec (fst e) (pt_asm r t)) as [Q|]; auto. apply (SP t Ht) in Q. exfalso. tauto.
          - symmetry. apply (sum_zero SR). intros t Ht. apply make_grid_In in Ht. destruct (row_dec (fst e) (pt_asm r t)) as [Q|]; auto. apply (SP t Ht) in Q. exfalso.
            assert (Q' : take 0 (fst e) i1 = take 0 (fst e) i2) by (destruct Q as (_ & -> & ->); reflexivity). apply (OD e He) in Q'. congruence. }
        rewrite (sum_swap SR). apply (sum_ext o). intros t Ht. apply make_grid_In in Ht.
        apply (sum_entry (F := fun e => bat o (btrace_partial o (snd e) i1 i2 rem) q) HA).
        + intros X HX. cbn [snd]. assert (V := do_valid HA HX). cbn [fst] in V. 
          assert (Lt : length t = length pairs) by (rewrite (valid_length Ht), take_length; unfold i1; apply map_length).
          assert (SP := proj1 (@pt_asm_split r t (pt_asm r t) Lr Lt (lrow V)) eq_refl). destruct SP as (S0 & S1 & S2).
          destruct (@pt_block (pt_asm r t, X) HX ltac:(cbn [fst]; congruence)) as (_ & _ & B3). cbn [fst snd] in B3. rewrite S0, S1 in B3. rewrite (B3 q Vq). apply (sum_ext o). intros u _. symmetry. apply (sval_in o _ (data_ok_NoDup HA) HX).
        + intros NI. apply (sum_zero SR). intros u _. apply (sval_notin o _ NI).
    Qed.
    Definition pt_sum r q := osum o (map (fun t => osum o (map (fun u => sval A (pt_asm r t) (pt_asm q u)) (make_grid (shp (take [] (mults legs) i1) t) true))) (make_grid (take 0 (map nsec legs) i1) true)).
    Lemma partial_trace_ok : exists R, partial_trace o S cod dom pairs A = Some R /\ data_ok (take noleg legs rem) R /\
      (forall r q, valid_idx (map nsec (take noleg legs rem)) r -> valid_idx (shp (mults (take noleg legs rem)) r) q -> sval R r q = pt_sum r q) /\
      (rem <> [] -> forall e, In e R -> exists e', In e' A /\ take 0 (fst e') i1 = take 0 (fst e') i2 /\ fst e = take 0 (fst e') rem).
    Proof.
      destruct pt_res_spec as (N1 & N2 & N3 & N4).
      assert (EP : partial_trace o S cod dom pairs A = match rem with [] => match pt_res with [] => Some [([], Blk [] [o0 o])] | [e] => Some [([], Blk [] [bat o (snd e) []])] | _ => None end | _ => Some (make_data pt_res false) end) by reflexivity.
      rewrite EP. clear EP. rewrite nsec_take, mults_take. destruct (list_eq_dec Nat.eq_dec rem []) as [ER|ER].
      - assert (ND0 : take 0 (map nsec legs) rem = []) by (rewrite ER; reflexivity). assert (MD0 : take [] (mults legs) rem = []) by (rewrite ER; reflexivity).
        unfold shpr in N2, N4. rewrite ND0, MD0 in *. rewrite ER.
        assert (N4' := N4 [] [] ltac:(constructor) ltac:(constructor)). 
        assert (KEY : forall e, In e pt_res -> fst e = []) by (intros e He; destruct (N2 e He) as [V _]; inversion V; reflexivity).
        assert (R1 : exists x, match pt_res with [] => Some [([], Blk [] [o0 o])] | [e] => Some [([], Blk [] [bat o (snd e) []])] | _ => None end = Some [(@nil nat, Blk [] [x])] /\ x = pt_sum [] []).
        { unfold pt_sum. rewrite <- N4'. destruct pt_res as [|e [|e' l]].
          - exists (o0 o). auto.
          - exists (bat o (snd e) []). split; auto. cbn [SparseProofs.sval]. rewrite (KEY e (or_introl eq_refl)). destruct (row_dec [] []); congruence.
          - exfalso. assert (E1 := KEY e (or_introl eq_refl)). assert (E2 := KEY e' (or_intror (or_introl eq_refl))). cbn [map] in N1. rewrite E1, E2 in N1. inversion N1 as [|? ? NI _]; subst. apply NI. now left. }
        destruct R1 as (x & R1a & R1b). rewrite R1a, R1b. exists [([], Blk [] [pt_sum [] []])]. split; [reflexivity|]. split; [|split].
        + constructor; rewrite ?nsec_take, ?mults_take, ?ND0, ?MD0.
          * cbn. constructor; [constructor|constructor].
          * intros e [<-|[]]. constructor.
          * intros e [<-|[]]. reflexivity.
          * intros e [<-|[]]. reflexivity.
        + intros r q Vr Vq. inversion Vr; subst. cbn in Vq. inversion Vq; subst. cbn [SparseProofs.sval fst snd]. destruct (row_dec [] []); [reflexivity|congruence].
        + intros NE. now elim NE.
      - rewrite (@ne_match (option adata) rem _ _ ER). exists (make_data pt_res false). split; [reflexivity|]. split; [|split].
        + apply data_ok_make; auto. intros e He. rewrite nsec_take, mults_take. now apply N2.
        + intros r q Vr Vq. assert (PM := make_data_perm pt_res false). rewrite (sval_perm SR (D := make_data pt_res false) (D' := pt_res)); auto.
          * now apply N4.
          * apply (Permutation_NoDup (l := map fst pt_res)); auto. apply Permutation_map. now symmetry.
        + intros _ e He. apply make_data_In in He. now apply N3.
    Qed.
  End WithData.
End PTrace.
