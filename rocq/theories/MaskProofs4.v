(** Contracting a leg of a tensor with a mask. *)
From Verif Require Import Util StableSort RowModel RowProofs GridModel GridProofs SymModel SymProofs CatSpec Sums SpaceModel SpaceSpec SpaceProofs SpaceProofs2 SpaceProofs3 SpaceProofs6 TensorModel
  PipeModel PipeProofs PipeProofs2 BlockModel BlockProofs SparseModel SparseSpec SparseProofs SparseProofs3 SparseDense FtOpsModel FtOpsSpec AbDecModel AbDecSpec AbDecProofs2 AbDecProofs3 AbDiagModel AbDiagProofs AbDiagProofs2 AbDiagProofs3 AbDiagProofs4 MaskModel MaskSpec MaskProofs MaskProofs2 MaskProofs3.
Set Implicit Arguments. Unset Strict Implicit.
Open Scope nat_scope.

Lemma weak_strict rows : weakly_sorted rows -> NoDup rows -> strictly_sorted rows.
Proof.
  unfold weakly_sorted, strictly_sorted. induction rows as [|r rows IH]; intros SS ND; [constructor|]. apply StronglySorted_inv in SS. destruct SS as [SS FA]. apply NoDup_cons_iff in ND. destruct ND as [NI ND]. constructor; [now apply IH|]. rewrite Forall_forall in *. intros x I. destruct (FA x I) as [H|H]; [exact H|]. subst x. contradiction.
Qed.
Section Walk.
  Variable K : Type.
  Notation adata := (list (list nat * blk K)).
  Variable S : tsymm.
  Variables cod dom : list espace.
  Notation legs := (leg_order cod dom).
  Variable leg : nat.
  Variable T : adata.
  Hypothesis TT : tensor_ok S cod dom T.
  Variable D : mdata.
  Variable mc : nat.
  Hypothesis HC : NoDup (map (fun e : list nat * bblk => nth mc (fst e) 0) D).
  Hypothesis HS : mc <> 0 -> StronglySorted lt (map (fun e : list nat * bblk => nth mc (fst e) 0) D).
  Hypothesis HO : NoDup (map (fun e : list nat * bblk => nth (1 - mc) (fst e) 0) D).
  Hypothesis HL : leg < length legs.
  Variable op : blk K -> bblk -> blk K.
  Definition sortD : mdata := if mc =? 0 then take (noentry bool) D (lexsort_indices (cont D mc)) else D.
  Lemma sortD_perm : Permutation sortD D.
  Proof. unfold sortD. destruct (mc =? 0); [|reflexivity]. apply take_Permutation. pose proof (lexsort_perm (cont D mc)) as P. unfold cont in P at 1. rewrite map_length in P. exact P. Qed.
  Lemma cont_NoDup (E : mdata) : Permutation E D -> NoDup (cont E mc).
  Proof.
    intros P. assert (X : NoDup (map (fun e : list nat * bblk => nth mc (fst e) 0) E)) by (eapply Permutation_NoDup; [apply Permutation_map, Permutation_sym, P|exact HC]).
    replace (cont E mc) with (map (fun n => [Z.of_nat n]) (map (fun e : list nat * bblk => nth mc (fst e) 0) E)) by (rewrite map_map; reflexivity). apply NoDup_map_inj; [|exact X]. intros x y _ _ E'. injection E' as E'. lia.
  Qed.
  Lemma sortD_sorted : strictly_sorted (cont sortD mc).
  Proof.
    unfold sortD. destruct (Nat.eqb_spec mc 0) as [E|NE].
    - apply weak_strict; [|apply cont_NoDup; pose proof sortD_perm as P; unfold sortD in P; rewrite (proj2 (Nat.eqb_eq _ _) E) in P; exact P].
      replace (cont (take (noentry bool) D (lexsort_indices (cont D mc))) mc) with (take [] (cont D mc) (lexsort_indices (cont D mc))); [unfold take; apply StronglySorted_map; eapply StronglySorted_impl; [|apply (lexsort_sorted (w := 1)), cont_width]; intros i j _ _ [H|[H _]]; [now left|now right]|].
      unfold take. unfold cont at 3. rewrite map_map. apply map_ext_in. intros i Ii. unfold cont at 1. pose proof (is_perm_In i (lexsort_perm (cont D mc))) as PI. apply PI in Ii. unfold cont in Ii. rewrite map_length in Ii. now rewrite nth_map_lt with (d := noentry bool) by exact Ii.
    - pose proof (HS NE) as SS. unfold cont, strictly_sorted. clear -SS. induction D as [|e W IH]; [constructor|]. cbn [map] in *. apply StronglySorted_inv in SS. destruct SS as [SS FA]. constructor; [now apply IH|]. rewrite Forall_forall in *. intros z Iz. apply in_map_iff in Iz. destruct Iz as (e' & <- & I).
      specialize (FA _ (in_map (fun e : list nat * bblk => nth mc (fst e) 0) _ _ I)). cbv beta in FA. split; [reflexivity|]. exists 0. cbn [nth length]. split; [lia|]. split; [lia|]. intros j Hj. lia.
  Qed.
  Notation sT := (sortA cod dom leg T).
  Definition mraw : adata := map (fun ij => let e := nth (fst ij) sT (noentry K) in let f := nth (snd ij) sortD (noentry bool) in (upd (fst e) leg (nth (1 - mc) (fst f) 0), op (snd e) (snd f)))
    (common_walk false true 0 (cont sT leg) 0 (cont sortD mc)).
  Lemma cw_In (p q : nat) : In (p, q) (common_walk false true 0 (cont sT leg) 0 (cont sortD mc)) <-> p < length sT /\ q < length sortD /\ nth leg (fst (nth p sT (noentry K))) 0 = nth mc (fst (nth q sortD (noentry bool))) 0.
  Proof.
    pose proof (@common_walk_spec 1 false true (or_intror eq_refl) (cont sT leg) 0 (cont sortD mc) 0 (cont_width _ _) (cont_width _ _) (sortA_sorted HL TT) (strictly_weakly sortD_sorted)) as CW. destruct CW as [CW _]; [discriminate|intros _; exact sortD_sorted|].
    rewrite CW. assert (LA : length (cont sT leg) = length sT) by apply map_length. assert (LB : length (cont sortD mc) = length sortD) by apply map_length. rewrite LA, LB, !Nat.sub_0_r. split.
    - intros (Hp & Hq & E). split; [lia|]. split; [lia|]. unfold cont in E. rewrite nth_map_lt with (d := noentry K) in E by lia. rewrite nth_map_lt with (d := noentry bool) in E by lia. injection E as E. lia.
    - intros (Hp & Hq & E). split; [lia|]. split; [lia|]. unfold cont. rewrite nth_map_lt with (d := noentry K) by lia. rewrite nth_map_lt with (d := noentry bool) by lia. now rewrite E.
  Qed.
  Lemma cw_NoDup : NoDup (common_walk false true 0 (cont sT leg) 0 (cont sortD mc)).
  Proof.
    destruct (@common_walk_spec 1 false true (or_intror eq_refl) (cont sT leg) 0 (cont sortD mc) 0 (cont_width _ _) (cont_width _ _) (sortA_sorted HL TT) (strictly_weakly sortD_sorted)) as [_ ND]; [discriminate|intros _; exact sortD_sorted|]. exact ND.
  Qed.
  Lemma mraw_In e : In e mraw <-> exists a f, In a T /\ In f D /\ nth leg (fst a) 0 = nth mc (fst f) 0 /\ e = (upd (fst a) leg (nth (1 - mc) (fst f) 0), op (snd a) (snd f)).
  Proof.
    unfold mraw. rewrite in_map_iff. split.
    - intros ([p q] & <- & I). apply cw_In in I. destruct I as (Hp & Hq & E). exists (nth p sT (noentry K)), (nth q sortD (noentry bool)). split; [apply (Permutation_in _ (sortA_perm cod dom leg T)), nth_In, Hp|]. split; [apply (Permutation_in _ sortD_perm), nth_In, Hq|]. split; [exact E|reflexivity].
    - intros (a & f & Ia & If & E & ->). apply (Permutation_in _ (Permutation_sym (sortA_perm cod dom leg T))) in Ia. destruct (In_nth _ _ (noentry K) Ia) as (p & Hp & Ep). apply (Permutation_in _ (Permutation_sym sortD_perm)) in If. destruct (In_nth _ _ (noentry bool) If) as (q & Hq & Eq).
      exists (p, q). cbn [fst snd]. rewrite Ep, Eq. split; [reflexivity|]. apply cw_In. rewrite Ep, Eq. auto.
  Qed.
  Lemma row_inj (a a' : list nat * blk K) : In a T -> In a' T -> fst a = fst a' -> a = a'.
  Proof.
    pose proof (data_ok_NoDup (to_data TT)) as ND. clear -ND. induction T as [|t T' IH]; [intros []|]. cbn [map] in ND. apply NoDup_cons_iff in ND. destruct ND as [NI ND]. intros [ -> |I] [ -> |I'] E; [reflexivity| | |now apply IH]; exfalso; apply NI; [rewrite E|rewrite <- E]; now apply in_map.
  Qed.
  Lemma mraw_NoDup : NoDup (map fst mraw).
  Proof.
    unfold mraw. rewrite map_map. cbn [fst]. apply NoDup_map_inj; [|exact cw_NoDup]. intros [p q] [p' q'] I I' E. cbn [fst snd] in E. apply cw_In in I, I'. destruct I as (Hp & Hq & E1). destruct I' as (Hp' & Hq' & E2).
    assert (LR : forall i, i < length sT -> length (fst (nth i sT (noentry K))) = length legs).
    { intros i Hi. assert (J : In (nth i sT (noentry K)) T) by (apply (Permutation_in _ (sortA_perm cod dom leg T)), nth_In, Hi). rewrite (valid_length (do_valid (to_data TT) J)). apply map_length. }
    assert (EO : nth (1 - mc) (fst (nth q sortD (noentry bool))) 0 = nth (1 - mc) (fst (nth q' sortD (noentry bool))) 0).
    { pose proof (f_equal (fun r => nth leg r 0) E) as X. cbv beta in X. rewrite !nth_upd_eq in X by (rewrite LR; assumption). exact X. }
    assert (Q : q = q').
    { assert (NO : NoDup (map (fun e : list nat * bblk => nth (1 - mc) (fst e) 0) sortD)) by (eapply Permutation_NoDup; [apply Permutation_map, Permutation_sym, sortD_perm|exact HO]). apply (proj1 (NoDup_nth _ 0) NO); [rewrite map_length; exact Hq|rewrite map_length; exact Hq'|]. rewrite !nth_map_lt with (d := noentry bool) by assumption. exact EO. }
    subst q'. f_equal. rewrite <- E2 in E1. assert (R : fst (nth p sT (noentry K)) = fst (nth p' sT (noentry K))).
    { rewrite <- (upd_nth 0 (fst (nth p sT (noentry K))) leg), <- (upd_nth 0 (fst (nth p' sT (noentry K))) leg), <- E1. rewrite <- (upd_upd (fst (nth p sT (noentry K))) leg (nth (1 - mc) (fst (nth q sortD (noentry bool))) 0)), E, upd_upd. reflexivity. }
    assert (NT : NoDup (map fst sT)) by (eapply Permutation_NoDup; [apply Permutation_map, Permutation_sym, sortA_perm|exact (data_ok_NoDup (to_data TT))]).
    apply (proj1 (NoDup_nth _ []) NT); [rewrite map_length; exact Hp|rewrite map_length; exact Hp'|]. rewrite !nth_map_lt with (d := noentry K) by assumption. exact R.
  Qed.
End Walk.
