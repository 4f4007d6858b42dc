(** scale_axis for a codomain or domain with one factor. *)
From Verif Require Import Util StableSort RowModel RowProofs GridModel GridProofs SymModel SymProofs CatSpec Sums SpaceModel SpaceSpec SpaceProofs SpaceProofs7
  PipeModel TreeModel TensorModel TensorSpec TensorProofs TensorProofs5 BlockModel BlockProofs SparseModel SparseProofs SparseProofs3 SparseProofs5 ConvertModel ConvertSpec ConvertProofs3 FtOpsModel FtOpsSpec FtOpsProofs FtOpsProofs2 FtOpsProofs3 FtOpsProofs4 FtOpsProofs5 FtOpsProofs6.
Set Implicit Arguments. Unset Strict Implicit.
Open Scope nat_scope.

Section Seven.
  Variable K : Type.
  Variable o : ops K.
  Notation block := (blk K).
  Notation fdata := (list (nat * nat * blk K)).
  Notation key1 := (fun e : nat * nat * blk K => snd (fst e)).
  Notation key0 := (fun e : nat * nat * blk K => fst (fst e)).
  Notation nob := ((0, 0), Blk [] []).
  Variable S : tsymm.
  Hypothesis OK : tsymm_ok S.
  Variables P Q : tprod.
  Hypothesis HP : tp_ok S P.
  Hypothesis HQ : tp_ok S Q.
  Variables A D : fdata.
  Hypothesis OA : ft_ok P Q A.
  Hypothesis SR : is_semiring o.
  Lemma scale_at m n (B V : block) k ax x y : is_matrix m n B -> is_vector k V -> x < m -> y < n ->
    is_matrix m n (bscale_axis o B V ax) /\ bat o (bscale_axis o B V ax) [x; y] = omul o (bat o B [x; y]) (bat o V [nth ax [x; y] 0]).
  Proof.
    intros [E W] [E' W'] Hx Hy. unfold bscale_axis. rewrite E. split; [split; [reflexivity|apply bmk_wf]|]. rewrite bat_bmk; [reflexivity|]. constructor; [exact Hx|]. constructor; [exact Hy|constructor].
  Qed.
  Definition srow (in_domain : bool) (a d : nat * nat * block) : nat * nat * block :=
    (if in_domain then (fst (fst a), fst (fst d)) else (fst (fst d), snd (fst a)), bscale_axis o (snd a) (snd d) (if in_domain then 1 else 0)).
  Definition skey (in_domain : bool) : nat * nat * block -> nat := if in_domain then key1 else key0.
  Lemma scale_eq in_domain : ft_scale_single o in_domain A D = map (fun p => srow in_domain (fst p) (snd p)) (wpairs (skey in_domain) key0 nob nob [] A [] D).
  Proof.
    unfold ft_scale_single. rewrite <- (map_frow (srow in_domain) A D (skey in_domain) key0).
    destruct A as [|a l]; [destruct in_domain; reflexivity|]. destruct D as [|d l']; [destruct in_domain; reflexivity|]. destruct in_domain; cbn [length Nat.ltb Nat.leb andb]; rewrite ft_make_true; reflexivity.
  Qed.
  Variable in_domain : bool.
  Lemma srow_fst a d : In a A -> skey in_domain a = fst (fst d) -> fst (srow in_domain a d) = fst a.
  Proof. intros I E. unfold srow, skey in *. cbn [fst]. destruct in_domain; rewrite <- E; now destruct (fst a). Qed.
  Let L := if in_domain then Q else P.
  Hypothesis OD : diag_ok L D.
  Lemma HL : tp_ok S L.
  Proof. unfold L. now destruct in_domain. Qed.
  Lemma skey_sorted : StronglySorted lt (map (skey in_domain) A).
  Proof. unfold skey. destruct in_domain; [apply (fo_sorted OA)|apply (col0_sorted OK HP HQ OA)]. Qed.
  Lemma d_sorted : StronglySorted lt (map key0 D).
  Proof. rewrite (diag_key0 OD). apply (go_sorted OD). Qed.
  Lemma sp_In a d : In (a, d) (wpairs (skey in_domain) key0 nob nob [] A [] D) <-> In a A /\ In d D /\ skey in_domain a = fst (fst d).
  Proof. apply wpairs_spec; [apply skey_sorted|apply d_sorted]. Qed.
  Lemma scale_ok : ft_ok P Q (ft_scale_single o in_domain A D).
  Proof.
    rewrite scale_eq. assert (IN := sp_In). assert (SS := proj2 (@wpairs_spec _ _ (skey in_domain) key0 nob nob A [] D [] skey_sorted d_sorted)). set (W := wpairs (skey in_domain) key0 nob nob [] A [] D) in *.
    apply ft_ok_sorted.
    - rewrite map_map. clear -IN SS OA OK HP HQ. assert (IN' : forall p, In p W -> In (fst p) A /\ skey in_domain (fst p) = fst (fst (snd p))) by (intros [a d] I; apply IN in I; cbn; tauto). clear IN. revert SS IN'. induction W as [|[a d] l IH]; intros SS IN; [constructor|].
      cbn [map] in *. apply StronglySorted_inv in SS. destruct SS as [SS FA]. constructor; [apply IH; auto; intros p I; apply IN; now right|]. apply Forall_forall. intros k I. apply in_map_iff in I. destruct I as [[a' d'] [<- I]]. cbn [fst snd].
      rewrite Forall_forall in FA. assert (LT := FA _ (in_map (fun p => skey in_domain (fst p)) _ _ I)). cbn [fst] in LT.
      destruct (IN (a, d) (or_introl eq_refl)) as [I1 E1]. destruct (IN (a', d') (or_intror I)) as [I2 E2]. cbn [fst snd] in *. rewrite (srow_fst I1 E1), (srow_fst I2 E2). unfold skey in LT. destruct in_domain; [exact LT|].
      destruct (Nat.lt_trichotomy (snd (fst a)) (snd (fst a'))) as [G|[G|G]]; [exact G| |]; exfalso.
      + assert (a = a') by (apply (same_row (lt_NoDup (fo_sorted OA))); auto). subst. lia.
      + assert (X : fst (fst a') < fst (fst a)); [|lia]. apply (strictly_lt (tp_sorted OK HP)); [apply (fo_range OA I2)|apply (fo_range OA I1)|]. rewrite (fo_sector OA I1), (fo_sector OA I2).
        apply (proj1 (StronglySorted_nth lex_lt [] (tp_secs Q)) (tp_sorted OK HQ)). split; [exact G|apply (fo_range OA I1)].
    - intros e I. apply in_map_iff in I. destruct I as [[a d] [<- I]]. apply IN in I. destruct I as (Ia & Id & E). cbn [fst snd]. rewrite (srow_fst Ia E). destruct (fo_range OA Ia) as [R1 R2]. split; [exact R1|]. split; [exact R2|]. split; [apply (fo_sector OA Ia)|].
      cbn [srow snd]. split; [apply (fo_shape OA Ia)|apply bmk_wf].
  Qed.
  Lemma scale_get c : ft_get Q (ft_scale_single o in_domain A D) c = match ft_get Q A c, ft_get L D c with Some a, Some d => Some (bscale_axis o a d (if in_domain then 1 else 0)) | _, _ => None end.
  Proof.
    assert (SEC : forall a, In a A -> nth (skey in_domain a) (tp_secs L) [] = nth (snd (fst a)) (tp_secs Q) []) by (intros a Ia; unfold skey, L; destruct in_domain; [reflexivity|apply (fo_sector OA Ia)]).
    assert (RNG : forall a, In a A -> skey in_domain a < length (tp_secs L)) by (intros a Ia; destruct (fo_range OA Ia); unfold skey, L; now destruct in_domain).
    apply get_eq; [apply (secs_NoDup OK HQ)|apply (ft_keyed scale_ok)|]. intros X. rewrite scale_eq. split.
    - intros [e [I [E EX]]]. apply in_map_iff in I. destruct I as [[a d] [<- I]]. apply sp_In in I. destruct I as (Ia & Id & Ek). cbn [fst snd] in E, EX. rewrite (srow_fst Ia Ek) in E.
      assert (GA : ft_get Q A c = Some (snd a)) by (apply (get_ok OK _ _ HQ OA); now exists a).
      assert (GD : ft_get L D c = Some (snd d)) by (apply (get_diag_ok OK _ _ HL OD); exists d; split; [exact Id|]; split; [|reflexivity]; rewrite <- (go_diag OD Id), <- Ek, (SEC a Ia); exact E). rewrite GA, GD, <- EX. reflexivity.
    - destruct (ft_get Q A c) as [xa|] eqn:GA; [|discriminate]. destruct (ft_get L D c) as [xd|] eqn:GD; [|discriminate]. intros [= <-]. apply (get_ok OK _ _ HQ OA) in GA. apply (get_diag_ok OK _ _ HL OD) in GD.
      destruct GA as [a [Ia [Ea <-]]], GD as [d [Id [Ed <-]]]. assert (Ek : skey in_domain a = fst (fst d)). { rewrite (go_diag OD Id). apply (inj_idx OK HL); [now apply RNG|apply (go_range OD Id)|]. rewrite (SEC a Ia). congruence. }
      exists (srow in_domain a d). split; [apply in_map_iff; exists (a, d); split; [reflexivity|]; apply sp_In; auto|]. rewrite (srow_fst Ia Ek). split; [exact Ea|reflexivity].
  Qed.
  Lemma scale_entry c x y : x < block_size P c -> y < block_size Q c -> ft_entry o Q (ft_scale_single o in_domain A D) c x y = omul o (ft_entry o Q A c x y) (diag_entry o L D c (if in_domain then y else x)).
  Proof.
    intros Hx Hy. rewrite !ft_entry_get, diag_entry_get, scale_get. destruct (ft_get Q A c) as [a|] eqn:GA; [destruct (ft_get L D c) as [d|] eqn:GD|].
    - destruct (scale_at (if in_domain then 1 else 0) (get_matrix OK HP HQ OA GA) (get_vector OK HL OD GD) Hx Hy) as [_ ->]. f_equal. f_equal. now destruct in_domain.
    - symmetry. apply (mul_0_r SR).
    - symmetry. apply (SRmul_0_l SR).
  Qed.
End Seven.
