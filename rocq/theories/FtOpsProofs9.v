(** QR, LQ, SVD and eigenvalue decompositions. *)
From Verif Require Import Util StableSort RowModel RowProofs GridModel GridProofs SymModel SymProofs CatSpec Sums SpaceModel SpaceSpec SpaceProofs SpaceProofs7
  PipeModel TreeModel TensorModel TensorSpec FormalSum TensorProofs TensorProofs5 BlockModel BlockProofs SparseModel SparseProofs SparseProofs3 SparseProofs5 ConvertModel ConvertSpec ConvertProofs3 FtOpsModel FtOpsSpec
  FtOpsProofs FtOpsProofs2 FtOpsProofs3 FtOpsProofs4 FtOpsProofs5 FtOpsProofs6 FtOpsProofs8.
Set Implicit Arguments. Unset Strict Implicit.
Open Scope nat_scope.

Section Eye.
  Variable K : Type.
  Variable o : ops K.
  Hypothesis SR : is_semiring o.
  Hypothesis C0 : oconj o (o0 o) = o0 o.
  Hypothesis C1 : oconj o (o1 o) = o1 o.
  Lemma conj_delta x y : oconj o (delta o x y) = delta o x y.
  Proof. unfold delta. destruct (x =? y); auto. Qed.
  Lemma delta_sym x y : delta o x y = delta o y x.
  Proof. unfold delta. now rewrite Nat.eqb_sym. Qed.
  Lemma sum_delta n z f : z < n -> sumn o n (fun x => omul o (delta o x z) (f x)) = f z.
  Proof.
    intros H. unfold sumn. rewrite (@sum_single K o SR _ _ (seq 0 n) z (seq_NoDup n 0)).
    - unfold delta. rewrite Nat.eqb_refl. apply (SRmul_1_l SR).
    - apply in_seq. lia.
    - intros y _ N. unfold delta. rewrite (proj2 (Nat.eqb_neq y z) N). apply (SRmul_0_l SR).
  Qed.
  Lemma eye_cols_matrix m k : is_matrix m k (eye_cols o m k).
  Proof. split; [unfold eye_cols, bslice; cbn [bmk bshape combine map fst snd]; now rewrite !Nat.sub_0_r|apply bmk_wf]. Qed.
  Lemma eye_cols_at m k x z : x < m -> z < k -> k <= m -> bat o (eye_cols o m k) [x; z] = delta o x z.
  Proof. intros Hx Hz L. unfold eye_cols, bslice. rewrite bat_bmk; [|cbn [combine map fst snd]; rewrite !Nat.sub_0_r; constructor; [exact Hx|]; constructor; [exact Hz|constructor]]. cbn [combine map fst snd Nat.add]. apply eye_at; lia. Qed.
  Lemma eye_rows_matrix k n : is_matrix k n (eye_rows o k n).
  Proof. split; [unfold eye_rows, bslice; cbn [bmk bshape combine map fst snd]; now rewrite !Nat.sub_0_r|apply bmk_wf]. Qed.
  Lemma eye_rows_at k n z y : z < k -> y < n -> k <= n -> bat o (eye_rows o k n) [z; y] = delta o z y.
  Proof. intros Hz Hy L. unfold eye_rows, bslice. rewrite bat_bmk; [|cbn [combine map fst snd]; rewrite !Nat.sub_0_r; constructor; [exact Hz|]; constructor; [exact Hy|constructor]]. cbn [combine map fst snd Nat.add]. apply eye_at; lia. Qed.
  Lemma sumn_ext n (f g : nat -> K) : (forall x, x < n -> f x = g x) -> sumn o n f = sumn o n g.
  Proof. intros H. unfold sumn. apply sum_ext. intros x I. apply in_seq in I. apply H. lia. Qed.
  Lemma sumn_zero n (f : nat -> K) : (forall x, x < n -> f x = o0 o) -> sumn o n f = o0 o.
  Proof. intros H. unfold sumn. apply (sum_zero SR). intros x I. apply in_seq in I. apply H. lia. Qed.
  Lemma iso_cols_eye m k : k <= m -> iso_cols o m k (mat o (eye_cols o m k)).
  Proof.
    intros L z w Hz Hw. unfold mat. transitivity (sumn o m (fun x => omul o (delta o x z) (delta o x w))).
    - apply sumn_ext. intros x Hx. rewrite !eye_cols_at by lia. now rewrite conj_delta.
    - now rewrite (sum_delta (fun x => delta o x w)) by lia.
  Qed.
  Lemma iso_rows_eye k n : k <= n -> iso_rows o k n (mat o (eye_rows o k n)).
  Proof.
    intros L z w Hz Hw. unfold mat. transitivity (sumn o n (fun y => omul o (delta o y z) (delta o y w))).
    - apply sumn_ext. intros y Hy. rewrite !eye_rows_at by lia. rewrite conj_delta. now rewrite (delta_sym z y), (delta_sym w y).
    - now rewrite (sum_delta (fun y => delta o y w)) by lia.
  Qed.
  Lemma iso_cols_ext m k (f g : nat -> nat -> K) : (forall x z, x < m -> z < k -> f x z = g x z) -> iso_cols o m k g -> iso_cols o m k f.
  Proof. intros E H z w Hz Hw. rewrite <- (H z w Hz Hw). apply sumn_ext. intros x Hx. now rewrite !E. Qed.
  Lemma iso_rows_ext k n (f g : nat -> nat -> K) : (forall z y, z < k -> y < n -> f z y = g z y) -> iso_rows o k n g -> iso_rows o k n f.
  Proof. intros E H z w Hz Hw. rewrite <- (H z w Hz Hw). apply sumn_ext. intros y Hy. now rewrite !E. Qed.

  Notation fdata := (list (nat * nat * blk K)).
  Lemma stored_In Q (A : fdata) c B : ft_get Q A c = Some B -> In B (map snd A).
  Proof. unfold ft_get. destruct (find _ A) as [e|] eqn:E; [|discriminate]. intros [= <-]. apply in_map. now apply find_some in E. Qed.
  Variable S : tsymm.
  Hypothesis OK : tsymm_ok S.
  Section PQ.
    Variables P Q N : tprod.
    Hypothesis HP : tp_ok S P.
    Hypothesis HQ : tp_ok S Q.
    Hypothesis HN : tp_ok S N.
    Hypothesis NM : forall c, block_size N c = Nat.min (block_size P c) (block_size Q c).
    Variable A : fdata.
    Hypothesis OA : ft_ok P Q A.
    Definition some_ (g : blk K -> blk K) (d : sector -> blk K) (c : sector) (B : option (blk K)) : option (blk K) := Some (match B with Some B => g B | None => d c end).
    Definition ecs (c : sector) : blk K := eye_cols o (block_size P c) (block_size N c).
    Definition ers (c : sector) : blk K := eye_rows o (block_size N c) (block_size Q c).
    Lemma HF_ecols g k : k < length (tp_secs N) -> forall B, always lrow_ g (ecols o P N) k (nth k (pairs P Q) np) B =
      match some_ g ecs (nth k (tp_secs N) []) B with Some X => [(lrow_ k (nth k (pairs P Q) np), X)] | None => [] end.
    Proof.
      intros Hk B. unfold always, some_. destruct B; [reflexivity|]. unfold ecols, ecs. destruct (pair_spec OK HP HQ HN NM Hk) as (X1 & X2 & X3 & X4 & X5 & X6). rewrite X5, (N_nth OK HN Hk). reflexivity.
    Qed.
    Lemma HF_erows g k : k < length (tp_secs N) -> forall B, always rrow_ g (erows o Q N) k (nth k (pairs P Q) np) B =
      match some_ g ers (nth k (tp_secs N) []) B with Some X => [(rrow_ k (nth k (pairs P Q) np), X)] | None => [] end.
    Proof.
      intros Hk B. unfold always, some_. destruct B; [reflexivity|]. unfold erows, ers. destruct (pair_spec OK HP HQ HN NM Hk) as (X1 & X2 & X3 & X4 & X5 & X6). rewrite X6, (N_nth OK HN Hk). reflexivity.
    Qed.
    Lemma HF_present row (g : blk K -> blk K) k : forall B : option (blk K), present row g k (nth k (pairs P Q) np) B = match option_map g B with Some X => [(row k (nth k (pairs P Q) np), X)] | None => [] end.
    Proof. intros [B|]; reflexivity. Qed.
    Lemma Npos k : k < length (tp_secs N) -> 0 < block_size N (nth k (tp_secs N) []).
    Proof. intros H. apply (In_secs OK _ HN). now apply nth_In. Qed.

    Theorem qr_spec f q r : qr_contract o (map snd A) f -> ft_qr o P Q N f A = (q, r) ->
      ft_ok P N q /\ ft_ok N Q r /\ (forall c, iso_cols o (block_size P c) (block_size N c) (ft_entry o N q c)) /\
      forall c x y, x < block_size P c -> y < block_size Q c -> ft_entry o Q A c x y = sumn o (block_size N c) (fun z => omul o (ft_entry o N q c x z) (ft_entry o Q r c z y)).
    Proof.
      intros QC. unfold ft_qr. rewrite qr_loop_eq. fold (pairs P Q). intros [= <- <-].
      assert (CB : forall c B, ft_get Q A c = Some B -> is_matrix (block_size P c) (block_size N c) (fst (f B)) /\ is_matrix (block_size N c) (block_size Q c) (snd (f B)) /\ iso_cols o (block_size P c) (block_size N c) (mat o (fst (f B))) /\
        forall x y, x < block_size P c -> y < block_size Q c -> mat o B x y = sumn o (block_size N c) (fun z => omul o (mat o (fst (f B)) x z) (mat o (snd (f B)) z y))).
      { intros c B G. rewrite (NM c). destruct (f B) as [q r] eqn:E. apply (QC _ _ B q r (stored_In G) (get_matrix OK HP HQ OA G) E). }
      assert (HM : forall k X, k < length (tp_secs N) -> some_ (fun B => fst (f B)) ecs (nth k (tp_secs N) []) (ft_get Q A (nth k (tp_secs N) [])) = Some X -> is_matrix (block_size P (nth k (tp_secs N) [])) (block_size N (nth k (tp_secs N) [])) X).
      { intros k X Hk. unfold some_. intros [= <-]. destruct (ft_get Q A (nth k (tp_secs N) [])) as [B|] eqn:G; [now apply CB|apply eye_cols_matrix]. }
      assert (HR : forall k X, k < length (tp_secs N) -> option_map (fun B => snd (f B)) (ft_get Q A (nth k (tp_secs N) [])) = Some X -> is_matrix (block_size N (nth k (tp_secs N) [])) (block_size Q (nth k (tp_secs N) [])) X).
      { intros k X Hk. destruct (ft_get Q A (nth k (tp_secs N) [])) as [B|] eqn:G; [|discriminate]. intros [= <-]. now apply CB. }
      assert (OQ := @left_ok K P Q N S OK HP HQ HN NM A OA _ (some_ (fun B => fst (f B)) ecs) (@HF_ecols (fun B => fst (f B))) HM false). assert (OR := @right_ok K P Q N S OK HP HQ HN NM A OA _ (fun _ => option_map (fun B => snd (f B))) (fun k _ => @HF_present rrow_ _ k) HR).
      assert (GQ := @left_get K P Q N S OK HP HQ HN NM A OA _ (some_ (fun B => fst (f B)) ecs) (@HF_ecols (fun B => fst (f B))) HM false). assert (GR := @right_get K P Q N S OK HP HQ HN NM A OA _ (fun _ => option_map (fun B => snd (f B))) (fun k _ => @HF_present rrow_ _ k) HR).
      split; [exact OQ|]. split; [exact OR|]. split.
      - intros c z w Hz Hw. revert z w Hz Hw. change (iso_cols o (block_size P c) (block_size N c) (ft_entry o N (ft_make (gloop (always lrow_ (fun B => fst (f B)) (ecols o P N)) (pairs P Q) 0 A) false) c)).
        destruct (Nat.eq_dec (block_size N c) 0) as [Z|Z]; [rewrite Z; intros z w Hz; lia|]. assert (Pos : 0 < block_size N c) by lia. assert (E := GQ c Pos). unfold some_ in E.
        destruct (ft_get Q A c) as [B|] eqn:G.
        + apply iso_cols_ext with (g := mat o (fst (f B))); [|now apply CB]. intros x z _ _. now rewrite ft_entry_get, E.
        + apply iso_cols_ext with (g := mat o (ecs c)); [|apply iso_cols_eye; rewrite NM; lia]. intros x z _ _. now rewrite ft_entry_get, E.
      - intros c x y Hx Hy. destruct (Nat.eq_dec (block_size N c) 0) as [Z|Z]; [rewrite NM in Z; lia|]. assert (Pos : 0 < block_size N c) by lia. assert (E := GQ c Pos). assert (E' := GR c Pos). unfold some_ in E. rewrite (ft_entry_get o Q A).
        destruct (ft_get Q A c) as [B|] eqn:G; cbn [option_map] in E'.
        + destruct (CB c B G) as (_ & _ & _ & F). fold (mat o B x y). rewrite (F x y Hx Hy). apply sumn_ext. intros z _. now rewrite !ft_entry_get, E, E'.
        + symmetry. apply sumn_zero. intros z _. rewrite (ft_entry_get o Q (ft_make _ _)), E'. apply (mul_0_r SR).
    Qed.
    Theorem lq_spec f l q : lq_contract o (map snd A) f -> ft_lq o P Q N f A = (l, q) ->
      ft_ok P N l /\ ft_ok N Q q /\ (forall c, iso_rows o (block_size N c) (block_size Q c) (ft_entry o Q q c)) /\
      forall c x y, x < block_size P c -> y < block_size Q c -> ft_entry o Q A c x y = sumn o (block_size N c) (fun z => omul o (ft_entry o N l c x z) (ft_entry o Q q c z y)).
    Proof.
      intros QC. unfold ft_lq. rewrite lq_loop_eq. fold (pairs P Q). intros [= <- <-].
      assert (CB : forall c B, ft_get Q A c = Some B -> is_matrix (block_size P c) (block_size N c) (fst (f B)) /\ is_matrix (block_size N c) (block_size Q c) (snd (f B)) /\ iso_rows o (block_size N c) (block_size Q c) (mat o (snd (f B))) /\
        forall x y, x < block_size P c -> y < block_size Q c -> mat o B x y = sumn o (block_size N c) (fun z => omul o (mat o (fst (f B)) x z) (mat o (snd (f B)) z y))).
      { intros c B G. rewrite (NM c). destruct (f B) as [q r] eqn:E. apply (QC _ _ B q r (stored_In G) (get_matrix OK HP HQ OA G) E). }
      assert (HM : forall k X, k < length (tp_secs N) -> option_map (fun B => fst (f B)) (ft_get Q A (nth k (tp_secs N) [])) = Some X -> is_matrix (block_size P (nth k (tp_secs N) [])) (block_size N (nth k (tp_secs N) [])) X).
      { intros k X Hk. destruct (ft_get Q A (nth k (tp_secs N) [])) as [B|] eqn:G; [|discriminate]. intros [= <-]. now apply CB. }
      assert (HR : forall k X, k < length (tp_secs N) -> some_ (fun B => snd (f B)) ers (nth k (tp_secs N) []) (ft_get Q A (nth k (tp_secs N) [])) = Some X -> is_matrix (block_size N (nth k (tp_secs N) [])) (block_size Q (nth k (tp_secs N) [])) X).
      { intros k X Hk. unfold some_. intros [= <-]. destruct (ft_get Q A (nth k (tp_secs N) [])) as [B|] eqn:G; [now apply CB|apply eye_rows_matrix]. }
      assert (OL := @left_ok K P Q N S OK HP HQ HN NM A OA _ (fun _ => option_map (fun B => fst (f B))) (fun k _ => @HF_present lrow_ _ k) HM true). assert (OR := @right_ok K P Q N S OK HP HQ HN NM A OA _ (some_ (fun B => snd (f B)) ers) (@HF_erows (fun B => snd (f B))) HR).
      assert (GL := @left_get K P Q N S OK HP HQ HN NM A OA _ (fun _ => option_map (fun B => fst (f B))) (fun k _ => @HF_present lrow_ _ k) HM true). assert (GR := @right_get K P Q N S OK HP HQ HN NM A OA _ (some_ (fun B => snd (f B)) ers) (@HF_erows (fun B => snd (f B))) HR).
      split; [exact OL|]. split; [exact OR|]. split.
      - intros c z w Hz Hw. revert z w Hz Hw. change (iso_rows o (block_size N c) (block_size Q c) (ft_entry o Q (ft_make (gloop (always rrow_ (fun B => snd (f B)) (erows o Q N)) (pairs P Q) 0 A) false) c)).
        destruct (Nat.eq_dec (block_size N c) 0) as [Z|Z]; [rewrite Z; intros z w Hz; lia|]. assert (Pos : 0 < block_size N c) by lia. assert (E := GR c Pos). unfold some_ in E.
        destruct (ft_get Q A c) as [B|] eqn:G.
        + apply iso_rows_ext with (g := mat o (snd (f B))); [|now apply CB]. intros x z _ _. now rewrite ft_entry_get, E.
        + apply iso_rows_ext with (g := mat o (ers c)); [|apply iso_rows_eye; rewrite NM; lia]. intros x z _ _. now rewrite ft_entry_get, E.
      - intros c x y Hx Hy. destruct (Nat.eq_dec (block_size N c) 0) as [Z|Z]; [rewrite NM in Z; lia|]. assert (Pos : 0 < block_size N c) by lia. assert (E := GR c Pos). assert (E' := GL c Pos). unfold some_ in E. rewrite (ft_entry_get o Q A).
        destruct (ft_get Q A c) as [B|] eqn:G; cbn [option_map] in E'.
        + destruct (CB c B G) as (_ & _ & _ & F). fold (mat o B x y). rewrite (F x y Hx Hy). apply sumn_ext. intros z _. now rewrite !ft_entry_get, E, E'.
        + symmetry. apply sumn_zero. intros z _. rewrite (ft_entry_get o N (ft_make _ _)), E'. apply (SRmul_0_l SR).
    Qed.
    Theorem svd_spec good f u s v : svd_contract o (map snd A) good f -> good (o0 o) -> ft_svd o P Q N f A = (u, s, v) ->
      ft_ok P N u /\ diag_ok N s /\ ft_ok N Q v /\ (forall c, iso_cols o (block_size P c) (block_size N c) (ft_entry o N u c)) /\ (forall c, iso_rows o (block_size N c) (block_size Q c) (ft_entry o Q v c)) /\
      (forall c z, z < block_size N c -> good (diag_entry o N s c z)) /\
      forall c x y, x < block_size P c -> y < block_size Q c ->
        ft_entry o Q A c x y = sumn o (block_size N c) (fun z => omul o (omul o (ft_entry o N u c x z) (diag_entry o N s c z)) (ft_entry o Q v c z y)).
    Proof.
      intros QC G0. unfold ft_svd. rewrite svd_loop_eq. fold (pairs P Q). intros [= <- <- <-].
      assert (CB : forall c B, ft_get Q A c = Some B -> is_matrix (block_size P c) (block_size N c) (fst (fst (f B))) /\ is_vector (block_size N c) (snd (fst (f B))) /\ is_matrix (block_size N c) (block_size Q c) (snd (f B)) /\
        iso_cols o (block_size P c) (block_size N c) (mat o (fst (fst (f B)))) /\ iso_rows o (block_size N c) (block_size Q c) (mat o (snd (f B))) /\ (forall z, z < block_size N c -> good (vec o (snd (fst (f B))) z)) /\
        forall x y, x < block_size P c -> y < block_size Q c -> mat o B x y = sumn o (block_size N c) (fun z => omul o (omul o (mat o (fst (fst (f B))) x z) (vec o (snd (fst (f B))) z)) (mat o (snd (f B)) z y))).
      { intros c B G. rewrite (NM c). destruct (f B) as [[u s] v] eqn:E. apply (QC _ _ B u s v (stored_In G) (get_matrix OK HP HQ OA G) E). }
      assert (HM : forall k X, k < length (tp_secs N) -> some_ (fun B => fst (fst (f B))) ecs (nth k (tp_secs N) []) (ft_get Q A (nth k (tp_secs N) [])) = Some X -> is_matrix (block_size P (nth k (tp_secs N) [])) (block_size N (nth k (tp_secs N) [])) X).
      { intros k X Hk. unfold some_. intros [= <-]. destruct (ft_get Q A (nth k (tp_secs N) [])) as [B|] eqn:G; [now apply CB|apply eye_cols_matrix]. }
      assert (HR : forall k X, k < length (tp_secs N) -> some_ (fun B => snd (f B)) ers (nth k (tp_secs N) []) (ft_get Q A (nth k (tp_secs N) [])) = Some X -> is_matrix (block_size N (nth k (tp_secs N) [])) (block_size Q (nth k (tp_secs N) [])) X).
      { intros k X Hk. unfold some_. intros [= <-]. destruct (ft_get Q A (nth k (tp_secs N) [])) as [B|] eqn:G; [now apply CB|apply eye_rows_matrix]. }
      assert (HS : forall c B, 0 < block_size N c -> ft_get Q A c = Some B -> is_vector (block_size N c) (snd (fst (f B)))) by (intros c B _ G; now apply CB).
      assert (OU := @left_ok K P Q N S OK HP HQ HN NM A OA _ (some_ (fun B => fst (fst (f B))) ecs) (@HF_ecols (fun B => fst (fst (f B)))) HM false). assert (OV := @right_ok K P Q N S OK HP HQ HN NM A OA _ (some_ (fun B => snd (f B)) ers) (@HF_erows (fun B => snd (f B))) HR). assert (OS := @mid_ok K P Q N S OK HP HQ HN NM A OA (fun B => snd (fst (f B))) HS).
      assert (GU := @left_get K P Q N S OK HP HQ HN NM A OA _ (some_ (fun B => fst (fst (f B))) ecs) (@HF_ecols (fun B => fst (fst (f B)))) HM false). assert (GV := @right_get K P Q N S OK HP HQ HN NM A OA _ (some_ (fun B => snd (f B)) ers) (@HF_erows (fun B => snd (f B))) HR).
      assert (GS := @mid_get K P Q N S OK HP HQ HN NM A OA (fun B => snd (fst (f B))) HS).
      split; [exact OU|]. split; [exact OS|]. split; [exact OV|]. split; [|split; [|split]].
      - intros c z w Hz Hw. revert z w Hz Hw. change (iso_cols o (block_size P c) (block_size N c) (ft_entry o N (ft_make (gloop (always lrow_ (fun B => fst (fst (f B))) (ecols o P N)) (pairs P Q) 0 A) false) c)).
        destruct (Nat.eq_dec (block_size N c) 0) as [Z|Z]; [rewrite Z; intros z w Hz; lia|]. assert (Pos : 0 < block_size N c) by lia. assert (E := GU c Pos). unfold some_ in E.
        destruct (ft_get Q A c) as [B|] eqn:G.
        + apply iso_cols_ext with (g := mat o (fst (fst (f B)))); [|now apply CB]. intros x z _ _. now rewrite ft_entry_get, E.
        + apply iso_cols_ext with (g := mat o (ecs c)); [|apply iso_cols_eye; rewrite NM; lia]. intros x z _ _. now rewrite ft_entry_get, E.
      - intros c z w Hz Hw. revert z w Hz Hw. change (iso_rows o (block_size N c) (block_size Q c) (ft_entry o Q (ft_make (gloop (always rrow_ (fun B => snd (f B)) (erows o Q N)) (pairs P Q) 0 A) false) c)).
        destruct (Nat.eq_dec (block_size N c) 0) as [Z|Z]; [rewrite Z; intros z w Hz; lia|]. assert (Pos : 0 < block_size N c) by lia. assert (E := GV c Pos). unfold some_ in E.
        destruct (ft_get Q A c) as [B|] eqn:G.
        + apply iso_rows_ext with (g := mat o (snd (f B))); [|now apply CB]. intros x z _ _. now rewrite ft_entry_get, E.
        + apply iso_rows_ext with (g := mat o (ers c)); [|apply iso_rows_eye; rewrite NM; lia]. intros x z _ _. now rewrite ft_entry_get, E.
      - intros c z Hz. rewrite diag_entry_get, (GS c) by lia. destruct (ft_get Q A c) as [B|] eqn:G; cbn [option_map]; [|exact G0]. destruct (CB c B G) as (_ & _ & _ & _ & _ & F & _). now apply F.
      - intros c x y Hx Hy. destruct (Nat.eq_dec (block_size N c) 0) as [Z|Z]; [rewrite NM in Z; lia|]. assert (Pos : 0 < block_size N c) by lia. assert (E := GU c Pos). assert (E' := GV c Pos). assert (E2 := GS c Pos). unfold some_ in E, E'. rewrite (ft_entry_get o Q A).
        destruct (ft_get Q A c) as [B|] eqn:G; cbn [option_map] in E2.
        + destruct (CB c B G) as (_ & _ & _ & _ & _ & _ & F). fold (mat o B x y). rewrite (F x y Hx Hy). apply sumn_ext. intros z _. now rewrite !ft_entry_get, diag_entry_get, E, E', E2.
        + symmetry. apply sumn_zero. intros z _. rewrite diag_entry_get, E2, (mul_0_r SR). apply (SRmul_0_l SR).
    Qed.
  End PQ.
  (** *** eigenvalue decomposition *)
  Section Eigh.
    Variables P N : tprod.
    Hypothesis HP : tp_ok S P.
    Hypothesis HN : tp_ok S N.
    Hypothesis NM : forall c, block_size N c = block_size P c.
    Lemma same_secs : tp_secs N = tp_secs P /\ tp_mults N = tp_mults P.
    Proof.
      destruct (tp_ok_spec OK HP) as [OP _], (tp_ok_spec OK HN) as [ON _]. apply sorted_feq_eq; try (apply (tp_sorted OK); assumption); try (apply (tp_len OK); assumption); [apply (sk_pos ON)|apply (sk_pos OP)|].
      assert (M : forall c, sp_mult (tp_space N) c = sp_mult (tp_space P) c).
      { intros c. assert (E := NM c). unfold block_size in E. rewrite !sector_multiplicity_spec in E by (apply (sk_nodup ON) || apply (sk_nodup OP) || apply (sk_len ON) || apply (sk_len OP)). exact E. }
      intros c. rewrite !fmult_mult_of. exact (M c).
    Qed.
    Variable A : fdata.
    Hypothesis OA : ft_ok P P A.
    Lemma eigh_loop_eq f : forall k i (F : fdata), StronglySorted lt (map (fun e => fst (fst e)) F) -> (forall e, In e F -> i <= fst (fst e) < i + k) ->
      eigh_loop o P f i k F = (map (fun e => fst (f (snd e))) F, fill_from (fun i => beye o (nth i (tp_mults P) 0)) i k (map (fun e => (fst e, snd (f (snd e)))) F)).
    Proof.
      induction k as [|k IH]; intros i F ST R.
      - destruct F as [|e F]; [reflexivity|]. specialize (R e (or_introl eq_refl)). lia.
      - cbn [eigh_loop fill_from]. destruct F as [|e F].
        + rewrite IH; [reflexivity|constructor|intros e []].
        + cbn [map] in *. assert (ST' := ST). apply StronglySorted_inv in ST'. destruct ST' as [ST' FA]. rewrite Forall_forall in FA. cbn [fst]. destruct (Nat.eqb_spec (fst (fst e)) i) as [E|E].
          * destruct (f (snd e)) as [w v] eqn:Ef. rewrite IH; [cbn [fst snd]; reflexivity|exact ST'|]. intros e' I. assert (L := FA _ (in_map (fun e => fst (fst e)) _ _ I)). cbn in L. specialize (R e' (or_intror I)). lia.
          * rewrite IH; [reflexivity|exact ST|]. intros e' I. assert (Re := R e (or_introl eq_refl)). assert (Re' := R e' I). destruct I as [<-|I]; [lia|]. assert (L := FA _ (in_map (fun e => fst (fst e)) _ _ I)). cbn in L. lia.
    Qed.
    Theorem eigh_spec good f w v : eigh_contract o (map snd A) good f -> good (o0 o) -> (forall c x y, x < block_size P c -> y < block_size P c -> ft_entry o P A c x y = oconj o (ft_entry o P A c y x)) ->
      ft_eigh o P f A = (w, v) ->
      diag_ok N w /\ ft_ok P N v /\ (forall c, iso_cols o (block_size P c) (block_size N c) (ft_entry o N v c)) /\ (forall c z, z < block_size N c -> good (diag_entry o N w c z)) /\
      forall c x y, x < block_size P c -> y < block_size P c ->
        ft_entry o P A c x y = sumn o (block_size N c) (fun z => omul o (omul o (ft_entry o N v c x z) (diag_entry o N w c z)) (oconj o (ft_entry o N v c y z))).
    Proof.
      intros EC G0 HER. assert (CS := col0_sorted OK HP HP OA). assert (SQ := square_ft OK HP OA). unfold ft_eigh. rewrite eigh_loop_eq; [|exact CS|intros e I; split; [lia|apply (fo_range OA I)]].
      fold (fill (fun i => beye o (nth i (tp_mults P) 0)) P (map (fun e => (fst e, snd (f (snd e)))) A)). set (vs := fill _ P _). rewrite ft_make_true.
      replace (combine (map fst A) (map (fun e => fst (f (snd e))) A)) with (map (fun e => (fst e, fst (f (snd e)))) A) by (clear; induction A as [|e l IH]; [reflexivity|]; cbn [map combine]; now rewrite <- IH).
      intros [= <- <-]. destruct same_secs as [ES EM].
      assert (CB : forall c B, ft_get P A c = Some B -> is_vector (block_size P c) (fst (f B)) /\ is_matrix (block_size P c) (block_size P c) (snd (f B)) /\ iso_cols o (block_size P c) (block_size P c) (mat o (snd (f B))) /\ (forall z, z < block_size P c -> good (vec o (fst (f B)) z)) /\
        forall x y, x < block_size P c -> y < block_size P c -> mat o B x y = sumn o (block_size P c) (fun z => omul o (omul o (mat o (snd (f B)) x z) (vec o (fst (f B)) z)) (oconj o (mat o (snd (f B)) y z)))).
      { intros c B G. destruct (f B) as [w v] eqn:E. apply (EC _ B w v (stored_In G) (get_matrix OK HP HP OA G)); [|exact E]. intros x y Hx Hy. assert (X := HER c x y Hx Hy). rewrite !ft_entry_get, G in X. exact X. }
      assert (SV : square_rows P (map (fun e => (fst e, snd (f (snd e)))) A)) by (split; [rewrite map_map; apply SQ|]; intros e I; apply in_map_iff in I; destruct I as [e' [<- I]]; cbn [fst]; now apply SQ).
      destruct (fill_get OK HP (fun i => beye o (nth i (tp_mults P) 0)) SV) as [LV NV]. fold vs in LV, NV.
      assert (NV' : forall i, i < length (tp_secs P) -> nth i vs (Blk [] []) = match ft_get P A (nth i (tp_secs P) []) with Some B => snd (f B) | None => beye o (nth i (tp_mults P) 0) end).
      { intros i Hi. rewrite (NV i Hi), (find_map_keys P (fun B => snd (f B)) A). now destruct (ft_get P A (nth i (tp_secs P) [])). }
      assert (OV : ft_ok P P (on_diag vs)).
      { apply (on_diag_mat LV). intros i Hi. rewrite (NV' i Hi), (block_size_nth OK HP Hi). destruct (ft_get P A (nth i (tp_secs P) [])) as [B|] eqn:G; [now apply CB|]. split; [reflexivity|apply bmk_wf]. }
      assert (GV : forall c, 0 < block_size P c -> ft_get P (on_diag vs) c = Some (match ft_get P A c with Some B => snd (f B) | None => beye o (block_size P c) end)).
      { intros c Hc. destruct (sec_nth OK HP Hc) as [i [Hi [<- Em]]]. rewrite (on_diag_get OK HP LV (ft_keyed OV) Hi), (NV' i Hi), Em. reflexivity. }
      assert (OW : diag_ok P (map (fun e => (fst e, fst (f (snd e)))) A)).
      { apply diag_ok_sorted; [rewrite map_map; apply SQ|]. intros e I. apply in_map_iff in I. destruct I as [e' [<- I]]. cbn [fst snd]. destruct (proj2 SQ e' I) as [R1 R2]. split; [exact R1|]. split; [exact R2|].
        assert (G : ft_get P A (nth (snd (fst e')) (tp_secs P) []) = Some (snd e')) by (apply (get_ok OK _ _ HP OA); now exists e'). destruct (CB _ _ G) as ((V1 & V2) & _). split; [now rewrite V1, (block_size_nth OK HP R2)|exact V2]. }
      assert (GW : forall c, ft_get P (map (fun e => (fst e, fst (f (snd e)))) A) c = option_map (fun B => fst (f B)) (ft_get P A c)) by (intros c; apply (find_map_keys P (fun B => fst (f B)) A c)).
      assert (EN : forall (F : fdata) c x y, ft_entry o N F c x y = ft_entry o P F c x y) by (intros; unfold ft_entry; now rewrite ES).
      assert (ED : forall (F : fdata) c x, diag_entry o N F c x = diag_entry o P F c x) by (intros; unfold diag_entry; now rewrite ES).
      split; [|split; [|split; [|split]]].
      - destruct OW as [W1 W2 W3 W4 W5]. constructor; auto; [intros e I; rewrite ES; auto|intros e I; rewrite EM; auto].
      - destruct OV as [W1 W2 W3 W4 W5]. constructor; auto; [intros e I; rewrite ES; auto|intros e I; rewrite ES; auto|intros e I; rewrite EM; auto].
      - intros c. rewrite NM. apply iso_cols_ext with (g := ft_entry o P (on_diag vs) c); [intros; apply EN|]. destruct (Nat.eq_dec (block_size P c) 0) as [Z|Z]; [rewrite Z; intros z y Hz; lia|]. assert (E := GV c ltac:(lia)).
        destruct (ft_get P A c) as [B|] eqn:G.
        + apply iso_cols_ext with (g := mat o (snd (f B))); [|now apply CB]. intros x z _ _. now rewrite ft_entry_get, E.
        + apply iso_cols_ext with (g := fun x z => delta o x z); [intros x z Hx Hz; rewrite ft_entry_get, E; now apply eye_at|]. intros z y Hz Hy. transitivity (sumn o (block_size P c) (fun x => omul o (delta o x z) (delta o x y))); [apply sumn_ext; intros x _; now rewrite conj_delta|]. now rewrite (sum_delta (fun x => delta o x y)).
      - intros c z Hz. rewrite ED, diag_entry_get, GW. destruct (ft_get P A c) as [B|] eqn:G; cbn [option_map]; [|exact G0]. rewrite NM in Hz. destruct (CB c B G) as (_ & _ & _ & F & _). now apply F.
      - intros c x y Hx Hy. assert (E := GV c ltac:(lia)). rewrite NM. rewrite (ft_entry_get o P A). destruct (ft_get P A c) as [B|] eqn:G.
        + destruct (CB c B G) as (_ & _ & _ & _ & F). fold (mat o B x y). rewrite (F x y Hx Hy). apply sumn_ext. intros z _. rewrite ED, !EN, !ft_entry_get, diag_entry_get, GW, E, G. reflexivity.
        + symmetry. apply sumn_zero. intros z _. rewrite ED, diag_entry_get, GW, G. cbn [option_map]. rewrite (mul_0_r SR). apply (SRmul_0_l SR).
    Qed.
  End Eigh.
End Eye.
