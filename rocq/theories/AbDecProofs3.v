(** QR, LQ and singular value decompositions of the abelian backend. *)
From Verif Require Import Util StableSort RowModel RowProofs GridModel GridProofs SymModel SymProofs CatSpec Sums SpaceModel SpaceSpec SpaceProofs SpaceProofs2 SpaceProofs7
  PipeModel PipeProofs PipeProofs2 TreeModel TensorModel TensorSpec BlockModel BlockProofs SparseModel SparseSpec SparseProofs SparseProofs3 SparseProofs6 SparseDense ConvertModel ConvertProofs3
  FtOpsModel FtOpsSpec FtOpsProofs2 FtOpsProofs3 FtOpsProofs4 FtOpsProofs8 FtOpsProofs9 AbDecModel AbDecSpec AbDecProofs AbDecProofs2.
Set Implicit Arguments. Unset Strict Implicit.
Open Scope nat_scope.

(** diagonal data as a vector *)
Lemma diag_vector (K : Type) N (W : list (list nat * blk K)) : diag_data_ok N W -> data_ok [N] (map (fun e => ([nth 0 (fst e) 0], snd e)) W).
Proof.
  intros OW. constructor.
  - assert (SS := dd_sorted OW). assert (RW := fun e I => dd_rows OW (e := e) I). clear OW. induction W as [|e l IH]; [constructor|]. cbn [map zrows] in *. apply StronglySorted_inv in SS. destruct SS as [SS FA]. constructor; [apply IH; auto; intros e' I; apply RW; now right|].
    apply Forall_forall. intros z Iz. apply in_map_iff in Iz. destruct Iz as (b & <- & Ib). rewrite map_map in Ib. apply in_map_iff in Ib. destruct Ib as (e' & <- & Ie). cbn [fst]. rewrite Forall_forall in FA. specialize (FA _ (in_map _ _ _ (in_map fst _ _ Ie))).
    destruct (RW e (or_introl eq_refl)) as (n & _ & E & _). destruct (RW e' (or_intror Ie)) as (n' & _ & E' & _). rewrite E, E' in *. cbn [nth map] in *. destruct FA as (_ & k & Hk & Lk & _). cbn [length] in Hk. assert (X : (Z.of_nat n < Z.of_nat n')%Z) by (destruct k as [|[|k]]; [exact Lk|exact Lk|lia]).
    split; [reflexivity|]. exists 0. cbn [length nth]. split; [lia|]. split; [exact X|]. intros k' Hk'. lia.
  - intros e I. apply in_map_iff in I. destruct I as (e' & <- & I). destruct (dd_rows OW I) as (n & Hn & E & _). cbn [fst]. rewrite E. repeat constructor. exact Hn.
  - intros e I. apply in_map_iff in I. destruct I as (e' & <- & I). destruct (dd_rows OW I) as (n & Hn & E & B). cbn [fst snd]. rewrite E. exact B.
  - intros e I. apply in_map_iff in I. destruct I as (e' & <- & I). apply (dd_full OW I).
Qed.

Section Dec.
  Variable K : Type.
  Variable o : ops K.
  Hypothesis SR : is_semiring o.
  Hypothesis C0 : oconj o (o0 o) = o0 o.
  Hypothesis C1 : oconj o (o1 o) = o1 o.
  Variable S : tsymm.
  Variable fuse : sector -> sector -> sector.
  Hypothesis OK : tsymm_ok S.
  Hypothesis G : abelian_group_laws S fuse.
  Notation adata := (list (list nat * blk K)).
  Notation sec L j := (nth j (es_decomp S L) []).
  Variables C D N : espace.
  Hypothesis OC : es_ok S C.
  Hypothesis OD : es_ok S D.
  Hypothesis ON : es_ok S N.
  Hypothesis NM : forall c, es_mult S N c = Nat.min (es_mult S C c) (es_mult S D c).
  Variable A : adata.
  Hypothesis TA : tensor_ok S [C] [D] A.
  Variable l : list drow.
  Hypothesis RL : rows_ok S C D N A l.
  Notation mC r := (nth (dr_j r) (es_mults C) 0).
  Notation mD r := (nth (dr_k r) (es_mults D) 0).
  Notation mN r := (nth (dr_n r) (es_mults N) 0).
  Lemma R_row r : In r l -> row_ok S C D N A r.
  Proof. apply RL. Qed.
  Lemma ND_j : NoDup (map dr_j l). Proof. apply RL. Qed.
  Lemma ND_k : NoDup (map dr_k l). Proof. apply RL. Qed.
  Lemma ND_n : NoDup (map dr_n l). Proof. apply RL. Qed.
  Lemma all_n n : n < length (es_mults N) -> In n (map dr_n l). Proof. apply RL. Qed.
  Lemma r_j r : In r l -> dr_j r < length (es_mults C). Proof. intros I. apply (ro_j (R_row I)). Qed.
  Lemma r_k r : In r l -> dr_k r < length (es_mults D). Proof. intros I. apply (ro_k (R_row I)). Qed.
  Lemma r_n r : In r l -> dr_n r < length (es_mults N). Proof. intros I. apply (ro_n (R_row I)). Qed.
  Lemma min_n r : In r l -> mN r = Nat.min (mC r) (mD r).
  Proof. intros I. rewrite <- (sec_mult G OC (r_j I)), <- (sec_mult G OD (r_k I)), <- (sec_mult G ON (r_n I)). rewrite <- (ro_jk (R_row I)), <- (ro_jn (R_row I)). apply NM. Qed.
  Lemma hit_block r i : In r l -> dr_hit r = Some i -> In (ab_block A i) (map snd A) /\ is_matrix (mC r) (mD r) (ab_block A i) /\ forall q, sval o A [dr_j r; dr_k r] q = bat o (ab_block A i) q.
  Proof.
    intros I E. assert (H := ro_hit (R_row I)). rewrite E in H. destruct H as [Hi F]. assert (J : In (nth i A (noentry K)) A) by now apply nth_In. unfold ab_block. split; [now apply in_map|]. split.
    - split; [|apply (do_full (to_data TA) J)]. rewrite (do_shape (to_data TA) J), F. reflexivity.
    - intros q. rewrite <- F. apply sval_in'; [apply (rows_NoDup TA)|exact J].
  Qed.
  Lemma hit_none r q : In r l -> dr_hit r = None -> sval o A [dr_j r; dr_k r] q = o0 o.
  Proof. intros I E. assert (H := ro_hit (R_row I)). rewrite E in H. now apply sval_notin. Qed.
  Lemma A_rows e : In e A -> exists r, In r l /\ fst e = [dr_j r; dr_k r].
  Proof.
    intros I. destruct (row_form TA I) as (F & F0 & F1 & F2). destruct RL as (_ & _ & _ & _ & _ & CO & _). destruct (CO _ _ F0 F1 F2) as (r & Ir & E0 & E1). exists r. split; [exact Ir|]. now rewrite E0, E1.
  Qed.
  Lemma A_form : blockform o l (es_mults C) (es_mults D) dr_j dr_k (fun x y => entry o S [C] [D] A [x; y]) (fun r a c => sval o A [dr_j r; dr_k r] [a; c]).
  Proof. apply (tensor_form o G OC OD (to_data TA)). exact A_rows. Qed.

  Arguments A_form : clear implicits.
  (** ** the factors *)
  Definition lB (f : blk K -> blk K) (r : drow) : option (blk K) := Some (match dr_hit r with Some i => f (ab_block A i) | None => eye_cols o (mC r) (mN r) end).
  Definition rB (f : blk K -> blk K) (r : drow) : option (blk K) := Some (match dr_hit r with Some i => f (ab_block A i) | None => eye_rows o (mN r) (mD r) end).
  Definition hB (f : blk K -> blk K) (r : drow) : option (blk K) := match dr_hit r with Some i => Some (f (ab_block A i)) | None => None end.
  Notation lrow_ := (fun r => [dr_j r; dr_n r]).
  Notation rrow_ := (fun r => [dr_n r; dr_k r]).
  Notation mrow_ := (fun r => [dr_n r; dr_n r]).
  Lemma left_ent f : left_rows o C N f A l = ent l lrow_ (lB f).
  Proof. unfold left_rows, ent, lB. clear. induction l as [|r l' IH]; [reflexivity|]. cbn [map flat_map app]. now rewrite IH. Qed.
  Lemma right_ent f : right_rows o D N f A l = ent l rrow_ (rB f).
  Proof. unfold right_rows, ent, rB. clear. induction l as [|r l' IH]; [reflexivity|]. cbn [map flat_map app]. now rewrite IH. Qed.
  Lemma hit_ent row f : hit_rows row f A l = ent l row (hB f).
  Proof. unfold hit_rows, ent, hB. apply flat_map_ext_in'. intros r _. destruct (dr_hit r); reflexivity. Qed.
  Lemma rows_inj (p q : drow -> nat) : NoDup (map p l) -> NoDup (map (fun r => [p r; q r]) l).
  Proof. intros ND. apply (NoDup_map_from ND). intros x y _ _ E. now injection E. Qed.
  Lemma neg d : negb d = true -> d = false. Proof. now destruct d. Qed.
  Lemma left_sorted B : negb (es_dual N) = true -> strictly_sorted (zrows (map fst (ent (K := K) l lrow_ B))).
  Proof. intros E. apply (ent_sorted (key := dr_n)); [apply RL; now apply neg|]. intros r _. now exists (dr_j r). Qed.
  Lemma right_sorted B : negb (es_dual D) = true -> strictly_sorted (zrows (map fst (ent (K := K) l rrow_ B))).
  Proof. intros E. apply (ent_sorted (key := dr_k)); [apply RL; now apply neg|]. intros r _. now exists (dr_n r). Qed.
  Lemma mid_sorted B : negb (es_dual N) = true -> strictly_sorted (zrows (map fst (ent (K := K) l mrow_ B))).
  Proof. intros E. apply (ent_sorted (key := dr_n)); [apply RL; now apply neg|]. intros r _. now exists (dr_n r). Qed.
  Lemma charge_two L M (j k : nat) : sec L j = sec M k -> row_charge_ok S [L] [M] [j; k].
  Proof. intros E. unfold row_charge_ok. cbn [length firstn skipn rev app row_sectors zipw]. now rewrite E. Qed.
  Lemma left_tensor (B : drow -> option (blk K)) : (forall r X, In r l -> B r = Some X -> is_matrix (mC r) (mN r) X) -> tensor_ok S [C] [N] (make_data (ent l lrow_ B) (negb (es_dual N))).
  Proof.
    intros HB. constructor.
    - intros L [<-|[<-|[]]]; assumption.
    - apply ent_ok; [apply (rows_inj dr_n ND_j)|apply left_sorted|]. intros r X I EB. destruct (HB r X I EB) as [E1 E2]. split; [|split; [exact E1|exact E2]]. constructor; [apply (r_j I)|]. constructor; [apply (r_n I)|constructor].
    - intros e I. apply make_data_In, ent_In in I. destruct I as (r & X & I & _ & ->). cbn [fst]. apply charge_two. apply (ro_jn (R_row I)).
  Qed.
  Lemma right_tensor (B : drow -> option (blk K)) : (forall r X, In r l -> B r = Some X -> is_matrix (mN r) (mD r) X) -> tensor_ok S [N] [D] (make_data (ent l rrow_ B) (negb (es_dual D))).
  Proof.
    intros HB. constructor.
    - intros L [<-|[<-|[]]]; assumption.
    - apply ent_ok; [apply (rows_inj dr_k ND_n)|apply right_sorted|]. intros r X I EB. destruct (HB r X I EB) as [E1 E2]. split; [|split; [exact E1|exact E2]]. constructor; [apply (r_n I)|]. constructor; [apply (r_k I)|constructor].
    - intros e I. apply make_data_In, ent_In in I. destruct I as (r & X & I & _ & ->). cbn [fst]. apply charge_two. rewrite <- (ro_jn (R_row I)). apply (ro_jk (R_row I)).
  Qed.
  Lemma mid_diag (B : drow -> option (blk K)) s : (s = true -> es_dual N = false) -> (forall r X, In r l -> B r = Some X -> is_vector (mN r) X) -> diag_data_ok N (make_data (ent l mrow_ B) s).
  Proof.
    intros SN HB. assert (RG : forall e, In e (ent l mrow_ B) -> exists n, n < nsec N /\ fst e = [n; n] /\ bshape (snd e) = [nth n (es_mults N) 0] /\ length (bdata (snd e)) = prod (bshape (snd e))).
    { intros e I. apply ent_In in I. destruct I as (r & X & I & EB & ->). destruct (HB r X I EB) as [E1 E2]. exists (dr_n r). cbn [fst snd]. split; [apply (r_n I)|]. auto. }
    constructor.
    - destruct s; [apply mid_sorted; now rewrite SN|]. apply (make_data_sorted (w := 2)); [|apply ent_NoDup, (rows_inj dr_n ND_n)]. intros e I. destruct (RG e I) as (n & _ & -> & _). reflexivity.
    - intros e I. apply make_data_In in I. destruct (RG e I) as (n & H1 & H2 & H3 & _). exists n. auto.
    - intros e I. apply make_data_In in I. destruct (RG e I) as (n & _ & _ & _ & H). exact H.
  Qed.
  Definition hval (B : drow -> option (blk K)) (r : drow) (c : nat) : K := match B r with Some X => vec o X c | None => o0 o end.
  Lemma mid_entry B s : diag_data_ok N (make_data (ent l mrow_ B) s) -> forall r c, In r l -> c < mN r -> vec o (ab_diag_block S o N (make_data (ent l mrow_ B) s)) (pos (es_mults N) (dr_n r) c) = hval B r c.
  Proof.
    intros OW r c I Hc. unfold vec, ab_diag_block. rewrite (one_entry o G ON (diag_vector OW) (r_n I) Hc). unfold hval. destruct (B r) as [X|] eqn:EB.
    - apply sval_in; [apply (data_ok_NoDup (diag_vector OW))|]. apply in_map_iff. exists ([dr_n r; dr_n r], X). split; [reflexivity|]. apply make_data_In, ent_In. now exists r, X.
    - apply sval_notin. intros J. apply in_map_iff in J. destruct J as (e & E & J). apply in_map_iff in J. destruct J as (e' & <- & J). apply make_data_In, ent_In in J. destruct J as (r' & X & I' & EB' & ->). cbn [fst nth] in E. injection E as E.
      assert (r' = r) by (apply (NoDup_eq (p := dr_n) ND_n); auto). subst r'. congruence.
  Qed.
  Lemma dim_eq L : es_ok S L -> es_dim S L = nsum (es_mults L).
  Proof. intros O. apply (p_dim_one G O). Qed.
  Lemma lB_matrix f r X : In r l -> (forall i, dr_hit r = Some i -> is_matrix (mC r) (mN r) (f (ab_block A i))) -> lB f r = Some X -> is_matrix (mC r) (mN r) X.
  Proof. intros I H. unfold lB. intros [= <-]. destruct (dr_hit r) as [i|] eqn:E; [now apply H|apply eye_cols_matrix]. Qed.
  Lemma rB_matrix f r X : In r l -> (forall i, dr_hit r = Some i -> is_matrix (mN r) (mD r) (f (ab_block A i))) -> rB f r = Some X -> is_matrix (mN r) (mD r) X.
  Proof. intros I H. unfold rB. intros [= <-]. destruct (dr_hit r) as [i|] eqn:E; [now apply H|apply eye_rows_matrix]. Qed.
  Notation E C D M x y := (entry o S [C] [D] M [x; y]).
  Lemma left_iso f : tensor_ok S [C] [N] (make_data (ent l lrow_ (lB f)) (negb (es_dual N))) -> (forall r i, In r l -> dr_hit r = Some i -> iso_cols o (mC r) (mN r) (mat o (f (ab_block A i)))) ->
    iso_cols o (es_dim S C) (es_dim S N) (fun x z => E C N (make_data (ent l lrow_ (lB f)) (negb (es_dual N))) x z).
  Proof.
    intros T H. rewrite (dim_eq OC), (dim_eq ON). apply (bf_iso_cols SR C0 ND_j ND_n r_j all_n (ent_form o G OC ON ND_j (to_data T))). intros r I. unfold ent_val, lB. destruct (dr_hit r) as [i|] eqn:EH; [now apply (H r i)|].
    apply (iso_cols_eye SR C0 C1). rewrite (min_n I). lia.
  Qed.
  Lemma right_iso f : tensor_ok S [N] [D] (make_data (ent l rrow_ (rB f)) (negb (es_dual D))) -> (forall r i, In r l -> dr_hit r = Some i -> iso_rows o (mN r) (mD r) (mat o (f (ab_block A i)))) ->
    iso_rows o (es_dim S N) (es_dim S D) (fun x z => E N D (make_data (ent l rrow_ (rB f)) (negb (es_dual D))) x z).
  Proof.
    intros T H. rewrite (dim_eq OD), (dim_eq ON). apply (bf_iso_rows SR C0 ND_n ND_k r_k all_n (ent_form o G ON OD ND_n (to_data T))). intros r I. unfold ent_val, rB. destruct (dr_hit r) as [i|] eqn:EH; [now apply (H r i)|].
    apply (iso_rows_eye SR C0 C1). rewrite (min_n I). lia.
  Qed.

  Variables P Q : tprod.
  Hypothesis EL : ab_rows S P Q C D N A = Some l.
  Theorem qr_rows f : qr_contract o (map snd A) f -> exists q r, ab_qr S o P Q C D N f A = Some (q, r) /\ tensor_ok S [C] [N] q /\ tensor_ok S [N] [D] r /\
    iso_cols o (es_dim S C) (es_dim S N) (fun x z => E C N q x z) /\
    forall x y, x < es_dim S C -> y < es_dim S D -> E C D A x y = sumn o (es_dim S N) (fun z => omul o (E C N q x z) (E N D r z y)).
  Proof.
    intros QC. unfold ab_qr. rewrite EL. eexists _, _. split; [reflexivity|]. rewrite left_ent, hit_ent.
    assert (BQ : forall r i, In r l -> dr_hit r = Some i -> let B := ab_block A i in is_matrix (mC r) (mN r) (fst (f B)) /\ is_matrix (mN r) (mD r) (snd (f B)) /\ iso_cols o (mC r) (mN r) (mat o (fst (f B))) /\
      forall x y, x < mC r -> y < mD r -> mat o B x y = sumn o (mN r) (fun z => omul o (mat o (fst (f B)) x z) (mat o (snd (f B)) z y))).
    { intros r i I EH B. destruct (hit_block I EH) as (J & M & _). rewrite (min_n I). exact (QC _ _ B (fst (f B)) (snd (f B)) J M (surjective_pairing _)). }
    assert (TQ : tensor_ok S [C] [N] (make_data (ent l lrow_ (lB (fun B => fst (f B)))) (negb (es_dual N)))) by (apply left_tensor; intros r X I; apply (lB_matrix I); intros i EH; apply (BQ r i I EH)).
    assert (TR : tensor_ok S [N] [D] (make_data (ent l rrow_ (hB (fun B => snd (f B)))) (negb (es_dual D)))).
    { apply right_tensor. intros r X I EB. unfold hB in EB. destruct (dr_hit r) as [i|] eqn:EH; [|discriminate]. injection EB as <-. apply (BQ r i I EH). }
    split; [exact TQ|]. split; [exact TR|]. split; [apply (left_iso TQ); intros r i I EH; apply (BQ r i I EH)|].
    intros x y Hx Hy. rewrite (dim_eq OC) in Hx. rewrite (dim_eq OD) in Hy. rewrite (dim_eq ON).
    refine (bf_unique A_form (bf_mul SR ND_j ND_n r_n (ent_form o G OC ON ND_j (to_data TQ)) (ent_form o G ON OD ND_n (to_data TR))) _ Hx Hy). intros r a c I Ha Hc. cbn beta. unfold ent_val, lB, hB. destruct (dr_hit r) as [i|] eqn:EH.
    - destruct (hit_block I EH) as (_ & _ & ->). apply (BQ r i I EH); auto.
    - rewrite (hit_none _ I EH). symmetry. apply (sumn_zero SR). intros z _. apply (mul_0_r SR).
  Qed.
  Theorem lq_rows f : lq_contract o (map snd A) f -> exists L q, ab_lq S o P Q C D N f A = Some (L, q) /\ tensor_ok S [C] [N] L /\ tensor_ok S [N] [D] q /\
    iso_rows o (es_dim S N) (es_dim S D) (fun x z => E N D q x z) /\
    forall x y, x < es_dim S C -> y < es_dim S D -> E C D A x y = sumn o (es_dim S N) (fun z => omul o (E C N L x z) (E N D q z y)).
  Proof.
    intros QC. unfold ab_lq. rewrite EL. eexists _, _. split; [reflexivity|]. rewrite right_ent, hit_ent.
    assert (BQ : forall r i, In r l -> dr_hit r = Some i -> let B := ab_block A i in is_matrix (mC r) (mN r) (fst (f B)) /\ is_matrix (mN r) (mD r) (snd (f B)) /\ iso_rows o (mN r) (mD r) (mat o (snd (f B))) /\
      forall x y, x < mC r -> y < mD r -> mat o B x y = sumn o (mN r) (fun z => omul o (mat o (fst (f B)) x z) (mat o (snd (f B)) z y))).
    { intros r i I EH B. destruct (hit_block I EH) as (J & M & _). rewrite (min_n I). exact (QC _ _ B (fst (f B)) (snd (f B)) J M (surjective_pairing _)). }
    assert (TQ : tensor_ok S [N] [D] (make_data (ent l rrow_ (rB (fun B => snd (f B)))) (negb (es_dual D)))) by (apply right_tensor; intros r X I; apply (rB_matrix I); intros i EH; apply (BQ r i I EH)).
    assert (TR : tensor_ok S [C] [N] (make_data (ent l lrow_ (hB (fun B => fst (f B)))) (negb (es_dual N)))).
    { apply left_tensor. intros r X I EB. unfold hB in EB. destruct (dr_hit r) as [i|] eqn:EH; [|discriminate]. injection EB as <-. apply (BQ r i I EH). }
    split; [exact TR|]. split; [exact TQ|]. split; [apply (right_iso TQ); intros r i I EH; apply (BQ r i I EH)|].
    intros x y Hx Hy. rewrite (dim_eq OC) in Hx. rewrite (dim_eq OD) in Hy. rewrite (dim_eq ON).
    refine (bf_unique A_form (bf_mul SR ND_j ND_n r_n (ent_form o G OC ON ND_j (to_data TR)) (ent_form o G ON OD ND_n (to_data TQ))) _ Hx Hy). intros r a c I Ha Hc. cbn beta. unfold ent_val, rB, hB. destruct (dr_hit r) as [i|] eqn:EH.
    - destruct (hit_block I EH) as (_ & _ & ->). apply (BQ r i I EH); auto.
    - rewrite (hit_none _ I EH). symmetry. apply (sumn_zero SR). intros z _. apply (SRmul_0_l SR).
  Qed.
  Theorem svd_rows good f : svd_contract o (map snd A) good f -> good (o0 o) -> exists u s v, ab_svd S o P Q C D N f A = Some (u, s, v) /\ tensor_ok S [C] [N] u /\ diag_data_ok N s /\ tensor_ok S [N] [D] v /\
    iso_cols o (es_dim S C) (es_dim S N) (fun x z => E C N u x z) /\ iso_rows o (es_dim S N) (es_dim S D) (fun x z => E N D v x z) /\ (forall z, z < es_dim S N -> good (vec o (ab_diag_block S o N s) z)) /\
    forall x y, x < es_dim S C -> y < es_dim S D -> E C D A x y = sumn o (es_dim S N) (fun z => omul o (omul o (E C N u x z) (vec o (ab_diag_block S o N s) z)) (E N D v z y)).
  Proof.
    intros QC GZ. unfold ab_svd. rewrite EL. eexists _, _, _. split; [reflexivity|]. rewrite left_ent, right_ent, hit_ent.
    assert (BQ : forall r i, In r l -> dr_hit r = Some i -> let B := ab_block A i in let u := fst (fst (f B)) in let s := snd (fst (f B)) in let v := snd (f B) in is_matrix (mC r) (mN r) u /\ is_vector (mN r) s /\ is_matrix (mN r) (mD r) v /\
      iso_cols o (mC r) (mN r) (mat o u) /\ iso_rows o (mN r) (mD r) (mat o v) /\ (forall z, z < mN r -> good (vec o s z)) /\
      forall x y, x < mC r -> y < mD r -> mat o B x y = sumn o (mN r) (fun z => omul o (omul o (mat o u x z) (vec o s z)) (mat o v z y))).
    { intros r i I EH B u s v. destruct (hit_block I EH) as (J & M & _). rewrite (min_n I). apply (QC _ _ B u s v J M). unfold u, s, v. destruct (f B) as [[? ?] ?]. reflexivity. }
    assert (TU : tensor_ok S [C] [N] (make_data (ent l lrow_ (lB (fun B => fst (fst (f B))))) (negb (es_dual N)))) by (apply left_tensor; intros r X I; apply (lB_matrix I); intros i EH; apply (BQ r i I EH)).
    assert (TV : tensor_ok S [N] [D] (make_data (ent l rrow_ (rB (fun B => snd (f B)))) (negb (es_dual D)))) by (apply right_tensor; intros r X I; apply (rB_matrix I); intros i EH; apply (BQ r i I EH)).
    assert (TS : diag_data_ok N (make_data (ent l mrow_ (hB (fun B => snd (fst (f B))))) (negb (es_dual N)))).
    { apply mid_diag; [apply neg|]. intros r X I EB. unfold hB in EB. destruct (dr_hit r) as [i|] eqn:EH; [|discriminate]. injection EB as <-. apply (BQ r i I EH). }
    split; [exact TU|]. split; [exact TS|]. split; [exact TV|]. split; [apply (left_iso TU); intros r i I EH; apply (BQ r i I EH)|]. split; [apply (right_iso TV); intros r i I EH; apply (BQ r i I EH)|]. split.
    - intros z Hz. rewrite (dim_eq ON) in Hz. destruct (loc_surj Hz) as (n & c & Hn & Hc & ->). assert (J := all_n Hn). apply in_map_iff in J. destruct J as (r & <- & I). assert (ME := mid_entry TS I Hc). unfold pos in ME. rewrite ME. unfold hval, hB. destruct (dr_hit r) as [i|] eqn:EH; [|exact GZ]. now apply (BQ r i I EH).
    - intros x y Hx Hy. rewrite (dim_eq OC) in Hx. rewrite (dim_eq OD) in Hy. rewrite (dim_eq ON).
      transitivity (sumn o (nsum (es_mults N)) (fun z => omul o (E C N (make_data (ent l lrow_ (lB (fun B => fst (fst (f B))))) (negb (es_dual N))) x z)
        (omul o (vec o (ab_diag_block S o N (make_data (ent l mrow_ (hB (fun B => snd (fst (f B))))) (negb (es_dual N)))) z) (E N D (make_data (ent l rrow_ (rB (fun B => snd (f B)))) (negb (es_dual D))) z y)))).
      2:{ apply sumn_ext. intros z _. apply (SRmul_assoc SR). }
      refine (bf_unique A_form (bf_mul SR ND_j ND_n r_n (ent_form o G OC ON ND_j (to_data TU)) (bf_scale SR (fun r c I _ Hc => mid_entry TS I Hc) (ent_form o G ON OD ND_n (to_data TV)))) _ Hx Hy). intros r a c I Ha Hc. cbn beta. unfold ent_val, hval, lB, rB, hB. destruct (dr_hit r) as [i|] eqn:EH.
      + destruct (hit_block I EH) as (_ & _ & ->). etransitivity; [apply (BQ r i I EH); auto|]. apply sumn_ext. intros z _. symmetry. apply (SRmul_assoc SR).
      + rewrite (hit_none _ I EH). symmetry. apply (sumn_zero SR). intros z _. rewrite (SRmul_0_l SR). apply (mul_0_r SR).
  Qed.
End Dec.
