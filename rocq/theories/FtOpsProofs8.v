(** Decompositions: the loops over the common sectors, and the factors. *)
From Verif Require Import Util StableSort RowModel RowProofs GridModel GridProofs SymModel SymProofs CatSpec Sums SpaceModel SpaceSpec SpaceProofs SpaceProofs7
  PipeModel TreeModel TensorModel TensorSpec FormalSum TensorProofs TensorProofs5 BlockModel BlockProofs SparseModel SparseProofs SparseProofs3 SparseProofs5 ConvertModel ConvertSpec ConvertProofs3 FtOpsModel FtOpsSpec
  FtOpsProofs FtOpsProofs2 FtOpsProofs3 FtOpsProofs4 FtOpsProofs5 FtOpsProofs6.
Set Implicit Arguments. Unset Strict Implicit.
Open Scope nat_scope.

Lemma flat_map_ext_in' (X Y : Type) (f g : X -> list Y) l : (forall x, In x l -> f x = g x) -> flat_map f l = flat_map g l.
Proof. induction l as [|x l IH]; intros H; [reflexivity|]. cbn [flat_map]. rewrite (H x (or_introl eq_refl)), IH; [reflexivity|]. intros y I. apply H. now right. Qed.
Section Loop.
  Variable K : Type.
  Variable o : ops K.
  Notation block := (blk K).
  Notation fdata := (list (nat * nat * blk K)).
  Notation key1 := (fun e : nat * nat * blk K => snd (fst e)).
  Notation key0 := (fun e : nat * nat * blk K => fst (fst e)).
  Definition lookup (F : fdata) (i : nat) : option block := option_map snd (find (fun e => fst (fst e) =? i) F).
  (** one factor: [f k (i, j) B] are the rows for the pair number [k] *)
  Section G.
    Variable X : Type.
    Variable f : nat -> nat * nat -> option block -> list X.
    Fixpoint gloop (pairs : list (nat * nat)) (k : nat) (F : fdata) : list X :=
      match pairs with
      | [] => []
      | p :: rest => match F with
                     | e :: F' => if fst (fst e) =? fst p then f k p (Some (snd e)) ++ gloop rest (k + 1) F' else f k p None ++ gloop rest (k + 1) F
                     | [] => f k p None ++ gloop rest (k + 1) []
                     end
      end.
    Lemma lookup_none F i : ~ In i (map key0 F) -> lookup F i = None.
    Proof. unfold lookup. induction F as [|e F IH]; intros H; [reflexivity|]. cbn [find map] in *. destruct (Nat.eqb_spec (fst (fst e)) i) as [E|E]; [exfalso; apply H; now left|]. apply IH. intros I. apply H. now right. Qed.
    Lemma gloop_eq : forall pairs k F, StronglySorted lt (map fst pairs) -> StronglySorted lt (map key0 F) -> incl (map key0 F) (map fst pairs) ->
      gloop pairs k F = flat_map (fun t => f (fst t) (snd t) (lookup F (fst (snd t)))) (combine (seq k (length pairs)) pairs).
    Proof.
      induction pairs as [|p rest IH]; intros k F SP SF IC; [reflexivity|]. cbn [gloop length seq combine flat_map fst snd map] in *. rewrite !Nat.add_1_r.
      apply StronglySorted_inv in SP. destruct SP as [SP FP]. rewrite Forall_forall in FP.
      destruct F as [|e F].
      - f_equal. apply IH; [exact SP|constructor|intros x []].
      - cbn [map] in SF. assert (SF' := SF). apply StronglySorted_inv in SF'. destruct SF' as [SF' FF]. rewrite Forall_forall in FF. destruct (Nat.eqb_spec (fst (fst e)) (fst p)) as [E|E].
        + f_equal; [unfold lookup; cbn [find]; rewrite (proj2 (Nat.eqb_eq _ _) E); reflexivity|]. rewrite IH.
          * apply flat_map_ext_in'. intros [k' q] I. cbn [fst snd]. f_equal. unfold lookup. cbn [find]. destruct (Nat.eqb_spec (fst (fst e)) (fst q)) as [Y|Y]; [|reflexivity].
            apply in_combine_r in I. specialize (FP _ (in_map fst _ _ I)). lia.
          * exact SP.
          * exact SF'.
          * intros x Ix. assert (L := FF x Ix). destruct (IC x (or_intror Ix)) as [Y|Y]; [lia|exact Y].
        + assert (L : fst p < fst (fst e)). { destruct (IC (fst (fst e)) (or_introl eq_refl)) as [Y|Y]; [congruence|now apply FP]. }
          f_equal.
          * rewrite lookup_none; [reflexivity|]. intros [Y|Y]; [congruence|]. specialize (FF _ Y). cbn in FF. lia.
          * apply IH; [exact SP|exact SF|]. intros x Ix. destruct (IC x Ix) as [Y|Y]; [|exact Y]. exfalso. destruct Ix as [Z|Z]; [cbn in Z; lia|]. specialize (FF x Z). cbn in FF. lia.
    Qed.
  End G.
  Variables P Q N : tprod.
  Definition always (row : nat -> nat * nat -> nat * nat) (g : block -> block) (dflt : nat -> nat * nat -> block) : nat -> nat * nat -> option block -> fdata :=
    fun k p B => [(row k p, match B with Some B => g B | None => dflt k p end)].
  Definition present (row : nat -> nat * nat -> nat * nat) (g : block -> block) : nat -> nat * nat -> option block -> fdata :=
    fun k p B => match B with Some B => [(row k p, g B)] | None => [] end.
  Definition lrow_ (k : nat) (p : nat * nat) : nat * nat := (fst p, k).
  Definition mrow_ (k : nat) (p : nat * nat) : nat * nat := (k, k).
  Definition rrow_ (k : nat) (p : nat * nat) : nat * nat := (k, snd p).
  Definition ecols (k : nat) (p : nat * nat) : block := eye_cols o (nth (fst p) (tp_mults P) 0) (nth k (tp_mults N) 0).
  Definition erows (k : nat) (p : nat * nat) : block := eye_rows o (nth k (tp_mults N) 0) (nth (snd p) (tp_mults Q) 0).
  Lemma qr_loop_eq f : forall pairs k F, qr_loop o P N f pairs k F = (gloop (always lrow_ (fun B => fst (f B)) ecols) pairs k F, gloop (present rrow_ (fun B => snd (f B))) pairs k F).
  Proof.
    induction pairs as [|[i j] rest IH]; intros k F; [reflexivity|]. cbn [qr_loop gloop fst snd]. destruct F as [|e F].
    - rewrite IH. reflexivity.
    - destruct (fst (fst e) =? i); rewrite IH; [|reflexivity]. cbn [always present app lrow_ rrow_ fst snd]. destruct (f (snd e)). reflexivity.
  Qed.
  Lemma lq_loop_eq f : forall pairs k F, lq_loop o Q N f pairs k F = (gloop (present lrow_ (fun B => fst (f B))) pairs k F, gloop (always rrow_ (fun B => snd (f B)) erows) pairs k F).
  Proof.
    induction pairs as [|[i j] rest IH]; intros k F; [reflexivity|]. cbn [lq_loop gloop fst snd]. destruct F as [|e F].
    - rewrite IH. reflexivity.
    - destruct (fst (fst e) =? i); rewrite IH; [|reflexivity]. cbn [always present app lrow_ rrow_ fst snd]. destruct (f (snd e)). reflexivity.
  Qed.
  Lemma svd_loop_eq f : forall pairs k F, svd_loop o P Q N f pairs k F = (gloop (always lrow_ (fun B => fst (fst (f B))) ecols) pairs k F, gloop (present mrow_ (fun B => snd (fst (f B)))) pairs k F,
    gloop (always rrow_ (fun B => snd (f B)) erows) pairs k F).
  Proof.
    induction pairs as [|[i j] rest IH]; intros k F; [reflexivity|]. cbn [svd_loop gloop fst snd]. destruct F as [|e F].
    - rewrite IH. reflexivity.
    - destruct (fst (fst e) =? i); rewrite IH; [|reflexivity]. cbn [always present app lrow_ mrow_ rrow_ fst snd]. destruct (f (snd e)) as [[u s] v]. reflexivity.
  Qed.

  Variable S : tsymm.
  Hypothesis OK : tsymm_ok S.
  Hypothesis HP : tp_ok S P.
  Hypothesis HQ : tp_ok S Q.
  Hypothesis HN : tp_ok S N.
  Hypothesis NM : forall c, block_size N c = Nat.min (block_size P c) (block_size Q c).
  Variable A : fdata.
  Hypothesis OA : ft_ok P Q A.
  Definition pairs := common_walk true true 0 (tp_secs P) 0 (tp_secs Q).
  Lemma pairs_N : map (fun p => nth (fst p) (tp_secs P) []) pairs = tp_secs N.
  Proof.
    apply (StronglySorted_unique (R := lex_lt)); [exact lex_lt_irrefl|exact lex_lt_trans| |apply (tp_sorted OK HN)|].
    - assert (CS := common_walk_sorted (tp_secs P) 0 (tp_secs Q) 0). fold pairs in CS. assert (IN : forall p, In p pairs -> fst p < length (tp_secs P)) by (intros [i j] I; apply (common_In OK HP HQ) in I; tauto). revert CS IN. generalize pairs.
      induction l as [|p l IH]; intros CS IN; [constructor|]. apply StronglySorted_inv in CS. destruct CS as [CS FA]. cbn [map]. constructor; [apply IH; auto; intros q I; apply IN; now right|].
      apply Forall_forall. intros c I. apply in_map_iff in I. destruct I as [q [<- I]]. rewrite Forall_forall in FA. destruct (FA q I) as [L _]. apply (proj1 (StronglySorted_nth lex_lt [] (tp_secs P)) (tp_sorted OK HP)). split; [exact L|]. apply IN. now right.
    - intros c. rewrite (In_secs OK c HN), NM. split.
      + intros I. apply in_map_iff in I. destruct I as [[i j] [<- I]]. apply (common_In OK HP HQ) in I. cbn [fst]. destruct I as (I1 & I2 & E). assert (X1 : 0 < block_size P (nth i (tp_secs P) [])) by (apply (In_secs OK _ HP); now apply nth_In).
        assert (X2 : 0 < block_size Q (nth i (tp_secs P) [])) by (rewrite E; apply (In_secs OK _ HQ); now apply nth_In). lia.
      + intros H. assert (IP : In c (tp_secs P)) by (apply (In_secs OK _ HP); lia). assert (IQ : In c (tp_secs Q)) by (apply (In_secs OK _ HQ); lia). apply In_nth with (d := []) in IP, IQ. destruct IP as [i [Hi Ei]], IQ as [j [Hj Ej]].
        apply in_map_iff. exists (i, j). split; [exact Ei|]. apply (common_In OK HP HQ). split; [exact Hi|]. split; [exact Hj|congruence].
  Qed.
  Lemma pairs_len : length pairs = length (tp_secs N).
  Proof. rewrite <- pairs_N. now rewrite map_length. Qed.
  Definition np := (0, 0).
  (** the pair number k belongs to sector number k of N *)
  Lemma pair_spec k : k < length (tp_secs N) -> let p := nth k pairs np in
    fst p < length (tp_secs P) /\ snd p < length (tp_secs Q) /\ nth (fst p) (tp_secs P) [] = nth k (tp_secs N) [] /\ nth (snd p) (tp_secs Q) [] = nth k (tp_secs N) [] /\
    nth (fst p) (tp_mults P) 0 = block_size P (nth k (tp_secs N) []) /\ nth (snd p) (tp_mults Q) 0 = block_size Q (nth k (tp_secs N) []).
  Proof.
    intros Hk. cbv zeta. assert (I : In (nth k pairs np) pairs) by (apply nth_In; now rewrite pairs_len). assert (E : nth (fst (nth k pairs np)) (tp_secs P) [] = nth k (tp_secs N) []).
    { rewrite <- pairs_N. now rewrite nth_map_lt with (d := np) by (rewrite pairs_len; exact Hk). }
    destruct (nth k pairs np) as [i j]. apply (common_In OK HP HQ) in I. destruct I as (I1 & I2 & I3). cbn [fst snd] in *. repeat split; auto; [congruence| |]; [rewrite (block_size_nth OK HP I1)|rewrite (block_size_nth OK HQ I2)]; congruence.
  Qed.
  Lemma combine_In t : In t (combine (seq 0 (length pairs)) pairs) <-> fst t < length (tp_secs N) /\ snd t = nth (fst t) pairs np.
  Proof.
    split.
    - intros I. apply In_nth with (d := (0, np)) in I. destruct I as [k [Hk E]]. rewrite combine_length, seq_length, Nat.min_id in Hk. rewrite combine_nth in E by now rewrite seq_length. rewrite seq_nth in E by exact Hk. subst t. cbn [fst snd]. rewrite pairs_len in Hk. auto.
    - intros [H1 H2]. destruct t as [k p]. cbn [fst snd] in *. subst p. rewrite <- pairs_len in H1. replace (k, nth k pairs np) with (nth k (combine (seq 0 (length pairs)) pairs) (0, np)).
      + apply nth_In. rewrite combine_length, seq_length. lia.
      + rewrite combine_nth by now rewrite seq_length. now rewrite seq_nth.
  Qed.
  Lemma lookup_get i : i < length (tp_secs P) -> lookup A i = ft_get Q A (nth i (tp_secs P) []).
  Proof.
    intros Hi. symmetry. apply get_eq; [apply (secs_NoDup OK HQ)|apply (ft_keyed OA)|]. intros B. unfold lookup. split.
    - intros [e [I [E <-]]]. assert (X : fst (fst e) = i) by (apply (inj_idx OK HP); auto; [apply (fo_range OA I)|]; rewrite (fo_sector OA I); exact E).
      destruct (find (fun e => fst (fst e) =? i) A) as [e'|] eqn:FD; cbn [option_map].
      + apply find_some in FD. destruct FD as [I' Y]. apply Nat.eqb_eq in Y. assert (e' = e); [|now subst]. apply (same_row (lt_NoDup (fo_sorted OA))); auto.
        apply (inj_idx OK HQ); [apply (fo_range OA I')|apply (fo_range OA I)|]. rewrite <- (fo_sector OA I), <- (fo_sector OA I'). congruence.
      + assert (Y := find_none _ _ FD e I). cbn in Y. apply Nat.eqb_neq in Y. congruence.
    - destruct (find (fun e => fst (fst e) =? i) A) as [e|] eqn:FD; cbn [option_map]; [|discriminate]. intros [= <-]. apply find_some in FD. destruct FD as [I Y]. apply Nat.eqb_eq in Y. exists e. split; [exact I|]. split; [|reflexivity]. rewrite <- (fo_sector OA I). now rewrite Y.
  Qed.
  Lemma gloop_A (X : Type) (f : nat -> nat * nat -> option block -> list X) : gloop f pairs 0 A = flat_map (fun t => f (fst t) (snd t) (lookup A (fst (snd t)))) (combine (seq 0 (length pairs)) pairs).
  Proof.
    apply gloop_eq.
    - assert (CS := common_walk_sorted (tp_secs P) 0 (tp_secs Q) 0). fold pairs in CS. revert CS. generalize pairs. induction l as [|p l IH]; intros CS; [constructor|]. apply StronglySorted_inv in CS. destruct CS as [CS FA]. cbn [map]. constructor; [now apply IH|].
      apply Forall_forall. intros c I. apply in_map_iff in I. destruct I as [q [<- I]]. rewrite Forall_forall in FA. now apply FA.
    - apply (col0_sorted OK HP HQ OA).
    - intros i I. apply in_map_iff in I. destruct I as [e [<- I]]. destruct (fo_range OA I) as [R1 R2]. apply in_map_iff. exists (fst e). split; [reflexivity|]. destruct (fst e) as [i j] eqn:E. apply (common_In OK HP HQ). cbn [fst snd] in *. split; [exact R1|]. split; [exact R2|].
      assert (Y := fo_sector OA I). rewrite E in Y. exact Y.
  Qed.
  Lemma gA_In (f : nat -> nat * nat -> option block -> fdata) e : In e (gloop f pairs 0 A) <->
    exists k, k < length (tp_secs N) /\ In e (f k (nth k pairs np) (ft_get Q A (nth k (tp_secs N) []))).
  Proof.
    rewrite gloop_A, in_flat_map. split.
    - intros [t [It I]]. apply combine_In in It. destruct It as [H1 H2]. exists (fst t). split; [exact H1|]. rewrite H2 in I. destruct (pair_spec H1) as (X1 & X2 & X3 & _). rewrite (lookup_get X1), X3 in I. exact I.
    - intros [k [Hk I]]. exists (k, nth k pairs np). split; [apply combine_In; auto|]. cbn [fst snd]. destruct (pair_spec Hk) as (X1 & X2 & X3 & _). now rewrite (lookup_get X1), X3.
  Qed.
  (** rows are in order; at most one per pair *)
  Lemma gA_sorted (key : nat * nat * block -> nat) (f : nat -> nat * nat -> option block -> fdata) :
    (forall k p B e, In e (f k p B) -> key e = k) -> (forall k p B, length (f k p B) <= 1) -> StronglySorted lt (map key (gloop f pairs 0 A)).
  Proof.
    intros HK H1. rewrite gloop_A. assert (G : forall l s, StronglySorted lt (map key (flat_map (fun t : nat * (nat * nat) => f (fst t) (snd t) (lookup A (fst (snd t)))) (combine (seq s (length l)) l)))); [|apply G].
    induction l as [|p l IH]; intros s; [constructor|]. cbn [length seq combine flat_map fst snd]. assert (L := H1 s p (lookup A (fst p))). assert (KS := HK s p (lookup A (fst p))). destruct (f s p (lookup A (fst p))) as [|e [|? ?]]; [apply IH| |cbn in L; lia].
    cbn [app map]. constructor; [apply IH|]. rewrite (KS e (or_introl eq_refl)). apply Forall_forall. intros x I. apply in_map_iff in I. destruct I as [e' [<- I]]. apply in_flat_map in I. destruct I as [[k q] [I I']]. apply HK in I'. rewrite I'. cbn [fst]. apply in_combine_l in I. apply in_seq in I. lia.
  Qed.
  Lemma sorted_key1_of (F : fdata) (key : nat * nat * block -> nat) : StronglySorted lt (map key F) -> (forall e e', In e F -> In e' F -> snd (fst e) = snd (fst e') -> key e = key e') -> NoDup (map key1 F).
  Proof. intros ST H. apply (NoDup_map_from (f := key)); [now apply lt_NoDup|exact H]. Qed.
  Lemma key1_inj k k' : k < length (tp_secs N) -> k' < length (tp_secs N) -> snd (nth k pairs np) = snd (nth k' pairs np) -> k = k'.
  Proof. intros H H' E. apply (inj_idx OK HN); auto. destruct (pair_spec H) as (_ & _ & _ & X & _), (pair_spec H') as (_ & _ & _ & X' & _). rewrite <- X, <- X', E. reflexivity. Qed.
  Lemma N_nth k : k < length (tp_secs N) -> nth k (tp_mults N) 0 = block_size N (nth k (tp_secs N) []).
  Proof. apply (block_size_nth OK HN). Qed.

  (** left factors P <- N *)
  Section Left.
    Variable f : nat -> nat * nat -> option block -> fdata.
    Variable G : sector -> option block -> option block.
    Hypothesis HF : forall k, k < length (tp_secs N) -> forall B, f k (nth k pairs np) B = match G (nth k (tp_secs N) []) B with Some X => [(lrow_ k (nth k pairs np), X)] | None => [] end.
    Hypothesis HM : forall k X, k < length (tp_secs N) -> G (nth k (tp_secs N) []) (ft_get Q A (nth k (tp_secs N) [])) = Some X -> is_matrix (block_size P (nth k (tp_secs N) [])) (block_size N (nth k (tp_secs N) [])) X.
    Lemma left_rows e : In e (gloop f pairs 0 A) <-> exists k X, k < length (tp_secs N) /\ G (nth k (tp_secs N) []) (ft_get Q A (nth k (tp_secs N) [])) = Some X /\ e = ((fst (nth k pairs np), k), X).
    Proof.
      rewrite gA_In. split.
      - intros [k [Hk I]]. rewrite (HF Hk) in I. destruct (G (nth k (tp_secs N) []) (ft_get Q A (nth k (tp_secs N) []))) as [X|] eqn:E; [|destruct I]. destruct I as [<-|[]]. exists k, X. auto.
      - intros (k & X & Hk & E & ->). exists k. split; [exact Hk|]. rewrite (HF Hk), E. now left.
    Qed.
    Lemma left_sorted : StronglySorted lt (map key1 (gloop f pairs 0 A)).
    Proof.
      rewrite gloop_A. assert (IN : forall t, In t (combine (seq 0 (length pairs)) pairs) -> f (fst t) (snd t) (lookup A (fst (snd t))) = match G (nth (fst t) (tp_secs N) []) (lookup A (fst (snd t))) with Some X => [(lrow_ (fst t) (snd t), X)] | None => [] end).
      { intros t I. apply combine_In in I. destruct I as [H ->]. now apply HF. }
      rewrite (flat_map_ext_in' IN). clear IN. generalize 0 at 1. generalize pairs as l. induction l as [|p l IH]; intros s; [constructor|]. cbn [length seq combine flat_map fst snd]. rewrite map_app.
      destruct (G (nth s (tp_secs N) []) (lookup A (fst p))) as [X|]; [|apply IH]. cbn [map app lrow_ fst snd]. constructor; [apply IH|]. apply Forall_forall. intros x I. apply in_map_iff in I. destruct I as [e' [<- I]]. apply in_flat_map in I.
      destruct I as [[k q] [I I']]. cbn [fst snd] in I'. apply in_combine_l in I. apply in_seq in I. destruct (G (nth k (tp_secs N) []) (lookup A (fst q))); [|destruct I']. destruct I' as [<-|[]]. cbn [lrow_ fst snd]. lia.
    Qed.
    Lemma left_ok_rows e : In e (gloop f pairs 0 A) -> fst (fst e) < length (tp_secs P) /\ snd (fst e) < length (tp_secs N) /\ nth (fst (fst e)) (tp_secs P) [] = nth (snd (fst e)) (tp_secs N) [] /\
      bshape (snd e) = [nth (fst (fst e)) (tp_mults P) 0; nth (snd (fst e)) (tp_mults N) 0] /\ length (bdata (snd e)) = prod (bshape (snd e)).
    Proof.
      intros I. apply left_rows in I. destruct I as (k & X & Hk & E & ->). cbn [fst snd]. destruct (pair_spec Hk) as (X1 & X2 & X3 & X4 & X5 & X6). destruct (HM Hk E) as [M1 M2]. split; [exact X1|]. split; [exact Hk|]. split; [exact X3|]. split; [|exact M2].
      rewrite M1, X5, (N_nth Hk). reflexivity.
    Qed.
    Lemma left_ok s : ft_ok P N (ft_make (gloop f pairs 0 A) s).
    Proof. destruct s; [rewrite ft_make_true; apply ft_ok_sorted; [apply left_sorted|apply left_ok_rows]|apply ft_ok_make; [apply lt_NoDup, left_sorted|apply left_ok_rows]]. Qed.
    Lemma left_get s c : 0 < block_size N c -> ft_get N (ft_make (gloop f pairs 0 A) s) c = G c (ft_get Q A c).
    Proof.
      intros Hc. apply get_eq; [apply (secs_NoDup OK HN)|apply (ft_keyed (left_ok s))|]. intros B. rewrite stored_make. apply (In_secs OK c HN) in Hc. apply In_nth with (d := []) in Hc. destruct Hc as [k [Hk Ek]]. split.
      - intros [e [I [E EB]]]. apply left_rows in I. destruct I as (k' & X & Hk' & G' & ->). cbn [fst snd] in E, EB. subst X. rewrite E in G'. exact G'.
      - intros E. exists ((fst (nth k pairs np), k), B). split; [|cbn [fst snd]; auto]. apply left_rows. exists k, B. split; [exact Hk|]. rewrite Ek. auto.
    Qed.
  End Left.
  (** right factors N <- Q *)
  Section Right.
    Variable f : nat -> nat * nat -> option block -> fdata.
    Variable G : sector -> option block -> option block.
    Hypothesis HF : forall k, k < length (tp_secs N) -> forall B, f k (nth k pairs np) B = match G (nth k (tp_secs N) []) B with Some X => [(rrow_ k (nth k pairs np), X)] | None => [] end.
    Hypothesis HM : forall k X, k < length (tp_secs N) -> G (nth k (tp_secs N) []) (ft_get Q A (nth k (tp_secs N) [])) = Some X -> is_matrix (block_size N (nth k (tp_secs N) [])) (block_size Q (nth k (tp_secs N) [])) X.
    Lemma right_rows e : In e (gloop f pairs 0 A) <-> exists k X, k < length (tp_secs N) /\ G (nth k (tp_secs N) []) (ft_get Q A (nth k (tp_secs N) [])) = Some X /\ e = ((k, snd (nth k pairs np)), X).
    Proof.
      rewrite gA_In. split.
      - intros [k [Hk I]]. rewrite (HF Hk) in I. destruct (G (nth k (tp_secs N) []) (ft_get Q A (nth k (tp_secs N) []))) as [X|] eqn:E; [|destruct I]. destruct I as [<-|[]]. exists k, X. auto.
      - intros (k & X & Hk & E & ->). exists k. split; [exact Hk|]. rewrite (HF Hk), E. now left.
    Qed.
    Lemma right_sorted0 : StronglySorted lt (map key0 (gloop f pairs 0 A)).
    Proof.
      rewrite gloop_A. assert (IN : forall t, In t (combine (seq 0 (length pairs)) pairs) -> f (fst t) (snd t) (lookup A (fst (snd t))) = match G (nth (fst t) (tp_secs N) []) (lookup A (fst (snd t))) with Some X => [(rrow_ (fst t) (snd t), X)] | None => [] end).
      { intros t I. apply combine_In in I. destruct I as [H ->]. now apply HF. }
      rewrite (flat_map_ext_in' IN). clear IN. generalize 0 at 1. generalize pairs as l. induction l as [|p l IH]; intros s; [constructor|]. cbn [length seq combine flat_map fst snd]. rewrite map_app.
      destruct (G (nth s (tp_secs N) []) (lookup A (fst p))) as [X|]; [|apply IH]. cbn [map app rrow_ fst snd]. constructor; [apply IH|]. apply Forall_forall. intros x I. apply in_map_iff in I. destruct I as [e' [<- I]]. apply in_flat_map in I.
      destruct I as [[k q] [I I']]. cbn [fst snd] in I'. apply in_combine_l in I. apply in_seq in I. destruct (G (nth k (tp_secs N) []) (lookup A (fst q))); [|destruct I']. destruct I' as [<-|[]]. cbn [rrow_ fst snd]. lia.
    Qed.
    Lemma right_ok : ft_ok N Q (ft_make (gloop f pairs 0 A) false).
    Proof.
      apply ft_ok_make.
      - apply (sorted_key1_of right_sorted0). intros e e' I I' E. apply right_rows in I, I'. destruct I as (k & X & Hk & _ & ->), I' as (k' & X' & Hk' & _ & ->). cbn [fst snd] in *. now apply key1_inj.
      - intros e I. apply right_rows in I. destruct I as (k & X & Hk & E & ->). cbn [fst snd]. destruct (pair_spec Hk) as (X1 & X2 & X3 & X4 & X5 & X6). destruct (HM Hk E) as [M1 M2]. split; [exact Hk|]. split; [exact X2|]. split; [auto|]. split; [|exact M2].
        rewrite M1, X6, (N_nth Hk). reflexivity.
    Qed.
    Lemma right_get c : 0 < block_size N c -> ft_get Q (ft_make (gloop f pairs 0 A) false) c = G c (ft_get Q A c).
    Proof.
      intros Hc. apply get_eq; [apply (secs_NoDup OK HQ)|apply (ft_keyed right_ok)|]. intros B. rewrite stored_make. apply (In_secs OK c HN) in Hc. apply In_nth with (d := []) in Hc. destruct Hc as [k [Hk Ek]]. split.
      - intros [e [I [E EB]]]. apply right_rows in I. destruct I as (k' & X & Hk' & G' & ->). cbn [fst snd] in E, EB. subst X. destruct (pair_spec Hk') as (_ & _ & _ & X4 & _). rewrite X4 in E. rewrite E in G'. exact G'.
      - intros E. exists ((k, snd (nth k pairs np)), B). split; [|cbn [fst snd]; split; [destruct (pair_spec Hk) as (_ & _ & _ & X4 & _); congruence|reflexivity]]. apply right_rows. exists k, B. split; [exact Hk|]. rewrite Ek. auto.
    Qed.
  End Right.
  (** diagonal factors on N *)
  Section Mid.
    Variable g : block -> block.
    Hypothesis HM : forall c B, 0 < block_size N c -> ft_get Q A c = Some B -> is_vector (block_size N c) (g B).
    Lemma mid_rows e : In e (gloop (present mrow_ g) pairs 0 A) <-> exists k B, k < length (tp_secs N) /\ ft_get Q A (nth k (tp_secs N) []) = Some B /\ e = ((k, k), g B).
    Proof.
      rewrite gA_In. split.
      - intros [k [Hk I]]. unfold present in I. destruct (ft_get Q A (nth k (tp_secs N) [])) as [B|] eqn:E; [|destruct I]. destruct I as [<-|[]]. exists k, B. auto.
      - intros (k & B & Hk & E & ->). exists k. split; [exact Hk|]. rewrite E. now left.
    Qed.
    Lemma mid_ok : diag_ok N (ft_make (gloop (present mrow_ g) pairs 0 A) false).
    Proof.
      apply diag_ok_make.
      - apply lt_NoDup. apply gA_sorted; [|intros k p [B|]; cbn; lia]. intros k p [B|] e I; [|destruct I]. destruct I as [<-|[]]. reflexivity.
      - intros e I. apply mid_rows in I. destruct I as (k & B & Hk & E & ->). cbn [fst snd]. split; [reflexivity|]. split; [exact Hk|]. assert (Pos : 0 < block_size N (nth k (tp_secs N) [])) by (apply (In_secs OK _ HN); now apply nth_In).
        destruct (HM Pos E) as [V1 V2]. split; [now rewrite V1, (N_nth Hk)|exact V2].
    Qed.
    Lemma mid_get c : 0 < block_size N c -> ft_get N (ft_make (gloop (present mrow_ g) pairs 0 A) false) c = option_map g (ft_get Q A c).
    Proof.
      intros Hc. apply get_eq; [apply (secs_NoDup OK HN)|apply (diag_keyed mid_ok)|]. intros B. rewrite stored_make. apply (In_secs OK c HN) in Hc. apply In_nth with (d := []) in Hc. destruct Hc as [k [Hk Ek]]. split.
      - intros [e [I [E EB]]]. apply mid_rows in I. destruct I as (k' & B' & Hk' & G' & ->). cbn [fst snd] in E, EB. subst B. rewrite E in G'. rewrite G'. reflexivity.
      - destruct (ft_get Q A c) as [B'|] eqn:GA; [|discriminate]. cbn [option_map]. intros [= <-]. exists ((k, k), g B'). split; [|cbn [fst snd]; auto]. apply mid_rows. exists k, B'. rewrite Ek. auto.
    Qed.
  End Mid.
End Loop.
