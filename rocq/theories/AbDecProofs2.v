(** Matrices that are block-diagonal with respect to a matching of sectors. *)
From Verif Require Import Util StableSort RowModel RowProofs GridModel GridProofs SymModel SymProofs CatSpec Sums SpaceModel SpaceSpec SpaceProofs SpaceProofs2 SpaceProofs7
  PipeModel PipeProofs PipeProofs2 TreeModel TensorModel TensorSpec BlockModel BlockProofs SparseModel SparseSpec SparseProofs SparseProofs3 SparseProofs6 SparseDense ConvertModel ConvertProofs3
  FtOpsModel FtOpsSpec FtOpsProofs2 FtOpsProofs3 FtOpsProofs4 FtOpsProofs8 FtOpsProofs9 AbDecModel.
Set Implicit Arguments. Unset Strict Implicit.
Open Scope nat_scope.

Section Match.
  Variable K : Type.
  Variable o : ops K.
  Hypothesis SR : is_semiring o.
  Notation adata := (list (list nat * blk K)).
  (** position of state [a] of sector [j] of a leg with multiplicities [ms] *)
  Definition pos (ms : list nat) (j a : nat) : nat := nsum (firstn j ms) + a.
  Lemma sumn_shift n m (f : nat -> K) : sumn o (n + m) f = oadd o (sumn o n f) (sumn o m (fun i => f (n + i))).
  Proof.
    unfold sumn. rewrite seq_app, map_app, (sum_app SR). f_equal. rewrite Nat.add_0_l. f_equal. rewrite <- (Nat.add_0_r n) at 1. generalize 0. induction m as [|m IH]; intros k; [reflexivity|]. cbn [seq map]. f_equal. rewrite <- Nat.add_succ_r. apply IH.
  Qed.
  Lemma sumn_S n (f : nat -> K) : sumn o (Datatypes.S n) f = oadd o (f 0) (sumn o n (fun i => f (Datatypes.S i))).
  Proof. change (Datatypes.S n) with (1 + n). rewrite sumn_shift. f_equal. unfold sumn. cbn. rewrite (SRadd_comm SR). apply (SRadd_0_l SR). Qed.
  Lemma pos_sum ms : forall f, sumn o (nsum ms) f = sumn o (length ms) (fun j => sumn o (nth j ms 0) (fun a => f (pos ms j a))).
  Proof.
    induction ms as [|m ms IH]; intros f; [reflexivity|]. change (nsum (m :: ms)) with (m + nsum ms). rewrite sumn_shift. cbn [length]. rewrite sumn_S. f_equal. rewrite IH. apply sumn_ext. intros j Hj. cbn [nth]. apply sumn_ext. intros a Ha. f_equal. unfold pos. cbn [firstn].
    change (nsum (m :: firstn j ms)) with (m + nsum (firstn j ms)). lia.
  Qed.
  Lemma pos_delta ms j a j' a' : j < length ms -> a < nth j ms 0 -> j' < length ms -> a' < nth j' ms 0 -> delta o (pos ms j a) (pos ms j' a') = if j =? j' then delta o a a' else o0 o.
  Proof.
    intros H1 H2 H3 H4. unfold delta, pos. destruct (Nat.eqb_spec j j') as [-> |NE].
    - destruct (Nat.eqb_spec a a') as [-> |NE]; [now rewrite Nat.eqb_refl|]. now rewrite (proj2 (Nat.eqb_neq _ _)) by lia.
    - rewrite (proj2 (Nat.eqb_neq _ _)); [reflexivity|]. intros E. apply NE. exact (proj1 (loc_inj H1 H2 H3 H4 E)).
  Qed.
  Lemma sumn_one n k (f : nat -> K) : k < n -> (forall x, x < n -> x <> k -> f x = o0 o) -> sumn o n f = f k.
  Proof. intros H Z. unfold sumn. rewrite (@sum_single K o SR _ _ (seq 0 n) k (seq_NoDup n 0)); [reflexivity|apply in_seq; lia|]. intros y I NE. apply in_seq in I. apply Z; lia. Qed.

  Variable l : list drow.
  (** [f] has blocks only at the pairs of sectors [(p r, q r)] *)
  Definition blockform (lm mm : list nat) (p q : drow -> nat) (f : nat -> nat -> K) (g : drow -> nat -> nat -> K) : Prop :=
    forall j a n c, j < length lm -> a < nth j lm 0 -> n < length mm -> c < nth n mm 0 ->
      (forall r, In r l -> p r = j -> q r = n -> f (pos lm j a) (pos mm n c) = g r a c) /\
      ((forall r, In r l -> p r = j -> q r = n -> False) -> f (pos lm j a) (pos mm n c) = o0 o).
  Lemma pair_dec (p q : drow -> nat) j n : (exists r, In r l /\ p r = j /\ q r = n) \/ (forall r, In r l -> p r = j -> q r = n -> False).
  Proof.
    induction l as [|r l' IH]; [right; intros r []|]. destruct (Nat.eq_dec (p r) j) as [Ep|Np]; [destruct (Nat.eq_dec (q r) n) as [Eq|Nq]|].
    - left. exists r. split; [now left|auto].
    - destruct IH as [(s & Is & E)|IH]; [left; exists s; split; [now right|exact E]|right]. intros s [<-|Is] E1 E2; [contradiction|]. exact (IH s Is E1 E2).
    - destruct IH as [(s & Is & E)|IH]; [left; exists s; split; [now right|exact E]|right]. intros s [<-|Is] E1 E2; [contradiction|]. exact (IH s Is E1 E2).
  Qed.
  Lemma bf_unique lm mm p q f f' g g' : blockform lm mm p q f g -> blockform lm mm p q f' g' ->
    (forall r a c, In r l -> a < nth (p r) lm 0 -> c < nth (q r) mm 0 -> g r a c = g' r a c) -> forall x y, x < nsum lm -> y < nsum mm -> f x y = f' x y.
  Proof.
    intros F F' E x y Hx Hy. destruct (loc_surj Hx) as (j & a & Hj & Ha & ->). destruct (loc_surj Hy) as (n & c & Hn & Hc & ->).
    destruct (F j a n c Hj Ha Hn Hc) as [F1 F2]. destruct (F' j a n c Hj Ha Hn Hc) as [G1 G2]. unfold pos in *. destruct (pair_dec p q j n) as [(r & I & Ep & Eq)|Z].
    - rewrite (F1 r I Ep Eq), (G1 r I Ep Eq). apply E; auto; now rewrite ?Ep, ?Eq.
    - now rewrite (F2 Z), (G2 Z).
  Qed.
  Lemma bf_ext lm mm p q f f' g : (forall x y, x < nsum lm -> y < nsum mm -> f x y = f' x y) -> blockform lm mm p q f g -> blockform lm mm p q f' g.
  Proof. intros E F j a n c Hj Ha Hn Hc. rewrite <- E by now apply loc_lt. now apply F. Qed.
  Lemma NoDup_eq (p : drow -> nat) r s : NoDup (map p l) -> In r l -> In s l -> p r = p s -> r = s.
  Proof.
    induction l as [|t l' IH]; intros ND Ir Is E; [destruct Ir|]. cbn [map] in ND. apply NoDup_cons_iff in ND. destruct ND as [NI ND]. destruct Ir as [<-|Ir], Is as [<-|Is].
    - reflexivity.
    - exfalso. apply NI. rewrite E. now apply in_map.
    - exfalso. apply NI. rewrite <- E. now apply in_map.
    - now apply IH.
  Qed.
  Lemma bf_mul lm mm nm (p q s : drow -> nat) u v gu gv : NoDup (map p l) -> NoDup (map q l) -> (forall r, In r l -> q r < length mm) ->
    blockform lm mm p q u gu -> blockform mm nm q s v gv ->
    blockform lm nm p s (fun x y => sumn o (nsum mm) (fun z => omul o (u x z) (v z y))) (fun r a b => sumn o (nth (q r) mm 0) (fun c => omul o (gu r a c) (gv r c b))).
  Proof.
    intros NP NQ RQ U V j a k b Hj Ha Hk Hb. cbn beta. rewrite pos_sum. split.
    - intros r I Ep Es. rewrite (@sumn_one _ (q r)).
      + apply sumn_ext. intros c Hc. rewrite (proj1 (U j a (q r) c Hj Ha (RQ r I) Hc) r I Ep eq_refl). now rewrite (proj1 (V (q r) c k b (RQ r I) Hc Hk Hb) r I eq_refl Es).
      + now apply RQ.
      + intros n Hn NE. apply sumn_zero; [exact SR|]. intros c Hc. rewrite (proj2 (U j a n c Hj Ha Hn Hc)); [apply (SRmul_0_l SR)|]. intros r' I' E1 E2. apply NE. rewrite <- E2. f_equal. apply (NoDup_eq NP); auto. congruence.
    - intros Z. apply sumn_zero; [exact SR|]. intros n Hn. apply sumn_zero; [exact SR|]. intros c Hc. destruct (pair_dec p q j n) as [(r1 & I1 & E1 & E2)|Z1].
      + destruct (pair_dec q s n k) as [(r2 & I2 & E3 & E4)|Z2].
        * exfalso. assert (r1 = r2) by (apply (NoDup_eq NQ); auto; congruence). subst r2. exact (Z r1 I1 E1 E4).
        * rewrite (proj2 (V n c k b Hn Hc Hk Hb) Z2). apply (mul_0_r SR).
      + rewrite (proj2 (U j a n c Hj Ha Hn Hc) Z1). apply (SRmul_0_l SR).
  Qed.
  Lemma bf_dagger lm mm p q u gu : oconj o (o0 o) = o0 o -> blockform lm mm p q u gu -> blockform mm lm q p (fun z x => oconj o (u x z)) (fun r c a => oconj o (gu r a c)).
  Proof.
    intros C0 U n c j a Hn Hc Hj Ha. destruct (U j a n c Hj Ha Hn Hc) as [U1 U2]. split.
    - intros r I E1 E2. now rewrite (U1 r I E2 E1).
    - intros Z. rewrite U2; [exact C0|]. intros r I E1 E2. exact (Z r I E2 E1).
  Qed.
  Lemma bf_eye mm (q : drow -> nat) : NoDup (map q l) -> (forall n, n < length mm -> In n (map q l)) -> blockform mm mm q q (delta o) (fun _ => delta o).
  Proof.
    intros ND AL n c n' c' Hn Hc Hn' Hc'. rewrite pos_delta by auto. split.
    - intros r I <- <-. now rewrite Nat.eqb_refl.
    - intros Z. destruct (Nat.eqb_spec n n') as [-> |]; [|reflexivity]. exfalso. specialize (AL n' Hn). apply in_map_iff in AL. destruct AL as (r & E & I). exact (Z r I E E).
  Qed.
  (** scaling the rows *)
  Lemma bf_scale lm mm (p q : drow -> nat) w v gw gv : (forall r c, In r l -> p r < length lm -> c < nth (p r) lm 0 -> w (pos lm (p r) c) = gw r c) -> blockform lm mm p q v gv ->
    blockform lm mm p q (fun z y => omul o (w z) (v z y)) (fun r c b => omul o (gw r c) (gv r c b)).
  Proof.
    intros W V n c k b Hn Hc Hk Hb. destruct (V n c k b Hn Hc Hk Hb) as [V1 V2]. split.
    - intros r I E1 E2. rewrite (V1 r I E1 E2). f_equal. subst n. now apply W.
    - intros Z. rewrite (V2 Z). apply (mul_0_r SR).
  Qed.
  Lemma bf_iso_cols lm mm p q u gu : oconj o (o0 o) = o0 o -> NoDup (map p l) -> NoDup (map q l) -> (forall r, In r l -> p r < length lm) -> (forall n, n < length mm -> In n (map q l)) ->
    blockform lm mm p q u gu -> (forall r, In r l -> iso_cols o (nth (p r) lm 0) (nth (q r) mm 0) (gu r)) -> iso_cols o (nsum lm) (nsum mm) u.
  Proof.
    intros C0 NP NQ RP AQ U ISO z w Hz Hw.
    refine (bf_unique (bf_mul NQ NP RP (bf_dagger C0 U) U) (bf_eye NQ AQ) _ Hz Hw). intros r c c' I Hc Hc'. cbn beta. apply (ISO r I c c' Hc Hc').
  Qed.
  Lemma bf_iso_rows lm mm p q u gu : oconj o (o0 o) = o0 o -> NoDup (map p l) -> NoDup (map q l) -> (forall r, In r l -> q r < length mm) -> (forall n, n < length lm -> In n (map p l)) ->
    blockform lm mm p q u gu -> (forall r, In r l -> iso_rows o (nth (p r) lm 0) (nth (q r) mm 0) (gu r)) -> iso_rows o (nsum lm) (nsum mm) u.
  Proof.
    intros C0 NP NQ RP AQ U ISO z w Hz Hw.
    refine (bf_unique (bf_mul NP NQ RP U (bf_dagger C0 U)) (bf_eye NP AQ) _ Hz Hw). intros r c c' I Hc Hc'. cbn beta. apply (ISO r I c c' Hc Hc').
  Qed.

  (** ** block-sparse data with one row per element of [l] *)
  Definition ent (row : drow -> list nat) (B : drow -> option (blk K)) : adata := flat_map (fun r => match B r with Some X => [(row r, X)] | None => [] end) l.
  Lemma ent_In row B e : In e (ent row B) <-> exists r X, In r l /\ B r = Some X /\ e = (row r, X).
  Proof.
    unfold ent. rewrite in_flat_map. split.
    - intros (r & I & J). destruct (B r) as [X|] eqn:EB; [|destruct J]. destruct J as [<-|[]]. exists r, X. auto.
    - intros (r & X & I & EB & ->). exists r. split; [exact I|]. rewrite EB. now left.
  Qed.
  Lemma ent_NoDup row B : NoDup (map row l) -> NoDup (map fst (ent row B)).
  Proof.
    unfold ent. induction l as [|r l' IH]; intros ND; [constructor|]. cbn [map flat_map] in *. apply NoDup_cons_iff in ND. destruct ND as [NI ND]. rewrite map_app. destruct (B r) as [X|]; cbn [map app fst]; [|now apply IH]. constructor; [|now apply IH].
    intros I. apply NI. apply in_map_iff in I. destruct I as (e & E & I). apply in_flat_map in I. destruct I as (s & Is & J). destruct (B s); [|destruct J]. destruct J as [<-|[]]. cbn [fst] in E. rewrite <- E. now apply in_map.
  Qed.
  Lemma make_NoDup (D : adata) s : NoDup (map fst D) -> NoDup (map fst (make_data D s)).
  Proof. intros ND. eapply Permutation_NoDup; [|exact ND]. apply Permutation_sym, Permutation_map, make_data_perm. Qed.
  Lemma ent_sval row B s r q : NoDup (map row l) -> In r l -> sval o (make_data (ent row B) s) (row r) q = match B r with Some X => bat o X q | None => o0 o end.
  Proof.
    intros ND I. destruct (B r) as [X|] eqn:EB.
    - apply sval_in; [apply make_NoDup, ent_NoDup, ND|]. apply make_data_In, ent_In. now exists r, X.
    - apply sval_notin. intros J. apply in_map_iff in J. destruct J as (e & E & J). apply make_data_In, ent_In in J. destruct J as (r' & X & I' & EB' & ->). cbn [fst] in E.
      assert (r' = r). { clear -ND I I' E. induction l as [|t l' IH]; [destruct I|]. cbn [map] in ND. apply NoDup_cons_iff in ND. destruct ND as [NI ND]. destruct I as [ -> |I], I' as [ -> |I']; auto; exfalso; apply NI; [rewrite <- E|rewrite E]; now apply in_map. }
      subst r'. congruence.
  Qed.
  Lemma ent_sval0 row B s b q : ~ In b (map row l) -> sval o (make_data (ent row B) s) b q = o0 o.
  Proof. intros N. apply sval_notin. intros J. apply in_map_iff in J. destruct J as (e & E & J). apply make_data_In, ent_In in J. destruct J as (r' & X & I' & EB' & ->). apply N. cbn [fst] in E. rewrite <- E. now apply in_map. Qed.
  Lemma ent_sorted row (key : drow -> nat) (B : drow -> option (blk K)) : StronglySorted lt (map key l) -> (forall r, In r l -> exists x, row r = [x; key r]) -> strictly_sorted (zrows (map fst (ent row B))).
  Proof.
    unfold ent, strictly_sorted. induction l as [|r l' IH]; intros SS RW; [constructor|]. cbn [map flat_map] in *. apply StronglySorted_inv in SS. destruct SS as [SS FA]. assert (IH' := IH SS (fun s Is => RW s (or_intror Is))). unfold zrows in *. rewrite !map_app. destruct (B r) as [X|]; cbn [map app fst]; [|exact IH'].
    constructor; [exact IH'|]. apply Forall_forall. intros z Iz. apply in_map_iff in Iz. destruct Iz as (b & <- & Ib). apply in_map_iff in Ib. destruct Ib as (e & <- & Ie). apply in_flat_map in Ie. destruct Ie as (s & Is & J). destruct (B s); [|destruct J]. destruct J as [<-|[]]. cbn [fst].
    destruct (RW r (or_introl eq_refl)) as (x & ->). destruct (RW s (or_intror Is)) as (x' & ->). split; [reflexivity|]. exists 1. rewrite Forall_forall in FA. specialize (FA _ (in_map key _ _ Is)). cbn [map length nth]. split; [lia|]. split; [lia|]. intros k' Hk. lia.
  Qed.
  Lemma ent_ok legs row B s : NoDup (map row l) -> (s = true -> strictly_sorted (zrows (map fst (ent row B)))) ->
    (forall r X, In r l -> B r = Some X -> valid_idx (map nsec legs) (row r) /\ bshape X = shp (mults legs) (row r) /\ bwf X) -> data_ok legs (make_data (ent row B) s).
  Proof.
    intros ND SO RG. assert (RG' : forall e, In e (ent row B) -> valid_idx (map nsec legs) (fst e) /\ bshape (snd e) = shp (mults legs) (fst e) /\ bwf (snd e)).
    { intros e I. apply ent_In in I. destruct I as (r & X & I & EB & ->). now apply RG. }
    destruct s; [|apply data_ok_make; [apply ent_NoDup, ND|exact RG']].
    constructor; [apply SO; reflexivity| | |]; intros e I; apply RG' in I; apply I.
  Qed.
  (** a matrix with rows [[p r; q r]] *)
  Section Two.
    Variable S : symm.
    Variable fuse : sector -> sector -> sector.
    Hypothesis G : abelian_group_laws S fuse.
    Variables C D : espace.
    Hypothesis OC : es_ok S C.
    Hypothesis OD : es_ok S D.
    Lemma two_entry (M : adata) j a n c : data_ok [C; D] M -> j < nsec C -> a < nth j (es_mults C) 0 -> n < nsec D -> c < nth n (es_mults D) 0 ->
      entry o S [C] [D] M [pos (es_mults C) j a; pos (es_mults D) n c] = sval o M [j; n] [a; c].
    Proof.
      intros OM Hj Ha Hn Hc. unfold entry. cbn [leg_order app rev]. change [pos (es_mults C) j a; pos (es_mults D) n c] with (locs (mults [C; D]) [j; n] [a; c]).
      apply (sval_ok o G); [intros L [<-|[<-|[]]]; assumption|exact OM| |]; repeat constructor; assumption.
    Qed.
    Definition ent_val (B : drow -> option (blk K)) (r : drow) (a c : nat) : K := match B r with Some X => bat o X [a; c] | None => o0 o end.
    Lemma ent_form (p q : drow -> nat) B s : NoDup (map p l) -> data_ok [C; D] (make_data (ent (fun r => [p r; q r]) B) s) ->
      blockform (es_mults C) (es_mults D) p q (fun x y => entry o S [C] [D] (make_data (ent (fun r => [p r; q r]) B) s) [x; y]) (ent_val B).
    Proof.
      intros NP OM j a n c Hj Ha Hn Hc. rewrite two_entry by auto. assert (NR : NoDup (map (fun r => [p r; q r]) l)).
      { apply (NoDup_map_from NP). intros x y _ _ E. now injection E. }
      split.
      - intros r I <- <-. now apply (ent_sval (row := fun r => [p r; q r])).
      - intros Z. apply ent_sval0. intros I. apply in_map_iff in I. destruct I as (r & E & I). injection E as E1 E2. exact (Z r I E1 E2).
    Qed.
    (** any charge-conserving matrix *)
    Lemma tensor_form (p q : drow -> nat) (A : adata) : data_ok [C; D] A -> (forall e, In e A -> exists r, In r l /\ fst e = [p r; q r]) ->
      blockform (es_mults C) (es_mults D) p q (fun x y => entry o S [C] [D] A [x; y]) (fun r a c => sval o A [p r; q r] [a; c]).
    Proof.
      intros OA RA j a n c Hj Ha Hn Hc. rewrite two_entry by auto. split; [now intros r I <- <-|]. intros Z. apply sval_notin. intros I. apply in_map_iff in I. destruct I as (e & E & I). destruct (RA e I) as (r & Ir & Er). rewrite E in Er. injection Er as E1 E2. symmetry in E1, E2. exact (Z r Ir E1 E2).
    Qed.
  End Two.
  (** a vector *)
  Section One.
    Variable S : symm.
    Variable fuse : sector -> sector -> sector.
    Hypothesis G : abelian_group_laws S fuse.
    Variable N : espace.
    Hypothesis ON : es_ok S N.
    Lemma one_entry (W : adata) n c : data_ok [N] W -> n < nsec N -> c < nth n (es_mults N) 0 -> bat o (to_dense o S [N] W) [pos (es_mults N) n c] = sval o W [n] [c].
    Proof.
      intros OM Hn Hc. change [pos (es_mults N) n c] with (locs (mults [N]) [n] [c]). apply (sval_ok o G); [intros L [<-|[]]; assumption|exact OM| |]; repeat constructor; assumption.
    Qed.
  End One.
End Match.
Arguments ent_form [K] o [l S fuse] G [C D] OC OD [p q B s] _ _.
Arguments tensor_form [K] o [l S fuse] G [C D] OC OD [p q A] _ _.
Arguments bf_mul [K o] SR [l lm mm nm p q s u v gu gv] _ _ _ _ _.
Arguments bf_dagger [K o l lm mm p q u gu] _ _.
Arguments bf_eye [K] o [l mm q] _ _.
Arguments bf_scale [K o] SR [l lm mm p q w v gw gv] _ _.
Arguments bf_ext [K o l lm mm p q f f' g] _ _.
