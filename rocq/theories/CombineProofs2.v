(** combine_legs / split_legs: items and lists of items. *)
From Verif Require Import Util StableSort RowModel RowProofs GridModel GridProofs SymModel SymProofs CatSpec SpaceModel SpaceSpec SpaceProofs SpaceProofs2 SpaceProofs3 SpaceProofs5
  PipeModel PipeProofs PipeProofs2 PipeProofs3 PipeProofs4 BlockModel BlockProofs SparseModel SparseSpec SparseProofs SparseProofs2 SparseProofs3 SparseCharge SparseDense CombineModel CombineSpec CombineProofs.
Set Implicit Arguments. Unset Strict Implicit.
Open Scope nat_scope.

Definition width (x : item * bool) : nat := length (item_legs (fst x)).
Definition iJ (x : item * bool) (r : list nat) : nat := match fst x with Keep _ => hd 0 r | Group P => pJof P (oriented (snd x) r) end.
Definition iS (x : item * bool) (r : list nat) : nat := match fst x with Keep _ => 0 | Group P => pSof P (oriented (snd x) r) end.
Definition iF (x : item * bool) (r q : list nat) : nat :=
  match fst x with Keep _ => hd 0 q | Group P => flat_index (shp (mults (p_legs P)) (oriented (snd x) r)) (p_cstyle P) (oriented (snd x) q) end.
Definition iT (x : item * bool) (r : list nat) : nat := prod (shp (mults (olegs x)) r).
Definition xleg (x : item * bool) : espace := item_leg (fst x).

Lemma olegs_length x : length (olegs x) = width x.
Proof. unfold olegs, width. apply oriented_length. Qed.
Lemma valid_one n r : valid_idx [n] r -> exists i, r = [i] /\ i < n.
Proof. intros V. inversion V as [|a b la lb H1 H2]; subst. inversion H2; subst. eauto. Qed.
Lemma mults_oriented d l : mults (oriented d l) = oriented d (mults l).
Proof. unfold mults. apply oriented_map. Qed.
Lemma olegs_keep L d : olegs (Keep L, d) = [L].
Proof. unfold olegs. destruct d; reflexivity. Qed.

Section Items.
  Variable S : symm.
  Variable fuse : sector -> sector -> sector.
  Hypothesis G : abelian_group_laws S fuse.
  Hypothesis HA : s_abelian S = true.
  Hypothesis HD : s_drop S = true.

  (** valid row and position on the legs [l] *)
  Definition okpos (l : list espace) (r q : list nat) : Prop := valid_idx (map nsec l) r /\ valid_idx (shp (mults l) r) q.
  Lemma okpos_len l r q : okpos l r q -> length r = length l /\ length q = length l.
  Proof.
    intros [V Q]. assert (E := row_len V). assert (E1 := valid_length V). rewrite map_length in E1. split; [exact E1|].
    rewrite (valid_length Q), shp_len; [unfold mults; apply map_length|exact E].
  Qed.
  Lemma row_orient d l r : valid_idx (map nsec (oriented d l)) r -> valid_idx (map nsec l) (oriented d r).
  Proof. intros V. rewrite oriented_map in V. apply (oriented_valid d) in V. rewrite oriented_invol in V. exact V. Qed.
  Lemma okpos_orient d l r q : okpos (oriented d l) r q -> okpos l (oriented d r) (oriented d q).
  Proof.
    intros [V Q]. assert (V' := row_orient V). split; [exact V'|]. apply (oriented_valid d) in Q. rewrite mults_oriented in Q.
    rewrite <- oriented_shp in Q by (rewrite oriented_length; unfold mults; rewrite map_length; rewrite (valid_length V), map_length; apply oriented_length).
    rewrite oriented_invol in Q. exact Q.
  Qed.
  Lemma okpos_orient' d l r q : okpos l r q -> okpos (oriented d l) (oriented d r) (oriented d q).
  Proof. intros H. apply okpos_orient. rewrite oriented_invol. exact H. Qed.
  Lemma shp_orient d l r : length r = length l -> shp (mults (oriented d l)) r = oriented d (shp (mults l) (oriented d r)).
  Proof.
    intros E. rewrite mults_oriented. rewrite <- (oriented_invol d r) at 1. apply oriented_shp. rewrite oriented_length. unfold mults. now rewrite map_length.
  Qed.
  Lemma prod_orient d s : prod (oriented d s) = prod s.
  Proof. destruct d; [apply prod_rev|reflexivity]. Qed.

  Lemma item_lt x r q : item_ok S (fst x) -> okpos (olegs x) r q ->
    iJ x r < nsec (xleg x) /\ iF x r q < iT x r /\ iS x r + iT x r <= nth (iJ x r) (es_mults (xleg x)) 0.
  Proof.
    destruct x as [[L|P] d]; intros OK HP; unfold iJ, iF, iS, iT, xleg; cbn [fst snd item_leg].
    - rewrite olegs_keep in *. destruct HP as [V Q]. cbn [map] in V. destruct (valid_one V) as (i & -> & Hi). cbn [mults map shp hd] in *.
      destruct (valid_one Q) as (j & -> & Hj). cbn [hd]. rewrite prod_cons. unfold prod. cbn [fold_right]. lia.
    - destruct (okpos_len HP) as [L1 L2]. destruct (okpos_orient (d := d) HP) as [V Q]. destruct (ppsi_lt G HA HD OK V Q) as (A1 & A2 & A3).
      unfold olegs in L1. rewrite oriented_length in L1. cbn [item_legs fst] in L1. unfold olegs. cbn [fst snd item_legs]. rewrite shp_orient by exact L1. rewrite prod_orient.
      split; [exact A1|]. split; [apply (flat_index_lt _ Q)|exact A3].
  Qed.
  Lemma item_inj x r q r' q' : item_ok S (fst x) -> okpos (olegs x) r q -> okpos (olegs x) r' q' ->
    iJ x r = iJ x r' -> iS x r + iF x r q = iS x r' + iF x r' q' -> r = r' /\ q = q'.
  Proof.
    destruct x as [[L|P] d]; intros OK HP HP'; unfold iJ, iF, iS, iT, xleg; cbn [fst snd item_leg]; intros E1 E2.
    - rewrite olegs_keep in *. destruct HP as [V Q], HP' as [V' Q']. cbn [map] in V, V'. destruct (valid_one V) as (i & -> & Hi). destruct (valid_one V') as (i' & -> & Hi'). cbn [mults map shp hd] in *.
      destruct (valid_one Q) as (j & -> & Hj). destruct (valid_one Q') as (j' & -> & Hj'). cbn [hd] in *. subst i'. assert (j = j') by lia. now subst.
    - destruct (okpos_orient (d := d) HP) as [V Q]. destruct (okpos_orient (d := d) HP') as [V' Q'].
      destruct (psi_inj G HA HD OK V Q V' Q' E1 E2) as [E3 E4]. apply (f_equal (oriented d)) in E3, E4. rewrite !oriented_invol in E3, E4. auto.
  Qed.
  Lemma item_surj x J y : item_ok S (fst x) -> J < nsec (xleg x) -> y < nth J (es_mults (xleg x)) 0 -> exists r q, okpos (olegs x) r q /\ iJ x r = J /\ iS x r + iF x r q = y.
  Proof.
    destruct x as [[L|P] d]; intros OK HJ Hy; unfold iJ, iF, iS, iT, xleg in *; cbn [fst snd item_leg] in *.
    - exists [J], [y]. rewrite olegs_keep. split; [|cbn; auto]. split; cbn [map mults shp]; repeat constructor; auto.
    - destruct (psi_surj G HA HD OK HJ Hy) as (r & q & V & Q & E1 & E2). exists (oriented d r), (oriented d q). rewrite !oriented_invol. split; [|auto].
      apply (okpos_orient' d). split; assumption.
  Qed.
  Lemma item_leg_ok x : item_ok S (fst x) -> es_ok S (xleg x).
  Proof. destruct x as [[L|P] d]; intros OK; [exact OK|]. apply (P_es_ok G HA HD OK). Qed.
  Lemma item_legs_ok x : item_ok S (fst x) -> forall L, In L (olegs x) -> es_ok S L.
  Proof.
    destruct x as [[L0|P] d]; intros OK L HL.
    - rewrite olegs_keep in HL. destruct HL as [<-|[]]. exact OK.
    - destruct OK as [OK _]. apply OK. unfold olegs in HL. destruct d; cbn in HL; auto. now apply in_rev.
  Qed.
  Lemma item_sector x r : item_ok S (fst x) -> valid_idx (map nsec (olegs x)) r ->
    nth (iJ x r) (es_decomp S (xleg x)) [] = fuse_all S fuse (row_sectors S (olegs x) r).
  Proof.
    intros OK V. assert (LO := item_legs_ok OK). assert (RV := row_sectors_valid G LO V). destruct x as [[L|P] d]; unfold iJ, xleg; cbn [fst snd item_leg].
    - rewrite olegs_keep in *. cbn [map] in V. destruct (valid_one V) as (i & -> & Hi). reflexivity.
    - unfold olegs in *. cbn [fst snd item_legs] in *. assert (V' := row_orient V). rewrite (pJ_sector G HA HD OK V').
      assert (LR : length (oriented d r) = length (p_legs P)) by (rewrite (valid_length V'); apply map_length).
      destruct d; [|reflexivity]. cbn [oriented] in *. assert (ER : row_sectors S (rev (p_legs P)) r = rev (row_sectors S (p_legs P) (rev r))) by (rewrite <- (rev_involutive r) at 1; unfold row_sectors; apply zipw_rev; exact LR). rewrite ER.
      symmetry. apply (fuse_all_rev G). apply (row_sectors_valid G); [|exact V']. destruct OK as [OK _]. exact OK.
  Qed.
  (** the position on the leg after combining *)
  Lemma item_position x r q j : item_ok S (fst x) -> okpos (olegs x) r q ->
    (fused_position S x (locs (mults (olegs x)) r q) j <-> j = nsum (firstn (iJ x r) (es_mults (xleg x))) + (iS x r + iF x r q)).
  Proof.
    intros OK HP. assert (HL := item_lt OK HP). destruct x as [[L|P] d]; unfold fused_position, iJ, iF, iS, iT, xleg in *; cbn [fst snd item_leg] in *.
    - rewrite olegs_keep in *. destruct HP as [V Q]. cbn [map] in V. destruct (valid_one V) as (i & -> & Hi). cbn [mults map shp hd] in *.
      destruct (valid_one Q) as (k & -> & Hk). cbn [hd locs]. split; [injection 1; lia|intros ->; f_equal; lia].
    - destruct (okpos_len HP) as [L1 L2]. destruct (okpos_orient (d := d) HP) as [V Q]. assert (E := ppsi_state G HA HD OK V Q). unfold ppsi, pub in E.
      unfold olegs in *. cbn [fst snd item_legs] in *. rewrite oriented_length in L1, L2.
      assert (EL : oriented d (locs (mults (oriented d (p_legs P))) r q) = locs (mults (p_legs P)) (oriented d r) (oriented d q)).
      { rewrite mults_oriented. rewrite <- (oriented_invol d r) at 1. rewrite <- (oriented_invol d q) at 1.
        rewrite oriented_locs by (rewrite oriented_length; unfold mults; now rewrite map_length). apply oriented_invol. }
      rewrite EL, <- E. assert (EO := P_es_ok G HA HD OK). assert (BP := ok_bperm EO).
      assert (LT : nsum (firstn (pJof P (oriented d r)) (es_mults (p_es P))) + (pSof P (oriented d r) + flat_index (shp (mults (p_legs P)) (oriented d r)) (p_cstyle P) (oriented d q)) < es_dim S (p_es P)).
      { rewrite (p_dim_one G EO). apply loc_lt; [apply HL|]. lia. }
      split.
      + intros [Hj EJ]. apply (is_perm_nth_inj BP); auto.
      + intros ->. split; [exact LT|reflexivity].
  Qed.

  (** ** lists of items *)
  Definition alegs (its : list (item * bool)) : list espace := flat_map olegs its.
  Definition nlegs (its : list (item * bool)) : list espace := map xleg its.
  Definition its_ok (its : list (item * bool)) : Prop := forall x, In x its -> item_ok S (fst x).
  Fixpoint Jmap (its : list (item * bool)) (r : list nat) : list nat :=
    match its with [] => [] | x :: t => iJ x (firstn (width x) r) :: Jmap t (skipn (width x) r) end.
  Fixpoint Smap (its : list (item * bool)) (r : list nat) : list nat :=
    match its with [] => [] | x :: t => iS x (firstn (width x) r) :: Smap t (skipn (width x) r) end.
  Fixpoint Tmap (its : list (item * bool)) (r : list nat) : list nat :=
    match its with [] => [] | x :: t => iT x (firstn (width x) r) :: Tmap t (skipn (width x) r) end.
  Fixpoint Fmap (its : list (item * bool)) (r q : list nat) : list nat :=
    match its with [] => [] | x :: t => iF x (firstn (width x) r) (firstn (width x) q) :: Fmap t (skipn (width x) r) (skipn (width x) q) end.
  (** position in the block after combining *)
  Fixpoint Qmap (its : list (item * bool)) (r q : list nat) : list nat :=
    match its with [] => [] | x :: t => iS x (firstn (width x) r) + iF x (firstn (width x) r) (firstn (width x) q) :: Qmap t (skipn (width x) r) (skipn (width x) q) end.

  Lemma okpos_app l l' r q r' q' : okpos l r q -> okpos l' r' q' -> okpos (l ++ l') (r ++ r') (q ++ q').
  Proof. intros [A B] [A' B']. split; [apply valid_row_app; auto|apply valid_pos_app; auto]. Qed.
  Lemma okpos_split l l' r q : okpos (l ++ l') r q -> okpos l (firstn (length l) r) (firstn (length l) q) /\ okpos l' (skipn (length l) r) (skipn (length l) q).
  Proof.
    intros [V Q]. rewrite map_app in V. destruct (valid_split V) as (A & B & _). rewrite map_length in A, B.
    rewrite mults_app in Q. rewrite <- (firstn_skipn (length l) r) in Q. rewrite shp_app in Q by (rewrite (valid_length A), map_length; unfold mults; now rewrite map_length).
    destruct (valid_split Q) as (A' & B' & _).
    rewrite shp_len in A', B' by (rewrite (valid_length A), map_length; unfold mults; now rewrite map_length).
    assert (EM : length (mults l) = length l) by apply map_length. rewrite EM in A', B'. split; split; assumption.
  Qed.
  Lemma alegs_cons x its : alegs (x :: its) = olegs x ++ alegs its.
  Proof. reflexivity. Qed.
  Lemma okpos_cons x its r q : okpos (alegs (x :: its)) r q ->
    okpos (olegs x) (firstn (width x) r) (firstn (width x) q) /\ okpos (alegs its) (skipn (width x) r) (skipn (width x) q).
  Proof. rewrite alegs_cons. intros H. apply okpos_split in H. rewrite olegs_length in H. exact H. Qed.
  Lemma row_cons x its r : valid_idx (map nsec (alegs (x :: its))) r -> valid_idx (map nsec (olegs x)) (firstn (width x) r) /\ valid_idx (map nsec (alegs its)) (skipn (width x) r).
  Proof. rewrite alegs_cons, map_app. intros H. apply valid_split in H. rewrite map_length, olegs_length in H. destruct H as (H1 & H2 & _). auto. Qed.
  (** a valid row has a valid position: multiplicities are positive *)
  Lemma row_pos l r : (forall L, In L l -> es_ok S L) -> valid_idx (map nsec l) r -> okpos l r (repeat 0 (length l)).
  Proof.
    intros OK V. split; [exact V|]. revert r V. induction l as [|L l IH]; intros r V; inversion V as [|a b la lb H1 H2]; subst; [constructor|]. cbn [mults map shp length repeat].
    constructor; [|apply IH; auto; intros; apply OK; now right]. apply (ok_pos (OK L (or_introl eq_refl))). apply nth_In. exact H1.
  Qed.
  Lemma its_ok_cons x its : its_ok (x :: its) -> item_ok S (fst x) /\ its_ok its.
  Proof. intros H. split; [apply H; now left|intros y Hy; apply H; now right]. Qed.
  Lemma alegs_ok its : its_ok its -> forall L, In L (alegs its) -> es_ok S L.
  Proof. intros H L HL. apply in_flat_map in HL. destruct HL as (x & Hx & HL). apply (item_legs_ok (H x Hx) HL). Qed.
  Lemma nlegs_ok its : its_ok its -> forall L, In L (nlegs its) -> es_ok S L.
  Proof. intros H L HL. apply in_map_iff in HL. destruct HL as (x & <- & Hx). apply (item_leg_ok (H x Hx)). Qed.
  Lemma Qmap_SF its : forall r q, Qmap its r q = map (fun p => fst p + snd p) (combine (Smap its r) (Fmap its r q)).
  Proof. induction its as [|x t IH]; intros; [reflexivity|]. cbn. now rewrite IH. Qed.
  Lemma map_len its r q : length (Jmap its r) = length its /\ length (Smap its r) = length its /\ length (Tmap its r) = length its /\ length (Fmap its r q) = length its /\ length (Qmap its r q) = length its.
  Proof. revert r q; induction its as [|x t IH]; intros r q; [repeat split|]. destruct (IH (skipn (width x) r) (skipn (width x) q)) as (A & B & C & D & E). cbn. rewrite A, B, C, D, E. repeat split. Qed.

  Lemma JQ_valid its r q : its_ok its -> okpos (alegs its) r q -> okpos (nlegs its) (Jmap its r) (Qmap its r q).
  Proof.
    revert r q; induction its as [|x t IH]; intros r q OK HP; [split; constructor|]. destruct (its_ok_cons OK) as [O1 O2]. destruct (okpos_cons HP) as [H1 H2].
    destruct (item_lt O1 H1) as (A1 & A2 & A3). destruct (IH _ _ O2 H2) as [B1 B2]. split; cbn [nlegs map Jmap Qmap mults shp]; constructor; auto. lia.
  Qed.
  Lemma J_valid its r : its_ok its -> valid_idx (map nsec (alegs its)) r -> valid_idx (map nsec (nlegs its)) (Jmap its r).
  Proof. intros OK V. apply (@JQ_valid its r (repeat 0 (length (alegs its))) OK). apply row_pos; [apply (alegs_ok OK)|exact V]. Qed.
  Lemma F_valid its r q : its_ok its -> okpos (alegs its) r q -> valid_idx (Tmap its r) (Fmap its r q).
  Proof.
    revert r q; induction its as [|x t IH]; intros r q OK HP; [constructor|]. destruct (its_ok_cons OK) as [O1 O2]. destruct (okpos_cons HP) as [H1 H2].
    destruct (item_lt O1 H1) as (A1 & A2 & A3). cbn [Tmap Fmap]. constructor; [exact A2|]. apply IH; assumption.
  Qed.
  (** the slices lie in the block *)
  Lemma ST_le its r : its_ok its -> valid_idx (map nsec (alegs its)) r -> Forall2 (fun st n => fst st + snd st <= n) (combine (Smap its r) (Tmap its r)) (shp (mults (nlegs its)) (Jmap its r)).
  Proof.
    revert r; induction its as [|x t IH]; intros r OK V; [constructor|]. destruct (its_ok_cons OK) as [O1 O2]. destruct (row_cons V) as [H1 H2].
    destruct (item_lt O1 (row_pos (item_legs_ok O1) H1)) as (A1 & A2 & A3). cbn [Smap Tmap Jmap nlegs map mults shp combine]. constructor; [exact A3|]. apply IH; assumption.
  Qed.
  Lemma JQ_inj its r q r' q' : its_ok its -> okpos (alegs its) r q -> okpos (alegs its) r' q' -> Jmap its r = Jmap its r' -> Qmap its r q = Qmap its r' q' -> r = r' /\ q = q'.
  Proof.
    revert r q r' q'; induction its as [|x t IH]; intros r q r' q' OK HP HP' E1 E2.
    - destruct (okpos_len HP) as [L1 L2], (okpos_len HP') as [L3 L4]. destruct r, q, r', q'; try discriminate. auto.
    - destruct (its_ok_cons OK) as [O1 O2]. destruct (okpos_cons HP) as [H1 H2]. destruct (okpos_cons HP') as [H1' H2']. cbn [Jmap Qmap] in E1, E2.
      apply (f_equal (fun l => (hd 0 l, tl l))) in E1, E2. cbn [hd tl] in E1, E2.
      destruct (item_inj O1 H1 H1' (f_equal fst E1) (f_equal fst E2)) as [X1 X2].
      destruct (IH _ _ _ _ O2 H2 H2' (f_equal snd E1) (f_equal snd E2)) as [X3 X4].
      split; [rewrite <- (firstn_skipn (width x) r), X1, X3|rewrite <- (firstn_skipn (width x) q), X2, X4]; apply firstn_skipn.
  Qed.
  Lemma firstn_at A (l l' : list A) n : length l = n -> firstn n (l ++ l') = l /\ skipn n (l ++ l') = l'.
  Proof. intros <-. rewrite firstn_app, skipn_app, Nat.sub_diag, firstn_all, skipn_all. now rewrite app_nil_r. Qed.
  Lemma JQ_surj its b x : its_ok its -> okpos (nlegs its) b x -> exists r q, okpos (alegs its) r q /\ Jmap its r = b /\ Qmap its r q = x.
  Proof.
    revert b x; induction its as [|y t IH]; intros b x OK HP.
    - destruct (okpos_len HP) as [L1 L2]. destruct b, x; try discriminate. exists [], []. repeat split; constructor.
    - destruct (its_ok_cons OK) as [O1 O2]. destruct HP as [V Q]. cbn [nlegs map] in V. inversion V as [|J n b' l' H1 H2]; subst. cbn [nlegs map mults shp] in Q. inversion Q as [|z n' x' l'' H3 H4]; subst.
      destruct (item_surj O1 H1 H3) as (r1 & q1 & P1 & E1 & E2). destruct (IH _ _ O2 (conj H2 H4)) as (r2 & q2 & P2 & E3 & E4).
      exists (r1 ++ r2), (q1 ++ q2). destruct (okpos_len P1) as [L1 L2]. rewrite olegs_length in L1, L2.
      split; [apply (okpos_app P1 P2)|]. cbn [Jmap Qmap]. destruct (firstn_at r2 L1) as [-> ->]. destruct (firstn_at q2 L2) as [-> ->]. now rewrite E1, E2, E3, E4.
  Qed.
  (** fused positions are exactly the positions (Jmap, Qmap) *)
  Lemma fused_locs its r q js : its_ok its -> okpos (alegs its) r q ->
    (fused_positions S its (locs (mults (alegs its)) r q) js <-> js = locs (mults (nlegs its)) (Jmap its r) (Qmap its r q)).
  Proof.
    revert r q js; induction its as [|x t IH]; intros r q js OK HP.
    - cbn. split; [intros H; inversion H; reflexivity|intros ->; constructor].
    - destruct (its_ok_cons OK) as [O1 O2]. destruct (okpos_cons HP) as [H1 H2]. destruct (okpos_len H1) as [L1 L2].
      assert (EL : locs (mults (alegs (x :: t))) r q = locs (mults (olegs x)) (firstn (width x) r) (firstn (width x) q) ++ locs (mults (alegs t)) (skipn (width x) r) (skipn (width x) q)).
      { rewrite alegs_cons, mults_app. rewrite <- locs_app by (unfold mults; now rewrite map_length). now rewrite !firstn_skipn. }
      assert (LL : length (locs (mults (olegs x)) (firstn (width x) r) (firstn (width x) q)) = width x).
      { rewrite locs_len by (unfold mults; now rewrite map_length). unfold mults. rewrite map_length. apply olegs_length. }
      rewrite EL. cbn [nlegs map mults Jmap Qmap locs]. fold (nlegs t) (mults (nlegs t)). split.
      + intros H. inversion H as [|y its' g j gs js' Lg Fg Fgs E1 E2 E3]. subst y its' js.
        assert (LG : length g = width x) by exact Lg. assert (EG : g = locs (mults (olegs x)) (firstn (width x) r) (firstn (width x) q) /\ gs = locs (mults (alegs t)) (skipn (width x) r) (skipn (width x) q)).
        { destruct (firstn_at gs LG) as [F1 F2]. destruct (firstn_at (locs (mults (alegs t)) (skipn (width x) r) (skipn (width x) q)) LL) as [F3 F4]. rewrite E2 in F1, F2. split; congruence. }
        destruct EG as [-> ->]. apply (proj1 (item_position j O1 H1)) in Fg. apply (proj1 (IH _ _ _ O2 H2)) in Fgs. subst. reflexivity.
      + intros ->. apply fp_cons; [exact LL|apply (proj2 (item_position _ O1 H1)); reflexivity|]. apply (proj2 (IH _ _ _ O2 H2)). reflexivity.
  Qed.
End Items.
