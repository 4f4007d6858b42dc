(** Symmetries with one-dimensional sectors and trivial associator: every instruction gives one pair of trees with one phase. *)
From Verif Require Import Util RowModel RowProofs SymModel SymProofs CatSpec Sums StarMat SpaceModel PipeProofs TreeModel TreeProofs TreeProofs3 TreeProofs4 TreeProofs5 TreeProofs6 TreeProofs7 TreeProofs8
  MappingModel MappingProofs PermLegsModel PermLegsSpec MoveModel FtMapModel FtMapSpec FtMapProofs7 FtMapProofs8 FtMapProofs9.
Set Implicit Arguments. Unset Strict Implicit.
Open Scope nat_scope.

Section Pointed.
  Variable S : symmetry.
  Variable fuse : sector -> sector -> sector.
  Hypothesis G : abelian_group_laws S fuse.
  Notation RING := (ag_fusion_ring G).
  Notation valid a := (sym_valid S a = true).
  Notation trivial := (sym_trivial S).
  Notation total := (gsum trivial fuse).

  Lemma total_fuse l : Forall (fun a => valid a) l -> total l = fuse_all S fuse l.
  Proof. induction 1 as [|a l Va F IH]; [reflexivity|]. rewrite (fuse_all_cons G Va F). cbn [gsum fold_right]. f_equal. exact IH. Qed.
  Lemma total_valid l : Forall (fun a => valid a) l -> valid (total l).
  Proof. intros F. rewrite (total_fuse F). now apply (fuse_all_valid G). Qed.
  Lemma total_dual l : Forall (fun a => valid a) l -> total (map (sym_dual S) l) = sym_dual S (total l).
  Proof.
    intros F. rewrite (total_fuse F), <- (fuse_all_dual G F). apply total_fuse. apply Forall_map. eapply Forall_impl; [|exact F]. intros a. apply (ag_dual_valid G).
  Qed.
  Lemma total_perm l l' : Permutation l l' -> Forall (fun a => valid a) l -> total l = total l'.
  Proof.
    induction 1 as [|a l l' P IH|a b l|l1 l2 l3 P1 IH1 P2 IH2]; intros F; [reflexivity| | |].
    - inversion F; subst. cbn [gsum fold_right]. f_equal. now apply IH.
    - inversion F as [|? ? V1 F1]; subst. inversion F1 as [|? ? V2 F2]; subst. cbn [gsum fold_right]. change (fold_right fuse trivial l) with (total l). assert (VT := total_valid F2).
      rewrite <- !(ag_assoc G) by auto. f_equal. now apply (ag_comm G).
    - rewrite IH1 by exact F. apply IH2. rewrite Forall_forall in *. intros x Hx. apply F. apply (Permutation_in x (Permutation_sym P1) Hx).
  Qed.
  Lemma outcome a b c : valid a -> valid b -> In c (sym_outcomes S a b) -> c = fuse a b.
  Proof. intros Va Vb I. rewrite (ag_outcomes G Va Vb) in I. now destruct I as [ <- |[]]. Qed.
  Lemma n_one a b : valid a -> valid b -> n_symbol S a b (fuse a b) = 1.
  Proof.
    intros Va Vb. unfold n_symbol, can_fuse_to. rewrite (ag_outcomes G Va Vb). cbn [existsb]. rewrite (proj2 (row_eqb_eq _ _) eq_refl). cbn [orb]. apply (ag_n G).
  Qed.
  Lemma fuse_unit a : valid a -> fuse a trivial = a.
  Proof. intros Va. rewrite (ag_comm G) by (auto; apply (ag_trivial_valid G)). now apply (ag_unit G). Qed.

  (** *** trees *)
  Lemma path_total a us inn mus c : path S a us inn mus c -> valid a -> Forall (fun x => valid x) us -> c = fuse a (total us) /\
    (forall k, k < length inn -> nth k inn [] = fuse a (total (firstn (Datatypes.S k) us))) /\ (forall k, nth k mus 0 = 0) /\ Datatypes.S (length inn) = length us /\ length mus = length us.
  Proof.
    induction 1 as [a u mu c H1 H2|a u us e inn mu mus c H1 H2 P IH]; intros Va VU; inversion VU as [|? ? Vu VU']; subst; rewrite (ag_n G) in H2; assert (mu = 0) by lia; subst mu; apply (outcome Va Vu) in H1.
    - cbn [gsum fold_right length]. rewrite (fuse_unit Vu). split; [exact H1|]. split; [cbn; lia|]. split; [intros [|[|k]]; reflexivity|auto].
    - subst e. destruct (IH (ag_closed G Va Vu) VU') as (IC & IN & IM & L1 & L2). cbn [gsum fold_right length]. change (fold_right fuse trivial us) with (total us). split.
      { rewrite IC. apply (ag_assoc G); auto. now apply total_valid. }
      split; [|split; [intros [|k]; [reflexivity|apply IM]|lia]]. intros [|k] Hk.
      + cbn [nth firstn gsum fold_right]. now rewrite (fuse_unit Vu).
      + cbn [nth]. rewrite IN by lia. change (total (firstn (Datatypes.S (Datatypes.S k)) (u :: us))) with (fuse u (total (firstn (Datatypes.S k) us))). apply (ag_assoc G); auto. apply total_valid.
        apply Forall_forall. intros x Hx. rewrite Forall_forall in VU'. apply VU'. rewrite <- (firstn_skipn (Datatypes.S k) us). apply in_or_app. now left.
  Qed.
  Lemma tree_total t : tree_ok S t -> t_coup t = total (t_unc t).
  Proof.
    intros TO. destruct (tree_cases TO) as [ET|[(a & d & ET)|(a & us & c & du & inn & mus & ET & L & P)]]; subst t; cbn [t_unc t_coup]; destruct TO as [V _]; cbn [t_unc] in V; [reflexivity| |].
    - inversion V; subst. cbn [gsum fold_right]. symmetry. now apply fuse_unit.
    - inversion V; subst. now destruct (path_total P).
  Qed.
  Lemma tree_inner t k : tree_ok S t -> k < num_uncoupled t - 2 -> nth k (t_inner t) [] = total (firstn (k + 2) (t_unc t)).
  Proof.
    intros TO. destruct (tree_cases TO) as [ET|[(a & d & ET)|(a & us & c & du & inn & mus & ET & L & P)]]; subst t; cbn [num_uncoupled t_unc t_inner length]; destruct TO as [V _]; cbn [t_unc] in V; [lia|cbn; lia|].
    unfold num_uncoupled. cbn [t_unc length]. intros Hk. inversion V; subst. destruct (path_total P) as (_ & IN & _ & L1 & _); auto. rewrite IN by lia. replace (k + 2) with (Datatypes.S (Datatypes.S k)) by lia. rewrite firstn_cons. reflexivity.
  Qed.
  Lemma pointed_unique t u : tree_ok S t -> tree_ok S u -> t_unc t = t_unc u -> t_dual t = t_dual u -> t = u.
  Proof.
    intros TT TU EU ED. assert (CT := tree_total TT). assert (CU := tree_total TU). rewrite EU, <- CU in CT.
    destruct (tree_cases TT) as [ET|[(a & d & ET)|(a & us & c & du & inn & mus & ET & L & P)]]; destruct (tree_cases TU) as [ET'|[(a' & d' & ET')|(a' & us' & c' & du' & inn' & mus' & ET' & L' & P')]];
      subst t u; cbn [t_unc t_dual t_coup] in *; try discriminate.
    - reflexivity.
    - congruence.
    - injection EU as <- <-. now apply (path_nil (S := S)) in P'.
    - injection EU as -> ->. now apply (path_nil (S := S)) in P.
    - injection EU as <- <-. subst du' c'. destruct TT as [V _]. cbn [t_unc] in V. inversion V as [|? ? Va VU]; subst. destruct (path_total P Va VU) as (_ & I1 & M1 & A1 & B1). destruct (path_total P' Va VU) as (_ & I2 & M2 & A2 & B2). f_equal.
      + apply list_eq_nth with (d := []); [lia|]. intros k Hk. rewrite I1 by exact Hk. rewrite I2 by lia. reflexivity.
      + apply list_eq_nth with (d := 0); [lia|]. intros k Hk. now rewrite M1, M2.
  Qed.

  (** *** topological data *)
  Variable K : Type.
  Variable o : ops K.
  Hypothesis ST : star_laws o.
  Notation SR := (st_semi ST).
  Variable B : Bsym K.
  Variables sqrt_qdim inv_sqrt_qdim fs theta : sector -> K.
  Variable trivial_braid : bool.
  Variable R : Rsym K.
  Variable C : Fsym K.
  Variable small : K -> bool.
  Variable r : sector -> sector -> K.
  Hypothesis HR : forall a b c mu, valid a -> valid b -> R a b c mu = r a b.
  Hypothesis HC : forall a b c d e f mu nu kap lam, valid a -> valid b -> valid c -> C a b c d e f mu nu kap lam = r b c.
  Hypothesis HB : forall a b c mu nu, valid a -> valid b -> B a b c mu nu = o1 o.
  Hypothesis HQ : forall a, valid a -> sqrt_qdim a = o1 o /\ inv_sqrt_qdim a = o1 o /\ fs a = o1 o.
  Hypothesis HT : forall a, valid a -> theta a = r a a.
  Hypothesis HTB : trivial_braid = true -> forall a, valid a -> r a a = o1 o.
  Hypothesis HD : forall a b, valid a -> valid b -> r (sym_dual S a) (sym_dual S b) = r a b.
  Hypothesis HS : forall a b, valid a -> valid b -> small (r a b) = false /\ small (oconj o (r a b)) = false.
  Notation braid_tree := (braid_tree S o R C small).
  Notation twist_tree := (twist o theta trivial_braid).
  Notation bend_pair := (fun X Y down => bend_leg S o B sqrt_qdim inv_sqrt_qdim fs X Y down false).
  Notation move := (move braid_tree twist_tree bend_pair).
  Notation moved := (moved o braid_tree twist_tree bend_pair).

  Lemma conj_1 : oconj o (o1 o) = o1 o.
  Proof. assert (E := st_mul ST (oconj o (o1 o)) (o1 o)). rewrite (st_invol ST) in E. assert (M := SRmul_1_l SR). rewrite M in E. assert (Cm := SRmul_comm SR). rewrite Cm, M in E. rewrite (st_invol ST) in E. symmetry. exact E. Qed.
  Lemma braid_pointed t j over dc : tree_ok S t -> j + 1 < num_uncoupled t -> exists u,
    braid S o R C small t j over dc = [(u, cj o dc (if over then r (nth j (t_unc t) []) (nth (j + 1) (t_unc t) []) else oconj o (r (nth (j + 1) (t_unc t) []) (nth j (t_unc t) []))))].
  Proof.
    intros TO H. assert (VN : forall k, k < num_uncoupled t -> valid (nth k (t_unc t) [])) by (intros k Hk; destruct TO as [V _]; exact (proj1 (Forall_forall _ _) V _ (nth_In _ _ Hk))).
    destruct (Nat.eq_dec j 0) as [ -> |NZ].
    - rewrite braid_0. unfold vertex_labels. cbn [Nat.eqb]. eexists. f_equal. f_equal. f_equal. change (0 + 1) with 1. rewrite !HR by (apply VN; lia). reflexivity.
    - assert (H1 : 1 <= j) by lia. assert (SH := tree_ok_bshape TO H1 H). rewrite (@braid_eq S K o R C small t j over dc SH). destruct (tree_ok_labels RING TO H1 H) as (Va & Vb & Vc & Vd & IL).
      set (a := alab t j) in *. set (b := nth j (t_unc t) []) in *. set (c := nth (j + 1) (t_unc t) []) in *. set (d := dlab t j) in *. destruct (llab t j) as [[e mu] nu] eqn:EL. apply vidx_In in IL. destruct IL as (Ie & _ & Ln).
      apply (outcome Va Vb) in Ie. subst e. assert (Ed : d = fuse (fuse a b) c). { apply (outcome (ag_closed G Va Vb) Vc). destruct (n_symbol_lt Ln) as [I _]. exact I. }
      assert (EV : vidx S a c b d = [(fuse a c, 0, 0)]). { unfold vidx. rewrite (ag_outcomes G Va Vc). cbn [flat_map]. rewrite (n_one Va Vc). rewrite Ed. replace (fuse (fuse a b) c) with (fuse (fuse a c) b). 2:{ rewrite !(ag_assoc G) by auto. f_equal. now apply (ag_comm G). } rewrite (n_one (ag_closed G Va Vc) Vb). reflexivity. }
      rewrite EV. cbn [map filter snd]. unfold bcoef, Cmat. rewrite !HC by auto.
      assert (NS : small (cj o dc (if over then r b c else oconj o (r c b))) = false). { destruct (HS Vb Vc), (HS Vc Vb). destruct over, dc; cbn [cj]; auto. now rewrite (st_invol ST). }
      rewrite NS. cbn [negb]. eauto.
  Qed.
  Lemma bend_pointed X Y dc res : tree_ok S X -> tree_ok S Y -> t_coup X = t_coup Y -> bend_down S o B sqrt_qdim inv_sqrt_qdim fs X Y dc = Some res -> exists XY, res = [(XY, o1 o)].
  Proof.
    intros TX TY EC. unfold bend_down. assert (M1 : omul o (o1 o) (o1 o) = o1 o) by apply (SRmul_1_l SR). assert (VC := coup_valid RING TY). destruct (num_uncoupled Y =? 0); [discriminate|]. destruct (num_uncoupled Y =? 1).
    - destruct (extended X _ _ _ _) as [Z|]; [|discriminate]. intros [= <-]. destruct (HQ VC) as (-> & _ & ->). rewrite M1. destruct (last (t_dual Y) false); eauto.
    - destruct (split_bottom_vertex S Y) as [[[[Xi c] mu] z]|] eqn:SB; [|discriminate]. destruct (split_bottom_extended TY SB) as (TXi & NXi & -> & EXi). assert (VE := coup_valid RING TXi). destruct (num_uncoupled X =? 0) eqn:NX.
      + intros [= <-]. destruct (HQ VE) as (_ & -> & ->). rewrite M1. destruct (negb _); eauto.
      + assert (Vz : valid z /\ t_coup Y = fuse (t_coup Xi) z).
        { assert (EU : t_unc Y = t_unc Xi ++ [z]) by (unfold extended in EXi; destruct ((num_uncoupled Xi =? 0) && negb (mu =? 0)); [discriminate|]; injection EXi as <-; reflexivity).
          destruct TY as [VY TY']. assert (TY : tree_ok S Y) by now split. rewrite EU in VY. apply Forall_app in VY. destruct VY as [V1 V2]. inversion V2 as [|? ? Vz _]; subst. split; [exact Vz|].
          rewrite (tree_total TY), (tree_total TXi), EU, !total_fuse by (auto; apply Forall_app; auto). rewrite (fuse_all_app G) by auto. f_equal. }
        destruct Vz as [Vz EF]. assert (VD := ag_dual_valid G Vz). assert (EE : fuse (t_coup Y) (sym_dual S z) = t_coup Xi). { rewrite EF, (ag_assoc G) by auto. rewrite (ag_inv G Vz). now apply fuse_unit. }
        assert (N1 : n_symbol S (t_coup Y) (sym_dual S z) (t_coup Xi) = 1) by (rewrite <- EE; now apply n_one). rewrite N1. cbn [seq map all_some]. destruct (extended X _ _ _ _) as [Z|]; [|discriminate]. intros [= <-]. rewrite (HB _ _ _ VE Vz). destruct (HQ Vz) as (_ & _ & ->). destruct (last (t_dual Y) false), dc; rewrite ?M1, ?conj_1; eauto.
  Qed.

  (** *** one instruction *)
  Variables (sec : nat -> sector) (dual : nat -> bool).
  Hypothesis VAL : forall l, valid (sec l).
  Notation pair_at := (pair_at S sec dual).
  (** exchanging a above b (a moves to the right): the R symbol of b and a *)
  Notation beta := (fun x y => r y x).
  Notation event_phase := (event_phase trivial fuse (oconj o) beta sec).
  Notation phase := (phase trivial fuse (o1 o) (omul o) (oconj o) beta sec).
  Lemma charge_valid legs : Forall (fun a => valid a) (map sec legs).
  Proof. apply Forall_forall. intros x I. apply in_map_iff in I. destruct I as [l [ <- _]]. apply VAL. Qed.
  Lemma nth_map_sec (f : nat -> sector) legs k d : k < length legs -> nth k (map f legs) d = f (nth k legs 0).
  Proof. intros H. now apply nth_map_lt. Qed.

  (** the total charge of the twisted legs *)
  Lemma twist_pointed (f : nat -> sector) t legs idcs over : (forall l, valid (f l)) -> tree_ok S t -> t_unc t = map f legs -> (length idcs = 1 \/ is_perm (length idcs) idcs) -> idcs <> [] -> forallb (fun k => k <? length legs) idcs = true ->
    twist_tree t idcs over = Some [(t, let q := total (map f (map (fun k => nth k legs 0) idcs)) in if over then r q q else oconj o (r q q))].
  Proof.
    intros VF TO EU SUP NE FB. assert (NU : num_uncoupled t = length legs) by (unfold num_uncoupled; now rewrite EU, map_length).
    assert (VQ : forall l, Forall (fun a => valid a) (map f l)) by (intros l; apply Forall_forall; intros x Ix; apply in_map_iff in Ix; destruct Ix as [k [ <- _]]; apply VF).
    unfold twist. destruct trivial_braid eqn:TB; [|].
    { cbv zeta. rewrite (HTB eq_refl) by (apply total_valid, VQ). rewrite conj_1. now destruct over. }
    destruct idcs as [|i [|j idcs]]; [easy| |].
    - cbn [forallb] in FB. rewrite andb_true_r in FB. rewrite NU, FB. apply Nat.ltb_lt in FB. cbv zeta. cbn [map gsum fold_right]. rewrite (fuse_unit (VF _)). rewrite EU, nth_map_sec by exact FB. now rewrite (HT (VF _)).
    - destruct SUP as [E|PM]; [discriminate|]. set (l := i :: j :: idcs) in *. rewrite NU, FB. cbn [negb]. rewrite (sort_nat_seq PM), strictly_up_seq. cbn [negb]. rewrite seq_length, seq_eqb_seq.
      assert (LL : length l <= length legs). { rewrite forallb_forall in FB. destruct (Nat.le_gt_cases (length l) (length legs)) as [H|H]; [exact H|]. assert (I : In (length legs) l) by (apply (is_perm_In (length legs) PM); lia). apply FB, Nat.ltb_lt in I. lia. }
      assert (L2 : 2 <= length l) by (unfold l; cbn [length]; lia).
      assert (EQ : total (map f (map (fun k => nth k legs 0) l)) = total (firstn (length l) (t_unc t))).
      { apply total_perm; [|apply VQ]. rewrite EU, firstn_map. apply Permutation_map. assert (E1 : firstn (length l) legs = map (fun k => nth k legs 0) (seq 0 (length l))).
        { clear -LL. revert LL. generalize (length l). intros n. revert legs. induction n as [|n IH]; intros [|x legs] H; cbn [length] in H; try reflexivity; try lia. cbn [firstn seq map nth]. f_equal. rewrite <- seq_shift, map_map. cbn [nth]. apply IH. lia. }
        rewrite E1. apply Permutation_map. exact PM. }
      cbv zeta. rewrite EQ. destruct (Nat.eqb_spec (length l) (length legs)) as [E|N].
      + rewrite (firstn_all2 (t_unc t)) by (rewrite EU, map_length; lia). rewrite !(tree_total TO). rewrite HT by (apply total_valid; rewrite EU; apply VQ). reflexivity.
      + assert (LS : last (seq 0 (length l)) 0 = length l - 1). { destruct (length l) as [|n]; [lia|]. rewrite seq_S, last_last. lia. }
        rewrite LS, (tree_inner TO) by lia. replace (length l - 1 - 1 + 2) with (length l) by lia. rewrite HT; [reflexivity|]. apply total_valid. rewrite EU, firstn_map. apply VQ.
  Qed.

  Lemma step_pointed st i st' ev XY : exec1 st i = Some (st', ev) -> supported i -> pair_at st XY -> exists XY', move i XY = Some [(XY', phase ev)] /\ pair_at st' XY'.
  Proof.
    intros EX SUP AT.
    destruct (@step_at S RING K o B sqrt_qdim inv_sqrt_qdim fs theta trivial_braid R C small sec dual VAL st i st' ev XY EX) as (res & EM & _ & IN); [intros c idcs over ->; exact SUP|exact AT|].
    enough (X : exists XY', res = [(XY', phase ev)]). { destruct X as [XY' ->]. exists XY'. split; [exact EM|]. apply IN. now left. }
    assert (M1 : forall x, omul o x (o1 o) = x) by (intros x; rewrite (SRmul_comm SR); apply (SRmul_1_l SR)).
    assert (VD : forall l, valid (sym_dual S (sec l))) by (intros l; apply (ag_dual_valid G), VAL).
    destruct st as [cod dom], XY as [X Y]. destruct AT as ((TX & UX & DX) & (TY & UY & DY) & EC). cbn [fst snd] in *. destruct i as [[] idx over|[]|[] idcs over]; cbn [exec1 FtMapSpec.move] in *.
    - destruct (exchange cod idx) as [[[a b] cod']|] eqn:E; [|discriminate]. injection EX as _ <-. destruct (exchange_inv E) as (LT & Ea & Eb & _). assert (H : idx + 1 < num_uncoupled X) by (unfold num_uncoupled; rewrite UX, map_length; exact LT).
      unfold left_map, MoveModel.braid_tree in EM. cbn [fst snd] in EM. rewrite (proj2 (Nat.ltb_lt _ _) H) in EM. destruct (braid_pointed (negb over) true TX H) as [u Eu]. rewrite Eu in EM. cbn [option_map map fst snd] in EM. injection EM as <-. eexists. f_equal. f_equal.
      rewrite UX, !nth_map_sec, <- Ea, <- Eb by lia. unfold PermLegsSpec.phase. cbn [map gsum fold_right]. rewrite M1. cbn [PermLegsSpec.event_phase]. destruct over; cbn [negb cj]; [apply (st_invol ST)|reflexivity].
    - destruct (exchange dom idx) as [[[a b] dom']|] eqn:E; [|discriminate]. injection EX as _ <-. destruct (exchange_inv E) as (LT & Ea & Eb & _). assert (H : idx + 1 < num_uncoupled Y) by (unfold num_uncoupled; rewrite UY, map_length; exact LT).
      unfold right_map, MoveModel.braid_tree in EM. cbn [fst snd] in EM. rewrite (proj2 (Nat.ltb_lt _ _) H) in EM. destruct (braid_pointed over false TY H) as [u Eu]. rewrite Eu in EM. cbn [option_map map fst snd] in EM. injection EM as <-. eexists. f_equal. f_equal.
      rewrite UY, !nth_map_sec, <- Ea, <- Eb by lia. unfold PermLegsSpec.phase. cbn [map gsum fold_right]. rewrite M1. cbn [PermLegsSpec.event_phase cj]. rewrite !HD by apply VAL. now destruct over.
    - destruct (rev dom) as [|x r0] eqn:ER; [discriminate|]. injection EX as _ <-. unfold bend_leg in EM. cbn [fst snd] in EM. exact (bend_pointed TX TY EC EM).
    - destruct (rev cod) as [|x r0] eqn:ER; [discriminate|]. injection EX as _ <-. unfold bend_leg in EM. cbn [fst snd negb] in EM. destruct (bend_down _ _ _ _ _ _ Y X true) as [other|] eqn:EB; [|discriminate]. injection EM as <-. destruct (bend_pointed TY TX (eq_sym EC) EB) as [XY' ->]. cbn [map fst snd]. eauto.
    - destruct idcs as [|i0 idcs0] eqn:EI; [discriminate|]. rewrite <- EI in *. destruct (forallb (fun k => k <? length cod) idcs) eqn:FB; [|discriminate]. injection EX as _ <-. unfold left_map in EM. cbn [fst snd] in EM.
      rewrite (twist_pointed over VAL TX UX SUP (ltac:(rewrite EI; discriminate)) FB) in EM. cbn [option_map map fst snd] in EM. injection EM as <-. eexists. f_equal. f_equal. unfold PermLegsSpec.phase. cbn [map gsum fold_right]. rewrite M1. cbn [PermLegsSpec.event_phase]. unfold charge. now destruct over.
    - destruct idcs as [|i0 idcs0] eqn:EI; [discriminate|]. rewrite <- EI in *. destruct (forallb (fun k => k <? length dom) idcs) eqn:FB; [|discriminate]. injection EX as _ <-. unfold right_map in EM. cbn [fst snd] in EM.
      rewrite (twist_pointed over VD TY UY SUP (ltac:(rewrite EI; discriminate)) FB) in EM. cbn [option_map map fst snd] in EM. injection EM as <-. eexists. f_equal. f_equal. unfold PermLegsSpec.phase. cbn [map gsum fold_right]. rewrite M1. cbn [PermLegsSpec.event_phase]. unfold charge.
      set (ls := map (fun k => nth k dom 0) idcs). cbv zeta. rewrite <- (map_map sec (sym_dual S)), total_dual by apply charge_valid. rewrite HD by (apply total_valid, charge_valid). now destruct over.
  Qed.
  Lemma phase_app e1 e2 : phase (e1 ++ e2) = omul o (phase e1) (phase e2).
  Proof.
    unfold PermLegsSpec.phase. rewrite map_app. induction (map event_phase e1) as [|x l IH]; cbn [app gsum fold_right]; [symmetry; apply (SRmul_1_l SR)|]. unfold gsum in IH. rewrite IH. apply (SRmul_assoc SR).
  Qed.
  Lemma moved_pointed l : forall st st' ev XY c, exec st l = Some (st', ev) -> Forall supported l -> pair_at st XY ->
    exists XY', fold_left (fun acc i => apply_linear o (move i) acc) l [(XY, c)] = [(XY', omul o c (phase ev))] /\ pair_at st' XY'.
  Proof.
    induction l as [|i l IH]; intros st st' ev XY c EX SUP AT; cbn [exec fold_left] in *.
    - injection EX as <- <-. exists XY. split; [|exact AT]. unfold PermLegsSpec.phase. cbn [map gsum fold_right]. rewrite (SRmul_comm SR), (SRmul_1_l SR). reflexivity.
    - destruct (exec1 st i) as [[st1 ev1]|] eqn:E1; [|discriminate]. destruct (exec st1 l) as [[st2 ev2]|] eqn:E2; [|discriminate]. injection EX as <- <-. inversion SUP; subst.
      destruct (step_pointed E1 H1 AT) as (XY1 & EM & AT1). unfold apply_linear at 2. cbn [flat_map fst snd]. unfold image. rewrite EM. cbn [map fst snd app].
      destruct (IH _ _ _ XY1 (omul o (phase ev1) c) E2 H2 AT1) as (XY2 & EF & AT2). exists XY2. split; [|exact AT2]. rewrite EF. do 2 f_equal. rewrite phase_app, (SRmul_comm SR (phase ev1) c). symmetry. apply (SRmul_assoc SR).
  Qed.
End Pointed.
