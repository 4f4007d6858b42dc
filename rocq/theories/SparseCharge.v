(** The charge rule is preserved. *)
From Coq Require Import Ring.
From Verif Require Import Util StableSort RowModel RowProofs GridModel GridProofs SymModel SymProofs CatSpec Sums SpaceModel SpaceSpec SpaceProofs SpaceProofs2 SpaceProofs3
  PipeModel PipeProofs PipeProofs2 PipeProofs4 BlockModel BlockProofs SparseModel SparseSpec SparseProofs SparseProofs2 SparseProofs3 SparseProofs4 SparseProofs5 SparseProofs6.
Set Implicit Arguments. Unset Strict Implicit.
Open Scope nat_scope.

Section Charge.
  Variable S : symm.
  Variable fuse : sector -> sector -> sector.
  Hypothesis G : abelian_group_laws S fuse.
  Notation valids l := (Forall (fun a => sym_valid S a = true) l).
  Notation fall := (fuse_all S fuse).
  Lemma fall_multiple l : valids l -> multiple_fusion S l = Some (fall l).
  Proof. intros V. destruct l as [|a l]; [reflexivity|]. apply (fuse_all_multiple G); auto. discriminate. Qed.
  Lemma fall_perm l l' : Permutation l l' -> valids l -> fall l = fall l'.
  Proof.
    intros P. induction P as [|x l l' P IH|x y l|l l' l'' P1 IH1 P2 IH2]; intros V; auto.
    - inversion V; subst. assert (V' : valids l') by now rewrite <- P. rewrite !(fuse_all_cons G) by auto. now rewrite IH.
    - inversion V as [|? ? V1 V']; subst. inversion V' as [|? ? V2 V3]; subst. rewrite !(fuse_all_cons G) by auto. assert (VF := fuse_all_valid G V3).
      rewrite <- !(ag_assoc G) by auto. now rewrite (ag_comm G V1 V2).
    - rewrite IH1 by auto. apply IH2. now rewrite <- P1.
  Qed.
  (** sectors at a row *)
  Lemma row_sectors_valid legs : (forall L, In L legs -> es_ok S L) -> forall r, valid_idx (map nsec legs) r -> valids (row_sectors S legs r).
  Proof.
    intros OK. unfold row_sectors. induction legs as [|L legs IH]; intros r V; inversion V as [|i n r' s Hi Hr]; subst; cbn [zipw]; constructor.
    - apply (decomp_valid G (L := L)); [apply OK; now left|]. apply nth_In. rewrite decomp_len by (apply OK; now left). exact Hi.
    - apply IH; auto. intros; apply OK; now right.
  Qed.
  (** position [n] counts with its dual if it is a domain leg *)
  Definition psec (legs : list espace) (r : list nat) (n : nat) : sector := nth (nth n r 0) (es_decomp S (nth n legs noleg)) [].
  Definition sgn (k : nat) (legs : list espace) (r : list nat) (n : nat) : sector := if n <? k then psec legs r n else sym_dual S (psec legs r n).
  Lemma row_sectors_psec legs r : length r = length legs -> row_sectors S legs r = map (psec legs r) (seq 0 (length legs)).
  Proof. intros L. unfold row_sectors. symmetry. apply (zipw_seq noleg ([] : sector) (fun L i => nth i (es_decomp S L) [])). exact L. Qed.
  Lemma psec_valid legs r n : (forall L, In L legs -> es_ok S L) -> valid_idx (map nsec legs) r -> n < length legs -> sym_valid S (psec legs r n) = true.
  Proof.
    intros OK V H. assert (O : es_ok S (nth n legs noleg)) by now apply OK, nth_In. apply (decomp_valid G O). apply nth_In. rewrite decomp_len by auto.
    apply valid_nth in V. destruct V as [_ V]. rewrite map_length in V. specialize (V n H). change 0 with (nsec noleg) in V at 2. now rewrite map_nth in V.
  Qed.
  Lemma sgn_valid k legs r n : (forall L, In L legs -> es_ok S L) -> valid_idx (map nsec legs) r -> n < length legs -> sym_valid S (sgn k legs r n) = true.
  Proof. intros OK V H. unfold sgn. destruct (n <? k); [|apply (ag_dual_valid G)]; now apply psec_valid. Qed.
  Lemma eq_iff_quotient a b : sym_valid S a = true -> sym_valid S b = true -> (a = b <-> fuse a (sym_dual S b) = sym_trivial S).
  Proof.
    intros Va Vb. split; [intros ->; now apply (ag_inv G)|]. intros E. assert (Vd := ag_dual_valid G Vb). assert (T := ag_trivial_valid G).
    assert (E' : fuse (fuse a (sym_dual S b)) b = fuse (sym_trivial S) b) by now rewrite E.
    rewrite (ag_unit G Vb) in E'. rewrite <- E'. clear E'.
    assert (Q : fuse (fuse a (sym_dual S b)) b = fuse a (fuse (sym_dual S b) b)) by (first [apply (ag_assoc G)|symmetry; apply (ag_assoc G)]; auto).
    rewrite Q, (ag_comm G Vd Vb), (ag_inv G Vb), (ag_comm G Va T). symmetry. now apply (ag_unit G).
  Qed.
  Lemma charge_sgn cod dom r : (forall L, In L (leg_order cod dom) -> es_ok S L) -> valid_idx (map nsec (leg_order cod dom)) r ->
    (row_charge_ok S cod dom r <-> fall (map (sgn (length cod) (leg_order cod dom) r) (seq 0 (length (leg_order cod dom)))) = sym_trivial S).
  Proof.
    intros OK V. unfold leg_order in *. destruct (row_parts V) as (r1 & r2 & -> & V1 & V2 & L1).
    assert (OK1 : forall L, In L cod -> es_ok S L) by (intros; apply OK, in_app_iff; auto).
    assert (OK2 : forall L, In L dom -> es_ok S L) by (intros; apply OK, in_app_iff; right; now apply in_rev in H).
    assert (V2' : valid_idx (map nsec dom) (rev r2)) by (apply valid_rev; rewrite rev_involutive, <- map_rev; exact V2).
    assert (L2 : length r2 = length dom) by (rewrite (valid_length V2), map_length; apply rev_length).
    unfold row_charge_ok. rewrite <- L1 at 1 2. rewrite firstn_len, skipn_len.
    assert (W1 := row_sectors_valid OK1 V1). assert (W2 := row_sectors_valid OK2 V2').
    rewrite !fall_multiple by auto. rewrite app_length, rev_length, seq_app, map_app. cbn [Nat.add].
    assert (E1 : map (sgn (length cod) (cod ++ rev dom) (r1 ++ r2)) (seq 0 (length cod)) = row_sectors S cod r1).
    { rewrite row_sectors_psec by auto. apply map_ext_in. intros n Hn. apply in_seq in Hn. unfold sgn, psec. destruct (Nat.ltb_spec n (length cod)); [|lia]. rewrite !app_nth1 by lia. reflexivity. }
    assert (E2 : map (sgn (length cod) (cod ++ rev dom) (r1 ++ r2)) (seq (length cod) (length dom)) = map (sym_dual S) (rev (row_sectors S dom (rev r2)))).
    { unfold row_sectors. rewrite <- zipw_rev by (rewrite rev_length; auto). rewrite rev_involutive. fold (row_sectors S (rev dom) r2).
      rewrite row_sectors_psec by (rewrite rev_length; auto). rewrite rev_length, map_map.
      replace (seq (length cod) (length dom)) with (map (Nat.add (length cod)) (seq 0 (length dom))).
      2:{ generalize (length dom). generalize (length cod). intros c d. apply list_eq_nth with (d := 0); [now rewrite map_length, !seq_length|]. intros i Hi. rewrite map_length, seq_length in Hi.
          rewrite nth_map_lt with (d := 0) by now rewrite seq_length. rewrite !seq_nth by auto. lia. }
      rewrite map_map. apply map_ext_in. intros n Hn. apply in_seq in Hn. unfold sgn, psec. destruct (Nat.ltb_spec (length cod + n) (length cod)); [lia|].
      rewrite (app_nth2 cod) by lia. rewrite (app_nth2 r1) by lia. rewrite L1. replace (length cod + n - length cod) with n by lia. reflexivity. }
    rewrite E1, E2. assert (W2r : valids (rev (row_sectors S dom (rev r2)))) by (apply Forall_rev; auto).
    rewrite (fuse_all_app G); auto.
    2:{ apply Forall_forall. intros s Hs. apply in_map_iff in Hs. destruct Hs as (x & <- & Hx). apply (ag_dual_valid G). rewrite Forall_forall in W2r. auto. }
    rewrite (fuse_all_dual G W2r), (fuse_all_rev G W2). rewrite <- eq_iff_quotient by (apply (fuse_all_valid G); auto).
    split; [intros E; injection E; auto|intros ->; reflexivity].
  Qed.

  (** ** leg permutations with bends *)
  Lemma as_cod_sec k legs i j : (forall L, In L legs -> es_ok S L) -> i < length legs -> j < nsec (nth i legs noleg) ->
    nth j (es_decomp S (as_codomain_leg k legs i)) [] = if i <? k then nth j (es_decomp S (nth i legs noleg)) [] else sym_dual S (nth j (es_decomp S (nth i legs noleg)) []).
  Proof.
    intros OK Hi Hj. assert (O : es_ok S (nth i legs noleg)) by now apply OK, nth_In. unfold as_codomain_leg. fold noleg. destruct (i <? k); auto. rewrite (decomp_dual G O). apply nth_map_lt. now rewrite decomp_len.
  Qed.
  Lemma as_dom_sec k legs i j : (forall L, In L legs -> es_ok S L) -> i < length legs -> j < nsec (nth i legs noleg) ->
    nth j (es_decomp S (as_domain_leg k legs i)) [] = if i <? k then sym_dual S (nth j (es_decomp S (nth i legs noleg)) []) else nth j (es_decomp S (nth i legs noleg)) [].
  Proof.
    intros OK Hi Hj. assert (O : es_ok S (nth i legs noleg)) by now apply OK, nth_In. unfold as_domain_leg. fold noleg. destruct (i <? k); auto. rewrite (decomp_dual G O). apply nth_map_lt. now rewrite decomp_len.
  Qed.
  Lemma row_nth_lt legs r n : valid_idx (map nsec legs) r -> n < length legs -> nth n r 0 < nsec (nth n legs noleg).
  Proof. intros V H. apply valid_nth in V. destruct V as [_ V]. rewrite map_length in V. specialize (V n H). change 0 with (nsec noleg) in V at 2. now rewrite map_nth in V. Qed.
  Lemma map_seq_nth (T : Type) (f g : nat -> T) p : (forall m, m < length p -> f m = g (nth m p 0)) -> map f (seq 0 (length p)) = map g p.
  Proof.
    intros H. rewrite <- (map_nth_seq 0 p) at 2. rewrite map_map. apply map_ext_in. intros m Hm. apply in_seq in Hm. apply H. lia.
  Qed.
  (** [ci], [di]: the positions that become codomain / domain factors *)
  Definition perm_cod (k : nat) (legs : list espace) (ci : list nat) := map (as_codomain_leg k legs) ci.
  Definition perm_dom (k : nat) (legs : list espace) (di : list nat) := map (as_domain_leg k legs) di.
  Lemma perm_legs_nth k legs ci di m : m < length (ci ++ rev di) ->
    nth m (leg_order (perm_cod k legs ci) (perm_dom k legs di)) noleg = if m <? length ci then as_codomain_leg k legs (nth m (ci ++ rev di) 0) else as_domain_leg k legs (nth m (ci ++ rev di) 0).
  Proof.
    rewrite app_length, rev_length. intros H. unfold leg_order, perm_cod, perm_dom. rewrite <- map_rev. destruct (Nat.ltb_spec m (length ci)).
    - rewrite app_nth1 by now rewrite map_length. rewrite nth_map_lt with (d := 0) by auto. now rewrite app_nth1 by auto.
    - rewrite app_nth2 by now rewrite map_length. rewrite map_length. rewrite nth_map_lt with (d := 0) by (rewrite rev_length; lia). now rewrite (app_nth2 ci) by auto.
  Qed.
  Lemma perm_legs_len k legs ci di : length (leg_order (perm_cod k legs ci) (perm_dom k legs di)) = length (ci ++ rev di).
  Proof. unfold leg_order, perm_cod, perm_dom. rewrite !app_length, !rev_length, !map_length. reflexivity. Qed.
  Lemma perm_mults k legs ci di : mults (leg_order (perm_cod k legs ci) (perm_dom k legs di)) = take [] (mults legs) (ci ++ rev di).
  Proof.
    unfold mults, take. apply list_eq_nth with (d := []); [rewrite !map_length; apply perm_legs_len|]. intros m Hm. rewrite map_length, perm_legs_len in Hm.
    rewrite nth_map_lt with (d := noleg) by (rewrite perm_legs_len; auto). rewrite perm_legs_nth by auto. rewrite nth_map_lt with (d := 0) by auto. change (@nil nat) with (es_mults noleg) at 1. rewrite map_nth.
    destruct (m <? length ci); [apply as_cod_mults|apply as_dom_mults].
  Qed.
  Lemma perm_legs_ok k legs ci di : (forall L, In L legs -> es_ok S L) -> Forall (fun i => i < length legs) (ci ++ rev di) -> forall L, In L (leg_order (perm_cod k legs ci) (perm_dom k legs di)) -> es_ok S L.
  Proof.
    intros OK F L H. rewrite Forall_forall in F. unfold leg_order, perm_cod, perm_dom in H. rewrite <- map_rev in H. apply in_app_iff in H. destruct H as [H|H]; apply in_map_iff in H; destruct H as (i & <- & Hi).
    - apply (as_cod_ok G); auto. apply F, in_app_iff. auto.
    - apply (as_dom_ok G); auto. apply F, in_app_iff. auto.
  Qed.
  Lemma nsec_mults legs legs' : mults legs = mults legs' -> map nsec legs = map nsec legs'.
  Proof. intros E. rewrite !nsecs_eq. now rewrite E. Qed.
  Lemma perm_charge cod dom ci di r : let legs := leg_order cod dom in
    (forall L, In L legs -> es_ok S L) -> is_perm (length legs) (ci ++ rev di) -> valid_idx (map nsec legs) r -> row_charge_ok S cod dom r ->
    row_charge_ok S (perm_cod (length cod) legs ci) (perm_dom (length cod) legs di) (take 0 r (ci ++ rev di)).
  Proof.
    intros legs OK P V C. assert (F := is_perm_Forall P). set (p := ci ++ rev di) in *. set (k := length cod) in *.
    assert (V' : valid_idx (map nsec (leg_order (perm_cod k legs ci) (perm_dom k legs di))) (take 0 r p)).
    { rewrite (@nsec_mults _ (take noleg legs p)) by (rewrite mults_take; apply perm_mults). rewrite nsec_take. apply valid_take; auto. rewrite map_length. exact F. }
    apply charge_sgn; [apply perm_legs_ok; auto|exact V'|]. apply charge_sgn in C; auto. rewrite <- C. rewrite perm_legs_len. fold p legs k.
    assert (LC : length (perm_cod k legs ci) = length ci) by apply map_length. rewrite LC.
    rewrite (@map_seq_nth _ (sgn (length ci) (leg_order (perm_cod k legs ci) (perm_dom k legs di)) (take 0 r p)) (sgn k legs r)).
    - symmetry. apply fall_perm.
      + apply Permutation_map. symmetry. exact P.
      + apply Forall_forall. intros s Hs. apply in_map_iff in Hs. destruct Hs as (n & <- & Hn). apply in_seq in Hn. apply sgn_valid; auto. lia.
    - intros m Hm. unfold sgn, psec. rewrite nth_take by auto. rewrite perm_legs_nth by auto. fold p.
      assert (HI : nth m p 0 < length legs) by (rewrite Forall_forall in F; apply F, nth_In; auto). assert (HJ := row_nth_lt V HI).
      destruct (m <? length ci).
      + rewrite as_cod_sec by auto. destruct (nth m p 0 <? k); reflexivity.
      + rewrite as_dom_sec by auto. destruct (nth m p 0 <? k); auto. apply (ag_dual_invol G). apply (psec_valid OK V HI).
  Qed.

  (** ** traces *)
  Lemma trace_charge cod dom (pairs : list (nat * nat)) r : let legs := leg_order cod dom in
    let rem := filter (fun n => negb (existsb (Nat.eqb n) (map fst pairs ++ map snd pairs))) (seq 0 (length legs)) in
    let kept_c := filter (fun n => n <? length cod) rem in let kept_d := filter (fun n => negb (n <? length cod)) rem in
    (forall L, In L legs -> es_ok S L) -> NoDup (map fst pairs ++ map snd pairs) -> Forall (fun i => i < length legs) (map fst pairs ++ map snd pairs) ->
    (forall ij, In ij pairs -> pair_ok (length cod) legs ij) -> valid_idx (map nsec legs) r -> take 0 r (map fst pairs) = take 0 r (map snd pairs) -> row_charge_ok S cod dom r ->
    rem = kept_c ++ kept_d /\ row_charge_ok S (take noleg legs kept_c) (rev (take noleg legs kept_d)) (take 0 r rem).
  Proof.
    intros legs rem kept_c kept_d OK ND RNG PO V D C. set (k := length cod) in *.
    assert (SPL : rem = kept_c ++ kept_d).
    { unfold kept_c, kept_d, rem. generalize (fun n => negb (existsb (Nat.eqb n) (map fst pairs ++ map snd pairs))). intros f.
      assert (Q : forall n a, filter f (seq a n) = filter (fun n => n <? k) (filter f (seq a n)) ++ filter (fun n => negb (n <? k)) (filter f (seq a n))); [|apply Q].
      induction n as [|n IH]; intros a; [reflexivity|]. cbn [seq filter]. destruct (f a); auto. cbn [filter]. destruct (Nat.ltb_spec a k) as [H|H]; cbn [negb app].
      - f_equal. apply IH.
      - assert (E0 : filter (fun m => m <? k) (filter f (seq (Datatypes.S a) n)) = []).
        { apply filter_none. intros x Hx. apply filter_In in Hx. destruct Hx as [Hx _]. apply in_seq in Hx. apply Nat.ltb_ge. lia. }
        rewrite E0. cbn [app]. f_equal. rewrite (IH (Datatypes.S a)) at 1. now rewrite E0. }
    split; [exact SPL|].
    assert (FR : Forall (fun i => i < length legs) rem) by (apply Forall_forall; intros n Hn; apply filter_In in Hn; destruct Hn as [Hn _]; apply in_seq in Hn; lia).
    assert (LO : leg_order (take noleg legs kept_c) (rev (take noleg legs kept_d)) = take noleg legs rem) by (unfold leg_order; rewrite rev_involutive, SPL; now rewrite take_app_idx).
    assert (OK' : forall L, In L (take noleg legs rem) -> es_ok S L).
    { intros L HL. unfold take in HL. apply in_map_iff in HL. destruct HL as (i & <- & Hi). apply OK, nth_In. rewrite Forall_forall in FR. auto. }
    assert (V' : valid_idx (map nsec (take noleg legs rem)) (take 0 r rem)) by (rewrite nsec_take; apply valid_take; auto; rewrite map_length; auto).
    apply charge_sgn; rewrite ?LO; auto. apply charge_sgn in C; auto. fold legs k in C.
    assert (LC : length (take noleg legs kept_c) = length kept_c) by apply take_length. rewrite LC. rewrite take_length.
    rewrite (@map_seq_nth _ (sgn (length kept_c) (take noleg legs rem) (take 0 r rem)) (sgn k legs r)).
    2:{ intros m Hm. unfold sgn, psec. rewrite !nth_take by auto.
        assert (E : (m <? length kept_c) = (nth m rem 0 <? k)); [|now rewrite E].
        rewrite SPL in *. rewrite app_length in Hm. destruct (Nat.ltb_spec m (length kept_c)) as [H|H].
        - rewrite app_nth1 by auto. assert (I := nth_In kept_c 0 H). unfold kept_c in I at 2. apply filter_In in I. symmetry. apply I.
        - rewrite app_nth2 by auto. assert (I := @nth_In _ (m - length kept_c) kept_d 0 ltac:(lia)). unfold kept_d in I at 2. apply filter_In in I. symmetry. apply negb_true_iff. apply I. }
    assert (P : is_perm (length legs) (rem ++ map fst pairs ++ map snd pairs)) by (apply pt_perm; auto).
    assert (VS : forall l, Forall (fun i => i < length legs) l -> valids (map (sgn k legs r) l)).
    { intros l Fl. apply Forall_forall. intros s Hs. apply in_map_iff in Hs. destruct Hs as (n & <- & Hn). apply sgn_valid; auto. rewrite Forall_forall in Fl. auto. }
    assert (F1 : Forall (fun i => i < length legs) (map fst pairs)) by (apply Forall_app in RNG; tauto).
    assert (F2 : Forall (fun i => i < length legs) (map snd pairs)) by (apply Forall_app in RNG; tauto).
    rewrite (fall_perm (Permutation_map (sgn k legs r) (Permutation_sym P))) in C by (apply VS; apply Forall_forall; intros n Hn; apply in_seq in Hn; lia).
    rewrite !map_app in C. rewrite (fuse_all_app G) in C; [|apply VS; auto|apply Forall_app; split; apply VS; auto]. rewrite (fuse_all_app G) in C; [|apply VS; auto|apply VS; auto].
    assert (E : map (sgn k legs r) (map fst pairs) = map (sym_dual S) (map (sgn k legs r) (map snd pairs))).
    { rewrite !map_map. apply map_ext_in. intros [i j] Hij. cbn [fst snd]. assert (Q := PO _ Hij). unfold pair_ok in Q. cbn [fst snd] in Q.
      assert (Hi : i < length legs) by (rewrite Forall_forall in F1; apply F1; now apply in_map with (f := fst) in Hij).
      assert (Hj : j < length legs) by (rewrite Forall_forall in F2; apply F2; now apply in_map with (f := snd) in Hij).
      assert (Ri := row_nth_lt V Hi). assert (Rj := row_nth_lt V Hj).
      assert (EI := as_cod_sec k OK Hi Ri). assert (EJ := as_dom_sec k OK Hj Rj).
      assert (EN : nth i r 0 = nth j r 0).
      { unfold take in D. rewrite !map_map in D. apply (ext_in_map D (i, j) Hij). }
      unfold sgn. fold (psec legs r i) in EI. fold (psec legs r j) in EJ. rewrite <- EI, EN, Q, EJ. destruct (j <? k); auto. symmetry. apply (ag_dual_invol G). apply (psec_valid OK V Hj). }
    rewrite E in C. rewrite (fuse_all_dual G) in C by (apply VS; auto). set (x := fall (map (sgn k legs r) (map snd pairs))) in C.
    assert (Vx : sym_valid S x = true) by (apply (fuse_all_valid G), VS; auto).
    assert (Vr := fuse_all_valid G (VS rem FR)). rewrite (ag_comm G (ag_dual_valid G Vx) Vx), (ag_inv G Vx) in C. rewrite (ag_comm G Vr (ag_trivial_valid G)) in C. rewrite (ag_unit G Vr) in C. exact C.
  Qed.
  (** ** dagger and outer products *)
  Lemma dagger_charge cod dom r : length r = length cod + length dom -> row_charge_ok S cod dom r -> row_charge_ok S dom cod (rev r).
  Proof.
    intros L H. unfold row_charge_ok in *. rewrite firstn_rev, skipn_rev, L, rev_involutive. replace (length cod + length dom - length dom) with (length cod) by lia. now symmetry.
  Qed.
  Lemma row_sectors_app l1 l2 r1 r2 : length r1 = length l1 -> row_sectors S (l1 ++ l2) (r1 ++ r2) = row_sectors S l1 r1 ++ row_sectors S l2 r2.
  Proof. intros L. unfold row_sectors. now apply zipw_app. Qed.
  Lemma outer_charge codA domA codB domB ra1 ra2 rb : (forall L, In L (leg_order codA domA) -> es_ok S L) -> (forall L, In L (leg_order codB domB) -> es_ok S L) ->
    valid_idx (map nsec codA) ra1 -> valid_idx (map nsec (rev domA)) ra2 -> valid_idx (map nsec (leg_order codB domB)) rb ->
    row_charge_ok S codA domA (ra1 ++ ra2) -> row_charge_ok S codB domB rb -> row_charge_ok S (codA ++ codB) (domA ++ domB) (ra1 ++ rb ++ ra2).
  Proof.
    intros OKA OKB V1 V2 VB CA CB. destruct (row_parts VB) as (rb1 & rb2 & -> & W1 & W2 & LB).
    assert (LA : length ra1 = length codA) by (rewrite (valid_length V1); apply map_length).
    assert (LA2 : length ra2 = length domA) by (rewrite (valid_length V2), map_length; apply rev_length).
    unfold row_charge_ok in *. rewrite <- LA in CA at 1 2. rewrite firstn_len, skipn_len in CA. rewrite <- LB in CB at 1 2. rewrite firstn_len, skipn_len in CB.
    assert (EQ : ra1 ++ (rb1 ++ rb2) ++ ra2 = (ra1 ++ rb1) ++ (rb2 ++ ra2)) by now rewrite <- !app_assoc.
    rewrite EQ. assert (LL : length (codA ++ codB) = length (ra1 ++ rb1)) by (rewrite !app_length; lia). rewrite LL, firstn_len, skipn_len, rev_app_distr.
    rewrite !row_sectors_app by (rewrite ?rev_length; auto).
    assert (X1 : valids (row_sectors S codA ra1)) by (apply row_sectors_valid; auto; intros; apply OKA, in_app_iff; auto).
    assert (X2 : valids (row_sectors S domA (rev ra2))).
    { apply row_sectors_valid; [intros; apply OKA, in_app_iff; right; now apply in_rev in H|]. apply valid_rev. now rewrite rev_involutive, <- map_rev. }
    assert (X3 : valids (row_sectors S codB rb1)) by (apply row_sectors_valid; auto; intros; apply OKB, in_app_iff; auto).
    assert (X4 : valids (row_sectors S domB (rev rb2))).
    { apply row_sectors_valid; [intros; apply OKB, in_app_iff; right; now apply in_rev in H|]. apply valid_rev. now rewrite rev_involutive, <- map_rev. }
    rewrite !fall_multiple in * by (auto; apply Forall_app; auto). rewrite !(fuse_all_app G) by auto. congruence.
  Qed.
End Charge.

(** data of legs with the same multiplicities *)
Lemma data_ok_mults K legs legs' (D : list (list nat * blk K)) : mults legs = mults legs' -> data_ok legs D -> data_ok legs' D.
Proof.
  intros E H. constructor; [apply (do_sorted H)| | |apply (do_full H)].
  - intros e He. rewrite <- (nsec_mults E). apply (do_valid H He).
  - intros e He. rewrite <- E. apply (do_shape H He).
Qed.
