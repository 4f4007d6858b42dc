(** Linear combination, identity, tensors from a block function, inner product, trace. *)
From Verif Require Import Util StableSort RowModel RowProofs GridModel GridProofs SymModel SymProofs CatSpec Sums SpaceModel SpaceSpec SpaceProofs SpaceProofs7
  PipeModel TreeModel TensorModel TensorSpec TensorProofs TensorProofs5 BlockModel BlockProofs SparseModel SparseProofs SparseProofs3 SparseProofs5 ConvertModel ConvertSpec ConvertProofs3 FtOpsModel FtOpsSpec FtOpsProofs FtOpsProofs2 FtOpsProofs3.
Set Implicit Arguments. Unset Strict Implicit.
Open Scope nat_scope.

Lemma NoDup_map_from (X Y Z : Type) (f : X -> Y) (g : X -> Z) l : NoDup (map f l) -> (forall x y, In x l -> In y l -> g x = g y -> f x = f y) -> NoDup (map g l).
Proof.
  induction l as [|x l IH]; intros ND H; [constructor|]. cbn [map] in *. apply NoDup_cons_iff in ND. destruct ND as [NI ND]. constructor.
  - intros I. apply in_map_iff in I. destruct I as [y [E I]]. apply NI. rewrite <- (H y x (or_intror I) (or_introl eq_refl) E). now apply in_map.
  - apply IH; [exact ND|]. intros y z Iy Iz. apply H; now right.
Qed.
Lemma common_walk_ge a : forall i b j p q, In (p, q) (common_walk true true i a j b) -> i <= p /\ j <= q.
Proof.
  induction a as [|x a IHa]; intros i b; [intros j p q []|]. induction b as [|y b IHb]; intros j p q I; [destruct I|].
  change (common_walk true true i (x :: a) j (y :: b)) with (match cmp_lexsort x y with
    | Lt => common_walk true true (S i) a j (y :: b) | Gt => common_walk true true i (x :: a) (S j) b | Eq => (i, j) :: common_walk true true (S i) a (S j) b end) in I.
  destruct (cmp_lexsort x y).
  - destruct I as [[= <- <-]|I]; [lia|]. apply IHa in I. lia.
  - apply IHa in I. lia.
  - apply IHb in I. lia.
Qed.
Lemma common_walk_sorted a : forall i b j, StronglySorted (fun p q => fst p < fst q /\ snd p < snd q) (common_walk true true i a j b).
Proof.
  induction a as [|x a IHa]; intros i b; [intros j; constructor|]. induction b as [|y b IHb]; intros j; [constructor|].
  change (common_walk true true i (x :: a) j (y :: b)) with (match cmp_lexsort x y with
    | Lt => common_walk true true (S i) a j (y :: b) | Gt => common_walk true true i (x :: a) (S j) b | Eq => (i, j) :: common_walk true true (S i) a (S j) b end).
  destruct (cmp_lexsort x y); [|apply IHa|apply IHb]. constructor; [apply IHa|]. apply Forall_forall. intros [p q] I. apply common_walk_ge in I. cbn. lia.
Qed.

Section Four.
  Variable K : Type.
  Variable o : ops K.
  Notation block := (blk K).
  Notation fdata := (list (nat * nat * blk K)).
  Notation key1 := (fun e : nat * nat * blk K => snd (fst e)).
  Notation key0 := (fun e : nat * nat * blk K => fst (fst e)).
  Notation nob := ((0, 0), Blk [] []).
  Variable S : tsymm.
  Hypothesis OK : tsymm_ok S.

  Section Two.
    Variables P Q : tprod.
    Hypothesis HP : tp_ok S P.
    Hypothesis HQ : tp_ok S Q.
    (** *** linear combination *)
    Section Lin.
      Variables V W : fdata.
      Hypothesis OV : ft_ok P Q V.
      Hypothesis OW : ft_ok P Q W.
      Variables a b : K.
      Definition lpairs := bpairs key0 key0 nob nob [] V [] W.
      Definition lrow (p : option (nat * nat * block) * option (nat * nat * block)) : nat * nat * block :=
        match p with
        | (None, Some w) => (fst w, bmul o b (snd w))
        | (Some v, None) => (fst v, bmul o a (snd v))
        | (Some v, Some w) => (fst v, blincomb o a (snd v) b (snd w))
        | (None, None) => frow V 0
        end.
      Lemma lincomb_eq : ft_lincomb o a V b W = ft_make (map lrow lpairs) false.
      Proof. unfold ft_lincomb, lpairs, bpairs. rewrite map_map. f_equal. apply map_ext. intros [[i|] [j|]]; reflexivity. Qed.
      Lemma lspec : bspec key0 key0 V W lpairs.
      Proof. apply bpairs_spec; [apply (col0_sorted OK HP HQ OV)|apply (col0_sorted OK HP HQ OW)]. Qed.
      Lemma lin_origin p : In p lpairs -> exists e, (In e V \/ In e W) /\ fst (lrow p) = fst e /\ bkey key0 key0 p = fst (fst e).
      Proof.
        intros I. apply (proj1 lspec) in I. destruct p as [[v|] [w|]]; cbn [lrow fst bkey]; [exists v; tauto|exists v; tauto|exists w; tauto|destruct I].
      Qed.
      Lemma lin_ok : ft_ok P Q (ft_lincomb o a V b W).
      Proof.
        rewrite lincomb_eq. assert (RG : forall e, In e V \/ In e W -> fst (fst e) < length (tp_secs P) /\ snd (fst e) < length (tp_secs Q) /\ nth (fst (fst e)) (tp_secs P) [] = nth (snd (fst e)) (tp_secs Q) [] /\
            bshape (snd e) = [nth (fst (fst e)) (tp_mults P) 0; nth (snd (fst e)) (tp_mults Q) 0] /\ bwf (snd e)).
        { intros e [I|I]; [destruct (fo_range OV I)|destruct (fo_range OW I)]; (split; [assumption|]; split; [assumption|]).
          - split; [apply (fo_sector OV I)|]. split; [apply (fo_shape OV I)|apply (fo_full OV I)].
          - split; [apply (fo_sector OW I)|]. split; [apply (fo_shape OW I)|apply (fo_full OW I)]. }
        apply ft_ok_make.
        - rewrite map_map. apply (NoDup_map_from (f := bkey key0 key0)); [apply lt_NoDup; apply lspec|]. intros p q Ip Iq E. cbn beta in E.
          destruct (lin_origin Ip) as (e & Ie & Fe & Ke), (lin_origin Iq) as (f & If & Ff & Kf). rewrite Fe, Ff in E. rewrite Ke, Kf. destruct (RG e Ie) as (R1 & R2 & R3 & _), (RG f If) as (T1 & T2 & T3 & _).
          apply (inj_idx OK HP); auto. rewrite R3, T3, E. reflexivity.
        - intros e I. apply in_map_iff in I. destruct I as [p [<- I]]. assert (I' := I). apply (proj1 lspec) in I'. destruct p as [[v|] [w|]]; cbn [lrow fst snd].
          + destruct I' as (Iv & Iw & E). destruct (RG v (or_introl Iv)) as (R1 & R2 & R3 & R4 & R5). destruct (RG w (or_intror Iw)) as (T1 & T2 & T3 & T4 & T5). split; [exact R1|]. split; [exact R2|]. split; [exact R3|].
            split; [rewrite blincomb_shape; exact R4|]. apply blincomb_wf; auto. rewrite R4, T4, E. f_equal. f_equal.
            assert (X : snd (fst v) = snd (fst w)) by (apply (inj_idx OK HQ); auto; rewrite <- R3, <- T3, E; reflexivity). now rewrite X.
          + destruct (RG v (or_introl (proj1 I'))) as (R1 & R2 & R3 & R4 & R5). repeat split; auto. now apply bmul_wf.
          + destruct (RG w (or_intror (proj1 I'))) as (R1 & R2 & R3 & R4 & R5). repeat split; auto. now apply bmul_wf.
          + destruct I'.
      Qed.
      Lemma lin_get c : ft_get Q (ft_lincomb o a V b W) c = match ft_get Q V c, ft_get Q W c with
        | Some v, Some w => Some (blincomb o a v b w) | Some v, None => Some (bmul o a v) | None, Some w => Some (bmul o b w) | None, None => None end.
      Proof.
        assert (KEY : forall v w, In v V -> In w W -> (fst (fst v) = fst (fst w) <-> nth (snd (fst v)) (tp_secs Q) [] = nth (snd (fst w)) (tp_secs Q) [])).
        { intros v w Iv Iw. rewrite <- (fo_sector OV Iv), <- (fo_sector OW Iw). split; [now intros -> |]. intros E. apply (inj_idx OK HP); auto; [apply (fo_range OV Iv)|apply (fo_range OW Iw)]. }
        assert (NV : forall c w, In w W -> nth (snd (fst w)) (tp_secs Q) [] = c -> ~ In (fst (fst w)) (map key0 V) -> ft_get Q V c = None).
        { intros c' w Iw E N. destruct (ft_get Q V c') as [v'|] eqn:G; [|reflexivity]. exfalso. apply (get_ok OK c' _ HQ OV) in G. destruct G as [v [Iv [Ev _]]]. apply N. apply in_map_iff. exists v. split; [|exact Iv]. apply KEY; auto. congruence. }
        assert (NW : forall c v, In v V -> nth (snd (fst v)) (tp_secs Q) [] = c -> ~ In (fst (fst v)) (map key0 W) -> ft_get Q W c = None).
        { intros c' v Iv E N. destruct (ft_get Q W c') as [w'|] eqn:G; [|reflexivity]. exfalso. apply (get_ok OK c' _ HQ OW) in G. destruct G as [w [Iw [Ew _]]]. apply N. apply in_map_iff. exists w. split; [|exact Iw]. symmetry. apply KEY; auto. congruence. }
        apply get_eq; [apply (secs_NoDup OK HQ)|apply (ft_keyed lin_ok)|]. intros X. rewrite lincomb_eq, stored_make. split.
        - intros [e [I [E EX]]]. apply in_map_iff in I. destruct I as [p [<- I]]. apply (proj1 lspec) in I. destruct p as [[v|] [w|]]; cbn [lrow fst snd] in E, EX.
          + destruct I as (Iv & Iw & EK). assert (GV : ft_get Q V c = Some (snd v)) by (apply (get_ok OK c _ HQ OV); now exists v).
            assert (GW : ft_get Q W c = Some (snd w)) by (apply (get_ok OK c _ HQ OW); exists w; split; [exact Iw|]; split; [|reflexivity]; rewrite <- E; symmetry; now apply KEY). rewrite GV, GW. now subst.
          + destruct I as (Iv & N). assert (GV : ft_get Q V c = Some (snd v)) by (apply (get_ok OK c _ HQ OV); now exists v). rewrite GV, (NW c v Iv E N). now subst.
          + destruct I as (Iw & N). assert (GW : ft_get Q W c = Some (snd w)) by (apply (get_ok OK c _ HQ OW); now exists w). rewrite GW, (NV c w Iw E N). now subst.
          + destruct I.
        - intros E. destruct (ft_get Q V c) as [v'|] eqn:GV; destruct (ft_get Q W c) as [w'|] eqn:GW; try discriminate; injection E as <-.
          + apply (get_ok OK c _ HQ OV) in GV. apply (get_ok OK c _ HQ OW) in GW. destruct GV as [v [Iv [Ev <-]]], GW as [w [Iw [Ew <-]]]. exists (lrow (Some v, Some w)). split; [apply in_map; apply (proj1 lspec); split; [exact Iv|]; split; [exact Iw|]; apply KEY; auto; congruence|].
            cbn [lrow fst snd]. auto.
          + apply (get_ok OK c _ HQ OV) in GV. destruct GV as [v [Iv [Ev <-]]]. exists (lrow (Some v, None)). split; [|cbn [lrow fst snd]; auto]. apply in_map. apply (proj1 lspec). split; [exact Iv|]. intros I. apply in_map_iff in I. destruct I as [w [Ek Iw]].
            assert (GW' : ft_get Q W c = Some (snd w)) by (apply (get_ok OK c _ HQ OW); exists w; split; [exact Iw|]; split; [|reflexivity]; rewrite <- Ev; symmetry; apply KEY; auto). congruence.
          + apply (get_ok OK c _ HQ OW) in GW. destruct GW as [w [Iw [Ew <-]]]. exists (lrow (None, Some w)). split; [|cbn [lrow fst snd]; auto]. apply in_map. apply (proj1 lspec). split; [exact Iw|]. intros I. apply in_map_iff in I. destruct I as [v [Ek Iv]].
            assert (GV' : ft_get Q V c = Some (snd v)) by (apply (get_ok OK c _ HQ OV); exists v; split; [exact Iv|]; split; [|reflexivity]; rewrite <- Ew; apply KEY; auto). congruence.
      Qed.
      Lemma lin_entry c x y : is_semiring o -> x < block_size P c -> y < block_size Q c ->
        ft_entry o Q (ft_lincomb o a V b W) c x y = oadd o (omul o a (ft_entry o Q V c x y)) (omul o b (ft_entry o Q W c x y)).
      Proof.
        intros SR Hx Hy. rewrite !ft_entry_get, lin_get. destruct (ft_get Q V c) as [v|] eqn:GV; destruct (ft_get Q W c) as [w|] eqn:GW.
        - assert (MV := get_matrix OK HP HQ OV GV). assert (MW := get_matrix OK HP HQ OW GW). apply bat_lincomb; [apply MV|apply MW| |now apply (matrix_valid MV)]. destruct MV as [-> _], MW as [-> _]. reflexivity.
        - assert (MV := get_matrix OK HP HQ OV GV). rewrite (mul_0_r SR), (SRadd_comm SR), (SRadd_0_l SR). apply bat_mul; [apply MV|now apply (matrix_valid MV)].
        - assert (MW := get_matrix OK HP HQ OW GW). rewrite (mul_0_r SR), (SRadd_0_l SR). apply bat_mul; [apply MW|now apply (matrix_valid MW)].
        - now rewrite !(mul_0_r SR), (SRadd_0_l SR).
      Qed.
    End Lin.
    (** *** blocks from a function *)
    Lemma tp_width R : tp_ok S R -> same_width (sym_len S) (tp_secs R).
    Proof. intros H. destruct (tp_ok_spec OK H) as [O _]. apply Forall_forall. intros s I. apply (fr_len (to_ring OK)). now apply (sk_valid O). Qed.
    Lemma common_In p q : In (p, q) (common_walk true true 0 (tp_secs P) 0 (tp_secs Q)) <-> p < length (tp_secs P) /\ q < length (tp_secs Q) /\ nth p (tp_secs P) [] = nth q (tp_secs Q) [].
    Proof.
      assert (SP := tp_sorted OK HP). assert (SQ := tp_sorted OK HQ).
      assert (WK : forall l, strictly_sorted l -> weakly_sorted l) by (intros l; apply strictly_weakly).
      rewrite (proj1 (common_walk_spec (w := sym_len S) (sa := true) (sb := true) (or_introl eq_refl) 0 0 (tp_width HP) (tp_width HQ) (WK _ SP) (WK _ SQ) (fun _ => SP) (fun _ => SQ)) p q).
      rewrite !Nat.sub_0_r. split; [intros ([_ A] & [_ B] & C); cbn in A, B; auto|intros (A & B & C); repeat split; auto; lia].
    Qed.
    Variable func : nat -> nat -> sector -> block.
    Hypothesis FM : forall m n c, is_matrix m n (func m n c).
    Lemma func_ok : ft_ok P Q (ft_from_func P Q func).
    Proof.
      apply ft_ok_make.
      - rewrite map_map. cbn [fst snd]. apply lt_NoDup. assert (CS := common_walk_sorted (tp_secs P) 0 (tp_secs Q) 0). induction CS as [|p l CS IH FA]; [constructor|]. cbn [map]. constructor; [exact IH|].
        apply Forall_forall. intros k I. apply in_map_iff in I. destruct I as [q [<- I]]. rewrite Forall_forall in FA. now apply FA.
      - intros e I. apply in_map_iff in I. destruct I as [[p q] [<- I]]. cbn [fst snd]. apply common_In in I. destruct I as (H1 & H2 & H3). repeat split; auto; apply FM.
    Qed.
    Lemma In_secs R c : tp_ok S R -> In c (tp_secs R) <-> 0 < block_size R c.
    Proof.
      intros H. split.
      - intros I. apply In_nth with (d := []) in I. destruct I as [i [Hi <-]]. rewrite <- (block_size_nth OK H Hi). destruct (tp_ok_spec OK H) as [O _]. apply (sk_pos O). cbn [tp_space sp_mults]. apply nth_In. assert (L := tp_len OK H). lia.
      - unfold block_size, sector_multiplicity. cbn [tp_space sp_secs sp_mults]. assert (W := row_where_spec (tp_secs R) c). destruct (row_where (tp_secs R) c) as [i|]; [|lia]. destruct W as [Hi [<- _]]. intros _. now apply nth_In.
    Qed.
    Lemma func_get c : 0 < block_size P c -> 0 < block_size Q c -> ft_get Q (ft_from_func P Q func) c = Some (func (block_size P c) (block_size Q c) c).
    Proof.
      intros H1 H2. apply get_iff; [apply (secs_NoDup OK HQ)|apply (ft_keyed func_ok)|]. apply (In_secs c HP) in H1. apply (In_secs c HQ) in H2. apply In_nth with (d := []) in H1, H2.
      destruct H1 as [i [Hi Ei]], H2 as [j [Hj Ej]]. apply stored_make. eexists. split; [apply in_map_iff; exists (i, j); split; [reflexivity|]; apply common_In; split; [exact Hi|]; split; [exact Hj|congruence]|].
      cbn [fst snd]. split; [exact Ej|]. rewrite (block_size_nth OK HP Hi), (block_size_nth OK HQ Hj), Ei, Ej. reflexivity.
    Qed.
    Lemma func_entry c x y : x < block_size P c -> y < block_size Q c -> ft_entry o Q (ft_from_func P Q func) c x y = mat o (func (block_size P c) (block_size Q c) c) x y.
    Proof. intros Hx Hy. rewrite ft_entry_get, func_get by lia. reflexivity. Qed.
  End Two.
  (** *** identity *)
  Lemma eye_ok P : tp_ok S P -> ft_ok P P (ft_eye o P).
  Proof.
    intros HP. apply ft_ok_make.
    - rewrite map_map. cbn [fst snd]. rewrite map_id. apply seq_NoDup.
    - intros e I. apply in_map_iff in I. destruct I as [k [<- I]]. cbn [fst snd]. apply in_seq in I. repeat split; try lia. apply bmk_wf.
  Qed.
  Lemma eye_get P c : tp_ok S P -> 0 < block_size P c -> ft_get P (ft_eye o P) c = Some (beye o (block_size P c)).
  Proof.
    intros HP H. apply get_iff; [apply (secs_NoDup OK HP)|apply (ft_keyed (eye_ok HP))|]. apply (In_secs c HP) in H. apply In_nth with (d := []) in H. destruct H as [i [Hi Ei]].
    apply stored_make. eexists. split; [apply in_map_iff; exists i; split; [reflexivity|apply in_seq; lia]|]. cbn [fst snd]. split; [exact Ei|]. rewrite (block_size_nth OK HP Hi), Ei. reflexivity.
  Qed.
  Lemma eye_at n x y : x < n -> y < n -> bat o (beye o n) [x; y] = delta o x y.
  Proof. intros Hx Hy. unfold beye. rewrite bat_bmk; [reflexivity|]. constructor; [exact Hx|]. constructor; [exact Hy|constructor]. Qed.
  Lemma eye_entry P c x y : tp_ok S P -> x < block_size P c -> y < block_size P c -> ft_entry o P (ft_eye o P) c x y = delta o x y.
  Proof. intros HP Hx Hy. rewrite ft_entry_get, eye_get by (auto; lia). now apply eye_at. Qed.
End Four.
