(** Hdf5Loader: the main induction. *)
From Coq Require Import String Ascii List Arith Bool ZArith Lia Permutation.
From Verif Require Import Util Hdf5Model Hdf5Spec Hdf5Proofs Hdf5Proofs2 Hdf5Proofs3 Hdf5Proofs5.
Import ListNotations.
Set Implicit Arguments. Unset Strict Implicit.
Open Scope list_scope. Open Scope nat_scope.

Lemma map_fst_comb A B (l : list A) (l' : list B) : List.length l' = List.length l -> map fst (combine l l') = l.
Proof. revert l'. induction l as [|x l IH]; intros [|y l'] E; cbn in *; try discriminate; [reflexivity|]. f_equal. apply IH. lia. Qed.
Lemma Forall2_map_left A B C (g : A -> B) (P : B -> C -> Prop) l l' : Forall2 (fun a c => P (g a) c) l l' -> Forall2 P (map g l) l'.
Proof. intros H. induction H; cbn; constructor; assumption. Qed.
Lemma assoc_combine A (names : list string) (js : list A) d k : NoDup names -> List.length js = List.length names -> k < List.length js -> assoc (nth k names ""%string) (combine names js) = Some (nth k js d).
Proof.
  intros ND L K. apply assoc_In; [now rewrite map_fst_comb|]. rewrite <- combine_nth by (symmetry; exact L). apply nth_In. rewrite combine_length. lia.
Qed.

Section Load.
  Variables (order : list string -> list string) (known : string -> string -> bool) (F : file).
  Hypothesis ORD : forall l, Permutation l (order l).
  Variable FW : nat -> Prop.
  Notation okind := (okind known F). Notation fdone := (fdone known F). Notation linv := (linv known F). Notation lx := (lx known F). Notation loads := (loads known F FW).
  Notation below := (below F). Notation edge := (edge F). Notation freach := (freach F).
  Hypothesis FWok : forall j, FW j -> (exists K, okind j K /\ wf known F j K) /\ forall j', edge j j' -> FW j'.

  Lemma okind_lt j K : okind j K -> j < List.length F. Proof. intros [o [E _]]. now apply nth_error_lt in E. Qed.
  Lemma memorize_none l i v : nassoc i (l_memo l) = None -> memorize_load l i v = LState (l_heap l) ((i, v) :: l_memo l).
  Proof. unfold memorize_load. now intros ->. Qed.
  Lemma memorize_some l i v : nassoc i (l_memo l) <> None -> memorize_load l i v = l.
  Proof. unfold memorize_load. destruct (nassoc i (l_memo l)); congruence. Qed.
  Lemma temp_lx (fr : nat -> Prop) l n l2 : lx (fun c => c = List.length (l_heap l)) fr (LState (l_heap l ++ [n]) (l_memo l)) l2 -> lx (fun _ => False) fr l l2.
  Proof.
    intros A. assert (Q := x_len A). cbn [l_heap] in Q. rewrite app_length in Q. cbn in Q. constructor.
    - lia.
    - intros b m _ E. assert (L := nth_error_lt E). apply (x_heap A); [cbn; lia|]. cbn. now rewrite nth_error_app1.
    - intros j w G. now apply (x_memo A).
    - intros j w G N. destruct (x_new A G N) as [D R]. split; [|exact R]. apply (fdone_tr (lo := List.length (l_heap l ++ [n]))) with (l := l2); auto. rewrite app_length. lia.
  Qed.
  Lemma linv_memorize l i n : linv l -> i < List.length F -> linv (memorize_load (LState (l_heap l ++ [n]) (l_memo l)) i (Vref (List.length (l_heap l)))).
  Proof.
    intros LI Hi. destruct (nassoc i (l_memo l)) as [w|] eqn:E.
    - rewrite memorize_some by (cbn [l_memo]; congruence). apply (linv_heap LI). rewrite app_length. lia.
    - rewrite memorize_none by exact E. apply (linv_add LI Hi). cbn [l_heap]. rewrite app_length. cbn. lia.
  Qed.
  Lemma memorize_heap l i v : l_heap (memorize_load l i v) = l_heap l.
  Proof. unfold memorize_load. now destruct (nassoc i (l_memo l)). Qed.
  Lemma memorize_got l i v j w : got l j w -> got (memorize_load l i v) j w.
  Proof. intros G. unfold memorize_load. destruct (nassoc i (l_memo l)) eqn:E; [exact G|]. now apply got_cons. Qed.

  (** filling a list, set or the temporary list of a tuple *)
  Lemma fill_spec f N i k js l1 b k0 path sub : loads f N -> FW i -> okind i (KIter k js) -> h5_get F path = Some i -> sub_ok path sub -> linv l1 -> enough l1 N ->
    nth_error (l_heap l1) b = Some (NIter k0 []) ->
    get_attr F i "len" = Some (ALen (List.length js)) /\ exists l2 ws, load_elems f l1 (Vref b) (List.length js) sub = Some l2 /\ linv l2 /\ lx (fun c => c = b) (below i) l1 l2 /\
      nth_error (l_heap l2) b = Some (NIter k0 ws) /\ Forall2 (got l2) js ws.
  Proof.
    intros SF FWi OK HG SO LI EN HB. pose proof OK as OK'. destruct OK as [o [E [T [L LK]]]]. split; [unfold get_attr; now rewrite E|].
    destruct (load_elems_spec (k0 := k0) FWok SF FWi (js := js) (s0 := 0) (l := l1) (b := b) (ws0 := []) (path := path) (sub := sub) (o := o)) as [l2 [ws [A [B [C [D G]]]]]]; try assumption.
    - intros j J. apply (iter_edge OK' J).
    - intros m M. rewrite LK. cbn [Nat.add]. rewrite <- (@assoc_combine nat (map str_nat (seq 0 (List.length js))) js 0 m); [|apply str_nats_NoDup|now rewrite map_length, seq_length|exact M].
      f_equal. rewrite (nth_indep _ ""%string (str_nat 0)) by (now rewrite map_length, seq_length). rewrite map_nth, seq_nth by exact M. reflexivity.
    - exists l2, ws. now repeat (split; [assumption|]).
  Qed.
  (** load_list *)
  Lemma list_spec f N i js l path sub : loads f N -> FW i -> okind i (KIter IList js) -> h5_get F path = Some i -> sub_ok path sub -> linv l -> enough l N ->
    exists l' ws b, load_iter F f IList l i sub = Some (l', Vref b) /\ linv l' /\ lx (fun _ => False) (freach i) l l' /\ nth_error (l_heap l') b = Some (NIter IList ws) /\ Forall2 (got l') js ws.
  Proof.
    intros SF FWi OK HG SO LI EN. unfold load_iter, alloc. set (b := List.length (l_heap l)). set (l1 := memorize_load _ i (Vref b)).
    assert (LI1 : linv l1) by (apply (linv_memorize _ LI), (okind_lt OK)).
    assert (GM : forall j w, got l j w -> got l1 j w) by (intros j w G; now apply memorize_got).
    destruct (@fill_spec f N i IList js l1 b IList path sub SF FWi OK HG SO LI1 (enough_mono GM EN)) as [LN [l2 [ws [A [B [C [D G]]]]]]].
    { unfold l1. rewrite memorize_heap. apply nth_error_snoc. }
    rewrite LN, A. exists l2, ws, b. split; [reflexivity|]. split; [exact B|]. split; [|now split].
    destruct (nassoc i (l_memo l)) as [w|] eqn:E.
    - unfold l1 in C. rewrite memorize_some in C by (cbn [l_memo]; congruence). apply (lx_weaken (X := fun _ => False) (fr := below i)); [auto|intros j; apply below_freach|]. apply (temp_lx C).
    - unfold l1 in C. rewrite memorize_none in C by exact E. apply (close_lx E C). exists (KIter IList js). split; [exact OK|]. split; [unfold b; lia|]. exists (NIter IList ws). split; [exact D|]. now exists ws.
  Qed.

  Definition simple_loop (f : lstate -> string -> option (lstate * val)) (v : val) (sub : string) (names : list string) (lo : option lstate) : option lstate :=
    fold_left (fun lo k => match lo with
                                     | Some l => match f l (sub ++ k)%string with
                                                 | Some (l, x) => let '(l, kv) := alloc l (NStr k) in Some (put_items l v [(kv, x)])
                                                 | None => None
                                                 end
                                     | None => None
                                     end) names lo.
  Definition jof (o : hobj) (k : string) : nat := match assoc k (h_links o) with Some j => j | None => 0 end.
  Lemma simple_loop_spec f N i o path sub : loads f N -> FW i -> h5_get F path = Some i -> sub_ok path sub -> nth_error F i = Some o ->
    forall names l b kvs0, (forall k, In k names -> good_name k /\ exists j, assoc k (h_links o) = Some j) -> linv l -> enough l N -> nth_error (l_heap l) b = Some (NDict kvs0) ->
    exists l' kvs, simple_loop f (Vref b) sub names (Some l) = Some l' /\ linv l' /\ lx (fun c => c = b) (below i) l l' /\ nth_error (l_heap l') b = Some (NDict (kvs0 ++ kvs)) /\
      Forall2 (fun k kv => (exists c, fst kv = Vref c /\ List.length (l_heap l) <= c /\ nth_error (l_heap l') c = Some (NStr k)) /\ got l' (jof o k) (snd kv)) names kvs.
  Proof.
    intros SF FWi HG SO E names. induction names as [|k names IH]; intros l b kvs0 NM LI EN HB.
    - exists l, []. split; [reflexivity|]. split; [exact LI|]. split; [apply lx_refl|]. rewrite app_nil_r. split; [exact HB|constructor].
    - destruct (NM k (or_introl eq_refl)) as [GN [j AJ]]. assert (ED : edge i j) by (exists o, k; split; [exact E|now apply assoc_Some]).
      assert (FWj : FW j) by (apply (proj2 (FWok FWi)), ED). assert (HGj := child_get HG SO E GN AJ).
      pose proof EN as EN'. destruct EN as [ids [I1 [I2 I3]]]. destruct (SF l _ j ids FWj HGj (sub_nonempty SO) LI I1 I2 I3) as [l1 [w [E1 [LI1 [X1 G1]]]]].
      assert (BL := nth_error_lt HB). assert (HB1 : nth_error (l_heap l1) b = Some (NDict kvs0)) by (apply (x_heap X1); auto).
      set (l2 := LState (l_heap l1 ++ [NStr k]) (l_memo l1)). set (kv := (Vref (List.length (l_heap l1)), w)). set (l3 := put_items l2 (Vref b) [kv]).
      assert (HB2 : nth_error (l_heap l2) b = Some (NDict kvs0)) by (unfold l2; cbn; rewrite nth_error_app1; [exact HB1|now apply nth_error_lt in HB1]).
      assert (XW : lx (fun c => c = b) (below i) l l3).
      { unfold l3, put_items. apply lx_write; [reflexivity|exact BL|]. unfold l2. apply lx_alloc. apply (lx_weaken (X := fun _ => False) (fr := freach j)); [tauto| |exact X1].
        intros c Rc. now exists j. }
      assert (LI3 : linv l3) by (unfold l3, put_items, l2; cbn [l_heap l_memo]; apply (linv_heap LI1); rewrite fupd_length, app_length; lia).
      destruct (IH l3 b (kvs0 ++ [kv])) as [l' [kvs [E2 [LI2 [X2 [HB3 F2]]]]]].
      + intros k' K. apply NM. now right.
      + exact LI3.
      + apply (enough_mono (l := l)); [apply (x_memo XW)|exact EN'].
      + unfold l3, put_items. cbn [l_heap]. exact (fupd_eq _ HB2).
      + exists l', (kv :: kvs). split; [|split; [exact LI2|split; [|split]]].
        * unfold simple_loop in *. cbn [fold_left]. rewrite E1. exact E2.
        * apply (lx_trans (l1 := l3)); [intros c ->; exact BL|exact XW|exact X2].
        * rewrite HB3, <- app_assoc. reflexivity.
        * assert (LN1 := x_len X1). constructor.
          -- split; [|apply (x_memo X2); unfold jof; rewrite AJ; exact G1]. exists (List.length (l_heap l1)). split; [reflexivity|]. split; [exact LN1|]. apply (x_heap X2); [lia|].
             unfold l3, put_items. cbn [l_heap]. rewrite fupd_neq by lia. unfold l2. cbn [l_heap]. apply nth_error_snoc.
          -- assert (LN2 := x_len XW). revert F2. clear - LN2. intros F2. induction F2 as [|x y ? ? [[c [A1 [A2 A3]]] A4] F2 IH2]; constructor; [|exact IH2].
             split; [|exact A4]. exists c. split; [exact A1|]. split; [lia|exact A3].
  Qed.
  Lemma dict_fill f N i o r d l path sub : loads f N -> FW i -> h5_get F path = Some i -> sub_ok path sub -> nth_error F i = Some o -> dict_kind o r d ->
    match d with DGen ik iv => (exists kjs, okind ik (KIter IList kjs)) /\ (exists vjs, okind iv (KIter IList vjs)) | _ => True end ->
    linv l -> let b := List.length (l_heap l) in let l1 := memorize_load (LState (l_heap l ++ [NDict []]) (l_memo l)) i (Vref b) in enough l1 N ->
    exists l2 kvs, load_dict order F f r l i sub = Some (l2, Vref b) /\ linv l2 /\ lx (fun c => c = b) (below i) l1 l2 /\ nth_error (l_heap l2) b = Some (NDict kvs) /\ items_done known F (S b) l2 d kvs.
  Proof.
    intros SF FWi HG SO E DK WF LI b l1 EN. assert (LI1 : linv l1) by (apply (linv_memorize _ LI); now apply nth_error_lt in E).
    assert (HB : nth_error (l_heap l1) b = Some (NDict [])) by (unfold l1; rewrite memorize_heap; apply nth_error_snoc). assert (BL := nth_error_lt HB).
    destruct d as [ik iv|names js]; cbn [dict_kind] in DK.
    - destruct DK as [-> LK]. destruct WF as [[kjs OK] [vjs OV]].
      assert (EK : edge i ik) by (exists o, "keys"%string; rewrite LK; split; [exact E|now left]).
      assert (EV : edge i iv) by (exists o, "values"%string; rewrite LK; split; [exact E|right; now left]).
      assert (GK : good_name "keys") by (split; [reflexivity|split; discriminate]). assert (GV : good_name "values") by (split; [reflexivity|split; discriminate]).
      assert (HK : h5_get F (sub ++ "keys") = Some ik) by (apply (child_get HG SO E GK); now rewrite LK).
      assert (HV : h5_get F (sub ++ "values") = Some iv) by (apply (child_get HG SO E GV); now rewrite LK).
      assert (RK : resolve F i ["keys"%string] = Some ik) by (cbn; now rewrite E, LK). assert (RV : resolve F i ["values"%string] = Some iv) by (cbn; now rewrite E, LK).
      destruct (list_spec SF (proj2 (FWok FWi) _ EK) OK HK (proj2 (sub_sub SO GK)) LI1 EN) as [l2 [kws [bk [A1 [A2 [A3 [A4 A5]]]]]]].
      destruct (list_spec SF (proj2 (FWok FWi) _ EV) OV HV (proj2 (sub_sub SO GV)) A2 (enough_mono (x_memo A3) EN)) as [l3 [vws [bv [B1 [B2 [B3 [B4 B5]]]]]]].
      assert (A4' : nth_error (l_heap l3) bk = Some (NIter IList kws)) by (apply (x_heap B3); auto).
      assert (X3 : lx (fun c => c = b) (below i) l1 l3).
      { apply (lx_trans (l1 := l2)); [intros c ->; exact BL| |]; eapply lx_weaken; [| |exact A3| | |exact B3]; try (intros; contradiction); intros j R; [exists ik|exists iv]; now split. }
      assert (HB3 : nth_error (l_heap l3) b = Some (NDict [])) by (apply (x_heap B3); [auto|]; apply (x_heap A3); auto).
      exists (put_items l3 (Vref b) (combine kws vws)), (combine kws vws). split; [|split; [|split; [|split]]].
      + unfold load_dict, alloc. cbn [String.eqb Ascii.eqb Bool.eqb]. fold b. fold l1. rewrite RK, RV.
        change (sub ++ "keys/")%string with (sub ++ "keys" ++ "/")%string. change (sub ++ "values/")%string with (sub ++ "values" ++ "/")%string. rewrite A1, B1.
        unfold contents. now rewrite A4', B4.
      + unfold put_items. apply (linv_heap B2). now rewrite fupd_length.
      + unfold put_items. apply lx_write; [reflexivity|exact BL|exact X3].
      + unfold put_items. cbn [l_heap]. exact (fupd_eq _ HB3).
      + exists kjs, vjs, kws, vws. split; [exact OK|]. split; [exact OV|]. split; [reflexivity|]. split; [|exact B5]. apply (Forall2_got_tr A5). intros j x _ G. now apply (x_memo B3).
    - destruct DK as [-> [LK [LJ [ND GN]]]].
      assert (MF : map fst (h_links o) = names) by (rewrite LK; now apply map_fst_comb).
      destruct (simple_loop_spec SF FWi HG SO E (names := order (map fst (h_links o))) (l := l1) (b := b) (kvs0 := [])) as [l2 [kvs [A1 [A2 [A3 [A4 A5]]]]]]; try assumption.
      + intros k K. rewrite MF in K. apply (Permutation_in _ (Permutation_sym (ORD _))) in K. split; [now apply GN|]. destruct (assoc k (h_links o)) as [j|] eqn:Q; [now exists j|].
        apply assoc_none in Q. rewrite MF in Q. contradiction.
      + exists l2, kvs. split; [|split; [exact A2|split; [exact A3|split; [exact A4|]]]].
        * unfold load_dict, alloc. cbn [String.eqb Ascii.eqb Bool.eqb]. fold b. fold l1. rewrite E. unfold simple_loop in A1. unfold alloc in A1. rewrite A1. reflexivity.
        * exists (map (fun k => (k, jof o k)) (order (map fst (h_links o)))). split.
          -- assert (CE : combine names js = map (fun k => (k, jof o k)) names).
             { transitivity (map (fun p => (fst p, jof o (fst p))) (combine names js)).
               - rewrite <- (map_id (combine names js)) at 1. apply map_ext_in. intros [k j] I. cbn. unfold jof. rewrite LK, (assoc_In (x := j)); [reflexivity|now rewrite map_fst_comb|exact I].
               - rewrite <- (map_map fst (fun k => (k, jof o k))), map_fst_comb by exact LJ. reflexivity. }
             rewrite CE, MF. apply Permutation_map, ORD.
          -- assert (LL : List.length (l_heap l1) = S b) by (unfold l1; rewrite memorize_heap; cbn [l_heap]; rewrite app_length; cbn; unfold b; lia). rewrite LL in A5.
             exact (Forall2_map_left (g := fun k => (k, jof o k)) A5).
  Qed.
  Lemma tag_load_spec t' t : load_tag (tag_repr t') = Some t -> t = loaded_type t'.
  Proof. destruct t'; cbn; congruence. Qed.

  (** leaves *)
  Lemma leaf_lx l i n : linv l -> nassoc i (l_memo l) = None -> okind i (KLeaf n) ->
    exists l' w, load_leaf l i n = Some (l', w) /\ linv l' /\ lx (fun _ => False) (freach i) l l' /\ got l' i w.
  Proof.
    intros LI N OK. unfold load_leaf, alloc. rewrite memorize_none by exact N. cbn [l_heap l_memo]. eexists. eexists. split; [reflexivity|]. split.
    - apply (linv_add LI (okind_lt OK)). rewrite app_length. cbn. lia.
    - apply (@close_lx known F l n i); [exact N|apply lx_refl|]. exists (KLeaf n). split; [exact OK|]. split; [lia|]. exists n. split; [apply nth_error_snoc|reflexivity].
  Qed.
  Lemma load_memo fuel l path i b : h5_get F path = Some i -> path <> ""%string -> got l i (Vref b) -> load order known F (S fuel) l path = Some (l, Vref b).
  Proof. intros HG NE G. cbn [load]. destruct (subpath_spec NE) as [sub [S1 _]]. unfold got in G. now rewrite HG, S1, G. Qed.
  Lemma load_leaf_spec fuel l path i n : linv l -> h5_get F path = Some i -> path <> ""%string -> okind i (KLeaf n) ->
    exists l' w, load order known F (S fuel) l path = Some (l', w) /\ linv l' /\ lx (fun _ => False) (freach i) l l' /\ got l' i w.
  Proof.
    intros LI HG NE OK. destruct (nassoc i (l_memo l)) as [[|b]|] eqn:E.
    - destruct (i_none LI E) as [o [Eo T]]. destruct OK as [o' [Eo' T']]. rewrite Eo in Eo'. injection Eo' as <-. exfalso. destruct T' as [T' _]. unfold obj_kind, leaf_kind, is_type in T, T'.
      destruct n; try contradiction; [destruct T' as [t' [T' _]]|destruct T' as [[T' _]|[x [T' _]]]|destruct T' as [T' _]|destruct T' as [T' _]]; rewrite T in T'; try discriminate.
      + destruct t'; discriminate.
      + destruct k; discriminate.
    - rewrite (load_memo fuel HG NE E). exists l, (Vref b). split; [reflexivity|]. split; [exact LI|]. split; [apply lx_refl|exact E].
    - assert (X := leaf_lx LI E OK). destruct X as [l' [w [X1 X2]]]. exists l', w. split; [|exact X2]. rewrite <- X1. cbn [load]. destruct (subpath_spec NE) as [sub [S1 _]]. rewrite HG, S1, E.
      destruct OK as [o [Eo T]]. unfold get_attr, data_of. rewrite Eo. destruct T as [T _]. cbn [leaf_kind] in T. unfold is_type in T. destruct n; try contradiction.
      + destruct T as [t' [T [LT HD]]]. rewrite T, HD. destruct t'; cbn in LT; injection LT as <-; reflexivity.
      + destruct T as [[T HD]|[x [T [HD IS]]]]; rewrite T, HD; [reflexivity|]. cbn [String.eqb Ascii.eqb Bool.eqb]. now rewrite IS.
      + destruct T as [T HD]. rewrite T, HD. reflexivity.
      + destruct T as [T [T2 [T3 KN]]]. rewrite T, T2, T3. destruct k; cbn [gkind_repr String.eqb Ascii.eqb Bool.eqb orb]; rewrite KN; reflexivity.
  Qed.

  Lemma enough_add l N i h' v : linv l -> nassoc i (l_memo l) = None -> enough l N -> enough (LState h' ((i, v) :: l_memo l)) (S N).
  Proof.
    intros LI E [ids [I1 [I2 I3]]]. exists (i :: ids). split; [constructor; [|exact I1]|].
    - intros J. now apply (I2 i J).
    - split; [|cbn; lia]. intros j J. cbn. destruct (Nat.eqb_spec j i); [discriminate|]. destruct J as [J|J]; [congruence|now apply I2].
  Qed.
  Lemma enough_le l N N' : enough l N -> N' <= N -> enough l N'.
  Proof. intros [ids [A [B C]]] L. exists ids. repeat split; [exact A|exact B|lia]. Qed.
  Lemma leaf_reach i n j : okind i (KLeaf n) -> freach i j -> j = i.
  Proof. intros [o [E [_ L]]] R. destruct R as [|i c j [o' [nm [E' I]]] R]; [reflexivity|]. rewrite E in E'. injection E' as <-. rewrite L in I. destruct I. Qed.
  Theorem load_loads fuel : loads (load order known F fuel) (List.length F + 2 - fuel).
  Proof.
    induction fuel as [|fuel IH]; intros l path i ids FWi HG NE LI ND ID NN; assert (LB : List.length ids <= List.length F).
    1, 3: rewrite <- (seq_length (List.length F) 0); apply NoDup_incl_length; [exact ND|]; intros j J; apply in_seq; specialize (ID j J);
          (destruct (nassoc j (l_memo l)) as [w|] eqn:Ej; [assert (Q := i_dom LI Ej); lia|congruence]).
    { lia. }
    destruct (FWok FWi) as [[K [OK WF]] CL].
    assert (CASES : (exists n, K = KLeaf n) \/ (exists b, got l i (Vref b)) \/ K = KNone \/ (nassoc i (l_memo l) = None /\ K <> KNone /\ forall n, K <> KLeaf n)).
    { destruct (nassoc i (l_memo l)) as [[|b]|] eqn:E; [|right; left; now exists b|].
      - destruct (i_none LI E) as [o [Eo T]]. destruct OK as [o' [Eo' T']]. rewrite Eo in Eo'. injection Eo' as <-. unfold obj_kind in T. destruct K; [tauto|left; now eexists| | | |]; exfalso; cbn [obj_kind] in T'; unfold is_type in *.
        + destruct T' as [T' _]. rewrite T in T'. destruct k; discriminate.
        + destruct T' as [r [T' DK]]. rewrite T in T'. injection T' as <-. destruct d; destruct DK as [DK _]; discriminate.
        + destruct T' as [r [T' _]]. rewrite T in T'. discriminate.
        + destruct T' as [T' _]. rewrite T in T'. discriminate.
      - destruct K; [tauto|left; now eexists| | | |]; right; right; right; (split; [reflexivity|split; [discriminate|intros; discriminate]]). }
    destruct CASES as [[n ->]|[[b G]|[->|[NA [K1 K2]]]]].
    - apply (load_leaf_spec fuel LI HG NE OK).
    - rewrite (load_memo fuel HG NE G). exists l, (Vref b). split; [reflexivity|]. split; [exact LI|]. split; [apply lx_refl|exact G].
    - destruct (nassoc i (l_memo l)) as [[|b]|] eqn:E.
      + exists l, Vnone. split; [|split; [exact LI|split; [apply lx_refl|exact E]]]. cbn [load]. destruct (subpath_spec NE) as [sub [S1 _]]. rewrite HG, S1, E. destruct OK as [o [Eo T]]. unfold get_attr. rewrite Eo.
        cbn [obj_kind] in T. unfold is_type in T. rewrite T. cbn [String.eqb Ascii.eqb Bool.eqb]. now rewrite memorize_some by (cbn [l_memo]; congruence).
      + rewrite (load_memo fuel HG NE E). exists l, (Vref b). split; [reflexivity|]. split; [exact LI|]. split; [apply lx_refl|exact E].
      + set (l' := LState (l_heap l) ((i, Vnone) :: l_memo l)). exists l', Vnone. split; [|split; [|split]].
        * cbn [load]. destruct (subpath_spec NE) as [sub [S1 _]]. rewrite HG, S1, E. destruct OK as [o [Eo T]]. unfold get_attr. rewrite Eo.
          cbn [obj_kind] in T. unfold is_type in T. rewrite T. cbn [String.eqb Ascii.eqb Bool.eqb]. now rewrite memorize_none by exact E.
        * assert (GG : forall j w, got l' j w -> (j = i /\ w = Vnone) \/ got l j w).
          { intros j w. unfold got. cbn. destruct (Nat.eqb_spec j i) as [->|]; [intros [= <-]; now left|now right]. }
          constructor.
          -- intros j j' c A B. apply GG in A, B. destruct A as [[_ A]|A]; [discriminate|]. destruct B as [[_ B]|B]; [discriminate|]. apply (i_inj LI A B).
          -- intros j c A. apply GG in A. destruct A as [[_ A]|A]; [discriminate|]. apply (i_rng LI A).
          -- intros j w A. apply GG in A. destruct A as [[-> _]|A]; [apply (okind_lt OK)|apply (i_dom LI A)].
          -- intros j A. apply GG in A. destruct A as [[-> _]|A]; [exact OK|apply (i_none LI A)].
        * constructor; auto.
          -- intros j w A. now apply got_cons.
          -- intros j w A B. unfold got in A. cbn in A. destruct (Nat.eqb_spec j i) as [->|]; [|congruence]. injection A as <-. split; [|constructor]. now exists KNone.
        * apply got_new.
    - assert (EN : enough l (List.length F + 2 - S fuel)) by (exists ids; now repeat split).
      assert (EN1 : forall h' v, enough (LState h' ((i, v) :: l_memo l)) (List.length F + 2 - fuel)).
      { intros h' v. apply (@enough_le _ (S (List.length F + 2 - S fuel))); [now apply enough_add|lia]. }
      destruct (subpath_spec NE) as [sub [S1 SO]]. pose proof OK as OKK. destruct OK as [o [Eo T]]. assert (Hi := nth_error_lt Eo).
      assert (LI1 : forall n0, linv (LState (l_heap l ++ [n0]) ((i, Vref (List.length (l_heap l))) :: l_memo l))).
      { intros n0. apply (linv_add LI Hi). rewrite app_length. cbn. lia. }
      destruct K; try congruence; cbn [obj_kind] in T; unfold is_type in T.
      + (* list, set, tuple *) destruct T as [T _].
        assert (LE : load order known F (S fuel) l path = load_iter F (load order known F fuel) k l i sub).
        { cbn [load]. rewrite HG, S1, NA. unfold get_attr. rewrite Eo, T. destruct k; reflexivity. }
        rewrite LE. unfold load_iter, alloc. rewrite memorize_none by exact NA. cbn [l_heap l_memo]. set (k0 := match k with ISet => ISet | _ => IList end).
        destruct (@fill_spec _ _ i k js _ (List.length (l_heap l)) k0 path sub IH FWi OKK HG SO (LI1 (NIter k0 [])) (EN1 _ _) (nth_error_snoc _ _)) as [LN [l2 [ws [A [B [C [D G]]]]]]].
        rewrite LN, A. destruct k; cbn [k0] in *.
        * exists l2, (Vref (List.length (l_heap l))). split; [reflexivity|]. split; [exact B|]. apply (close_lx NA C). exists (KIter IList js). split; [exact OKK|]. split; [lia|]. eexists. split; [exact D|]. now exists ws.
        * (* the tuple replaces the list *)
          unfold contents. cbn [l_heap]. rewrite D. set (w := List.length (l_heap l2)). set (l4 := LState (l_heap l2 ++ [NIter ITuple ws]) ((i, Vref w) :: l_memo l2)).
          assert (QL := x_len C). cbn [l_heap] in QL. rewrite app_length in QL. cbn in QL. fold w in QL. cbn [wf] in WF.
          assert (GN : forall j x, j <> i -> got l2 j x -> got l4 j x) by (intros j x N Gj; unfold got; cbn; destruct (Nat.eqb_spec j i); [contradiction|exact Gj]).
          exists l4, (Vref w). split; [reflexivity|]. split; [|split].
          -- apply (linv_add B Hi). rewrite app_length. fold w. cbn. lia.
          -- constructor.
             ++ cbn. rewrite app_length. fold w. lia.
             ++ intros c n _ Ec. assert (Lc := nth_error_lt Ec). cbn [l4 l_heap]. rewrite nth_error_app1 by (fold w; lia). apply (x_heap C); [lia|]. cbn. now rewrite nth_error_app1.
             ++ intros j x Gj. apply GN; [intros ->; unfold got in Gj; congruence|]. apply (x_memo C). now apply got_cons.
             ++ intros j x Gj Nj. destruct (Nat.eq_dec j i) as [->|NJ].
                ** unfold got in Gj. cbn in Gj. rewrite Nat.eqb_refl in Gj. injection Gj as <-. split; [|constructor]. exists (KIter ITuple js). split; [exact OKK|]. split; [lia|].
                   exists (NIter ITuple ws). split; [apply nth_error_snoc|]. exists ws. split; [reflexivity|]. apply (Forall2_got_tr G). intros j x J. apply GN. intros ->. apply WF, edge_below. apply (iter_edge OKK J).
                ** assert (G2 : got l2 j x) by (unfold got in Gj; cbn in Gj; destruct (Nat.eqb_spec j i); [contradiction|exact Gj]).
                   destruct (x_new C G2) as [D1 R1]; [cbn; now destruct (Nat.eqb_spec j i)|]. split; [|now apply below_freach].
                   cbn [l_heap] in D1. rewrite app_length in D1. apply (fdone_tr (lo := List.length (l_heap l) + 1)) with (l := l2); [lia| | |exact D1].
                   --- intros c n _ Ec. cbn [l4 l_heap]. rewrite nth_error_app1; [exact Ec|]. now apply nth_error_lt in Ec.
                   --- intros j' y Bj. apply GN. intros ->. apply WF. apply (below_trans R1). now apply below_freach.
          -- apply got_new.
        * exists l2, (Vref (List.length (l_heap l))). split; [reflexivity|]. split; [exact B|]. apply (close_lx NA C). exists (KIter ISet js). split; [exact OKK|]. split; [lia|]. eexists. split; [exact D|]. now exists ws.
      + (* dict *) destruct T as [r [T DK]].
        assert (LE : load order known F (S fuel) l path = load_dict order F (load order known F fuel) r l i sub).
        { cbn [load]. rewrite HG, S1, NA. unfold get_attr. rewrite Eo, T. destruct d; destruct DK as [-> _]; reflexivity. }
        rewrite LE. assert (WFd : match d with DGen ik iv => (exists kjs, okind ik (KIter IList kjs)) /\ (exists vjs, okind iv (KIter IList vjs)) | _ => True end) by (destruct d; [exact WF|exact I]).
        assert (ENd : enough (memorize_load (LState (l_heap l ++ [NDict []]) (l_memo l)) i (Vref (List.length (l_heap l)))) (List.length F + 2 - fuel)) by (rewrite memorize_none by exact NA; apply EN1).
        destruct (@dict_fill _ _ i o r d l path sub IH FWi HG SO Eo DK WFd LI ENd) as [l2 [kvs [A1 [A2 [A3 [A4 A5]]]]]].
        rewrite memorize_none in A3 by exact NA. exists l2, (Vref (List.length (l_heap l))). split; [exact A1|]. split; [exact A2|]. apply (close_lx NA A3). exists (KDict d). split; [exact OKK|]. split; [lia|].
        eexists. split; [exact A4|]. exists kvs. split; [reflexivity|]. refine (items_done_tr (lo := S (List.length (l_heap l))) (l := l2) (j := i) _ _ _ Eo DK A5); auto.
      + (* instance *) destruct T as [r [T [TM [TC [TF [KN DK]]]]]]. set (b := List.length (l_heap l)) in *.
        set (l1 := LState (l_heap l ++ [NInst m q []]) ((i, Vref b) :: l_memo l)).
        assert (LE : load order known F (S fuel) l path = match load_dict order F (load order known F fuel) r l1 i sub with Some (l, d) => Some (put_items l (Vref b) (items_of l d), Vref b) | None => None end).
        { cbn [load]. rewrite HG, S1, NA. unfold get_attr. rewrite Eo, T. cbn [String.eqb Ascii.eqb Bool.eqb]. rewrite TM, TC, KN, TF. unfold alloc. rewrite memorize_none by exact NA. reflexivity. }
        rewrite LE. assert (L1 : List.length (l_heap l1) = S b) by (unfold l1; cbn [l_heap]; rewrite app_length; cbn; unfold b; lia).
        assert (MS : memorize_load (LState (l_heap l1 ++ [NDict []]) (l_memo l1)) i (Vref (List.length (l_heap l1))) = LState (l_heap l1 ++ [NDict []]) (l_memo l1)).
        { apply memorize_some. unfold l1. cbn. rewrite Nat.eqb_refl. discriminate. }
        assert (WFd : match d with DGen ik iv => (exists kjs, okind ik (KIter IList kjs)) /\ (exists vjs, okind iv (KIter IList vjs)) | _ => True end) by (destruct d; [exact WF|exact I]).
        assert (ENd : enough (memorize_load (LState (l_heap l1 ++ [NDict []]) (l_memo l1)) i (Vref (List.length (l_heap l1)))) (List.length F + 2 - fuel)) by (rewrite MS; apply EN1).
        destruct (@dict_fill _ _ i o r d l1 path sub IH FWi HG SO Eo DK WFd (LI1 (NInst m q [])) ENd) as [l2 [kvs [A1 [A2 [A3 [A4 A5]]]]]].
        rewrite MS in A3. rewrite A1. assert (X2 := temp_lx A3). assert (IO : items_of l2 (Vref (List.length (l_heap l1))) = kvs) by (unfold items_of; now rewrite A4). rewrite IO.
        assert (HB : nth_error (l_heap l1) b = Some (NInst m q [])) by apply nth_error_snoc. assert (HB2 : nth_error (l_heap l2) b = Some (NInst m q [])) by (apply (x_heap X2); auto).
        exists (put_items l2 (Vref b) kvs), (Vref b). split; [reflexivity|]. split; [unfold put_items; apply (linv_heap A2); now rewrite fupd_length|].
        apply (@close_lx known F l (NInst m q []) i); [exact NA| |].
        * unfold put_items. apply lx_write; [reflexivity|cbn [l_heap]; rewrite app_length; cbn; unfold b; lia|]. apply (lx_weaken (X := fun _ => False) (fr := below i)); [tauto|auto|exact X2].
        * exists (KInst m q d). split; [exact OKK|]. split; [lia|]. exists (NInst m q kvs). split; [exact (fupd_eq _ HB2)|]. exists kvs. split; [reflexivity|].
          rewrite L1 in A5. refine (items_done_tr (lo := S (S b)) (l := l2) (j := i) _ _ _ Eo DK A5); auto.
          intros c n Lc Ec. unfold put_items. cbn [l_heap]. rewrite fupd_neq by lia. exact Ec.
      + (* range *) destruct T as [T LK]. destruct WF as [[n1 O1] [[n2 O2] [n3 O3]]]. destruct fuel as [|fuel]; [lia|].
        assert (GS : forall nm, In nm ["start"; "stop"; "step"]%string -> good_name nm) by (intros nm H; cbn in H; intuition (subst; split; [reflexivity|split; discriminate])).
        assert (ED : forall c, In c [i0; j; k] -> edge i c).
        { intros c I. exists o. rewrite LK. cbn in I. destruct I as [<-|[<-|[<-|[]]]]; eexists; (split; [exact Eo|cbn; eauto]). }
        assert (H1 : h5_get F (sub ++ "start") = Some i0) by (apply (child_get HG SO Eo); [apply GS; cbn; tauto|now rewrite LK]).
        assert (H2 : h5_get F (sub ++ "stop") = Some j) by (apply (child_get HG SO Eo); [apply GS; cbn; tauto|now rewrite LK]).
        assert (H3 : h5_get F (sub ++ "step") = Some k) by (apply (child_get HG SO Eo); [apply GS; cbn; tauto|now rewrite LK]).
        destruct (load_leaf_spec fuel LI H1 (sub_nonempty SO) O1) as [la [x [A1 [A2 [A3 A4]]]]].
        destruct (load_leaf_spec fuel A2 H2 (sub_nonempty SO) O2) as [lb [y [B1 [B2 [B3 B4]]]]].
        destruct (load_leaf_spec fuel B2 H3 (sub_nonempty SO) O3) as [lc [z [C1 [C2 [C3 C4]]]]].
        assert (NL : forall c n, okind c (KLeaf n) -> c <> i).
        { intros c n [o' [Ec Kc]] ->. rewrite Eo in Ec. injection Ec as <-. destruct Kc as [Kc _]. unfold leaf_kind, is_type in Kc. rewrite T in Kc. destruct n; try contradiction.
          - destruct Kc as [t' [Kc _]]. destruct t'; discriminate.
          - destruct Kc as [[Kc _]|[? [Kc _]]]; discriminate.
          - destruct Kc as [Kc _]. discriminate.
          - destruct Kc as [Kc _]. destruct k0; discriminate. }
        assert (XS : forall c n la lb, okind c (KLeaf n) -> lx (fun _ => False) (freach c) la lb -> nassoc i (l_memo la) = None -> nassoc i (l_memo lb) = None).
        { intros c n ll lr Oc X NN'. destruct (nassoc i (l_memo lr)) as [w|] eqn:Q; [|reflexivity]. destruct (x_new X Q NN') as [_ R]. apply (leaf_reach Oc) in R. symmetry in R. now apply (NL c n) in R. }
        assert (NC : nassoc i (l_memo lc) = None) by (apply (XS _ _ _ _ O3 C3), (XS _ _ _ _ O2 B3), (XS _ _ _ _ O1 A3), NA).
        assert (XC : lx (fun _ => False) (freach i) l lc).
        { apply (lx_trans (l1 := la)); [tauto| |apply (lx_trans (l1 := lb)); [tauto| |]].
          - eapply lx_weaken; [| |exact A3]; [auto|]. intros c Rc. apply (fr_step (j := i0)); [apply ED; cbn; tauto|exact Rc].
          - eapply lx_weaken; [| |exact B3]; [auto|]. intros c Rc. apply (fr_step (j := j)); [apply ED; cbn; tauto|exact Rc].
          - eapply lx_weaken; [| |exact C3]; [auto|]. intros c Rc. apply (fr_step (j := k)); [apply ED; cbn; tauto|exact Rc]. }
        assert (LE : load order known F (S (S fuel)) l path = load_leaf lc i (NRange x y z)).
        { remember (S fuel) as fuel1. cbn [load]. rewrite HG, S1, NA. unfold get_attr. rewrite Eo, T. cbn [String.eqb Ascii.eqb Bool.eqb]. rewrite A1, B1, C1. reflexivity. }
        rewrite LE. unfold load_leaf, alloc. rewrite memorize_none by exact NC. cbn [l_heap l_memo].
        set (lf := LState (l_heap lc ++ [NRange x y z]) ((i, Vref (List.length (l_heap lc))) :: l_memo lc)). exists lf, (Vref (List.length (l_heap lc))). split; [reflexivity|].
        split; [apply (linv_add C2 Hi); rewrite app_length; cbn; lia|].
        assert (GF : forall c v, got lc c v -> got lf c v) by (intros; now apply got_cons).
        destruct (@close_lx known F lc (NRange x y z) i lf NC) as [X1 X2]; [apply lx_refl| |].
        * exists (KRange i0 j k). split; [exact OKK|]. split; [lia|]. exists (NRange x y z). split; [apply nth_error_snoc|]. exists x, y, z. split; [reflexivity|].
          split; [apply GF, (x_memo C3), (x_memo B3), A4|]. split; [apply GF, (x_memo C3), B4|apply GF, C4].
        * split; [|exact X2]. apply (lx_trans (l1 := lc)); [tauto|exact XC|exact X1].
  Qed.
End Load.
