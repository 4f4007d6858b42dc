(** Hdf5Saver: dictionaries, instances, leaves; the main induction. *)
From Coq Require Import String Ascii List Arith Bool ZArith Lia.
From Verif Require Import Util Hdf5Model Hdf5Spec Hdf5Proofs Hdf5Proofs2 Hdf5Proofs3.
Import ListNotations.
Set Implicit Arguments. Unset Strict Implicit.
Open Scope list_scope. Open Scope nat_scope.

Lemma simple_keys_spec h kvs items : simple_keys h kvs = Some items ->
  Forall2 (string_key h) (map fst kvs) (map fst items) /\ map snd items = map snd kvs /\ (forall k, In k (map fst items) -> has_char slash k = false /\ k <> "."%string).
Proof.
  revert items. induction kvs as [|[[|a] v] kvs IH]; intros items; cbn [simple_keys].
  - intros E. injection E as <-. split; [constructor|]. split; [reflexivity|]. now intros k [].
  - discriminate.
  - destruct (nth_error h a) as [[]|] eqn:Ea; try discriminate. destruct (valid_component s) eqn:Vs; [|discriminate].
    destruct (simple_keys h kvs) as [l|] eqn:El; [|discriminate]. intros E. injection E as <-. destruct (IH l eq_refl) as [A [B C]]. cbn [map fst snd]. split; [|split].
    + constructor; [|exact A]. exists a. now split.
    + now f_equal.
    + intros k [<-|K]; [|now apply C]. unfold valid_component in Vs. apply andb_true_iff in Vs. destruct Vs as [V1 V2]. apply negb_true_iff in V1, V2.
      split; [exact V1|]. intros ->. discriminate V2.
Qed.

Section Save.
  Variables (known : string -> string -> bool) (h : heap) (D : nat -> Prop).
  Hypothesis DOK : forall a, D a -> exists n, nth_error h a = Some n /\ node_ok known h n /\ forall b, In (Vref b) (children n) -> D b.
  Notation Dval := (Dval D). Notation saves := (saves h D).
  Notation val_at := (val_at h). Notation ext := (ext h). Notation memo_ok := (memo_ok h D). Notation good := (good h). Notation entry_good := (entry_good h). Notation grow := (grow h).
  Notation list_body_spec := (list_body_spec (h := h) (D := D)).

  Section Container.
    Variables (B : sstate -> nat -> string -> option sstate) (vo : option val) (P : nat -> file -> list (val * nat) -> hobj -> Prop) (bound : nat).
    Hypothesis Ptr : forall lo lo' F M o, lo' <= lo -> P lo F M o -> P lo' F M o.
    Hypothesis PG : forall v lo F M o i, vo = Some v -> P lo F M o -> nth_error F i = Some o -> entry_good lo F M v i.
    Hypothesis BS : forall s path sub g o, memo_ok s -> bound <= List.length (s_memo s) -> open_group s path sub g o ->
      exists s' o', B s g sub = Some s' /\ memo_ok s' /\ grow s s' g /\ nth_error (s_file s') g = Some o' /\ P (List.length (s_file s)) (s_file s') (s_memo s') o'.
    Lemma container_spec s path p name o : memo_ok s -> (forall v, vo = Some v -> vassoc v (s_memo s) = None /\ Dval v) -> target (s_file s) path p name o ->
      bound <= List.length (opt_memo vo 0 (s_memo s)) ->
      exists s3 o', (match create_group_for_obj s path vo with Some (s, i, sub) => B s i sub | None => None end) = Some s3 /\ memo_ok s3 /\
        ext s s3 p [(name, List.length (s_file s))] /\ nth_error (s_file s3) (List.length (s_file s)) = Some o' /\ P (List.length (s_file s)) (s_file s3) (s_memo s3) o' /\
        (forall v, vo = Some v -> vassoc v (s_memo s3) = Some (List.length (s_file s))).
    Proof.
      intros MO NV T BD. assert (PL : p < List.length (s_file s)) by (destruct T as [pre [_ [_ [E _]]]]; now apply nth_error_lt in E).
      assert (NE : path <> ""%string) by (destruct T as [pre [_ [_ [_ [_ [_ [_ E]]]]]]]; exact E).
      destruct (create_spec None T) as [F1 [C1 C2]]. destruct (subpath_spec NE) as [sub [S1 S2]].
      set (s1 := SState F1 (opt_memo vo (List.length (s_file s)) (s_memo s))).
      assert (CG : create_group_for_obj s path vo = Some (s1, List.length (s_file s), sub)).
      { unfold create_group_for_obj, group_at_path. rewrite (path_not_root T), C1, S1. unfold s1. destruct vo as [v|]; [|reflexivity].
        unfold memorize_save. cbn [s_memo s_file opt_memo]. now rewrite (proj1 (NV v eq_refl)). }
      rewrite CG. assert (M1 : memo_ok s1).
      { unfold s1. destruct vo as [v|]; cbn [opt_memo].
        - destruct (NV v eq_refl) as [N1 N2]. apply (memo_ok_add DOK MO N1 N2). rewrite (c_len C2). lia.
        - apply (memo_ok_file MO). rewrite (c_len C2). lia. }
      assert (OG : open_group s1 path sub (List.length (s_file s)) (HObj [] [] None)).
      { split; [apply (created_resolve T C2)|]. split; [apply (c_new C2)|]. split; [reflexivity|]. split; [reflexivity|exact S2]. }
      destruct (BS M1 (path := path) (sub := sub) (g := List.length (s_file s)) (o := HObj [] [] None)) as [s3 [o' [E1 [E2 [E3 [E4 E5]]]]]].
      - unfold s1. cbn [s_memo]. destruct vo; exact BD.
      - exact OG.
      - assert (P5 : P (List.length (s_file s)) (s_file s3) (s_memo s3) o').
        { apply (@Ptr (List.length (s_file s1))); [|exact E5]. unfold s1. cbn [s_file]. rewrite (c_len C2). lia. }
        destruct (container_ext PL (fun v V => proj1 (NV v V)) C2 E3) as [X1 X2].
        + intros v V. apply (PG V P5 E4).
        + exists s3, o'. split; [exact E1|]. split; [exact E2|]. split; [exact X1|]. split; [exact E4|]. split; [exact P5|exact X2].
    Qed.
  End Container.

  Lemma good_list_lo lo lo' F M o r vs : lo' <= lo -> good_list h lo F M o r vs -> good_list h lo' F M o r vs.
  Proof. intros L. apply good_list_tr; [exact L|now intros i q _ Q|apply mle_refl]. Qed.
  Lemma good_lo lo lo' F M o n : lo' <= lo -> good lo F M o n -> good lo' F M o n.
  Proof. intros L. apply good_tr; [exact L|now intros i q _ Q|apply mle_refl]. Qed.
  Lemma good_links lo F M o o' r kvs : h_links o = h_links o' -> good_dict h lo F M o r kvs -> good_dict h lo F M o' r kvs.
  Proof. unfold good_dict. now intros ->. Qed.

  Lemma view_spec f bound vs s path p name o : saves f bound -> memo_ok s -> bound <= List.length (s_memo s) -> (forall v, In v vs -> Dval v) -> target (s_file s) path p name o ->
    exists s3 o', save_iterable f s None vs path "list" = Some s3 /\ memo_ok s3 /\ ext s s3 p [(name, List.length (s_file s))] /\
      nth_error (s_file s3) (List.length (s_file s)) = Some o' /\ good_list h (List.length (s_file s)) (s_file s3) (s_memo s3) o' "list" vs.
  Proof.
    intros SF MO BD DV T.
    destruct (@container_spec (list_body f "list" vs) None (fun lo F M o => good_list h lo F M o "list" vs) bound) with (s := s) (path := path) (p := p) (name := name) (o := o)
      as [s3 [o' [E1 [E2 [E3 [E4 [E5 _]]]]]]]; try assumption.
    - intros lo lo' F M q L. now apply good_list_lo.
    - discriminate.
    - intros s1 path1 sub g q M1 B1 OG. apply (list_body_spec _ SF M1 B1 DV OG).
    - discriminate.
    - exists s3, o'. split; [exact E1|]. now repeat (split; [assumption|]).
  Qed.

  Lemma sub_target s path sub g o name : open_group s path sub g o -> good_name name -> no_nul name -> target (s_file s) (sub ++ name)%string g name o.
  Proof.
    intros [A [B [C [E F]]]] G N. exists (components path). split; [now apply sub_child|]. split; [exact A|]. split; [exact B|]. split; [exact C|]. split; [now rewrite E|].
    split; [exact N|]. apply (sub_nonempty F).
  Qed.
  Lemma string_keys_ok (kvs : list (val * val)) ks : (forall v, In v (map fst kvs) -> Dval v) -> Forall2 (string_key h) (map fst kvs) ks -> forall k, In k ks -> no_nul k.
  Proof.
    generalize (map fst kvs). intros l DV F2. induction F2 as [|v k l ks [a [-> Ea]] F2 IH]; intros k' K; [destruct K|].
    destruct K as [<-|K]; [|apply IH; [intros v V; apply DV; now right|exact K]].
    destruct (DOK (DV (Vref a) (or_introl eq_refl))) as [n [En [ON _]]]. rewrite En in Ea. injection Ea as ->. exact ON.
  Qed.
  Lemma dict_spec f bound kvs s path sub g o : saves f bound -> memo_ok s -> bound <= List.length (s_memo s) -> (forall v, In v (map fst kvs ++ map snd kvs) -> Dval v) -> keys_ok h kvs ->
    open_group s path sub g o ->
    exists s' r nl, save_dict_content h f s kvs sub = Some (s', r) /\ memo_ok s' /\ ext s s' g nl /\ good_dict h (List.length (s_file s)) (s_file s') (s_memo s') (add_links o nl) r kvs.
  Proof.
    intros SF MO BD DV KO OG. unfold save_dict_content, good_dict. assert (HL : h_links o = []) by (destruct OG as [_ [_ [_ [A _]]]]; exact A). destruct (simple_keys h kvs) as [items|] eqn:SK.
    - destruct (simple_keys_spec SK) as [K1 [K2 K3]]. destruct (KO _ K1) as [N1 N2]. destruct OG as [R [E [HD [_ SO]]]].
      assert (DK : forall v, In v (map fst kvs) -> Dval v) by (intros v V; apply DV, in_or_app; now left).
      assert (GN : forall k, In k (map fst items) -> good_name k).
      { intros k K. destruct (K3 k K) as [A B]. split; [exact A|]. split; [|exact B]. intros ->. destruct (N2 K) as [k' [I [J|J]]]; destruct (K3 _ I) as [X Y]; congruence. }
      destruct (save_all_spec SF (items := map (fun kv => (snd kv, (sub ++ fst kv)%string)) items) (names := map fst items) MO BD R E HD N1) as [s2 [js [E2 [M2 [X2 [L2 V2]]]]]].
      + intros n Hn. split; [now rewrite HL|]. apply (string_keys_ok DK K1 Hn).
      + assert (DV' : forall v, In v (map snd items) -> Dval v) by (intros v V; apply DV, in_or_app; right; now rewrite <- K2).
        clear - SO GN DV'. induction items as [|[k v] items IH]; cbn [map]; constructor.
        * cbn [fst snd]. split; [apply DV'; now left|]. split; [apply sub_child; [exact SO|apply GN; now left]|apply (sub_nonempty SO)].
        * apply IH; [intros; apply GN; now right|intros; apply DV'; now right].
      + rewrite E2. exists s2, "simple_dict"%string, (combine (map fst items) js). split; [reflexivity|]. split; [exact M2|]. split; [exact X2|]. split; [reflexivity|].
        exists js. cbn [add_links h_links]. rewrite HL. split; [reflexivity|]. rewrite map_map in V2. cbn [fst] in V2. exact V2.
    - assert (T1 : target (s_file s) (sub ++ "keys")%string g "keys" o) by (apply (sub_target OG); [split; [reflexivity|split; discriminate]|reflexivity]).
      destruct (view_spec SF MO BD (fun v V => DV v (in_or_app _ _ _ (or_introl V))) T1) as [s1 [ok [A1 [A2 [A3 [A4 A5]]]]]].
      rewrite A1. assert (GL : g < List.length (s_file s)) by (destruct OG as [_ [E _]]; now apply nth_error_lt in E).
      assert (T2 : target (s_file s1) (sub ++ "values")%string g "values" (add_links o [("keys"%string, List.length (s_file s))])).
      { destruct OG as [R [E [HD [_ SO]]]]. exists (components path). split; [apply sub_child; [exact SO|split; [reflexivity|split; discriminate]]|].
        split; [apply (resolve_mono (ext_fle A3) R)|]. split; [now apply (e_par A3)|]. split; [exact HD|]. split; [cbn; now rewrite HL|]. split; [reflexivity|apply (sub_nonempty SO)]. }
      assert (BD1 : bound <= List.length (s_memo s1)) by (assert (Q := e_mlen A3); lia).
      destruct (view_spec SF A2 BD1 (fun v V => DV v (in_or_app _ _ _ (or_intror V))) T2) as [s2 [ov [B1 [B2 [B3 [B4 B5]]]]]].
      rewrite B1. exists s2, "dict"%string, [("keys"%string, List.length (s_file s)); ("values"%string, List.length (s_file s1))]. split; [reflexivity|]. split; [exact B2|].
      split; [apply (ext_trans GL A3 B3)|]. split; [reflexivity|]. exists (List.length (s_file s)), (List.length (s_file s1)), ok, ov. assert (Q := e_len A3).
      split; [cbn; now rewrite HL|]. split; [lia|]. split; [lia|]. split; [apply (e_old B3); [lia|exact A4]|]. split; [exact B4|]. split.
      + apply (good_list_tr (le_n _) (ext_keeps B3 GL) (e_memo B3) A5).
      + now apply (@good_list_lo (List.length (s_file s1))).
  Qed.

  Definition body (f : sstate -> val -> string -> option sstate) (n : node) (s : sstate) (i : nat) (sub : string) : option sstate :=
    match n with
    | NIter k vs => list_body f (iter_repr k) vs s i sub
    | NDict kvs => match save_dict_content h f s kvs sub with Some (s, repr) => Some (set_attr_s s i "type" (AStr repr)) | None => None end
    | NInst m q kvs =>
        let s := set_attr_s (set_attr_s (set_attr_s s i "type" (AStr "instance")) i "class" (AStr q)) i "module" (AStr m) in
        match save_dict_content h f s kvs sub with Some (s, repr) => Some (set_attr_s s i "format" (AStr repr)) | None => None end
    | NRange x y z => save_all f (set_attr_s s i "type" (AStr "range")) [(x, (sub ++ "start")%string); (y, (sub ++ "stop")%string); (z, (sub ++ "step")%string)]
    | _ => None
    end.
  Lemma save_container fuel s a path n : is_container n -> nth_error h a = Some n -> vassoc (Vref a) (s_memo s) = None ->
    save known h (S fuel) s (Vref a) path = match create_group_for_obj s path (Some (Vref a)) with Some (s, i, sub) => body (save known h fuel) n s i sub | None => None end.
  Proof. intros IC E N. cbn [save]. rewrite N, E. destruct n; try destruct IC; reflexivity. Qed.

  Lemma set_attr_grow_dict s s' g a x : g < List.length (s_file s) -> grow s s' g -> grow s (set_attr_s s' g a x) g.
  Proof. apply grow_attr_r. Qed.
  Lemma dict_attr lo s g a x o o' r kvs : g < lo -> good_dict h lo (s_file s) (s_memo s) o r kvs -> h_links o = h_links o' -> good_dict h lo (s_file (set_attr_s s g a x)) (s_memo (set_attr_s s g a x)) o' r kvs.
  Proof.
    intros L G E. apply (good_links E). apply (good_dict_tr (lo := lo) (le_n _) (F := s_file s) (M := s_memo s)); [|apply mle_refl|exact G].
    intros i q Hi Q. cbn. rewrite set_attr_neq by lia. exact Q.
  Qed.

  Lemma body_spec f bound n s path sub g o : saves f bound -> is_container n -> node_ok known h n -> (forall b, In (Vref b) (children n) -> D b) ->
    memo_ok s -> bound <= List.length (s_memo s) -> open_group s path sub g o ->
    exists s' o', body f n s g sub = Some s' /\ memo_ok s' /\ grow s s' g /\ nth_error (s_file s') g = Some o' /\ good (List.length (s_file s)) (s_file s') (s_memo s') o' n.
  Proof.
    intros SF IC NO DV MO BD OG. assert (GL : g < List.length (s_file s)) by (destruct OG as [_ [E _]]; now apply nth_error_lt in E).
    assert (DV' : forall v, In v (children n) -> Dval v) by (intros [|b] V; [exact I|now apply DV]).
    destruct n; try destruct IC; cbn [body children node_ok] in *.
    - apply (list_body_spec _ SF MO BD DV' OG).
    - destruct (dict_spec SF MO BD DV' NO OG) as [s1 [r [nl [E1 [E2 [E3 E4]]]]]]. rewrite E1. exists (set_attr_s s1 g "type" (AStr r)), (with_attr (add_links o nl) "type" (AStr r)). split; [reflexivity|].
      split; [now apply memo_ok_attr|]. split; [apply (grow_attr_r _ _ GL), (ext_grow E3)|]. split; [apply set_attr_eq; apply (e_par E3); destruct OG as [_ [Q _]]; exact Q|].
      exists r. split; [reflexivity|]. now apply (dict_attr _ _ GL E4).
    - set (s0 := set_attr_s (set_attr_s (set_attr_s s g "type" (AStr "instance")) g "class" (AStr qualname)) g "module" (AStr modname)).
      assert (L0 : List.length (s_file s0) = List.length (s_file s)) by (unfold s0; cbn; now rewrite !set_attr_length).
      assert (OG0 := open_attr "module" (AStr modname) (open_attr "class" (AStr qualname) (open_attr "type" (AStr "instance") OG))). fold s0 in OG0. set (o0 := with_attr _ "module" _) in OG0.
      assert (MO0 : memo_ok s0) by (now repeat apply memo_ok_attr). destruct NO as [_ KO].
      destruct (dict_spec SF MO0 BD DV' KO OG0) as [s1 [r [nl [E1 [E2 [E3 E4]]]]]]. rewrite E1. rewrite L0 in E4.
      exists (set_attr_s s1 g "format" (AStr r)), (with_attr (add_links o0 nl) "format" (AStr r)). split; [reflexivity|].
      split; [now apply memo_ok_attr|]. split.
      { apply (grow_attr_r _ _ GL). apply (grow_attr_l (a := "type"%string) (x := AStr "instance") GL).
        apply (grow_attr_l (a := "class"%string) (x := AStr qualname)); [cbn; now rewrite set_attr_length|]. apply (grow_attr_l (a := "module"%string) (x := AStr modname)); [cbn; now rewrite !set_attr_length|].
        apply (ext_grow E3). }
      split; [apply set_attr_eq; apply (e_par E3); destruct OG0 as [_ [Q _]]; exact Q|].
      exists r. unfold attr_is. rewrite !with_attr_get. cbn [String.eqb Ascii.eqb Bool.eqb add_links h_attrs]. unfold o0. rewrite !with_attr_get.
      split; [reflexivity|]. split; [reflexivity|]. split; [reflexivity|]. split; [reflexivity|]. now apply (dict_attr _ _ GL E4).
    - set (s0 := set_attr_s s g "type" (AStr "range")).
      assert (L0 : List.length (s_file s0) = List.length (s_file s)) by (unfold s0; cbn; now rewrite !set_attr_length).
      assert (OG0 := open_attr "type" (AStr "range") OG). fold s0 in OG0. set (o0 := with_attr _ "type" _) in OG0. assert (MO0 : memo_ok s0) by (now repeat apply memo_ok_attr).
      destruct OG0 as [R [E [HD [HL SO]]]].
      destruct (save_all_spec SF (items := [(start, (sub ++ "start")%string); (stop, (sub ++ "stop")%string); (step, (sub ++ "step")%string)]) (names := ["start"; "stop"; "step"]%string) MO0 BD R E HD) as [s2 [js [E2 [M2 [X2 [L2 V2]]]]]].
      + repeat constructor; cbn; intuition discriminate.
      + intros k K. rewrite HL. split; [reflexivity|]. cbn in K. intuition (subst; reflexivity).
      + repeat constructor; cbn [fst snd]; try (apply DV'; cbn; tauto); try apply (sub_nonempty SO); apply sub_child; try exact SO; (split; [reflexivity|split; discriminate]).
      + exists s2, (add_links o0 (combine ["start"; "stop"; "step"]%string js)). split; [exact E2|]. split; [exact M2|].
        split; [apply (grow_attr_l (a := "type"%string) (x := AStr "range") GL), (ext_grow X2)|]. split; [now apply (e_par X2)|]. rewrite L0 in V2. cbn [map fst] in V2.
        inversion V2 as [|? i ? l1 V3 V4]; subst. inversion V4 as [|? j ? l2 V5 V6]; subst. inversion V6 as [|? k ? l3 V7 V8]; subst. inversion V8; subst.
        split; [reflexivity|]. exists i, j, k. cbn [add_links h_links combine]. rewrite HL. split; [reflexivity|]. now repeat split.
  Qed.

  (** leaves *)
  Lemma leaf_spec s F' p name v obj : memo_ok s -> vassoc v (s_memo s) = None -> Dval v -> p < List.length (s_file s) -> created (s_file s) F' p name obj ->
    match v with Vnone => obj = ds "None" (DStr "None") | Vref a => exists n, nth_error h a = Some n /\ forall lo F M, good lo F M obj n end ->
    exists s' j, memorize_save (SState F' (s_memo s)) (List.length (s_file s)) v = Some s' /\ memo_ok s' /\ ext s s' p [(name, j)] /\ val_at (List.length (s_file s)) (s_file s') (s_memo s') v j.
  Proof.
    intros MO N DV PL C OBJ. unfold memorize_save. cbn [s_memo s_file]. rewrite N. eexists. exists (List.length (s_file s)). split; [reflexivity|].
    split; [apply (memo_ok_add DOK MO N DV); rewrite (c_len C); lia|].
    destruct (@container_ext h s F' (SState F' (opt_memo (Some v) (List.length (s_file s)) (s_memo s))) p name (Some v) obj PL) as [X1 X2].
    - now intros v' [= <-].
    - exact C.
    - apply grow_refl.
    - intros v' [= <-]. exists obj. split; [apply (c_new C)|]. destruct v; [exact OBJ|]. destruct OBJ as [n [A B]]. exists n. split; [exact A|apply B].
    - split; [exact X1|]. left. now apply X2.
  Qed.
  Lemma put_spec s path p name o d attrs : target (s_file s) path p name o ->
    exists F', put_dataset s path d attrs = Some (SState F' (s_memo s), List.length (s_file s)) /\
      created (s_file s) F' p name (fold_left (fun q a => with_attr q (fst a) (snd a)) attrs (HObj [] [] (Some d))).
  Proof.
    intros T. assert (PL : p < List.length (s_file s)) by (destruct T as [pre [_ [_ [E _]]]]; now apply nth_error_lt in E).
    destruct (create_spec (Some d) T) as [F1 [C1 C2]]. unfold put_dataset. rewrite C1. revert F1 C1 C2. generalize (HObj [] [] (Some d)). intros obj F1 _. revert obj F1.
    induction attrs as [|[a x] attrs IH]; intros obj F1 C2; cbn [fold_left fst snd]; [now exists F1|].
    apply (IH (with_attr obj a x) (set_attr F1 (List.length (s_file s)) a x)). now apply created_attr.
  Qed.

  Theorem save_saves fuel : saves (save known h fuel) (List.length h + 2 - fuel).
  Proof.
    induction fuel as [|fuel IH]; intros s v path p name o MO DV BD T.
    - apply memo_length in MO. lia.
    - assert (PL : p < List.length (s_file s)) by (destruct T as [pre [_ [_ [E _]]]]; now apply nth_error_lt in E).
      destruct (vassoc v (s_memo s)) as [j|] eqn:EM.
      + destruct T as [pre [C [R [E [HD [A [N NE]]]]]]]. cbn [save]. rewrite EM, (h5_link_ok j C R E HD A N). exists (SState (fupd (s_file s) p (fun o => add_links o [(name, j)])) (s_memo s)), j.
        split; [reflexivity|]. split; [apply (memo_ok_file MO); now rewrite fupd_length|]. split; [|now left]. constructor; cbn [s_file s_memo].
        * now rewrite fupd_length.
        * intros q Q. exact (fupd_eq _ Q).
        * intros i q NI Q. now rewrite fupd_neq.
        * apply mle_refl.
        * auto.
        * intros w k Q1 Q2. congruence.
      + destruct v as [|a].
        * cbn [save]. rewrite EM. destruct (put_spec (DStr "None") [("type"%string, AStr "None")] T) as [F' [P1 P2]]. rewrite P1.
          apply (leaf_spec MO EM DV PL P2). reflexivity.
        * destruct (DOK DV) as [n [En [NO CH]]]. assert (CT : is_container n \/ ~ is_container n) by (destruct n; cbn; tauto). destruct CT as [CT|CT].
          -- destruct (@container_spec (body (save known h fuel) n) (Some (Vref a)) (fun lo F M o => good lo F M o n) (List.length h + 2 - fuel)) with (s := s) (path := path) (p := p) (name := name) (o := o)
               as [s3 [o' [E1 [E2 [E3 [E4 [E5 E6]]]]]]]; try assumption.
             ++ intros lo lo' F M q L. now apply good_lo.
             ++ intros v lo F M q i [= <-] G Q. exists q. split; [exact Q|]. exists n. now split.
             ++ intros s1 path1 sub g q M1 B1 OG. apply (body_spec IH CT NO CH M1 B1 OG).
             ++ intros v [= <-]. now split.
             ++ cbn [opt_memo List.length]. lia.
             ++ rewrite (save_container fuel path CT En EM). exists s3, (List.length (s_file s)). split; [exact E1|]. split; [exact E2|]. split; [exact E3|]. left. now apply E6.
          -- assert (LF : forall d x, n <> NOther -> (forall lo F M, good lo F M (with_attr (HObj [] [] (Some d)) "type" x) n) ->
               exists s' j, (match put_dataset s path d [("type"%string, x)] with Some (s, i) => memorize_save s i (Vref a) | None => None end) = Some s' /\ memo_ok s' /\ ext s s' p [(name, j)] /\
                 val_at (List.length (s_file s)) (s_file s') (s_memo s') (Vref a) j).
             { intros d x _ G. destruct (put_spec d [("type"%string, x)] T) as [F' [P1 P2]]. rewrite P1. apply (leaf_spec MO EM DV PL P2). exists n. split; [exact En|exact G]. }
             cbn [save]. rewrite EM, En. destruct n; cbn [is_container] in CT; try tauto; cbn [node_ok] in NO; try contradiction.
             ++ apply LF; [discriminate|reflexivity].
             ++ destruct (int_fits z) eqn:FZ; [apply LF; [discriminate|reflexivity]|].
                destruct (put_spec (DStr (str_int z)) [("type"%string, AStr "int_as_str")] T) as [F' [P1 P2]]. rewrite P1. exists (SState F' (s_memo s)), (List.length (s_file s)). split; [reflexivity|].
                split; [apply (memo_ok_file MO); rewrite (c_len P2); lia|].
                assert (NV : forall v, None = Some v -> vassoc v (s_memo s) = None) by discriminate.
                destruct (container_ext PL NV P2 (grow_refl h (SState F' (opt_memo None (List.length (s_file s)) (s_memo s))) (List.length (s_file s)))) as [X1 X2]; [discriminate|].
                split; [exact X1|]. right. exists a, z. split; [reflexivity|]. split; [exact En|]. split; [exact FZ|]. split; [lia|]. apply (c_new P2).
             ++ unfold put_string. rewrite NO. apply LF; [discriminate|reflexivity].
             ++ destruct NO as [NO1 [NO2 NO3]]. rewrite NO1. unfold put_string.
                assert (NU : has_char zero (qualname ++ " in " ++ modname) = false) by (rewrite !has_char_app, NO2, NO3; reflexivity). rewrite NU.
                destruct (put_spec (DStr (qualname ++ " in " ++ modname)) [("type"%string, AStr (gkind_repr k)); ("class"%string, AStr qualname); ("module"%string, AStr modname)] T) as [F' [P1 P2]]. rewrite P1.
                apply (leaf_spec MO EM DV PL P2). eexists. split; [exact En|]. intros lo F M. now repeat split.
  Qed.
End Save.
