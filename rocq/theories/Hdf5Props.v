(** C49: save_to_hdf5 and load_from_hdf5. *)
From Coq Require Import String Ascii List Arith Bool ZArith Lia Permutation.
From Verif Require Import Util Hdf5Model Hdf5Spec Hdf5Proofs Hdf5Proofs2 Hdf5Proofs3 Hdf5Proofs4 Hdf5Proofs5 Hdf5Proofs6 Hdf5Proofs7.
Import ListNotations.
Open Scope list_scope. Open Scope nat_scope.

Lemma val_lo0 h lo F M v j : val_at h lo F M v j -> val_at h 0 F M v j.
Proof. apply val_at_tr; [lia|now intros i q _ Q|apply mle_refl]. Qed.
Lemma entry_lo0 h lo F M w k : entry_good h lo F M w k -> entry_good h 0 F M w k.
Proof. intros [o [E G]]. exists o. split; [exact E|]. destruct w; [exact G|]. destruct G as [n [E' G]]. exists n. split; [exact E'|]. apply (good_lo (lo := lo)); [lia|exact G]. Qed.
Lemma save_root known h a n : storable known h a -> nth_error h a = Some n -> is_container n ->
  exists f M, save_to_hdf5 known h empty_file (Vref a) "/" = Some f /\ memo_ok h (Dof h (Vref a)) (SState f M) /\ val_at h 0 f M (Vref a) 0 /\ forall w k, vassoc w M = Some k -> entry_good h 0 f M w k.
Proof.
  intros ST En CT. assert (DOK := Dof_ok (known := known) (h := h) (v := Vref a) ST). unfold save_to_hdf5. replace (List.length h + 2) with (S (List.length h + 1)) by lia.
  rewrite (@save_container known h (List.length h + 1) (SState empty_file []) a "/" n CT En eq_refl). set (s1 := SState empty_file [(Vref a, 0)]).
  change (create_group_for_obj (SState empty_file []) "/" (Some (Vref a))) with (Some (s1, 0, "/"%string)). destruct (ST a (reach_refl h a)) as [n' [En' [NO _]]]. rewrite En in En'. injection En' as <-.
  assert (AL := nth_error_lt En).
  assert (M1 : memo_ok h (Dof h (Vref a)) s1).
  { unfold s1. split; [cbn; constructor; [intros []|constructor]|]. split; [cbn; constructor; [intros []|constructor]|]. split; intros w k [I|[]]; injection I as <- <-; [cbn; lia|]. split; [constructor|exact AL]. }
  destruct (body_spec (f := save known h (List.length h + 1)) (bound := List.length h + 2 - (List.length h + 1)) (n := n) (s := s1) (path := "/") (sub := "/") (g := 0) (o := HObj [] [] None) DOK) as [s' [o' [E1 [E2 [E3 [E4 E5]]]]]].
  - apply (save_saves DOK).
  - exact CT.
  - exact NO.
  - intros b B. apply (reach_step En B (reach_refl h b)).
  - exact M1.
  - cbn. lia.
  - split; [reflexivity|]. split; [reflexivity|]. split; [reflexivity|]. split; [reflexivity|]. exists ""%string. split; reflexivity.
  - rewrite E1. exists (s_file s'), (s_memo s'). split; [reflexivity|]. split; [destruct s'; exact E2|]. assert (V0 : vassoc (Vref a) (s_memo s') = Some 0) by (apply (g_memo E3); cbn; now rewrite Nat.eqb_refl).
    split; [now left|]. intros w k W. destruct (val_eq_dec w (Vref a)) as [->|NE].
    + rewrite V0 in W. injection W as <-. exists o'. split; [exact E4|]. exists n. split; [exact En|]. apply (@good_lo h (List.length (s_file s1))); [lia|exact E5].
    + destruct (g_new E3 W) as [_ EG]; [cbn; destruct (val_eqb_spec w (Vref a)); [contradiction|reflexivity]|].
      exact (entry_lo0 _ _ _ _ _ _ EG).
Qed.

(** Saving a list, tuple, set, dict, range or instance to an empty file, and loading it: the result is the same graph of objects: equal values, the same objects are shared, cycles are
    closed.  [order] is the order in which h5py lists the names in a group (any order).  Missing: the cases of the refutations below; saving scalars to the root is impossible. *)
Theorem C49_round_trip_partial : forall known order h a n, (forall l, Permutation l (order l)) -> storable known h a -> nth_error h a = Some n -> is_container n ->
  exists f h' w, save_to_hdf5 known h empty_file (Vref a) "/" = Some f /\ load_from_hdf5 order known f "/" = Some (h', w) /\ same_graph h (Vref a) h' w.
Proof.
  intros known order h a n ORD ST En CT. destruct (save_root known h a n ST En CT) as [f [M [E1 [E2 [E3 E4]]]]].
  assert (HG : h5_get f "/" = Some 0) by reflexivity. assert (NE : "/"%string <> ""%string) by discriminate.
  destruct (load_saved (order := order) (known := known) ORD (v := Vref a) ST HG NE E3 E2 E4) as [h' [w [L1 L2]]]. exists f, h', w. now repeat split.
Qed.
Print Assumptions C49_round_trip_partial.

(** Any value, saved to a file that may contain something already, under a name that is new in the root group: it can be loaded with this name, and nothing else in the file has changed
    (the objects keep their contents; in the root group there is one more name) *)
Theorem C49_round_trip_at_name_partial : forall known order h v f0 root name, (forall l, Permutation l (order l)) -> match v with Vnone => True | Vref a => storable known h a end ->
  nth_error f0 0 = Some root -> h_data root = None -> ~ In name (map fst (h_links root)) ->
  name <> ""%string -> name <> "."%string -> has_char slash name = false -> no_nul name ->
  exists f j h' w, save_to_hdf5 known h f0 v name = Some f /\ load_from_hdf5 order known f name = Some (h', w) /\ same_graph h v h' w /\
    nth_error f 0 = Some (HObj (h_attrs root) (h_links root ++ [(name, j)]) None) /\ (forall i o, i <> 0 -> nth_error f0 i = Some o -> nth_error f i = Some o).
Proof.
  intros known order h v f0 root name ORD SV E0 HD NI N1 N2 N3 N4. assert (DOK := Dof_ok (known := known) (h := h) (v := v) SV). assert (GN : good_name name) by now repeat split.
  assert (C : components name = [] ++ [name]) by now rewrite components_good.
  assert (T : target f0 name 0 name root) by (exists []; split; [exact C|]; split; [reflexivity|]; split; [exact E0|]; split; [exact HD|]; split; [now apply assoc_none|]; now split).
  assert (M0 : memo_ok h (Dof h v) (SState f0 [])) by (split; [constructor|]; split; [constructor|]; split; intros w k []).
  assert (DV : Dval (Dof h v) v) by (destruct v; [exact I|constructor]).
  destruct (save_saves DOK (fuel := List.length h + 2) M0 DV (path := name) (p := 0) (name := name) (o := root)) as [s' [j [E1 [E2 [E3 E4]]]]].
  - cbn. lia.
  - exact T.
  - unfold save_to_hdf5. rewrite E1. assert (PR := e_par E3 (o := root) E0).
    assert (HG : h5_get (s_file s') name = Some j).
    { unfold h5_get. rewrite C. cbn [app resolve]. rewrite PR. cbn [add_links h_links]. rewrite assoc_app. assert (Q : assoc name (h_links root) = None) by now apply assoc_none. rewrite Q. cbn. now rewrite String.eqb_refl. }
    assert (VA : val_at h 0 (s_file s') (s_memo s') v j) by (apply val_lo0 with (1 := E4)).
    assert (FH : forall w k, vassoc w (s_memo s') = Some k -> entry_good h 0 (s_file s') (s_memo s') w k).
    { intros w k W. destruct (e_new E3 W eq_refl) as [L EG]. exact (entry_lo0 _ _ _ _ _ _ EG). }
    destruct (load_saved (order := order) (known := known) (h := h) (v := v) ORD (M := s_memo s') (F := s_file s') SV HG N1 VA) as [h' [w [L1 L2]]]; [destruct s'; exact E2|exact FH|].
    exists (s_file s'), j, h', w. split; [reflexivity|]. split; [exact L1|]. split; [exact L2|]. split; [rewrite PR; unfold add_links; now rewrite HD|]. intros i o NZ Q. apply (e_old E3 NZ Q).
Qed.
Print Assumptions C49_round_trip_at_name_partial.

(** *** non-vacuity: [1, {'a': t, 'b/c': itself}, t, itself] with t = (1.5, None, 2**70), an instance whose attribute is the list, a dictionary with None as key *)
Definition kn (m q : string) : bool := true.
Definition idord (l : list string) := l.
Definition h_ex : heap :=
  [NIter IList [Vref 1; Vref 2; Vref 4; Vref 0; Vref 7; Vref 8]; NInt 1; NDict [(Vref 3, Vref 4); (Vref 9, Vref 2)]; NStr "a"; NIter ITuple [Vref 5; Vnone; Vref 6]; NData TFloat "1.5"; NInt (2 ^ 70);
   NInst "mod" "Cls" [(Vref 3, Vref 0)]; NDict [(Vnone, Vref 10)]; NStr "b/c"; NRange (Vref 1) (Vref 6) (Vref 1)].

Lemma storable_closed known h a : a < List.length h -> (forall i n, nth_error h i = Some n -> node_ok known h n /\ (forall b, In (Vref b) (children n) -> b < List.length h) /\
  (forall vs, n = NIter ITuple vs -> ~ on_cycle h i)) -> storable known h a.
Proof.
  intros L H b R. induction R as [a|a n b c E I _ IH].
  - destruct (nth_error h a) as [n|] eqn:E; [|apply nth_error_None in E; lia]. exists n. destruct (H a n E) as [A [_ C]]. now repeat split.
  - apply IH. now apply (H a n E).
Qed.
Lemma reach_leaf h a b n : nth_error h a = Some n -> (forall c, ~ In (Vref c) (children n)) -> reach h a b -> b = a.
Proof. intros E L R. destruct R as [|a m b c E' I _]; [reflexivity|]. rewrite E in E'. injection E' as <-. now apply L in I. Qed.
Lemma key_str h v s n : string_key h v s -> (match v with Vref a => nth_error h a | Vnone => None end) = Some n -> n = NStr s.
Proof. intros [a [-> E]] E'. rewrite E in E'. now injection E' as <-. Qed.
Ltac keys1 := let ks := fresh in let F := fresh in intros ks F; cbn in F;
  repeat match goal with G : Forall2 _ (_ :: _) _ |- _ => inversion G; clear G; subst end;
  repeat match goal with G : Forall2 _ [] _ |- _ => inversion G; clear G; subst end;
  repeat match goal with G : string_key _ Vnone _ |- _ => destruct G as [? [? ?]]; discriminate end;
  repeat match goal with G : string_key _ _ _ |- _ => apply (key_str _ _ _ _ G) in G || (eapply key_str in G; [|reflexivity]); injection G as <- end.
Example h_ex_storable : storable kn h_ex 0.
Proof.
  apply storable_closed; [cbn; lia|]. intros i n E.
  destruct i as [|[|[|[|[|[|[|[|[|[|[|i]]]]]]]]]]]; [injection E as <-..|destruct i; discriminate E].
  all: split; [|split; [intros b B; cbn in B |- *; intuition (try discriminate); repeat match goal with G : Vref _ = Vref _ |- _ => injection G as <- end; lia|try (intros vs Q; discriminate Q)]].
  all: try exact I; try reflexivity.
  - keys1. split; [repeat constructor; cbn; intuition discriminate|]. cbn. intuition discriminate.
  - intros vs _ [n [b [E [B R]]]]. injection E as <-. cbn in B. destruct B as [B|[B|[B|[]]]]; try discriminate; injection B as <-.
    + assert (Q := reach_leaf h_ex 5 4 _ eq_refl (fun c X => X) R). discriminate Q.
    + assert (Q := reach_leaf h_ex 6 4 _ eq_refl (fun c X => X) R). discriminate Q.
  - split; [reflexivity|]. keys1. split; [repeat constructor; cbn; intuition discriminate|]. cbn. intuition discriminate.
  - keys1.
  - split; [now exists 1, 1%Z|]. split; [now exists 6, (2 ^ 70)%Z|now exists 1, 1%Z].
Qed.
Example C49_h_ex_computed :
  match save_to_hdf5 kn h_ex empty_file (Vref 0) "/" with Some f => load_from_hdf5 idord kn f "/" | None => None end =
  Some ([NIter IList [Vref 1; Vref 2; Vref 10; Vref 0; Vref 11; Vref 14]; NInt 1; NDict [(Vref 4, Vref 10); (Vref 5, Vref 2)]; NIter IList [Vref 4; Vref 5]; NStr "a"; NStr "b/c";
         NIter IList [Vref 10; Vref 2]; NIter IList [Vref 8; Vnone; Vref 9]; NData TFloat "1.5"; NInt (2 ^ 70); NIter ITuple [Vref 8; Vnone; Vref 9];
         NInst "mod" "Cls" [(Vref 13, Vref 0)]; NDict [(Vref 13, Vref 0)]; NStr "a"; NDict [(Vnone, Vref 18)]; NIter IList [Vnone]; NIter IList [Vref 18]; NInt (2 ^ 70);
         NRange (Vref 1) (Vref 17) (Vref 1)], Vref 0).
Proof. vm_compute. reflexivity. Qed.
Lemma corr_ref R h h' a w : corr R h h' (Vref a) w -> (forall s, nth_error h a <> Some (NStr s)) -> (forall z, nth_error h a <> Some (NInt z)) -> exists b, w = Vref b /\ R a b.
Proof. intros X A B. destruct w as [|b]; [destruct X|]. destruct X as [X|[[s [X _]]|[z [X _]]]]; [now exists b|now apply A in X|now apply B in X]. Qed.
(** [same_graph] sees which objects are shared: [l, l] is not the same as [[], []], in both directions *)
Example same_graph_sees_sharing : ~ same_graph [NIter IList [Vref 1; Vref 1]; NIter IList []] (Vref 0) [NIter IList [Vref 1; Vref 2]; NIter IList []; NIter IList []] (Vref 0).
Proof.
  intros [R [F1 [F2 [N X]]]]. apply corr_ref in X; [|discriminate..]. destruct X as [b [E X]]. injection E as <-.
  destruct (N _ _ X) as [n [n' [E1 [E2 S]]]]. injection E1 as <-. injection E2 as <-. destruct S as [ws [E S]]. injection E as <-.
  inversion S as [|? ? ? ? S1 S2]; subst. inversion S2 as [|? ? ? ? S3 S4]; subst. apply corr_ref in S1; [|discriminate..]. apply corr_ref in S3; [|discriminate..].
  destruct S1 as [b [E S1]]. injection E as <-. destruct S3 as [b [E S3]]. injection E as <-. discriminate (F1 _ _ _ S1 S3).
Qed.
Example same_graph_sees_sharing2 : ~ same_graph [NIter IList [Vref 1; Vref 2]; NIter IList []; NIter IList []] (Vref 0) [NIter IList [Vref 1; Vref 1]; NIter IList []] (Vref 0).
Proof.
  intros [R [F1 [F2 [N X]]]]. apply corr_ref in X; [|discriminate..]. destruct X as [b [E X]]. injection E as <-.
  destruct (N _ _ X) as [n [n' [E1 [E2 S]]]]. injection E1 as <-. injection E2 as <-. destruct S as [ws [E S]]. injection E as <-.
  inversion S as [|? ? ? ? S1 S2]; subst. inversion S2 as [|? ? ? ? S3 S4]; subst. apply corr_ref in S1; [|discriminate..]. apply corr_ref in S3; [|discriminate..].
  destruct S1 as [b [E S1]]. injection E as <-. destruct S3 as [b [E S3]]. injection E as <-. discriminate (F2 _ _ _ S1 S3).
Qed.

(** *** what does not survive *)
(** A scalar cannot be saved to the default path: every value that is not a container is rejected with the path '/' *)
Theorem C49_scalar_at_root_rejected : forall known h f v, match v with Vnone => True | Vref a => exists n, nth_error h a = Some n /\ ~ is_container n /\ n <> NIgnored end ->
  save_to_hdf5 known h f v "/" = None.
Proof.
  intros known h f v H. unfold save_to_hdf5. replace (List.length h + 2) with (S (List.length h + 1)) by lia. cbn [save]. cbn [vassoc s_memo].
  assert (P : forall d a s, put_dataset s "/" d a = None) by (intros d a s; reflexivity).
  assert (P' : forall x a s, put_string s "/" x a = None) by (intros x a s; unfold put_string; destruct (has_char zero x); [reflexivity|apply P]).
  destruct v as [|a]; [now rewrite P|]. destruct H as [n [-> [NC NI]]]. destruct n; try (exfalso; now apply NC); rewrite ?P, ?P'; try reflexivity; try (destruct (int_fits z); reflexivity); try (destruct (known modname qualname); reflexivity).
  all: now contradiction NI.
Qed.
Print Assumptions C49_scalar_at_root_rejected.
(** A tuple that (indirectly) contains itself, t = ([t],), is loaded as a graph in which the inner list contains a list instead of the tuple: load_tuple memorizes a temporary list
    (hdf5_io.py 1076-1094; the comment there calls it a "recursive tuple") *)
Theorem C49_tuple_on_cycle_refuted : exists h f h' w, save_to_hdf5 kn h empty_file (Vref 0) "/" = Some f /\ load_from_hdf5 idord kn f "/" = Some (h', w) /\
  (forall i n, nth_error h i = Some n -> node_ok kn h n) /\ ~ same_graph h (Vref 0) h' w.
Proof.
  exists [NIter ITuple [Vref 1]; NIter IList [Vref 0]]. eexists. eexists. eexists. split; [vm_compute; reflexivity|]. split; [vm_compute; reflexivity|].
  split; [intros [|[|i]] n E; [injection E as <-; exact I..|destruct i; discriminate E]|].
  intros [R [F1 [F2 [N X]]]]. apply corr_ref in X; [|discriminate..]. destruct X as [b [E X]]. injection E as <-.
  destruct (N _ _ X) as [n [n' [E1 [E2 S]]]]. injection E1 as <-. injection E2 as <-. destruct S as [ws [E S]]. injection E as <-.
  inversion S as [|? ? ? ? S1 S2]; subst. apply corr_ref in S1; [|discriminate..]. destruct S1 as [b [E S1]]. injection E as <-.
  destruct (N _ _ S1) as [n [n' [E1 [E2 T]]]]. injection E1 as <-. injection E2 as <-. destruct T as [ws [E T]]. injection E as <-.
  inversion T as [|? ? ? ? T1 T2]; subst. apply corr_ref in T1; [|discriminate..]. destruct T1 as [b [E T1]]. injection E as <-. discriminate (F1 _ _ _ X T1).
Qed.
Print Assumptions C49_tuple_on_cycle_refuted.
(** The keys of a dictionary may be empty strings for the check of valid_hdf5_path_component (lines 298-305), but the path of such an entry is the path of the dictionary itself:
    saving fails *)
Theorem C49_empty_key_refuted : exists h, (forall i n, nth_error h i = Some n -> match n with NDict _ => True | _ => node_ok kn h n end) /\ nth_error h 0 = Some (NDict [(Vref 1, Vref 2)]) /\
  nth_error h 1 = Some (NStr "") /\ save_to_hdf5 kn h empty_file (Vref 0) "/" = None /\ save_to_hdf5 kn h empty_file (Vref 0) "name" = None.
Proof. exists [NDict [(Vref 1, Vref 2)]; NStr ""; NInt 3]. split; [intros [|[|[|i]]] n E; [injection E as <-; try exact I; reflexivity..|destruct i; discriminate E]|]. repeat split. Qed.
(** ... except when the dictionary is saved to '/' and the value is a container: {'': ['', '']} is saved without error, and loaded as {'0': '', '1': ''} *)
Theorem C49_empty_key_root_refuted : exists h f h' w, nth_error h 0 = Some (NDict [(Vref 1, Vref 2)]) /\ nth_error h 1 = Some (NStr "") /\ save_to_hdf5 kn h empty_file (Vref 0) "/" = Some f /\
  load_from_hdf5 idord kn f "/" = Some (h', w) /\ ~ same_graph h (Vref 0) h' w.
Proof.
  exists [NDict [(Vref 1, Vref 2)]; NStr ""; NIter IList [Vref 1; Vref 1]]. eexists. eexists. eexists. split; [reflexivity|]. split; [reflexivity|]. split; [vm_compute; reflexivity|]. split; [vm_compute; reflexivity|].
  intros [R [F1 [F2 [N X]]]]. apply corr_ref in X; [|discriminate..]. destruct X as [b [E X]]. injection E as <-.
  destruct (N _ _ X) as [n [n' [E1 [E2 S]]]]. injection E1 as <-. injection E2 as <-. destruct S as [kvs [E [l2 [P S]]]]. injection E as <-.
  apply Permutation_length in P. inversion S as [|? ? ? ? _ S2]; subst. inversion S2; subst. discriminate P.
Qed.
Print Assumptions C49_empty_key_root_refuted.
(** The order of the entries of a dictionary is lost: h5py lists the names of a group alphabetically, and {'b': 1, 'a': 2} is loaded as {'a': 2, 'b': 1} *)
Definition alphabetical (l : list string) : list string := fold_right (fix ins x l := match l with [] => [x] | y :: l' => if String.leb x y then x :: l else y :: ins x l' end) [] l.
Definition keys_of (h : heap) (v : val) : list (option node) := match v with Vref a => match nth_error h a with Some (NDict kvs) => map (fun kv => match fst kv with Vref k => nth_error h k | Vnone => None end) kvs | _ => [] end | Vnone => [] end.
Theorem C49_dict_order_refuted : exists h f h' w, storable kn h 0 /\ save_to_hdf5 kn h empty_file (Vref 0) "/" = Some f /\ load_from_hdf5 alphabetical kn f "/" = Some (h', w) /\
  keys_of h (Vref 0) = [Some (NStr "b"); Some (NStr "a")] /\ keys_of h' w = [Some (NStr "a"); Some (NStr "b")].
Proof.
  exists [NDict [(Vref 1, Vref 2); (Vref 3, Vref 4)]; NStr "b"; NInt 1; NStr "a"; NInt 2]. eexists. eexists. eexists. split; [|split; [vm_compute; reflexivity|split; [vm_compute; reflexivity|split; reflexivity]]].
  apply storable_closed; [cbn; lia|]. intros i n E.
  destruct i as [|[|[|[|[|i]]]]]; [injection E as <-..|destruct i; discriminate E].
  all: split; [|split; [intros b B; cbn in B |- *; intuition (try discriminate); repeat match goal with G : Vref _ = Vref _ |- _ => injection G as <- end; lia|try (intros vs Q; discriminate Q)]].
  all: try exact I; try reflexivity.
  keys1. split; [repeat constructor; cbn; intuition discriminate|]. cbn. intuition discriminate.
Qed.
Print Assumptions C49_dict_order_refuted.
(** np.bool_ is loaded as bool: two entries of TYPES_FOR_HDF5_DATASETS have the same type_repr *)
Theorem C49_np_bool_refuted : forall known x, exists f, save_to_hdf5 known [NData TNpBool x] empty_file (Vref 0) "name" = Some f /\ load_from_hdf5 idord known f "name" = Some ([NData TBool x], Vref 0).
Proof. intros known x. eexists. split; reflexivity. Qed.
Print Assumptions C49_np_bool_refuted.
(** An object of type Hdf5Ignored inside a list is left out when saving, and the list can't be loaded *)
Theorem C49_ignored_in_list_refuted : forall known order, exists f,
  save_to_hdf5 known [NIter IList [Vref 1; Vref 2]; NInt 1; NIgnored] empty_file (Vref 0) "/" = Some f /\ load_from_hdf5 order known f "/" = None.
Proof. intros known order. eexists. split; vm_compute; reflexivity. Qed.
Print Assumptions C49_ignored_in_list_refuted.

(** *** masked arrays *)
Section Masked.
  Variables (T : Type) (eqb : T -> T -> bool).
  Hypothesis EQ : forall x y, eqb x y = true <-> x = y.
  (** a masked array is loaded with the same mask, the same fill value, and the same elements where they are not masked, unless it is not empty, nothing is masked and all elements
      equal the fill value *)
  Theorem C49_masked_array_partial : forall m : marray T, (m_elems m = [] \/ exists x b, In (x, b) (m_elems m) /\ (b = true \/ x <> m_fill m)) ->
    let m' := load_masked_array eqb (save_masked_array eqb m) in
    m_fill m' = m_fill m /\ map snd (m_elems m') = map snd (m_elems m) /\ Forall2 (fun p q : T * bool => snd p = false -> fst q = fst p) (m_elems m) (m_elems m').
  Proof.
    intros m H. unfold save_masked_array. destruct (existsb _ _) eqn:X; cbn zeta; cbn [load_masked_array m_fill m_elems].
    - split; [reflexivity|]. assert (Q : combine (map fst (m_elems m)) (map snd (m_elems m)) = m_elems m) by (clear; induction (m_elems m) as [|[x b] l IH]; [reflexivity|cbn; now rewrite IH]).
      rewrite Q. split; [reflexivity|]. clear. induction (m_elems m); constructor; [reflexivity|assumption].
    - split; [reflexivity|]. assert (A : forall x b, In (x, b) (m_elems m) -> eqb (if b then m_fill m else x) (m_fill m) = negb b).
      { intros x b I. destruct (Bool.eqb (eqb (if b then m_fill m else x) (m_fill m)) b) eqn:Y.
        - exfalso. assert (Z : existsb (fun p : T * bool => Bool.eqb (eqb (fst p) (m_fill m)) (snd p)) (combine (filled m) (map snd (m_elems m))) = true); [|congruence].
          apply existsb_exists. exists (if b then m_fill m else x, b). split; [|exact Y]. unfold filled. revert I. clear. induction (m_elems m) as [|[y c] l IH]; [intros []|].
          intros [I|I]; [injection I as -> ->; now left|right; now apply IH].
        - destruct (eqb _ _), b; try reflexivity; discriminate Y. }
      assert (TT : forall x b, In (x, b) (m_elems m) -> b = true -> False).
      { intros x b I ->. specialize (A _ _ I). cbn in A. assert (E : eqb (m_fill m) (m_fill m) = true) by now apply EQ. congruence. }
      destruct H as [H|[x [b [I [H|H]]]]]; [unfold filled; rewrite H; split; [reflexivity|constructor]|exfalso; now apply (TT _ _ I)|].
      exfalso. destruct b; [now apply (TT _ _ I)|]. specialize (A _ _ I). cbn in A. apply EQ in A. now apply H.
  Qed.
  (** ... in which case everything is masked: the test in save_masked_array (line 676) is inverted *)
  Theorem C49_masked_array_refuted : forall m : marray T, m_elems m <> [] -> (forall x b, In (x, b) (m_elems m) -> b = false /\ x = m_fill m) ->
    forall x b, In (x, b) (m_elems (load_masked_array eqb (save_masked_array eqb m))) -> b = true.
  Proof.
    intros m NE H x b. unfold save_masked_array. destruct (existsb _ _) eqn:X.
    - exfalso. apply existsb_exists in X. destruct X as [[y c] [I Y]]. cbn in Y. assert (Q : y = m_fill m /\ c = false).
      { unfold filled in I. clear Y NE. assert (I' : exists z, In (z, c) (m_elems m) /\ y = if c then m_fill m else z).
        { revert I. clear. generalize (m_fill m). intros f. induction (m_elems m) as [|[z d] l IH]; [intros []|]. intros [I|I]; [injection I as <- <-; exists z; split; [now left|reflexivity]|].
          destruct (IH I) as [z' [I' E]]. exists z'. split; [now right|exact E]. }
        destruct I' as [z [I' ->]]. destruct (H _ _ I') as [-> ->]. now split. }
      destruct Q as [-> ->]. assert (E : eqb (m_fill m) (m_fill m) = true) by now apply EQ. rewrite E in Y. discriminate Y.
    - cbn. intros I. unfold filled in I. rewrite map_map in I. apply in_map_iff in I. destruct I as [[y c] [E I]]. injection E as _ <-. destruct (H _ _ I) as [-> ->]. now apply EQ.
  Qed.
End Masked.
Print Assumptions C49_masked_array_partial.
Print Assumptions C49_masked_array_refuted.
Example masked_ex : load_masked_array Z.eqb (save_masked_array Z.eqb (MArray [(1, false); (7, true); (9, false)]%Z 9%Z)) = MArray [(1, false); (7, true); (9, false)]%Z 9%Z.
Proof. reflexivity. Qed.

(** *** the fallback to __reduce__: save_reduce writes [state] where 'listitems', 'dictitems' and 'state_setter' are expected (lines 622-627): the elements of a subclass of list are
    lost, for every such object *)
Theorem C49_reduce_listitems_refuted : forall (elements : val -> option (list val)) r, r_state r = Vnone -> r_listitems r <> Vnone -> elements Vnone = None -> appended elements (save_reduce r) = None.
Proof.
  intros elements r E NL EL. unfold appended, save_reduce. rewrite E. cbn [is_none app]. destruct (r_listitems r) as [|a] eqn:L; [contradiction|]. cbn. exact EL.
Qed.
Print Assumptions C49_reduce_listitems_refuted.
Theorem C49_reduce_state_refuted : forall (elements : val -> option (list val)) r a b, r_state r = Vref a -> r_listitems r = Vref b -> appended elements (save_reduce r) = elements (Vref a).
Proof. intros elements r a b E L. unfold appended, save_reduce. now rewrite E, L. Qed.
Print Assumptions C49_reduce_state_refuted.
