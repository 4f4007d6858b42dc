(** Round trip: the objects loaded from the file that was saved. *)
From Coq Require Import String Ascii List Arith Bool ZArith Lia Permutation.
From Verif Require Import Util Hdf5Model Hdf5Spec Hdf5Proofs Hdf5Proofs2 Hdf5Proofs3 Hdf5Proofs4 Hdf5Proofs5 Hdf5Proofs6.
Import ListNotations.
Set Implicit Arguments. Unset Strict Implicit.
Open Scope list_scope. Open Scope nat_scope.

Lemma perm_F2 A B (P : A -> B -> Prop) l1 l1' l2 : Permutation l1 l1' -> Forall2 P l1 l2 -> exists l2', Permutation l2 l2' /\ Forall2 P l1' l2'.
Proof.
  intros H. revert l2. induction H as [|x l l' H IH|x y l|l l' l'' H1 IH1 H2 IH2]; intros l2 F2.
  - exists l2. split; [reflexivity|exact F2].
  - inversion F2 as [|? b ? k Hb F]; subst. destruct (IH k F) as [k' [A1 A2]]. exists (b :: k'). split; [now constructor|now constructor].
  - inversion F2 as [|? b ? k Hb F]; subst. inversion F as [|? c ? k2 Hc F']; subst. exists (c :: b :: k2). split; [apply perm_swap|]. now repeat constructor.
  - destruct (IH1 _ F2) as [k [A1 A2]]. destruct (IH2 _ A2) as [k' [B1 B2]]. exists k'. split; [now transitivity k|exact B2].
Qed.
Lemma Forall2_In_r A B (P : A -> B -> Prop) l l' y : Forall2 P l l' -> In y l' -> exists x, In x l /\ P x y.
Proof. intros F. induction F as [|a b l l' Hab F IH]; intros I; [destruct I|]. destruct I as [<-|I]; [exists a; split; [now left|exact Hab]|]. destruct (IH I) as [x [X1 X2]]. exists x. split; [now right|exact X2]. Qed.
Lemma F2_len A B (P : A -> B -> Prop) l l' : Forall2 P l l' -> List.length l = List.length l'. Proof. intros F. induction F; cbn; lia. Qed.

(** ** the type attribute determines the kind *)
Definition class (r : string) : nat :=
  if String.eqb r "None" then 0 else if String.eqb r "list" || String.eqb r "set" || String.eqb r "tuple" then 2
  else if String.eqb r "dict" || String.eqb r "simple_dict" then 3 else if String.eqb r "instance" then 4 else if String.eqb r "range" then 5 else 1.
Definition cls (K : kind) : nat := match K with KNone => 0 | KLeaf _ => 1 | KIter _ _ => 2 | KDict _ => 3 | KInst _ _ _ => 4 | KRange _ _ _ => 5 end.
Lemma kind_class known o K : obj_kind known o K -> exists r, is_type o r /\ class r = cls K.
Proof.
  destruct K; cbn [obj_kind cls].
  - intros T. exists "None"%string. now split.
  - intros [T _]. destruct n; try contradiction; cbn [leaf_kind] in T.
    + destruct T as [t' [T _]]. exists (tag_repr t'). split; [exact T|]. now destruct t'.
    + destruct T as [[T _]|[x [T _]]]; eexists; (split; [exact T|reflexivity]).
    + destruct T as [T _]. eexists. split; [exact T|reflexivity].
    + destruct T as [T _]. eexists. split; [exact T|]. now destruct k.
  - intros [T _]. eexists. split; [exact T|]. now destruct k.
  - intros [r [T DK]]. exists r. split; [exact T|]. destruct d; destruct DK as [-> _]; reflexivity.
  - intros [r [T _]]. eexists. split; [exact T|reflexivity].
  - intros [T _]. eexists. split; [exact T|reflexivity].
Qed.
Lemma combine_inj A B (l l' : list A) (k k' : list B) : List.length k = List.length l -> List.length k' = List.length l' -> combine l k = combine l' k' -> l = l' /\ k = k'.
Proof.
  revert l' k k'. induction l as [|x l IH]; intros [|x' l'] [|y k] [|y' k'] L L' E; cbn in *; try discriminate; [now split|].
  injection E as -> -> E. destruct (IH l' k k') as [-> ->]; auto; lia.
Qed.
Lemma dict_kind_unique o r r' d d' : dict_kind o r d -> dict_kind o r' d' -> r = r' -> d = d'.
Proof.
  intros A B ->. destruct d, d'; cbn in *.
  - destruct A as [_ A], B as [_ B]. rewrite A in B. now injection B as -> ->.
  - destruct A as [A _], B as [B _]. congruence.
  - destruct A as [A _], B as [B _]. congruence.
  - destruct A as [_ [A [LA _]]], B as [_ [B [LB _]]]. rewrite A in B. destruct (combine_inj LA LB B) as [-> ->]. reflexivity.
Qed.
Lemma kind_unique known o K K' : obj_kind known o K -> obj_kind known o K' -> K = K'.
Proof.
  intros A B. destruct (kind_class A) as [r [T1 C1]], (kind_class B) as [r' [T2 C2]]. unfold is_type in *. assert (r' = r) by congruence. subst r'. clear T2.
  destruct K, K'; cbn [cls] in *; try congruence; cbn [obj_kind] in A, B; unfold is_type in *.
  - f_equal. destruct A as [A _], B as [B _]. clear C1 C2. destruct n, n0; try contradiction; cbn [leaf_kind] in A, B; unfold is_type in *.
    + destruct A as [t1 [A1 [A2 A3]]], B as [t2 [B1 [B2 B3]]]. congruence.
    + destruct A as [t1 [A1 [A2 A3]]], B as [[B1 B2]|[y [B1 B2]]]; destruct t1; cbn in A1; congruence.
    + destruct A as [t1 [A1 [A2 A3]]], B as [B1 B2]; destruct t1; cbn in A1; congruence.
    + destruct A as [t1 [A1 [A2 A3]]], B as [B1 B2]; destruct t1, k; cbn in A1, B1; congruence.
    + destruct B as [t1 [A1 [A2 A3]]], A as [[B1 B2]|[y [B1 B2]]]; destruct t1; cbn in A1; congruence.
    + destruct A as [[A1 A2]|[x [A1 [A2 A3]]]], B as [[B1 B2]|[y [B1 [B2 B3]]]]; congruence.
    + destruct A as [[A1 A2]|[x [A1 [A2 A3]]]], B as [B1 B2]; congruence.
    + destruct A as [[A1 A2]|[x [A1 [A2 A3]]]], B as [B1 B2]; destruct k; cbn in B1; congruence.
    + destruct B as [t1 [A1 [A2 A3]]], A as [B1 B2]; destruct t1; cbn in A1; congruence.
    + destruct B as [[A1 A2]|[x0 [A1 [A2 A3]]]], A as [B1 B2]; congruence.
    + destruct A as [A1 A2], B as [B1 B2]; congruence.
    + destruct A as [A1 A2], B as [B1 B2]; destruct k; cbn in B1; congruence.
    + destruct B as [t1 [A1 [A2 A3]]], A as [B1 B2]; destruct t1, k; cbn in A1, B1; congruence.
    + destruct B as [[A1 A2]|[x0 [A1 [A2 A3]]]], A as [B1 B2]; destruct k; cbn in B1; congruence.
    + destruct A as [A1 A2], B as [B1 B2]; destruct k; cbn in A1; congruence.
    + destruct A as [A1 [A2 [A3 A4]]], B as [B1 [B2 [B3 B4]]]. assert (k = k0) by (destruct k, k0; cbn in *; congruence). congruence.
  - destruct A as [A1 [A2 A3]], B as [B1 [B2 B3]]. rewrite A2 in B2. injection B2 as L. rewrite A3 in B3. apply combine_inj in B3; try (now rewrite map_length, seq_length). destruct B3 as [_ ->].
    f_equal. destruct k, k0; cbn in *; congruence.
  - destruct A as [ra [A1 A2]], B as [rb [B1 B2]]. f_equal. apply (dict_kind_unique A2 B2). congruence.
  - destruct A as [ra [A0 [A1 [A2 [A3 [A4 A5]]]]]], B as [rb [B0 [B1 [B2 [B3 [B4 B5]]]]]]. assert (d = d0) by (apply (dict_kind_unique A5 B5); congruence). congruence.
  - destruct A as [_ A], B as [_ B]. congruence.
Qed.

Section RoundTrip.
  Variables (order : list string -> list string) (known : string -> string -> bool) (h : heap) (F : file) (M : list (val * nat)) (D : nat -> Prop).
  Hypothesis ORD : forall l, Permutation l (order l).
  Hypothesis DOK : forall a, D a -> exists n, nth_error h a = Some n /\ node_ok known h n /\ forall b, In (Vref b) (children n) -> D b.
  Hypothesis TUP : forall a vs, D a -> nth_error h a = Some (NIter ITuple vs) -> ~ on_cycle h a.
  Hypothesis FH : forall w k, vassoc w M = Some k -> entry_good h 0 F M w k.
  Hypothesis INJ : forall w w' k, vassoc w M = Some k -> vassoc w' M = Some k -> w = w'.
  Hypothesis MD : forall a k, vassoc (Vref a) M = Some k -> D a.
  Notation val_at := (val_at h 0 F M). Notation okind := (okind known F). Notation edge := (edge F). Notation below := (below F). Notation freach := (freach F).
  Notation got l := (Hdf5Proofs5.got l).

  Lemma okind_unique j K K' : okind j K -> okind j K' -> K = K'.
  Proof. intros [o [E A]] [o' [E' B]]. rewrite E in E'. injection E' as <-. apply (kind_unique A B). Qed.

  (** ** from the saved file to kinds *)
  Definition ndict (kvs : list (val * val)) (d : dkind) : Prop :=
    match d with
    | DGen ik iv => exists kjs vjs, okind ik (KIter IList kjs) /\ okind iv (KIter IList vjs) /\ Forall2 val_at (map fst kvs) kjs /\ Forall2 val_at (map snd kvs) vjs
    | DSimple names js => Forall2 (string_key h) (map fst kvs) names /\ Forall2 val_at (map snd kvs) js
    end.
  Definition nkind (n : node) (K : kind) : Prop :=
    match n with
    | NData t x => K = KLeaf (NData (loaded_type t) x)
    | NInt _ | NStr _ | NGlobal _ _ _ => K = KLeaf n
    | NIter k vs => exists js, K = KIter k js /\ Forall2 val_at vs js
    | NDict kvs => exists d, K = KDict d /\ ndict kvs d
    | NInst m q kvs => exists d, K = KInst m q d /\ ndict kvs d
    | NRange x y z => exists i j k, K = KRange i j k /\ val_at x i /\ val_at y j /\ val_at z k
    | NIgnored | NOther => False
    end.
  Lemma list_kind j o r k vs : nth_error F j = Some o -> good_list h 0 F M o r vs -> r = iter_repr k -> exists js, okind j (KIter k js) /\ Forall2 val_at vs js.
  Proof.
    intros E [A [B [js [C G]]]] ->. assert (L := F2_len G). exists js. split; [|exact G]. exists o. split; [exact E|]. cbn. rewrite <- L. split; [exact A|]. split; [exact B|exact C].
  Qed.
  Lemma dict_to_kind o r kvs : keys_ok h kvs -> good_dict h 0 F M o r kvs -> exists d, dict_kind o r d /\ ndict kvs d.
  Proof.
    intros KO. unfold good_dict. destruct (simple_keys h kvs) as [items|] eqn:SK.
    - intros [-> [js [L G]]]. destruct (simple_keys_spec SK) as [K1 [K2 K3]]. destruct (KO _ K1) as [N1 N2]. exists (DSimple (map fst items) js). split.
      + split; [reflexivity|]. split; [exact L|]. split; [apply F2_len in G; rewrite map_length in *; lia|]. split; [exact N1|]. intros k K. destruct (K3 k K) as [A B]. split; [exact A|]. split; [|exact B].
        intros ->. destruct (N2 K) as [k' [I [J|J]]]; destruct (K3 _ I) as [X Y]; congruence.
      + split; [exact K1|]. rewrite <- K2. exact G.
    - intros [-> [ik [iv [ok [ov [L [_ [_ [E1 [E2 [G1 G2]]]]]]]]]]]. exists (DGen ik iv). split; [now split|].
      destruct (@list_kind _ _ _ IList _ E1 G1 eq_refl) as [kjs [A1 A2]], (@list_kind _ _ _ IList _ E2 G2 eq_refl) as [vjs [B1 B2]]. exists kjs, vjs. now repeat split.
  Qed.
  Lemma entry_kind a j : vassoc (Vref a) M = Some j -> exists n K, nth_error h a = Some n /\ okind j K /\ nkind n K.
  Proof.
    intros V. destruct (FH V) as [o [E [n [En G]]]]. destruct (DOK (MD V)) as [n' [En' [NO CH]]]. rewrite En in En'. injection En' as <-. exists n.
    destruct n; cbn [good node_ok nkind] in *; try contradiction.
    - exists (KLeaf (NData (loaded_type t) x)). split; [exact En|]. split; [|reflexivity]. exists o. split; [exact E|]. subst o. split; [|reflexivity]. exists t. split; [reflexivity|]. split; [|reflexivity]. now destruct t.
    - eexists. split; [exact En|]. split; [|reflexivity]. exists o. split; [exact E|]. subst o. split; [|reflexivity]. left. now split.
    - eexists. split; [exact En|]. split; [|reflexivity]. exists o. split; [exact E|]. subst o. split; [|reflexivity]. now split.
    - destruct (list_kind (k := k) E G eq_refl) as [js [A B]]. exists (KIter k js). split; [exact En|]. split; [exact A|]. now exists js.
    - destruct G as [r [A B]]. destruct (dict_to_kind NO B) as [d [D1 D2]]. exists (KDict d). split; [exact En|]. split; [|now exists d]. exists o. split; [exact E|]. now exists r.
    - destruct G as [r [A [B [C [C' G]]]]]. destruct NO as [KN KO]. destruct (dict_to_kind KO G) as [d [D1 D2]]. exists (KInst modname qualname d). split; [exact En|]. split; [|now exists d].
      exists o. split; [exact E|]. exists r. now repeat (split; [assumption|]).
    - destruct G as [A [i [j' [k [L [V1 [V2 V3]]]]]]]. exists (KRange i j' k). split; [exact En|]. split; [|exists i, j', k; now repeat split]. exists o. split; [exact E|]. now split.
    - eexists. split; [exact En|]. split; [|reflexivity]. destruct G as [A [B [C L]]]. destruct NO as [KN _]. exists o. split; [exact E|]. split; [|exact L]. now repeat split.
  Qed.

  (** ** objects of the file that come from values in [S] *)
  Section Closed.
    Variable S : val -> Prop.
    Hypothesis CS : forall c n w, S (Vref c) -> nth_error h c = Some n -> In w (children n) -> S w.
    Definition FWS (j : nat) : Prop := (exists v, val_at v j /\ S v) \/ (exists vs js, okind j (KIter IList js) /\ Forall2 val_at vs js /\ forall v, In v vs -> S v).
    Lemma iter_FWS j k js vs c : okind j (KIter k js) -> Forall2 val_at vs js -> (forall v, In v vs -> S v) -> edge j c -> FWS c.
    Proof.
      intros [o [E [_ [_ L]]]] F2 HS [o' [nm [E' I]]]. rewrite E in E'. injection E' as <-. rewrite L in I. apply in_combine_r in I. destruct (Forall2_In_r F2 I) as [v [V1 V2]]. left. exists v. split; [exact V2|now apply HS].
    Qed.
    Lemma ndict_FWS j o r kvs d c : nth_error F j = Some o -> dict_kind o r d -> ndict kvs d -> (forall v, In v (map fst kvs ++ map snd kvs) -> S v) -> edge j c -> FWS c.
    Proof.
      intros E DK ND HS [o' [nm [E' I]]]. rewrite E in E'. injection E' as <-. destruct d as [ik iv|names js].
      - destruct DK as [_ L]. rewrite L in I. destruct ND as [kjs [vjs [A1 [A2 [A3 A4]]]]]. right. destruct I as [I|[I|[]]]; injection I as _ <-.
        + exists (map fst kvs), kjs. split; [exact A1|]. split; [exact A3|]. intros v V. apply HS, in_or_app. now left.
        + exists (map snd kvs), vjs. split; [exact A2|]. split; [exact A4|]. intros v V. apply HS, in_or_app. now right.
      - destruct DK as [_ [L _]]. rewrite L in I. apply in_combine_r in I. destruct ND as [_ F2]. destruct (Forall2_In_r F2 I) as [v [V1 V2]]. left. exists v. split; [exact V2|]. apply HS, in_or_app. now right.
    Qed.
    Lemma FWS_edge j c : FWS j -> edge j c -> FWS c.
    Proof.
      intros [[v [[V|[a [z [_ [_ [_ [_ E]]]]]]] HS]]|[vs [js [OK [F2 HS]]]]] ED.
      - destruct v as [|a].
        + destruct (FH V) as [o [E Q]]. subst o. destruct ED as [o [nm [E' I]]]. rewrite E in E'. injection E' as <-. destruct I.
        + destruct (entry_kind V) as [n [K [En [OK NK]]]]. assert (CH : forall w, In w (children n) -> S w) by (intros w W; apply (CS HS En W)).
          assert (LF : forall m, K = KLeaf m -> FWS c).
          { intros m ->. destruct OK as [o [E [_ L]]], ED as [o' [nm [E' I]]]. rewrite E in E'. injection E' as <-. rewrite L in I. destruct I. }
          destruct n; cbn [nkind children] in *; try contradiction; try exact (LF _ NK).
          * destruct NK as [js [-> F2]]. apply (iter_FWS OK F2 CH ED).
          * destruct NK as [d [-> ND]]. destruct OK as [o [E [r [_ DK]]]]. apply (ndict_FWS E DK ND CH ED).
          * destruct NK as [d [-> ND]]. destruct OK as [o [E [r [_ [_ [_ [_ [_ DK]]]]]]]]. apply (ndict_FWS E DK ND CH ED).
          * destruct NK as [i [j' [k [-> [V1 [V2 V3]]]]]]. destruct OK as [o [E [_ L]]], ED as [o' [nm [E' I]]]. rewrite E in E'. injection E' as <-. rewrite L in I. left.
            destruct I as [I|[I|[I|[]]]]; injection I as _ <-; [exists start|exists stop|exists step]; (split; [assumption|apply CH; cbn; tauto]).
      - destruct ED as [o [nm [E' I]]]. rewrite E in E'. injection E' as <-. destruct I.
      - apply (iter_FWS OK F2 HS ED).
    Qed.
    Lemma FWS_reach j c : FWS j -> freach j c -> FWS c.
    Proof. intros H R. induction R; [exact H|]. apply IHR. now apply (FWS_edge H). Qed.
  End Closed.

  Definition FW : nat -> Prop := FWS (Dval D).
  Lemma Dval_closed c n w : Dval D (Vref c) -> nth_error h c = Some n -> In w (children n) -> Dval D w.
  Proof. intros HD E I. destruct (DOK HD) as [n' [E' [_ C]]]. rewrite E in E'. injection E' as <-. destruct w; [exact Logic.I|now apply C]. Qed.
  Definition strictly (a : nat) (v : val) : Prop := match v with Vnone => True | Vref c => exists n b, nth_error h a = Some n /\ In (Vref b) (children n) /\ reach h b c end.
  Lemma reach_snoc a b n w : reach h a b -> nth_error h b = Some n -> In (Vref w) (children n) -> reach h a w.
  Proof. intros R. induction R as [a|a m b c E I R IH]; intros En In'; [apply (reach_step En In'); constructor|]. apply (reach_step E I). now apply IH. Qed.
  Lemma strictly_closed a c n w : strictly a (Vref c) -> nth_error h c = Some n -> In w (children n) -> strictly a w.
  Proof. intros [m [b [E [I R]]]] En Iw. destruct w as [|w]; [exact Logic.I|]. exists m, b. split; [exact E|]. split; [exact I|]. apply (reach_snoc R En Iw). Qed.
  Lemma big_int_kind j z : nth_error F j = Some (ds "int_as_str" (DStr (str_int z))) -> okind j (KLeaf (NInt z)).
  Proof. intros E. eexists. split; [exact E|]. split; [|reflexivity]. right. exists (str_int z). split; [reflexivity|]. split; [reflexivity|apply int_str]. Qed.
  Lemma tuple_wf a j js : vassoc (Vref a) M = Some j -> okind j (KIter ITuple js) -> ~ below j j.
  Proof.
    intros V OK [c [E R]]. destruct (entry_kind V) as [n [K [En [OK' NK]]]]. rewrite (okind_unique OK' OK) in NK. destruct n; cbn [nkind] in NK; try discriminate; try contradiction.
    2: { destruct NK as [d [Q _]]. discriminate. } 2: { destruct NK as [d [Q _]]. discriminate. } 2: { destruct NK as [? [? [? [Q _]]]]. discriminate. }
    destruct NK as [js' [Q F2]]. injection Q as <- <-. assert (FC : FWS (strictly a) c).
    { apply (iter_FWS OK F2); [|exact E]. intros [|v] I; [exact Logic.I|]. exists (NIter ITuple vs), v. split; [exact En|]. split; [exact I|constructor]. }
    assert (FJ := FWS_reach (@strictly_closed a) FC R). destruct FJ as [[v [[W|[b [z [_ [_ [_ [_ W]]]]]]] S']]|[vs' [js' [OK2 _]]]].
    - assert (v = Vref a) by apply (INJ W V). subst v. apply (TUP (MD V) En). destruct S' as [m [b S']]. now exists m, b.
    - assert (Q := okind_unique (big_int_kind W) OK). discriminate.
    - assert (Q := okind_unique OK2 OK). discriminate.
  Qed.
  Lemma FW_ok j : FW j -> (exists K, okind j K /\ wf known F j K) /\ forall j', edge j j' -> FW j'.
  Proof.
    intros H. split; [|intros j'; apply (FWS_edge Dval_closed H)].
    assert (INTK : forall v i, is_int h v -> val_at v i -> exists n, okind i (KLeaf n)).
    { intros v i [a [z [-> Ea]]] [V|[a' [z' [_ [_ [_ [_ E]]]]]]].
      - destruct (entry_kind V) as [n [K [En [OK NK]]]]. rewrite Ea in En. injection En as <-. cbn in NK. subst K. now exists (NInt z).
      - exists (NInt z'). now apply big_int_kind. }
    destruct H as [[v [[V|[a [z [_ [_ [_ [_ E]]]]]]] HS]]|[vs [js [OK [F2 HS]]]]].
    - destruct v as [|a].
      + destruct (FH V) as [o [E Q]]. subst o. exists KNone. split; [|exact I]. eexists. split; [exact E|reflexivity].
      + destruct (entry_kind V) as [n [K [En [OK NK]]]]. exists K. split; [exact OK|]. destruct (DOK HS) as [n' [En' [NO _]]]. rewrite En in En'. injection En' as <-.
        destruct n; cbn [nkind] in NK; try (subst K; exact I); try contradiction.
        * destruct NK as [js [-> F2]]. destruct k; cbn [wf]; auto. apply (tuple_wf V OK).
        * destruct NK as [d [-> ND]]. destruct d; cbn [wf]; [|exact I]. destruct ND as [kjs [vjs [A1 [A2 _]]]]. split; eauto.
        * destruct NK as [d [-> ND]]. destruct d; cbn [wf]; [|exact I]. destruct ND as [kjs [vjs [A1 [A2 _]]]]. split; eauto.
        * destruct NK as [i [j' [k [-> [V1 [V2 V3]]]]]]. destruct NO as [N1 [N2 N3]]. cbn [wf]. split; [apply (INTK _ _ N1 V1)|]. split; [apply (INTK _ _ N2 V2)|apply (INTK _ _ N3 V3)].
    - exists (KLeaf (NInt z)). split; [now apply big_int_kind|exact I].
    - exists (KIter IList js). split; [exact OK|exact I].
  Qed.

  (** ** the loaded heap *)
  Variable l : lstate.
  Hypothesis LI : linv known F l.
  Hypothesis ALL : forall j w, got l j w -> fdone known F 0 l j w.
  Definition R (a b : nat) : Prop := exists j, vassoc (Vref a) M = Some j /\ got l j (Vref b).
  Lemma corr_at v j w : val_at v j -> got l j w -> corr R h (l_heap l) v w.
  Proof.
    intros [V|[a [z [-> [Ea [_ [_ E]]]]]]] G; destruct (ALL G) as [K [OK FD]].
    - destruct v as [|a].
      + destruct (FH V) as [o [E Q]]. subst o. assert (KN : okind j KNone) by (eexists; split; [exact E|reflexivity]). rewrite (okind_unique OK KN) in FD.
        destruct w as [|b]; [exact I|]. destruct FD as [_ [n [_ []]]].
      + destruct w as [|b]; [|left; now exists j]. subst K. destruct (entry_kind V) as [n [K [En [OK' NK]]]]. rewrite (okind_unique OK' OK) in NK.
        destruct n; cbn [nkind] in NK; try discriminate; try contradiction; [destruct NK as [? [Q _]]|destruct NK as [? [Q _]]|destruct NK as [? [Q _]]|destruct NK as [? [? [? [Q _]]]]]; discriminate.
    - rewrite (okind_unique OK (big_int_kind E)) in FD. destruct w as [|b]; [discriminate|]. destruct FD as [_ [n [En ->]]]. right. right. exists z. now split.
  Qed.
  Lemma corr_list vs js ws : Forall2 val_at vs js -> Forall2 (got l) js ws -> Forall2 (corr R h (l_heap l)) vs ws.
  Proof.
    intros A. revert ws. induction A as [|v j vs js H A IH]; intros ws B; inversion B as [|? w ? ws' G B']; subst; constructor; [apply (corr_at H G)|now apply IH].
  Qed.
  Lemma items_same kvs d kvs' : ndict kvs d -> items_done known F 0 l d kvs' -> same_items R h (l_heap l) kvs kvs'.
  Proof.
    destruct d as [ik iv|names js].
    - intros [kjs [vjs [A1 [A2 [A3 A4]]]]] [kjs' [vjs' [kws [vws [B1 [B2 [-> [B3 B4]]]]]]]].
      assert (E1 := okind_unique A1 B1). injection E1 as <-. assert (E2 := okind_unique A2 B2). injection E2 as <-. exists (combine kws vws). split; [reflexivity|].
      assert (C1 := corr_list A3 B3). assert (C2 := corr_list A4 B4). clear - C1 C2. revert kws vws C1 C2.
      induction kvs as [|[k v] kvs IH]; intros kws vws C1 C2; cbn [map] in *; inversion C1; subst; [constructor|]. inversion C2; subst. cbn [combine]. constructor; [now split|]. now apply IH.
    - intros [A1 A2] [nj [P F2]]. destruct (perm_F2 (Permutation_sym P) F2) as [l2 [P2 F3]]. exists l2. split; [now symmetry|].
      clear P P2 F2. revert names js l2 A1 A2 F3. induction kvs as [|[k v] kvs IH]; intros names js l2 A1 A2 F3; cbn [map] in *; inversion A1 as [|? nm ? names' SK A1']; subst; inversion A2 as [|? j ? js' VJ A2']; subst.
      + inversion F3; subst. constructor.
      + cbn [combine] in F3. inversion F3 as [|? [k' x] ? l2' [[b [Q1 [_ Q2]]] Q3] F3']; subst. cbn [fst snd] in *. constructor; [|now apply (IH names' js')]. cbn [fst snd]. split; [|apply (corr_at VJ Q3)].
        destruct SK as [a [-> Ea]]. subst k'. right. left. exists nm. now split.
  Qed.
  Lemma graph_same v i w : val_at v i -> got l i w -> same_graph h v (l_heap l) w.
  Proof.
    intros V G. exists R. split; [|split; [|split]].
    - intros a b b' [j [A1 A2]] [j' [B1 B2]]. assert (j = j') by congruence. subst j'. unfold Hdf5Proofs5.got in *. congruence.
    - intros a a' b [j [A1 A2]] [j' [B1 B2]]. assert (j = j') by apply (i_inj LI A2 B2). subst j'. assert (Q := INJ A1 B1). now injection Q as ->.
    - intros a b [j [A1 A2]]. destruct (entry_kind A1) as [n [K [En [OK NK]]]]. destruct (ALL A2) as [K' [OK' [_ [n' [En' ND]]]]]. rewrite <- (okind_unique OK OK') in ND. exists n, n'. split; [exact En|]. split; [exact En'|].
      destruct n; cbn [nkind] in NK; try (subst K; cbn in ND; exact ND); try contradiction; cbn [same_node].
      + destruct NK as [js [-> F2]]. destruct ND as [ws [-> F3]]. exists ws. split; [reflexivity|apply (corr_list F2 F3)].
      + destruct NK as [d [-> ND']]. destruct ND as [kvs' [-> ID]]. exists kvs'. split; [reflexivity|apply (items_same ND' ID)].
      + destruct NK as [d [-> ND']]. destruct ND as [kvs' [-> ID]]. exists kvs'. split; [reflexivity|apply (items_same ND' ID)].
      + destruct NK as [i' [j' [k [-> [V1 [V2 V3]]]]]]. destruct ND as [x [y [z [-> [G1 [G2 G3]]]]]]. exists x, y, z. split; [reflexivity|]. split; [apply (corr_at V1 G1)|]. split; [apply (corr_at V2 G2)|apply (corr_at V3 G3)].
    - apply (corr_at V G).
  Qed.
End RoundTrip.

Section Top.
  Variables (order : list string -> list string) (known : string -> string -> bool) (h : heap).
  Hypothesis ORD : forall l, Permutation l (order l).
  Definition Dof (v : val) (a : nat) : Prop := match v with Vnone => False | Vref b => reach h b a end.
  Definition storable_val (v : val) : Prop := match v with Vnone => True | Vref a => storable known h a end.
  Lemma Dof_ok v : storable_val v -> forall a, Dof v a -> exists n, nth_error h a = Some n /\ node_ok known h n /\ forall b, In (Vref b) (children n) -> Dof v b.
  Proof.
    destruct v as [|r]; [intros _ a []|]. intros S a Ra. destruct (S a Ra) as [n [E [NO _]]]. exists n. split; [exact E|]. split; [exact NO|]. intros b B. apply (reach_snoc Ra E B).
  Qed.
  Lemma Dof_tup v : storable_val v -> forall a vs, Dof v a -> nth_error h a = Some (NIter ITuple vs) -> ~ on_cycle h a.
  Proof. destruct v as [|r]; [intros _ a vs []|]. intros S a vs Ra E. destruct (S a Ra) as [n [E' [_ T]]]. rewrite E in E'. injection E' as <-. now apply (T vs). Qed.

  Lemma load_saved v path F M i : storable_val v -> h5_get F path = Some i -> path <> ""%string -> val_at h 0 F M v i -> memo_ok h (Dof v) (SState F M) ->
    (forall w k, vassoc w M = Some k -> entry_good h 0 F M w k) ->
    exists h' w, load_from_hdf5 order known F path = Some (h', w) /\ same_graph h v h' w.
  Proof.
    intros SV HG NE VA [N1 [N2 [_ N3]]] FH. cbn [s_memo] in *.
    assert (INJ : forall w w' k, vassoc w M = Some k -> vassoc w' M = Some k -> w = w').
    { intros w w' k A B. apply vassoc_In in A, B. clear - N2 A B. induction M as [|[x y] m IH]; [destruct A|]. cbn in N2. inversion N2 as [|? ? Q1 Q2]; subst.
      destruct A as [A|A], B as [B|B]; [congruence| | |now apply IH]; exfalso; apply Q1; apply in_map_iff; [exists (w', k)|exists (w, k)]; (split; [cbn; congruence|assumption]). }
    assert (MD : forall a k, vassoc (Vref a) M = Some k -> Dof v a) by (intros a k A; apply vassoc_In in A; now apply N3 in A).
    set (l0 := LState [] []). assert (LI0 : linv known F l0) by (constructor; intros; discriminate).
    assert (FWi : FW known h F M (Dof v) i) by (left; exists v; split; [exact VA|]; destruct v; [exact I|constructor]).
    destruct (@load_loads order known F ORD _ (FW_ok (Dof_ok SV) (Dof_tup SV) FH INJ MD) (List.length F + 2) l0 path i [] FWi HG NE LI0) as [l' [w [E [LI [X G]]]]].
    - constructor.
    - intros j [].
    - cbn. lia.
    - unfold load_from_hdf5. fold l0. rewrite E. exists (l_heap l'), w. split; [reflexivity|]. apply (graph_same (Dof_ok SV) FH INJ MD LI) with (i := i); [|exact VA|exact G].
      intros j x Gx. destruct (x_new X Gx) as [FD _]; [reflexivity|exact FD].
  Qed.
End Top.
