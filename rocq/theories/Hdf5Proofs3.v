(** Hdf5Saver: induction over the calls. *)
From Coq Require Import String Ascii List Arith Bool ZArith Lia.
From Verif Require Import Util Hdf5Model Hdf5Spec Hdf5Proofs Hdf5Proofs2.
Import ListNotations.
Set Implicit Arguments. Unset Strict Implicit.
Open Scope list_scope. Open Scope nat_scope.

Definition target (F : file) (path : string) (p : nat) (name : string) (o : hobj) : Prop :=
  exists pre, components path = pre ++ [name] /\ resolve F 0 pre = Some p /\ nth_error F p = Some o /\ h_data o = None /\ assoc name (h_links o) = None /\ no_nul name /\ path <> ""%string.

(** [F'] is [F] with a new object [obj] linked from the group [p] *)
Record created (F F' : file) (p : nat) (name : string) (obj : hobj) : Prop := Created {
  c_len : List.length F' = S (List.length F);
  c_par : forall o, nth_error F p = Some o -> nth_error F' p = Some (add_links o [(name, List.length F)]);
  c_old : forall i o, i <> p -> nth_error F i = Some o -> nth_error F' i = Some o;
  c_new : nth_error F' (List.length F) = Some obj }.
Lemma create_spec F path p name o d : target F path p name o -> exists F', h5_create F path d = Some (F', List.length F) /\ created F F' p name (HObj [] [] d).
Proof.
  intros [pre [C [R [E [D [A [N _]]]]]]]. unfold h5_create. rewrite (h5_link_ok (List.length F) C R E D A N). eexists. split; [reflexivity|].
  assert (PL := nth_error_lt E).
  constructor.
  - rewrite app_length, fupd_length. cbn. lia.
  - intros o' E'. rewrite nth_error_app1 by (rewrite fupd_length; lia). exact (fupd_eq _ E').
  - intros i o' NE E'. rewrite nth_error_app1 by (rewrite fupd_length; now apply nth_error_lt in E'). now rewrite fupd_neq.
  - rewrite nth_error_app2 by (rewrite fupd_length; lia). now rewrite fupd_length, Nat.sub_diag.
Qed.
Lemma created_attr F F' p name obj a x : p < List.length F -> created F F' p name obj -> created F (set_attr F' (List.length F) a x) p name (with_attr obj a x).
Proof.
  intros PL [A B C D]. constructor.
  - now rewrite set_attr_length.
  - intros o E. rewrite set_attr_neq by lia. now apply B.
  - intros i o N E. rewrite set_attr_neq by (apply nth_error_lt in E; lia). now apply C.
  - now apply set_attr_eq.
Qed.
Lemma created_fle F F' p name obj : created F F' p name obj -> fle F F'.
Proof.
  intros X i o E. destruct (Nat.eq_dec i p) as [->|N].
  - exists (add_links o [(name, List.length F)]), [(name, List.length F)]. split; [now apply (c_par X)|reflexivity].
  - exists o, []. split; [now apply (c_old X)|]. now rewrite app_nil_r.
Qed.
(** the new object can be found at the path *)
Lemma created_resolve F F' path p name o obj : target F path p name o -> created F F' p name obj -> resolve F' 0 (components path) = Some (List.length F).
Proof.
  intros [pre [C [R [E [D [A [N _]]]]]]] X. rewrite C, resolve_app, (resolve_mono (created_fle X) R). cbn. rewrite (c_par X E). cbn. rewrite assoc_app, A. cbn. now rewrite String.eqb_refl.
Qed.
Lemma path_not_root F path p name o : target F path p name o -> String.eqb path "/" = false.
Proof. intros [pre [C _]]. destruct (String.eqb_spec path "/") as [->|N]; [|reflexivity]. destruct pre; discriminate. Qed.

Section Save.
  Variables (known : string -> string -> bool) (h : heap) (D : nat -> Prop).
  Hypothesis DOK : forall a, D a -> exists n, nth_error h a = Some n /\ node_ok known h n /\ forall b, In (Vref b) (children n) -> D b.
  Definition Dval (v : val) : Prop := match v with Vnone => True | Vref a => D a end.
  Lemma Dval_lt v : Dval v -> match v with Vnone => True | Vref a => D a /\ a < List.length h end.
  Proof. destruct v as [|a]; [auto|]. intros H. split; [exact H|]. destruct (DOK H) as [n [E _]]. now apply nth_error_lt in E. Qed.
  Notation val_at := (val_at h). Notation ext := (ext h). Notation memo_ok := (memo_ok h D). Notation good := (good h). Notation entry_good := (entry_good h).

  Lemma memo_ok_add s F' v j : memo_ok s -> vassoc v (s_memo s) = None -> Dval v -> List.length (s_file s) <= j < List.length F' -> memo_ok (SState F' ((v, j) :: s_memo s)).
  Proof.
    intros [A [B [C E]]] N V J. split; [cbn; constructor; [now apply vassoc_none|exact A]|]. split.
    - cbn. constructor; [|exact B]. intros I. apply in_map_iff in I. destruct I as [[w k] [E1 I]]. cbn in E1. subst k. apply C in I. lia.
    - cbn [s_memo s_file]. split; intros w k [I|I].
      + injection I as <- <-. lia.
      + apply C in I. lia.
      + injection I as <- <-. now apply Dval_lt.
      + now apply E in I.
  Qed.
  Lemma memo_ok_file s F' : memo_ok s -> List.length (s_file s) <= List.length F' -> memo_ok (SState F' (s_memo s)).
  Proof. intros [A [B [C E]]] L. split; [exact A|]. split; [exact B|]. split; [|exact E]. intros w k I. apply C in I. cbn. lia. Qed.
  Lemma vassoc_cons v j M : vassoc v ((v, j) :: M) = Some j. Proof. cbn. destruct (val_eqb_spec v v); [reflexivity|congruence]. Qed.
  Lemma mle_cons v j M : vassoc v M = None -> mle M ((v, j) :: M).
  Proof. intros N w k E. cbn. destruct (val_eqb_spec w v) as [->|]; [congruence|exact E]. Qed.

  Definition opt_memo (vo : option val) (j : nat) (M : list (val * nat)) := match vo with Some v => (v, j) :: M | None => M end.
  (** what happens in a container whose group [g] exists *)
  Record grow (s s' : sstate) (g : nat) : Prop := Grow {
    g_len : List.length (s_file s) <= List.length (s_file s');
    g_old : forall i o, i <> g -> nth_error (s_file s) i = Some o -> nth_error (s_file s') i = Some o;
    g_memo : mle (s_memo s) (s_memo s');
    g_mlen : List.length (s_memo s) <= List.length (s_memo s');
    g_new : forall w k, vassoc w (s_memo s') = Some k -> vassoc w (s_memo s) = None ->
              List.length (s_file s) <= k < List.length (s_file s') /\ entry_good (List.length (s_file s)) (s_file s') (s_memo s') w k }.
  Lemma ext_grow s s' g nl : ext s s' g nl -> grow s s' g.
  Proof. intros [A B C E F G]. now constructor. Qed.
  Lemma grow_attr_l s s' g a x : g < List.length (s_file s) -> grow (set_attr_s s g a x) s' g -> grow s s' g.
  Proof.
    intros L [A B C E F]. unfold set_attr_s in *. cbn [s_file s_memo] in *. rewrite set_attr_length in *. constructor; auto.
    intros i o N Q. apply B; [exact N|]. now rewrite set_attr_neq.
  Qed.
  Lemma grow_attr_r s s' g a x : g < List.length (s_file s) -> grow s s' g -> grow s (set_attr_s s' g a x) g.
  Proof.
    intros L [A B C E F]. unfold set_attr_s. constructor; cbn [s_file s_memo]; try rewrite set_attr_length; auto.
    - intros i o N Q. rewrite set_attr_neq by exact N. now apply B.
    - intros w k Q N. destruct (F w k Q N) as [I J]. split; [exact I|].
      apply (entry_good_tr (lo := List.length (s_file s)) (le_n _) (F := s_file s') (M := s_memo s')); [|apply mle_refl|lia|exact J].
      intros i o Hi Q'. rewrite set_attr_neq by lia. exact Q'.
  Qed.
  Lemma container_ext s F1 s3 p name vo obj : p < List.length (s_file s) -> (forall v, vo = Some v -> vassoc v (s_memo s) = None) ->
    created (s_file s) F1 p name obj -> grow (SState F1 (opt_memo vo (List.length (s_file s)) (s_memo s))) s3 (List.length (s_file s)) ->
    (forall v, vo = Some v -> entry_good (List.length (s_file s)) (s_file s3) (s_memo s3) v (List.length (s_file s))) ->
    ext s s3 p [(name, List.length (s_file s))] /\ (forall v, vo = Some v -> vassoc v (s_memo s3) = Some (List.length (s_file s))).
  Proof.
    intros PL NV C G EG. assert (GL := g_len G). cbn [s_file] in GL. rewrite (c_len C) in GL. set (g := List.length (s_file s)) in *.
    assert (GV : forall v, vo = Some v -> vassoc v (s_memo s3) = Some g).
    { intros v ->. apply (g_memo G). cbn [s_memo opt_memo]. apply vassoc_cons. }
    assert (ML : mle (s_memo s) (opt_memo vo g (s_memo s))) by (destruct vo as [v|]; [apply mle_cons; now apply NV|apply mle_refl]).
    split; [|exact GV]. constructor.
    - lia.
    - intros o E. apply (g_old G); [cbn; lia|]. cbn. now apply (c_par C).
    - intros i o N E. apply (g_old G); [apply nth_error_lt in E; unfold g; lia|]. cbn. now apply (c_old C).
    - apply (mle_trans ML). apply (g_memo G).
    - assert (Q := g_mlen G). destruct vo; cbn in Q; lia.
    - fold g. intros w k E N. destruct vo as [v|].
      + destruct (val_eq_dec w v) as [->|NE].
        * rewrite (GV v eq_refl) in E. injection E as <-. split; [lia|]. now apply EG.
        * assert (E1 : vassoc w (opt_memo (Some v) g (s_memo s)) = None) by (cbn; destruct (val_eqb_spec w v); [contradiction|exact N]).
          destruct (g_new G E E1) as [I J]. cbn [s_file] in I, J. rewrite (c_len C) in I, J. fold g in I, J. split; [lia|].
          apply (entry_good_tr (lo := S g) (le_S _ _ (le_n _)) (F := s_file s3) (M := s_memo s3)); [now intros i o _ Q|apply mle_refl|lia|exact J].
      + destruct (g_new G E N) as [I J]. cbn [s_file] in I, J. rewrite (c_len C) in I, J. fold g in I, J. split; [lia|].
        apply (entry_good_tr (lo := S g) (le_S _ _ (le_n _)) (F := s_file s3) (M := s_memo s3)); [now intros i o _ Q|apply mle_refl|lia|exact J].
  Qed.
  Lemma grow_refl s g : grow s s g.
  Proof. constructor; auto; [apply mle_refl|]. intros w k E N. congruence. Qed.
  Lemma grow_trans s s1 s2 g : g < List.length (s_file s) -> grow s s1 g -> grow s1 s2 g -> grow s s2 g.
  Proof.
    intros HP X Y. constructor.
    - assert (A := g_len X). assert (B := g_len Y). lia.
    - intros i o N E. apply (g_old Y); [exact N|]. now apply (g_old X).
    - apply (mle_trans (g_memo X) (g_memo Y)).
    - assert (A := g_mlen X). assert (B := g_mlen Y). lia.
    - intros w k E N. assert (LX := g_len X). assert (LY := g_len Y). destruct (vassoc w (s_memo s1)) as [k1|] eqn:E1.
      + assert (k1 = k) by (apply (g_memo Y) in E1; congruence). subst k1. destruct (g_new X E1 N) as [A B]. split; [lia|].
        apply (entry_good_tr (lo := List.length (s_file s)) (le_n _) (F := s_file s1) (M := s_memo s1)); [|apply (g_memo Y)|lia|exact B].
        intros i o Hi Q. apply (g_old Y); [lia|exact Q].
      + destruct (g_new Y E E1) as [A B]. split; [lia|]. apply (entry_good_tr (lo := List.length (s_file s1)) LX (F := s_file s2) (M := s_memo s2)); [now intros i o _ Q|apply mle_refl|lia|exact B].
  Qed.

  Definition saves (f : sstate -> val -> string -> option sstate) (bound : nat) : Prop :=
    forall s v path p name o, memo_ok s -> Dval v -> bound <= List.length (s_memo s) -> target (s_file s) path p name o ->
    exists s' j, f s v path = Some s' /\ memo_ok s' /\ ext s s' p [(name, j)] /\ val_at (List.length (s_file s)) (s_file s') (s_memo s') v j.

  Lemma save_all_cons f s it items : save_all f s (it :: items) = match f s (fst it) (snd it) with Some s => save_all f s items | None => None end.
  Proof.
    unfold save_all. cbn [fold_left]. destruct (f s (fst it) (snd it)) as [s1|]; [reflexivity|]. induction items as [|i items IH]; [reflexivity|exact IH].
  Qed.
  Lemma save_all_spec f bound : saves f bound -> forall items names s p o comps, memo_ok s -> bound <= List.length (s_memo s) ->
    resolve (s_file s) 0 comps = Some p -> nth_error (s_file s) p = Some o -> h_data o = None -> NoDup names ->
    (forall n, In n names -> assoc n (h_links o) = None /\ no_nul n) ->
    Forall2 (fun it n => Dval (fst it) /\ components (snd it) = comps ++ [n] /\ snd it <> ""%string) items names ->
    exists s' js, save_all f s items = Some s' /\ memo_ok s' /\ ext s s' p (combine names js) /\ List.length js = List.length names /\
      Forall2 (val_at (List.length (s_file s)) (s_file s') (s_memo s')) (map fst items) js.
  Proof.
    intros SF. induction items as [|it items IH]; intros names s p o comps MO B R E HD ND AN F2; inversion F2 as [|? n ? names' [H1 [H2 H3]] F2']; subst.
    - exists s, []. split; [reflexivity|]. split; [exact MO|]. split; [apply ext_refl|]. split; [reflexivity|constructor].
    - inversion ND as [|? ? N1 N2]; subst. destruct (AN n (or_introl eq_refl)) as [A1 A2].
      assert (T : target (s_file s) (snd it) p n o) by (exists comps; repeat (split; [assumption|]); assumption).
      destruct (SF s (fst it) (snd it) p n o MO H1 B T) as [s1 [j [E1 [M1 [X1 V1]]]]].
      destruct (IH names' s1 p (add_links o [(n, j)]) comps M1) as [s2 [js [E2 [M2 [X2 [L2 V2]]]]]].
      + assert (Q := e_mlen X1). lia.
      + apply (resolve_mono (ext_fle X1) R).
      + now apply (e_par X1).
      + exact HD.
      + exact N2.
      + intros m M. destruct (AN m (or_intror M)) as [Q1 Q2]. split; [|exact Q2]. cbn. rewrite assoc_app, Q1. cbn. destruct (String.eqb_spec m n) as [->|]; [contradiction|reflexivity].
      + exact F2'.
      + assert (PL := nth_error_lt E). exists s2, (j :: js). rewrite save_all_cons, E1. split; [exact E2|]. split; [exact M2|]. split.
        * cbn [combine]. change ((n, j) :: combine names' js) with ([(n, j)] ++ combine names' js). now apply (ext_trans PL X1 X2).
        * split; [cbn; lia|]. cbn [map]. constructor.
          -- apply (val_at_tr (le_n _) (ext_keeps X2 PL) (e_memo X2) V1).
          -- apply (vals_at_tr (lo := List.length (s_file s1)) (e_len X1) (F := s_file s2) (M := s_memo s2)); [now intros i q _ Q|apply mle_refl|exact V2].
  Qed.
  Lemma numbered_F2 path sub vs : sub_ok path sub -> (forall v, In v vs -> Dval v) ->
    Forall2 (fun it n => Dval (fst it) /\ components (snd it) = components path ++ [n] /\ snd it <> ""%string) (numbered sub vs) (map str_nat (seq 0 (List.length vs))).
  Proof.
    intros SO DV. unfold numbered. generalize 0 as k. revert DV. induction vs as [|v vs IH]; intros DV k; cbn [List.length seq map combine]; [constructor|].
    constructor; [|apply IH; intros w W; apply DV; now right]. cbn [fst snd]. split; [apply DV; now left|]. split; [apply sub_child; [exact SO|apply str_nat_good]|apply (sub_nonempty SO)].
  Qed.
  Lemma numbered_fst sub vs : map fst (numbered sub vs) = vs.
  Proof. unfold numbered. generalize 0 as k. induction vs as [|v vs IH]; intros k; [reflexivity|]. cbn [List.length seq map combine]. cbn. f_equal. apply IH. Qed.
  Lemma str_nats_NoDup n : NoDup (map str_nat (seq 0 n)).
  Proof. apply NoDup_map_inj; [intros x y _ _ E; now apply str_nat_inj|apply seq_NoDup]. Qed.

  Definition list_body (f : sstate -> val -> string -> option sstate) (repr : string) (vs : list val) (s : sstate) (i : nat) (sub : string) : option sstate :=
    save_all f (set_attr_s (set_attr_s s i "type" (AStr repr)) i "len" (ALen (List.length vs))) (numbered sub vs).
  (** the empty group [g] at [path] *)
  Definition open_group (s : sstate) (path sub : string) (g : nat) (o : hobj) : Prop :=
    resolve (s_file s) 0 (components path) = Some g /\ nth_error (s_file s) g = Some o /\ h_data o = None /\ h_links o = [] /\ sub_ok path sub.
  Lemma open_attr s path sub g o a x : open_group s path sub g o -> open_group (set_attr_s s g a x) path sub g (with_attr o a x).
  Proof.
    intros [A [B [C [E F]]]]. unfold open_group, set_attr_s. cbn [s_file]. split; [apply (resolve_mono (@set_attr_fle _ _ _ _) A)|]. split; [now apply set_attr_eq|]. now repeat split.
  Qed.
  Lemma memo_ok_attr s g a x : memo_ok s -> memo_ok (set_attr_s s g a x).
  Proof. intros M. unfold set_attr_s. apply (memo_ok_file M). now rewrite set_attr_length. Qed.

  Lemma list_body_spec f bound repr vs s path sub g o : saves f bound -> memo_ok s -> bound <= List.length (s_memo s) -> (forall v, In v vs -> Dval v) -> open_group s path sub g o ->
    exists s' o', list_body f repr vs s g sub = Some s' /\ memo_ok s' /\ grow s s' g /\ nth_error (s_file s') g = Some o' /\ good_list h (List.length (s_file s)) (s_file s') (s_memo s') o' repr vs.
  Proof.
    intros SF MO B DV OG. set (s1 := set_attr_s (set_attr_s s g "type" (AStr repr)) g "len" (ALen (List.length vs))).
    assert (OG1 := open_attr "len" (ALen (List.length vs)) (open_attr "type" (AStr repr) OG)). fold s1 in OG1. set (o1 := with_attr (with_attr o "type" (AStr repr)) "len" (ALen (List.length vs))) in OG1.
    assert (MO1 : memo_ok s1) by (apply memo_ok_attr, memo_ok_attr, MO).
    destruct OG1 as [R [E [HD [HL SO]]]]. assert (L1 : List.length (s_file s1) = List.length (s_file s)) by (unfold s1; cbn; now rewrite !set_attr_length).
    destruct (save_all_spec SF (items := numbered sub vs) (names := map str_nat (seq 0 (List.length vs))) MO1 B R E HD (str_nats_NoDup _)) as [s2 [js [E2 [M2 [X2 [L2 V2]]]]]].
    - intros n N. apply in_map_iff in N. destruct N as [k [<- _]]. rewrite HL. split; [reflexivity|apply str_nat_nul].
    - now apply numbered_F2.
    - exists s2, (add_links o1 (combine (map str_nat (seq 0 (List.length vs))) js)). split; [exact E2|]. split; [exact M2|].
      assert (GL := nth_error_lt E). split.
      + rewrite L1 in GL. apply (grow_attr_l (a := "type"%string) (x := AStr repr) GL). apply (grow_attr_l (a := "len"%string) (x := ALen (List.length vs))); [cbn; now rewrite set_attr_length|].
        apply (ext_grow X2).
      + split; [now apply (e_par X2)|]. rewrite numbered_fst, L1 in V2. split; [|split].
        * unfold attr_is. unfold add_links. cbn [h_attrs]. unfold o1. now rewrite !with_attr_get.
        * unfold attr_is. unfold add_links. cbn [h_attrs]. unfold o1. now rewrite !with_attr_get.
        * exists js. split; [|exact V2]. cbn [add_links h_links]. now rewrite HL.
  Qed.
End Save.
