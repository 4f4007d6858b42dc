(** Hdf5Loader: the objects that are loaded represent the file. *)
From Coq Require Import String Ascii List Arith Bool ZArith Lia Permutation.
From Verif Require Import Util Hdf5Model Hdf5Spec Hdf5Proofs Hdf5Proofs2 Hdf5Proofs3.
Import ListNotations.
Set Implicit Arguments. Unset Strict Implicit.
Open Scope list_scope. Open Scope nat_scope.

Inductive dkind := DGen (ik iv : nat) | DSimple (names : list string) (js : list nat).
Inductive kind := KNone | KLeaf (n : node) | KIter (k : iter) (js : list nat) | KDict (d : dkind) | KInst (m q : string) (d : dkind) | KRange (i j k : nat).

Section Load.
  Variables (order : list string -> list string) (known : string -> string -> bool) (F : file).
  Hypothesis ORD : forall l, Permutation l (order l).
  Definition is_type (o : hobj) (r : string) : Prop := assoc "type"%string (h_attrs o) = Some (AStr r).
  Definition leaf_kind (o : hobj) (n : node) : Prop :=
    match n with
    | NData t x => exists t', is_type o (tag_repr t') /\ load_tag (tag_repr t') = Some t /\ h_data o = Some (DRaw x)
    | NInt z => (is_type o "int" /\ h_data o = Some (DInt z)) \/ (exists x, is_type o "int_as_str" /\ h_data o = Some (DStr x) /\ int_of_str x = Some z)
    | NStr s => is_type o "str" /\ h_data o = Some (DStr s)
    | NGlobal k m q => is_type o (gkind_repr k) /\ assoc "module"%string (h_attrs o) = Some (AStr m) /\ assoc "class"%string (h_attrs o) = Some (AStr q) /\ known m q = true
    | _ => False
    end.
  Definition dict_kind (o : hobj) (r : string) (d : dkind) : Prop :=
    match d with
    | DGen ik iv => r = "dict"%string /\ h_links o = [("keys"%string, ik); ("values"%string, iv)]
    | DSimple names js => r = "simple_dict"%string /\ h_links o = combine names js /\ List.length js = List.length names /\ NoDup names /\ (forall n, In n names -> good_name n)
    end.
  Definition obj_kind (o : hobj) (K : kind) : Prop :=
    match K with
    | KNone => is_type o "None"
    | KLeaf n => leaf_kind o n /\ h_links o = []
    | KIter k js => is_type o (iter_repr k) /\ assoc "len"%string (h_attrs o) = Some (ALen (List.length js)) /\ h_links o = combine (map str_nat (seq 0 (List.length js))) js
    | KDict d => exists r, is_type o r /\ dict_kind o r d
    | KInst m q d => exists r, is_type o "instance" /\ assoc "module"%string (h_attrs o) = Some (AStr m) /\ assoc "class"%string (h_attrs o) = Some (AStr q) /\
        assoc "format"%string (h_attrs o) = Some (AStr r) /\ known m q = true /\ dict_kind o r d
    | KRange i j k => is_type o "range" /\ h_links o = [("start"%string, i); ("stop"%string, j); ("step"%string, k)]
    end.
  Definition okind (j : nat) (K : kind) : Prop := exists o, nth_error F j = Some o /\ obj_kind o K.
  Definition edge (j j' : nat) : Prop := exists o name, nth_error F j = Some o /\ In (name, j') (h_links o).
  Inductive freach : nat -> nat -> Prop :=
  | fr_refl j : freach j j
  | fr_step i j k : edge i j -> freach j k -> freach i k.
  Definition below (i j : nat) : Prop := exists c, edge i c /\ freach c j.
  Lemma freach_trans i j k : freach i j -> freach j k -> freach i k.
  Proof. intros H. induction H; [auto|]. intros K. apply (fr_step H). auto. Qed.
  Lemma below_freach i j : below i j -> freach i j. Proof. intros [c [E R]]. now apply (fr_step E). Qed.
  Lemma below_trans i j k : below i j -> freach j k -> below i k. Proof. intros [c [E R]] K. exists c. split; [exact E|]. now apply (freach_trans R). Qed.
  Lemma freach_below i j k : freach i j -> below j k -> below i k.
  Proof. intros R B. destruct R as [j|i c j E R]; [exact B|]. exists c. split; [exact E|]. apply (freach_trans R). now apply below_freach. Qed.
  Lemma edge_below i j : edge i j -> below i j. Proof. intros E. exists j. split; [exact E|constructor]. Qed.

  (** well-formed part of the file *)
  Variable FW : nat -> Prop.
  Definition wf (j : nat) (K : kind) : Prop :=
    match K with
    | KIter ITuple _ => ~ below j j
    | KDict (DGen ik iv) | KInst _ _ (DGen ik iv) => (exists kjs, okind ik (KIter IList kjs)) /\ (exists vjs, okind iv (KIter IList vjs))
    | KRange a b c => (exists n, okind a (KLeaf n)) /\ (exists n, okind b (KLeaf n)) /\ (exists n, okind c (KLeaf n))
    | _ => True
    end.
  Hypothesis FWok : forall j, FW j -> (exists K, okind j K /\ wf j K) /\ forall j', edge j j' -> FW j'.

  Definition got (l : lstate) (j : nat) (x : val) : Prop := nassoc j (l_memo l) = Some x.
  Definition items_done (lo : nat) (l : lstate) (d : dkind) (kvs : list (val * val)) : Prop :=
    match d with
    | DGen ik iv => exists kjs vjs kws vws, okind ik (KIter IList kjs) /\ okind iv (KIter IList vjs) /\ kvs = combine kws vws /\ Forall2 (got l) kjs kws /\ Forall2 (got l) vjs vws
    | DSimple names js => exists nj, Permutation (combine names js) nj /\
        Forall2 (fun p kv => (exists b, fst kv = Vref b /\ lo <= b /\ nth_error (l_heap l) b = Some (NStr (fst p))) /\ got l (snd p) (snd kv)) nj kvs
    end.
  Definition node_done (lo : nat) (l : lstate) (K : kind) (n : node) : Prop :=
    match K with
    | KNone => False
    | KLeaf m => n = m
    | KIter k js => exists ws, n = NIter k ws /\ Forall2 (got l) js ws
    | KDict d => exists kvs, n = NDict kvs /\ items_done lo l d kvs
    | KInst m q d => exists kvs, n = NInst m q kvs /\ items_done lo l d kvs
    | KRange i j k => exists x y z, n = NRange x y z /\ got l i x /\ got l j y /\ got l k z
    end.
  Definition fdone (lo : nat) (l : lstate) (j : nat) (w : val) : Prop :=
    exists K, okind j K /\ match w with Vnone => K = KNone | Vref b => lo <= b /\ exists n, nth_error (l_heap l) b = Some n /\ node_done lo l K n end.

  Lemma iter_edge j k js c : okind j (KIter k js) -> In c js -> edge j c.
  Proof.
    intros [o [E [_ [_ L]]]] I. destruct (In_nth _ _ 0 I) as [i [Hi Ei]]. exists o, (str_nat i). split; [exact E|]. rewrite L. subst c.
    replace (str_nat i) with (nth i (map str_nat (seq 0 (List.length js))) (str_nat 0)).
    - rewrite <- combine_nth by (now rewrite map_length, seq_length). apply nth_In. rewrite combine_length, map_length, seq_length. lia.
    - rewrite map_nth, seq_nth by exact Hi. reflexivity.
  Qed.
  Lemma Forall2_got_tr l l' js ws : Forall2 (got l) js ws -> (forall j x, In j js -> got l j x -> got l' j x) -> Forall2 (got l') js ws.
  Proof. intros F2. induction F2; intros H'; constructor; [apply H'; [now left|assumption]|apply IHF2; intros; apply H'; [now right|assumption]]. Qed.
  Section Transport.
    Variables (lo lo' : nat) (l l' : lstate) (j : nat).
    Hypotheses (LO : lo' <= lo) (HP : forall b n, lo <= b -> nth_error (l_heap l) b = Some n -> nth_error (l_heap l') b = Some n).
    Hypothesis (GT : forall j' x, below j j' -> got l j' x -> got l' j' x).
    Lemma items_done_tr o d r kvs : nth_error F j = Some o -> dict_kind o r d -> items_done lo l d kvs -> items_done lo' l' d kvs.
    Proof.
      intros E DK. destruct d as [ik iv|names js]; cbn.
      - intros [kjs [vjs [kws [vws [A [B [C [D G]]]]]]]]. destruct DK as [_ L]. exists kjs, vjs, kws, vws. split; [exact A|]. split; [exact B|]. split; [exact C|]. split.
        + apply (Forall2_got_tr D). intros c x I. apply GT. exists ik. split; [exists o, "keys"%string; rewrite L; split; [exact E|now left]|]. apply below_freach, edge_below. apply (iter_edge A I).
        + apply (Forall2_got_tr G). intros c x I. apply GT. exists iv. split; [exists o, "values"%string; rewrite L; split; [exact E|right; now left]|]. apply below_freach, edge_below. apply (iter_edge B I).
      - intros [nj [P F2]]. exists nj. split; [exact P|]. destruct DK as [_ [L _]].
        assert (SUB : forall p, In p nj -> In p (h_links o)) by (intros p I; rewrite L; apply (Permutation_in p (Permutation_sym P) I)).
        clear P L. induction F2 as [|p kv nj kvs [[b [A1 [A2 A3]]] A4] F2 IH]; constructor.
        + split; [exists b; split; [exact A1|]; split; [lia|now apply HP]|]. apply GT; [|exact A4]. apply edge_below. exists o, (fst p). split; [exact E|]. apply SUB. left. now destruct p.
        + apply IH. intros q I. apply SUB. now right.
    Qed.
    Lemma fdone_tr w : fdone lo l j w -> fdone lo' l' j w.
    Proof.
      intros [K [OK D]]. exists K. split; [exact OK|]. destruct w as [|b]; [exact D|]. destruct D as [L [n [E D]]]. split; [lia|]. exists n. split; [now apply HP|].
      destruct OK as [o [Eo OK]]. destruct K; cbn in D |- *; try exact D.
      - destruct D as [ws [A B]]. exists ws. split; [exact A|]. apply (Forall2_got_tr B). intros c x I. apply GT. apply edge_below. apply (@iter_edge j k js c); [|exact I]. now exists o.
      - destruct D as [kvs [A B]]. destruct OK as [r [_ DK]]. exists kvs. split; [exact A|]. now apply (items_done_tr Eo DK).
      - destruct D as [kvs [A B]]. destruct OK as [r [_ [_ [_ [_ [_ DK]]]]]]. exists kvs. split; [exact A|]. now apply (items_done_tr Eo DK).
      - destruct D as [x [y [z [A [B [C G]]]]]]. destruct OK as [_ LK].
        assert (ED : forall c, In c [i; j0; k] -> below j c).
        { intros c I. apply edge_below. exists o. cbn in I. rewrite LK. destruct I as [<-|[<-|[<-|[]]]]; eexists; (split; [exact Eo|cbn; eauto]). }
        exists x, y, z. split; [exact A|]. split; [apply GT; [apply ED; cbn; tauto|exact B]|]. split; apply GT; try assumption; apply ED; cbn; tauto.
    Qed.
  End Transport.

  Record linv (l : lstate) : Prop := LInv {
    i_inj : forall j j' b, got l j (Vref b) -> got l j' (Vref b) -> j = j';
    i_rng : forall j b, got l j (Vref b) -> b < List.length (l_heap l);
    i_dom : forall j w, got l j w -> j < List.length F;
    i_none : forall j, got l j Vnone -> okind j KNone }.
  (** from [l] to [l'], where the objects at [X] may change and new entries come from [fr] *)
  Record lx (X : nat -> Prop) (fr : nat -> Prop) (l l' : lstate) : Prop := LX {
    x_len : List.length (l_heap l) <= List.length (l_heap l');
    x_heap : forall b n, ~ X b -> nth_error (l_heap l) b = Some n -> nth_error (l_heap l') b = Some n;
    x_memo : forall j w, got l j w -> got l' j w;
    x_new : forall j w, got l' j w -> nassoc j (l_memo l) = None -> fdone (List.length (l_heap l)) l' j w /\ fr j }.
  Lemma lx_refl X fr l : lx X fr l l.
  Proof. constructor; auto. intros j w G N. unfold got in G. congruence. Qed.
  Lemma lx_trans (X fr : nat -> Prop) l l1 l2 : (forall b, X b -> b < List.length (l_heap l)) -> lx X fr l l1 -> lx X fr l1 l2 -> lx X fr l l2.
  Proof.
    intros XB A B. constructor.
    - assert (Q1 := x_len A). assert (Q2 := x_len B). lia.
    - intros b n N E. apply (x_heap B N). now apply (x_heap A N).
    - intros j w G. now apply (x_memo B), (x_memo A).
    - intros j w G N. assert (Q1 := x_len A). destruct (nassoc j (l_memo l1)) as [w1|] eqn:E1.
      + assert (w1 = w) by (apply (x_memo B) in E1; unfold got in *; congruence). subst w1. destruct (x_new A E1 N) as [D R]. split; [|exact R].
        apply (fdone_tr (lo := List.length (l_heap l)) (le_n _) (l := l1)); [|intros; now apply (x_memo B)|exact D].
        intros b n L E. apply (x_heap B); [intros XX; apply XB in XX; lia|exact E].
      + destruct (x_new B G E1) as [D R]. split; [|exact R]. apply (fdone_tr (lo := List.length (l_heap l1)) Q1 (l := l2)); auto.
  Qed.
  Lemma lx_weaken (X X' fr fr' : nat -> Prop) l l' : (forall b, X b -> X' b) -> (forall j, fr j -> fr' j) -> lx X fr l l' -> lx X' fr' l l'.
  Proof. intros HX HF [A B C D]. constructor; auto. intros j w G N. destruct (D j w G N). auto. Qed.
  (** writing to one of the objects in [X] *)
  Lemma lx_write (X fr : nat -> Prop) l l' b g : X b -> b < List.length (l_heap l) -> lx X fr l l' -> lx X fr l (LState (fupd (l_heap l') b g) (l_memo l')).
  Proof.
    intros XB L [A B C D]. constructor; cbn [l_heap l_memo].
    - now rewrite fupd_length.
    - intros c n N E. rewrite fupd_neq by (intros ->; contradiction). now apply B.
    - exact C.
    - intros j w G N. destruct (D j w G N) as [Q R]. split; [|exact R]. apply (fdone_tr (lo := List.length (l_heap l)) (le_n _) (l := l')); [|auto|exact Q].
      intros c n Lc E. cbn. rewrite fupd_neq by lia. exact E.
  Qed.
  (** a new object that is not memorized *)
  Lemma lx_alloc (X fr : nat -> Prop) l l' n : lx X fr l l' -> lx X fr l (LState (l_heap l' ++ [n]) (l_memo l')).
  Proof.
    intros [A B C D]. constructor; cbn [l_heap l_memo].
    - rewrite app_length. lia.
    - intros c m N E. rewrite nth_error_app1; [now apply B|]. apply (B _ _ N) in E. now apply nth_error_lt in E.
    - exact C.
    - intros j w G N. destruct (D j w G N) as [Q R]. split; [|exact R]. apply (fdone_tr (lo := List.length (l_heap l)) (le_n _) (l := l')); [|auto|exact Q].
      intros c m Lc E. cbn. rewrite nth_error_app1; [exact E|]. now apply nth_error_lt in E.
  Qed.
  Lemma linv_heap l h' : linv l -> List.length (l_heap l) <= List.length h' -> linv (LState h' (l_memo l)).
  Proof. intros [A B C D] L. constructor; auto. intros j b G. apply B in G. cbn. lia. Qed.
  Lemma linv_add l h' i b : linv l -> i < List.length F -> List.length (l_heap l) <= b < List.length h' -> linv (LState h' ((i, Vref b) :: l_memo l)).
  Proof.
    intros I Hi Hb. assert (G : forall j w, got (LState h' ((i, Vref b) :: l_memo l)) j w -> (j = i /\ w = Vref b) \/ got l j w).
    { intros j w. unfold got. cbn. destruct (Nat.eqb_spec j i) as [->|]; [intros [= <-]; now left|now right]. }
    constructor; cbn [l_heap].
    - intros j j' c H1 H2. apply G in H1, H2. destruct H1 as [[-> E1]|H1], H2 as [[-> E2]|H2]; auto.
      + injection E1 as ->. apply (i_rng I) in H2. lia.
      + injection E2 as ->. apply (i_rng I) in H1. lia.
      + apply (i_inj I H1 H2).
    - intros j c H1. apply G in H1. destruct H1 as [[-> E1]|H1]; [injection E1 as ->; lia|]. apply (i_rng I) in H1. lia.
    - intros j w H1. apply G in H1. destruct H1 as [[-> E1]|H1]; [exact Hi|]. apply (i_dom I H1).
    - intros j H1. apply G in H1. destruct H1 as [[-> E1]|H1]; [discriminate|]. apply (i_none I H1).
  Qed.
  Lemma got_cons l h' i v j w : nassoc i (l_memo l) = None -> got l j w -> got (LState h' ((i, v) :: l_memo l)) j w.
  Proof. unfold got. cbn. intros N G. destruct (Nat.eqb_spec j i) as [->|]; [congruence|exact G]. Qed.
  Lemma got_new h' i v (m : list (nat * val)) : got (LState h' ((i, v) :: m)) i v. Proof. unfold got. cbn. now rewrite Nat.eqb_refl. Qed.

  (** a container: the object [b] is created and memorized for [i], then filled *)
  Lemma close_lx l n0 i l2 : nassoc i (l_memo l) = None ->
    lx (fun c => c = List.length (l_heap l)) (below i) (LState (l_heap l ++ [n0]) ((i, Vref (List.length (l_heap l))) :: l_memo l)) l2 ->
    fdone (List.length (l_heap l)) l2 i (Vref (List.length (l_heap l))) -> lx (fun _ => False) (freach i) l l2 /\ got l2 i (Vref (List.length (l_heap l))).
  Proof.
    intros N A D. assert (G : got l2 i (Vref (List.length (l_heap l)))) by (apply (x_memo A), got_new). split; [|exact G].
    assert (Q := x_len A). cbn [l_heap] in Q. rewrite app_length in Q. cbn in Q. constructor.
    - lia.
    - intros b n _ E. assert (L := nth_error_lt E). apply (x_heap A); [cbn; lia|]. cbn. now rewrite nth_error_app1.
    - intros j w Gj. apply (x_memo A). now apply got_cons.
    - intros j w Gj Nj. destruct (Nat.eq_dec j i) as [->|NE].
      + unfold got in *. rewrite G in Gj. injection Gj as <-. split; [exact D|constructor].
      + destruct (x_new A Gj) as [D1 R1]; [cbn; now destruct (Nat.eqb_spec j i)|]. split; [|now apply below_freach].
        apply (fdone_tr (lo := List.length (l_heap l ++ [n0]))) with (l := l2); auto. rewrite app_length. lia.
  Qed.

  (** ** The recursive calls *)
  Definition loads (f : lstate -> string -> option (lstate * val)) (N : nat) : Prop :=
    forall l path i ids, FW i -> h5_get F path = Some i -> path <> ""%string -> linv l -> NoDup ids -> (forall j, In j ids -> nassoc j (l_memo l) <> None) -> N <= List.length ids ->
    exists l' w, f l path = Some (l', w) /\ linv l' /\ lx (fun _ => False) (freach i) l l' /\ got l' i w.
  Definition enough (l : lstate) (N : nat) : Prop := exists ids, NoDup ids /\ (forall j, In j ids -> nassoc j (l_memo l) <> None) /\ N <= List.length ids.
  Lemma enough_mono l l' N : (forall j w, got l j w -> got l' j w) -> enough l N -> enough l' N.
  Proof.
    intros G [ids [A [B C]]]. exists ids. split; [exact A|]. split; [|exact C]. intros j J. specialize (B j J). destruct (nassoc j (l_memo l)) as [w|] eqn:E; [|congruence].
    apply G in E. unfold got in E. now rewrite E.
  Qed.
  Lemma child_get path i sub o name j : h5_get F path = Some i -> sub_ok path sub -> nth_error F i = Some o -> good_name name -> assoc name (h_links o) = Some j -> h5_get F (sub ++ name) = Some j.
  Proof. intros H S E G A. unfold h5_get in *. rewrite (sub_child S G), resolve_app, H. cbn. now rewrite E, A. Qed.

  Lemma load_elems_cons f l v a n sub : fold_left (fun lo i => match lo with
                         | Some l => match f l (sub ++ str_nat i)%string with Some (l, x) => Some (put_elem l v x) | None => None end
                         | None => None
                         end) (a :: n) (Some l) = match f l (sub ++ str_nat a)%string with Some (l, x) => fold_left (fun lo i => match lo with
                         | Some l => match f l (sub ++ str_nat i)%string with Some (l, x) => Some (put_elem l v x) | None => None end
                         | None => None
                         end) n (Some (put_elem l v x)) | None => None end.
  Proof. cbn [fold_left]. destruct (f l (sub ++ str_nat a)%string) as [[l1 x]|]; [reflexivity|]. induction n as [|b n IH]; [reflexivity|exact IH]. Qed.
  Lemma load_elems_spec f N i k0 : loads f N -> FW i -> forall js s0 l b ws0 path sub o, (forall j, In j js -> edge i j) ->
    h5_get F path = Some i -> sub_ok path sub -> nth_error F i = Some o -> (forall k, k < List.length js -> assoc (str_nat (s0 + k)) (h_links o) = Some (nth k js 0)) ->
    linv l -> enough l N -> nth_error (l_heap l) b = Some (NIter k0 ws0) ->
    exists l' ws, fold_left (fun lo i => match lo with
                         | Some l => match f l (sub ++ str_nat i)%string with Some (l, x) => Some (put_elem l (Vref b) x) | None => None end
                         | None => None
                         end) (seq s0 (List.length js)) (Some l) = Some l' /\ linv l' /\ lx (fun c => c = b) (below i) l l' /\
      nth_error (l_heap l') b = Some (NIter k0 (ws0 ++ ws)) /\ Forall2 (got l') js ws.
  Proof.
    intros SF FWi js. induction js as [|j js IH]; intros s0 l b ws0 path sub o ED HG SO E LK LI EN HB.
    - exists l, []. split; [reflexivity|]. split; [exact LI|]. split; [apply lx_refl|]. rewrite app_nil_r. split; [exact HB|constructor].
    - cbn [List.length seq]. rewrite load_elems_cons. assert (FWj : FW j) by (apply (proj2 (FWok FWi)), ED; now left).
      assert (HGj : h5_get F (sub ++ str_nat s0) = Some j).
      { apply (child_get HG SO E (str_nat_good _)). specialize (LK 0). rewrite Nat.add_0_r in LK. apply LK. cbn. lia. }
      destruct EN as [ids [I1 [I2 I3]]]. destruct (SF l _ j ids FWj HGj (sub_nonempty SO) LI I1 I2 I3) as [l1 [w [E1 [LI1 [X1 G1]]]]]. rewrite E1.
      assert (HB1 : nth_error (l_heap l1) b = Some (NIter k0 ws0)) by (apply (x_heap X1); auto).
      assert (XW : lx (fun c => c = b) (below i) l (put_elem l1 (Vref b) w)).
      { unfold put_elem. apply lx_write; [reflexivity|now apply nth_error_lt in HB|]. apply (lx_weaken (X := fun _ => False) (fr := freach j)); [tauto| |exact X1].
        intros c Rc. exists j. split; [apply ED; now left|exact Rc]. }
      destruct (IH (S s0) (put_elem l1 (Vref b) w) b (ws0 ++ [w]) path sub o) as [l' [ws [E2 [LI2 [X2 [HB2 F2]]]]]].
      + intros c C. apply ED. now right.
      + exact HG.
      + exact SO.
      + exact E.
      + intros k K. specialize (LK (S k)). cbn [nth] in LK. rewrite <- LK by (cbn; lia). do 2 f_equal. lia.
      + unfold put_elem. apply (linv_heap LI1). now rewrite fupd_length.
      + apply (enough_mono (l := l)); [apply (x_memo XW)|]. now exists ids.
      + unfold put_elem. cbn [l_heap]. exact (fupd_eq _ HB1).
      + exists l', (w :: ws). split; [exact E2|]. split; [exact LI2|]. split; [|split].
        * apply (lx_trans (l1 := put_elem l1 (Vref b) w)); [intros c ->; now apply nth_error_lt in HB|exact XW|exact X2].
        * rewrite HB2, <- app_assoc. reflexivity.
        * constructor; [|exact F2]. apply (x_memo X2). exact G1.
  Qed.
End Load.
