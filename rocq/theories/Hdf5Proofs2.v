(** Hdf5Saver: the file represents the object graph. *)
From Coq Require Import String Ascii List Arith Bool ZArith Lia.
From Verif Require Import Util Hdf5Model Hdf5Spec Hdf5Proofs.
Import ListNotations.
Set Implicit Arguments. Unset Strict Implicit.
Open Scope list_scope. Open Scope nat_scope.

Lemma val_eqb_spec v w : reflect (v = w) (val_eqb v w).
Proof. destruct v, w; cbn; try (constructor; congruence). destruct (Nat.eqb_spec a a0); constructor; congruence. Qed.
Lemma val_eq_dec (v w : val) : {v = w} + {v <> w}.
Proof. destruct (val_eqb_spec v w); [now left|now right]. Qed.

Section Represent.
  Variable h : heap.
  Definition ds (t : string) (d : data) : hobj := HObj [("type"%string, AStr t)] [] (Some d).
  (** the value [v] is stored in the object [j]: it was memorized there, or is a big integer *)
  Definition val_at (lo : nat) (F : file) (M : list (val * nat)) (v : val) (j : nat) : Prop :=
    vassoc v M = Some j \/
    (exists a z, v = Vref a /\ nth_error h a = Some (NInt z) /\ int_fits z = false /\ lo <= j /\ nth_error F j = Some (ds "int_as_str" (DStr (str_int z)))).
  Definition attr_is (o : hobj) (a : string) (x : attr) : Prop := assoc a (h_attrs o) = Some x.
  Definition good_list (lo : nat) (F : file) (M : list (val * nat)) (o : hobj) (repr : string) (vs : list val) : Prop :=
    attr_is o "type" (AStr repr) /\ attr_is o "len" (ALen (List.length vs)) /\
    exists js, h_links o = combine (map str_nat (seq 0 (List.length vs))) js /\ Forall2 (val_at lo F M) vs js.
  Definition good_dict (lo : nat) (F : file) (M : list (val * nat)) (o : hobj) (r : string) (kvs : list (val * val)) : Prop :=
    match simple_keys h kvs with
    | Some items => r = "simple_dict"%string /\ exists js, h_links o = combine (map fst items) js /\ Forall2 (val_at lo F M) (map snd items) js
    | None => r = "dict"%string /\ exists ik iv ok ov, h_links o = [("keys"%string, ik); ("values"%string, iv)] /\ lo <= ik /\ lo <= iv /\
                nth_error F ik = Some ok /\ nth_error F iv = Some ov /\ good_list lo F M ok "list" (map fst kvs) /\ good_list lo F M ov "list" (map snd kvs)
    end.
  Definition good (lo : nat) (F : file) (M : list (val * nat)) (o : hobj) (n : node) : Prop :=
    match n with
    | NData t x => o = ds (tag_repr t) (DRaw x)
    | NInt z => o = ds "int" (DInt z)
    | NStr s => o = ds "str" (DStr s)
    | NIter k vs => good_list lo F M o (iter_repr k) vs
    | NDict kvs => exists r, attr_is o "type" (AStr r) /\ good_dict lo F M o r kvs
    | NInst m q kvs => exists r, attr_is o "type" (AStr "instance") /\ attr_is o "class" (AStr q) /\ attr_is o "module" (AStr m) /\ attr_is o "format" (AStr r) /\
        good_dict lo F M o r kvs
    | NRange x y z => attr_is o "type" (AStr "range") /\ exists i j k, h_links o = [("start"%string, i); ("stop"%string, j); ("step"%string, k)] /\ val_at lo F M x i /\ val_at lo F M y j /\ val_at lo F M z k
    | NGlobal k m q => attr_is o "type" (AStr (gkind_repr k)) /\ attr_is o "class" (AStr q) /\ attr_is o "module" (AStr m) /\ h_links o = []
    | NIgnored | NOther => False
    end.
  Definition entry_good (lo : nat) (F : file) (M : list (val * nat)) (w : val) (i : nat) : Prop :=
    exists o, nth_error F i = Some o /\
    match w with
    | Vnone => o = ds "None" (DStr "None")
    | Vref a => exists n, nth_error h a = Some n /\ good lo F M o n
    end.
  (** the part of the file from [lo] on is kept *)
  Definition keeps (lo : nat) (F F' : file) : Prop := forall i o, lo <= i -> nth_error F i = Some o -> nth_error F' i = Some o.
  Definition mle (M M' : list (val * nat)) : Prop := forall w k, vassoc w M = Some k -> vassoc w M' = Some k.
  Lemma mle_refl M : mle M M. Proof. now intros w k. Qed.
  Lemma mle_trans M M' M'' : mle M M' -> mle M' M'' -> mle M M''. Proof. intros A B w k E. auto. Qed.
  Section Transport.
    Variables (lo lo' : nat) (F F' : file) (M M' : list (val * nat)).
    Hypotheses (LO : lo' <= lo) (KP : keeps lo F F') (ML : mle M M').
    Lemma val_at_tr v j : val_at lo F M v j -> val_at lo' F' M' v j.
    Proof. intros [H|[a [z [E1 [E2 [E3 [E4 E5]]]]]]]; [left; auto|right; exists a, z; repeat (split; [auto; lia|])]. now apply KP. Qed.
    Lemma vals_at_tr vs js : Forall2 (val_at lo F M) vs js -> Forall2 (val_at lo' F' M') vs js.
    Proof. intros H. induction H; constructor; [now apply val_at_tr|assumption]. Qed.
    Lemma good_list_tr o r vs : good_list lo F M o r vs -> good_list lo' F' M' o r vs.
    Proof. intros [A [B [js [C D]]]]. split; [exact A|]. split; [exact B|]. exists js. split; [exact C|]. now apply vals_at_tr. Qed.
    Lemma good_dict_tr o r kvs : good_dict lo F M o r kvs -> good_dict lo' F' M' o r kvs.
    Proof.
      unfold good_dict. destruct (simple_keys h kvs) as [items|].
      - intros [A [js [B C]]]. split; [exact A|]. exists js. split; [exact B|]. now apply vals_at_tr.
      - intros [A [ik [iv [ok [ov [B [C1 [C2 [D1 [D2 [E1 E2]]]]]]]]]]]. split; [exact A|]. exists ik, iv, ok, ov. split; [exact B|]. split; [lia|]. split; [lia|].
        split; [now apply KP|]. split; [now apply KP|]. split; now apply good_list_tr.
    Qed.
    Lemma good_tr o n : good lo F M o n -> good lo' F' M' o n.
    Proof.
      destruct n; cbn; auto.
      - apply good_list_tr.
      - intros [r [A B]]. exists r. split; [exact A|]. now apply good_dict_tr.
      - intros [r [A [B [C [D G]]]]]. exists r. repeat (split; [assumption|]). now apply good_dict_tr.
      - intros [A [i [j [k [B [C [D G]]]]]]]. split; [exact A|]. exists i, j, k. split; [exact B|]. split; [now apply val_at_tr|]. split; now apply val_at_tr.
    Qed.
    Lemma entry_good_tr w i : lo <= i -> entry_good lo F M w i -> entry_good lo' F' M' w i.
    Proof. intros L [o [E H]]. exists o. split; [now apply KP|]. destruct w; [exact H|]. destruct H as [n [E' G]]. exists n. split; [exact E'|]. now apply good_tr. Qed.
  End Transport.

  (** ** What a call does to the state: objects below [length F] keep, except that the group [p] gets the links [nl] *)
  Record ext (s s' : sstate) (p : nat) (nl : list (string * nat)) : Prop := Ext {
    e_len : List.length (s_file s) <= List.length (s_file s');
    e_par : forall o, nth_error (s_file s) p = Some o -> nth_error (s_file s') p = Some (add_links o nl);
    e_old : forall i o, i <> p -> nth_error (s_file s) i = Some o -> nth_error (s_file s') i = Some o;
    e_memo : mle (s_memo s) (s_memo s');
    e_mlen : List.length (s_memo s) <= List.length (s_memo s');
    e_new : forall w k, vassoc w (s_memo s') = Some k -> vassoc w (s_memo s) = None ->
              List.length (s_file s) <= k < List.length (s_file s') /\ entry_good (List.length (s_file s)) (s_file s') (s_memo s') w k }.
  Lemma ext_fle s s' p nl : ext s s' p nl -> fle (s_file s) (s_file s').
  Proof.
    intros X i o E. destruct (Nat.eq_dec i p) as [->|N].
    - exists (add_links o nl), nl. split; [now apply (e_par X)|reflexivity].
    - exists o, []. split; [now apply (e_old X)|]. now rewrite app_nil_r.
  Qed.
  Lemma ext_keeps s s' p nl lo : ext s s' p nl -> p < lo -> keeps lo (s_file s) (s_file s').
  Proof. intros X L i o Hi E. apply (e_old X); [lia|exact E]. Qed.
  Lemma ext_refl s p : ext s s p [].
  Proof.
    constructor; auto.
    - intros o E. rewrite E. destruct o; unfold add_links; cbn. now rewrite app_nil_r.
    - apply mle_refl.
    - intros w k E N. congruence.
  Qed.
  Lemma ext_trans s s1 s2 p l1 l2 : p < List.length (s_file s) -> ext s s1 p l1 -> ext s1 s2 p l2 -> ext s s2 p (l1 ++ l2).
  Proof.
    intros HP X Y. constructor.
    - assert (A := e_len X). assert (B := e_len Y). lia.
    - intros o E. apply (e_par X) in E. apply (e_par Y) in E. rewrite E. unfold add_links. cbn. now rewrite app_assoc.
    - intros i o N E. apply (e_old Y); [exact N|]. now apply (e_old X).
    - apply (mle_trans (e_memo X) (e_memo Y)).
    - assert (A := e_mlen X). assert (B := e_mlen Y). lia.
    - intros w k E N. assert (LX := e_len X). assert (LY := e_len Y). destruct (vassoc w (s_memo s1)) as [k1|] eqn:E1.
      + assert (k1 = k) by (apply (e_memo Y) in E1; congruence). subst k1. destruct (e_new X E1 N) as [A B]. split; [lia|].
        apply (entry_good_tr (le_n _) (ext_keeps Y HP) (e_memo Y)); [lia|exact B].
      + destruct (e_new Y E E1) as [A B]. split; [lia|]. apply (entry_good_tr (lo := List.length (s_file s1)) LX (F := s_file s2) (M := s_memo s2)); [now intros i o _ Q|apply mle_refl|lia|exact B].
  Qed.

  Definition memo_ok (D : nat -> Prop) (s : sstate) : Prop :=
    NoDup (map fst (s_memo s)) /\ NoDup (map snd (s_memo s)) /\ (forall w k, In (w, k) (s_memo s) -> k < List.length (s_file s)) /\
    (forall w k, In (w, k) (s_memo s) -> match w with Vnone => True | Vref a => D a /\ a < List.length h end).
  Lemma vassoc_In v M k : vassoc v M = Some k -> In (v, k) M.
  Proof. induction M as [|[w i] M IH]; cbn; [discriminate|]. destruct (val_eqb_spec v w) as [->|N]; [intros E; injection E as ->; now left|right; auto]. Qed.
  Lemma vassoc_none v M : vassoc v M = None <-> ~ In v (map fst M).
  Proof. induction M as [|[w i] M IH]; cbn; [tauto|]. destruct (val_eqb_spec v w) as [->|N]; [split; [discriminate|tauto]|]. rewrite IH. intuition congruence. Qed.
  Lemma memo_length D s : memo_ok D s -> List.length (s_memo s) <= List.length h + 1.
  Proof.
    intros [A [_ [_ B]]]. rewrite <- (map_length fst). replace (List.length h + 1) with (List.length (Vnone :: map Vref (seq 0 (List.length h)))) by (cbn [List.length]; rewrite map_length, seq_length; lia).
    apply NoDup_incl_length; [exact A|]. intros w W. apply in_map_iff in W. destruct W as [[w' k] [<- W]]. specialize (B _ _ W). cbn. destruct w'; [now left|right].
    apply in_map_iff. exists a. split; [reflexivity|]. apply in_seq. lia.
  Qed.
  Lemma memo_length_new D s v : memo_ok D s -> vassoc v (s_memo s) = None -> match v with Vnone => True | Vref a => D a /\ a < List.length h end -> List.length (s_memo s) <= List.length h.
  Proof.
    intros [A [B [C E]]] N V. assert (K : memo_ok D (SState (s_file s ++ [ds "" (DStr "")]) ((v, List.length (s_file s)) :: s_memo s))).
    { split; [cbn; constructor; [now apply vassoc_none|exact A]|]. split.
      - cbn. constructor; [|exact B]. intros I. apply in_map_iff in I. destruct I as [[w k] [E1 I]]. cbn in E1. subst k. apply C in I. lia.
      - cbn [s_memo s_file]. split; intros w k [I|I].
        + injection I as <- <-. rewrite app_length. cbn. lia.
        + apply C in I. rewrite app_length. lia.
        + injection I as <- <-. exact V.
        + now apply E in I. }
    apply memo_length in K. cbn in K. lia.
  Qed.
End Represent.
