(** Lemmas for C73. *)
From Coq Require Import Ascii List Bool Arith Lia.
From Verif Require Import Util OpModel OpSpec.
Import ListNotations.
Set Implicit Arguments. Unset Strict Implicit.

Lemma find_word w : word w -> find_space w = None.
Proof.
  induction w as [|c w IH]; intros W; [reflexivity|]. cbn [find_space]. destruct (ascii_dec c space) as [->|N]; [exfalso; apply W; now left|].
  rewrite IH; [reflexivity|]. intros H. apply W. now right.
Qed.
Lemma find_app w t : word w -> find_space (w ++ space :: t) = Some (length w).
Proof.
  induction w as [|c w IH]; intros W; cbn [app find_space length].
  - destruct (ascii_dec space space) as [_|N]; [reflexivity|now contradiction N].
  - destruct (ascii_dec c space) as [->|N]; [exfalso; apply W; now left|]. fold (find_space (w ++ space :: t)). rewrite IH; [reflexivity|]. intros H. apply W. now right.
Qed.
Lemma find_None w : find_space w = None -> word w.
Proof.
  induction w as [|c w IH]; intros E; [intros []|]. cbn [find_space] in E. destruct (ascii_dec c space) as [->|N]; [discriminate|]. destruct (find_space w); [discriminate|].
  intros [E'|H]; [now apply N|now apply IH].
Qed.
Lemma find_Some s p : find_space s = Some p -> word (firstn p s) /\ s = firstn p s ++ space :: skipn (p + 1) s.
Proof.
  revert p. induction s as [|c s IH]; intros p E; [discriminate|]. cbn [find_space] in E. destruct (ascii_dec c space) as [->|N].
  - injection E as <-. split; [intros []|reflexivity].
  - destruct (find_space s) as [q|]; [|discriminate]. cbn [option_map] in E. injection E as <-. destruct (IH q eq_refl) as [W E]. cbn [firstn plus skipn app]. split; [|now rewrite <- E].
    intros [H|H]; [now apply N|now apply W].
Qed.
Lemma split_at (w t : name) : firstn (length w) (w ++ space :: t) = w /\ skipn (length w + 1) (w ++ space :: t) = t.
Proof.
  split.
  - rewrite firstn_app, Nat.sub_diag, firstn_all. cbn [firstn]. apply app_nil_r.
  - rewrite skipn_app, skipn_all2 by lia. replace (length w + 1 - length w) with 1 by lia. reflexivity.
Qed.
Lemma join_cons w ws : ws <> [] -> join (w :: ws) = w ++ space :: join ws.
Proof. destruct ws; [contradiction|reflexivity]. Qed.

Lemma every_name (n : name) : exists ws, ws <> [] /\ Forall word ws /\ n = join ws.
Proof.
  induction n as [|c n (ws & NE & F & ->)].
  - exists [[]]. split; [discriminate|]. split; [|reflexivity]. constructor; [intros []|constructor].
  - destruct (ascii_dec c space) as [->|N].
    + exists ([] :: ws). split; [discriminate|]. split; [constructor; [intros []|exact F]|]. now rewrite join_cons.
    + destruct ws as [|w ws]; [contradiction|]. exists ((c :: w) :: ws). split; [discriminate|]. apply Forall_cons_iff in F. destruct F as [W F]. split.
      * constructor; [|exact F]. intros [H|H]; [now apply N|now apply W].
      * destruct ws; reflexivity.
Qed.

Section Get.
Variable O : Type.
Variable compose : O -> O -> O.
Variable s : site O.

Lemma loop_join ws : forall fuel op, ws <> [] -> Forall word ws -> last ws [] <> [] -> length (join ws) <= fuel -> get_op_loop compose fuel s op (join ws) = product_from compose s op ws.
Proof.
  induction ws as [|w ws IH]; intros fuel op NE F L LF; [contradiction|]. apply Forall_cons_iff in F. destruct F as [W F].
  destruct ws as [|w' ws].
  - cbn [join last] in *. destruct fuel as [|fuel]; [destruct w; [contradiction|cbn in LF; lia]|]. cbn [get_op_loop product_from]. rewrite (find_word W). destruct w as [|c w]; [contradiction|].
    destruct (lookup s (c :: w)); reflexivity.
  - rewrite join_cons in * by discriminate. rewrite app_length in LF. cbn [length] in LF. destruct fuel as [|fuel]; [lia|]. cbn [get_op_loop product_from]. rewrite (find_app _ W).
    destruct (split_at w (join (w' :: ws))) as [E1 E2]. rewrite E1, E2. destruct (w ++ space :: join (w' :: ws)) as [|c t] eqn:E; [now destruct w|].
    destruct (lookup s w) as [o|]; [|reflexivity]. apply IH; [discriminate|exact F|exact L|lia].
Qed.
Lemma loop_nil fuel op : get_op_loop compose fuel s op [] = OOk op.
Proof. destruct fuel; reflexivity. Qed.

Lemma get_op_join ws : ws <> [] -> Forall word ws -> (last ws [] <> [] \/ length ws = 1) -> get_op compose s (join ws) = product compose s ws.
Proof.
  intros NE F L. destruct ws as [|w ws]; [contradiction|]. apply Forall_cons_iff in F. destruct F as [W F]. unfold get_op. destruct ws as [|w' ws].
  - cbn [join product]. rewrite (find_word W). now destruct (lookup s w).
  - destruct L as [L|L]; [|discriminate L]. rewrite join_cons by discriminate. rewrite (find_app _ W). destruct (split_at w (join (w' :: ws))) as [E1 E2]. rewrite E1, E2. cbn [product].
    destruct (lookup s w) as [o|]; [|reflexivity]. apply loop_join; [discriminate|exact F|exact L|lia].
Qed.
Lemma get_op_word w : word w -> get_op compose s w = match lookup s w with Some o => OOk o | None => OErr (NoOperator w) end.
Proof. intros W. unfold get_op. rewrite (find_word W). now destruct (lookup s w). Qed.

(** ending with an empty word *)
Lemma loop_trail ws : forall fuel op, ws <> [] -> Forall word ws -> last ws [] <> [] -> length (join ws ++ [space]) <= fuel -> get_op_loop compose fuel s op (join ws ++ [space]) = product_from compose s op ws.
Proof.
  induction ws as [|w ws IH]; intros fuel op NE F L LF; [contradiction|]. apply Forall_cons_iff in F. destruct F as [W F].
  destruct ws as [|w' ws].
  - cbn [join last] in *. rewrite app_length in LF. cbn [length] in LF. destruct fuel as [|fuel]; [lia|]. cbn [get_op_loop product_from]. rewrite (find_app _ W).
    destruct (split_at w []) as [E1 E2]. rewrite E1, E2. destruct (w ++ [space]) as [|c t] eqn:E; [now destruct w|]. destruct (lookup s w); [apply loop_nil|reflexivity].
  - rewrite join_cons in * by discriminate. rewrite <- app_assoc in *. cbn [app] in *. rewrite app_length in LF. cbn [length] in LF. destruct fuel as [|fuel]; [lia|]. cbn [get_op_loop product_from].
    rewrite (find_app _ W). destruct (split_at w (join (w' :: ws) ++ [space])) as [E1 E2]. rewrite E1, E2. destruct (w ++ space :: join (w' :: ws) ++ [space]) as [|c t] eqn:E; [now destruct w|].
    destruct (lookup s w) as [o|]; [|reflexivity]. apply IH; [discriminate|exact F|exact L|lia].
Qed.
Lemma get_op_trail ws : ws <> [] -> Forall word ws -> (last ws [] <> [] \/ length ws = 1) -> get_op compose s (join ws ++ [space]) = product compose s ws.
Proof.
  intros NE F L. destruct ws as [|w ws]; [contradiction|]. apply Forall_cons_iff in F. destruct F as [W F]. unfold get_op. destruct ws as [|w' ws].
  - cbn [join product]. rewrite (find_app _ W). destruct (split_at w []) as [E1 E2]. rewrite E1, E2. destruct (lookup s w); [apply loop_nil|reflexivity].
  - destruct L as [L|L]; [|discriminate L]. rewrite join_cons by discriminate. rewrite <- app_assoc. cbn [app]. rewrite (find_app _ W).
    destruct (split_at w (join (w' :: ws) ++ [space])) as [E1 E2]. rewrite E1, E2. cbn [product].
    destruct (lookup s w) as [o|]; [|reflexivity]. apply loop_trail; [discriminate|exact F|exact L|lia].
Qed.
End Get.

Lemma join_snoc ws w : ws <> [] -> join (ws ++ [w]) = join ws ++ space :: w.
Proof.
  induction ws as [|x ws IH]; intros NE; [contradiction|]. destruct ws as [|y ws]; [reflexivity|]. change ((x :: y :: ws) ++ [w]) with (x :: (y :: ws) ++ [w]).
  rewrite join_cons by (intros X; discriminate X). rewrite IH by discriminate. rewrite (@join_cons x (y :: ws)) by discriminate. now rewrite <- app_assoc.
Qed.
Lemma trailing (O : Type) (compose : O -> O -> O) (s : site O) n : get_op compose s (n ++ [" "%char]) = get_op compose s n \/ (exists m, n = m ++ [" "%char]).
Proof.
  destruct (every_name n) as (ws & NE & F & ->). destruct (exists_last NE) as (ws' & w & E). subst ws. destruct ws' as [|x ws'].
  - left. cbn [app] in NE, F. change ([] ++ [w]) with [w]. rewrite (@get_op_join O compose s [w] NE F (or_intror eq_refl)). exact (@get_op_trail O compose s [w] NE F (or_intror eq_refl)).
  - destruct w as [|c w].
    + right. exists (join (x :: ws')). rewrite join_snoc by discriminate. reflexivity.
    + left. assert (L : last ((x :: ws') ++ [c :: w]) [] <> []) by (rewrite last_last; intros X; discriminate X).
      rewrite (@get_op_join O compose s _ NE F (or_introl L)). exact (@get_op_trail O compose s _ NE F (or_introl L)).
Qed.
Lemma spaces (O : Type) (compose : O -> O -> O) (s : site O) n m : lookup s [] = None ->
  get_op compose s (" "%char :: n) = OErr (NoOperator []) /\
  (m <> [] -> forall w, word w -> contains s w = true -> get_op compose s (w ++ " "%char :: " "%char :: m) = OErr (NoOperator [])).
Proof.
  intros E. split.
  - unfold get_op. cbn [find_space]. destruct (ascii_dec " " space) as [_|N]; [|now contradiction N]. cbn [firstn]. now rewrite E.
  - intros NE w W C. change (w ++ " "%char :: " "%char :: m) with (w ++ space :: space :: m). unfold get_op. rewrite (find_app (space :: m) W). destruct (split_at w (space :: m)) as [E1 E2]. rewrite E1, E2. unfold contains in C. destruct (lookup s w); [|discriminate].
    cbn [length get_op_loop find_space]. destruct (ascii_dec space space) as [_|N]; [|now contradiction N]. cbn [firstn]. now rewrite E.
Qed.

(** ** joining names *)
Lemma multiply_join names : names <> [] -> multiply_op_names names = join names.
Proof.
  destruct names as [|w ws]; [contradiction|]. intros _. unfold multiply_op_names. cbn [length seq combine fold_left fst snd app]. change (0 <? 0) with false. cbv iota. cbn [app].
  assert (G : forall ws k acc, 0 < k -> fold_left (fun result p => (if 0 <? fst p then result ++ [space] else result) ++ snd p) (combine (seq k (length ws)) ws) acc =
              match ws with [] => acc | _ => acc ++ space :: join ws end).
  { clear. induction ws as [|w ws IH]; intros k acc K; [reflexivity|]. cbn [length seq combine fold_left fst snd]. destruct (Nat.ltb_spec 0 k); [|lia]. rewrite IH by lia.
    destruct ws as [|w' ws]; [now rewrite <- app_assoc|]. change (join (w :: w' :: ws)) with (w ++ space :: join (w' :: ws)). now rewrite <- !app_assoc. }
  rewrite G by lia. destruct ws as [|w' ws]; reflexivity.
Qed.
Lemma join_app a b : a <> [] -> b <> [] -> join (a ++ b) = join a ++ space :: join b.
Proof.
  intros NA NB. induction a as [|x a IH]; [contradiction|]. destruct a as [|y a].
  - change ([x] ++ b) with (x :: b). now rewrite join_cons.
  - change ((x :: y :: a) ++ b) with (x :: (y :: a) ++ b). rewrite join_cons by discriminate. rewrite IH by discriminate. rewrite (@join_cons x (y :: a)) by discriminate. now rewrite <- app_assoc.
Qed.
(** the words of a name that does not end with a space *)
Lemma good_words n : n <> [] -> last n "a"%char <> " "%char -> exists ws, ws <> [] /\ Forall word ws /\ n = join ws /\ last ws [] <> [].
Proof.
  intros NE L. destruct (every_name n) as (ws & N & F & ->). exists ws. repeat split; auto. destruct (exists_last N) as (ws' & w & E). subst ws. rewrite last_last. intros ->.
  destruct ws' as [|x ws']; [now apply NE|]. apply L. rewrite join_snoc by discriminate. apply last_last.
Qed.
Lemma words_of names : Forall (fun n => n <> [] /\ last n "a"%char <> " "%char) names ->
  exists wss, Forall2 (fun n ws => ws <> [] /\ Forall word ws /\ n = join ws /\ last ws [] <> []) names wss.
Proof.
  induction 1 as [|n names [N L] F (wss & IH)]; [exists []; constructor|]. destruct (good_words N L) as (ws & P). exists (ws :: wss). now constructor.
Qed.
Lemma join_join names wss : Forall2 (fun n ws => ws <> [] /\ Forall word ws /\ n = join ws /\ last ws [] <> []) names wss -> names <> [] ->
  join names = join (concat wss) /\ concat wss <> [] /\ Forall word (concat wss) /\ last (concat wss) [] <> [].
Proof.
  induction 1 as [|n ws names wss (N & F & -> & L) R IH]; intros NE; [contradiction|]. destruct names as [|n' names].
  - inversion R; subst. cbn [concat]. rewrite app_nil_r. now repeat split.
  - destruct (IH ltac:(discriminate)) as (E & N' & F' & L'). cbn [concat]. rewrite join_cons by discriminate. rewrite E. repeat split.
    + now rewrite join_app.
    + destruct ws; [contradiction|discriminate].
    + now apply Forall_app.
    + destruct (exists_last N') as (u & w & EU). rewrite EU in *. rewrite app_assoc, last_last. now rewrite last_last in L'.
Qed.
Section Multiply.
Variable O : Type.
Variable compose : O -> O -> O.
Variable s : site O.
Hypothesis ASSOC : associative compose.

Lemma product_from_app a b op : product_from compose s op (a ++ b) = obind (product_from compose s op a) (fun op => product_from compose s op b).
Proof. revert op. induction a as [|w a IH]; intros op; [reflexivity|]. cbn [app product_from]. destruct (lookup s w); [apply IH|reflexivity]. Qed.
Lemma product_assoc ws : forall a b, product_from compose s (compose a b) ws = obind (product_from compose s b ws) (fun x => OOk (compose a x)).
Proof. induction ws as [|w ws IH]; intros a b; [reflexivity|]. cbn [product_from]. destruct (lookup s w) as [o|]; [|reflexivity]. now rewrite ASSOC, IH. Qed.
Lemma product_times ws op : ws <> [] -> product_from compose s op ws = obind (product compose s ws) (fun x => OOk (compose op x)).
Proof. destruct ws as [|w ws]; [contradiction|]. intros _. cbn [product product_from]. destruct (lookup s w) as [o|]; [|reflexivity]. apply product_assoc. Qed.
Lemma product_app a b : a <> [] -> product compose s (a ++ b) = obind (product compose s a) (fun op => product_from compose s op b).
Proof. destruct a as [|w a]; [contradiction|]. intros _. cbn [app product]. destruct (lookup s w) as [o|]; [|reflexivity]. apply product_from_app. Qed.

Lemma names_fold names wss : Forall2 (fun n ws => ws <> [] /\ Forall word ws /\ n = join ws /\ last ws [] <> []) names wss -> forall r,
  fold_left (fun r y => obind r (fun op => obind (one_operator compose s y) (fun next => OOk (compose op next)))) (map inl names) r = obind r (fun op => product_from compose s op (concat wss)).
Proof.
  induction 1 as [|n ws names wss (N & F & -> & L) R IH]; intros r; cbn [map fold_left concat].
  - now destruct r.
  - rewrite IH. destruct r as [op|e]; [|reflexivity]. cbn [obind one_operator]. rewrite get_op_join by auto. rewrite product_from_app, (product_times op N). now destruct (product compose s ws).
Qed.
End Multiply.
Lemma names_multiply (O : Type) (compose : O -> O -> O) (s : site O) (names : list name) : associative compose -> names <> [] ->
  Forall (fun n => n <> [] /\ last n "a"%char <> " "%char) names ->
  get_op compose s (multiply_op_names names) = multiply_operators compose s (map inl names).
Proof.
  intros AS NE F. rewrite multiply_join by exact NE. destruct (words_of F) as (wss & R). destruct (join_join R NE) as (E & N & FW & L). rewrite E, get_op_join by auto.
  destruct R as [|n ws names wss (N1 & F1 & -> & L1) R]; [contradiction|]. cbn [map multiply_operators concat]. rewrite (names_fold s AS R). cbn [one_operator]. rewrite get_op_join by auto. now apply product_app.
Qed.

(** ** histories *)
Lemma name_eqb_spec a b : reflect (a = b) (name_eqb a b).
Proof. unfold name_eqb. destruct (list_eq_dec ascii_dec a b); now constructor. Qed.
Lemma lookup_app O (s t : site O) n : lookup (s ++ t) n = match lookup s n with Some o => Some o | None => lookup t n end.
Proof. induction s as [|[k o] s IH]; [reflexivity|]. cbn [app lookup]. now destruct (name_eqb k n). Qed.
Lemma lookup_In O (s : site O) n : contains s n = true <-> In n (map fst s).
Proof.
  unfold contains. induction s as [|[k o] s IH]; cbn [lookup map fst].
  - split; [discriminate|intros []].
  - destruct (name_eqb_spec k n) as [->|N]; [split; [now left|reflexivity]|]. rewrite IH. split; [now right|intros [H|H]; [contradiction|exact H]].
Qed.
Lemma add_inv O (s s' : site O) n o : add_onsite_operator s n o = OOk s' -> contains s n = false /\ word n /\ exists x, o = Some x /\ s' = s ++ [(n, x)].
Proof.
  unfold add_onsite_operator. destruct (contains s n); [discriminate|]. destruct (find_space n) eqn:E; [discriminate|]. destruct o as [x|]; [|discriminate]. intros H. injection H as <-.
  split; [reflexivity|]. split; [now apply find_None|]. now exists x.
Qed.
Definition fine (O : Type) (identity : O) (s : site O) : Prop := NoDup (map fst s) /\ Forall word (map fst s) /\ lookup s id_name = Some identity.
Lemma add_fine O (identity : O) s n o s' : fine identity s -> add_onsite_operator s n o = OOk s' -> fine identity s'.
Proof.
  intros (N & F & L) A. destruct (add_inv A) as (C & W & x & -> & ->). split; [|split].
  - rewrite map_app. apply NoDup_app_intro; [exact N|repeat constructor; intros []|]. intros y Y [ <-|[]]. cbn [fst] in Y. apply lookup_In in Y. now rewrite Y in C.
  - rewrite map_app. apply Forall_app. split; [exact F|]. now constructor.
  - now rewrite lookup_app, L.
Qed.
Lemma history_ok (O : Type) (identity : O) (s : site O) : history identity s -> NoDup (map fst s) /\ Forall word (map fst s) /\ lookup s id_name = Some identity.
Proof.
  change (history identity s -> fine identity s). induction 1 as [ops s E|s n o s' _ IH A]; [|exact (add_fine IH A)].
  assert (G : forall ops r, (match r with OOk s => fine identity s | OErr _ => True end) ->
    match fold_left (fun r p => obind r (fun s => add_onsite_operator s (fst p) (snd p))) ops r with OOk s => fine identity s | OErr _ => True end).
  { clear. induction ops as [|p ops IH]; intros r H; [exact H|]. cbn [fold_left]. apply IH. destruct r as [s|e]; [|exact Logic.I]. cbn [obind].
    destruct (add_onsite_operator s (fst p) (snd p)) as [s'|e] eqn:A; [|exact Logic.I]. exact (add_fine H A). }
  specialize (G ops (add_onsite_operator [] id_name (Some identity))). unfold new_site in E. rewrite E in G. apply G. cbn. split; [repeat constructor; intros []|]. split; [|reflexivity].
  constructor; [|constructor]. intros [H|[H|[]]]; discriminate H.
Qed.
Lemma add_errors (O : Type) (s : site O) n o : (exists s', add_onsite_operator s n o = OOk s') <-> contains s n = false /\ word n /\ o <> None.
Proof.
  split.
  - intros (s' & A). destruct (add_inv A) as (C & W & x & -> & _). repeat split; auto. discriminate.
  - intros (C & W & N). unfold add_onsite_operator. rewrite C, (find_word W). destruct o; [eauto|contradiction].
Qed.
Lemma loop_mono O (compose : O -> O -> O) (s t : site O) fuel : forall op rest r, get_op_loop compose fuel s op rest = OOk r -> get_op_loop compose fuel (s ++ t) op rest = OOk r.
Proof.
  induction fuel as [|fuel IH]; intros op rest r E; [exact E|]. cbn [get_op_loop] in *. destruct rest as [|c rest]; [exact E|]. rewrite lookup_app.
  destruct (lookup s _); [|discriminate]. destruct (find_space (c :: rest)); [now apply IH|exact E].
Qed.
Lemma add_ok (O : Type) (compose : O -> O -> O) (s s' : site O) n o : add_onsite_operator s n (Some o) = OOk s' ->
  get_op compose s' n = OOk o /\ contains s' n = true /\ (forall m r, get_op compose s m = OOk r -> get_op compose s' m = OOk r) /\ (forall m, m <> n -> contains s' m = contains s m).
Proof.
  intros A. destruct (add_inv A) as (C & W & x & E & ->). injection E as <-.
  assert (L : lookup (s ++ [(n, o)]) n = Some o). { rewrite lookup_app. unfold contains in C. destruct (lookup s n); [discriminate|]. cbn [lookup]. now destruct (name_eqb_spec n n). }
  split; [|split; [|split]].
  - rewrite get_op_word by exact W. now rewrite L.
  - unfold contains. now rewrite L.
  - intros m r G. unfold get_op in *. rewrite lookup_app. destruct (lookup s _); [|discriminate]. destruct (find_space m); [now apply loop_mono|exact G].
  - intros m N. unfold contains. rewrite lookup_app. destruct (lookup s m); [reflexivity|]. cbn [lookup]. destruct (name_eqb_spec n m); [congruence|reflexivity].
Qed.
Lemma valid_ok (O : Type) (compose : O -> O -> O) (identity : O) (s : site O) n : history identity s -> contains s n = true -> exists o, lookup s n = Some o /\ get_op compose s n = OOk o.
Proof.
  intros H C. destruct (history_ok H) as (_ & F & _). assert (W : word n) by (rewrite Forall_forall in F; apply F; now apply lookup_In). unfold contains in C. destruct (lookup s n) as [o|] eqn:E; [|discriminate].
  exists o. split; [reflexivity|]. rewrite get_op_word by exact W. now rewrite E.
Qed.
Lemma no_names (O : Type) (compose : O -> O -> O) (identity : O) s : history identity s -> get_op compose s (multiply_op_names []) = OOk identity /\ multiply_operators compose s [] = OOk identity.
Proof.
  intros H. destruct (history_ok H) as (_ & _ & L). split.
  - cbn [multiply_op_names]. rewrite get_op_word; [now rewrite L|]. intros [X|[X|[]]]; discriminate X.
  - unfold multiply_operators, at_. now rewrite L.
Qed.
Lemma product_names (O : Type) (compose : O -> O -> O) (identity : O) (s : site O) n m : history identity s -> contains s n = true -> contains s m = true -> m <> [] ->
  contains s (multiply_op_names [n; m]) = false /\ exists o, get_op compose s (multiply_op_names [n; m]) = OOk o.
Proof.
  intros H Cn Cm N. destruct (history_ok H) as (_ & F & _). rewrite Forall_forall in F. assert (Wn : word n) by (apply F; now apply lookup_In). assert (Wm : word m) by (apply F; now apply lookup_In).
  rewrite multiply_join by discriminate. split.
  - destruct (contains s (join [n; m])) eqn:C; [|reflexivity]. apply lookup_In in C. apply F in C. exfalso. apply C. cbn [join]. apply in_app_iff. right. now left.
  - rewrite get_op_join; [|discriminate|now repeat constructor|now left]. unfold contains in Cn, Cm. cbn [product product_from]. destruct (lookup s n); [|discriminate]. destruct (lookup s m); [|discriminate]. eauto.
Qed.
Section Mixed.
Variable O : Type.
Variable compose : O -> O -> O.
Variable s : site O.
Let step (r : ores O) (y : name + O) : ores O := obind r (fun op => obind (one_operator compose s y) (fun next => OOk (compose op next))).
Lemma means_one x o : means compose s x o -> one_operator compose s x = OOk o.
Proof. destruct x as [n|o']; [exact id|]. intros <-. reflexivity. Qed.
Lemma mixed_fold xs os : Forall2 (means compose s) xs os -> forall o, fold_left step xs (OOk o) = OOk (fold_left compose os o).
Proof. induction 1 as [|x o' xs os M F IH]; intros o; [reflexivity|]. cbn [fold_left]. unfold step at 2. cbn [obind]. rewrite (means_one M). cbn [obind]. apply IH. Qed.
Lemma error_fold xs e : fold_left step xs (OErr e) = OErr e.
Proof. induction xs as [|x xs IH]; [reflexivity|]. exact IH. Qed.
Lemma mixed_ok x o xs os : means compose s x o -> Forall2 (means compose s) xs os -> multiply_operators compose s (x :: xs) = OOk (fold_left compose os o).
Proof. intros M F. cbn [multiply_operators]. rewrite (means_one M). now apply mixed_fold. Qed.
Lemma mixed_error xs os n e ys : Forall2 (means compose s) xs os -> get_op compose s n = OErr e -> multiply_operators compose s (xs ++ inl n :: ys) = OErr e.
Proof.
  intros F E. destruct F as [|x o xs os M F]; cbn [app multiply_operators].
  - cbn [one_operator]. rewrite E. apply error_fold.
  - rewrite (means_one M). change (fold_left step (xs ++ inl n :: ys) (OOk o) = OErr e). rewrite fold_left_app, (mixed_fold F). cbn [fold_left]. unfold step at 2. cbn [obind one_operator]. rewrite E. apply error_fold.
Qed.
End Mixed.
