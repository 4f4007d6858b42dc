From Coq Require Import String ZArith QArith List Bool Lia.
From Verif Require Import Util ConfigModel ConfigSpec.
Import ListNotations.
Set Implicit Arguments. Unset Strict Implicit.
Open Scope string_scope.

Section Proofs.
  Variable stod : string -> option flt.

  Lemma is_key_kind k : is_key k = true <-> kind_of k <> None.
  Proof.
    unfold is_key, kind_of, all_option_keys, options_table. cbn [existsb find fst].
    rewrite !(String.eqb_sym k).
    repeat match goal with |- context [(?a =? k)%string] => destruct (a =? k)%string eqn:?; cbn [orb snd]; [split; [intros _; discriminate|reflexivity]|] end.
    split; [discriminate|intros X; now contradiction X].
  Qed.

  Ltac keys k := destruct (String.eqb_spec k "print_linewidth") as [->|?]; [|destruct (String.eqb_spec k "print_indent") as [->|?];
    [|destruct (String.eqb_spec k "maxlines_spaces") as [->|?]; [|destruct (String.eqb_spec k "maxlines_tensors") as [->|?];
    [|destruct (String.eqb_spec k "check_fusion") as [->|?]; [|destruct (String.eqb_spec k "default_tensor_backend") as [->|?];
    [|destruct (String.eqb_spec k "default_block_backend") as [->|?]; [|destruct (String.eqb_spec k "fusion_tree_eps") as [->|?]]]]]]]].

  Lemma kind_none k : kind_of k = None -> k <> "print_linewidth" /\ k <> "print_indent" /\ k <> "maxlines_spaces" /\ k <> "maxlines_tensors" /\
    k <> "check_fusion" /\ k <> "default_tensor_backend" /\ k <> "default_block_backend" /\ k <> "fusion_tree_eps".
  Proof. intros H. repeat split; intros ->; vm_compute in H; discriminate. Qed.
  Lemma kind_other k : k <> "print_linewidth" -> k <> "print_indent" -> k <> "maxlines_spaces" -> k <> "maxlines_tensors" ->
    k <> "check_fusion" -> k <> "default_tensor_backend" -> k <> "default_block_backend" -> k <> "fusion_tree_eps" -> kind_of k = None.
  Proof.
    intros. unfold kind_of, options_table. cbn [find fst].
    repeat match goal with |- context [(?a =? k)%string] => destruct (String.eqb_spec a k); [subst; congruence|] end. reflexivity.
  Qed.

  Definition effect (k : string) (x : option optval) (c : config) (r : result) : Prop :=
    match x with
    | None => fst r = c /\ snd r <> None
    | Some y => snd r = None /\ get_option (fst r) k = Some y /\ forall k', k' <> k -> get_option (fst r) k' = get_option c k'
    end.

  Ltac other := let k' := fresh in let H := fresh in intros k' H; unfold get_option;
    cbn [fst ok print_linewidth print_indent maxlines_spaces maxlines_tensors check_fusion default_tensor_backend default_block_backend fusion_tree_eps];
    repeat match goal with |- context [(k' =? ?a)%string] => destruct (String.eqb_spec k' a); try congruence end.
  Ltac fin := first [split; [reflexivity|discriminate] | split; [reflexivity|]; split; [reflexivity|other]].

  Lemma set_int_ok k z c : effect k (match kind_of k with Some (KInt m) => int_value m z | Some KFloat => float_value (Fnum (inject_Z z)) | _ => None end) c (set_int k z c).
  Proof.
    keys k; unfold set_int; [| | | | | | | |]; try (cbn [kind_of options_table find fst snd String.eqb Ascii.eqb Bool.eqb]; unfold check_min, int_value, set_float, float_value;
      cbn [String.eqb Ascii.eqb Bool.eqb]).
    1,2,3,4: destruct (Z.ltb_spec z 0), (Z.ltb_spec z 10), (Z.leb_spec 0 z), (Z.leb_spec 10 z); try lia; unfold effect; fin.
    1,2,3: split; [reflexivity|discriminate].
    - destruct (flt_neg (Fnum (inject_Z z))); unfold effect; fin.
    - rewrite kind_other by easy.
      repeat match goal with |- context [(k =? ?a)%string] => destruct (String.eqb_spec k a); [congruence|] end.
      destruct (is_key k) eqn:E; [|split; [reflexivity|discriminate]]. apply is_key_kind in E. rewrite kind_other in E by easy. congruence.
  Qed.
  Lemma set_float_ok k f c : effect k (match kind_of k with Some KFloat => float_value f | _ => None end) c (set_float k f c).
  Proof.
    keys k; unfold set_float; try (cbn [kind_of options_table find fst snd String.eqb Ascii.eqb Bool.eqb]; unfold float_value; split; [reflexivity|discriminate]).
    - cbn [kind_of options_table find fst snd String.eqb Ascii.eqb Bool.eqb]. unfold float_value. destruct (flt_neg f); unfold effect; fin.
    - rewrite kind_other by easy.
      repeat match goal with |- context [(k =? ?a)%string] => destruct (String.eqb_spec k a); [congruence|] end.
      destruct (is_key k) eqn:E; split; try reflexivity; discriminate.
  Qed.
  Lemma set_bool_ok k b c : effect k (match kind_of k with Some KBool => Some (OBool b) | _ => None end) c (set_bool k b c).
  Proof.
    keys k; unfold set_bool; try (cbn [kind_of options_table find fst snd String.eqb Ascii.eqb Bool.eqb]; split; [reflexivity|discriminate]).
    - cbn [kind_of options_table find fst snd String.eqb Ascii.eqb Bool.eqb]. unfold effect; fin.
    - rewrite kind_other by easy.
      repeat match goal with |- context [(k =? ?a)%string] => destruct (String.eqb_spec k a); [congruence|] end.
      destruct (is_key k) eqn:E; split; try reflexivity; discriminate.
  Qed.
  Lemma set_string_ok k s c : effect k (meaning stod k (VStr s)) c (set_string stod k s c).
  Proof.
    keys k; unfold set_string, meaning.
    1,2,3,4: cbn [String.eqb Ascii.eqb Bool.eqb orb kind_of options_table find fst snd]; destruct (parse_int64 s) as [z|];
      [match goal with |- effect ?k _ _ _ => exact (set_int_ok k z c) end|split; [reflexivity|discriminate]].
    - exact (set_bool_ok "check_fusion" (coerce_bool s) c).
    - cbn [String.eqb Ascii.eqb Bool.eqb orb kind_of options_table find fst snd]. unfold tensor_backends.
      destruct (existsb (String.eqb s) ["no_symmetry"; "abelian"; "fusion_tree"]); unfold effect; fin.
    - cbn [String.eqb Ascii.eqb Bool.eqb orb kind_of options_table find fst snd]. unfold block_backends.
      destruct (existsb (String.eqb s) ["numpy"; "torch"; "cpu"; "gpu"; "apple_silicon"]); unfold effect; fin.
    - cbn [String.eqb Ascii.eqb Bool.eqb orb kind_of options_table find fst snd]. destruct (stod s) as [f|]; [exact (set_float_ok "fusion_tree_eps" f c)|].
      split; [reflexivity|discriminate].
    - rewrite kind_other by easy.
      repeat match goal with |- context [(k =? ?a)%string] => destruct (String.eqb_spec k a); [congruence|] end. split; [reflexivity|discriminate].
  Qed.
  Lemma set_value_ok k v c : effect k (meaning stod k v) c (set_value stod k v c).
  Proof.
    destruct v as [b|z|f|s|s]; unfold set_value.
    - pose proof (set_bool_ok k b c) as H. unfold meaning. destruct (kind_of k) as [[]|]; exact H.
    - unfold meaning. destruct (in_int64 z).
      + pose proof (set_int_ok k z c) as H. destruct (kind_of k) as [[]|]; exact H.
      + assert (X : effect k None c (raise c CastError)) by (split; [reflexivity|discriminate]). destruct (kind_of k) as [[]|]; exact X.
    - pose proof (set_float_ok k f c) as H. unfold meaning. destruct (kind_of k) as [[]|]; exact H.
    - exact (set_string_ok k s c).
    - pose proof (set_string_ok k s c) as H. unfold meaning in *. destruct (kind_of k) as [[]|]; exact H.
  Qed.

  (** ** bounds *)
  Lemma meaning_within k v x : meaning stod k v = Some x -> within k (Some x).
  Proof.
    unfold meaning, within. destruct (kind_of k) as [[m| |l|]|]; destruct v as [b|z|f|s|s]; try discriminate; unfold int_value, float_value.
    - destruct (in_int64 z); [|discriminate]. destruct (Z.leb_spec m z); intros E; inversion E; easy.
    - destruct (parse_int64 s) as [z|]; [|discriminate]. destruct (Z.leb_spec m z); intros E; inversion E; easy.
    - destruct (parse_int64 s) as [z|]; [|discriminate]. destruct (Z.leb_spec m z); intros E; inversion E; easy.
    - intros E; now inversion E.
    - intros E; now inversion E.
    - intros E; now inversion E.
    - destruct (existsb (String.eqb s) l) eqn:Ex; intros E; inversion E; subst. apply existsb_exists in Ex. destruct Ex as [y [Hy Ey]]. apply String.eqb_eq in Ey. now subst.
    - destruct (existsb (String.eqb s) l) eqn:Ex; intros E; inversion E; subst. apply existsb_exists in Ex. destruct Ex as [y [Hy Ey]]. apply String.eqb_eq in Ey. now subst.
    - destruct (in_int64 z); [|discriminate]. destruct (flt_neg (Fnum (inject_Z z))) eqn:En; intros E; inversion E; subst. unfold flt_neg in En.
      apply negb_false_iff in En. now apply Qle_bool_iff.
    - destruct (flt_neg f) eqn:En; intros E; inversion E; subst. destruct f; cbn in En; [|easy|easy]. apply negb_false_iff in En. now apply Qle_bool_iff.
    - destruct (stod s) as [f|]; [|discriminate]. destruct (flt_neg f) eqn:En; intros E; inversion E; subst. destruct f; cbn in En; [|easy|easy]. apply negb_false_iff in En. now apply Qle_bool_iff.
    - destruct (stod s) as [f|]; [|discriminate]. destruct (flt_neg f) eqn:En; intros E; inversion E; subst. destruct f; cbn in En; [|easy|easy]. apply negb_false_iff in En. now apply Qle_bool_iff.
  Qed.
  Lemma default_within : config_within default_config.
  Proof. intros k Hk. cbn in Hk. repeat (destruct Hk as [<-|Hk]; [cbn; intuition (try lia; try discriminate)|]); try contradiction. Qed.
  Lemma effect_within k v c r : effect k (meaning stod k v) c r -> config_within c -> config_within (fst r).
  Proof.
    intros E W. destruct (meaning stod k v) as [x|] eqn:Em; cbn in E.
    - destruct E as [_ [E1 E2]]. intros k' Hk'. destruct (String.string_dec k' k) as [->|N].
      + rewrite E1. now apply meaning_within with v.
      + rewrite E2 by easy. now apply W.
    - destruct E as [-> _]. easy.
  Qed.
  Lemma update_within o : forall c, config_within c -> config_within (fst (update stod o c)).
  Proof.
    induction o as [|[[k|] v] o IH]; intros c W; cbn [update]; [easy| |easy].
    pose proof (effect_within (set_value_ok k v c) W) as H. destruct (set_value stod k v c) as [c' [e|]]; cbn [fst] in *; [easy|]. now apply IH.
  Qed.
  Lemma env_within e : forall ks c, config_within c -> config_within (fold_left (fun c k => match e k with None => c | Some v => fst (set_string stod k v c) end) ks c).
  Proof.
    induction ks as [|k ks IH]; intros c W; cbn [fold_left]; [easy|]. apply IH. destruct (e k) as [v|]; [|easy].
    exact (effect_within (set_string_ok k v c) W).
  Qed.
  Lemma file_within f c : config_within c -> config_within (try_update_from_file stod f c).
  Proof.
    intros W. unfold try_update_from_file, update_from_file. destruct f as [| | |y]; try easy. destruct y as [|o| |]; try easy. now apply update_within.
  Qed.
  Lemma restore_within W a b d g : config_within (g_config (fst (restore_defaults stod W a b d g))).
  Proof.
    unfold restore_defaults.
    assert (X : forall c, config_within c -> config_within (g_config (fst (
      let c := if a then try_update_from_file stod (user_file W) c else c in
      let c := if b then try_update_from_file stod (local_file W) c else c in
      let c := if d then update_from_env stod (env W) c else c in (GState c true, @None error))))).
    { intros c Wc. cbv zeta. cbn [fst g_config].
      assert (W1 : config_within (if a then try_update_from_file stod (user_file W) c else c)) by (destruct a; [now apply file_within|easy]).
      assert (W2 : config_within (if b then try_update_from_file stod (local_file W) (if a then try_update_from_file stod (user_file W) c else c) else (if a then try_update_from_file stod (user_file W) c else c)))
        by (destruct b; [now apply file_within|easy]).
      destruct d; [|easy]. now apply env_within. }
    specialize (X _ default_within). destruct a; [|exact X]. destruct (user_file W); try exact X. exact default_within.
  Qed.
  Lemma get_config_within W g : config_within (g_config g) -> config_within (g_config (fst (get_config stod W g))).
  Proof. intros H. unfold get_config. destruct (g_init g); [easy|]. apply restore_within. Qed.
  Lemma set_options_within W o g : config_within (g_config g) -> config_within (g_config (fst (set_options stod W o g))).
  Proof.
    intros H. unfold set_options. pose proof (get_config_within W H) as X. destruct (get_config stod W g) as [g' [e|]]; [easy|].
    pose proof (update_within o X) as Y. cbn [fst] in *. destruct (update stod o (g_config g')) as [c e]. easy.
  Qed.

  (** induction over programs *)
  Section Ind.
    Variable P : cmd -> Prop.
    Hypothesis H1 : forall o, P (SetOptions o).
    Hypothesis H2 : forall a b d, P (RestoreDefaults a b d).
    Hypothesis H3 : P GetConfig.
    Hypothesis H4 : forall l, Forall P l -> P (Try l).
    Hypothesis H5 : forall o l, Forall P l -> P (With o l).
    Fixpoint cmd_ind' (c : cmd) : P c :=
      let fix all (l : list cmd) : Forall P l := match l with [] => Forall_nil _ | c :: r => Forall_cons _ (cmd_ind' c) (all r) end in
      match c with
      | SetOptions o => H1 o | RestoreDefaults a b d => H2 a b d | GetConfig => H3 | Try l => H4 (all l) | With o l => H5 o (all l)
      end.
  End Ind.
  Lemma run_Try W l g : run stod W (Try l) g = (fst (run_all stod W l g), None).
  Proof.
    cbn [run]. f_equal. f_equal. revert g. induction l as [|c r IH]; intros g; [easy|]. cbn [run_all]. destruct (run stod W c g) as [g' [e|]]; [easy|]. apply IH.
  Qed.
  Lemma run_With W o l g : run stod W (With o l) g =
    match temp_enter stod W (new_temp o) g with
    | (g, _, Some e) => (g, Some e)
    | (g, t, None) => let (g', e) := run_all stod W l g in (fst (temp_exit t g'), e)
    end.
  Proof.
    cbn [run]. destruct (temp_enter stod W (new_temp o) g) as [[g1 t] [e|]]; [easy|].
    assert (X : forall l g, (fix run_all (l : list cmd) (g : gstate) {struct l} : gstate * option error :=
       match l with [] => (g, None) | c :: r => match run stod W c g with (g, None) => run_all r g | (g, Some e) => (g, Some e) end end) l g = run_all stod W l g).
    { clear. induction l as [|c r IH]; intros g; [easy|]. cbn [run_all]. destruct (run stod W c g) as [g' [e|]]; [easy|]. apply IH. }
    rewrite X. reflexivity.
  Qed.
  Lemma temp_enter_within W o g : config_within (g_config g) ->
    let '(g', t, e) := temp_enter stod W (new_temp o) g in config_within (g_config g') /\ config_within (t_saved t).
  Proof.
    intros H. unfold temp_enter, new_temp. cbn [t_entered t_saved t_options]. pose proof (get_config_within W H) as X.
    destruct (get_config stod W g) as [g' [e|]]; cbn [fst] in X; [split; [easy|exact default_within]|].
    pose proof (update_within o X) as Y. destruct (update stod o (g_config g')) as [c [e|]]; easy.
  Qed.
  Lemma run_all_within W l : Forall (fun c => forall g, config_within (g_config g) -> config_within (g_config (fst (run stod W c g)))) l ->
    forall g, config_within (g_config g) -> config_within (g_config (fst (run_all stod W l g))).
  Proof.
    induction 1 as [|c r Hc _ IH]; intros g Hg; [easy|]. cbn [run_all]. specialize (Hc g Hg). destruct (run stod W c g) as [g' [e|]]; [easy|]. now apply IH.
  Qed.
  Lemma run_within W c : forall g, config_within (g_config g) -> config_within (g_config (fst (run stod W c g))).
  Proof.
    induction c as [o|a b d| |l F|o l F] using cmd_ind'; intros g Hg.
    - now apply set_options_within.
    - apply restore_within.
    - now apply get_config_within.
    - rewrite run_Try. cbn [fst]. now apply run_all_within.
    - rewrite run_With. pose proof (temp_enter_within W o Hg) as X. destruct (temp_enter stod W (new_temp o) g) as [[g1 t] [e|]]; [easy|].
      destruct X as [X1 X2]. pose proof (run_all_within F X1) as Y. destruct (run_all stod W l g1) as [g2 e]. cbn [fst] in *.
      unfold temp_exit. destruct (t_entered t); easy.
  Qed.
  Lemma program_within W l : config_within (g_config (fst (run_all stod W l initial))).
  Proof. apply run_all_within; [|exact default_within]. apply Forall_forall. intros c _. apply run_within. Qed.

  (** ** update *)
  Lemma update_spec o : NoDup (map fst o) -> forall c, exists c' e, update stod o c = (c', e) /\
    (e = None <-> valid_prefix stod o = o) /\
    forall k, get_option c' k = match assigned stod (valid_prefix stod o) k with Some x => Some x | None => get_option c k end.
  Proof.
    induction o as [|[[k|] v] o IH]; intros ND c; cbn [update].
    - exists c, None. split; [easy|]. split; [easy|]. intros k. easy.
    - inversion ND as [|? ? NI ND']; subst. pose proof (set_value_ok k v c) as E. cbn [valid_prefix]. unfold item_ok at 1 2. cbn [fst snd].
      destruct (set_value stod k v c) as [c1 e1]. destruct (meaning stod k v) as [x|] eqn:Em; cbn [effect fst snd] in E.
      + destruct E as [-> [E1 E2]]. destruct (IH ND' c1) as [c' [e [U [EN EG]]]]. exists c', e. split; [easy|]. split.
        { rewrite EN. split; [intros ->; easy|]. intros X. injection X as X; exact X. }
        intros k'. rewrite EG. unfold assigned at 2. cbn [find fst]. destruct (String.eqb_spec k k') as [->|N].
        * cbn [snd]. rewrite Em. unfold assigned.
          destruct (find _ (valid_prefix stod o)) as [[k2 v2]|] eqn:Ef; [|easy].
          exfalso. apply find_some in Ef. destruct Ef as [I1 I2]. cbn [fst] in I2. destruct k2 as [k2|]; [|discriminate]. apply String.eqb_eq in I2. subst k2.
          apply NI. apply in_map_iff. exists (Some k', v2). split; [easy|].
          clear - I1. induction o as [|it o IH]; [easy|]. cbn [valid_prefix] in I1. destruct (item_ok stod it); [|easy]. destruct I1 as [<-|I1]; [now left|right; auto].
        * fold (assigned stod (valid_prefix stod o) k'). destruct (assigned stod (valid_prefix stod o) k'); [easy|]. apply E2. congruence.
      + destruct E as [-> E2]. destruct e1 as [e1|]; [|congruence]. exists c, (Some e1). split; [easy|]. split; [split; discriminate|]. easy.
    - exists c, (Some CastError). split; [easy|]. split; [split; discriminate|]. intros k. easy.
  Qed.

  (** ** restore_defaults *)
  Lemma env_fold e : forall ks c, NoDup ks -> forall k,
    get_option (fold_left (fun c k => match e k with None => c | Some v => fst (set_string stod k v c) end) ks c) k =
    match (if in_dec String.string_dec k ks then match e k with Some v => meaning stod k (VStr v) | None => None end else None) with
    | Some x => Some x | None => get_option c k end.
  Proof.
    induction ks as [|k0 ks IH]; intros c ND k; [easy|]. inversion ND as [|? ? NI ND']; subst. cbn [fold_left]. rewrite IH by easy.
    set (c1 := match e k0 with None => c | Some v => fst (set_string stod k0 v c) end).
    assert (E : forall k', get_option c1 k' = if String.string_dec k' k0 then match (match e k0 with Some v => meaning stod k0 (VStr v) | None => None end) with Some x => Some x | None => get_option c k' end else get_option c k').
    { intros k'. unfold c1. destruct (e k0) as [v|]; [|now destruct (string_dec k' k0)]. pose proof (set_string_ok k0 v c) as X. unfold effect in X.
      destruct (meaning stod k0 (VStr v)) as [x|].
      - destruct X as [_ [X1 X2]]. destruct (string_dec k' k0) as [->|N]; [easy|auto].
      - destruct X as [-> _]. now destruct (string_dec k' k0). }
    rewrite E. destruct (in_dec string_dec k ks) as [I|I], (in_dec string_dec k (k0 :: ks)) as [J|J]; cbn [In] in J; try tauto.
    - destruct (string_dec k k0) as [->|N]; [contradiction|easy].
    - destruct J as [->|J]; [|contradiction]. destruct (string_dec k k); [|congruence]. easy.
    - destruct (string_dec k k0) as [->|N]; [tauto|easy].
  Qed.
  Lemma get_option_unknown c k : kind_of k = None -> get_option c k = None.
  Proof.
    intros H. apply kind_none in H. unfold get_option.
    repeat match goal with |- context [(k =? ?a)%string] => destruct (String.eqb_spec k a); [subst; tauto|] end. easy.
  Qed.
  Lemma meaning_unknown k v : kind_of k = None -> meaning stod k v = None.
  Proof. intros H. unfold meaning. now rewrite H. Qed.
  Lemma keys_known k : In k all_option_keys <-> kind_of k <> None.
  Proof.
    rewrite <- is_key_kind. unfold is_key. rewrite existsb_exists. split.
    - intros H. exists k. split; [easy|apply String.eqb_refl].
    - intros [x [Hx E]]. apply String.eqb_eq in E. now subst.
  Qed.
  Lemma env_spec W c k : get_option (update_from_env stod (env W) c) k =
    match (match env W k with Some v => meaning stod k (VStr v) | None => None end) with Some x => Some x | None => get_option c k end.
  Proof.
    unfold update_from_env. rewrite env_fold.
    - destruct (in_dec String.string_dec k all_option_keys) as [I|I]; [easy|].
      assert (K : kind_of k = None) by (destruct (kind_of k) eqn:E; [exfalso; apply I, keys_known; congruence|easy]).
      rewrite (get_option_unknown _ K). destruct (env W k); [now rewrite (meaning_unknown _ K)|easy].
    - unfold all_option_keys. repeat constructor; cbn; intuition discriminate.
  Qed.
End Proofs.
