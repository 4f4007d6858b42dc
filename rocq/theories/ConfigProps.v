(** C47: configuration options. *)
From Coq Require Import String ZArith QArith List Bool Lia.
From Verif Require Import Util ConfigModel ConfigSpec ConfigProofs.
Import ListNotations.
Open Scope string_scope.

(** After any program - set_option(s), restore_defaults, temporary options, with exceptions caught or not - and in any surroundings, every
    option is within its documented bounds.  [stod] stands for the C library's float parser. *)
Theorem C47_options_stay_within_bounds stod (W : world) (program : list cmd) :
  config_within (g_config (fst (run_all stod W program initial))).
Proof. apply program_within. Qed.

(** ... except that NaN is accepted for the float option although the message demands a value >= 0. *)
Theorem C47_fusion_tree_eps_is_a_number_refuted : exists stod W program c,
  run_all stod W program initial = (GState c true, None) /\ fusion_tree_eps c = Fnan.
Proof.
  exists (fun _ => None), (World (fun _ => None) FNone FNone), [SetOptions [(Some "fusion_tree_eps", VFloat Fnan)]]. eexists. split; reflexivity.
Qed.

(** Assigning one option: an acceptable value is stored and no other option changes; any other value raises and nothing changes. *)
Theorem C47_set_option stod k v c :
  match meaning stod k v with
  | Some x => exists c', set_value stod k v c = (c', None) /\ get_option c' k = Some x /\ forall k', k' <> k -> get_option c' k' = get_option c k'
  | None => exists e, set_value stod k v c = (c, Some e)
  end.
Proof.
  pose proof (set_value_ok stod k v c) as H. unfold effect in H. destruct (set_value stod k v c) as [c' [e|]]; destruct (meaning stod k v); cbn [fst snd] in H.
  - destruct H; discriminate.
  - destruct H as [-> _]. now exists e.
  - exists c'. split; [reflexivity|]. exact (proj2 H).
  - destruct H; congruence.
Qed.

(** Updating from a mapping: the items are applied up to the first unacceptable one; there, the update raises. In particular the option with the
    unacceptable value, and those after it, are not changed. *)
Theorem C47_update stod options c : NoDup (map fst options) ->
  exists c' e, update stod options c = (c', e) /\ (e = None <-> forallb (item_ok stod) options = true) /\
    forall k, get_option c' k = match assigned stod (valid_prefix stod options) k with Some x => Some x | None => get_option c k end.
Proof.
  intros ND. destruct (update_spec stod ND c) as [c' [e [U [EN EG]]]]. exists c', e. split; [exact U|]. split; [|exact EG]. rewrite EN. clear.
  induction options as [|it o IH]; [easy|]. cbn [valid_prefix forallb]. destruct (item_ok stod it); [|split; discriminate]. cbn [andb]. rewrite <- IH.
  split; [intros X; now injection X as X|now intros ->].
Qed.

(** Precedence of the sources in restore_defaults(): environment, local file, user file, default value. *)
Definition file_items (f : file) : list (option string * pyval) := match f with FYaml (YDict d) => d | _ => [] end.
Definition env_value stod (W : world) k := match env W k with Some s => meaning stod k (VStr s) | None => None end.
Definition first_of {A} (l : list (option A)) : option A := fold_right (fun x r => match x with Some _ => x | None => r end) None l.
Theorem C47_precedence stod W g : user_file W <> FBadOverride ->
  NoDup (map fst (file_items (user_file W))) -> NoDup (map fst (file_items (local_file W))) ->
  exists c, restore_defaults stod W true true true g = (GState c true, None) /\
    forall k, get_option c k = first_of [env_value stod W k; assigned stod (valid_prefix stod (file_items (local_file W))) k;
                                         assigned stod (valid_prefix stod (file_items (user_file W))) k; get_option default_config k].
Proof.
  intros HB N1 N2.
  assert (F : forall f c, f <> FBadOverride -> NoDup (map fst (file_items f)) -> forall k, get_option (try_update_from_file stod f c) k =
    match assigned stod (valid_prefix stod (file_items f)) k with Some x => Some x | None => get_option c k end).
  { intros f c Hf ND k. unfold try_update_from_file, update_from_file. destruct f as [| | |y]; try reflexivity.
    destruct y as [|o| |]; try reflexivity. cbn [update_from_yaml file_items] in *. destruct (update_spec stod ND c) as [c' [e [-> [_ EG]]]]. apply EG. }
  assert (L : local_file W = FBadOverride \/ local_file W <> FBadOverride) by (destruct (local_file W); auto; right; discriminate).
  exists (update_from_env stod (env W) (try_update_from_file stod (local_file W) (try_update_from_file stod (user_file W) default_config))). split.
  { unfold restore_defaults. destruct (user_file W); try reflexivity. congruence. }
  intros k. rewrite env_spec. unfold first_of. cbn [fold_right]. fold (env_value stod W k). destruct (env_value stod W k); [reflexivity|].
  destruct L as [L|L].
  - rewrite L. cbn [file_items valid_prefix assigned find]. unfold try_update_from_file at 1. cbn [update_from_file fst ok].
    rewrite (F _ _ HB N1 k). destruct (assigned stod (valid_prefix stod (file_items (user_file W))) k); [reflexivity|]. now destruct (get_option default_config k).
  - rewrite (F _ _ L N2 k). destruct (assigned stod (valid_prefix stod (file_items (local_file W))) k); [reflexivity|].
    rewrite (F _ _ HB N1 k). destruct (assigned stod (valid_prefix stod (file_items (user_file W))) k); [reflexivity|]. now destruct (get_option default_config k).
Qed.

(** temporary_options with acceptable values: whatever the body does, and even if it raises, the configuration is restored. *)
Theorem C47_temporary_options stod W options body g : g_init g = true -> forallb (item_ok stod) options = true -> NoDup (map fst options) ->
  g_config (fst (run stod W (With options body) g)) = g_config g.
Proof.
  intros Hi HV ND. rewrite run_With. unfold temp_enter, new_temp, get_config. cbn [t_entered t_saved t_options]. rewrite Hi.
  destruct (C47_update stod options (g_config g) ND) as [c' [e [U [EN _]]]]. rewrite U. rewrite (proj2 EN HV). cbn beta iota zeta.
  destruct (run_all stod W body _) as [g2 e2]. reflexivity.
Qed.

(** FINDING: if one of the temporary options is not acceptable, __enter__ raises but the options before it stay changed for good. *)
Theorem C47_temporary_options_failing_enter_refuted : exists stod W options body g e, g_init g = true /\ NoDup (map fst options) /\
  snd (run stod W (With options body) g) = Some e /\ g_config (fst (run stod W (With options body) g)) <> g_config g.
Proof.
  exists (fun _ => None), (World (fun _ => None) FNone FNone), [(Some "print_indent", VInt 7); (Some "maxlines_spaces", VInt (-1))], [], (GState default_config true), ValueError.
  split; [reflexivity|]. split; [repeat constructor; cbn; intuition discriminate|]. split; [reflexivity|]. vm_compute. discriminate.
Qed.
(** FINDING: a configuration file with an unacceptable value is reported as ignored, but the options before it are taken from the file. *)
Theorem C47_invalid_file_ignored_refuted : exists stod f c e, snd (update_from_file stod f c) = Some e /\ try_update_from_file stod f c <> c.
Proof.
  exists (fun _ => None), (FYaml (YDict [(Some "print_indent", VInt 7); (Some "maxlines_spaces", VInt (-1))])), default_config, ValueError.
  split; [reflexivity|]. vm_compute. discriminate.
Qed.

(** concrete cases *)
Example C47_ex_parse : parse_int64 " -42" = Some (-42)%Z /\ parse_int64 "4 2" = None /\ parse_int64 "+7" = Some 7%Z /\ parse_int64 "" = None.
Proof. repeat split; reflexivity. Qed.
Example C47_ex_program :
  let W := World (fun k => if k =? "print_linewidth" then Some "120" else if k =? "check_fusion" then Some "No" else None)
                 (FYaml (YDict [(Some "print_indent", VInt 4); (Some "print_linewidth", VInt 90)])) FNone in
  let c := g_config (fst (run_all (fun _ => None) W [With [(Some "maxlines_tensors", VInt 3)] [SetOptions [(Some "print_indent", VInt 1)]]; Try [SetOptions [(Some "print_indent", VInt (-1))]]] initial)) in
  (print_linewidth c, print_indent c, maxlines_tensors c, check_fusion c) = (120%Z, 4%Z, 30%Z, false).
Proof. reflexivity. Qed.

Print Assumptions C47_options_stay_within_bounds.
Print Assumptions C47_fusion_tree_eps_is_a_number_refuted.
Print Assumptions C47_set_option.
Print Assumptions C47_update.
Print Assumptions C47_precedence.
Print Assumptions C47_temporary_options.
Print Assumptions C47_temporary_options_failing_enter_refuted.
Print Assumptions C47_invalid_file_ignored_refuted.
