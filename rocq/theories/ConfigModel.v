(** Model of the global configuration (src/config.cpp, include/cyten/config.h, pybind/py_config.cpp). *)
From Coq Require Import String Ascii ZArith QArith List Bool.
From Verif Require Import Util.
Import ListNotations.
Set Implicit Arguments. Unset Strict Implicit.
Open Scope string_scope.

(** float64 values: a finite number (its exact rational value), an infinity or NaN; [flt_neg]: the comparison [value < 0.0] *)
Inductive flt := Fnum (q : Q) | Finf (negative : bool) | Fnan.
Definition flt_neg (f : flt) : bool :=
  match f with Fnum q => negb (Qle_bool 0 q) | Finf n => n | Fnan => false end.

(* config.h:15-28 *)
Record config := Config {
  print_linewidth : Z; print_indent : Z; maxlines_spaces : Z; maxlines_tensors : Z;
  check_fusion : bool; default_tensor_backend : string; default_block_backend : string; fusion_tree_eps : flt }.
Definition default_config : config := Config 100 2 15 30 true "abelian" "numpy" (Fnum (5 # 100000000000000)).

(** the exceptions *)
Inductive error := ValueError | TypeError | KeyError | CastError.
(* config.cpp:165-173 *)
Definition all_option_keys : list string :=
  ["print_linewidth"; "print_indent"; "maxlines_spaces"; "maxlines_tensors"; "check_fusion"; "default_tensor_backend";
   "default_block_backend"; "fusion_tree_eps"].
Definition is_key (k : string) : bool := existsb (String.eqb k) all_option_keys.

Definition lower (a : ascii) : ascii :=
  let n := nat_of_ascii a in if (65 <=? n)%nat && (n <=? 90)%nat then ascii_of_nat (n + 32) else a.
Fixpoint lower_string (s : string) : string := match s with EmptyString => EmptyString | String a r => String (lower a) (lower_string r) end.
(* config.cpp:30-37 *)
Definition coerce_bool (s : string) : bool :=
  let l := lower_string s in (l =? "true") || (l =? "1") || (l =? "y") || (l =? "yes").

(** config.cpp:39-52: std::stoll followed by the test that the whole string was consumed *)
Definition digit (a : ascii) : option Z :=
  let n := nat_of_ascii a in if (48 <=? n)%nat && (n <=? 57)%nat then Some (Z.of_nat (n - 48)) else None.
(* isspace in the C locale *)
Definition is_space (a : ascii) : bool := let n := nat_of_ascii a in (n =? 32)%nat || ((9 <=? n)%nat && (n <=? 13)%nat).
Fixpoint skip_spaces (s : string) : string :=
  match s with String a r => if is_space a then skip_spaces r else s | EmptyString => s end.
Fixpoint digits (acc : Z) (s : string) : option Z :=
  match s with
  | EmptyString => Some acc
  | String a r => match digit a with Some d => digits (10 * acc + d) r | None => None end
  end.
Definition digits1 (s : string) : option Z := match s with EmptyString => None | _ => digits 0 s end.
Definition in_int64 (z : Z) : bool := (- 2 ^ 63 <=? z)%Z && (z <? 2 ^ 63)%Z.
Definition parse_int64 (s : string) : option Z :=
  let v := match skip_spaces s with
           | String a r => if (nat_of_ascii a =? 45)%nat then match digits1 r with Some z => Some (- z)%Z | None => None end
                           else if (nat_of_ascii a =? 43)%nat then digits1 r else digits1 (String a r)
           | EmptyString => None
           end in
  match v with Some z => if in_int64 z then Some z else None | None => None end.

(** Python values passed to update; [VOther s]: any other object, with s = str(value) *)
Inductive pyval := VBool (b : bool) | VInt (z : Z) | VFloat (f : flt) | VStr (s : string) | VOther (s : string).

Section Config.
  (** std::stod of the C library, [None] if it throws or does not consume the whole string *)
  Variable stod : string -> option flt.

  Definition result := (config * option error)%type.
  Definition ok (c : config) : result := (c, None).
  Definition raise (c : config) (e : error) : result := (c, Some e).

  (* config.cpp:69-87 *)
  Definition check_min (v m : Z) (c c' : config) : result := if (v <? m)%Z then raise c ValueError else ok c'.

  (* config.cpp:207-220 *)
  Definition set_float (k : string) (v : flt) (c : config) : result :=
    if k =? "fusion_tree_eps" then
      if flt_neg v then raise c ValueError
      else ok (Config (print_linewidth c) (print_indent c) (maxlines_spaces c) (maxlines_tensors c) (check_fusion c)
                      (default_tensor_backend c) (default_block_backend c) v)
    else if is_key k then raise c TypeError else raise c KeyError.
  (* config.cpp:182-205 *)
  Definition set_int (k : string) (v : Z) (c : config) : result :=
    if k =? "print_linewidth" then
      check_min v 10 c (Config v (print_indent c) (maxlines_spaces c) (maxlines_tensors c) (check_fusion c)
                               (default_tensor_backend c) (default_block_backend c) (fusion_tree_eps c))
    else if k =? "print_indent" then
      check_min v 0 c (Config (print_linewidth c) v (maxlines_spaces c) (maxlines_tensors c) (check_fusion c)
                              (default_tensor_backend c) (default_block_backend c) (fusion_tree_eps c))
    else if k =? "maxlines_spaces" then
      check_min v 0 c (Config (print_linewidth c) (print_indent c) v (maxlines_tensors c) (check_fusion c)
                              (default_tensor_backend c) (default_block_backend c) (fusion_tree_eps c))
    else if k =? "maxlines_tensors" then
      check_min v 0 c (Config (print_linewidth c) (print_indent c) (maxlines_spaces c) v (check_fusion c)
                              (default_tensor_backend c) (default_block_backend c) (fusion_tree_eps c))
    else if k =? "fusion_tree_eps" then set_float k (Fnum (inject_Z v)) c
    else if is_key k then raise c TypeError else raise c KeyError.
  (* config.cpp:222-232 *)
  Definition set_bool (k : string) (v : bool) (c : config) : result :=
    if k =? "check_fusion" then
      ok (Config (print_linewidth c) (print_indent c) (maxlines_spaces c) (maxlines_tensors c) v
                 (default_tensor_backend c) (default_block_backend c) (fusion_tree_eps c))
    else if is_key k then raise c TypeError else raise c KeyError.
  (* config.cpp:234-262 *)
  Definition tensor_backends : list string := ["no_symmetry"; "abelian"; "fusion_tree"].
  Definition block_backends : list string := ["numpy"; "torch"; "cpu"; "gpu"; "apple_silicon"].
  Definition set_string (k v : string) (c : config) : result :=
    if (k =? "print_linewidth") || (k =? "print_indent") || (k =? "maxlines_spaces") || (k =? "maxlines_tensors") then
      match parse_int64 v with Some z => set_int k z c | None => raise c ValueError end
    else if k =? "check_fusion" then set_bool k (coerce_bool v) c
    else if k =? "fusion_tree_eps" then
      match stod v with Some f => set_float k f c | None => raise c ValueError end
    else if k =? "default_tensor_backend" then
      if existsb (String.eqb v) tensor_backends
      then ok (Config (print_linewidth c) (print_indent c) (maxlines_spaces c) (maxlines_tensors c) (check_fusion c)
                      v (default_block_backend c) (fusion_tree_eps c))
      else raise c ValueError
    else if k =? "default_block_backend" then
      if existsb (String.eqb v) block_backends
      then ok (Config (print_linewidth c) (print_indent c) (maxlines_spaces c) (maxlines_tensors c) (check_fusion c)
                      (default_tensor_backend c) v (fusion_tree_eps c))
      else raise c ValueError
    else raise c KeyError.
  (* config.cpp:267-283: the dispatch on the Python type *)
  Definition set_value (k : string) (v : pyval) (c : config) : result :=
    match v with
    | VBool b => set_bool k b c
    | VInt z => if in_int64 z then set_int k z c else raise c CastError
    | VFloat f => set_float k f c
    | VStr s => set_string k s c
    | VOther s => set_string k s c
    end.
  (* config.cpp:264-284; a key that is not a string makes py::cast throw: [None] *)
  Fixpoint update (options : list (option string * pyval)) (c : config) : result :=
    match options with
    | [] => ok c
    | (None, _) :: _ => raise c CastError
    | (Some k, v) :: rest => match set_value k v c with
                             | (c', None) => update rest c'
                             | (c', Some e) => raise c' e
                             end
    end.
  (* config.cpp:292-311: errors become warnings *)
  Definition update_from_env (env : string -> option string) (c : config) : config :=
    fold_left (fun c k => match env k with None => c | Some v => fst (set_string k v c) end) all_option_keys c.
  (** what yaml.safe_load returns *)
  Inductive yaml := YNone | YDict (options : list (option string * pyval)) | YOther | YError.
  (* config.cpp:313-323 *)
  Definition update_from_yaml (y : yaml) (c : config) : result :=
    match y with YNone => ok c | YDict d => update d c | YOther => raise c TypeError | YError => raise c ValueError end.
  (** a configuration file: absent, unreadable, or its parsed contents; [FBadOverride]: CYTEN_CONFIG_FILE names a missing file *)
  Inductive file := FNone | FBadOverride | FUnreadable | FYaml (y : yaml).
  (* config.cpp:325-340 *)
  Definition update_from_file (f : file) (c : config) : result :=
    match f with FNone | FBadOverride => ok c | FUnreadable => raise c ValueError | FYaml y => update_from_yaml y c end.
  (* config.cpp:144-157: errors become warnings *)
  Definition try_update_from_file (f : file) (c : config) : config := fst (update_from_file f c).
  (** the surroundings: environment variables and files *)
  Record world := World { env : string -> option string; user_file : file; local_file : file }.

  (** the global state: _global_config and g_config_initialized *)
  Record gstate := GState { g_config : config; g_init : bool }.
  Definition initial : gstate := GState default_config false.
  (* config.cpp:466-480; resolve_user_config_path throws outside of the try block *)
  Definition restore_defaults (W : world) (use_user use_local use_env : bool) (g : gstate) : gstate * option error :=
    let c := default_config in
    match use_user, user_file W with
    | true, FBadOverride => (GState c (g_init g), Some ValueError)
    | _, _ =>
      let c := if use_user then try_update_from_file (user_file W) c else c in
      let c := if use_local then try_update_from_file (local_file W) c else c in
      let c := if use_env then update_from_env (env W) c else c in
      (GState c true, None)
    end.
  (* config.cpp:403-409 *)
  Definition get_config (W : world) (g : gstate) : gstate * option error :=
    if g_init g then (g, None) else restore_defaults W true true true g.
  (* config.cpp:442-456, py_config.cpp:112-125 *)
  Definition set_options (W : world) (options : list (option string * pyval)) (g : gstate) : gstate * option error :=
    match get_config W g with
    | (g, Some e) => (g, Some e)
    | (g, None) => let (c, e) := update options (g_config g) in (GState c (g_init g), e)
    end.

  (** temporary_options (py_config.cpp:10-41): a context manager object *)
  Record temp := Temp { t_saved : config; t_options : list (option string * pyval); t_entered : bool }.
  Definition new_temp (options : list (option string * pyval)) : temp := Temp default_config options false.
  Definition temp_enter (W : world) (t : temp) (g : gstate) : gstate * temp * option error :=
    match (if t_entered t then (g, None) else get_config W g) with
    | (g, Some e) => (g, t, Some e)
    | (g, None) =>
      let saved := if t_entered t then t_saved t else g_config g in
      match update (t_options t) (g_config g) with
      | (c, Some e) => (GState c (g_init g), Temp saved (t_options t) (t_entered t), Some e)
      | (c, None) => (GState c (g_init g), Temp saved (t_options t) true, None)
      end
    end.
  Definition temp_exit (t : temp) (g : gstate) : gstate * temp :=
    if t_entered t then (GState (t_saved t) (g_init g), Temp (t_saved t) (t_options t) false) else (g, t).

  (** Programs: everything a user can do to the configuration.  [With opts body]: a with-block over temporary_options; an
      exception in the body runs __exit__ and propagates, an exception in __enter__ propagates without __exit__. *)
  Inductive cmd :=
  | SetOptions (options : list (option string * pyval))
  | RestoreDefaults (use_user use_local use_env : bool)
  | GetConfig
  | Try (body : list cmd)
  | With (options : list (option string * pyval)) (body : list cmd).
  Fixpoint run (W : world) (c : cmd) (g : gstate) {struct c} : gstate * option error :=
    let fix run_all (l : list cmd) (g : gstate) {struct l} : gstate * option error :=
      match l with
      | [] => (g, None)
      | c :: r => match run W c g with (g, None) => run_all r g | (g, Some e) => (g, Some e) end
      end in
    match c with
    | SetOptions o => set_options W o g
    | RestoreDefaults a b d => restore_defaults W a b d g
    | GetConfig => get_config W g
    | Try body => (fst (run_all body g), None)
    | With o body =>
      match temp_enter W (new_temp o) g with
      | (g, _, Some e) => (g, Some e)
      | (g, t, None) => let (g', e) := run_all body g in (fst (temp_exit t g'), e)
      end
    end.
  Fixpoint run_all (W : world) (l : list cmd) (g : gstate) : gstate * option error :=
    match l with
    | [] => (g, None)
    | c :: r => match run W c g with (g, None) => run_all W r g | (g, Some e) => (g, Some e) end
    end.

  (* config.cpp:342-364 *)
  Inductive optval := OInt (z : Z) | OBool (b : bool) | OStr (s : string) | OFloat (f : flt).
  Definition get_option (c : config) (k : string) : option optval :=
    if k =? "print_linewidth" then Some (OInt (print_linewidth c))
    else if k =? "print_indent" then Some (OInt (print_indent c))
    else if k =? "maxlines_spaces" then Some (OInt (maxlines_spaces c))
    else if k =? "maxlines_tensors" then Some (OInt (maxlines_tensors c))
    else if k =? "check_fusion" then Some (OBool (check_fusion c))
    else if k =? "default_tensor_backend" then Some (OStr (default_tensor_backend c))
    else if k =? "default_block_backend" then Some (OStr (default_block_backend c))
    else if k =? "fusion_tree_eps" then Some (OFloat (fusion_tree_eps c))
    else None.
End Config.
