(** Model of get_backend (src/backends/backend_factory.cpp).  Backend objects carry an identity (the address in the code). *)
From Coq Require Import String ZArith List Bool.
From Verif Require Import Util ConfigModel.
Import ListNotations.
Set Implicit Arguments. Unset Strict Implicit.
Open Scope string_scope.

(** what get_backend asks of a Symmetry: is_equivalent_to(NoSymmetry), is_abelian(), has_trivial_braid() *)
Record symmetry_info := SymInfo { is_no_symmetry : bool; is_abelian : bool; has_trivial_braid : bool }.
Inductive backend_kind := NoSymmetryBackend | AbelianBackend | FusionTreeBackend.
(* abelian.cpp:796-800, no_symmetry.cpp:889-896, fusion_tree_backend.cpp:997-1004 *)
Definition supports_symmetry (k : backend_kind) (s : symmetry_info) : bool :=
  match k with NoSymmetryBackend => is_no_symmetry s | AbelianBackend => is_abelian s && has_trivial_braid s | FusionTreeBackend => true end.
(** class and device of the block backend *)
Inductive block_kind := Numpy (device : string) | Torch (device : string).
Record backend := Backend { b_id : nat; b_kind : backend_kind; b_block : block_kind }.

(** first argument: None, a Symmetry, a string, or an object of another type *)
Inductive arg := ANone | ASym (s : symmetry_info) | AStr (s : string) | AOther.
Inductive ferror := FTypeError | FValueError | FNotImplemented | FRuntimeError | FUnavailable.

Section Factory.
  (** is the block backend class usable with the device (torch may not be installed, no GPU, ..)? *)
  Variable available : block_kind -> bool.

  (* backend_factory.cpp:18-37 *)
  Definition make_block_backend (s : string) : block_kind + ferror :=
    let made k := if available k then inl k else inr FUnavailable in
    if (s =? "numpy") || (s =? "cpu") then made (Numpy "cpu")
    else if s =? "torch" then made (Torch "cpu:0")
    else if s =? "gpu" then made (Torch "cuda")
    else if s =? "apple_silicon" then made (Torch "mps")
    else if (s =? "tensorflow") || (s =? "jax") || (s =? "tpu") then inr FNotImplemented
    else inr FValueError.

  (** the cache (a Python dict) and the number of objects created so far *)
  Record fstate := FState { cache : list (string * string * backend); created : nat }.
  Definition lookup (key : string * string) (l : list (string * string * backend)) : option backend :=
    match find (fun p => (fst (fst p) =? fst key) && (snd (fst p) =? snd key)) l with Some p => Some (snd p) | None => None end.

  (* backend_factory.cpp:71-128; [c]: the configuration at the time of the call *)
  Definition get_backend (c : config) (symmetry : arg) (block_backend : option string) (st : fstate) : fstate * (backend + ferror) :=
    let symmetry := match symmetry with ANone => AStr (default_tensor_backend c) | a => a end in
    let bb := match block_backend with None => default_block_backend c | Some b => b end in
    let tb := match symmetry with
              | ASym s => Some (if is_no_symmetry s then "no_symmetry"
                                else if is_abelian s && has_trivial_braid s then "abelian" else "fusion_tree")
              | AStr s => Some s
              | _ => None
              end in
    match tb with
    | None => (st, inr FTypeError)
    | Some tb =>
      match lookup (tb, bb) (cache st) with
      | Some b => (st, inl b)
      | None =>
        match make_block_backend bb with
        | inr e => (st, inr e)
        | inl blk =>
          let kind := if tb =? "no_symmetry" then Some NoSymmetryBackend else if tb =? "abelian" then Some AbelianBackend
                      else if tb =? "fusion_tree" then Some FusionTreeBackend else None in
          match kind with
          | None => (st, inr FValueError)
          | Some k =>
            let b := Backend (created st) k blk in
            let st' := FState (cache st) (S (created st)) in
            if match symmetry with ASym s => negb (supports_symmetry k s) | _ => false end then (st', inr FRuntimeError)
            else (FState (cache st ++ [(tb, bb, b)]) (S (created st)), inl b)
          end
        end
      end
    end.

  (** a call with the configuration in force at that time *)
  Record call := Call { c_config : config; c_symmetry : arg; c_block : option string }.
  Definition do_call (c : call) (st : fstate) := get_backend (c_config c) (c_symmetry c) (c_block c) st.
  (** the results of a history of calls, starting with an empty cache *)
  Fixpoint run_calls (l : list call) (st : fstate) : list (backend + ferror) :=
    match l with [] => [] | c :: r => let (st', x) := do_call c st in x :: run_calls r st' end.
  Definition history (l : list call) : list (backend + ferror) := run_calls l (FState [] 0).
End Factory.
