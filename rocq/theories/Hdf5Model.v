(** Model of cyten/tools/hdf5_io.py: Hdf5Saver and Hdf5Loader for the types None, int, str, the types stored as plain datasets, list, tuple, set, dict, range,
    functions and classes, Hdf5Ignored, and instances of Hdf5Exportable with the default save_hdf5 / from_hdf5.
    Python objects live in a heap; a value is None or the address of an object (its [id]).  An HDF5 file is a list of groups and datasets, addressed by their
    position (the HDF5 object id); position 0 is the root group.  [None] as a result is an exception.
    Simplifications: h5py >= 3.0; the group handed to the saver and loader is the root of the file; the contents of a plain dataset are an opaque string, and
    reading returns what was written; strings are byte strings; sets are lists of elements (which are different, and are not compared again when loading);
    the recursion limit of Python, the arguments [exclude] and [format_selection], numpy dtypes and classes with their own save_hdf5 are left out (for masked
    arrays and objects that fall back to __reduce__ see the end of the file). *)
From Coq Require Import Decimal DecimalString DecimalNat DecimalZ String Ascii List Arith Bool ZArith.
Import ListNotations.
Set Implicit Arguments. Unset Strict Implicit.
Open Scope string_scope. Open Scope list_scope. Open Scope nat_scope.

(** ** Python objects *)
Inductive val := Vnone | Vref (a : nat).
(** the types of TYPES_FOR_HDF5_DATASETS (lines 268-287), except int and str *)
Inductive tag := TArray | TFloat | TBytes | TComplex | TInt64 | TFloat64 | TComplex128 | TInt32 | TFloat32 | TComplex64 | TNpBool | TBool.
Inductive iter := IList | ITuple | ISet.
Inductive gkind := GFunction | GClass.
Inductive node :=
| NData (t : tag) (x : string)
| NInt (z : Z)
| NStr (s : string)
| NIter (k : iter) (vs : list val)
| NDict (kvs : list (val * val))
| NInst (modname qualname : string) (kvs : list (val * val))   (* instance of a class with __dict__ *)
| NRange (start stop step : val)
| NGlobal (k : gkind) (modname qualname : string)
| NIgnored
| NOther.                                                        (* everything else *)
Definition heap := list node.

(** ** HDF5 files *)
Inductive attr := AStr (s : string) | ALen (n : nat).
Inductive data := DStr (s : string) | DInt (z : Z) | DRaw (x : string).
(** [h_data] = None: a group *)
Record hobj := HObj { h_attrs : list (string * attr); h_links : list (string * nat); h_data : option data }.
Definition file := list hobj.
Definition empty_file : file := [HObj [] [] None].
Fixpoint assoc (A : Type) (k : string) (l : list (string * A)) : option A :=
  match l with [] => None | (k', x) :: l => if String.eqb k k' then Some x else assoc k l end.
Definition fupd (A : Type) (l : list A) (i : nat) (g : A -> A) : list A :=
  match nth_error l i with Some x => firstn i l ++ g x :: skipn (S i) l | None => l end.
(* attrs[name] = x *)
Definition set_attr (f : file) (i : nat) (name : string) (x : attr) : file :=
  fupd f i (fun o => HObj ((name, x) :: filter (fun p => negb (String.eqb (fst p) name)) (h_attrs o)) (h_links o) (h_data o)).
Definition get_attr (f : file) (i : nat) (name : string) : option attr := match nth_error f i with Some o => assoc name (h_attrs o) | None => None end.

(** *** paths: the components between slashes; empty components and "." are skipped by the HDF5 library *)
Definition slash : ascii := "/"%char.
Fixpoint split_slash (s : string) : list string :=
  match s with
  | EmptyString => [EmptyString]
  | String c s => if Ascii.eqb c slash then EmptyString :: split_slash s
                  else match split_slash s with h :: t => String c h :: t | [] => [String c EmptyString] end
  end.
Definition components (path : string) : list string := filter (fun c => negb (String.eqb c "" || String.eqb c ".")) (split_slash path).
Fixpoint has_char (c : ascii) (s : string) : bool := match s with EmptyString => false | String d s => Ascii.eqb c d || has_char c s end.
Fixpoint resolve (f : file) (i : nat) (cs : list string) : option nat :=
  match cs with
  | [] => Some i
  | c :: cs => match nth_error f i with Some o => match assoc c (h_links o) with Some j => resolve f j cs | None => None end | None => None end
  end.
(* h5group[path] *)
Definition h5_get (f : file) (path : string) : option nat := resolve f 0 (components path).
(** h5group[path] = ... creates a link; the parent group must exist (h5py would create it; this never happens here) and the name must be new.
    Names with a NUL character are rejected by h5py *)
Definition h5_link (f : file) (path : string) (j : nat) : option file :=
  match rev (components path) with
  | [] => None
  | name :: pre =>
      if has_char zero name then None
      else match resolve f 0 (rev pre) with
      | None => None
      | Some p => match nth_error f p with
                  | Some (HObj _ links None) => match assoc name links with
                                                | Some _ => None
                                                | None => Some (fupd f p (fun o => HObj (h_attrs o) (h_links o ++ [(name, j)]) (h_data o)))
                                                end
                  | _ => None
                  end
      end
  end.
Definition h5_create (f : file) (path : string) (d : option data) : option (file * nat) :=
  match h5_link f path (List.length f) with Some f' => Some (f' ++ [HObj [] [] d], List.length f) | None => None end.

(** ** The format *)
(* str(i) *)
Definition str_nat (n : nat) : string := NilZero.string_of_uint (Nat.to_uint n).
Definition str_int (z : Z) : string := NilZero.string_of_int (Z.to_int z).
Definition int_of_str (s : string) : option Z := match NilZero.int_of_string s with Some d => Some (Z.of_int d) | None => None end.
(* lines 236-262 *)
Definition tag_repr (t : tag) : string :=
  match t with
  | TArray => "array" | TFloat => "float" | TBytes => "bytes" | TComplex => "complex" | TInt64 => "np.int64" | TFloat64 => "np.float64"
  | TComplex128 => "np.complex128" | TInt32 => "np.int32" | TFloat32 => "np.float32" | TComplex64 => "np.complex64" | TNpBool => "bool" | TBool => "bool"
  end.
Definition iter_repr (k : iter) : string := match k with IList => "list" | ITuple => "tuple" | ISet => "set" end.
Definition gkind_repr (k : gkind) : string := match k with GFunction => "function" | GClass => "class" end.
(** dispatch_load (lines 1011-1012): the last entry for a type_repr wins, so "bool" is read as bool *)
Definition all_tags : list tag := [TArray; TFloat; TBytes; TComplex; TInt64; TFloat64; TComplex128; TInt32; TFloat32; TComplex64; TNpBool; TBool].
Definition load_tag (r : string) : option tag := find (fun t => String.eqb (tag_repr t) r) (rev all_tags).
(** lines 298-305: valid_hdf5_path_component (for str arguments) *)
Definition valid_component (s : string) : bool := negb (has_char slash s) && negb (String.eqb s ".").
(** path if path[-1] == '/' else (path + '/') *)
Fixpoint last_char (s : string) : option ascii := match s with EmptyString => None | String c EmptyString => Some c | String _ s => last_char s end.
Definition subpath_of (path : string) : option string :=
  match last_char path with None => None | Some c => Some (if Ascii.eqb c slash then path else (path ++ "/")%string) end.
(** integers h5py can store (64 bit, signed or unsigned) *)
Definition int_fits (z : Z) : bool := ((- 2 ^ 63 <=? z) && (z <? 2 ^ 64))%Z.

(** ** Hdf5Saver *)
Record sstate := SState { s_file : file; s_memo : list (val * nat) }.
Definition val_eqb (v w : val) : bool := match v, w with Vnone, Vnone => true | Vref a, Vref b => a =? b | _, _ => false end.
Fixpoint vassoc (v : val) (l : list (val * nat)) : option nat := match l with [] => None | (w, i) :: l => if val_eqb v w then Some i else vassoc v l end.
(** memorize_save, lines 587-609 (with the assertion) *)
Definition memorize_save (s : sstate) (i : nat) (v : val) : option sstate :=
  match vassoc v (s_memo s) with Some _ => None | None => Some (SState (s_file s) ((v, i) :: s_memo s)) end.
(** the group of create_group_for_obj, lines 579-583 *)
Definition group_at_path (f : file) (path : string) : option (file * nat) :=
  if String.eqb path "/" then match h5_get f path with Some i => Some (f, i) | None => None end else h5_create f path None.
(** create_group_for_obj, lines 550-585.  [v] = None: a temporary object (the views obj.keys(), obj.values()) whose id never occurs again *)
Definition create_group_for_obj (s : sstate) (path : string) (v : option val) : option (sstate * nat * string) :=
  match group_at_path (s_file s) path, subpath_of path with
  | Some (f, i), Some sub =>
      match v with
      | Some v => match memorize_save (SState f (s_memo s)) i v with Some s => Some (s, i, sub) | None => None end
      | None => Some (SState f (s_memo s), i, sub)
      end
  | _, _ => None
  end.
Definition set_attr_s (s : sstate) (i : nat) (name : string) (x : attr) : sstate := SState (set_attr (s_file s) i name x) (s_memo s).
(** a dataset with a type attribute: lines 641-642, 655-656, 793-796 *)
Definition put_dataset (s : sstate) (path : string) (d : data) (attrs : list (string * attr)) : option (sstate * nat) :=
  match h5_create (s_file s) path (Some d) with
  | Some (f, i) => Some (fold_left (fun s a => set_attr_s s i (fst a) (snd a)) attrs (SState f (s_memo s)), i)
  | None => None
  end.
(** h5py stores no strings with NUL characters *)
Definition put_string (s : sstate) (path : string) (x : string) (attrs : list (string * attr)) : option (sstate * nat) :=
  if has_char zero x then None else put_dataset s path (DStr x) attrs.
Definition save_all (f : sstate -> val -> string -> option sstate) (s : sstate) (items : list (val * string)) : option sstate :=
  fold_left (fun so it => match so with Some s => f s (fst it) (snd it) | None => None end) items (Some s).
Definition numbered (sub : string) (vs : list val) : list (val * string) := combine vs (map (fun i => (sub ++ str_nat i)%string) (seq 0 (List.length vs))).
(** save_iterable, save_iterable_content: lines 704-730 *)
Definition save_iterable (f : sstate -> val -> string -> option sstate) (s : sstate) (v : option val) (vs : list val) (path repr : string) : option sstate :=
  match create_group_for_obj s path v with
  | None => None
  | Some (s, i, sub) => save_all f (set_attr_s (set_attr_s s i "type" (AStr repr)) i "len" (ALen (List.length vs))) (numbered sub vs)
  end.
(** lines 768-772; [None] if one of the keys is not simple *)
Fixpoint simple_keys (h : heap) (kvs : list (val * val)) : option (list (string * val)) :=
  match kvs with
  | [] => Some []
  | (Vref a, v) :: kvs =>
      match nth_error h a with
      | Some (NStr k) => if valid_component k then match simple_keys h kvs with Some l => Some ((k, v) :: l) | None => None end else None
      | _ => None
      end
  | (Vnone, _) :: _ => None
  end.
(** save_dict_content: lines 741-784; the result is the format *)
Definition save_dict_content (h : heap) (f : sstate -> val -> string -> option sstate) (s : sstate) (kvs : list (val * val)) (sub : string) : option (sstate * string) :=
  match simple_keys h kvs with
  | Some items => match save_all f s (map (fun kv => (snd kv, (sub ++ fst kv)%string)) items) with Some s => Some (s, "simple_dict") | None => None end
  | None =>
      match save_iterable f s None (map fst kvs) (sub ++ "keys")%string "list" with
      | None => None
      | Some s => match save_iterable f s None (map snd kvs) (sub ++ "values")%string "list" with
                  | Some s => Some (s, "dict")
                  | None => None
                  end
      end
  end.
(** find_global(module, qualname) finds the object (in the process that saves / loads) *)
Section Saver.
  Variables (known : string -> string -> bool) (h : heap).
  (** save: lines 490-548.  [fuel] bounds the depth of the recursion *)
  Fixpoint save (fuel : nat) (s : sstate) (v : val) (path : string) {struct fuel} : option sstate :=
    match fuel with
    | 0 => None
    | S fuel =>
      match vassoc v (s_memo s) with
      | Some j => match h5_link (s_file s) path j with Some f => Some (SState f (s_memo s)) | None => None end
      | None =>
        let memo so := match so with Some (s, i) => memorize_save s i v | None => None end in
        match v with
        | Vnone => (* save_none: 637-643 *) memo (put_dataset s path (DStr "None") [("type", AStr "None")])
        | Vref a =>
          match nth_error h a with
          | None => None
          | Some (NData t x) => (* save_dataset: 647-663 *) memo (put_dataset s path (DRaw x) [("type", AStr (tag_repr t))])
          | Some (NStr x) => memo (put_string s path x [("type", AStr "str")])
          | Some (NInt z) =>
              if int_fits z then memo (put_dataset s path (DInt z) [("type", AStr "int")])
              else (* [obj] is replaced by str(obj): what is memorized is that string *)
                match put_dataset s path (DStr (str_int z)) [("type", AStr "int_as_str")] with Some (s, _) => Some s | None => None end
          | Some (NIter k vs) => save_iterable (save fuel) s (Some v) vs path (iter_repr k)
          | Some (NDict kvs) => (* save_dict: 732-737 *)
              match create_group_for_obj s path (Some v) with
              | None => None
              | Some (s, i, sub) =>
                  match save_dict_content h (save fuel) s kvs sub with Some (s, repr) => Some (set_attr_s s i "type" (AStr repr)) | None => None end
              end
          | Some (NInst m q kvs) => (* lines 521-530 and 366-367 *)
              match create_group_for_obj s path (Some v) with
              | None => None
              | Some (s, i, sub) =>
                  let s := set_attr_s (set_attr_s (set_attr_s s i "type" (AStr "instance")) i "class" (AStr q)) i "module" (AStr m) in
                  match save_dict_content h (save fuel) s kvs sub with Some (s, repr) => Some (set_attr_s s i "format" (AStr repr)) | None => None end
              end
          | Some (NRange x y z) => (* save_range: 786-793 *)
              match create_group_for_obj s path (Some v) with
              | None => None
              | Some (s, i, sub) => save_all (save fuel) (set_attr_s s i "type" (AStr "range")) [(x, (sub ++ "start")%string); (y, (sub ++ "stop")%string); (z, (sub ++ "step")%string)]
              end
          | Some (NGlobal k m q) => (* save_global: 825-846 *)
              if known m q then memo (put_string s path (q ++ " in " ++ m)%string [("type", AStr (gkind_repr k)); ("class", AStr q); ("module", AStr m)]) else None
          | Some NIgnored => (* save_ignored: 819-821 *) Some s
          | Some NOther => None
          end
        end
      end
    end.
  (** save_to_hdf5: lines 1257-1279 *)
  Definition save_to_hdf5 (f : file) (v : val) (path : string) : option file :=
    match save (List.length h + 2) (SState f []) v path with Some s => Some (s_file s) | None => None end.
End Saver.

(** ** Hdf5Loader *)
Record lstate := LState { l_heap : heap; l_memo : list (nat * val) }.
Fixpoint nassoc (i : nat) (l : list (nat * val)) : option val := match l with [] => None | (j, v) :: l => if i =? j then Some v else nassoc i l end.
(** memorize_load, lines 950-962: setdefault *)
Definition memorize_load (l : lstate) (i : nat) (v : val) : lstate :=
  match nassoc i (l_memo l) with Some _ => l | None => LState (l_heap l) ((i, v) :: l_memo l) end.
Definition alloc (l : lstate) (n : node) : lstate * val := (LState (l_heap l ++ [n]) (l_memo l), Vref (List.length (l_heap l))).
Definition contents (l : lstate) (v : val) : list val := match v with Vref b => match nth_error (l_heap l) b with Some (NIter _ vs) => vs | _ => [] end | Vnone => [] end.
(* obj.append(x), obj.add(x), obj[k] = v, obj.update *)
Definition put_elem (l : lstate) (v : val) (x : val) : lstate :=
  match v with Vref b => LState (fupd (l_heap l) b (fun n => match n with NIter k vs => NIter k (vs ++ [x]) | n => n end)) (l_memo l) | Vnone => l end.
Definition put_items (l : lstate) (v : val) (kvs : list (val * val)) : lstate :=
  match v with
  | Vref b => LState (fupd (l_heap l) b (fun n => match n with NDict l => NDict (l ++ kvs) | NInst m q l => NInst m q (l ++ kvs) | n => n end)) (l_memo l)
  | Vnone => l
  end.
Definition items_of (l : lstate) (v : val) : list (val * val) := match v with Vref b => match nth_error (l_heap l) b with Some (NDict kvs) => kvs | _ => [] end | Vnone => [] end.
(** the loop of load_list, load_set, load_tuple *)
Definition load_elems (f : lstate -> string -> option (lstate * val)) (l : lstate) (v : val) (n : nat) (sub : string) : option lstate :=
  fold_left (fun lo i => match lo with
                         | Some l => match f l (sub ++ str_nat i)%string with Some (l, x) => Some (put_elem l v x) | None => None end
                         | None => None
                         end) (seq 0 n) (Some l).
(** load_list (1052-1060), load_set (1064-1072), load_tuple (1076-1094) *)
Definition load_iter (F : file) (f : lstate -> string -> option (lstate * val)) (k : iter) (l : lstate) (i : nat) (sub : string) : option (lstate * val) :=
  let '(l, v) := alloc l (NIter (match k with ISet => ISet | _ => IList end) []) in
  let l := memorize_load l i v in
  match get_attr F i "len" with
  | Some (ALen n) =>
      match load_elems f l v n sub with
      | None => None
      | Some l =>
          match k with
          | ITuple => let '(l, w) := alloc l (NIter ITuple (contents l v)) in Some (LState (l_heap l) ((i, w) :: l_memo l), w)
          | _ => Some (l, v)
          end
      end
  | _ => None
  end.
(** load_dict: 1098-1104, load_general_dict: 1106-1113, load_simple_dict: 1117-1124; [order]: the order in which h5gr.keys() lists the names *)
Definition load_dict (order : list string -> list string) (F : file) (f : lstate -> string -> option (lstate * val)) (fmt : string) (l : lstate) (i : nat) (sub : string)
  : option (lstate * val) :=
  if String.eqb fmt "dict" then
    let '(l, v) := alloc l (NDict []) in
    let l := memorize_load l i v in
    match resolve F i ["keys"], resolve F i ["values"] with
    | Some ik, Some iv =>
        match load_iter F f IList l ik (sub ++ "keys/")%string with
        | None => None
        | Some (l, ks) =>
            match load_iter F f IList l iv (sub ++ "values/")%string with
            | None => None
            | Some (l, vs) => Some (put_items l v (combine (contents l ks) (contents l vs)), v)
            end
        end
    | _, _ => None
    end
  else if String.eqb fmt "simple_dict" then
    let '(l, v) := alloc l (NDict []) in
    let l := memorize_load l i v in
    match nth_error F i with
    | Some o =>
        match fold_left (fun lo k => match lo with
                                     | Some l => match f l (sub ++ k)%string with
                                                 | Some (l, x) => let '(l, kv) := alloc l (NStr k) in Some (put_items l v [(kv, x)])
                                                 | None => None
                                                 end
                                     | None => None
                                     end) (order (map fst (h_links o))) (Some l) with
        | Some l => Some (l, v)
        | None => None
        end
    | None => None
    end
  else None.
Section Loader.
  Variables (order : list string -> list string) (known : string -> string -> bool) (F : file).
  Definition load_leaf (l : lstate) (i : nat) (n : node) : option (lstate * val) := let '(l, v) := alloc l n in Some (memorize_load l i v, v).
  Definition data_of (i : nat) : option data := match nth_error F i with Some o => h_data o | None => None end.
  (** load: lines 907-948, with the functions of dispatch_load *)
  Fixpoint load (fuel : nat) (l : lstate) (path : string) {struct fuel} : option (lstate * val) :=
    match fuel with
    | 0 => None
    | S fuel =>
      match h5_get F path, subpath_of path with
      | Some i, Some sub =>
        match nassoc i (l_memo l) with
        | Some (Vref b) => Some (l, Vref b)
        | _ =>
          match get_attr F i "type" with
          | Some (AStr r) =>
            if String.eqb r "None" then (* 1000-1004 *) Some (memorize_load l i Vnone, Vnone)
            else if String.eqb r "str" then (* 1026-1032 *) match data_of i with Some (DStr x) => load_leaf l i (NStr x) | _ => None end
            else if String.eqb r "int" then (* 1011-1020 *) match data_of i with Some (DInt z) => load_leaf l i (NInt z) | _ => None end
            else if String.eqb r "int_as_str" then (* 1037-1045 *)
              match data_of i with Some (DStr x) => match int_of_str x with Some z => load_leaf l i (NInt z) | None => None end | _ => None end
            else if String.eqb r "list" then load_iter F (load fuel) IList l i sub
            else if String.eqb r "set" then load_iter F (load fuel) ISet l i sub
            else if String.eqb r "tuple" then load_iter F (load fuel) ITuple l i sub
            else if String.eqb r "dict" then load_dict order F (load fuel) "dict" l i sub
            else if String.eqb r "simple_dict" then load_dict order F (load fuel) "simple_dict" l i sub
            else if String.eqb r "range" then (* 1128-1135 *)
              match load fuel l (sub ++ "start")%string with
              | None => None
              | Some (l, x) => match load fuel l (sub ++ "stop")%string with
                | None => None
                | Some (l, y) => match load fuel l (sub ++ "step")%string with
                  | None => None
                  | Some (l, z) => load_leaf l i (NRange x y z)
                  end end end
            else if String.eqb r "instance" then (* 1151-1165 and 398-405 *)
              match get_attr F i "module", get_attr F i "class" with
              | Some (AStr m), Some (AStr q) =>
                  if known m q then
                    match get_attr F i "format" with
                    | Some (AStr fmt) =>
                        let '(l, v) := alloc l (NInst m q []) in
                        let l := memorize_load l i v in
                        match load_dict order F (load fuel) fmt l i sub with
                        | Some (l, d) => Some (put_items l v (items_of l d), v)
                        | None => None
                        end
                    | _ => None
                    end
                  else (* not memorized *) Some (alloc l NIgnored)
              | _, _ => None
              end
            else if String.eqb r "ignore" then (* 1169-1171 *) Some (alloc l NIgnored)
            else if String.eqb r "function" || String.eqb r "class" then (* 1175-1190 *)
              match get_attr F i "module", get_attr F i "class" with
              | Some (AStr m), Some (AStr q) =>
                  if known m q then load_leaf l i (NGlobal (if String.eqb r "function" then GFunction else GClass) m q) else Some (alloc l NIgnored)
              | _, _ => None
              end
            else match load_tag r with Some t => match data_of i with Some (DRaw x) => load_leaf l i (NData t x) | _ => None end | None => None end
          | _ => None
          end
        end
      | _, _ => None
      end
    end.
  (** load_from_hdf5: lines 1282-1310 *)
  Definition load_from_hdf5 (path : string) : option (heap * val) :=
    match load (List.length F + 2) (LState [] []) path with Some (l, v) => Some (l_heap l, v) | None => None end.
End Loader.

(** ** Masked arrays (lines 666-688 and 1046-1058).  A masked array is a list of elements with their masks, and a fill value; [eqb] compares elements
    (arrays with NaN are left out).  A scalar mask (np.ma.nomask) is the array of False. *)
Section Masked.
  Variables (T : Type) (eqb : T -> T -> bool).
  Record marray := MArray { m_elems : list (T * bool); m_fill : T }.
  (* obj.filled() *)
  Definition filled (m : marray) : list T := map (fun p : T * bool => if snd p then m_fill m else fst p) (m_elems m).
  Inductive mstored := SavedMask (data : list T) (mask : list bool) (fill : T) | SavedFilled (data : list T) (fill : T).
  Definition save_masked_array (m : marray) : mstored :=
    if existsb (fun p => Bool.eqb (eqb (fst p) (m_fill m)) (snd p)) (combine (filled m) (map snd (m_elems m)))
    then SavedMask (map fst (m_elems m)) (map snd (m_elems m)) (m_fill m)
    else SavedFilled (filled m) (m_fill m).
  Definition load_masked_array (s : mstored) : marray :=
    match s with
    | SavedMask data mask fill => MArray (combine data mask) fill
    | SavedFilled data fill => (* np.ma.masked_equal *) MArray (map (fun x => (x, eqb x fill)) data) fill
    end.
End Masked.

(** ** The fallback to obj.__reduce__() (save_reduce, lines 612-628; load_reduce, lines 1211-1250): the entries of the group, and what load_reduce does with 'listitems'
    ([elements]: the elements of an iterable object, None if it is not iterable; an absent entry adds nothing).  Python's None is [Vnone] *)
Record reduced := Reduced { r_func : val; r_args : val; r_state : val; r_listitems : val; r_dictitems : val; r_setter : val }.
Definition is_none (v : val) : bool := match v with Vnone => true | _ => false end.
Definition save_reduce (r : reduced) : list (string * val) :=
  [("func"%string, r_func r); ("args"%string, r_args r)] ++ (if is_none (r_state r) then [] else [("state"%string, r_state r)]) ++
  (if is_none (r_listitems r) then [] else [("listitems"%string, r_state r)]) ++ (if is_none (r_dictitems r) then [] else [("dictitems"%string, r_state r)]) ++
  (if is_none (r_setter r) then [] else [("state_setter"%string, r_state r)]).
Definition appended (elements : val -> option (list val)) (group : list (string * val)) : option (list val) :=
  match assoc "listitems"%string group with Some v => elements v | None => Some [] end.
