(* Model of src/block_backend/dtypes.cpp / include/cyten/block_backend/dtypes.h (the enum and its arithmetic). *)
From Coq Require Import List ZArith Lia Bool.
Import ListNotations.
Open Scope Z_scope.

Inductive dtype := DBool | DInt64 | DFloat32 | DComplex64 | DFloat64 | DComplex128.
(* dtypes.h:11-21: the underlying values *)
Definition code (d : dtype) : Z :=
  match d with DBool => 2 | DInt64 => 4 | DFloat32 => 8 | DComplex64 => 9 | DFloat64 => 16 | DComplex128 => 17 end.
Definition of_code (n : Z) : option dtype :=
  if n =? 2 then Some DBool else if n =? 4 then Some DInt64 else if n =? 8 then Some DFloat32
  else if n =? 9 then Some DComplex64 else if n =? 16 then Some DFloat64 else if n =? 17 then Some DComplex128 else None.
(* dtypes.h:25-34 *)
Definition is_real (d : dtype) : bool := code d mod 2 =? 0.
Definition is_complex (d : dtype) : bool := code d mod 2 =? 1.
(* dtypes.cpp:37-47: None is the exception *)
Definition to_complex (d : dtype) : option dtype :=
  match d with
  | DBool | DInt64 => None
  | _ => if code d mod 2 =? 1 then Some d else of_code (code d + 1)
  end.
(* dtypes.cpp:49-59 *)
Definition to_real (d : dtype) : option dtype :=
  match d with
  | DBool | DInt64 => None
  | _ => if code d mod 2 =? 0 then Some d else of_code (code d - 1)
  end.
(* dtypes.cpp:61-75: the number of fraction bits k with eps = 2^-k; None is the exception.  n_bits is a uint8. *)
Definition eps_bits (d : dtype) : option Z :=
  match d with
  | DBool | DInt64 => None
  | _ => let n_bits := (8 * (code d / 2)) mod 256 in
         if n_bits =? 32 then Some 23 else if n_bits =? 64 then Some 52 else None
  end.
(* dtypes.cpp:118-136 *)
Definition common (ds : list dtype) : option dtype :=
  match ds with
  | [] => None
  | d :: _ =>
    let res := fold_left (fun r t => if code r <? code t then t else r) ds d in
    if is_real res && existsb is_complex ds then to_complex res else Some res
  end.
